(** Facts about the Eulerian cycle of src/solvers/approximate/christofides.rs. *)
From Coq Require Import ZArith Arith Bool List Permutation Lia.
From Verif Require Import Num Base Data Mst Par Mem Rand MstPar Matching Christofides Spec SpecFacts PrimProofs.
Import ListNotations.

(** ** Sums *)
Lemma list_sum_map_add {A} (f g : A -> nat) l : list_sum (map (fun x => f x + g x) l) = list_sum (map f l) + list_sum (map g l).
Proof. induction l as [|x l IH]; [reflexivity|]. cbn. cbn in IH. unfold list_sum in *. cbn. lia. Qed.
Lemma list_sum_ext {A} (f g : A -> nat) l : (forall x, In x l -> f x = g x) -> list_sum (map f l) = list_sum (map g l).
Proof. intros H. f_equal. apply map_ext_in. assumption. Qed.
Lemma list_sum_indicator n b : b < n -> list_sum (map (fun j => if b =? j then 1 else 0) (seq 0 n)) = 1.
Proof.
  intros Hb. assert (H : forall k m, list_sum (map (fun j => if b =? j then 1 else 0) (seq k m)) = if (k <=? b) && (b <? k + m) then 1 else 0).
  { intros k m. revert k. induction m as [|m IH]; intros k.
    - cbn [seq map]. destruct (Nat.leb_spec k b); destruct (Nat.ltb_spec b (k + 0)); cbn [andb]; try reflexivity; lia.
    - cbn [seq map]. unfold list_sum in *. cbn [fold_right]. rewrite IH.
      destruct (Nat.eqb_spec b k), (Nat.leb_spec (S k) b), (Nat.leb_spec k b), (Nat.ltb_spec b (S k + m)), (Nat.ltb_spec b (k + S m)); cbn [andb]; lia. }
  rewrite H. cbn [Nat.leb plus andb]. apply Nat.ltb_lt in Hb. rewrite Hb. reflexivity.
Qed.
Lemma list_sum_zero l : list_sum l = 0 -> forall x, In x l -> x = 0.
Proof. unfold list_sum. induction l as [|a l IH]; cbn; intros H x Hx; [destruct Hx|]. destruct Hx as [<-|Hx]; [lia|]. apply IH; [lia|assumption]. Qed.
Lemma list_sum_0 {A} (l : list A) (f : A -> nat) : (forall x, In x l -> f x = 0) -> list_sum (map f l) = 0.
Proof. unfold list_sum. induction l as [|a l IH]; cbn; intros H; [reflexivity|]. rewrite H by (left; reflexivity). apply IH. intros; apply H; right; assumption. Qed.
Lemma list_sum_app' a b : list_sum (a ++ b) = list_sum a + list_sum b.
Proof. unfold list_sum. induction a; cbn; lia. Qed.
Lemma list_sum_upd l i x : i < length l -> list_sum (upd l i x) + nth i l 0 = list_sum l + x.
Proof. unfold list_sum. revert i. induction l as [|a l IH]; intros [|i] H; cbn in *; try lia. specialize (IH i ltac:(lia)). lia. Qed.

(** ** Traversals *)
Lemma traversals_sym p i j : traversals p i j = traversals p j i.
Proof. induction p as [|a [|b t] IH]; [reflexivity..|]. cbn [traversals] in *. rewrite IH. lia. Qed.
Lemma traversals_cons a b t i j : traversals (a :: b :: t) i j =
  (if (a =? i) && (b =? j) then 1 else 0) + (if (a =? j) && (b =? i) then 1 else 0) + traversals (b :: t) i j.
Proof. reflexivity. Qed.
Lemma traversals_app p a q i j : traversals (p ++ a :: q) i j = traversals (p ++ [a]) i j + traversals (a :: q) i j.
Proof.
  induction p as [|x p IH]; [reflexivity|]. destruct p as [|y p].
  - cbn [app]. rewrite !traversals_cons. cbn [traversals]. lia.
  - cbn [app] in *. rewrite !traversals_cons, IH. lia.
Qed.
Lemma traversals_splice a v c b i j : traversals (a ++ (v :: c) ++ v :: b) i j = traversals (a ++ v :: b) i j + traversals ((v :: c) ++ [v]) i j.
Proof.
  cbn [app]. rewrite (traversals_app a v (c ++ v :: b)), (traversals_app a v b).
  pose proof (traversals_app (v :: c) v b i j) as H. cbn [app] in H. lia.
Qed.
Lemma traversals_In p i j : traversals p i j <> 0 -> In i p /\ In j p.
Proof.
  induction p as [|a [|b t] IH]; [cbn; congruence..|]. rewrite traversals_cons. intros H.
  destruct (Nat.eqb_spec a i), (Nat.eqb_spec b j), (Nat.eqb_spec a j), (Nat.eqb_spec b i); subst; cbn [andb] in H; cbn; auto;
    try (destruct IH as [H1 H2]; [lia|]; cbn in H1, H2; tauto).
Qed.

Definition ind (b : bool) : nat := if b then 1 else 0.

(** the handshake of a walk *)
Lemma walk_degree n p i : p <> [] -> (forall x, In x p -> x < n) -> i < n ->
  degree n (traversals p) i + ind (hd 0 p =? i) + ind (last p 0 =? i) = 2 * count_occ Nat.eq_dec p i.
Proof.
  intros Hne Hr Hi. induction p as [|a [|b t] IH]; [congruence|..].
  - unfold degree. rewrite list_sum_0 by reflexivity. cbn. unfold ind. destruct (Nat.eqb_spec a i); destruct (Nat.eq_dec a i); lia.
  - specialize (IH ltac:(discriminate) (fun x Hx => Hr x (or_intror Hx))).
    assert (Ha : a < n) by (apply Hr; left; reflexivity). assert (Hb : b < n) by (apply Hr; right; left; reflexivity).
    assert (E : degree n (traversals (a :: b :: t)) i = ind (a =? i) + ind (b =? i) + degree n (traversals (b :: t)) i).
    { unfold degree. rewrite (list_sum_ext (traversals (a :: b :: t) i)
        (fun j => (ind (a =? i) * ind (b =? j) + ind (b =? i) * ind (a =? j)) + traversals (b :: t) i j)).
      2:{ intros j _. rewrite traversals_cons. unfold ind. destruct (a =? i), (b =? j), (a =? j), (b =? i); cbn; lia. }
      rewrite !list_sum_map_add.
      assert (Hmul : forall k c, c < n -> list_sum (map (fun j => k * ind (c =? j)) (seq 0 n)) = k).
      { intros k c Hc. transitivity (k * list_sum (map (fun j => if c =? j then 1 else 0) (seq 0 n))).
        - generalize (seq 0 n). unfold list_sum, ind. clear. intros l. induction l as [|x l IH]; cbn [map fold_right]; [lia|]. rewrite IH. lia.
        - rewrite list_sum_indicator by assumption. lia. }
      rewrite !Hmul by assumption. reflexivity. }
    rewrite E. cbn [hd]. change (last (a :: b :: t) 0) with (last (b :: t) 0). cbn [hd] in IH.
    change (count_occ Nat.eq_dec (a :: b :: t) i) with (if Nat.eq_dec a i then S (count_occ Nat.eq_dec (b :: t) i) else count_occ Nat.eq_dec (b :: t) i).
    unfold ind in *. destruct (Nat.eqb_spec a i); destruct (Nat.eq_dec a i); try lia.
Qed.

(** ** The cells of the multigraph *)
Section Cells.
Context {N : Num}.
Implicit Types g : multigraph N.

Definition mg_wf g : Prop := length (mg_cells g) = mg_dim g * mg_dim g.
Definition cell g (i j : nat) : C N * nat := nth (j * mg_dim g + i) (mg_cells g) (c0, 0).
Definition cnt g (i j : nat) : nat := snd (cell g i j).

Lemma mg_cell_Ok g i j : mg_wf g -> i < mg_dim g -> j < mg_dim g -> mg_cell g i j = Ok (cell g i j).
Proof.
  intros Hwf Hi Hj. unfold mg_cell. apply Nat.ltb_lt in Hi as Hi'. apply Nat.ltb_lt in Hj as Hj'. rewrite Hi', Hj'. cbn [andb].
  apply nth_res_nth. rewrite Hwf. apply cell_bound; assumption.
Qed.

Lemma off_inj n i j a b : i < n -> j < n -> a < n -> b < n -> j * n + i = b * n + a -> i = a /\ j = b.
Proof. intros. assert (j = b) by nia. subst. split; [lia|reflexivity]. Qed.

Lemma mg_modify_Ok g a b f : mg_wf g -> a < mg_dim g -> b < mg_dim g ->
  exists g', mg_modify g a b f = Ok g' /\ mg_dim g' = mg_dim g /\ mg_wf g' /\
    forall i j, i < mg_dim g -> j < mg_dim g -> cell g' i j = if (i =? a) && (j =? b) then f (cell g a b) else cell g i j.
Proof.
  intros Hwf Ha Hb. unfold mg_modify. apply Nat.ltb_lt in Ha as Ha'. apply Nat.ltb_lt in Hb as Hb'. rewrite Ha', Hb'. cbn [andb].
  assert (Hlt : b * mg_dim g + a < length (mg_cells g)) by (rewrite Hwf; apply cell_bound; assumption).
  rewrite (modify_res_Ok _ _ _ (c0, 0)) by assumption.
  cbn [bind]. eexists. split; [reflexivity|]. split; [reflexivity|]. split; [unfold mg_wf; cbn; rewrite upd_length; assumption|].
  intros i j Hi Hj. unfold cell. cbn [mg_dim mg_cells].
  destruct (Nat.eqb_spec i a) as [->|Hne]; destruct (Nat.eqb_spec j b) as [->|Hne']; cbn [andb].
  - apply nth_upd_eq. assumption.
  - apply nth_upd_neq. intros E. destruct (off_inj (mg_dim g) a b a j Ha Hb Hi Hj E); congruence.
  - apply nth_upd_neq. intros E. destruct (off_inj (mg_dim g) a b i b Ha Hb Hi Hj E); congruence.
  - apply nth_upd_neq. intros E. destruct (off_inj (mg_dim g) a b i j Ha Hb Hi Hj E); congruence.
Qed.

Lemma take_one_Ok g a b : mg_wf g -> a < mg_dim g -> b < mg_dim g -> cnt g a b <> 0 ->
  exists g', take_one g a b = Ok g' /\ mg_dim g' = mg_dim g /\ mg_wf g' /\
    forall i j, i < mg_dim g -> j < mg_dim g -> cnt g i j = cnt g' i j + ind ((a =? i) && (b =? j)).
Proof.
  intros Hwf Ha Hb Hc. unfold take_one. rewrite mg_cell_Ok by assumption. cbn [bind]. fold (cnt g a b).
  destruct (cnt g a b) as [|t] eqn:Et; [congruence|].
  destruct (mg_modify_Ok g a b (fun c => (fst c, t)) Hwf Ha Hb) as (g' & E & Hd & Hwf' & Hcell).
  exists g'. split; [assumption|]. split; [assumption|]. split; [assumption|]. intros i j Hi Hj. unfold cnt at 2. rewrite Hcell by assumption.
  rewrite (Nat.eqb_sym a i), (Nat.eqb_sym b j).
  destruct (Nat.eqb_spec i a) as [->|]; destruct (Nat.eqb_spec j b) as [->|]; cbn [andb ind snd]; unfold cnt in *; lia.
Qed.

Lemma mg_row_Ok g i : mg_wf g -> i < mg_dim g -> mg_row g i = Ok (map (cnt g i) (seq 0 (mg_dim g))).
Proof.
  intros Hwf Hi. unfold mg_row. apply Nat.ltb_lt in Hi as Hi'. rewrite Hi'. apply mapM_Ok. intros j Hj. apply in_seq in Hj.
  rewrite mg_cell_Ok by (assumption || lia). reflexivity.
Qed.

Lemma first_neighbour_spec row :
  match first_neighbour row with
  | None => forall j, j < length row -> nth j row 0 = 0
  | Some j => j < length row /\ nth j row 0 <> 0
  end.
Proof.
  unfold first_neighbour. destruct (find _ _) as [[j t]|] eqn:Ef; cbn [option_map fst].
  - apply find_some in Ef. destruct Ef as [Hin Ht]. cbn [snd] in Ht.
    assert (H : forall k r, In (j, t) (combine (seq k (length r)) r) -> k <= j < k + length r /\ nth (j - k) r 0 = t).
    { clear. intros k r. revert k. induction r as [|x r IH]; intros k H; [destruct H|]. cbn in H. destruct H as [H|H].
      - injection H as -> ->. rewrite Nat.sub_diag. cbn. split; [lia|reflexivity].
      - destruct (IH (S k) H) as [H1 H2]. cbn [length]. split; [lia|]. replace (j - k) with (S (j - S k)) by lia. exact H2. }
    destruct (H 0 row Hin) as [H1 H2]. rewrite Nat.sub_0_r in H2. split; [lia|]. rewrite H2.
    destruct (Nat.eqb_spec t 0); [discriminate|assumption].
  - intros j Hj. pose proof (find_none _ _ Ef (j, nth j row 0)) as H. cbn [snd] in H.
    assert (Hin : In (j, nth j row 0) (combine (seq 0 (length row)) row)).
    { replace (j, nth j row 0) with (nth j (combine (seq 0 (length row)) row) (0, 0)).
      - apply nth_In. rewrite combine_length, seq_length. lia.
      - rewrite combine_nth by (rewrite seq_length; reflexivity). rewrite seq_nth by assumption. reflexivity. }
    specialize (H Hin). destruct (Nat.eqb_spec (nth j row 0) 0); [assumption|discriminate].
Qed.

(** ** The invariant of the walk *)
Definition mg_ok g (deg : list nat) : Prop :=
  mg_wf g /\ length deg = mg_dim g /\
  (forall i j, i < mg_dim g -> j < mg_dim g -> cnt g i j = cnt g j i) /\
  (forall i, i < mg_dim g -> Nat.Even (cnt g i i)) /\
  (forall i, i < mg_dim g -> nth i deg 0 = degree (mg_dim g) (cnt g) i).

Lemma dec_degree_Ok deg v : v < length deg -> nth v deg 0 <> 0 -> dec_degree deg v = Ok (upd deg v (nth v deg 0 - 1)).
Proof.
  intros Hv Hd. unfold dec_degree. rewrite (nth_res_nth _ _ 0) by assumption. cbn [bind].
  destruct (nth v deg 0); [congruence|]. cbn [Nat.sub]. rewrite Nat.sub_0_r. reflexivity.
Qed.

Lemma degree_cell n G i j : j < n -> G i j <= degree n G i.
Proof.
  intros Hj. unfold degree. assert (Hin : In j (seq 0 n)) by (apply in_seq; lia). revert Hin. generalize (seq 0 n).
  unfold list_sum. induction l as [|x l IH]; cbn; [intros []|]. intros [->|H]; [lia|]. specialize (IH H). lia.
Qed.

(** two steps of a count: an edge is removed *)
Lemma take_edge g deg v u : mg_ok g deg -> v < mg_dim g -> u < mg_dim g -> cnt g v u <> 0 ->
  exists g1 g2 deg1 deg2, take_one g v u = Ok g1 /\ take_one g1 u v = Ok g2 /\ dec_degree deg v = Ok deg1 /\ dec_degree deg1 u = Ok deg2 /\
    mg_dim g2 = mg_dim g /\ mg_ok g2 deg2 /\ list_sum deg = list_sum deg2 + 2 /\
    (forall i j, i < mg_dim g -> j < mg_dim g -> cnt g i j = cnt g2 i j + traversals [v; u] i j).
Proof.
  intros (Hwf & Hl & Hs & He & Hd) Hv Hu Hc.
  destruct (take_one_Ok g v u Hwf Hv Hu Hc) as (g1 & E1 & D1 & W1 & C1).
  assert (Hc1 : cnt g1 u v <> 0).
  { specialize (C1 u v Hu Hv). destruct (Nat.eqb_spec v u) as [->|Hne]; cbn [andb ind] in C1.
    - rewrite Nat.eqb_refl in C1. cbn [ind] in C1. destruct (He u Hu) as [k Hk]. lia.
    - rewrite <- (Hs v u) in C1 by assumption. lia. }
  destruct (take_one_Ok g1 u v W1 ltac:(lia) ltac:(lia) Hc1) as (g2 & E2 & D2 & W2 & C2).
  assert (C : forall i j, i < mg_dim g -> j < mg_dim g -> cnt g i j = cnt g2 i j + traversals [v; u] i j).
  { intros i j Hi Hj. rewrite C1, C2 by lia. cbn [traversals]. unfold ind. rewrite (andb_comm (u =? i) (v =? j)). lia. }
  assert (Cdeg : forall i, i < mg_dim g -> degree (mg_dim g) (cnt g) i = degree (mg_dim g) (cnt g2) i + (ind (v =? i) + ind (u =? i))).
  { intros i Hi. pose proof (walk_degree (mg_dim g) [v; u] i ltac:(discriminate)) as HW. cbn [hd last] in HW.
    assert (HW' : degree (mg_dim g) (traversals [v; u]) i + ind (v =? i) + ind (u =? i) = 2 * count_occ Nat.eq_dec [v; u] i).
    { apply HW; [intros x [<-|[<-|[]]]; assumption|assumption]. }
    assert (Hcount : count_occ Nat.eq_dec [v; u] i = ind (v =? i) + ind (u =? i)).
    { cbn. unfold ind. destruct (Nat.eq_dec v i), (Nat.eqb_spec v i), (Nat.eq_dec u i), (Nat.eqb_spec u i); lia. }
    rewrite Hcount in HW'. unfold degree in *.
    rewrite (list_sum_ext (cnt g i) (fun j => cnt g2 i j + traversals [v; u] i j)) by (intros j Hj; apply in_seq in Hj; apply C; [assumption|lia]).
    rewrite list_sum_map_add. lia. }
  assert (Hdv : nth v deg 0 <> 0).
  { rewrite Hd by assumption. pose proof (degree_cell (mg_dim g) (cnt g) v u Hu). lia. }
  rewrite <- Hl in Hv, Hu. pose proof (dec_degree_Ok deg v Hv Hdv) as E3. rewrite Hl in Hv, Hu.
  set (deg1 := upd deg v (nth v deg 0 - 1)) in *.
  assert (Hdu : nth u deg1 0 <> 0).
  { unfold deg1. destruct (Nat.eq_dec v u) as [<-|Hne].
    - rewrite nth_upd_eq by lia. rewrite Hd by assumption. rewrite Cdeg by assumption. rewrite Nat.eqb_refl. cbn [ind]. lia.
    - rewrite nth_upd_neq by assumption. rewrite Hd by assumption. pose proof (degree_cell (mg_dim g) (cnt g) u v Hv). rewrite Hs in H by assumption. lia. }
  assert (Hl1 : length deg1 = mg_dim g) by (unfold deg1; rewrite upd_length; assumption).
  rewrite <- Hl1 in Hu. pose proof (dec_degree_Ok deg1 u Hu Hdu) as E4. rewrite Hl1 in Hu.
  set (deg2 := upd deg1 u (nth u deg1 0 - 1)) in *.
  exists g1, g2, deg1, deg2. split; [assumption|]. split; [assumption|]. split; [assumption|]. split; [assumption|].
  assert (D : mg_dim g2 = mg_dim g) by lia. split; [assumption|]. split; [|split; [|assumption]].
  - unfold mg_ok. rewrite D. split; [assumption|]. split; [unfold deg2; rewrite upd_length; assumption|]. split; [|split].
    + intros i j Hi Hj. pose proof (C i j Hi Hj). pose proof (C j i Hj Hi). rewrite (traversals_sym [v; u] j i) in *. rewrite (Hs i j) in * by assumption. lia.
    + intros i Hi. pose proof (C i i Hi Hi) as Hci. cbn [traversals] in Hci. destruct (He i Hi) as [k Hk].
      destruct ((v =? i) && (u =? i)); [exists (k - 1)|exists k]; lia.
    + intros i Hi. unfold deg2, deg1 in *.
      destruct (Nat.eq_dec u i) as [<-|Hui].
      * rewrite nth_upd_eq by lia. destruct (Nat.eq_dec v u) as [<-|Hvu].
        -- rewrite nth_upd_eq by lia. rewrite Hd by assumption. rewrite Cdeg by assumption. rewrite Nat.eqb_refl. cbn [ind]. lia.
        -- rewrite nth_upd_neq by assumption. rewrite Hd by assumption. rewrite Cdeg by assumption. rewrite Nat.eqb_refl.
           apply Nat.eqb_neq in Hvu. rewrite Hvu. cbn [ind]. lia.
      * rewrite nth_upd_neq by assumption. destruct (Nat.eq_dec v i) as [<-|Hvi].
        -- rewrite nth_upd_eq by lia. rewrite Hd by assumption. rewrite Cdeg by assumption. rewrite Nat.eqb_refl.
           apply Nat.eqb_neq in Hui. rewrite Hui. cbn [ind]. lia.
        -- rewrite nth_upd_neq by assumption. rewrite Hd by assumption. rewrite Cdeg by assumption.
           apply Nat.eqb_neq in Hui, Hvi. rewrite Hui, Hvi. cbn [ind]. lia.
  - pose proof (list_sum_upd deg v (nth v deg 0 - 1) ltac:(lia)) as S1. pose proof (list_sum_upd deg1 u (nth u deg1 0 - 1) ltac:(lia)) as S2.
    fold deg1 in S1. fold deg2 in S2. lia.
Qed.

Lemma find_cycle_loop_spec : forall fuel v g deg cyc, mg_ok g deg -> v < mg_dim g -> list_sum deg < fuel ->
  exists c g' deg', find_cycle_loop fuel v g deg cyc = Ok (cyc ++ c, g', deg') /\
    mg_dim g' = mg_dim g /\ mg_ok g' deg' /\ (forall x, In x c -> x < mg_dim g) /\
    (forall i j, i < mg_dim g -> j < mg_dim g -> cnt g i j = cnt g' i j + traversals (v :: c) i j) /\
    nth (last (v :: c) 0) deg' 0 = 0 /\ list_sum deg = list_sum deg' + 2 * length c.
Proof.
  induction fuel as [|fuel IH]; intros v g deg cyc Hok Hv Hf; [lia|].
  pose proof Hok as (Hwf & Hl & Hs & He & Hd).
  cbn [find_cycle_loop]. rewrite mg_row_Ok by assumption. cbn [bind].
  pose proof (first_neighbour_spec (map (cnt g v) (seq 0 (mg_dim g)))) as Hfn.
  rewrite map_length, seq_length in Hfn.
  assert (Hnth : forall j, j < mg_dim g -> nth j (map (cnt g v) (seq 0 (mg_dim g))) 0 = cnt g v j).
  { intros j Hj. rewrite (nth_indep _ 0 (cnt g v 0)) by (rewrite map_length, seq_length; assumption).
    rewrite map_nth, seq_nth by assumption. reflexivity. }
  destruct (first_neighbour _) as [u|].
  - destruct Hfn as [Hu Hc]. rewrite Hnth in Hc by assumption.
    destruct (take_edge g deg v u Hok Hv Hu Hc) as (g1 & g2 & deg1 & deg2 & E1 & E2 & E3 & E4 & D & Hok2 & Hsum & C).
    rewrite E1. cbn [bind]. rewrite E2. cbn [bind]. rewrite E3. cbn [bind]. rewrite E4. cbn [bind].
    destruct (IH u g2 deg2 (cyc ++ [u]) Hok2 ltac:(lia) ltac:(lia)) as (c & g' & deg' & E & D' & Hok' & Hc' & Cc & Hla & Hsum').
    exists (u :: c), g', deg'. rewrite E, <- app_assoc. split; [reflexivity|]. split; [lia|]. split; [assumption|]. split.
    { intros x [<-|Hx]; [assumption|]. rewrite <- D. apply Hc'. assumption. }
    split; [|split; [exact Hla|cbn [length]; lia]].
    intros i j Hi Hj. rewrite C by assumption. rewrite Cc by lia. rewrite traversals_cons. cbn [traversals]. lia.
  - exists [], g, deg. rewrite app_nil_r. split; [reflexivity|]. split; [reflexivity|]. split; [assumption|]. split; [intros x []|].
    split; [intros; cbn; lia|]. split; [|cbn; lia]. cbn [last]. rewrite Hd by assumption.
    unfold degree. apply list_sum_0. intros j Hj. apply in_seq in Hj. rewrite <- Hnth by lia. apply Hfn. lia.
Qed.

Lemma find_unfinished_spec deg : forall cyc idx, (forall v, In v cyc -> v < length deg) ->
  exists r, find_unfinished deg idx cyc = Ok r /\
  match r with
  | None => forall v, In v cyc -> nth v deg 0 = 0
  | Some (k, v) => exists a b, cyc = a ++ v :: b /\ k = idx + length a /\ nth v deg 0 <> 0
  end.
Proof.
  induction cyc as [|v cyc IH]; intros idx Hr.
  - exists None. split; [reflexivity|]. intros v [].
  - cbn [find_unfinished]. rewrite (nth_res_nth _ _ 0) by (apply Hr; left; reflexivity). cbn [bind].
    destruct (Nat.eqb_spec (nth v deg 0) 0) as [E|E].
    + destruct (IH (S idx) (fun x Hx => Hr x (or_intror Hx))) as (r & Er & H). exists r. split; [assumption|].
      destruct r as [[k u]|].
      * destruct H as (a & b & -> & -> & Hn). exists (v :: a), b. cbn. split; [reflexivity|]. split; [lia|assumption].
      * intros x [<-|Hx]; auto.
    + exists (Some (idx, v)). split; [reflexivity|]. exists [], cyc. cbn. split; [reflexivity|]. split; [lia|assumption].
Qed.

(** ** The Eulerian cycle, for any multigraph *)
(** [used i j] collects the edges used so far; they lie inside the cycle. *)
Lemma euler_loop_spec : forall fuel cf g deg cyc, mg_ok g deg -> list_sum deg < fuel -> list_sum deg < cf ->
  (forall v, In v cyc -> v < mg_dim g) -> cyc <> [] ->
  exists p, euler_loop fuel cf g deg cyc = Ok p /\ hd 0 p = hd 0 cyc /\ incl cyc p /\ (forall v, In v p -> v < mg_dim g) /\
    (forall i j, i < mg_dim g -> j < mg_dim g -> In i p -> cnt g i j <> 0 -> In j p) /\
    ((forall i, i < mg_dim g -> Nat.Even (degree (mg_dim g) (cnt g) i)) ->
      last p 0 = last cyc 0 /\
      exists left, (forall i j, i < mg_dim g -> j < mg_dim g -> traversals cyc i j + cnt g i j = traversals p i j + left i j) /\
        forall i j, i < mg_dim g -> j < mg_dim g -> In i p -> left i j = 0).
Proof.
  induction fuel as [|fuel IH]; intros cf g deg cyc Hok Hf Hcf Hr Hne; [lia|].
  pose proof Hok as (Hwf & Hl & Hs & He & Hd).
  cbn [euler_loop]. destruct (find_unfinished_spec deg cyc 0) as (r & Er & Hr'); [intros v Hv; rewrite Hl; auto|].
  rewrite Er. cbn [bind]. destruct r as [[k v]|].
  - destruct Hr' as (a & b & Ecyc & -> & Hdv). cbn [plus].
    assert (Hv : v < mg_dim g) by (apply Hr; rewrite Ecyc; apply in_elt).
    unfold find_cycle. destruct (find_cycle_loop_spec cf v g deg [v] Hok Hv Hcf) as (c & g' & deg' & E & D & Hok' & Hc & C & Hla & Hsum).
    rewrite E. cbn [bind app tl].
    assert (Hcne : c <> []).
    { intros ->. cbn [last] in Hla. cbn [length] in Hsum.
      pose proof Hok' as (_ & _ & _ & _ & Hd'). rewrite Hd' in Hla by lia. rewrite Hd in Hdv by assumption. apply Hdv.
      rewrite <- Hla, D. unfold degree. apply list_sum_ext. intros j Hj. apply in_seq in Hj. rewrite C by lia. cbn [traversals]. lia. }
    assert (Hlen : 0 < length c) by (destruct c; [congruence|cbn; lia]).
    assert (Enew : firstn (length a + 1) cyc ++ c ++ skipn (length a + 1) cyc = a ++ (v :: c) ++ b).
    { rewrite Ecyc. rewrite firstn_app, skipn_app.
      rewrite firstn_all2 by lia. rewrite skipn_all2 by lia. replace (length a + 1 - length a) with 1 by lia. cbn [firstn skipn app].
      rewrite <- app_assoc. reflexivity. }
    rewrite Enew. set (cyc' := a ++ (v :: c) ++ b) in *.
    destruct (IH cf g' deg' cyc' Hok' ltac:(lia) ltac:(lia)) as (p & Ep & Hh & Hincl & Hp & Hclo & Heven).
    { intros x Hx. rewrite D. unfold cyc' in Hx. apply in_app_or in Hx. destruct Hx as [Hx|Hx]; [apply Hr; rewrite Ecyc; apply in_or_app; auto|].
      apply in_app_or in Hx. destruct Hx as [[<-|Hx]|Hx]; [assumption|auto|apply Hr; rewrite Ecyc; apply in_or_app; right; right; assumption]. }
    { unfold cyc'. destruct a; discriminate. }
    assert (Hvc : forall x, In x (v :: c) -> In x p).
    { intros x Hx. apply Hincl. unfold cyc'. apply in_or_app. right. apply in_or_app. auto. }
    exists p. split; [assumption|]. split; [rewrite Hh, Ecyc; unfold cyc'; destruct a; reflexivity|]. split; [|split; [|split]].
    + intros x Hx. apply Hincl. rewrite Ecyc in Hx. unfold cyc'. apply in_app_or in Hx. apply in_or_app. destruct Hx as [Hx|[<-|Hx]]; [auto|right; left; reflexivity|right; apply in_or_app; auto].
    + intros x Hx. rewrite <- D. auto.
    + intros i j Hi Hj Hin Hcij. rewrite C in Hcij by assumption.
      destruct (Nat.eq_dec (traversals (v :: c) i j) 0) as [E0|E0].
      * apply (Hclo i j); try assumption; lia.
      * apply Hvc. apply (traversals_In _ _ _ E0).
    + intros Hev.
      assert (Hwd : forall i, i < mg_dim g -> degree (mg_dim g) (cnt g) i = degree (mg_dim g) (cnt g') i + degree (mg_dim g) (traversals (v :: c)) i).
      { intros i Hi. unfold degree. rewrite <- list_sum_map_add. apply list_sum_ext. intros j Hj. apply in_seq in Hj. apply C; lia. }
      assert (Hrc : forall x, In x (v :: c) -> x < mg_dim g) by (intros x [<-|Hx]; auto).
      set (e := last (v :: c) 0) in *.
      assert (He' : e < mg_dim g) by (apply Hrc, last_In; discriminate).
      assert (Hclosed : e = v).
      { pose proof (walk_degree (mg_dim g) (v :: c) e ltac:(discriminate) Hrc He') as HW. cbn [hd] in HW. fold e in HW. rewrite Nat.eqb_refl in HW. cbn [ind] in HW.
        destruct (Hev e He') as [h Hh']. rewrite Hwd in Hh' by assumption.
        pose proof Hok' as (_ & _ & _ & _ & Hd'). rewrite D in Hd'. rewrite <- Hd' in Hh' by assumption. rewrite Hla in Hh'.
        destruct (Nat.eqb_spec v e) as [Heq|Hne']; [symmetry; exact Heq|]. cbn [ind] in HW. lia. }
      assert (Hev' : forall i, i < mg_dim g' -> Nat.Even (degree (mg_dim g') (cnt g') i)).
      { rewrite D. intros i Hi. pose proof (walk_degree (mg_dim g) (v :: c) i ltac:(discriminate) Hrc Hi) as HW. cbn [hd] in HW. fold e in HW. rewrite Hclosed in HW.
        destruct (Hev i Hi) as [h Hh']. rewrite Hwd in Hh' by assumption.
        exists (h + ind (v =? i) - count_occ Nat.eq_dec (v :: c) i). unfold ind in *. destruct (v =? i); lia. }
      destruct (Heven Hev') as (Hlast & left & Hbal & Hleft). rewrite D in Hbal, Hleft.
      assert (Ec : exists c0, v :: c = c0 ++ [v]).
      { exists (removelast (v :: c)). pose proof (app_removelast_last 0 (l := v :: c) ltac:(discriminate)) as H. fold e in H. rewrite Hclosed in H. exact H. }
      destruct Ec as (c1 & Ec1).
      split.
      * rewrite Hlast. unfold cyc'. rewrite Ecyc. destruct b as [|y b].
        -- rewrite app_nil_r, Ec1, app_assoc, !last_last. reflexivity.
        -- assert (forall q, last (q ++ y :: b) 0 = last (y :: b) 0) as Hq.
           { clear. induction q as [|x q IH]; [reflexivity|]. cbn [app]. rewrite <- IH. destruct q; reflexivity. }
           rewrite app_assoc. rewrite Hq. symmetry. change (v :: y :: b) with ([v] ++ y :: b). rewrite app_assoc. apply Hq.
      * exists left. split; [|assumption]. intros i j Hi Hj. rewrite <- Hbal by assumption. rewrite C by assumption.
        assert (Et : traversals cyc' i j = traversals cyc i j + traversals (v :: c) i j); [|lia].
        unfold cyc'. rewrite Ecyc, Ec1. rewrite <- app_assoc. cbn [app].
        destruct c1 as [|z c1]; [cbn [app traversals]; lia|].
        cbn [app] in Ec1. injection Ec1 as <- Ec1. apply traversals_splice.
  - exists cyc. split; [reflexivity|]. split; [reflexivity|]. split; [apply incl_refl|]. split; [assumption|].
    assert (H0 : forall i j, i < mg_dim g -> j < mg_dim g -> In i cyc -> cnt g i j = 0).
    { intros i j Hi Hj Hin. specialize (Hr' i Hin). rewrite Hd in Hr' by assumption. pose proof (degree_cell (mg_dim g) (cnt g) i j Hj). lia. }
    split.
    + intros i j Hi Hj Hin Hc. exfalso. apply Hc, H0; assumption.
    + intros _. split; [reflexivity|]. exists (cnt g). split; [reflexivity|]. assumption.
Qed.

Lemma column_degrees_Ok g : mg_wf g -> column_degrees g = Ok (map (fun j => list_sum (map (fun i => cnt g i j) (seq 0 (mg_dim g)))) (seq 0 (mg_dim g))).
Proof.
  intros Hwf. unfold column_degrees. apply mapM_Ok. intros j Hj. apply in_seq in Hj.
  rewrite (mapM_Ok _ (fun i => cnt g i j)); [reflexivity|]. intros i Hi. apply in_seq in Hi. rewrite mg_cell_Ok by (assumption || lia). reflexivity.
Qed.

(** For every symmetric multigraph (loops counted twice) whose vertices are all reached from
    0 the cycle starts at 0 and visits every vertex; if all degrees are even it is a closed
    walk that uses every edge exactly as often as it occurs. *)
Theorem eulerian_cycle_spec g : mg_wf g -> 1 <= mg_dim g ->
  (forall i j, i < mg_dim g -> j < mg_dim g -> cnt g i j = cnt g j i) ->
  (forall i, i < mg_dim g -> Nat.Even (cnt g i i)) ->
  connected (mg_dim g) (cnt g) ->
  exists p, eulerian_cycle g = Ok p /\ hd 0 p = 0 /\ p <> [] /\ (forall v, In v p <-> v < mg_dim g) /\
    ((forall i, i < mg_dim g -> Nat.Even (degree (mg_dim g) (cnt g) i)) ->
      last p 0 = 0 /\ forall i j, i < mg_dim g -> j < mg_dim g -> traversals p i j = cnt g i j).
Proof.
  intros Hwf Hn Hs He Hcon. unfold eulerian_cycle. rewrite column_degrees_Ok by assumption. cbn [bind].
  set (deg := map _ (seq 0 (mg_dim g))).
  assert (Hok : mg_ok g deg).
  { split; [assumption|]. split; [unfold deg; rewrite map_length, seq_length; reflexivity|]. split; [assumption|]. split; [assumption|].
    intros i Hi. unfold deg. set (f := fun j => list_sum (map (fun i => cnt g i j) (seq 0 (mg_dim g)))).
    rewrite (nth_indep _ 0 (f 0)) by (rewrite map_length, seq_length; assumption). rewrite map_nth, seq_nth by assumption. cbn [plus]. unfold f, degree.
    apply list_sum_ext. intros j Hj. apply in_seq in Hj. apply Hs; lia. }
  destruct (euler_loop_spec (S (list_sum deg)) (S (list_sum deg)) g deg [0] Hok ltac:(lia) ltac:(lia)) as (p & E & Hh & Hincl & Hp & Hclo & Hev).
  { intros v [<-|[]]. lia. }
  { discriminate. }
  assert (Hall : forall v, v < mg_dim g -> In v p).
  { intros v Hv. specialize (Hcon v Hv). clear Hv. induction Hcon as [|u v Hu IH Hv Hc].
    - apply Hincl. left; reflexivity.
    - apply (Hclo u v); auto. }
  exists p. split; [exact E|]. split; [exact Hh|]. split; [intros ->; apply (Hall 0 ltac:(lia))|]. split; [intros v; split; auto|].
  intros Heven. destruct (Hev Heven) as (Hl & left & Hbal & Hleft). split; [exact Hl|].
  intros i j Hi Hj. pose proof (Hbal i j Hi Hj) as Hb. cbn [traversals] in Hb. rewrite (Hleft i j) in Hb by auto. lia.
Qed.
End Cells.
