(** Renaming the vertices of an instance. *)
From Coq Require Import ZArith Arith Bool List Permutation Lia.
From Verif Require Import Spec SpecFacts RenameSpec.
Import ListNotations.

Section Rename.
Context (n : nat) (f : nat -> nat) (Hf : renaming n f).

Lemma ren_lt i : i < n -> f i < n.
Proof.
  intros H. assert (Hi : In (f i) (seq 0 n)) by (apply (Permutation_in _ Hf), in_map, in_seq; lia). apply in_seq in Hi. lia.
Qed.

Lemma ren_inj i j : i < n -> j < n -> f i = f j -> i = j.
Proof.
  intros Hi Hj E. assert (Hn : NoDup (map f (seq 0 n))) by (apply (Permutation_NoDup (Permutation_sym Hf)), seq_NoDup).
  assert (H : nth i (map f (seq 0 n)) 0 = nth j (map f (seq 0 n)) 0).
  { rewrite !(nth_indep _ 0 (f 0)) by (rewrite map_length, seq_length; lia). rewrite !map_nth, !seq_nth by lia. exact E. }
  apply (proj1 (NoDup_nth (map f (seq 0 n)) 0) Hn) in H; rewrite ?map_length, ?seq_length; assumption.
Qed.

(** the name an old vertex gets *)
Definition back (j : nat) : nat := match find (fun i => f i =? j) (seq 0 n) with Some i => i | None => 0 end.

Lemma back_spec j : j < n -> back j < n /\ f (back j) = j.
Proof.
  intros Hj. assert (H : In j (map f (seq 0 n))) by (apply (Permutation_in _ (Permutation_sym Hf)), in_seq; lia).
  apply in_map_iff in H. destruct H as (i & E & Hi). unfold back. destruct (find (fun i => f i =? j) (seq 0 n)) as [k|] eqn:Ek.
  - apply find_some in Ek. destruct Ek as [Hk Ek]. apply in_seq in Hk. apply Nat.eqb_eq in Ek. split; [lia|assumption].
  - pose proof (find_none _ _ Ek i Hi) as Hn. cbn in Hn. rewrite E, Nat.eqb_refl in Hn. discriminate.
Qed.

Lemma back_f i : i < n -> back (f i) = i.
Proof. intros Hi. destruct (back_spec (f i) (ren_lt i Hi)) as [H1 H2]. apply ren_inj; assumption. Qed.

Lemma back_inj i j : i < n -> j < n -> back i = back j -> i = j.
Proof. intros Hi Hj E. rewrite <- (proj2 (back_spec i Hi)), <- (proj2 (back_spec j Hj)), E. reflexivity. Qed.

(** ** Tours *)
Lemma map_tour (h : nat -> nat) p : (forall i, i < n -> h i < n) -> (forall i j, i < n -> j < n -> h i = h j -> i = j) -> is_tour n p -> is_tour n (map h p).
Proof.
  intros Hl Hi Hp. pose proof (Permutation_length Hp) as Hlen. rewrite seq_length in Hlen.
  assert (Hin : forall v, In v p -> v < n) by (intros v Hv; apply (Permutation_in v Hp), in_seq in Hv; lia).
  assert (Hnd : NoDup p) by (apply (Permutation_NoDup (Permutation_sym Hp)), seq_NoDup).
  assert (Hnd' : NoDup (map h p)).
  { clear Hlen Hp. induction p as [|a p IH]; [constructor|]. cbn [map]. inversion Hnd as [|? ? Ha Hp]; subst. constructor.
    - intros H. apply in_map_iff in H. destruct H as (b & E & Hb). apply Hi in E; [subst; contradiction|apply Hin; right; assumption|apply Hin; left; reflexivity].
    - apply IH; [intros v Hv; apply Hin; right; assumption|assumption]. }
  apply NoDup_Permutation_bis; [assumption|rewrite seq_length, map_length; lia|]. intros v Hv. apply in_map_iff in Hv. destruct Hv as (u & <- & Hu).
  apply in_seq. specialize (Hl u (Hin u Hu)). lia.
Qed.

Lemma tour_forth p : is_tour n p -> is_tour n (map f p).
Proof. apply map_tour; [exact ren_lt|exact ren_inj]. Qed.
Lemma tour_back p : is_tour n p -> is_tour n (map back p).
Proof. apply map_tour; [intros i Hi; apply back_spec, Hi|exact back_inj]. Qed.

Lemma map_f_back p : (forall v, In v p -> v < n) -> map f (map back p) = p.
Proof. intros H. rewrite map_map. rewrite <- (map_id p) at 2. apply map_ext_in. intros v Hv. apply back_spec, H, Hv. Qed.

Lemma path_renamed w p : path_cost (renamed w f) p = path_cost w (map f p).
Proof. induction p as [|a p IH]; [reflexivity|]. destruct p as [|b p]; [reflexivity|]. cbn [path_cost map] in *. rewrite IH. reflexivity. Qed.
Lemma last_map (p : list nat) : forall a, last (map f p) (f a) = f (last p a).
Proof. induction p as [|b p IH]; intros a; [reflexivity|]. destruct p as [|c p]; [reflexivity|]. cbn [map] in *. change (last (f c :: map f p) (f a) = f (last (c :: p) a)). apply (IH a). Qed.
Lemma tour_renamed w p : tour_cost (renamed w f) p = tour_cost w (map f p).
Proof.
  destruct p as [|a p]; [reflexivity|]. unfold tour_cost. rewrite path_renamed. cbn [map]. f_equal. unfold renamed. f_equal. symmetry. apply (last_map (a :: p) a).
Qed.

Lemma optimal_renamed w c c' p q : is_optimal w n c p -> is_optimal (renamed w f) n c' q -> c = c' /\ is_optimal w n c (map f q).
Proof.
  intros (Hp & Ep & Mp) (Hq & Eq & Mq). assert (E : c = c').
  { apply Z.le_antisymm.
    - rewrite <- Eq, tour_renamed. apply Mp, tour_forth, Hq.
    - rewrite <- Ep. assert (Hv : forall v, In v p -> v < n) by (intros v Hv; apply (Permutation_in v Hp), in_seq in Hv; lia).
      rewrite <- (map_f_back p Hv), <- tour_renamed. apply Mq, tour_back, Hp. }
  split; [assumption|]. split; [apply tour_forth, Hq|]. split; [rewrite <- tour_renamed; congruence|assumption].
Qed.

(** ** Trees *)
Definition both (h : nat -> nat) (e : nat * nat) : nat * nat := (h (fst e), h (snd e)).

Lemma joined_map (h : nat -> nat) E a b : joined E a b -> joined (map (both h) E) (h a) (h b).
Proof.
  induction 1 as [a|a b c H IH He]; [constructor|]. apply (joined_step _ _ (h b)); [assumption|].
  destruct He as [He|He]; [left|right]; apply (in_map (both h)) in He; exact He.
Qed.

Lemma free_In X v : In v (free_vertices n X) <-> v < n /\ ~ In v X.
Proof.
  unfold free_vertices. rewrite filter_In, in_seq, negb_true_iff. split; intros [H1 H2]; split; try lia.
  - intros H. assert (E : existsb (Nat.eqb v) X = true) by (apply existsb_exists; exists v; rewrite Nat.eqb_refl; auto). congruence.
  - destruct (existsb (Nat.eqb v) X) eqn:E; [|reflexivity]. apply existsb_exists in E. destruct E as (x & Hx & Ex). apply Nat.eqb_eq in Ex. subst. contradiction.
Qed.

Lemma free_NoDup X : NoDup (free_vertices n X).
Proof. apply NoDup_filter, seq_NoDup. Qed.

Lemma into_le (h : nat -> nat) A B : NoDup A -> (forall a b, In a A -> In b A -> h a = h b -> a = b) -> (forall a, In a A -> In (h a) B) -> length A <= length B.
Proof.
  intros Hn Hi HB. rewrite <- (map_length h A). apply NoDup_incl_length; [|intros v Hv; apply in_map_iff in Hv; destruct Hv as (u & <- & Hu); apply HB, Hu].
  clear HB. induction A as [|a A IH]; [constructor|]. cbn [map]. inversion Hn as [|? ? Ha HA]; subst. constructor.
  - intros H. apply in_map_iff in H. destruct H as (b & E & Hb). apply Hi in E; [subst; contradiction|right; assumption|left; reflexivity].
  - apply IH; [assumption|]. intros x y Hx Hy. apply Hi; right; assumption.
Qed.

Lemma tree_map (h k : nat -> nat) X Y T : (forall i, i < n -> h i < n /\ k (h i) = i) -> (forall i, i < n -> k i < n /\ h (k i) = i) ->
  (forall v, v < n -> (In v X <-> In (h v) Y)) -> spanning_tree (free_vertices n X) T -> spanning_tree (free_vertices n Y) (map (both h) T).
Proof.
  intros Hh Hk HXY (H1 & H2 & H3).
  assert (Hin : forall v, In v (free_vertices n X) -> In (h v) (free_vertices n Y)).
  { intros v Hv. apply free_In in Hv. destruct Hv as [Hv Hx]. apply free_In. split; [apply Hh, Hv|]. rewrite <- HXY by assumption. exact Hx. }
  assert (Hout : forall v, In v (free_vertices n Y) -> In (k v) (free_vertices n X)).
  { intros v Hv. apply free_In in Hv. destruct Hv as [Hv Hx]. destruct (Hk v Hv) as [A B]. apply free_In. split; [assumption|]. rewrite HXY, B by assumption. exact Hx. }
  assert (Hkv : forall v, In v (free_vertices n Y) -> h (k v) = v) by (intros v Hv; apply free_In in Hv; apply Hk, Hv).
  split; [|split].
  - intros a b H. apply in_map_iff in H. destruct H as ([a' b'] & E & H). injection E as <- <-. destruct (H1 a' b' H). split; apply Hin; assumption.
  - intros a b Ha Hb. rewrite <- (Hkv a Ha), <- (Hkv b Hb). apply joined_map, H2; apply Hout; assumption.
  - rewrite map_length, H3. apply Nat.le_antisymm; [apply (into_le h)|apply (into_le k)]; try assumption; try apply free_NoDup; intros a b Ha Hb E.
    + apply free_In in Ha, Hb. rewrite <- (proj2 (Hh a (proj1 Ha))), <- (proj2 (Hh b (proj1 Hb))), E. reflexivity.
    + rewrite <- (Hkv a Ha), <- (Hkv b Hb), E. reflexivity.
Qed.

Lemma edges_map w E : edges_cost (renamed w f) E = edges_cost w (map (both f) E).
Proof. induction E as [|e E IH]; [reflexivity|]. cbn [edges_cost fold_right map] in *. unfold edges_cost in IH. rewrite IH. reflexivity. Qed.

Lemma edges_back w E : (forall a b, In (a, b) E -> a < n /\ b < n) -> edges_cost (renamed w f) (map (both back) E) = edges_cost w E.
Proof.
  intros H. rewrite edges_map, map_map. f_equal. rewrite <- (map_id E) at 2. apply map_ext_in. intros [a b] He. destruct (H a b He) as [Ha Hb].
  unfold both. cbn [fst snd]. rewrite (proj2 (back_spec a Ha)), (proj2 (back_spec b Hb)). reflexivity.
Qed.

Lemma fpair i : i < n -> f i < n /\ back (f i) = i.
Proof. intros H. split; [apply ren_lt, H|apply back_f, H]. Qed.

Lemma in_map_f v X : v < n -> Forall (fun x => x < n) X -> (In v X <-> In (f v) (map f X)).
Proof.
  intros Hv HX. split; [apply in_map|]. intros H. apply in_map_iff in H. destruct H as (x & E & Hx). rewrite Forall_forall in HX.
  apply ren_inj in E; [subst; assumption|apply HX, Hx|assumption].
Qed.

Lemma in_map_back v X : v < n -> Forall (fun x => x < n) X -> (In v (map f X) <-> In (back v) X).
Proof.
  intros Hv HX. destruct (back_spec v Hv) as [H1 H2]. rewrite (in_map_f (back v) X H1 HX), H2. reflexivity.
Qed.

Lemma tree_forth X T : Forall (fun x => x < n) X -> spanning_tree (free_vertices n X) T -> spanning_tree (free_vertices n (map f X)) (map (both f) T).
Proof. intros HX. apply (tree_map f back); [exact fpair|exact back_spec|]. intros v Hv. apply in_map_f; assumption. Qed.
Lemma tree_back X T : Forall (fun x => x < n) X -> spanning_tree (free_vertices n (map f X)) T -> spanning_tree (free_vertices n X) (map (both back) T).
Proof. intros HX. apply (tree_map back f); [exact back_spec|exact fpair|]. intros v Hv. apply in_map_back; assumption. Qed.

Lemma tree_lt X T a b : spanning_tree (free_vertices n X) T -> In (a, b) T -> a < n /\ b < n.
Proof. intros (H & _) Hab. destruct (H a b Hab) as [Ha Hb]. apply free_In in Ha, Hb. tauto. Qed.

Lemma min_tree w X T T' : Forall (fun x => x < n) X ->
  spanning_tree (free_vertices n (map f X)) T -> (forall U, spanning_tree (free_vertices n (map f X)) U -> (edges_cost w T <= edges_cost w U)%Z) ->
  spanning_tree (free_vertices n X) T' -> (forall U, spanning_tree (free_vertices n X) U -> (edges_cost (renamed w f) T' <= edges_cost (renamed w f) U)%Z) ->
  edges_cost (renamed w f) T' = edges_cost w T.
Proof.
  intros HX HT MT HT' MT'. apply Z.le_antisymm.
  - rewrite <- (edges_back w T) by (intros a b; apply (tree_lt _ _ _ _ HT)). apply MT', tree_back; assumption.
  - rewrite edges_map. apply MT, tree_forth; assumption.
Qed.

Lemma one_tree_forth s F : s < n -> one_tree_at n s F -> one_tree_at n (f s) (map (both f) F).
Proof.
  intros Hs (T & a & b & -> & HT & Ha & Hb & Has & Hbs & Hab). exists (map (both f) T), (f a), (f b). rewrite map_app. split; [reflexivity|].
  split; [apply (tree_forth [s]); [constructor; [assumption|constructor]|assumption]|]. repeat split; try (apply ren_lt; assumption); intros E; apply ren_inj in E; congruence.
Qed.
Lemma one_tree_back s F : s < n -> one_tree_at n (f s) F -> one_tree_at n s (map (both back) F).
Proof.
  intros Hs (T & a & b & -> & HT & Ha & Hb & Has & Hbs & Hab). exists (map (both back) T), (back a), (back b). rewrite map_app.
  split; [unfold both; cbn [map fst snd app]; rewrite back_f by assumption; reflexivity|].
  split; [apply (tree_back [s]); [constructor; [assumption|constructor]|assumption]|].
  repeat split; try (apply back_spec; assumption); intros E.
  - apply Has. rewrite <- E. symmetry. apply back_spec, Ha.
  - apply Hbs. rewrite <- E. symmetry. apply back_spec, Hb.
  - apply back_inj in E; congruence.
Qed.
Lemma one_tree_lt s F a b : s < n -> one_tree_at n s F -> In (a, b) F -> a < n /\ b < n.
Proof.
  intros Hs (T & x & y & -> & HT & Hx & Hy & _) H. apply in_app_or in H. destruct H as [H|[H|[H|[]]]]; [apply (tree_lt _ _ _ _ HT H)| |]; injection H as <- <-; auto.
Qed.

Definition one_tree_value (v : nat -> nat -> Z) (c : Z) : Prop :=
  (exists s F, s < n /\ one_tree_at n s F /\ edges_cost v F = c /\ forall F', one_tree_at n s F' -> (c <= edges_cost v F')%Z) /\
  (forall s, s < n -> exists F, one_tree_at n s F /\ (edges_cost v F <= c)%Z).

Lemma one_tree_renamed w c c' : one_tree_value w c -> one_tree_value (renamed w f) c' -> c = c'.
Proof.
  intros [(s & F & Hs & HF & EF & MF) A] [(s' & F' & Hs' & HF' & EF' & MF') A']. apply Z.le_antisymm.
  - destruct (back_spec s Hs) as [Hb Eb]. destruct (A' (back s) Hb) as (G & HG & Hle). apply (Z.le_trans _ (edges_cost w (map (both f) G))).
    + apply MF. rewrite <- Eb at 1. apply one_tree_forth; assumption.
    + rewrite <- edges_map. exact Hle.
  - destruct (A (f s') (ren_lt s' Hs')) as (G & HG & Hle). apply (Z.le_trans _ (edges_cost (renamed w f) (map (both back) G))).
    + apply MF'. apply one_tree_back; assumption.
    + rewrite edges_back by (intros a b; apply (one_tree_lt _ _ _ _ (ren_lt s' Hs') HG)). exact Hle.
Qed.

(** ** Greedy tours *)
Lemma greedy_forth w q : is_tour n q -> greedy_tour (renamed w f) n q -> greedy_tour w n (map f q).
Proof.
  intros Hq Hg k v Hk Hv Hn. rewrite map_length in Hk. rewrite !(nth_indep (map f q) 0 (f 0)) by (rewrite map_length; lia). rewrite !map_nth.
  destruct (back_spec v Hv) as [Hb Eb]. rewrite <- Eb. apply (Hg k (back v) Hk Hb). intros H. apply Hn. rewrite <- Eb, firstn_map. apply in_map, H.
Qed.

Lemma firstn_pointwise (p q : list nat) k : k <= length p -> k <= length q -> (forall i, i < k -> nth i p 0 = nth i q 0) -> firstn k p = firstn k q.
Proof.
  revert p q. induction k as [|k IH]; intros p q Hp Hq H; [reflexivity|]. destruct p as [|a p]; [cbn in Hp; lia|]. destruct q as [|b q]; [cbn in Hq; lia|].
  cbn [firstn]. f_equal; [apply (H 0); lia|]. apply IH; cbn [length] in *; try lia. intros i Hi. apply (H (S i)). lia.
Qed.

Lemma greedy_unique w p q : no_ties w n -> is_tour n p -> is_tour n q -> hd 0 p = hd 0 q -> greedy_tour w n p -> greedy_tour w n q -> p = q.
Proof.
  intros Ht Hp Hq Hh Gp Gq. pose proof (Permutation_length Hp) as Lp. pose proof (Permutation_length Hq) as Lq. rewrite seq_length in Lp, Lq.
  assert (Hlt : forall r i, is_tour n r -> i < n -> nth i r 0 < n).
  { intros r i Hr Hi. assert (H : In (nth i r 0) (seq 0 n)) by (apply (Permutation_in _ Hr), nth_In; rewrite (Permutation_length Hr), seq_length; assumption). apply in_seq in H. lia. }
  assert (Hnin : forall r k, is_tour n r -> S k < n -> ~ In (nth (S k) r 0) (firstn (S k) r)).
  { intros r k Hr Hk H. assert (Hnd : NoDup r) by (apply (Permutation_NoDup (Permutation_sym Hr)), seq_NoDup).
    pose proof (Permutation_length Hr) as Lr. rewrite seq_length in Lr. apply (In_nth _ _ 0) in H. destruct H as (i & Hi & E). rewrite firstn_length in Hi.
    assert (E' : nth i r 0 = nth (S k) r 0).
    { rewrite <- E. rewrite <- (firstn_skipn (S k) r) at 1. rewrite app_nth1 by (rewrite firstn_length; lia). reflexivity. }
    apply (proj1 (NoDup_nth r 0) Hnd) in E'; lia. }
  assert (H : forall k, k < n -> forall i, i <= k -> nth i p 0 = nth i q 0).
  { induction k as [|k IH]; intros Hk i Hi.
    - assert (i = 0) by lia. subst. destruct p, q; exact Hh.
    - destruct (Nat.eq_dec i (S k)) as [->|]; [|apply IH; lia].
      assert (Hfn : firstn (S k) p = firstn (S k) q) by (apply firstn_pointwise; try lia; intros j Hj; apply IH; lia).
      assert (Hcur : nth k p 0 = nth k q 0) by (apply IH; lia).
      assert (Hmem : forall r, is_tour n r -> In (nth k r 0) (firstn (S k) r)).
      { intros r Hr. pose proof (Permutation_length Hr) as Lr. rewrite seq_length in Lr. rewrite <- (firstn_skipn (S k) r) at 1. rewrite app_nth1 by (rewrite firstn_length; lia). apply nth_In. rewrite firstn_length. lia. }
      pose proof (Gp k (nth (S k) q 0) ltac:(lia) (Hlt q (S k) Hq Hk)) as A. rewrite Hfn in A. specialize (A (Hnin q k Hq Hk)).
      pose proof (Gq k (nth (S k) p 0) ltac:(lia) (Hlt p (S k) Hp Hk)) as B. rewrite <- Hfn in B. specialize (B (Hnin p k Hp Hk)). rewrite <- Hcur in B.
      apply (Ht (nth k p 0)); [apply Hlt; [exact Hp|lia]|apply Hlt; assumption|apply Hlt; assumption| | |lia].
      + intros E. apply (Hnin p k Hp Hk). rewrite E. apply Hmem, Hp.
      + intros E. apply (Hnin q k Hq Hk). rewrite E, Hcur. apply Hmem, Hq. }
  apply (nth_ext _ _ 0 0); [congruence|]. intros i Hi. apply (H i); lia.
Qed.
End Rename.
