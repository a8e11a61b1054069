(** Weights of the trees Prim's algorithm returns, and minimum spanning trees as lower
    bounds.  (Proofs.) *)
From Coq Require Import ZArith Arith Bool List Permutation Lia ZifyBool.
From Verif Require Import Num Base Spec SpecFacts Data Mst Greedy PrimProofs Dfs.
Import ListNotations.
Local Open Scope Z_scope.

(** ** Sums *)
Definition zsum (l : list Z) : Z := fold_right Z.add 0 l.
Definition zabs_sum (l : list Z) : Z := zsum (map Z.abs l).

Lemma zsum_app a b : zsum (a ++ b) = zsum a + zsum b.
Proof. induction a; simpl; [reflexivity|]. rewrite IHa. lia. Qed.

Lemma zabs_sum_nonneg l : 0 <= zabs_sum l.
Proof. unfold zabs_sum. induction l; simpl; lia. Qed.

Lemma zsum_abs l : Z.abs (zsum l) <= zabs_sum l.
Proof. unfold zabs_sum. induction l; simpl; lia. Qed.

Lemma zabs_sum_app a b : zabs_sum (a ++ b) = zabs_sum a + zabs_sum b.
Proof. unfold zabs_sum. rewrite map_app. apply zsum_app. Qed.

Lemma csum_inj_acc {N B} (E : Exact N B) : forall l acc, Z.abs acc + zabs_sum l <= B ->
  fold_left cadd (map (inj E) l) (inj E acc) = inj E (acc + zsum l).
Proof.
  induction l as [|z l IH]; intros acc H; simpl; [f_equal; lia|].
  unfold zabs_sum in H. simpl in H. pose proof (zabs_sum_nonneg l) as Hn. fold (zabs_sum l) in H.
  rewrite inj_add by lia. rewrite IH by lia. f_equal. lia.
Qed.

Lemma csum_inj {N B} (E : Exact N B) l : zabs_sum l <= B -> csum (map (inj E) l) = inj E (zsum l).
Proof. intros H. unfold csum. rewrite (inj_0 _ _ E), csum_inj_acc by lia. f_equal. Qed.

(** ** Degree sums *)
Definition inc_cost (w : nat -> nat -> Z) (T : list (nat * nat)) (v : nat) : list Z :=
  map (fun x => w (fst (snd x)) (snd (snd x))) (incident T v).

Lemma zsum_indicator n a (c : Z) : (a < n)%nat ->
  zsum (map (fun v => if (a =? v)%nat then c else 0) (seq 0 n)) = c.
Proof.
  intros Ha. induction n as [|n IH]; [lia|].
  rewrite seq_S, map_app, zsum_app. simpl. destruct (Nat.eqb_spec a n) as [->|Hne].
  - replace (zsum (map (fun v : nat => if (n =? v)%nat then c else 0) (seq 0 n))) with 0; [lia|].
    symmetry. clear. assert (G : forall k, (k <= n)%nat -> zsum (map (fun v : nat => if (n =? v)%nat then c else 0) (seq 0 k)) = 0).
    { induction k as [|k IH]; intros Hk; [reflexivity|].
      rewrite seq_S, map_app, zsum_app, IH by lia. simpl. destruct (Nat.eqb_spec n k); lia. }
    apply G. lia.
  - rewrite IH by lia. lia.
Qed.

Lemma zsum_map_add {A} (f g : A -> Z) l : zsum (map (fun x => f x + g x) l) = zsum (map f l) + zsum (map g l).
Proof. induction l; simpl; [reflexivity|]. rewrite IHl. lia. Qed.

Lemma degree_sum w T n : (forall a b, In (a, b) T -> (a < n)%nat /\ (b < n)%nat) ->
  zsum (map (fun v => zsum (inc_cost w T v)) (seq 0 n)) = 2 * edges_cost w T.
Proof.
  induction T as [|[a b] T IH]; intros H.
  - simpl. induction (seq 0 n); simpl; [reflexivity|]. rewrite IHl. reflexivity.
  - destruct (H a b (or_introl eq_refl)) as [Ha Hb].
    transitivity (zsum (map (fun v => (if (a =? v)%nat then w a b else 0) + ((if (b =? v)%nat then w a b else 0)
                       + zsum (inc_cost w T v))) (seq 0 n))).
    + f_equal. apply map_ext. intros v. unfold inc_cost.
      change (incident ((a, b) :: T) v) with (((if (b =? v)%nat then [(a, (a, b))] else []) ++
                     (if (a =? v)%nat then [(b, (a, b))] else [])) ++ incident T v).
      rewrite !map_app, !zsum_app. generalize (zsum (map (fun x : nat * (nat * nat) => w (fst (snd x)) (snd (snd x))) (incident T v))).
      intros S. destruct (b =? v)%nat, (a =? v)%nat; simpl; lia.
    + rewrite zsum_map_add, zsum_indicator by assumption.
      rewrite zsum_map_add, zsum_indicator by assumption.
      rewrite IH by (intros; apply H; right; assumption).
      change (edges_cost w ((a, b) :: T)) with (w a b + edges_cost w T). lia.
Qed.

Lemma zsum_le {A} (f g : A -> Z) l : (forall x, In x l -> f x <= g x) -> zsum (map f l) <= zsum (map g l).
Proof.
  intros H. induction l; simpl; [lia|]. pose proof (H a (or_introl eq_refl)).
  assert (zsum (map f l) <= zsum (map g l)) by (apply IHl; intros; apply H; right; assumption). lia.
Qed.

Lemma edges_cost_abs_le w T W : (forall a b, In (a, b) T -> Z.abs (w a b) <= W) ->
  edges_cost (fun a b => Z.abs (w a b)) T <= W * Z.of_nat (length T).
Proof.
  induction T as [|[a b] T IH]; intros H; [simpl; lia|].
  pose proof (H a b (or_introl eq_refl)). specialize (IH ltac:(intros; apply H; right; assumption)).
  simpl edges_cost. simpl length. nia.
Qed.

Lemma edges_cost_abs w T : Z.abs (edges_cost w T) <= edges_cost (fun a b => Z.abs (w a b)) T.
Proof. induction T as [|[a b] T IH]; simpl; lia. Qed.

(** A graph whose adjacency lists are those of the edge list [T] weighs twice [T]. *)
Lemma directed_weight {N B} (E : Exact N B) (g : graph N) w T n W :
  (forall a b, In (a, b) T -> (a < n)%nat /\ (b < n)%nat) ->
  (forall a b, In (a, b) T -> Z.abs (w a b) <= W) ->
  2 * W * Z.of_nat (length T) <= B ->
  length g = n ->
  (forall v, (v < n)%nat -> nth v g [] =
      map (fun x => mkEdge (fst x) (inj E (w (fst (snd x)) (snd (snd x))))) (incident T v)) ->
  directed_edge_weight g = inj E (2 * edges_cost w T).
Proof.
  intros HT HW HB Hl Hg. unfold directed_edge_weight.
  assert (Eg : g = map (fun v => map (fun x => mkEdge (fst x) (inj E (w (fst (snd x)) (snd (snd x))))) (incident T v)) (seq 0 n)).
  { apply (nth_ext _ _ [] []).
    - rewrite map_length, seq_length. assumption.
    - intros v Hv. rewrite Hl in Hv. rewrite Hg by assumption.
      rewrite (nth_indep _ [] (map (fun x => mkEdge (fst x) (inj E (w (fst (snd x)) (snd (snd x))))) (incident T n)))
        by (rewrite map_length, seq_length; assumption).
      rewrite (map_nth (fun v => map (fun x => mkEdge (fst x) (inj E (w (fst (snd x)) (snd (snd x))))) (incident T v))).
      rewrite seq_nth by assumption. reflexivity. }
  rewrite Eg, map_map.
  assert (Habs : forall v, zabs_sum (inc_cost w T v) = zsum (inc_cost (fun a b => Z.abs (w a b)) T v)).
  { intros v. unfold zabs_sum, inc_cost. rewrite map_map. reflexivity. }
  assert (Htot : zsum (map (fun v => zabs_sum (inc_cost w T v)) (seq 0 n)) <= B).
  { erewrite map_ext by (intros v; apply Habs). rewrite degree_sum by assumption.
    pose proof (edges_cost_abs_le w T W HW). nia. }
  assert (Hone : forall v, In v (seq 0 n) -> zabs_sum (inc_cost w T v) <= B).
  { intros v Hv. apply in_split in Hv. destruct Hv as (l1 & l2 & Es). rewrite Es in Htot.
    rewrite map_app in Htot. simpl in Htot. rewrite zsum_app in Htot. simpl in Htot.
    assert (forall l, 0 <= zsum (map (fun v => zabs_sum (inc_cost w T v)) l)).
    { induction l; simpl; [lia|]. pose proof (zabs_sum_nonneg (inc_cost w T a)). lia. }
    pose proof (H l1). pose proof (H l2). lia. }
  transitivity (csum (map (inj E) (map (fun v => zsum (inc_cost w T v)) (seq 0 n)))).
  - f_equal. rewrite map_map. apply map_ext_in. intros v Hv. rewrite map_map.
    rewrite <- csum_inj by (apply Hone; assumption). unfold inc_cost. rewrite map_map. reflexivity.
  - rewrite csum_inj.
    + rewrite degree_sum by assumption. reflexivity.
    + etransitivity; [|exact Htot]. unfold zabs_sum at 1. rewrite map_map.
      apply zsum_le. intros v _. apply zsum_abs.
Qed.

(** ** Prim with exact costs *)
Section PrimExact.
Context {N : Num} {B : Z} (E : Exact N B) (O : NumOrd N).
Variable m : namatrix N.
Hypothesis Hwf : na_wf m.
Let n := na_dim m.
Variable w : nat -> nat -> Z.
Variable W : Z.
Hypothesis Hrep : represents E (na_adj m) w.
Hypothesis HW : bounded w n W.
Hypothesis HB : 2 * W * Z.of_nat n <= B.

Lemma rep_val a b : (a < n)%nat -> (b < n)%nat -> a <> b -> na_val m a b = inj E (w a b).
Proof.
  intros Ha Hb Hab. pose proof (Hrep a b Ha Hb ltac:(intros; contradiction)) as H.
  simpl in H. rewrite na_get_val in H by assumption. congruence.
Qed.

Lemma w_small a b : (a < n)%nat -> (b < n)%nat -> Z.abs (w a b) <= B.
Proof. intros Ha Hb. pose proof (HW a b Ha Hb). nia. Qed.

Lemma prim_exact X : Forall (fun x => (x < n)%nat) X -> (exists v, (v < n)%nat /\ ~ In v X) ->
  exists g T, prim_with_excluded_node_single_threaded m X = Ok g /\ length g = n /\
    spanning_tree (free_vertices n X) T /\
    (forall v, (v < n)%nat -> nth v g [] =
       map (fun x => mkEdge (fst x) (inj E (w (fst (snd x)) (snd (snd x))))) (incident T v)) /\
    directed_edge_weight g = inj E (2 * edges_cost w T) /\
    (symmetric w n -> forall T', spanning_tree (free_vertices n X) T' -> edges_cost w T <= edges_cost w T').
Proof.
  intros HX Hex.
  assert (Hfin : forall a b, (a < n)%nat -> (b < n)%nat -> a <> b -> clt (na_val m a b) cinf = true).
  { intros a b Ha Hb Hab. rewrite rep_val by assumption. apply inj_lt_inf. apply w_small; assumption. }
  destruct (prim_single_spec O m Hwf Hfin X HX Hex) as (g & T & start & R & Eg & Hl & Hgr & HP & Hadj).
  assert (Hsp0 : spanning_tree (start :: R) T) by (eapply greedy_spanning; eauto).
  assert (Hsp : spanning_tree (free_vertices n X) T).
  { destruct Hsp0 as (H1 & H2 & H3). split; [|split].
    - intros a b Hin. destruct (H1 a b Hin).
      split; apply (Permutation_in _ (Permutation_sym HP)); assumption.
    - intros a b Ha Hb. apply H2; apply (Permutation_in _ HP); assumption.
    - rewrite H3. symmetry. apply Permutation_length. assumption. }
  assert (Hfr : forall a, In a (free_vertices n X) -> (a < n)%nat) by (intros a Ha; apply free_In in Ha; tauto).
  assert (HTn : forall a b, In (a, b) T -> (a < n)%nat /\ (b < n)%nat).
  { intros a b Hin. destruct Hsp as [Hs _]. destruct (Hs a b Hin). auto. }
  assert (HTne : forall a b, In (a, b) T -> a <> b).
  { assert (Hnd : NoDup (start :: R)) by (apply (Permutation_NoDup HP), free_NoDup).
    assert (G : forall S R T, greedy (ele m) S R T -> (forall x, In x S -> In x R -> False) -> NoDup R ->
              forall a b, In (a, b) T -> a <> b).
    { clear. induction 1 as [|S R R' u v T Hu HP Hmin H IH]; intros Hd Hnd a b Hin; [destruct Hin|].
      destruct Hin as [Heq|Hin].
      - injection Heq as <- <-. intros ->. apply (Hd v Hu). apply (Permutation_in _ (Permutation_sym HP)). left; reflexivity.
      - apply (Permutation_NoDup HP) in Hnd as Hnd'. inversion Hnd' as [|? ? Hv HR']; subst.
        apply (IH); try assumption. intros x [->|Hx] HxR; [contradiction|].
        apply (Hd x Hx). apply (Permutation_in _ (Permutation_sym HP)). right; assumption. }
    inversion Hnd; subst. apply (G _ _ _ Hgr); [|assumption]. intros x [->|[]]. assumption. }
  assert (Hadj' : forall v, (v < n)%nat -> nth v g [] =
     map (fun x => mkEdge (fst x) (inj E (w (fst (snd x)) (snd (snd x))))) (incident T v)).
  { intros v Hv. rewrite Hadj by assumption. unfold adjlist. apply map_ext_in.
    intros [o [a b]] Hin. simpl. f_equal.
    assert (HinT : In (a, b) T).
    { unfold incident in Hin. apply in_flat_map in Hin. destruct Hin as ([a' b'] & HinT & Hin). simpl in Hin.
      apply in_app_or in Hin. destruct Hin as [Hin|Hin].
      - destruct (b' =? v)%nat; [|destruct Hin]. destruct Hin as [Hin|[]]. congruence.
      - destruct (a' =? v)%nat; [|destruct Hin]. destruct Hin as [Hin|[]]. congruence. }
    destruct (HTn a b HinT). apply rep_val; eauto. }
  exists g, T. split; [assumption|]. split; [assumption|]. split; [assumption|]. split; [assumption|]. split.
  - apply (directed_weight E g w T n W); try assumption.
    + intros a b Hin. destruct (HTn a b Hin). apply HW; assumption.
    + assert (HlT : (length T <= n)%nat).
      { destruct Hsp as (_ & _ & Hlen). assert ((length (free_vertices n X) <= n)%nat); [|lia].
        unfold free_vertices. rewrite <- (seq_length n 0) at 2.
        clear. induction (seq 0 n); simpl; [lia|]. destruct (negb _); simpl; lia. }
      destruct Hex as (v & Hv & _). pose proof (HW v v Hv Hv). nia.
  - intros Hsym T' HT'. apply (greedy_min_spanning w (ele m) start R T (free_vertices n X) T'); try assumption.
    + intros a b c d Ha Hb Hc Hd. unfold ele. simpl. intros Hab Hcd Hle.
      rewrite !rep_val in Hle by auto. rewrite inj_le in Hle by (apply w_small; auto). lia.
    + apply free_NoDup.
    + intros a b Ha Hb. apply Hsym; auto.
Qed.

(** *** Walks are spanning trees *)
Fixpoint path_edges (p : list nat) : list (nat * nat) :=
  match p with
  | a :: ((b :: _) as t) => (a, b) :: path_edges t
  | _ => []
  end.

Lemma path_edges_cost p : edges_cost w (path_edges p) = path_cost w p.
Proof. induction p as [|a [|b p] IH]; [reflexivity..|]. simpl in *. lia. Qed.

Lemma path_edges_In p a b : In (a, b) (path_edges p) -> In a p /\ In b p.
Proof.
  induction p as [|x [|y p] IH]; [intros []..|]. intros [H|H].
  - injection H as <- <-. simpl; tauto.
  - apply IH in H. destruct H. split; right; assumption.
Qed.

Lemma path_edges_joined p : forall x, In x p -> joined (path_edges p) (hd 0%nat p) x.
Proof.
  induction p as [|a [|b p] IH]; intros x Hx.
  - destruct Hx.
  - destruct Hx as [->|[]]. apply joined_refl.
  - destruct Hx as [->|Hx]; [apply joined_refl|].
    apply (joined_trans _ _ b).
    + apply joined_edge. left; reflexivity.
    + apply (joined_incl (path_edges (b :: p))); [intros e He; right; assumption|].
      apply (IH x Hx).
Qed.

Lemma path_spanning p V : p <> [] -> Permutation p V -> spanning_tree V (path_edges p).
Proof.
  intros Hne HP. split; [|split].
  - intros a b Hin. apply path_edges_In in Hin. destruct Hin.
    split; apply (Permutation_in _ HP); assumption.
  - intros a b Ha Hb. apply (Permutation_in _ (Permutation_sym HP)) in Ha, Hb.
    apply (joined_trans _ _ (hd 0%nat p)); [apply joined_sym|]; apply path_edges_joined; assumption.
  - rewrite <- (Permutation_length HP). clear -Hne. induction p as [|a [|b p] IH]; [congruence|reflexivity|].
    simpl. f_equal. apply IH. discriminate.
Qed.

(** Prefix plus minimum spanning tree of the rest is a lower bound for every tour that
    extends the prefix. *)
Lemma prefix_tree_bound p r T : nonneg w n -> is_tour n (p ++ r) -> p <> [] -> r <> [] ->
  (forall T', spanning_tree (free_vertices n p) T' -> edges_cost w T <= edges_cost w T') ->
  path_cost w p + edges_cost w T <= tour_cost w (p ++ r).
Proof.
  intros Hnn Ht Hp Hr Hmin.
  assert (HPr : Permutation r (free_vertices n p)).
  { assert (Hnd : NoDup (p ++ r)) by (apply (tour_NoDup n); assumption).
    apply NoDup_Permutation.
    - clear -Hnd. induction p; [assumption|]. inversion Hnd; auto.
    - apply (free_NoDup m).
    - intros x. pose proof (free_In m p x) as Hf. fold n in Hf. rewrite Hf. pose proof (tour_In n _ x Ht) as Hx. rewrite in_app_iff in Hx.
      split; intros H.
      + split; [tauto|]. intros Hxp. apply in_split in H. destruct H as (r1 & r2 & ->).
        rewrite app_assoc in Hnd. apply NoDup_remove_2 in Hnd. apply Hnd.
        apply in_or_app; left. apply in_or_app; left; assumption.
      + tauto. }
  specialize (Hmin _ (path_spanning r _ Hr HPr)). rewrite path_edges_cost in Hmin.
  destruct p as [|a p]; [congruence|]. destruct r as [|b r]; [congruence|].
  simpl app. rewrite tour_cost_closed. change ((a :: p ++ b :: r) ++ [a]) with (((a :: p) ++ b :: r) ++ [a]).
  rewrite <- app_assoc. simpl app at 2. change ((b :: r) ++ [a]) with (b :: (r ++ [a])).
  rewrite (path_cost_app w b (a :: p) (r ++ [a])).
  change (b :: r ++ [a]) with ((b :: r) ++ [a]).
  rewrite (path_cost_snoc w (a :: p) b 0%nat) by discriminate.
  rewrite (path_cost_snoc w (b :: r) a 0%nat) by discriminate.
  assert (Hin : forall x, In x ((a :: p) ++ b :: r) -> (x < n)%nat) by (intros x Hx; apply (tour_In n _ x Ht); assumption).
  assert (0 <= w (last (a :: p) 0%nat) b).
  { apply Hnn; apply Hin; apply in_or_app; [left; apply last_In; discriminate|right; left; reflexivity]. }
  assert (0 <= w (last (b :: r) 0%nat) a).
  { apply Hnn; apply Hin; apply in_or_app; [right; apply last_In; discriminate|left; left; reflexivity]. }
  lia.
Qed.

End PrimExact.
