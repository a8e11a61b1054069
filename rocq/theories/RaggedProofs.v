(** Matrices with missing cells. *)
From Coq Require Import Arith Bool List Permutation Lia.
From Verif Require Import Num Base Data Exact Spec SpecFacts PermProofs ConvProofs RaggedSpec.
Import ListNotations.

(** A loop with a step that panics in every state, and no step without an outcome *)
Lemma foldM_panics {S X} (f : S -> X -> res S) x : forall l, In x l -> (forall s y, In y l -> f s y <> OutOfFuel) -> (forall s, f s x = Panic) -> forall s, foldM f l s = Panic.
Proof.
  induction l as [|y l IH]; intros Hx Hf Hp s; [contradiction|]. cbn [foldM]. destruct Hx as [->|Hx]; [rewrite Hp; reflexivity|].
  destruct (f s y) as [s'| |] eqn:E; cbn [bind]; [|reflexivity|].
  - apply IH; [exact Hx| |exact Hp]. intros t z Hz. apply Hf. right; exact Hz.
  - exfalso. apply (Hf s y); [left; reflexivity|exact E].
Qed.

Lemma foldM_fuel {S X} (f : S -> X -> res S) : forall l, (forall s y, In y l -> f s y <> OutOfFuel) -> forall s, foldM f l s <> OutOfFuel.
Proof.
  induction l as [|y l IH]; intros Hf s; cbn [foldM]; [discriminate|]. destruct (f s y) as [s'| |] eqn:E; cbn [bind]; [|discriminate|].
  - apply IH. intros t z Hz. apply Hf. right; exact Hz.
  - exfalso. apply (Hf s y); [left; reflexivity|exact E].
Qed.

Lemma nth_res_fuel {A} (l : list A) i : nth_res l i <> OutOfFuel.
Proof. unfold nth_res. destruct (nth_error l i); discriminate. Qed.

Section Missing.
Context {N : Num} (a : adj N).
Hypothesis no_fuel : forall i j, a_get a i j <> OutOfFuel.

Lemma path_fuel p : evaluate_path a p <> OutOfFuel.
Proof.
  unfold evaluate_path. destruct (length p <=? 1); [discriminate|]. apply foldM_fuel. intros s y _.
  destruct (nth_res p y) as [u| |] eqn:E1; cbn [bind]; [|discriminate|exfalso; apply (nth_res_fuel _ _ E1)].
  destruct (nth_res p (y + 1)) as [v| |] eqn:E2; cbn [bind]; [|discriminate|exfalso; apply (nth_res_fuel _ _ E2)].
  destruct (a_get a u v) eqn:E3; cbn [bind]; [discriminate..|]. exfalso. apply (no_fuel _ _ E3).
Qed.

Lemma circle_fuel p : evaluate_circle a p <> OutOfFuel.
Proof.
  unfold evaluate_circle. destruct (length p <=? 1); [discriminate|].
  assert (L : last_res p <> OutOfFuel) by (unfold last_res; first [apply nth_res_fuel|destruct (rev p); discriminate|destruct p; discriminate]). assert (F : first_res p <> OutOfFuel) by (destruct p; unfold first_res; discriminate).
  destruct (last_res p) as [l| |]; cbn [bind]; [|discriminate|congruence]. destruct (first_res p) as [f| |]; cbn [bind]; [|discriminate|congruence].
  destruct (a_get a l f) eqn:E3; cbn [bind]; [|discriminate|exfalso; apply (no_fuel _ _ E3)].
  pose proof (path_fuel p). destruct (evaluate_path a p); cbn [bind]; [discriminate..|congruence].
Qed.

(** a missing cell on the way *)
Lemma path_missing r i j s : a_get a i j = Panic -> evaluate_path a (r ++ i :: j :: s) = Panic.
Proof.
  intros H. unfold evaluate_path. replace (length (r ++ i :: j :: s) <=? 1) with false by (symmetry; apply Nat.leb_gt; rewrite app_length; cbn [length]; lia).
  apply (foldM_panics _ (length r)).
  - apply in_seq. rewrite app_length. cbn [length]. lia.
  - intros t y _. set (p := r ++ i :: j :: s).
    destruct (nth_res p y) as [u| |] eqn:E1; cbn [bind]; [|discriminate|exfalso; apply (nth_res_fuel _ _ E1)].
    destruct (nth_res p (y + 1)) as [v| |] eqn:E2; cbn [bind]; [|discriminate|exfalso; apply (nth_res_fuel _ _ E2)].
    destruct (a_get a u v) eqn:E3; cbn [bind]; [discriminate..|]. exfalso. apply (no_fuel _ _ E3).
  - intros t. unfold nth_res. rewrite nth_error_app2 by lia. rewrite Nat.sub_diag. cbn [nth_error bind].
    rewrite nth_error_app2 by lia. replace (length r + 1 - length r) with 1 by lia. cbn [nth_error bind]. rewrite H. reflexivity.
Qed.

Lemma circle_missing r i j s : a_get a i j = Panic -> evaluate_circle a (r ++ i :: j :: s) = Panic.
Proof.
  intros H. pose proof (circle_fuel (r ++ i :: j :: s)) as F. revert F. unfold evaluate_circle. rewrite (path_missing r i j s H).
  replace (length (r ++ i :: j :: s) <=? 1) with false by (symmetry; apply Nat.leb_gt; rewrite app_length; cbn [length]; lia).
  destruct (last_res (r ++ i :: j :: s)) as [l| |]; cbn [bind]; [|reflexivity|congruence].
  destruct (first_res (r ++ i :: j :: s)) as [f| |]; cbn [bind]; [|reflexivity|congruence].
  destruct (a_get a l f); cbn [bind]; [reflexivity..|congruence].
Qed.

Lemma circle_closing i j r : a_get a i j = Panic -> evaluate_circle a (j :: r ++ [i]) = Panic.
Proof.
  intros H. unfold evaluate_circle. replace (length (j :: r ++ [i]) <=? 1) with false by (symmetry; apply Nat.leb_gt; cbn [length]; rewrite app_length; cbn [length]; lia).
  assert (E : last_res (j :: r ++ [i]) = Ok i) by (unfold last_res; change (j :: r ++ [i]) with ((j :: r) ++ [i]); rewrite rev_app_distr; reflexivity).
  rewrite E. cbn [bind first_res]. rewrite H. reflexivity.
Qed.

Lemma naive_loop_panics L q : Permutation L q -> evaluate_circle a q = Panic ->
  forall fuel cur best, aboveL L cur < fuel -> Permutation L cur -> lex cur q -> naive_loop fuel a cur best = Panic.
Proof.
  intros Hq Hp. induction fuel as [|f IH]; intros cur best Hf HL Hl; [lia|]. cbn [naive_loop].
  destruct (next_permutation_spec cur) as (b & cur' & E & HP & Ht & Hfl). rewrite E. cbn [bind].
  assert (HL' : Permutation L cur') by (transitivity cur; assumption).
  assert (Hcq : Permutation cur q) by (transitivity L; [symmetry|]; assumption).
  destruct b.
  - destruct (Ht eq_refl) as [Hl' Hnext]. destruct (Hnext q Hcq Hl) as [->|Hn]; [rewrite Hp; reflexivity|].
    destruct (evaluate_circle a cur') eqn:Ec; cbn [bind]; [|reflexivity|exfalso; apply (circle_fuel _ Ec)].
    apply IH; [|assumption..]. pose proof (aboveL_lt L cur cur' HL' Hl'). lia.
  - destruct (Hfl eq_refl) as [-> Hmax]. exfalso. destruct (Hmax q Hcq) as [->|H3]; [apply (lex_irrefl _ Hl)|].
    apply (lex_irrefl q). apply (lex_trans _ cur); assumption.
Qed.

(** The enumeration comes across every missing cell between two vertices. *)
Lemma naive_panics i j : i < a_dim a -> j < a_dim a -> i <> j -> a_get a i j = Panic -> naive_solver a = Panic.
Proof.
  intros Hi Hj Hij H. set (n := a_dim a) in *.
  assert (Ex : exists r, Permutation (seq 0 n) (j :: r ++ [i])).
  { assert (Ii : In i (seq 0 n)) by (apply in_seq; lia). apply in_split in Ii. destruct Ii as (l1 & l2 & El).
    assert (Ij : In j (l1 ++ l2)).
    { assert (In j (seq 0 n)) as K by (apply in_seq; lia). rewrite El in K. apply in_app_or in K. apply in_or_app. destruct K as [K|[K|K]]; [left; exact K|congruence|right; exact K]. }
    apply in_split in Ij. destruct Ij as (k1 & k2 & Ek). exists (k1 ++ k2). rewrite El.
    transitivity (i :: l1 ++ l2); [symmetry; apply Permutation_middle|]. rewrite Ek.
    transitivity (i :: j :: k1 ++ k2); [apply perm_skip; symmetry; apply Permutation_middle|].
    transitivity (j :: i :: k1 ++ k2); [apply perm_swap|]. apply perm_skip, Permutation_cons_append. }
  destruct Ex as (r & Hr).
  assert (Q : exists q, Permutation (seq 0 n) q /\ q <> seq 0 n /\ evaluate_circle a q = Panic).
  { destruct (list_eq_dec Nat.eq_dec (j :: r ++ [i]) (seq 0 n)) as [E|E].
    - exists (r ++ [i; j]). split; [|split].
      + rewrite Hr. change [i; j] with ([i] ++ [j]). rewrite app_assoc. apply Permutation_cons_append.
      + rewrite <- E. intros K. destruct r as [|x r]; cbn [app] in K; [congruence|].
        pose proof (seq_NoDup n 0) as ND. rewrite <- E in ND. cbn [app] in ND. injection K as Kx _. subst x. inversion ND as [|? ? K _]. apply K. left; reflexivity.
      + apply circle_missing, H.
    - exists (j :: r ++ [i]). split; [exact Hr|]. split; [exact E|]. apply circle_closing, H. }
  destruct Q as (q & Hq & Hne & Hp). unfold naive_solver. fold n.
  apply (naive_loop_panics (seq 0 n) q Hq Hp).
  - pose proof (aboveL_fact (seq 0 n) (seq 0 n) (Permutation_refl _)) as K. rewrite seq_length in K. exact K.
  - reflexivity.
  - destruct (nondec_min (seq 0 n) q (seq_nondec 0 n) Hq) as [K|K]; [congruence|exact K].
Qed.

(** Copying comes across every missing cell. *)
Lemma na_set_fuel (m : namatrix N) i j v : na_set m i j v <> OutOfFuel.
Proof. unfold na_set. destruct (_ && _); [|discriminate]. unfold modify_res. destruct (nth_error _ _); discriminate. Qed.

Lemma copy_panics i j : i < a_dim a -> j < a_dim a -> a_get a i j = Panic -> na_from_adj a = Panic.
Proof.
  intros Hi Hj H. unfold na_from_adj.
  assert (F : forall x (s : namatrix N) y, (v <- a_get a x y ;; na_set s x y v) <> OutOfFuel).
  { intros x s y. destruct (a_get a x y) eqn:E; cbn [bind]; [apply na_set_fuel|discriminate|exfalso; apply (no_fuel _ _ E)]. }
  apply (foldM_panics _ i); [apply in_seq; lia| |].
  - intros s y _. apply foldM_fuel. intros t z _. apply F.
  - intros s. apply (foldM_panics _ j); [apply in_seq; lia|intros t z _; apply F|]. intros t. rewrite H. reflexivity.
Qed.
(** The searches with a prefix do too: the second vertex is added before anything is cut off. *)
Lemma last_edge_fuel p : last_edge a p <> OutOfFuel.
Proof.
  unfold last_edge. destruct (nth_res p _) as [u| |] eqn:E1; cbn [bind]; [|discriminate|exfalso; apply (nth_res_fuel _ _ E1)].
  destruct (nth_res p (_ + 1)) as [v| |] eqn:E2; cbn [bind]; [apply no_fuel|discriminate|exfalso; apply (nth_res_fuel _ _ E2)].
Qed.

Lemma leaf_fuel p c s : leaf a p c s <> OutOfFuel.
Proof.
  unfold leaf, last_res, first_res. destruct (rev p); cbn [bind]; [discriminate|]. destruct p; cbn [bind]; [discriminate|].
  destruct (a_get a _ _) eqn:E; cbn [bind]; [discriminate..|]. exfalso. apply (no_fuel _ _ E).
Qed.

Lemma nn_bound_fuel p n : compute_nn_of_remaining_vertices a p n <> OutOfFuel.
Proof.
  apply foldM_fuel. intros s i _. destruct (memb i p); [discriminate|].
  match goal with |- (x <- ?e ;; _) <> _ => destruct e eqn:E; cbn [bind]; [discriminate..|] end. exfalso. revert E. apply foldM_fuel.
  intros t j _. destruct (memb j p); [discriminate|]. destruct (a_get a i j) eqn:E; cbn [bind]; [discriminate..|]. exfalso. apply (no_fuel _ _ E).
Qed.

Lemma second_fuel : forall f p c s, length p <= a_dim a -> a_dim a < f + length p -> second_rec f a p c s <> OutOfFuel.
Proof.
  induction f as [|f IH]; intros p c s L F; [lia|]. cbn [second_rec]. destruct (Nat.eqb_spec (length p) (a_dim a)) as [E|E]; [apply leaf_fuel|].
  match goal with |- (x <- ?e ;; _) <> _ => destruct e as [[? ?]| |] eqn:Ee; cbn [bind]; [discriminate..|] end. exfalso. revert Ee. apply foldM_fuel.
  intros [d t] i _. destruct (memb i p); [discriminate|]. cbv zeta.
  assert (K : forall c s, second_rec f a (p ++ [i]) c s <> OutOfFuel) by (intros; apply IH; rewrite app_length; cbn [length]; lia).
  destruct (_ =? 1). { destruct (second_rec f a _ _ _) eqn:X; cbn [bind]; [discriminate..|]. exfalso. apply (K _ _ X). }
  destruct (last_edge a _) eqn:X; cbn [bind]; [|discriminate|exfalso; apply (last_edge_fuel _ X)].
  destruct (second_rec f a _ _ _) eqn:Y; cbn [bind]; [discriminate..|]. exfalso. apply (K _ _ Y).
Qed.

Lemma third_fuel : forall f p c s, length p <= a_dim a -> a_dim a < f + length p -> third_rec f a p c s <> OutOfFuel.
Proof.
  induction f as [|f IH]; intros p c s L F; [lia|]. cbn [third_rec]. destruct (Nat.eqb_spec (length p) (a_dim a)) as [E|E]; [apply leaf_fuel|].
  match goal with |- (x <- ?e ;; _) <> _ => destruct e as [[? ?]| |] eqn:Ee; cbn [bind]; [discriminate..|] end. exfalso. revert Ee. apply foldM_fuel.
  intros [d t] i _. destruct (memb i p); [discriminate|]. cbv zeta.
  assert (K : forall c s, third_rec f a (p ++ [i]) c s <> OutOfFuel) by (intros; apply IH; rewrite app_length; cbn [length]; lia).
  destruct (_ =? 1). { destruct (third_rec f a _ _ _) eqn:X; cbn [bind]; [discriminate..|]. exfalso. apply (K _ _ X). }
  destruct (last_edge a _) eqn:X; cbn [bind]; [|discriminate|exfalso; apply (last_edge_fuel _ X)].
  destruct (cle _ _); [|cbn [bind]; discriminate]. destruct (third_rec f a _ _ _) eqn:Y; cbn [bind]; [discriminate..|]. exfalso. apply (K _ _ Y).
Qed.

Lemma fourth_fuel : forall f p c s, length p <= a_dim a -> a_dim a < f + length p -> fourth_rec f a p c s <> OutOfFuel.
Proof.
  induction f as [|f IH]; intros p c s L F; [lia|]. cbn [fourth_rec]. destruct (Nat.eqb_spec (length p) (a_dim a)) as [E|E]; [apply leaf_fuel|].
  match goal with |- (x <- ?e ;; _) <> _ => destruct e as [[? ?]| |] eqn:Ee; cbn [bind]; [discriminate..|] end. exfalso. revert Ee. apply foldM_fuel.
  intros [d t] i _. destruct (memb i p); [discriminate|]. cbv zeta.
  assert (K : forall c s, fourth_rec f a (p ++ [i]) c s <> OutOfFuel) by (intros; apply IH; rewrite app_length; cbn [length]; lia).
  destruct (_ =? 1). { destruct (fourth_rec f a _ _ _) eqn:X; cbn [bind]; [discriminate..|]. exfalso. apply (K _ _ X). }
  destruct (last_edge a _) eqn:X; cbn [bind]; [|discriminate|exfalso; apply (last_edge_fuel _ X)].
  destruct (compute_nn_of_remaining_vertices a _ _) eqn:Z; cbn [bind]; [|discriminate|exfalso; apply (nn_bound_fuel _ _ Z)].
  destruct (cle _ _); [|cbn [bind]; discriminate]. destruct (fourth_rec f a _ _ _) eqn:Y; cbn [bind]; [discriminate..|]. exfalso. apply (K _ _ Y).
Qed.

Section Searches.
Variables i j : nat.
Hypotheses (Hi : i < a_dim a) (Hj : j < a_dim a) (Hij : i <> j) (Hget : a_get a i j = Panic).

Lemma second_panics : second_improved_solver a = Panic.
Proof.
  unfold second_improved_solver. cbn [second_rec length]. destruct (Nat.eqb_spec 0 (a_dim a)) as [E|_]; [lia|].
  rewrite (foldM_panics _ i); [reflexivity|apply in_seq; lia| |].
  - intros [c s] x Hx. cbn [memb app length Nat.eqb]. destruct (second_rec _ a [x] c s) eqn:X; cbn [bind]; [discriminate..|]. exfalso.
    revert X. apply second_fuel; cbn [length]; lia.
  - intros [c s]. cbn [memb app length Nat.eqb]. destruct (a_dim a) as [|n] eqn:En; [lia|]. cbn [second_rec length]. rewrite En.
    destruct (Nat.eqb_spec 1 (S n)) as [E|_]; [lia|].
    rewrite (foldM_panics _ j); [reflexivity|apply in_seq; lia| |].
    + intros [d t] x Hx. destruct (memb x [i]); [discriminate|]. cbn [app length Nat.eqb].
      destruct (last_edge a _) eqn:X; cbn [bind]; [|discriminate|exfalso; apply (last_edge_fuel _ X)].
      destruct (second_rec n a _ _ _) eqn:Y; cbn [bind]; [discriminate..|]. exfalso. revert Y. apply second_fuel; cbn [length]; lia.
    + intros [d t]. cbn [memb]. destruct (memb j [i]) eqn:M; [exfalso; apply memb_In in M; destruct M as [M|[]]; congruence|].
      cbn [app length Nat.eqb]. unfold last_edge. cbn [length Nat.sub Nat.add nth_res nth_error bind]. unfold nth_res. cbn [nth_error bind]. rewrite Hget. reflexivity.
Qed.

Lemma third_panics : third_improved_solver a = Panic.
Proof.
  unfold third_improved_solver. cbn [third_rec length]. destruct (Nat.eqb_spec 0 (a_dim a)) as [E|_]; [lia|].
  rewrite (foldM_panics _ i); [reflexivity|apply in_seq; lia| |].
  - intros [c s] x Hx. cbn [memb app length Nat.eqb]. destruct (third_rec _ a [x] c s) eqn:X; cbn [bind]; [discriminate..|]. exfalso.
    revert X. apply third_fuel; cbn [length]; lia.
  - intros [c s]. cbn [memb app length Nat.eqb]. destruct (a_dim a) as [|n] eqn:En; [lia|]. cbn [third_rec length]. rewrite En.
    destruct (Nat.eqb_spec 1 (S n)) as [E|_]; [lia|].
    rewrite (foldM_panics _ j); [reflexivity|apply in_seq; lia| |].
    + intros [d t] x Hx. destruct (memb x [i]); [discriminate|]. cbn [app length Nat.eqb].
      destruct (last_edge a _) eqn:X; cbn [bind]; [|discriminate|exfalso; apply (last_edge_fuel _ X)].
      destruct (cle _ _); [|cbn [bind]; discriminate]. destruct (third_rec n a _ _ _) eqn:Y; cbn [bind]; [discriminate..|]. exfalso. revert Y. apply third_fuel; cbn [length]; lia.
    + intros [d t]. cbn [memb]. destruct (memb j [i]) eqn:M; [exfalso; apply memb_In in M; destruct M as [M|[]]; congruence|].
      cbn [app length Nat.eqb]. unfold last_edge. cbn [length Nat.sub Nat.add nth_res nth_error bind]. unfold nth_res. cbn [nth_error bind]. rewrite Hget. reflexivity.
Qed.

Lemma fourth_panics : fourth_improved_solver a = Panic.
Proof.
  unfold fourth_improved_solver. cbn [fourth_rec length]. destruct (Nat.eqb_spec 0 (a_dim a)) as [E|_]; [lia|].
  rewrite (foldM_panics _ i); [reflexivity|apply in_seq; lia| |].
  - intros [c s] x Hx. cbn [memb app length Nat.eqb]. destruct (fourth_rec _ a [x] c s) eqn:X; cbn [bind]; [discriminate..|]. exfalso.
    revert X. apply fourth_fuel; cbn [length]; lia.
  - intros [c s]. cbn [memb app length Nat.eqb]. destruct (a_dim a) as [|n] eqn:En; [lia|]. cbn [fourth_rec length]. rewrite En.
    destruct (Nat.eqb_spec 1 (S n)) as [E|_]; [lia|].
    rewrite (foldM_panics _ j); [reflexivity|apply in_seq; lia| |].
    + intros [d t] x Hx. destruct (memb x [i]); [discriminate|]. cbn [app length Nat.eqb].
      destruct (last_edge a _) eqn:X; cbn [bind]; [|discriminate|exfalso; apply (last_edge_fuel _ X)].
      destruct (compute_nn_of_remaining_vertices a _ _) eqn:Z; cbn [bind]; [|discriminate|exfalso; apply (nn_bound_fuel _ _ Z)].
      destruct (cle _ _); [|cbn [bind]; discriminate]. destruct (fourth_rec n a _ _ _) eqn:Y; cbn [bind]; [discriminate..|]. exfalso. revert Y. apply fourth_fuel; cbn [length]; lia.
    + intros [d t]. cbn [memb]. destruct (memb j [i]) eqn:M; [exfalso; apply memb_In in M; destruct M as [M|[]]; congruence|].
      cbn [app length Nat.eqb]. unfold last_edge. cbn [length Nat.sub Nat.add nth_res nth_error bind]. unfold nth_res. cbn [nth_error bind]. rewrite Hget. reflexivity.
Qed.
End Searches.
End Missing.

Section Rows.
Context {N : Num}.

Lemma vm_fuel (m : vecmatrix N) i j : vm_get m i j <> OutOfFuel.
Proof. unfold vm_get. destruct (nth_res m i) as [r| |] eqn:E; cbn [bind]; [apply nth_res_fuel|discriminate|exfalso; apply (nth_res_fuel _ _ E)]. Qed.

Lemma vm_get_cell (m : vecmatrix N) i j : has_cell m i j -> vm_get m i j = Ok (nth j (nth i m []) c0).
Proof. intros [Hi Hj]. unfold vm_get. rewrite (nth_res_nth _ _ []) by assumption. cbn [bind]. apply nth_res_nth. exact Hj. Qed.

Lemma vm_get_none (m : vecmatrix N) i j : ~ has_cell m i j -> vm_get m i j = Panic.
Proof.
  intros H. unfold vm_get. destruct (le_lt_dec (length m) i) as [L|L].
  - unfold nth_res. rewrite (proj2 (nth_error_None m i)) by assumption. reflexivity.
  - rewrite (nth_res_nth _ _ []) by assumption. cbn [bind]. unfold nth_res. rewrite (proj2 (nth_error_None _ j)); [reflexivity|].
    destruct (le_lt_dec (length (nth i m [])) j) as [K|K]; [exact K|]. exfalso. apply H. split; assumption.
Qed.

Lemma has_cell_dec {A} (m : list (list A)) i j : {has_cell m i j} + {~ has_cell m i j}.
Proof.
  unfold has_cell. destruct (lt_dec i (length m)) as [H|H]; [|right; tauto]. destruct (lt_dec j (length (nth i m []))) as [K|K]; [left|right]; tauto.
Qed.

Lemma left_square_get (m : vecmatrix N) i j : i < length m -> j < length m -> vm_get (left_square m) i j = vm_get m i j.
Proof.
  intros Hi Hj. assert (E : nth i (left_square m) [] = firstn (length m) (nth i m [])).
  { unfold left_square. rewrite (nth_indep _ [] (firstn (length m) [])) by (rewrite map_length; exact Hi). apply map_nth. }
  assert (Hl : length (left_square m) = length m) by apply map_length.
  assert (Hc : has_cell (left_square m) i j <-> has_cell m i j).
  { unfold has_cell. rewrite Hl, E, firstn_length. lia. }
  destruct (has_cell_dec m i j) as [H|H].
  - rewrite (vm_get_cell m i j H), (vm_get_cell (left_square m) i j (proj2 Hc H)), E. apply (f_equal (@Ok (C N))). destruct H as [_ H]. clear -Hj H.
    transitivity (nth j (firstn (length m) (nth i m []) ++ skipn (length m) (nth i m [])) c0); [|rewrite firstn_skipn; reflexivity].
    symmetry. apply app_nth1. rewrite firstn_length. lia.
  - rewrite (vm_get_none m i j H). apply vm_get_none. rewrite Hc. exact H.
Qed.
End Rows.
