(** Cost matrices written as functions, for readable statements. *)
From Coq Require Import ZArith Arith Bool List Permutation Lia.
From Verif Require Import Num NumB64 Base Spec SpecFacts Data Mst Exact Dfs PrimProofs.
Import ListNotations.

(** The [n] x [n] matrix whose cell (row [i], column [j]) is [f i j]. *)
Definition matrix_of {N : Num} (n : nat) (f : nat -> nat -> C N) : namatrix N :=
  mkNA n (map (fun k => f (k mod n) (k / n)) (seq 0 (n * n))).

(** The matrix of the integer costs [w], in exact arithmetic ... *)
Definition int_matrix (n : nat) (w : nat -> nat -> Z) : namatrix EZ :=
  matrix_of n (fun i j => Fin (w i j) : C EZ).

(** ... and in IEEE doubles: the costs are [w i j * 2^e]. *)
Definition f64_matrix (e : Z) (n : nat) (w : nat -> nat -> Z) : namatrix B64 :=
  matrix_of n (fun i j => b64_inj e (w i j) : C B64).

(** The same through any exact embedding of the integers. *)
Definition emb_matrix {N B} (E : Exact N B) (n : nat) (w : nat -> nat -> Z) : namatrix N :=
  matrix_of n (fun i j => inj E (w i j)).

Lemma matrix_of_dim {N} n (f : nat -> nat -> C N) : na_dim (matrix_of n f) = n.
Proof. reflexivity. Qed.

Lemma matrix_of_wf {N} n (f : nat -> nat -> C N) : na_wf (matrix_of n f).
Proof. unfold na_wf. simpl. rewrite map_length, seq_length. reflexivity. Qed.

Lemma matrix_of_get {N} n (f : nat -> nat -> C N) i j : i < n -> j < n ->
  na_get (matrix_of n f) i j = Ok (f i j).
Proof.
  intros Hi Hj. unfold na_get. simpl na_dim.
  replace (i <? n) with true by (symmetry; apply Nat.ltb_lt; assumption).
  replace (j <? n) with true by (symmetry; apply Nat.ltb_lt; assumption). simpl andb. cbv iota.
  pose proof (cell_bound n i j Hi Hj) as Hb. simpl na_data.
  rewrite (nth_res_nth _ _ (f (0 mod n) (0 / n))) by (rewrite map_length, seq_length; assumption).
  rewrite (map_nth (fun k => f (k mod n) (k / n))). rewrite seq_nth by assumption. simpl plus.
  replace (j * n + i) with (i + j * n) by lia.
  rewrite Nat.mod_add, Nat.div_add by lia. rewrite Nat.mod_small, Nat.div_small by assumption. reflexivity.
Qed.

Lemma emb_represents {N B} (E : Exact N B) n w : represents E (na_adj (emb_matrix E n w)) w.
Proof. intros i j Hi Hj _. exact (matrix_of_get n (fun i j => inj E (w i j)) i j Hi Hj). Qed.

Lemma na_ext {N} (m m' : namatrix N) : na_wf m -> na_wf m' -> na_dim m = na_dim m' ->
  (forall i j, i < na_dim m -> j < na_dim m -> na_get m i j = na_get m' i j) -> m = m'.
Proof.
  intros H1 H2 Hd H. destruct m as [n d], m' as [n' d']. simpl in *. subst n'. f_equal.
  unfold na_wf in *. simpl in *.
  destruct d as [|x d0] eqn:Ed.
  - destruct d'; [reflexivity|]. simpl in *. lia.
  - rewrite <- Ed in *. clear Ed. apply (nth_ext _ _ x x); [lia|]. intros k Hk.
    assert (Hn : n <> 0) by (intros ->; simpl in *; lia).
    assert (Hi : k mod n < n) by (apply Nat.mod_upper_bound; assumption).
    assert (Hj : k / n < n) by (apply Nat.div_lt_upper_bound; lia).
    specialize (H (k mod n) (k / n) Hi Hj). unfold na_get in H. simpl in H.
    replace (k mod n <? n) with true in H by (symmetry; apply Nat.ltb_lt; assumption).
    replace (k / n <? n) with true in H by (symmetry; apply Nat.ltb_lt; assumption). simpl in H.
    replace (k / n * n + k mod n) with k in H by (pose proof (Nat.div_mod k n Hn); lia).
    rewrite !(nth_res_nth _ _ x) in H by lia. congruence.
Qed.

(** Every matrix of finite cells is one of these. *)
Theorem int_matrix_complete (m : namatrix EZ) : na_wf m ->
  (forall x, In x (na_data m) -> exists z, x = Fin z) ->
  exists w, m = int_matrix (na_dim m) w.
Proof.
  intros Hwf Hfin.
  exists (fun i j => match na_val m i j with Fin z => z | _ => 0%Z end).
  apply na_ext; [assumption|apply matrix_of_wf|reflexivity|].
  intros i j Hi Hj. unfold int_matrix. rewrite matrix_of_get by assumption.
  rewrite na_get_val by assumption. f_equal.
  destruct (Hfin (na_val m i j)) as [z ->]; [|reflexivity].
  unfold na_val. apply nth_In. rewrite Hwf. apply cell_bound; assumption.
Qed.

Lemma bound_exists (w : nat -> nat -> Z) n : exists W, bounded w n W /\ (0 <= W)%Z.
Proof.
  set (l := map (fun k => Z.abs (w (k mod n) (k / n))) (seq 0 (n * n))).
  exists (fold_right Z.max 0%Z l). split.
  - intros i j Hi Hj.
    assert (Hin : In (Z.abs (w i j)) l).
    { unfold l. apply in_map_iff. exists (j * n + i). split.
      - replace (j * n + i) with (i + j * n) by lia.
        rewrite Nat.mod_add, Nat.div_add by lia. rewrite Nat.mod_small, Nat.div_small by assumption. reflexivity.
      - apply in_seq. pose proof (cell_bound n i j Hi Hj). lia. }
    revert Hin. generalize (Z.abs (w i j)). clear. induction l as [|x l IH]; simpl; intros z; [intros []|]. intros [->|H].
    + lia.
    + specialize (IH z H). lia.
  - clear. induction l; simpl; lia.
Qed.

(** A bound that makes any requirement of the form [k * W * (n + 1) <= B] true. *)
Lemma EZ_bound (k : Z) (w : nat -> nat -> Z) n : (0 <= k)%Z -> exists W B, bounded w n W /\ (0 <= W)%Z /\ (k * W * (Z.of_nat n + 1) <= B)%Z.
Proof. intros Hk. destruct (bound_exists w n) as (W & H1 & H2). exists W, (k * W * (Z.of_nat n + 1))%Z. repeat split; try assumption. lia. Qed.

(** Matrices given as tables, for the examples. *)
Definition table (rows : list (list Z)) (i j : nat) : Z := nth j (nth i rows []) 0%Z.

Lemma forallb_pairs (f : nat -> nat -> bool) n :
  forallb (fun i => forallb (f i) (seq 0 n)) (seq 0 n) = true ->
  forall i j, i < n -> j < n -> f i j = true.
Proof.
  intros H i j Hi Hj. rewrite forallb_forall in H. specialize (H i ltac:(apply in_seq; lia)).
  rewrite forallb_forall in H. apply H. apply in_seq. lia.
Qed.

Definition symmetricb (w : nat -> nat -> Z) n : bool :=
  forallb (fun i => forallb (fun j => Z.eqb (w i j) (w j i)) (seq 0 n)) (seq 0 n).
Definition nonnegb (w : nat -> nat -> Z) n : bool :=
  forallb (fun i => forallb (fun j => Z.leb 0 (w i j)) (seq 0 n)) (seq 0 n).
Definition triangleb (w : nat -> nat -> Z) n : bool :=
  forallb (fun i => forallb (fun j => forallb (fun k => Z.leb (w i j) (w i k + w k j)) (seq 0 n)) (seq 0 n)) (seq 0 n).

Lemma symmetric_dec w n : symmetricb w n = true -> symmetric w n.
Proof.
  intros H i j Hi Hj. apply Z.eqb_eq.
  apply (forallb_pairs (fun i j => Z.eqb (w i j) (w j i)) n); assumption.
Qed.
Lemma nonneg_dec w n : nonnegb w n = true -> nonneg w n.
Proof.
  intros H i j Hi Hj. apply Z.leb_le.
  apply (forallb_pairs (fun i j => Z.leb 0 (w i j)) n); assumption.
Qed.
Lemma triangle_dec w n : triangleb w n = true -> triangle w n.
Proof.
  intros H i j k Hi Hj Hk. apply Z.leb_le.
  pose proof (forallb_pairs (fun i j => forallb (fun k => Z.leb (w i j) (w i k + w k j)) (seq 0 n)) n H i j Hi Hj) as H1.
  simpl in H1. rewrite forallb_forall in H1. apply H1. apply in_seq. lia.
Qed.

(** is_tour is decidable *)
Fixpoint removeb (x : nat) (l : list nat) : option (list nat) :=
  match l with
  | [] => None
  | y :: t => if x =? y then Some t else option_map (cons y) (removeb x t)
  end.
Fixpoint permb (p q : list nat) : bool :=
  match p with
  | [] => match q with [] => true | _ => false end
  | x :: t => match removeb x q with Some q' => permb t q' | None => false end
  end.
Lemma removeb_perm x l l' : removeb x l = Some l' -> Permutation l (x :: l').
Proof.
  revert l'. induction l as [|y l IH]; simpl; intros l' H; [discriminate|].
  destruct (Nat.eqb_spec x y) as [->|Hne]; [injection H as ->; apply Permutation_refl|].
  destruct (removeb x l) as [l0|]; simpl in H; [|discriminate]. injection H as <-.
  rewrite (IH l0 eq_refl). apply perm_swap.
Qed.
Lemma permb_perm p q : permb p q = true -> Permutation p q.
Proof.
  revert q. induction p as [|x p IH]; simpl; intros q H.
  - destruct q; [constructor|discriminate].
  - destruct (removeb x q) as [q'|] eqn:E; [|discriminate]. rewrite (removeb_perm _ _ _ E). apply perm_skip. auto.
Qed.
Lemma is_tour_dec n p : permb p (seq 0 n) = true -> is_tour n p.
Proof. apply permb_perm. Qed.

(** Checks a conjunction of concrete facts by computation. *)
Ltac concrete :=
  repeat match goal with |- _ /\ _ => split end;
  first [ apply symmetric_dec; vm_compute; reflexivity
        | apply nonneg_dec; vm_compute; reflexivity
        | apply triangle_dec; vm_compute; reflexivity
        | apply is_tour_dec; vm_compute; reflexivity
        | vm_compute; reflexivity
        | lia ].
