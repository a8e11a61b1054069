(** Tours and trees when the costs change a little. *)
From Coq Require Import ZArith Arith Bool List Permutation Lia.
From Verif Require Import Spec SpecFacts RenameProofs BoundsProofs StableSpec.
Import ListNotations.
Local Open Scope Z_scope.

Section Stable.
Context (n : nat) (w w' : nat -> nat -> Z) (d : Z).
Hypothesis H : raised_by_at_most n w w' d.

Lemma path_raised p : (forall v, In v p -> (v < n)%nat) -> forall a, (a < n)%nat -> path_cost w' (a :: p) <= path_cost w (a :: p) + d * Z.of_nat (length p).
Proof.
  induction p as [|b p IH]; intros Hp a Ha; [cbn; lia|].
  specialize (IH ltac:(intros v Hv; apply Hp; right; exact Hv) b ltac:(apply Hp; left; reflexivity)).
  pose proof (H a b Ha ltac:(apply Hp; left; reflexivity)) as Hab.
  change (path_cost w' (a :: b :: p)) with (w' a b + path_cost w' (b :: p)). change (path_cost w (a :: b :: p)) with (w a b + path_cost w (b :: p)). cbn [length]. lia.
Qed.

Lemma tour_raised p : is_tour n p -> tour_cost w' p <= tour_cost w p + d * Z.of_nat n.
Proof.
  intros Hp. pose proof (Permutation_length Hp) as Hl. rewrite seq_length in Hl. rewrite <- Hl.
  assert (Hv : forall v, In v p -> (v < n)%nat) by (intros v Hv; apply (Permutation_in v Hp), in_seq in Hv; lia).
  destruct p as [|a p]; [cbn; lia|]. unfold tour_cost.
  pose proof (path_raised p ltac:(intros v Hi; apply Hv; right; exact Hi) a ltac:(apply Hv; left; reflexivity)) as K.
  assert (Hlast : (last (a :: p) a < n)%nat).
  { apply Hv. assert (E : a :: p <> []) by discriminate. pose proof (app_removelast_last a E) as F. rewrite F at 2. apply in_or_app. right. left. reflexivity. }
  pose proof (H _ a Hlast ltac:(apply Hv; left; reflexivity)). cbn [length]. lia.
Qed.

Lemma optimal_raised c c' p q : is_optimal w n c p -> is_optimal w' n c' q -> c' <= c + d * Z.of_nat n.
Proof. intros (Hp & Ep & _) (Hq & _ & Mq). specialize (Mq p Hp). pose proof (tour_raised p Hp). lia. Qed.

Lemma edges_raised E : (forall a b, In (a, b) E -> (a < n)%nat /\ (b < n)%nat) -> edges_cost w' E <= edges_cost w E + d * Z.of_nat (length E).
Proof.
  induction E as [|[a b] E IH]; intros HE; [cbn; lia|]. specialize (IH ltac:(intros x y Hx; apply HE; right; exact Hx)).
  destruct (HE a b ltac:(left; reflexivity)) as [Ha Hb]. pose proof (H a b Ha Hb). unfold edges_cost in *. cbn [fold_right length fst snd] in *. lia.
Qed.

Lemma tree_raised X T T' : spanning_tree (free_vertices n X) T -> spanning_tree (free_vertices n X) T' ->
  (forall U, spanning_tree (free_vertices n X) U -> edges_cost w' T' <= edges_cost w' U) ->
  edges_cost w' T' <= edges_cost w T + d * (Z.of_nat (length (free_vertices n X)) - 1).
Proof.
  intros HT HT' MT'. specialize (MT' T HT). destruct HT as (V & _ & L).
  assert (HE : forall a b, In (a, b) T -> (a < n)%nat /\ (b < n)%nat).
  { intros a b Hab. destruct (V a b Hab) as [Ha Hb]. unfold free_vertices in Ha, Hb. apply filter_In in Ha, Hb. destruct Ha as [Ha _], Hb as [Hb _]. apply in_seq in Ha, Hb. lia. }
  pose proof (edges_raised T HE). replace (Z.of_nat (length (free_vertices n X)) - 1) with (Z.of_nat (length T)) by lia. lia.
Qed.

Lemma one_tree_raised c c' : one_tree_value n w c -> one_tree_value n w' c' -> c' <= c + d * Z.of_nat n.
Proof.
  intros [_ A] [(s' & F' & Hs' & HF' & EF' & MF') _]. destruct (A s' Hs') as (G & HG & Hle). specialize (MF' G HG).
  assert (HE : forall a b, In (a, b) G -> (a < n)%nat /\ (b < n)%nat) by (intros a b Hab; apply (one_tree_lt n s' G a b Hs' HG Hab)).
  pose proof (edges_raised G HE) as K.
  assert (L : Z.of_nat (length G) = Z.of_nat n).
  { destruct HG as (T & a & b & -> & (_ & _ & HL) & _). pose proof (free_length n s' Hs') as Hf. rewrite app_length. cbn [length]. lia. }
  rewrite L in K. lia.
Qed.
End Stable.
