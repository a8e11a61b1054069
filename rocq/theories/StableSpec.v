(** Costs that differ a little. *)
From Coq Require Import ZArith.

(** no cost is raised by more than [d] (lowered by at least [-d] if [d] is negative) *)
Definition raised_by_at_most (n : nat) (w w' : nat -> nat -> Z) (d : Z) : Prop :=
  forall i j, (i < n)%nat -> (j < n)%nat -> (w' i j <= w i j + d)%Z.
