(** An instance with every way turned round. *)
From Coq Require Import ZArith.

Definition reversed (w : nat -> nat -> Z) : nat -> nat -> Z := fun i j => w j i.
