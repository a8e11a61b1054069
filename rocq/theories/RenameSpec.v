(** The same instance with other names for the vertices. *)
From Coq Require Import ZArith List Permutation.
Import ListNotations.

(** [f] is a permutation of [0 .. n-1]: the vertex that is now called [i] was called [f i] *)
Definition renaming (n : nat) (f : nat -> nat) : Prop := Permutation (map f (seq 0 n)) (seq 0 n).
Definition renamed (w : nat -> nat -> Z) (f : nat -> nat) : nat -> nat -> Z := fun i j => w (f i) (f j).

(** no two ways out of a vertex are equally long *)
Definition no_ties (w : nat -> nat -> Z) (n : nat) : Prop :=
  forall i a b, i < n -> a < n -> b < n -> a <> i -> b <> i -> w i a = w i b -> a = b.
