(** An instance with one vertex left out. *)
From Coq Require Import ZArith Arith.

(** the vertices after [v] move up by one *)
Definition skip (v i : nat) : nat := if i <? v then i else S i.
Definition without (w : nat -> nat -> Z) (v : nat) : nat -> nat -> Z := fun i j => w (skip v i) (skip v j).
