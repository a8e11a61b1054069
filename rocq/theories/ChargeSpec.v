(** An instance with a charge at every vertex. *)
From Coq Require Import ZArith List.
Import ListNotations.
Local Open Scope Z_scope.

(** [out i] is paid on leaving [i], [into j] on arriving at [j] *)
Definition charged (w : nat -> nat -> Z) (out into : nat -> Z) : nat -> nat -> Z := fun i j => w i j + out i + into j.

(** what a tour of [n] vertices pays *)
Definition total (t : nat -> Z) (p : list nat) : Z := fold_right (fun v acc => t v + acc) 0 p.
Definition charges (n : nat) (out into : nat -> Z) : Z := total out (seq 0 n) + total into (seq 0 n).

(** the same amount on every edge *)
Definition surcharged (w : nat -> nat -> Z) (d : Z) : nat -> nat -> Z := fun i j => w i j + d.
