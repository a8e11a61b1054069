(** Lengths of tours as real numbers.  Part of the vocabulary of the properties. *)
From Coq Require Import Reals List.
Import ListNotations.
Local Open Scope R_scope.

(** Length of walking along a list of vertices at the distances [d]. *)
Fixpoint path_length (d : nat -> nat -> R) (p : list nat) : R :=
  match p with
  | a :: ((b :: _) as t) => d a b + path_length d t
  | _ => 0
  end.
(** ... and back from the last to the first. *)
Definition tour_length (d : nat -> nat -> R) (p : list nat) : R :=
  match p with
  | [] => 0
  | a :: _ => path_length d p + d (last p a) a
  end.
