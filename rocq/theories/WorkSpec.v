(** What the property about the work of the exact solvers says, without the solvers. *)
From Coq Require Import Arith List.
Import ListNotations.

(** the cells on the way round a closed tour: the closing edge and the edges from one vertex to the next; a tour of
    fewer than two vertices has none *)
Definition circle_cells (p : list nat) : list (nat * nat) :=
  match p with
  | [] | [_] => []
  | h :: t => (last t h, h) :: combine p t
  end.

(** a search tree in which [m] vertices are still to be placed: one cell for the closing edge if there is none, else for
    each of them the cell of the new edge, [extra (m - 1)] further cells, and the tree below *)
Fixpoint tree_cells (extra : nat -> nat) (m : nat) : nat :=
  match m with
  | O => 1
  | S k => S k * (1 + extra k + tree_cells extra k)
  end.

(** the number of pairs of [m] vertices *)
Fixpoint pairs_of (m : nat) : nat :=
  match m with O => 0 | S k => k + pairs_of k end.
