(** Rows of numbers that need not form a square. *)
From Coq Require Import Arith List.
Import ListNotations.

(** row [i] has an entry in column [j] *)
Definition has_cell {A} (m : list (list A)) (i j : nat) : Prop := i < length m /\ j < length (nth i m []).

(** the square on the left of rows that are long enough *)
Definition left_square {A} (m : list (list A)) : list (list A) := map (firstn (length m)) m.
