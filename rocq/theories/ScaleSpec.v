(** The same instance in another unit. *)
From Coq Require Import ZArith List.
From Verif Require Import Num Base Data.
Import ListNotations.

(** a length in a unit that is [k] times smaller; an absent edge stays absent *)
Definition in_unit (k : Z) (x : C EZ) : C EZ := match x with Fin z => Fin (k * z) | _ => x end.

(** every cell of the matrix, every edge of the graph, the cost of the tour *)
Definition matrix_in_unit (k : Z) (m : namatrix EZ) : namatrix EZ := mkNA (na_dim m) (map (in_unit k) (na_data m)).
Definition edge_in_unit (k : Z) (e : edge EZ) : edge EZ := mkEdge (e_to e) (in_unit k (e_cost e)).
Definition graph_in_unit (k : Z) (g : graph EZ) : graph EZ := map (map (edge_in_unit k)) g.
Definition tour_in_unit (k : Z) (s : C EZ * list nat) : C EZ * list nat := (in_unit k (fst s), snd s).

(** the outcome, be it a value or a panic *)
Definition outcome {A} (f : A -> A) (r : res A) : res A :=
  match r with Ok a => Ok (f a) | Panic => Panic | OutOfFuel => OutOfFuel end.

(** half of the cost is one of the numbers too *)
Definition has_half (x : C EZ) : Prop := match x with Fin z => exists p, z = (2 * p)%Z | _ => True end.
