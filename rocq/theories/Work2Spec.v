(** What the property about the work of the polynomial algorithms says, without the algorithms. *)
From Coq Require Import Arith List.
From Verif Require Import Base.
Import ListNotations.

(** all triples in the order of the triangle check: for i <= j the direct way, then for every k the two legs of the detour *)
Definition detour (i j k : nat) : list (nat * nat) := [(i, k); (k, j)].
Definition triangle_cells (n : nat) : list (nat * nat) :=
  flat_map (fun i => flat_map (fun j => (i, j) :: flat_map (detour i j) (seq 0 n)) (seq i (n - i))) (seq 0 n).

(** a walk that at every vertex but the last looks at the ways to the vertices it has not seen *)
Fixpoint greedy_cells (n : nat) (seen p : list nat) : list (nat * nat) :=
  match p with
  | cur :: ((_ :: _) as rest) =>
    map (pair cur) (filter (fun v => negb (memb v (cur :: seen))) (seq 0 n)) ++ greedy_cells n (cur :: seen) rest
  | _ => []
  end.

(** the cells of row [v] *)
Definition row_cells (n v : nat) : list (nat * nat) := map (pair v) (seq 0 n).
