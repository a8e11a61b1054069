(** Model of utils/NN_approx.py, the script with which the expected values of the tests of the nearest-neighbour
    heuristic were made, and of [convert_to_rust_code] in utils/tsp_logic.py. *)
From Coq Require Import ZArith Arith Bool List.
From Verif Require Import Num Base Data.
Import ListNotations.

(** Python's [min(xs, key=key)]: the first of the smallest; [ValueError] without elements *)
Definition py_min (key : nat -> Z) (xs : list nat) : res nat :=
  match xs with
  | [] => Panic
  | x :: t => Ok (fold_left (fun best y => if (key y <? key best)%Z then y else best) t x)
  end.

(** NN_approx.py:22-27, the loop [while unvisited].  A Python set has no promised order of iteration: [order] is the order in
    which its elements come.  [rounds] is the number of its elements. *)
Fixpoint py_loop (order : list nat -> list nat) (w : nat -> nat -> Z) (rounds : nat) (path unvisited : list nat)
    (current : nat) : res (list nat) :=
  match rounds with
  | O => Ok path
  | S rounds =>
    nearest <- py_min (w current) (order unvisited) ;;
    py_loop order w rounds (path ++ [nearest]) (filter (fun v => negb (v =? nearest)) unvisited) nearest
  end.

(** NN_approx.py:29-30 *)
Definition py_cost (w : nat -> nat -> Z) (n : nat) (path : list nat) : Z :=
  (fold_left Z.add (map (fun i => w (nth i path 0%nat) (nth (i + 1) path 0%nat)) (seq 0 (n - 1))) 0 +
   w (last path 0%nat) (nth 0 path 0%nat))%Z.

(** NN_approx.py:14-32 without the trace; [unvisited.remove(start_node)] raises [KeyError] for a node that is not there *)
Definition tsp_nearest_neighbour (order : list nat -> list nat) (w : nat -> nat -> Z) (n start : nat) : res (list nat * Z) :=
  if start <? n then
    path <- py_loop order w (n - 1) [start] (filter (fun v => negb (v =? start)) (seq 0 n)) start ;;
    Ok (path, py_cost w n path)
  else Panic.

(** CPython's sets of small numbers come in increasing order *)
Definition increasing (xs : list nat) : list nat := xs.

(** NN_approx.py:6-11: [a] is the matrix of random numbers *)
Definition generate_graph_matrix (a : nat -> nat -> Z) (i j : nat) : Z :=
  let filled i j := if i =? j then 0%Z else a i j in
  ((filled i j + filled j i) / 2)%Z.

(** tsp_logic.py:23-34, the value that the Rust code stands for; [inj] is the cost as a literal *)
Definition convert_to_rust_code {N : Num} (inj : Z -> C N) (w : nat -> nat -> Z) (n : nat) : graph N :=
  map (fun i => flat_map (fun j => if negb (i =? j) && negb (w i j =? 0)%Z then [mkEdge j (inj (w i j))] else []) (seq 0 n))
    (seq 0 n).
