(** Model of src/one_tree.rs. *)
From Coq Require Import Arith Bool List.
From Verif Require Import Num Base Data Mst Par MstPar.
Import ListNotations.

Section OneTree.
Context {N : Num}.

(** one_tree.rs:44-61: one cell of the row; the two cheapest edges seen so far *)
Definition best_two (special : nat) (acc : edge N * edge N) (x : nat * C N) : edge N * edge N :=
  let '(fst_min, snd_min) := acc in
  let '(to, cost) := x in
  if to =? special then acc
  else if clt cost (e_cost fst_min) then (mkEdge to cost, fst_min)
  else if clt cost (e_cost snd_min) then (fst_min, mkEdge to cost)
  else acc.

(** one_tree.rs:26-68.  (The [debug_assert] coincides with the panic of [graph.row].) *)
Definition one_tree (m : namatrix N) (special : nat) : res (graph N) :=
  mst <- prim_with_excluded_node_single_threaded m [special] ;;
  row <- na_row m special ;;
  let '(e1, e2) := fold_left (best_two special) (combine (seq 0 (length row)) row)
                             (mkEdge special cinf, mkEdge special cinf) in
  mst <- add_undirected_edge mst special (e_to e1) (e_cost e1) ;;
  add_undirected_edge mst special (e_to e2) (e_cost e2).

(** one_tree.rs:92, 107, 131: the closure given to [map] *)
Definition one_tree_weight (m : namatrix N) (special : nat) : res (C N) :=
  t <- one_tree m special ;; Ok (undirected_edge_weight t).

(** one_tree.rs:93-96, 108-111, 132-135: [max_by] keeps the right one of two equal values;
    comparing with NaN panics ([None]). *)
Definition max_step (x y : option (C N)) : option (C N) :=
  match x, y with
  | Some a, Some b =>
    match cpartial_cmp a b with
    | Some Gt => Some a
    | Some _ => Some b
    | None => None
    end
  | _, _ => None
  end.

(** the value of a reduction: panics when it is empty or when a comparison panicked *)
Definition expect_max (x : option (option (C N))) : res (C N) :=
  match x with Some (Some c) => Ok c | _ => Panic end.

(** one_tree.rs:90-98.  All weights are computed before the maximum is taken; the source
    alternates, with the same result or panic. *)
Definition one_tree_lower_bound_seq (m : namatrix N) : res (C N) :=
  ws <- mapM (one_tree_weight m) (seq 0 (na_dim m)) ;;
  expect_max (seq_reduce max_step (map Some ws)).

(** one_tree.rs:104-113, for the reduction tree [t] *)
Definition one_tree_lower_bound_par (t : rtree) (m : namatrix N) : res (C N) :=
  ws <- mapM (one_tree_weight m) (seq 0 (na_dim m)) ;;
  expect_max (par_reduce max_step (map Some) t ws).

(** [(rank..dim).step_by(size)] *)
Definition stepped (rank dim size : nat) : list nat :=
  filter (fun i => (i - rank) mod size =? 0) (seq rank (dim - rank)).

(** one_tree.rs:127-136: the bound computed by one process *)
Definition local_lower_bound (m : namatrix N) (size rank : nat) : res (C N) :=
  ws <- mapM (one_tree_weight m) (stepped rank (na_dim m) size) ;;
  expect_max (seq_reduce max_step (map Some ws)).

(** [SystemOperation::max] on doubles *)
Definition mpi_max (x y : C N) : C N := if clt x y then y else x.

(** one_tree.rs:120-157: what the processes [0 .. size-1] return.  MPI may combine the values
    in any order and association: [order] and [t].  A panic of one process aborts all. *)
Definition one_tree_lower_bound_mpi (order : list nat) (t : rtree) (m : namatrix N) (size : nat)
  : res (list (C N)) :=
  locals <- mapM (local_lower_bound m size) order ;;
  match par_reduce mpi_max (fun l => l) t locals with
  | Some g => Ok (g :: repeat cinf (size - 1))
  | None => Panic
  end.

End OneTree.
