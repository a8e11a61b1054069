(** Model of src/solvers/approximate/nearest_neighbour.rs. *)
From Coq Require Import Arith Bool List.
From Verif Require Import Num Base Data Par Rand MstPar.
Import ListNotations.

Section Nn.
Context {N : Num}.

(** nearest_neighbour.rs:41-46: one cell of the scan for the nearest unvisited node *)
Definition nn_scan (m : namatrix N) (visited : list bool) (current : nat)
    (acc : option nat * C N) (node : nat) : res (option nat * C N) :=
  v <- nth_res visited node ;;
  if v then Ok acc
  else
    c <- na_get m current node ;;
    if clt c (snd acc) then Ok (Some node, c) else Ok acc.

(** nearest_neighbour.rs:37-57: the loop.  Every round appends one node to the path or panics,
    so the loop runs [rounds], the number of nodes missing in the path, times. *)
Fixpoint nn_loop (m : namatrix N) (rounds : nat) (path : list nat) (visited : list bool)
    (current : nat) (distance : C N) : res (list nat * nat * C N) :=
  match rounds with
  | O => Ok (path, current, distance)
  | S rounds =>
    '(nearest, min_distance) <- foldM (nn_scan m visited current) (seq 0 (na_dim m)) (None, cinf) ;;
    match nearest with
    | Some neighbour =>
      visited <- modify_res visited neighbour (fun _ => true) ;;
      nn_loop m rounds (path ++ [neighbour]) visited neighbour (cadd distance min_distance)
    | None => Panic
    end
  end.

(** nearest_neighbour.rs:26-62 *)
Definition single_nearest_neighbour (m : namatrix N) (index : nat) : res (solution N) :=
  if negb (index <? na_dim m) then Panic
  else
    visited <- modify_res (repeat false (na_dim m)) index (fun _ => true) ;;
    '(path, current, distance) <- nn_loop m (na_dim m - 1) [index] visited index c0 ;;
    c <- na_get m current index ;;
    Ok (cadd distance c, path).

(** nearest_neighbour.rs:65-71, for min = 0 *)
Definition n_random_numbers (draws : nat -> nat) (max k : nat) : list nat :=
  firstn k (shuffle draws (seq 0 max)).

(** [min_by_key(|&(distance, _)| OrderedFloat(distance))]: of two equal keys the first wins *)
Definition min_solution (x y : solution N) : solution N :=
  if olt (fst y) (fst x) then y else x.

(** [unwrap] *)
Definition unwrap {A} (x : option A) : res A := match x with Some a => Ok a | None => Panic end.

(** nearest_neighbour.rs:142-169: the reduction operator [(x, y) -> y] on (cost, rank) *)
Definition mpi_cost_rank_op (x y : C N * nat) : C N * nat :=
  let y := if clt (fst x) (fst y) then x else y in
  if ceq (fst x) (fst y) && (snd x <? snd y) then x else y.

(** nearest_neighbour.rs:134-146: the start nodes of a rank *)
Definition nn_chunk (n size rank : nat) : list nat :=
  let chunk_size := n / size in
  let start_node := chunk_size * rank in
  let end_node := start_node + chunk_size in
  let end_node := if (rank =? size - 1) && negb (n mod size =? 0) then n else end_node in
  seq start_node (end_node - start_node).

(** nearest_neighbour.rs:148-152 *)
Definition nn_local (m : namatrix N) (size rank : nat) : res (solution N) :=
  sols <- mapM (single_nearest_neighbour m) (nn_chunk (na_dim m) size rank) ;;
  unwrap (seq_reduce min_solution sols).

(** nearest_neighbour.rs:128-185: the pairs the ranks [0 .. size-1] return.  The operator is
    declared commutative, so MPI may combine the values in any order and association, and on
    different ranks in different ones: [order r] and [tree r] are those of the value delivered
    to rank [r].  The winner broadcasts its path; ranks disagreeing about the winner would
    call mismatching collectives, which is modelled as a panic.  The conversion of the
    dimension to [i32] is not modelled. *)
Definition nearest_neighbour_mpi (order : nat -> list nat) (tree : nat -> rtree)
    (m : namatrix N) (size : nat) : res (list (solution N)) :=
  locals <- mapM (nn_local m size) (seq 0 size) ;;
  let sendbuf r := match nth_error locals r with Some s => Some (fst s, r) | None => None end in
  recvs <- mapM (fun r =>
      vals <- mapM (fun q => unwrap (sendbuf q)) (order r) ;;
      unwrap (par_reduce mpi_cost_rank_op (fun l => l) (tree r) vals)) (seq 0 size) ;;
  winner <- first_res recvs ;;
  if forallb (fun rv => snd rv =? snd winner) recvs then
    best <- nth_res locals (snd winner) ;;
    Ok (map (fun rv => (fst rv, snd best)) recvs)
  else Panic.

(** What one call of the heuristic may depend on besides its arguments *)
Record nnenv := mkNnEnv {
  nn_draws : nat -> nat;           (* the random numbers of the shuffle *)
  nn_tree : rtree                  (* how rayon splits the reduction *)
}.

(** nearest_neighbour.rs:77-98, for the two modes that return one value *)
Definition n_nearest_neighbour (env : nnenv) (mode : nat) (m : namatrix N) (k : nat) : res (solution N) :=
  if k =? 0 then Panic
  else if negb (k <=? na_dim m) then Panic
  else if mode =? SEQ_COMPUTATION then
    sols <- mapM (single_nearest_neighbour m) (n_random_numbers (nn_draws env) (na_dim m) k) ;;
    unwrap (seq_reduce min_solution sols)
  else if mode =? PAR_COMPUTATION then
    sols <- mapM (single_nearest_neighbour m) (n_random_numbers (nn_draws env) (na_dim m) k) ;;
    unwrap (par_reduce min_solution (fun l => l) (nn_tree env) sols)
  else Panic.

(** nearest_neighbour.rs:101-103 *)
Definition nearest_neighbour (env : nnenv) (mode : nat) (m : namatrix N) : res (solution N) :=
  n_nearest_neighbour env mode m (na_dim m).

End Nn.
