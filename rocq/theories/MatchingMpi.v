(** Model of the MPI part of src/solvers/approximate/matching.rs and of the run of Christofides'
    algorithm with MPI (src/lib.rs), process by process. *)
From Coq Require Import Arith Bool List.
From Verif Require Import Num Base Data Rand Mst Par MstPar Matching Christofides Spmd.
Import ListNotations.

Section MatchingMpi.
Context {N : Num}.

(** what is sent: a usize, an f64, a slice of usize, a slice of f64 *)
Inductive msg := MNat (n : nat) | MCost (c : C N) | MNats (l : list nat) | MCosts (l : list (C N)).
Definition mproc (A : Type) := proc msg A.

(** [broadcast_into] a usize, an f64 and slices.  A broadcast into a buffer of another length
    or type violates the MPI standard: the model panics. *)
Definition bcast_nat (n : nat) : mproc nat := Bcast (MNat n) (fun v => match v with MNat x => Ret x | _ => Crash end).
Definition bcast_cost (c : C N) : mproc (C N) := Bcast (MCost c) (fun v => match v with MCost x => Ret x | _ => Crash end).
Definition bcast_nats (l : list nat) : mproc (list nat) :=
  Bcast (MNats l) (fun v => match v with MNats x => if length x =? length l then Ret x else Crash | _ => Crash end).
Definition bcast_costs (l : list (C N)) : mproc (list (C N)) :=
  Bcast (MCosts l) (fun v => match v with MCosts x => if length x =? length l then Ret x else Crash | _ => Crash end).
Definition recv_cost (src tag : nat) : mproc (C N) := Recv src tag (fun v => match v with MCost x => Ret x | _ => Crash end).
Definition recv_nats (src tag : nat) : mproc (list nat) := Recv src tag (fun v => match v with MNats x => Ret x | _ => Crash end).

(** the two ends of the edges one after the other, and back: matching.rs:235, 242-243, 273-280 and
    361-362 (the casts between [[usize; 2]] and [usize]) *)
Definition flat (M : matching) : list nat := flat_map (fun e => [fst e; snd e]) M.
Definition unflat (l : list nat) : matching := chunks2 l.

(** matching.rs:353-365: indexing the first edge panics for the empty matching *)
Definition broadcast_matching (M : matching) : mproc matching :=
  pbind (lift (first_res M)) (fun _ => pbind (bcast_nats (flat M)) (fun l => Ret (unflat l))).

(** matching.rs:301-336: gives the number of tries, the matching and the matrix *)
Definition bootstrap_mpi_matching_calc (rank : nat) (M : matching) (tries : nat) (m : namatrix N)
  : mproc (nat * matching * namatrix N) :=
  pbind (bcast_nat tries) (fun tries =>                                             (* l. 310 *)
  pbind (bcast_nat (length M)) (fun matching_size =>                                (* l. 312-313, 340-342 *)
  pbind (bcast_nat (na_dim m)) (fun dim =>                                          (* l. 317-318, 345-347 *)
  pbind (broadcast_matching (if rank =? 0 then M else repeat (0, 0) matching_size)) (fun M =>   (* l. 321-325 *)
  pbind (bcast_costs (if rank =? 0 then na_data m else repeat c0 (dim * dim))) (fun data =>     (* l. 328-332, 366-368 *)
  Ret (tries, M, mkNA dim data)))))).                                               (* l. 333-335 *)

Definition COST_TAG := 0.
Definition MATCHING_TAG := 1.

(** matching.rs:255-264: the root takes the results of the ranks [rks] *)
Fixpoint collect (rks : list nat) (best : C N * list nat) : mproc (C N * list nat) :=
  match rks with
  | [] => Ret best
  | rk :: rks =>
      pbind (recv_cost rk COST_TAG) (fun other_cost =>
      pbind (recv_nats rk MATCHING_TAG) (fun other =>
      collect rks (if clt other_cost (fst best) then (other_cost, other) else best)))
  end.

(** matching.rs:209-281 on one process; [draws] are its random numbers.  Line 243 indexes the
    first edge. *)
Definition mpi_improve_matching_proc (draws : nat -> nat -> nat) (rank size : nat) (m : namatrix N) (M : matching) (tries : nat)
  : mproc matching :=
  pbind (if rank =? 0 then bootstrap_mpi_matching_calc rank M tries m else Ret (tries, M, m)) (fun _ =>   (* l. 223-226 *)
  pbind (lift (improve_matching draws m M tries)) (fun M =>                         (* l. 231 *)
  pbind (lift (matching_cost m M)) (fun cost =>                                     (* l. 232 *)
  pbind
    (if negb (rank =? 0) then
       Send 0 COST_TAG (MCost cost)                                                 (* l. 238 *)
         (pbind (lift (first_res M)) (fun _ => Send 0 MATCHING_TAG (MNats (flat M)) (Ret (cost, flat M))))   (* l. 242-244 *)
     else collect (seq 1 (size - 1)) (cost, flat M)) (fun '(min_cost, best) =>      (* l. 252-264 *)
  pbind (bcast_cost min_cost) (fun _ =>                                             (* l. 268 *)
  pbind (bcast_nats best) (fun best =>                                              (* l. 269 *)
  Ret (unflat best))))))).                                                          (* l. 276-281 *)

(** lib.rs:115-124: the other ranks start from nothing and get it from the root *)
Definition matching_helper (draws : nat -> nat -> nat) (size rank : nat) : mproc matching :=
  pbind (bootstrap_mpi_matching_calc rank [] 0 (na_from_dim 1)) (fun '(tries, M, m) =>
  mpi_improve_matching_proc draws rank size m M tries).

(** all processes, when the root has the first matching [M]: matching.rs:44-53 and lib.rs:115-124 *)
Definition matching_process (draws : nat -> nat -> nat -> nat) (size : nat) (m : namatrix N) (M : matching) (tries : nat) (rank : nat)
  : mproc matching :=
  if rank =? 0 then mpi_improve_matching_proc (draws rank) rank size m M tries else matching_helper (draws rank) size rank.

(** lib.rs:107-127 with christofides.rs:35-98 and matching.rs:30-58: the root runs the algorithm
    and has a solution to print (l. 128), the other ranks help with the matching and return.
    Prim is not distributed: the root runs it by itself. *)
Definition christofides_process (debug : bool) (env : menv) (fenv : fillenv) (mt : mtenv) (m : namatrix N) (rank : nat)
  : mproc (option (solution N)) :=
  if rank =? 0 then
    pbind (lift (metric <- (if debug then is_metric (na_adj m) else Ok true) ;; _ <- assert metric ;; prim env MPI_COMPUTATION m)) (fun mst =>
    let V := odd_vertices mst in
    pbind (mpi_improve_matching_proc (mt_draws mt 0) 0 (mt_size mt) m (chunks2 (shuffle (mt_first mt) V)) (length V * length V)) (fun M =>
    pbind (lift (g <- fill_multigraph fenv MPI_COMPUTATION m mst M ;;
                 euler <- eulerian_cycle g ;;
                 ham <- hamiltonian_from_eulerian_cycle (na_dim m) euler ;;
                 cost <- windows_cost m ham ;;
                 _ <- assert (if debug then is_hamiltonian_cycle ham (na_dim m) else true) ;;
                 Ok (cost, ham))) (fun s =>
    Ret (Some s))))
  else
    pbind (matching_helper (mt_draws mt rank) (mt_size mt) rank) (fun _ =>
    Ret None).

End MatchingMpi.
Arguments msg : clear implicits.
