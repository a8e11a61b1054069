(** Model of src/cli.rs and src/lib.rs: the command line driver. *)
From Coq Require Import Arith Bool List.
From Verif Require Import Num Base Data Precond Mst Par MstPar OneTree Rand Nn Matching Christofides Exact Threaded Mpi.
Import ListNotations.

(** cli.rs:53-69 *)
Inductive exact_algorithm := V0 | V1 | V2 | V3 | V4 | V5 | V6.
(** cli.rs:71-77 *)
Inductive approx_algorithm := NearestNeighbour | Christofides.
(** cli.rs:79-89 *)
Inductive lower_bound_algorithm := OneTree | MST | MSTQueue.
(** cli.rs:91-100, compiled with the feature [mpi] *)
Inductive parallelism := SingleThreaded | MultiThreaded | MPI.
(** cli.rs:15-51; the path of the input file is left out, see [doc] below.  How the arguments are
    written, and the defaults, are modelled in Args.v. *)
Inductive command :=
| ExactCmd (algorithm : exact_algorithm) (p : parallelism)
| ApproxCmd (algorithm : approx_algorithm) (p : parallelism) (lower_bound : option lower_bound_algorithm)
| LowerBoundCmd (algorithm : lower_bound_algorithm) (p : parallelism).

(** What a run may depend on besides its arguments: the processes and threads, the schedules,
    the random numbers, and whether debug assertions are compiled in. *)
Record world := mkWorld {
  w_size : nat;                 (* the number of MPI processes *)
  w_threads : nat;              (* std::thread::available_parallelism *)
  w_debug : bool;
  w_menv : menv;                (* schedules of the parallel Prim *)
  w_pick : nat -> nat;          (* ties in the priority queue *)
  w_nnenv : nnenv;
  w_nnorder : nat -> list nat;  (* the reduction of nearest_neighbour_mpi *)
  w_nntree : nat -> rtree;
  w_fillenv : fillenv;
  w_mtenv : mtenv;
  w_order : list nat;           (* the reduction of the one-tree bound *)
  w_tree : rtree
}.

(** the matching is improved by the same processes *)
Definition matching_env (w : world) : mtenv :=
  mkMtEnv (mt_first (w_mtenv w)) (mt_draws (w_mtenv w)) (mt_sched (w_mtenv w)) (w_size w).

Section Cli.
Context {N : Num}.

(** The lines written to stdout; Args.v gives their text.  The timing lines of the feature
    [benchmarking] are not modelled, nor is stderr. *)
Inductive line :=
| BestCost (c : C N)                       (* lib.rs:76 *)
| BestPermutation (p : list nat)           (* lib.rs:77 *)
| ChristofidesWeight (c : C N)             (* lib.rs:130 *)
| NnWeight (c : C N)                       (* lib.rs:151 *)
| NnSolution (p : list nat)                (* lib.rs:152 *)
| OneTreeBound (c : C N)                   (* lib.rs:198 *)
| MstBound (c : C N).                      (* lib.rs:211, 218 *)

(** How a run ends: all processes return [Ok], return an error, a process panics (and with MPI
    takes the others down), or it never ends. *)
Inductive ending := Done | Failed | Panicked | Endless.
(** what each process has printed *)
Record outcome := mkOut { printed : list (list line); ended : ending }.

Definition finish {A} (procs : nat) (r : res A) (k : A -> outcome) : outcome :=
  match r with
  | Ok a => k a
  | Panic => mkOut (repeat [] procs) Panicked
  | OutOfFuel => mkOut (repeat [] procs) Endless
  end.

(** lib.rs:36-44: [doc] is what the file gives ([None]: it cannot be read or is not a document).
    Every process reads it and builds its matrix; the run ends with [stop] or goes on with [k]. *)
Definition with_instance {T} (procs : nat) (doc : option (graph N)) (stop : outcome -> T) (k : namatrix N -> T) : T :=
  match parse_from_xml doc with
  | Ok (Some g) =>
      match na_from_graph g with
      | Ok m => k m
      | Panic => stop (mkOut (repeat [] procs) Panicked)
      | OutOfFuel => stop (mkOut (repeat [] procs) Endless)
      end
  | Ok None => stop (mkOut (repeat [] procs) Failed)
  | Panic => stop (mkOut (repeat [] procs) Panicked)
  | OutOfFuel => stop (mkOut (repeat [] procs) Endless)
  end.

(** the number of processes that run the program *)
Definition processes (w : world) (p : parallelism) : nat := match p with MPI => w_size w | _ => 1 end.

(** lib.rs:57-65 (single-threaded) *)
Definition exact_solver (a : exact_algorithm) (m : namatrix N) : res (solution N) :=
  match a with
  | V0 => naive_solver (na_adj m)
  | V1 => first_improved_solver (na_adj m)
  | V2 => second_improved_solver (na_adj m)
  | V3 => third_improved_solver (na_adj m)
  | V4 => fourth_improved_solver (na_adj m)
  | V5 => fifth_improved_solver m
  | V6 => sixth_improved_solver m
  end.

(** A run of the MPI solvers ends with their results; or a worker panics on a prefix, which
    takes all processes down; or it hangs. *)
Definition static_crash (m : namatrix N) (workers : nat) (c : sconfig N) : Prop :=
  exists i p todo local g, i < workers /\ s_worker c i = WRun (p :: todo) local g /\ mpi_work m p g = Panic.
Definition static_ends (m : namatrix N) (size : nat) (rs : res (list (solution N))) : Prop :=
  static_result m 3 size rs \/
  exists todo c, static_todo m 3 (size - 1) = Ok todo /\
    steps (sstep (size - 1) (mpi_work m)) (sinit (fun i => nth i todo [])) c /\
    (static_crash m (size - 1) c /\ rs = Panic \/
     ~ static_crash m (size - 1) c /\ ~ sdone (size - 1) c /\ ~ (exists c', sstep (size - 1) (mpi_work m) c c') /\ rs = OutOfFuel).
Definition dynamic_crash (m : namatrix N) (workers : nat) (c : dconfig N) : Prop :=
  exists i h local p g, i < workers /\ d_worker c i = DWork h local p g /\ mpi_work m p g = Panic.
Definition dynamic_ends (m : namatrix N) (size : nat) (rs : res (list (solution N))) : Prop :=
  dynamic_result m size rs \/
  exists c, steps (dstep (size - 1) (na_dim m) (mpi_work m)) dinit c /\
    (dynamic_crash m (size - 1) c /\ rs = Panic \/
     ~ dynamic_crash m (size - 1) c /\ ~ ddone (size - 1) c /\ ~ (exists c', dstep (size - 1) (na_dim m) (mpi_work m) c c') /\ rs = OutOfFuel).

(** lib.rs:56-72: [rs] is a possible result of the solvers, by rank *)
Definition exact_solved (w : world) (a : exact_algorithm) (p : parallelism) (m : namatrix N) (rs : res (list (solution N))) : Prop :=
  match p with
  | SingleThreaded =>
      rs = (s <- exact_solver a m ;; Ok [s])
  | MultiThreaded =>
      (exists s, threaded_result m 3 (w_threads w) s /\ rs = Ok [s]) \/
      ((if na_dim m <=? w_threads w then fifth_improved_solver m = Panic else tinit m 3 (w_threads w) = Panic) /\ rs = Panic)
  | MPI =>
      match a with
      | V0 => static_ends m (w_size w) rs
      | V1 => dynamic_ends m (w_size w) rs
      | _ => rs = Panic
      end
  end.

(** lib.rs:47-81 *)
Definition exact_run (w : world) (a : exact_algorithm) (p : parallelism) (doc : option (graph N)) (o : outcome) : Prop :=
  with_instance (processes w p) doc (fun o' => o = o') (fun m =>
    exists rs, exact_solved w a p m rs /\
      o = finish (processes w p) rs (fun sols => mkOut (map (fun s => [BestCost (fst s); BestPermutation (snd s)]) sols) Done)).

(** lib.rs:165-224, run by [procs] processes.  [initialized] says whether MPI has been
    initialised before in these processes: then [mpi::initialize] gives [None] (also after the
    universe has been dropped) and the [unwrap] of line 186 panics. *)
Definition lower_bound_run (w : world) (initialized : bool) (procs : nat) (a : lower_bound_algorithm) (p : parallelism)
    (doc : option (graph N)) : outcome :=
  with_instance procs doc (fun o => o) (fun m =>
    match a with
    | OneTree =>
        match p with
        | SingleThreaded => finish procs (one_tree_lower_bound_seq m) (fun b => mkOut (repeat [OneTreeBound b] procs) Done)
        | MultiThreaded => finish procs (one_tree_lower_bound_par (w_tree w) m) (fun b => mkOut (repeat [OneTreeBound b] procs) Done)
        | MPI =>
            if initialized then mkOut (repeat [] procs) Panicked
            else finish procs (one_tree_lower_bound_mpi (w_order w) (w_tree w) m procs) (fun bs =>
                   mkOut (match bs with b :: others => [OneTreeBound b] :: map (fun _ => []) others | [] => [] end) Done)
        end
    | MST =>
        finish procs (prim (w_menv w) (match p with SingleThreaded => SEQ_COMPUTATION | MultiThreaded => PAR_COMPUTATION | MPI => MPI_COMPUTATION end) m)
          (fun mst => mkOut (repeat [MstBound (undirected_edge_weight mst)] procs) Done)
    | MSTQueue =>
        finish procs (prim_with_excluded_node_priority_queue (w_pick w) m [])
          (fun mst => mkOut (repeat [MstBound (undirected_edge_weight mst)] procs) Done)
    end).

(** lib.rs:158-161: the lower bound, computed by the first [k] processes after all have printed
    [before]; the others are done *)
Definition then_bound (before : list (list line)) (k : nat) (bound : option outcome) : outcome :=
  match bound with
  | None => mkOut before Done
  | Some o => mkOut (map (fun '(x, y) => x ++ y) (combine (firstn k before) (printed o)) ++ skipn k before) (ended o)
  end.

(** lib.rs:84-162.  The file is read again for the lower bound (lib.rs:170); it is taken to be
    unchanged. *)
Definition approx_run (w : world) (a : approx_algorithm) (p : parallelism) (lb : option lower_bound_algorithm)
    (doc : option (graph N)) : outcome :=
  let procs := processes w p in
  with_instance procs doc (fun o => o) (fun m =>
    match a with
    | Christofides =>
        let mode := match p with SingleThreaded => SEQ_COMPUTATION | MultiThreaded => PAR_COMPUTATION | MPI => MPI_COMPUTATION end in
        finish procs (christofides (w_debug w) (w_menv w) (w_fillenv w) (matching_env w) mode m) (fun s =>
          then_bound ([ChristofidesWeight (fst s)] :: repeat [] (procs - 1)) 1     (* the other ranks return: l. 124 *)
            (option_map (fun l => lower_bound_run w (match p with MPI => true | _ => false end) 1 l p doc) lb))
    | NearestNeighbour =>
        finish procs
          (match p with
           | SingleThreaded => s <- nearest_neighbour (w_nnenv w) SEQ_COMPUTATION m ;; Ok [s]
           | MultiThreaded => s <- nearest_neighbour (w_nnenv w) PAR_COMPUTATION m ;; Ok [s]
           | MPI => nearest_neighbour_mpi (w_nnorder w) (w_nntree w) m (w_size w)
           end) (fun sols =>
          then_bound (map (fun s => [NnWeight (fst s); NnSolution (snd s)]) sols) procs
            (option_map (fun l => lower_bound_run w (match p with MPI => true | _ => false end) procs l p doc) lb))
    end).

(** lib.rs:227-246: [o] is a possible outcome of the command *)
Definition run (w : world) (cmd : command) (doc : option (graph N)) (o : outcome) : Prop :=
  match cmd with
  | ExactCmd a p => exact_run w a p doc o
  | ApproxCmd a p lb => o = approx_run w a p lb doc
  | LowerBoundCmd a p => o = lower_bound_run w false (processes w p) a p doc
  end.

End Cli.
Arguments line : clear implicits.
Arguments outcome : clear implicits.
