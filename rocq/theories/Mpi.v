(** Model of the two MPI exact solvers, src/solvers/exact.rs:726-1046 and 1048-1260.

    A configuration holds the state of the root, of every worker, and the messages under way
    between root and workers (one first-in first-out channel per worker and direction, as MPI
    guarantees for messages between two processes).  [any_process().receive] takes the first
    message of any nonempty channel: every interleaving is a path of the step relation.  Worker
    [i] of the model is the MPI process of rank [i + 1].  MPI sends are modelled as buffered;
    the theorems show that a channel is always empty when something is put into it. *)
From Coq Require Import Arith Bool List.
From Verif Require Import Num Base Data Mst Exact Threaded.
Import ListNotations.

(** replace the value of a function at one place *)
Definition fupd {A} (f : nat -> A) (i : nat) (x : A) : nat -> A := fun j => if j =? i then x else f j.

Section Mpi.
Context {N : Num}.

(** exact.rs:914-929 = 1234-1245: what a worker computes for one prefix, given the best
    cost the root told it *)
Definition mpi_work (m : namatrix N) (prefix : list nat) (global_best_cost : C N) : res (solution N) :=
  cost <- evaluate_path (na_adj m) prefix ;;
  mpi_rec (S (na_dim m)) m prefix cost (cinf, []) global_best_cost.

(** Updating the winner, exact.rs:853-856 = 1164-1167 *)
Definition update_winner (winner : C N * nat) (msg : C N * nat) : C N * nat :=
  if clt (fst msg) (fst winner) then msg else winner.

(** ** The static solver *)

(** exact.rs:880-962.  [WBar] keeps the whole local solution; the code returns its path. *)
Inductive wstate :=
| WRun (todo : list (list nat)) (local : solution N) (global_best_cost : C N)   (* head of the loop, l. 898 *)
| WWait (todo : list (list nat)) (local : solution N)                           (* l. 947 *)
| WBar (local : solution N).                                                    (* l. 958 *)

Record sconfig := mkS {
  s_winner : C N * nat;        (* current_winner, l. 823 *)
  s_finished : nat;            (* number_of_finished_proceses, l. 827 *)
  s_barrier : bool;            (* the root has left its loop, l. 873 *)
  s_worker : nat -> wstate;
  s_up : nat -> list (C N * nat);      (* worker to root: MPICostRank *)
  s_down : nat -> list (C N)           (* root to worker *)
}.

(** [workers] = size - 1; [work] is what one prefix yields *)
Inductive sstep (workers : nat) (work : list nat -> C N -> res (solution N)) : sconfig -> sconfig -> Prop :=
| S_work : forall w f b st up down i p todo local g r, i < workers -> st i = WRun (p :: todo) local g ->
    work p g = Ok r ->                                                          (* l. 911-933 *)
    sstep workers work (mkS w f b st up down)
      (mkS w f b (fupd st i (WWait todo (merge local r)))                       (* l. 936-939 *)
           (fupd up i (up i ++ [(fst (merge local r), S i)])) down)             (* l. 944-945 *)
| S_recv : forall w f b st up down i todo local g rest, i < workers -> st i = WWait todo local ->
    down i = g :: rest ->                                                       (* l. 948-949 *)
    sstep workers work (mkS w f b st up down)
      (mkS w f b (fupd st i (WRun todo local g)) up (fupd down i rest))
| S_finish : forall w f b st up down i local g, i < workers -> st i = WRun [] local g ->
    sstep workers work (mkS w f b st up down)
      (mkS w f b (fupd st i (WBar local)) (fupd up i (up i ++ [(cneg1, S i)])) down)   (* l. 955 *)
| S_root_update : forall w f st up down i c rk rest, f < workers -> i < workers ->
    up i = (c, rk) :: rest -> cle c0 c = true ->                                (* l. 846, 849 *)
    sstep workers work (mkS w f false st up down)
      (mkS (update_winner w (c, rk)) f false st (fupd up i rest)
           (fupd down (rk - 1) (down (rk - 1) ++ [fst (update_winner w (c, rk))])))   (* l. 859 *)
| S_root_finish : forall w f st up down i c rk rest, f < workers -> i < workers ->
    up i = (c, rk) :: rest -> cle c0 c = false ->                               (* l. 862-865 *)
    sstep workers work (mkS w f false st up down) (mkS w (S f) false st (fupd up i rest) down)
| S_root_barrier : forall w f st up down, workers <= f ->                       (* l. 830, 873 *)
    sstep workers work (mkS w f false st up down) (mkS w f true st up down).

(** the barrier breaks when all processes have reached it *)
Definition sdone (workers : nat) (c : sconfig) : Prop :=
  s_barrier c = true /\ forall i, i < workers -> exists local, s_worker c i = WBar local.

(** exact.rs:886-896, 820-829: the start; [todo i] are the prefixes of worker [i] *)
Definition sinit (todo : nat -> list (list nat)) : sconfig :=
  mkS (cinf, 0) 0 false (fun i => WRun (todo i) (cinf, []) cinf) (fun _ => []) (fun _ => []).

(** the prefixes of the workers, l. 886-909; [Panic] if a worker panics in the split *)
Definition static_todo (m : namatrix N) (prefix_length workers : nat) : res (list (list (list nat))) :=
  mapM (chunk_prefixes prefix_length (na_dim m) workers) (seq 0 workers).

(** exact.rs:807-815 = 1128-1136: after the barrier the root broadcasts the winner, and the
    winner its path, into the buffers of all processes.  [paths]: the buffers by rank.  A
    broadcast between buffers of different lengths violates the MPI standard (and aborts with
    the usual implementations): the model panics. *)
Definition wrapup (winner : C N * nat) (paths : list (list nat)) : res (list (solution N)) :=
  path <- nth_res paths (snd winner) ;;
  if forallb (fun buffer => length buffer =? length path) paths
  then Ok (map (fun _ => (fst winner, path)) paths)
  else Panic.

Definition local_of (s : wstate) : solution N :=
  match s with WRun _ l _ => l | WWait _ l => l | WBar l => l end.

(** exact.rs:799-800: the root's buffer is [vec![0; dim]] *)
Definition static_paths (dim workers : nat) (c : sconfig) : list (list nat) :=
  repeat 0 dim :: map (fun i => snd (local_of (s_worker c i))) (seq 0 workers).

(** several steps *)
Inductive steps {A} (R : A -> A -> Prop) : A -> A -> Prop :=
| steps_refl : forall c, steps R c c
| steps_step : forall c c' c'', steps R c c' -> R c' c'' -> steps R c c''.

(** exact.rs:728-816: [rs] (by rank) is a possible outcome with [size] processes *)
Definition static_result (m : namatrix N) (prefix_length size : nat) (rs : res (list (solution N))) : Prop :=
  match static_todo m prefix_length (size - 1) with
  | Ok todo => exists c, steps (sstep (size - 1) (mpi_work m)) (sinit (fun i => nth i todo [])) c /\
      sdone (size - 1) c /\ rs = wrapup (s_winner c) (static_paths (na_dim m) (size - 1) c)
  | _ => rs = Panic
  end.

(** ** The dynamic solver *)

(** exact.rs:1174-1193: the next value with distinct digits *)
Fixpoint next_unique (fuel : nat) (prefix : list nat) (n : nat) : res (option (list nat)) :=
  match fuel with
  | O => OutOfFuel
  | S f =>
    match get_next_value prefix n with
    | None => Ok None
    | Some v => if is_unique v then Ok (Some v) else next_unique f v n
    end
  end.

(** exact.rs:1212-1260.  [handed] is a ghost: the prefixes this worker was given so far. *)
Inductive dstate :=
| DStart                                                       (* l. 1221 *)
| DWait (handed : list (list nat)) (local : solution N)        (* l. 1225 *)
| DWork (handed : list (list nat)) (local : solution N) (prefix : list nat) (global_best_cost : C N)   (* l. 1237 *)
| DBar (handed : list (list nat)) (local : solution N).        (* l. 1232 *)

Record dconfig := mkD {
  d_winner : C N * nat;                (* l. 1150 *)
  d_waiting : nat;                     (* l. 1155 *)
  d_current : option (list nat);       (* l. 1158 *)
  d_barrier : bool;
  d_worker : nat -> dstate;
  d_up : nat -> list (C N * nat);                 (* MPICostRank *)
  d_down : nat -> list (C N * list nat)           (* MPICostPath *)
}.

(** exact.rs:1164-1167 *)
Definition update_winner_nonneg (winner : C N * nat) (msg : C N * nat) : C N * nat :=
  if cle c0 (fst msg) && clt (fst msg) (fst winner) then msg else winner.

Inductive dstep (workers n : nat) (work : list nat -> C N -> res (solution N)) : dconfig -> dconfig -> Prop :=
| D_start : forall w f cur b st up down i, i < workers -> st i = DStart ->
    dstep workers n work (mkD w f cur b st up down)
      (mkD w f cur b (fupd st i (DWait [] (cinf, []))) (fupd up i (up i ++ [(cinf, S i)])) down)   (* l. 1220-1221 *)
| D_recv : forall w f cur b st up down i h local g p rest, i < workers -> st i = DWait h local ->
    down i = (g, p) :: rest -> forallb (fun x => x =? 0) p = false ->
    dstep workers n work (mkD w f cur b st up down)
      (mkD w f cur b (fupd st i (DWork (h ++ [p]) local p g)) up (fupd down i rest))               (* l. 1225-1228 *)
| D_recv_done : forall w f cur b st up down i h local g p rest, i < workers -> st i = DWait h local ->
    down i = (g, p) :: rest -> forallb (fun x => x =? 0) p = true ->
    dstep workers n work (mkD w f cur b st up down)
      (mkD w f cur b (fupd st i (DBar h local)) up (fupd down i rest))                             (* l. 1231-1234 *)
| D_work : forall w f cur b st up down i h local p g r, i < workers -> st i = DWork h local p g ->
    work p g = Ok r ->                                                                             (* l. 1237-1247 *)
    dstep workers n work (mkD w f cur b st up down)
      (mkD w f cur b (fupd st i (DWait h (merge local r)))                                         (* l. 1250-1253 *)
           (fupd up i (up i ++ [(fst (merge local r), S i)])) down)                                (* l. 1257-1258 *)
| D_root_work : forall w f st up down i c rk rest p cur', f < workers -> i < workers ->
    up i = (c, rk) :: rest -> next_unique (S (n ^ 3)) p n = Ok cur' ->
    dstep workers n work (mkD w f (Some p) false st up down)
      (mkD (update_winner_nonneg w (c, rk)) f cur' false st (fupd up i rest)
           (fupd down (rk - 1) (down (rk - 1) ++ [(fst (update_winner_nonneg w (c, rk)), p)])))    (* l. 1161-1193 *)
| D_root_empty : forall w f st up down i c rk rest, f < workers -> i < workers ->
    up i = (c, rk) :: rest ->
    dstep workers n work (mkD w f None false st up down)
      (mkD (update_winner_nonneg w (c, rk)) (S f) None false st (fupd up i rest)
           (fupd down (rk - 1) (down (rk - 1) ++ [(fst (update_winner_nonneg w (c, rk)), [0; 0; 0])])))  (* l. 1194-1199 *)
| D_root_barrier : forall w f cur st up down, workers <= f ->
    dstep workers n work (mkD w f cur false st up down) (mkD w f cur true st up down).             (* l. 1160, 1204 *)

Definition ddone (workers : nat) (c : dconfig) : Prop :=
  d_barrier c = true /\ forall i, i < workers -> exists h local, d_worker c i = DBar h local.

Definition dinit : dconfig :=
  mkD (cinf, 0) 0 (Some [1; 2; 3]) false (fun _ => DStart) (fun _ => []) (fun _ => []).

Definition dlocal_of (s : dstate) : solution N :=
  match s with DStart => (cinf, []) | DWait _ l => l | DWork _ l _ _ => l | DBar _ l => l end.
Definition handed_of (s : dstate) : list (list nat) :=
  match s with DStart => [] | DWait h _ => h | DWork h _ _ _ => h | DBar h _ => h end.

Definition dynamic_paths (dim workers : nat) (c : dconfig) : list (list nat) :=
  repeat 0 dim :: map (fun i => snd (dlocal_of (d_worker c i))) (seq 0 workers).

(** exact.rs:1108-1137 *)
Definition dynamic_result (m : namatrix N) (size : nat) (rs : res (list (solution N))) : Prop :=
  exists c, steps (dstep (size - 1) (na_dim m) (mpi_work m)) dinit c /\ ddone (size - 1) c /\
    rs = wrapup (d_winner c) (dynamic_paths (na_dim m) (size - 1) c).

End Mpi.
Arguments wstate : clear implicits.
Arguments sconfig : clear implicits.
Arguments dstate : clear implicits.
Arguments dconfig : clear implicits.
