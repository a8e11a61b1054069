(** Model of the multi-threaded and the priority-queue containers of src/mst.rs, and of the
    dispatch [prim]. *)
From Coq Require Import Arith Bool List.
From Verif Require Import Num Base Data Mst Par.
Import ListNotations.

Section MstPar.
Context {N : Num}.

(** ** The multi-threaded container, mst.rs:321-393 *)

(** The environment of one run: for the [i]-th round of the main loop the interleaving of the
    parallel update and the splitting of the parallel minimum. *)
Record menv := mkEnv { env_sched : nat -> list nat; env_tree : nat -> rtree }.

(** mst.rs:321: the vector; the second component (model only) counts the updates made so far
    and selects the part of the environment in force. *)
Definition mdist : Type := vdist N * nat.

(** mst.rs:351-364: what task [to] does next *)
Inductive mtask := TRead | TWrite (cost : C N) | TDone.

(** mst.rs:351-364: one task of the parallel loop, in atomic steps.  First it reads the cost
    through the raw pointer to the beginning of the row, at a stride of [dim] cells, and
    compares; then it writes the new edge.  The matrix is stored by columns, so row [from]
    begins at offset [from].  A read outside the matrix, undefined behaviour in the source,
    is [Panic] here. *)
Definition mt_step (from : nat) (m : namatrix N) (to : nat) (t : mtask) (d : vdist N) : res (mtask * vdist N) :=
  match t with
  | TRead =>
    cost <- nth_res (na_data m) (from + na_dim m * to) ;;
    x <- nth_res d to ;;
    Ok (if clt cost (e_cost (fst x)) then TWrite cost else TDone, d)
  | TWrite cost =>
    d <- modify_res d to (fun x => (mkEdge from cost, snd x)) ;; Ok (TDone, d)
  | TDone => Ok (TDone, d)
  end.

(** mst.rs:347-365; [graph.row(from)] in the caller (mst.rs:161) panics when [from] is out of
    range. *)
Definition mt_update (env : menv) (d : mdist) (from : nat) (m : namatrix N) : res mdist :=
  _ <- na_row m from ;;
  d' <- par_for (mt_step from m) TRead 2 (na_dim m) (env_sched env (snd d)) (fst d) ;;
  Ok (d', S (snd d)).

(** mst.rs:375-390: [min_by] on a parallel iterator keeps the left one of two equal items *)
Definition mt_find (env : menv) (d : mdist) : res (nat * edge N) :=
  let items := flat_map (fun '(i, (e, used)) => if used : bool then [] else [(i, e)]) in
  Ok (match par_reduce min_entry items (env_tree env (snd d)) (combine (seq 0 (length (fst d))) (fst d)) with
      | Some r => r
      | None => (length (fst d), mkEdge (length (fst d)) cinf)
      end).

(** mst.rs:335-345: the rest is delegated to the vector *)
Definition mt_ops (env : menv) : fmce N mdist :=
  mkFmce mdist (fun e size => (repeat (e, false) size, 0))
         (mt_find env) (mt_update env)
         (fun d v e => d' <- vec_set_cost (fst d) v e ;; Ok (d', snd d))
         (fun d v => d' <- vec_mark (fst d) v ;; Ok (d', snd d))
         (fun d v => d' <- vec_mark (fst d) v ;; Ok (d', snd d)).

(** mst.rs:42-47 *)
Definition prim_with_excluded_node_multi_threaded (env : menv) (m : namatrix N) (excluded : list nat)
  : res (graph N) := prim_with_excluded_node (mt_ops env) m excluded.

(** ** The priority queue container, mst.rs:199-267 *)

(** mst.rs:200-209.  The crate's [PriorityQueue] is modelled by the list of its items with
    their costs (priorities are [Reverse(cost)]: least cost first).  Which of several items of
    least cost [peek] gives depends on the layout of the heap; here on an arbitrary function
    [pick] of the number of updates so far. *)
Record pqdist := mkPQ {
  pq_queue : list (nat * C N);
  pq_conn : list nat;
  pq_used : list bool;
  pq_time : nat
}.

(** [OrderedFloat(x) <= OrderedFloat(y)] *)
Definition ole (x y : C N) : bool := negb (olt y x).

(** crate priority-queue, [peek]: one of the items of least cost *)
Definition pq_minima (q : list (nat * C N)) : list (nat * C N) :=
  filter (fun x => forallb (fun y => ole (snd x) (snd y)) q) q.
Definition pq_peek (pick : nat -> nat) (t : nat) (q : list (nat * C N)) : option (nat * C N) :=
  let l := pq_minima q in nth_error l (pick t mod length l).

Definition pq_get (q : list (nat * C N)) (v : nat) : option (C N) :=
  option_map snd (find (fun x => fst x =? v) q).
Definition pq_set (q : list (nat * C N)) (v : nat) (c : C N) : list (nat * C N) :=
  map (fun x => if fst x =? v then (v, c) else x) q.

(** crate priority-queue, [push_increase]: raises the priority (lowers the cost) of an item
    and returns its old priority; if the old priority is not smaller, the queue stays and the
    {e given} priority is returned; an item not in the queue is inserted, with [None]. *)
Definition push_increase (q : list (nat * C N)) (v : nat) (c : C N) : list (nat * C N) * option (C N) :=
  match pq_get q v with
  | Some old => if olt c old then (pq_set q v c, Some old) else (q, Some c)
  | None => (q ++ [(v, c)], None)
  end.

(** mst.rs:212-222 *)
Definition pq_default (e : edge N) (size : nat) : pqdist :=
  mkPQ (map (fun i => (i, e_cost e)) (seq 0 size)) (repeat (e_to e) size) (repeat false size) 0.

(** mst.rs:224-236 *)
Definition pq_find (pick : nat -> nat) (d : pqdist) : res (nat * edge N) :=
  let '(v, cost) := match pq_peek pick (pq_time d) (pq_queue d) with
                    | Some x => x
                    | None => (length (pq_conn d), cinf)
                    end in
  to <- nth_res (pq_conn d) v ;;
  Ok (v, mkEdge to cost).

(** mst.rs:239-249: one neighbour *)
Definition pq_relax (from : nat) (d : pqdist) (to : nat) (cost : C N) : res pqdist :=
  u <- nth_res (pq_used d) to ;;
  if u : bool then Ok d
  else
    let '(q, old) := push_increase (pq_queue d) to cost in
    match old with
    | None => Panic
    | Some old_cost =>
      conn <- (if cle cost old_cost then modify_res (pq_conn d) to (fun _ => from) else Ok (pq_conn d)) ;;
      Ok (mkPQ q conn (pq_used d) (pq_time d))
    end.

(** mst.rs:238-250 *)
Definition pq_update (d : pqdist) (from : nat) (m : namatrix N) : res pqdist :=
  row <- na_row m from ;;
  d <- foldM (fun d '(to, cost) => pq_relax from d to cost) (combine (seq 0 (length row)) row) d ;;
  Ok (mkPQ (pq_queue d) (pq_conn d) (pq_used d) (S (pq_time d))).

(** mst.rs:252-257; [change_priority] ignores items that are not in the queue *)
Definition pq_set_cost (d : pqdist) (v : nat) (e : edge N) : res pqdist :=
  conn <- modify_res (pq_conn d) v (fun _ => e_to e) ;;
  Ok (mkPQ (pq_set (pq_queue d) v (e_cost e)) conn (pq_used d) (pq_time d)).

(** mst.rs:259-266 *)
Definition pq_mark (d : pqdist) (v : nat) : res pqdist :=
  used <- modify_res (pq_used d) v (fun _ => true) ;;
  Ok (mkPQ (filter (fun x => negb (fst x =? v)) (pq_queue d)) (pq_conn d) used (pq_time d)).

Definition pq_ops (pick : nat -> nat) : fmce N pqdist :=
  mkFmce pqdist pq_default (pq_find pick) pq_update pq_set_cost pq_mark pq_mark.

(** mst.rs:70-75 *)
Definition prim_with_excluded_node_priority_queue (pick : nat -> nat) (m : namatrix N) (excluded : list nat)
  : res (graph N) := prim_with_excluded_node (pq_ops pick) m excluded.

(** ** Dispatch, mst.rs:25-36 with computation_mode.rs:7-14 (feature [mpi] enabled) *)
Definition SEQ_COMPUTATION := 0.
Definition PAR_COMPUTATION := 1.
Definition MPI_COMPUTATION := 2.
Definition prim (env : menv) (mode : nat) (m : namatrix N) : res (graph N) :=
  if mode =? SEQ_COMPUTATION then prim_with_excluded_node_single_threaded m []
  else if mode =? PAR_COMPUTATION then prim_with_excluded_node_multi_threaded env m []
  else if mode =? MPI_COMPUTATION then prim_with_excluded_node_single_threaded m []
  else Panic.

End MstPar.
Arguments pqdist : clear implicits.
