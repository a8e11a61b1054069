(** Model of src/solvers/approximate/matching.rs. *)
From Coq Require Import Arith Bool List.
From Verif Require Import Num Base Data Par Rand MstPar.
Import ListNotations.

Section Matching.
Context {N : Num}.

(** a matching: [Vec<[usize; 2]>] *)
Definition matching := list (nat * nat).

(** matching.rs:137-179: the new contents of the two edges.  The branch of line 160 writes
    [v1, v2] where the comment of the source announces case 2, [v0, v3] and [v1, v2]; the
    model follows the code. *)
Definition optimize_two_matching (m : namatrix N) (edg01 edg23 : nat * nat) : res ((nat * nat) * (nat * nat)) :=
  let '(v0, v1) := edg01 in
  let '(v2, v3) := edg23 in
  cost_edg01 <- na_get m v0 v1 ;;
  cost_edg23 <- na_get m v2 v3 ;;
  let cost_0 := cadd cost_edg01 cost_edg23 in
  cost_edg02 <- na_get m v0 v2 ;;
  cost_edg13 <- na_get m v1 v3 ;;
  let cost_1 := cadd cost_edg02 cost_edg13 in
  cost_edg03 <- na_get m v0 v3 ;;
  cost_edg12 <- na_get m v1 v2 ;;
  let cost_2 := cadd cost_edg03 cost_edg12 in
  Ok (if clt cost_1 cost_0 then
        if clt cost_2 cost_1 then ((v0, v2), (v1, v2))
        else ((v0, v2), (v1, v3))
      else
        if clt cost_2 cost_0 then ((v0, v3), (v1, v2))
        else (edg01, edg23)).

(** matching.rs:101-111: [chunks_exact_mut(2)]; a last single edge is left alone *)
Fixpoint improve_chunks (m : namatrix N) (M : matching) : res matching :=
  match M with
  | e :: f :: t =>
    '(e', f') <- optimize_two_matching m e f ;;
    t' <- improve_chunks m t ;;
    Ok (e' :: f' :: t')
  | _ => Ok M
  end.

(** matching.rs:89-113; [draws t] are the random numbers of the shuffle of try [t] *)
Definition improve_matching (draws : nat -> nat -> nat) (m : namatrix N) (M : matching) (tries : nat) : res matching :=
  if length M <=? 1 then Ok M
  else foldM (fun M t => improve_chunks m (shuffle (draws t) M)) (seq 0 tries) M.

(** [chunks_exact(2)]: the chunks and the remainder *)
Fixpoint chunks2 {A} (l : list A) : list (A * A) :=
  match l with x :: y :: t => (x, y) :: chunks2 t | _ => [] end.
Fixpoint remainder2 {A} (l : list A) : list A :=
  match l with _ :: _ :: t => remainder2 t | _ => l end.
Definition unchunk2 {A} (cs : list (A * A)) (rest : list A) : list A :=
  flat_map (fun c => [fst c; snd c]) cs ++ rest.

(** matching.rs:194-204: a task of the parallel loop, which owns one chunk.  First it reads
    its two edges and the graph, then it writes its edges one after the other. *)
Inductive ctask := CRead | CWrite1 (e f : nat * nat) | CWrite2 (f : nat * nat) | CDone.
Definition chunk_step (m : namatrix N) (i : nat) (t : ctask) (cs : list ((nat * nat) * (nat * nat)))
  : res (ctask * list ((nat * nat) * (nat * nat))) :=
  match t with
  | CRead => c <- nth_res cs i ;; '(e, f) <- optimize_two_matching m (fst c) (snd c) ;; Ok (CWrite1 e f, cs)
  | CWrite1 e f => cs <- modify_res cs i (fun c => (e, snd c)) ;; Ok (CWrite2 f, cs)
  | CWrite2 f => cs <- modify_res cs i (fun c => (fst c, f)) ;; Ok (CDone, cs)
  | CDone => Ok (CDone, cs)
  end.

(** matching.rs:182-206; [sched t] interleaves the tasks of try [t] *)
Definition par_improve_matching (draws : nat -> nat -> nat) (sched : nat -> list nat) (m : namatrix N)
    (M : matching) (tries : nat) : res matching :=
  foldM (fun M t =>
           let M := shuffle (draws t) M in
           cs <- par_for (chunk_step m) CRead 3 (length (chunks2 M)) (sched t) (chunks2 M) ;;
           Ok (unchunk2 cs (remainder2 M)))
        (seq 0 tries) M.

(** matching.rs:232: the cost of a matching *)
Definition matching_cost (m : namatrix N) (M : matching) : res (C N) :=
  cs <- mapM (fun e => na_get m (fst e) (snd e)) M ;; Ok (csum cs).

(** matching.rs:209-281 and 301-336 on all ranks.  Every rank gets the matching, the number of
    tries and the matrix of the root (the root in [mpi_improve_matching], the others before
    it, lib.rs:115-124), improves it with its own random numbers [draws rank], and the root
    takes the first of the cheapest; all ranks end with that matching.  Receives name their
    source, so the order of the messages does not matter.  [broadcast_matching] and line 242
    index the first edge, so the empty matching panics. *)
Definition mpi_improve_matching (draws : nat -> nat -> nat -> nat) (m : namatrix N) (M : matching)
    (tries size : nat) : res (list matching) :=
  if length M =? 0 then Panic
  else
    locals <- mapM (fun rank => M' <- improve_matching (draws rank) m M tries ;;
                                cost <- matching_cost m M' ;; Ok (cost, M')) (seq 0 size) ;;
    root <- first_res locals ;;
    let best := fold_left (fun best other => if clt (fst other) (fst best) then other else best) (tl locals) root in
    Ok (repeat (snd best) size).

(** What a computation of a matching may depend on besides its arguments *)
Record mtenv := mkMtEnv {
  mt_first : nat -> nat;                     (* random numbers of the first shuffle *)
  mt_draws : nat -> nat -> nat -> nat;       (* rank, try: random numbers of that shuffle *)
  mt_sched : nat -> list nat;                (* try: interleaving of the parallel loop *)
  mt_size : nat                              (* MPI: number of processes *)
}.

(** matching.rs:30-58; for MPI the value on the root *)
Definition approx_min_cost_matching (env : mtenv) (mode : nat) (m : namatrix N) (vertices : list nat) (tries : nat)
  : res matching :=
  let M := chunks2 (shuffle (mt_first env) vertices) in
  if mode =? SEQ_COMPUTATION then improve_matching (mt_draws env 0) m M tries
  else if mode =? PAR_COMPUTATION then par_improve_matching (mt_draws env 0) (mt_sched env) m M tries
  else if mode =? MPI_COMPUTATION then
    results <- mpi_improve_matching (mt_draws env) m M tries (mt_size env) ;; first_res results
  else Panic.

End Matching.
