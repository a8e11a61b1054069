(** Model of src/mst.rs. *)
From Coq Require Import Arith Bool List.
From Verif Require Import Num Base Data.
Import ListNotations.

Section Mst.
Context {N : Num}.

(** mst.rs:175-197: the trait [FindMinCostEdge], as a record of operations on a container
    type [D].  [fm_update] receives the matrix and the index of the row (the code passes a
    view of the row, from which the multi-threaded container recovers a raw pointer into
    the matrix). *)
Record fmce (D : Type) := mkFmce {
  fm_default : edge N -> nat -> D;
  fm_find : D -> res (nat * edge N);
  fm_update : D -> nat -> namatrix N -> res D;
  fm_set_cost : D -> nat -> edge N -> res D;
  fm_exclude : D -> nat -> res D;
  fm_mark : D -> nat -> res D
}.
Arguments fm_default {D}.
Arguments fm_find {D}.
Arguments fm_update {D}.
Arguments fm_set_cost {D}.
Arguments fm_exclude {D}.
Arguments fm_mark {D}.

(** mst.rs:109-113: the first index that is not excluded *)
Fixpoint first_free (fuel : nat) (excluded : list nat) (idx : nat) : res nat :=
  match fuel with
  | O => OutOfFuel
  | S f => if memb idx excluded then first_free f excluded (idx + 1) else Ok idx
  end.

(** mst.rs:133-162: the main loop, [iters] iterations left *)
Fixpoint prim_loop {D} (ops : fmce D) (m : namatrix N) (start : nat) (iters : nat)
         (dist : D) (mst : graph N) : res (graph N) :=
  match iters with
  | O => Ok mst
  | S k =>
    '(v, e) <- fm_find ops dist ;;
    if ceq (e_cost e) cinf then Ok mst
    else
      dist <- fm_mark ops dist v ;;
      mst <- (if v =? start then Ok mst
              else
                mst <- modify_res mst v (fun es => es ++ [e]) ;;
                modify_res mst (e_to e) (fun es => es ++ [mkEdge v (e_cost e)])) ;;
      dist <- fm_update ops dist v m ;;
      prim_loop ops m start k dist mst
  end.

(** mst.rs:83-167 *)
Definition prim_with_excluded_node {D} (ops : fmce D) (m : namatrix N)
           (excluded : list nat) : res (graph N) :=
  let n := na_dim m in
  let dist := fm_default ops (mkEdge n cinf) (n + 1) in
  start <- first_free (S (length excluded)) excluded 0 ;;
  if n <=? start then Ok []
  else
    dist <- fm_set_cost ops dist start (mkEdge start c0) ;;
    dist <- foldM (fun d v => fm_exclude ops d v) excluded dist ;;
    mst <- prim_loop ops m start (n + 1) dist (repeat [] (n + 1)) ;;
    Ok (removelast mst).

(** ** The vector container, mst.rs:273-319 *)

Definition vdist := list (edge N * bool).

(** mst.rs:283-293: the unused entries with their indices *)
Definition unused (d : vdist) : list (nat * edge N) :=
  flat_map (fun '(i, (e, used)) => if used : bool then [] else [(i, e)])
           (combine (seq 0 (length d)) d).

(** [Iterator::min_by] with the [OrderedFloat] comparison: the first minimum *)
Definition min_entry (a b : nat * edge N) : nat * edge N :=
  if olt (e_cost (snd b)) (e_cost (snd a)) then b else a.
Definition first_min (l : list (nat * edge N)) : option (nat * edge N) :=
  match l with
  | [] => None
  | x :: t => Some (fold_left min_entry t x)
  end.

(** mst.rs:278-297 *)
Definition vec_find (d : vdist) : res (nat * edge N) :=
  Ok (match first_min (unused d) with
      | Some r => r
      | None => (length d, mkEdge (length d) cinf)
      end).

(** mst.rs:299-306: one cell of the update *)
Definition relax (from : nat) (d : vdist) (to : nat) (cost : C N) : res vdist :=
  x <- nth_res d to ;;
  if clt cost (e_cost (fst x)) then Ok (upd d to (mkEdge from cost, snd x)) else Ok d.

Definition vec_update (d : vdist) (from : nat) (m : namatrix N) : res vdist :=
  row <- na_row m from ;;
  foldM (fun d '(to, cost) => relax from d to cost) (combine (seq 0 (length row)) row) d.

(** mst.rs:308-318 *)
Definition vec_set_cost (d : vdist) (v : nat) (e : edge N) : res vdist :=
  modify_res d v (fun x => (e, snd x)).
Definition vec_mark (d : vdist) (v : nat) : res vdist :=
  modify_res d v (fun x => (fst x, true)).

Definition vec_ops : fmce vdist :=
  mkFmce vdist (fun e size => repeat (e, false) size)
         vec_find vec_update vec_set_cost vec_mark vec_mark.

(** mst.rs:61-66 *)
Definition prim_with_excluded_node_single_threaded (m : namatrix N) (excluded : list nat)
  : res (graph N) := prim_with_excluded_node vec_ops m excluded.

End Mst.

Arguments fmce : clear implicits.
Arguments vdist : clear implicits.
Arguments fm_default {N D}.
Arguments fm_find {N D}.
Arguments fm_update {N D}.
Arguments fm_set_cost {N D}.
Arguments fm_exclude {N D}.
Arguments fm_mark {N D}.
