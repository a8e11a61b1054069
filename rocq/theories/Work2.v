(** The polynomial algorithms again, with a trace of the cells and entries they look at: the triangle check, the nearest
    neighbour heuristic and the single-threaded algorithm of Prim.  The functions are those of Data.v, Nn.v and Mst.v, line by
    line, in the monad of Work.v ([Work2Proofs.v] proves that without the trace they are the same functions). *)
From Coq Require Import Arith Bool List.
From Verif Require Import Num Base Data Par Rand MstPar Mst Nn Work.
Import ListNotations.
Local Open Scope logged_scope.

Fixpoint wmapM {A B} (f : A -> logged B) (l : list A) : logged (list B) :=
  match l with
  | [] => quiet (Ok [])
  | x :: t => y <~ f x ;; ys <~ wmapM f t ;; quiet (Ok (y :: ys))
  end.

Section Work2.
Context {N : Num}.

(** datastructures/mod.rs:53-70: the calls of [get] *)
Definition wis_metric (a : adj N) : logged bool :=
  wfoldM (fun ok i =>
    wfoldM (fun ok j =>
      if ok : bool then
        direct <~ wget a i j ;;
        wfoldM (fun (ok : bool) k =>
          if ok then
            x <~ wget a i k ;;
            y <~ wget a k j ;;
            quiet (Ok (negb (clt (cadd (cadd x y) ceps) direct)))
          else quiet (Ok false)) (seq 0 (a_dim a)) true
      else quiet (Ok false))
      (seq i (a_dim a - i)) ok)
    (seq 0 (a_dim a)) true.

(** nalgebra's index; the nearest neighbour heuristic reads a cell that is the best so far a second time at once
    (nearest_neighbour.rs:43), which is not traced *)
Definition wcell (m : namatrix N) (i j : nat) : logged (C N) := ([(i, j)], na_get m i j).

(** nearest_neighbour.rs:41-46 *)
Definition wnn_scan (m : namatrix N) (visited : list bool) (current : nat)
    (acc : option nat * C N) (node : nat) : logged (option nat * C N) :=
  v <~ quiet (nth_res visited node) ;;
  if v : bool then quiet (Ok acc)
  else
    c <~ wcell m current node ;;
    if clt c (snd acc) then quiet (Ok (Some node, c)) else quiet (Ok acc).

(** nearest_neighbour.rs:37-57 *)
Fixpoint wnn_loop (m : namatrix N) (rounds : nat) (path : list nat) (visited : list bool)
    (current : nat) (distance : C N) : logged (list nat * nat * C N) :=
  match rounds with
  | O => quiet (Ok (path, current, distance))
  | S rounds =>
    '(nearest, min_distance) <~ wfoldM (wnn_scan m visited current) (seq 0 (na_dim m)) (None, cinf) ;;
    match nearest with
    | Some neighbour =>
      visited <~ quiet (modify_res visited neighbour (fun _ => true)) ;;
      wnn_loop m rounds (path ++ [neighbour]) visited neighbour (cadd distance min_distance)
    | None => quiet Panic
    end
  end.

(** nearest_neighbour.rs:26-62 *)
Definition wsingle_nearest_neighbour (m : namatrix N) (index : nat) : logged (solution N) :=
  if negb (index <? na_dim m) then quiet Panic
  else
    visited <~ quiet (modify_res (repeat false (na_dim m)) index (fun _ => true)) ;;
    '(path, current, distance) <~ wnn_loop m (na_dim m - 1) [index] visited index c0 ;;
    c <~ wcell m current index ;;
    quiet (Ok (cadd distance c, path)).

(** nearest_neighbour.rs:77-98, the sequential mode *)
Definition wn_nearest_neighbour (draws : nat -> nat) (m : namatrix N) (k : nat) : logged (solution N) :=
  if k =? 0 then quiet Panic
  else if negb (k <=? na_dim m) then quiet Panic
  else
    sols <~ wmapM (wsingle_nearest_neighbour m) (n_random_numbers draws (na_dim m) k) ;;
    quiet (unwrap (seq_reduce min_solution sols)).

(** mst.rs:278-297: the search goes over all entries of the vector; entry [i] is traced as the pair of [n + 1], where no
    matrix has a row, and [i] *)
Definition wvec_find (n : nat) (d : vdist N) : logged (nat * edge N) :=
  (map (fun i => (n + 1, i)) (seq 0 (length d)), vec_find d).

(** mst.rs:299-306 *)
Definition wrelax (m : namatrix N) (from : nat) (d : vdist N) (to : nat) : logged (vdist N) :=
  cost <~ wcell m from to ;;
  quiet (relax from d to cost).
Definition wvec_update (d : vdist N) (from : nat) (m : namatrix N) : logged (vdist N) :=
  if from <? na_dim m then wfoldM (wrelax m from) (seq 0 (na_dim m)) d else quiet Panic.

(** mst.rs:133-162 *)
Fixpoint wprim_loop (m : namatrix N) (start : nat) (iters : nat) (dist : vdist N) (mst : graph N) : logged (graph N) :=
  match iters with
  | O => quiet (Ok mst)
  | S k =>
    '(v, e) <~ wvec_find (na_dim m) dist ;;
    if ceq (e_cost e) cinf then quiet (Ok mst)
    else
      dist <~ quiet (vec_mark dist v) ;;
      mst <~ quiet (if v =? start then Ok mst
                    else
                      (mst <- modify_res mst v (fun es => es ++ [e]) ;;
                       modify_res mst (e_to e) (fun es => es ++ [mkEdge v (e_cost e)]))%nat) ;;
      dist <~ wvec_update dist v m ;;
      wprim_loop m start k dist mst
  end.

(** mst.rs:83-167 with the vector container *)
Definition wprim (m : namatrix N) (excluded : list nat) : logged (graph N) :=
  let n := na_dim m in
  let dist := repeat (mkEdge n cinf, false) (n + 1) in
  start <~ quiet (first_free (S (length excluded)) excluded 0) ;;
  if n <=? start then quiet (Ok [])
  else
    dist <~ quiet (vec_set_cost dist start (mkEdge start c0)) ;;
    dist <~ quiet (foldM (fun d v => vec_mark d v) excluded dist) ;;
    mst <~ wprim_loop m start (n + 1) dist (repeat [] (n + 1)) ;;
    quiet (Ok (removelast mst)).
End Work2.
