(** Model of src/solvers/approximate/christofides.rs and of [is_hamiltonian_cycle]. *)
From Coq Require Import Arith Bool List.
From Verif Require Import Num Base Data Mst Par Mem Rand MstPar Matching.
Import ListNotations.

Section Christofides.
Context {N : Num}.

(** ** The multigraph *)

(** a square [DMatrix<(f64, usize)>], stored column by column: cell (row, col) is at offset
    [col * dim + row] and holds the cost of an edge and how often it occurs *)
Record multigraph := mkMG { mg_dim : nat; mg_cells : list (C N * nat) }.

Definition mg_cell (g : multigraph) (row col : nat) : res (C N * nat) :=
  if (row <? mg_dim g) && (col <? mg_dim g) then nth_res (mg_cells g) (col * mg_dim g + row) else Panic.
Definition mg_modify (g : multigraph) (row col : nat) (f : C N * nat -> C N * nat) : res multigraph :=
  if (row <? mg_dim g) && (col <? mg_dim g)
  then cs <- modify_res (mg_cells g) (col * mg_dim g + row) f ;; Ok (mkMG (mg_dim g) cs)
  else Panic.

(** christofides.rs:254 *)
Definition mg_base (m : namatrix N) : multigraph := mkMG (na_dim m) (map (fun c => (c, 0)) (na_data m)).

(** christofides.rs:259-266: the edges of the spanning tree, row by row ([zip] stops at the
    shorter of the two sequences) *)
Definition fill_mst_seq (g : multigraph) (mst : graph N) : res multigraph :=
  foldM (fun g '(i, es) => foldM (fun g e => mg_modify g i (e_to e) (fun _ => (e_cost e, 1))) es g)
        (combine (seq 0 (mg_dim g)) mst) g.

(** christofides.rs:267-278: the same column by column and in parallel.  A task owns a column;
    indexing the column view panics when [to] is out of range. *)
Definition column_prog (dim i : nat) (es : list (edge N)) : list (instr (A := C N * nat)) :=
  map (fun e => Store (i * dim + e_to e) (e_cost e, 1)) es.
Definition fill_mst_par (sched : list nat) (g : multigraph) (mst : graph N) : res multigraph :=
  let tasks := combine (seq 0 (mg_dim g)) mst in
  if forallb (fun '(_, es) => forallb (fun e => e_to e <? mg_dim g) es) tasks then
    cs <- par_mem (map (fun '(i, es) => column_prog (mg_dim g) i es) tasks) sched (mg_cells g) ;;
    Ok (mkMG (mg_dim g) cs)
  else Panic.

Definition bump (c : C N * nat) : C N * nat := (fst c, S (snd c)).

(** christofides.rs:286-289 *)
Definition fill_matching_seq (g : multigraph) (M : matching) : res multigraph :=
  foldM (fun g '(i, j) => g <- mg_modify g i j bump ;; mg_modify g j i bump) M g.

(** christofides.rs:290-305: the same in parallel through raw pointers, without bounds check
    (an access outside the matrix, undefined behaviour in the source, is [Panic] here).  The
    increment of the second component is a load and a store; storing the unchanged cost as
    well makes no difference. *)
Definition pair_prog (dim : nat) (e : nat * nat) : list (instr (A := C N * nat)) :=
  [Modify (snd e * dim + fst e) bump; Modify (fst e * dim + snd e) bump].
Definition fill_matching_par (sched : list nat) (g : multigraph) (M : matching) : res multigraph :=
  cs <- par_mem (map (pair_prog (mg_dim g)) M) sched (mg_cells g) ;; Ok (mkMG (mg_dim g) cs).

(** the schedules of the two parallel loops *)
Record fillenv := mkFillEnv { fill_sched1 : list nat; fill_sched2 : list nat }.

(** christofides.rs:241-311 *)
Definition fill_multigraph (env : fillenv) (mode : nat) (m : namatrix N) (mst : graph N) (M : matching) : res multigraph :=
  if (mode =? MPI_COMPUTATION) || (mode =? SEQ_COMPUTATION) then
    g <- fill_mst_seq (mg_base m) mst ;; fill_matching_seq g M
  else if mode =? PAR_COMPUTATION then
    g <- fill_mst_par (fill_sched1 env) (mg_base m) mst ;; fill_matching_par (fill_sched2 env) g M
  else Panic.

(** ** The Eulerian cycle *)

(** a row of occurrence counts; panics when [i] is out of range *)
Definition mg_row (g : multigraph) (i : nat) : res (list nat) :=
  if i <? mg_dim g then mapM (fun j => c <- mg_cell g i j ;; Ok (snd c)) (seq 0 (mg_dim g)) else Panic.

(** christofides.rs:144-148: the first neighbour with an edge left *)
Definition first_neighbour (row : list nat) : option nat :=
  option_map fst (find (fun jt => negb (snd jt =? 0)) (combine (seq 0 (length row)) row)).

(** [x -= 1] with the [debug_assert] before it; in a release build 0 would wrap around *)
Definition take_one (g : multigraph) (i j : nat) : res multigraph :=
  c <- mg_cell g i j ;;
  match snd c with O => Panic | S t => mg_modify g i j (fun c => (fst c, t)) end.
Definition dec_degree (degree : list nat) (v : nat) : res (list nat) :=
  d <- nth_res degree v ;;
  match d with O => Panic | S d' => Ok (upd degree v d') end.

(** christofides.rs:136-186.  Every round uses up an edge, so [fuel] bounds the rounds. *)
Fixpoint find_cycle_loop (fuel : nat) (vertex : nat) (g : multigraph) (degree : list nat) (cycle : list nat)
  : res (list nat * multigraph * list nat) :=
  match fuel with
  | O => OutOfFuel
  | S fuel =>
    row <- mg_row g vertex ;;
    match first_neighbour row with
    | None => Ok (cycle, g, degree)
    | Some idx =>
      g <- take_one g vertex idx ;;
      g <- take_one g idx vertex ;;
      degree <- dec_degree degree vertex ;;
      degree <- dec_degree degree idx ;;
      find_cycle_loop fuel idx g degree (cycle ++ [idx])
    end
  end.
Definition find_cycle (fuel start : nat) (g : multigraph) (degree : list nat) :=
  find_cycle_loop fuel start g degree [start].

(** christofides.rs:115-119: the first position in the cycle with an unused edge *)
Fixpoint find_unfinished (degree : list nat) (idx : nat) (cycle : list nat) : res (option (nat * nat)) :=
  match cycle with
  | [] => Ok None
  | v :: t => d <- nth_res degree v ;; if d =? 0 then find_unfinished degree (S idx) t else Ok (Some (idx, v))
  end.

(** christofides.rs:115-129 *)
Fixpoint euler_loop (fuel cycle_fuel : nat) (g : multigraph) (degree : list nat) (cycle : list nat) : res (list nat) :=
  match fuel with
  | O => OutOfFuel
  | S fuel =>
    u <- find_unfinished degree 0 cycle ;;
    match u with
    | None => Ok cycle
    | Some (idx, vertex) =>
      '(c, g, degree) <- find_cycle cycle_fuel vertex g degree ;;
      euler_loop fuel cycle_fuel g degree (firstn (idx + 1) cycle ++ tl c ++ skipn (idx + 1) cycle)
    end
  end.

(** christofides.rs:106-109: the sums of the columns *)
Definition column_degrees (g : multigraph) : res (list nat) :=
  mapM (fun j => ts <- mapM (fun i => c <- mg_cell g i j ;; Ok (snd c)) (seq 0 (mg_dim g)) ;; Ok (list_sum ts))
       (seq 0 (mg_dim g)).

(** christofides.rs:102-130 *)
Definition eulerian_cycle (g : multigraph) : res (list nat) :=
  degree <- column_degrees g ;;
  let fuel := S (list_sum degree) in
  euler_loop fuel fuel g degree [0].

(** ** From the Eulerian to the Hamiltonian cycle *)

(** christofides.rs:207-219: the first occurrences; [visited[i]] panics out of range *)
Definition keep_first (dim : nat) (cycle : list nat) : res (list nat) :=
  '(_, kept) <- foldM (fun '(visited, kept) i =>
      seen <- nth_res visited i ;;
      if seen : bool then Ok (visited, kept)
      else visited <- modify_res visited i (fun _ => true) ;; Ok (visited, kept ++ [i]))
    cycle (repeat false dim, []) ;;
  Ok kept.

(** christofides.rs:196-225; the [debug_assert] on the maximum is weaker than the bounds check *)
Definition hamiltonian_from_eulerian_cycle (dim : nat) (cycle : list nat) : res (list nat) :=
  kept <- keep_first dim cycle ;;
  f <- first_res kept ;;
  Ok (kept ++ [f]).

(** solvers/mod.rs:12-35 *)
Definition is_hamiltonian_cycle (path : list nat) (dim : nat) : bool :=
  if forallb (fun u => u <? dim) path then
    snd (fold_left (fun '(seen_twice, ok) u =>
      let k := count_occ Nat.eq_dec path u in
      if ok : bool then
        if k =? 2 then (if seen_twice : bool then (true, false) else (true, true))
        else (seen_twice, k =? 1)
      else (seen_twice, false)) (seq 0 dim) (false, true))
  else false.

(** christofides.rs:66-69: the sum over the windows of length two *)
Fixpoint windows2 (l : list nat) : list (nat * nat) :=
  match l with a :: ((b :: _) as t) => (a, b) :: windows2 t | _ => [] end.
Definition windows_cost (m : namatrix N) (l : list nat) : res (C N) :=
  cs <- mapM (fun e => na_get m (fst e) (snd e)) (windows2 l) ;; Ok (csum cs).

(** ** The algorithm *)

(** christofides.rs:35-72; [debug] says whether [debug_assert]s are compiled in.  The
    argument of [matching_computer] may depend on random numbers. *)
Definition christofides_generic (debug : bool) (env : menv) (fenv : fillenv) (mode : nat) (m : namatrix N)
    (matching_computer : graph N -> namatrix N -> res matching) : res (solution N) :=
  metric <- (if debug then is_metric (na_adj m) else Ok true) ;;
  _ <- assert metric ;;
  mst <- prim env mode m ;;
  M <- matching_computer mst m ;;
  g <- fill_multigraph fenv mode m mst M ;;
  euler <- eulerian_cycle g ;;
  ham <- hamiltonian_from_eulerian_cycle (na_dim m) euler ;;
  cost <- windows_cost m ham ;;
  _ <- assert (if debug then is_hamiltonian_cycle ham (na_dim m) else true) ;;
  Ok (cost, ham).

(** christofides.rs:81-98 *)
Definition odd_vertices (mst : graph N) : list nat :=
  map fst (filter (fun '(_, es) => length es mod 2 =? 1) (combine (seq 0 (length mst)) mst)).
Definition compute_approx_matching (env : mtenv) (mode : nat) (mst : graph N) (m : namatrix N) : res matching :=
  let subgraph := odd_vertices mst in
  approx_min_cost_matching env mode m subgraph (length subgraph * length subgraph).

(** christofides.rs:17-19 *)
Definition christofides (debug : bool) (env : menv) (fenv : fillenv) (menv : mtenv) (mode : nat) (m : namatrix N)
  : res (solution N) :=
  christofides_generic debug env fenv mode m (compute_approx_matching menv mode).

End Christofides.
Arguments multigraph : clear implicits.
