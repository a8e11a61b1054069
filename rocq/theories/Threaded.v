(** Model of the multi-threaded exact solver and of the search shared by the MPI solvers,
    src/solvers/exact.rs:616-724 and 964-1046. *)
From Coq Require Import Arith Bool List.
From Verif Require Import Num Base Data Mst Exact.
Import ListNotations.

(** exact.rs:683-688 (and 905-909): [next_value.len() == set(next_value).len()] *)
Definition is_unique (l : list nat) : bool := length l =? length (nodup Nat.eq_dec l).

(** [next_value == max_digits] on vectors *)
Fixpoint list_eqb (a b : list nat) : bool :=
  match a, b with
  | [], [] => true
  | x :: a, y :: b => (x =? y) && list_eqb a b
  | _, _ => false
  end.

(** exact.rs:674-688 = 896-909: the prefixes a worker goes on to use, in this order.  The
    loop's control (successor, end of chunk, uniqueness) reads nothing that the loop's body
    writes, so the model lists the prefixes first and works on them afterwards. *)
Fixpoint walk (fuel : nat) (min_digits max_digits : list nat) (basis : nat)
  : res (list (list nat)) :=
  match fuel with
  | O => OutOfFuel
  | S f =>
    match get_next_value min_digits basis with
    | None => Ok []
    | Some next_value =>
      if list_eqb next_value max_digits then Ok []
      else
        rest <- walk f next_value max_digits basis ;;
        Ok (if is_unique next_value then next_value :: rest else rest)
    end
  end.

(** exact.rs:664-671 = 886-891 followed by the loop: worker [k] of [n] *)
Definition chunk_prefixes (prefix_length dim n k : nat) : res (list (list nat)) :=
  '(min_digits, max_digits) <- split_up_b_ary_number_into_n_chunks prefix_length dim n k ;;
  walk (S (dim ^ prefix_length)) min_digits max_digits dim.

Section Threaded.
Context {N : Num}.

(** exact.rs:967-1046 *)
Fixpoint mpi_rec (fuel : nat) (m : namatrix N) (prefix : list nat) (cost : C N)
         (result : solution N) (global_best_cost : C N) : res (solution N) :=
  match fuel with
  | O => OutOfFuel
  | S f =>
    if length prefix =? na_dim m then leaf (na_adj m) prefix cost result
    else
      '(_, result) <-
        foldM (fun '(cost, result) i =>
          if memb i prefix then Ok (cost, result)
          else
            let prefix := prefix ++ [i] in
            if length prefix =? 1 then
              result <- mpi_rec f m prefix cost result global_best_cost ;;
              Ok (cost, result)
            else
              e <- last_edge (na_adj m) prefix ;;
              let cost := cadd cost e in
              lower_bound_graph <- prim_with_excluded_node_single_threaded m prefix ;;
              let lower_bound := directed_edge_weight lower_bound_graph in
              let best_known_solution :=
                if clt global_best_cost (fst result) then global_best_cost else fst result in
              result <- (if cle (cadd cost lower_bound) best_known_solution
                         then mpi_rec f m prefix cost result global_best_cost
                         else Ok result) ;;
              Ok (csub cost e, result))
          (seq 0 (na_dim m)) (cost, result) ;;
      Ok result
  end.

(** exact.rs:690-708: what a thread computes for one prefix *)
Definition thread_work (m : namatrix N) (prefix : list nat) : res (solution N) :=
  cost <- evaluate_path (na_adj m) prefix ;;
  fifth_rec (S (na_dim m)) m prefix cost (cinf, []).

(** exact.rs:711-715: the critical section *)
Definition merge (global result : solution N) : solution N :=
  if clt (fst result) (fst global) then result else global.

(** A configuration: the shared best solution and, per thread, the prefixes still to do. *)
Definition tconfig : Type := (solution N * list (list (list nat)))%type.

(** One thread works on its next prefix and merges the result.  The work before the lock
    touches only the thread's own data, so the interleavings of the critical sections are
    the interleavings of these steps. *)
Inductive tstep (m : namatrix N) : tconfig -> tconfig -> Prop :=
| tstep_thread : forall global before p rest after result,
    thread_work m p = Ok result ->
    tstep m (global, before ++ (p :: rest) :: after)
            (merge global result, before ++ rest :: after).

Inductive tsteps (m : namatrix N) : tconfig -> tconfig -> Prop :=
| tsteps_refl : forall c, tsteps m c c
| tsteps_step : forall c c' c'', tsteps m c c' -> tstep m c' c'' -> tsteps m c c''.

(** all threads have joined (end of [rayon::scope]) *)
Definition tdone (c : tconfig) : Prop := Forall (fun todo => todo = []) (snd c).

(** exact.rs:645, 658-671: the configuration in which the threads start; a panic of a thread
    (in the split) propagates *)
Definition tinit (m : namatrix N) (prefix_length threads : nat) : res tconfig :=
  todo <- mapM (chunk_prefixes prefix_length (na_dim m) threads) (seq 0 threads) ;;
  Ok ((cinf, []), todo).

(** exact.rs:635-724: [s] is a possible result with the given number of threads *)
Definition threaded_result (m : namatrix N) (prefix_length threads : nat) (s : solution N) : Prop :=
  if na_dim m <=? threads then fifth_improved_solver m = Ok s
  else exists c0 c, tinit m prefix_length threads = Ok c0 /\ tsteps m c0 c /\ tdone c /\ s = fst c.

End Threaded.
Arguments tconfig : clear implicits.
