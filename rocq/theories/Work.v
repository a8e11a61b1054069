(** The exact solvers again, with a log of what they read from the matrix.

    A user of the library may hand the solvers V0 to V4 any type with the trait [AdjacencyMatrix]; what
    such a type can see of a solver is its calls of [get].  The functions of this file are those of Exact.v and Data.v,
    line by line, in a monad that also keeps the list of these calls ([WorkProofs.v] proves that without the
    log they are the same functions). *)
From Coq Require Import Arith Bool List.
From Verif Require Import Num Base Data Exact.
Import ListNotations.

(** the arguments of the calls of [get], in order, and the outcome *)
Definition logged (A : Type) : Type := (list (nat * nat) * res A)%type.
Definition quiet {A} (r : res A) : logged A := ([], r).
Definition wbind {A B} (x : logged A) (f : A -> logged B) : logged B :=
  match snd x with
  | Ok a => let y := f a in (fst x ++ fst y, snd y)
  | Panic => (fst x, Panic)
  | OutOfFuel => (fst x, OutOfFuel)
  end.
Declare Scope logged_scope.
Notation "x <~ e ;; k" := (wbind e (fun x => k)) (at level 61, e at next level, right associativity) : logged_scope.
Notation "' p <~ e ;; k" := (wbind e (fun p => k)) (at level 61, p pattern, e at next level, right associativity) : logged_scope.
Local Open Scope logged_scope.
Fixpoint wfoldM {A S} (f : S -> A -> logged S) (l : list A) (s : S) : logged S :=
  match l with
  | [] => quiet (Ok s)
  | x :: t => s <~ f s x ;; wfoldM f t s
  end.

Section Work.
Context {N : Num}.

(** datastructures/mod.rs:20 *)
Definition wget (g : adj N) (i j : nat) : logged (C N) := ([(i, j)], a_get g i j).

(** datastructures/mod.rs:26-38 *)
Definition wevaluate_path (a : adj N) (path : list nat) : logged (C N) :=
  let n := length path in
  if n <=? 1 then quiet (Ok c0)
  else wfoldM (fun acc from =>
                 x <~ quiet (nth_res path from) ;;
                 y <~ quiet (nth_res path (from + 1)) ;;
                 cost <~ wget a x y ;;
                 quiet (Ok (cadd acc cost)))
              (seq 0 (n - 1)) c0.

(** datastructures/mod.rs:42-49 *)
Definition wevaluate_circle (a : adj N) (path : list nat) : logged (C N) :=
  if length path <=? 1 then quiet (Ok c0)
  else
    l <~ quiet (last_res path) ;;
    f <~ quiet (first_res path) ;;
    last_edge <~ wget a l f ;;
    path_cost <~ wevaluate_path a path ;;
    quiet (Ok (cadd path_cost last_edge)).

(** exact.rs:24-41 *)
Fixpoint wnaive_loop (fuel : nat) (g : adj N) (cur : list nat) (best : solution N) : logged (solution N) :=
  match fuel with
  | O => quiet OutOfFuel
  | S f =>
    '(more, cur) <~ quiet (next_permutation cur) ;;
    if more : bool then
      cost <~ wevaluate_circle g cur ;;
      wnaive_loop f g cur (if clt cost (fst best) then (cost, cur) else best)
    else quiet (Ok best)
  end.
Definition wnaive_solver (g : adj N) : logged (solution N) :=
  let p := seq 0 (a_dim g) in
  wnaive_loop (fact (a_dim g)) g p (cinf, p).

(** exact.rs:48-65 *)
Fixpoint wfirst_loop (fuel : nat) (g : adj N) (cur : list nat) (best : solution N) : logged (solution N) :=
  match fuel with
  | O => quiet OutOfFuel
  | S f =>
    match cur with
    | [] => quiet Panic
    | h :: t =>
      '(more, t) <~ quiet (next_permutation t) ;;
      let cur := h :: t in
      if more : bool then
        cost <~ wevaluate_circle g cur ;;
        wfirst_loop f g cur (if clt cost (fst best) then (cost, cur) else best)
      else quiet (Ok best)
    end
  end.
Definition wfirst_improved_solver (g : adj N) : logged (solution N) :=
  let p := seq 0 (a_dim g) in
  wfirst_loop (fact (a_dim g)) g p (cinf, p).

(** exact.rs:102-115 *)
Definition wleaf (g : adj N) (prefix : list nat) (cost : C N) (result : solution N) : logged (solution N) :=
  l <~ quiet (last_res prefix) ;;
  f <~ quiet (first_res prefix) ;;
  e <~ wget g l f ;;
  let cost := cadd cost e in
  quiet (Ok (if clt cost (fst result) then (cost, prefix) else result)).

(** exact.rs:132-134 *)
Definition wlast_edge (g : adj N) (prefix : list nat) : logged (C N) :=
  let from := length prefix - 2 in
  let to := from + 1 in
  u <~ quiet (nth_res prefix from) ;;
  v <~ quiet (nth_res prefix to) ;;
  wget g u v.

(** exact.rs:90-144 *)
Fixpoint wsecond_rec (fuel : nat) (g : adj N) (prefix : list nat) (cost : C N) (result : solution N) : logged (solution N) :=
  match fuel with
  | O => quiet OutOfFuel
  | S f =>
    if length prefix =? a_dim g then wleaf g prefix cost result
    else
      '(_, result) <~
        wfoldM (fun '(cost, result) i =>
          if memb i prefix then quiet (Ok (cost, result))
          else
            let prefix := prefix ++ [i] in
            if length prefix =? 1 then
              result <~ wsecond_rec f g prefix cost result ;;
              quiet (Ok (cost, result))
            else
              e <~ wlast_edge g prefix ;;
              let cost := cadd cost e in
              result <~ wsecond_rec f g prefix cost result ;;
              quiet (Ok (csub cost e, result)))
          (seq 0 (a_dim g)) (cost, result) ;;
      quiet (Ok result)
  end.
(** exact.rs:76-85 *)
Definition wsecond_improved_solver (g : adj N) : logged (solution N) :=
  wsecond_rec (S (a_dim g)) g [] c0 (cinf, []).

(** exact.rs:166-217 *)
Fixpoint wthird_rec (fuel : nat) (g : adj N) (prefix : list nat) (cost : C N) (result : solution N) : logged (solution N) :=
  match fuel with
  | O => quiet OutOfFuel
  | S f =>
    if length prefix =? a_dim g then wleaf g prefix cost result
    else
      '(_, result) <~
        wfoldM (fun '(cost, result) i =>
          if memb i prefix then quiet (Ok (cost, result))
          else
            let prefix := prefix ++ [i] in
            if length prefix =? 1 then
              result <~ wthird_rec f g prefix cost result ;;
              quiet (Ok (cost, result))
            else
              e <~ wlast_edge g prefix ;;
              let cost := cadd cost e in
              result <~ (if cle cost (fst result)
                         then wthird_rec f g prefix cost result
                         else quiet (Ok result)) ;;
              quiet (Ok (csub cost e, result)))
          (seq 0 (a_dim g)) (cost, result) ;;
      quiet (Ok result)
  end.
(** exact.rs:148-157 *)
Definition wthird_improved_solver (g : adj N) : logged (solution N) :=
  wthird_rec (S (a_dim g)) g [] c0 (cinf, []).

(** exact.rs:315-347 *)
Definition wcompute_nn_of_remaining_vertices (g : adj N) (subtour : list nat) (n : nat) : logged (C N) :=
  wfoldM (fun acc i =>
    if memb i subtour then quiet (Ok acc)
    else
      shortest <~
        wfoldM (fun shortest j =>
          if memb j subtour then quiet (Ok shortest)
          else
            cost <~ wget g i j ;;
            quiet (Ok (if clt cost shortest then cost else shortest)))
          (seq (i + 1) (n - (i + 1))) cinf ;;
      quiet (Ok (if negb (ceq shortest cinf) then cadd acc shortest else acc)))
    (seq 0 n) c0.

(** exact.rs:250-309 *)
Fixpoint wfourth_rec (fuel : nat) (g : adj N) (prefix : list nat) (cost : C N) (result : solution N) : logged (solution N) :=
  match fuel with
  | O => quiet OutOfFuel
  | S f =>
    if length prefix =? a_dim g then wleaf g prefix cost result
    else
      '(_, result) <~
        wfoldM (fun '(cost, result) i =>
          if memb i prefix then quiet (Ok (cost, result))
          else
            let prefix := prefix ++ [i] in
            if length prefix =? 1 then
              result <~ wfourth_rec f g prefix cost result ;;
              quiet (Ok (cost, result))
            else
              e <~ wlast_edge g prefix ;;
              let cost := cadd cost e in
              lower_bound <~ wcompute_nn_of_remaining_vertices g prefix (a_dim g) ;;
              result <~ (if cle (cadd cost lower_bound) (fst result)
                         then wfourth_rec f g prefix cost result
                         else quiet (Ok result)) ;;
              quiet (Ok (csub cost e, result)))
          (seq 0 (a_dim g)) (cost, result) ;;
      quiet (Ok result)
  end.
(** exact.rs:235-244 *)
Definition wfourth_improved_solver (g : adj N) : logged (solution N) :=
  wfourth_rec (S (a_dim g)) g [] c0 (cinf, []).
End Work.
