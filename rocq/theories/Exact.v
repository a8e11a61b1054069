(** Model of src/solvers/exact.rs, sequential part (lines 20-614). *)
From Coq Require Import Arith Bool List NArith.
From Verif Require Import Num Base Data Mst.
Import ListNotations.

(** ** next_permutation, exact.rs:539-562 *)

(** exact.rs:545-547: walk left while [array[i-1] >= array[i]] *)
Fixpoint np_pivot (l : list nat) (i : nat) : res nat :=
  match i with
  | O => Ok O
  | S i' => x <- nth_res l i' ;; y <- nth_res l i ;;
            if y <=? x then np_pivot l i' else Ok i
  end.

(** exact.rs:554-556: walk left while [array[j] <= array[i-1]]; [j -= 1] at 0 would overflow *)
Fixpoint np_succ (l : list nat) (p : nat) (j : nat) : res nat :=
  x <- nth_res l j ;;
  if x <=? p then match j with O => Panic | S j' => np_succ l p j' end else Ok j.

(** exact.rs:539-562: the returned boolean and the array afterwards (elements are [usize]) *)
Definition next_permutation (l : list nat) : res (bool * list nat) :=
  match l with
  | [] => Ok (false, l)
  | _ =>
    i <- np_pivot l (length l - 1) ;;
    match i with
    | O => Ok (false, l)
    | S i' =>
      p <- nth_res l i' ;;
      j <- np_succ l p (length l - 1) ;;
      x <- nth_res l j ;;
      let l1 := upd (upd l i' x) j p in
      Ok (true, firstn i l1 ++ rev (skipn i l1))
    end
  end.

Section Exact.
Context {N : Num}.

(** exact.rs:33-39; fuel bounds the number of permutations tried *)
Fixpoint naive_loop (fuel : nat) (g : adj N) (cur : list nat) (best : solution N)
  : res (solution N) :=
  match fuel with
  | O => OutOfFuel
  | S f =>
    '(more, cur) <- next_permutation cur ;;
    if more then
      cost <- evaluate_circle g cur ;;
      naive_loop f g cur (if clt cost (fst best) then (cost, cur) else best)
    else Ok best
  end.

(** exact.rs:24-41; the loop runs at most n! times *)
Definition naive_solver (g : adj N) : res (solution N) :=
  let p := seq 0 (a_dim g) in
  naive_loop (fact (a_dim g)) g p (cinf, p).

(** exact.rs:57-63: permute [current_permutation[1..]]; the slice panics on an empty vector *)
Fixpoint first_loop (fuel : nat) (g : adj N) (cur : list nat) (best : solution N)
  : res (solution N) :=
  match fuel with
  | O => OutOfFuel
  | S f =>
    match cur with
    | [] => Panic
    | h :: t =>
      '(more, t) <- next_permutation t ;;
      let cur := h :: t in
      if more then
        cost <- evaluate_circle g cur ;;
        first_loop f g cur (if clt cost (fst best) then (cost, cur) else best)
      else Ok best
    end
  end.

(** exact.rs:48-65 *)
Definition first_improved_solver (g : adj N) : res (solution N) :=
  let p := seq 0 (a_dim g) in
  first_loop (fact (a_dim g)) g p (cinf, p).

(** The base case shared verbatim by all recursive solvers, e.g. exact.rs:102-115: close
    the circle and keep it if strictly better. *)
Definition leaf (g : adj N) (prefix : list nat) (cost : C N) (result : solution N)
  : res (solution N) :=
  l <- last_res prefix ;;
  f <- first_res prefix ;;
  e <- a_get g l f ;;
  let cost := cadd cost e in
  Ok (if clt cost (fst result) then (cost, prefix) else result).

(** The cost of the newest edge of the prefix, e.g. exact.rs:132-134.  [prefix.len() - 2]
    cannot underflow: it is reached only with at least two elements. *)
Definition last_edge (g : adj N) (prefix : list nat) : res (C N) :=
  let from := length prefix - 2 in
  let to := from + 1 in
  u <- nth_res prefix from ;;
  v <- nth_res prefix to ;;
  a_get g u v.

(** exact.rs:90-144.  The mutable prefix is pushed before and popped after the recursive
    call, so it is passed as a value; [current_cost] is mutated in the loop ([+=] before,
    [-=] after the call) and is therefore part of the loop state. *)
Fixpoint second_rec (fuel : nat) (g : adj N) (prefix : list nat) (cost : C N)
         (result : solution N) : res (solution N) :=
  match fuel with
  | O => OutOfFuel
  | S f =>
    if length prefix =? a_dim g then leaf g prefix cost result
    else
      '(_, result) <-
        foldM (fun '(cost, result) i =>
          if memb i prefix then Ok (cost, result)
          else
            let prefix := prefix ++ [i] in
            if length prefix =? 1 then
              result <- second_rec f g prefix cost result ;;
              Ok (cost, result)
            else
              e <- last_edge g prefix ;;
              let cost := cadd cost e in
              result <- second_rec f g prefix cost result ;;
              Ok (csub cost e, result))
          (seq 0 (a_dim g)) (cost, result) ;;
      Ok result
  end.

(** exact.rs:76-85 *)
Definition second_improved_solver (g : adj N) : res (solution N) :=
  second_rec (S (a_dim g)) g [] c0 (cinf, []).

(** exact.rs:166-217 *)
Fixpoint third_rec (fuel : nat) (g : adj N) (prefix : list nat) (cost : C N)
         (result : solution N) : res (solution N) :=
  match fuel with
  | O => OutOfFuel
  | S f =>
    if length prefix =? a_dim g then leaf g prefix cost result
    else
      '(_, result) <-
        foldM (fun '(cost, result) i =>
          if memb i prefix then Ok (cost, result)
          else
            let prefix := prefix ++ [i] in
            if length prefix =? 1 then
              result <- third_rec f g prefix cost result ;;
              Ok (cost, result)
            else
              e <- last_edge g prefix ;;
              let cost := cadd cost e in
              result <- (if cle cost (fst result)
                         then third_rec f g prefix cost result
                         else Ok result) ;;
              Ok (csub cost e, result))
          (seq 0 (a_dim g)) (cost, result) ;;
      Ok result
  end.

(** exact.rs:148-157 *)
Definition third_improved_solver (g : adj N) : res (solution N) :=
  third_rec (S (a_dim g)) g [] c0 (cinf, []).

(** exact.rs:315-347 *)
Definition compute_nn_of_remaining_vertices (g : adj N) (subtour : list nat) (n : nat)
  : res (C N) :=
  foldM (fun acc i =>
    if memb i subtour then Ok acc
    else
      shortest <-
        foldM (fun shortest j =>
          if memb j subtour then Ok shortest
          else
            cost <- a_get g i j ;;
            Ok (if clt cost shortest then cost else shortest))
          (seq (i + 1) (n - (i + 1))) cinf ;;
      Ok (if negb (ceq shortest cinf) then cadd acc shortest else acc))
    (seq 0 n) c0.

(** exact.rs:250-309 *)
Fixpoint fourth_rec (fuel : nat) (g : adj N) (prefix : list nat) (cost : C N)
         (result : solution N) : res (solution N) :=
  match fuel with
  | O => OutOfFuel
  | S f =>
    if length prefix =? a_dim g then leaf g prefix cost result
    else
      '(_, result) <-
        foldM (fun '(cost, result) i =>
          if memb i prefix then Ok (cost, result)
          else
            let prefix := prefix ++ [i] in
            if length prefix =? 1 then
              result <- fourth_rec f g prefix cost result ;;
              Ok (cost, result)
            else
              e <- last_edge g prefix ;;
              let cost := cadd cost e in
              lower_bound <- compute_nn_of_remaining_vertices g prefix (a_dim g) ;;
              result <- (if cle (cadd cost lower_bound) (fst result)
                         then fourth_rec f g prefix cost result
                         else Ok result) ;;
              Ok (csub cost e, result))
          (seq 0 (a_dim g)) (cost, result) ;;
      Ok result
  end.

(** exact.rs:235-244 *)
Definition fourth_improved_solver (g : adj N) : res (solution N) :=
  fourth_rec (S (a_dim g)) g [] c0 (cinf, []).

(** exact.rs:363-422 *)
Fixpoint fifth_rec (fuel : nat) (m : namatrix N) (prefix : list nat) (cost : C N)
         (result : solution N) : res (solution N) :=
  match fuel with
  | O => OutOfFuel
  | S f =>
    if length prefix =? na_dim m then leaf (na_adj m) prefix cost result
    else
      '(_, result) <-
        foldM (fun '(cost, result) i =>
          if memb i prefix then Ok (cost, result)
          else
            let prefix := prefix ++ [i] in
            if length prefix =? 1 then
              result <- fifth_rec f m prefix cost result ;;
              Ok (cost, result)
            else
              e <- last_edge (na_adj m) prefix ;;
              let cost := cadd cost e in
              lower_bound_graph <- prim_with_excluded_node_single_threaded m prefix ;;
              let lower_bound := directed_edge_weight lower_bound_graph in
              result <- (if cle (cadd cost lower_bound) (fst result)
                         then fifth_rec f m prefix cost result
                         else Ok result) ;;
              Ok (csub cost e, result))
          (seq 0 (na_dim m)) (cost, result) ;;
      Ok result
  end.

(** exact.rs:352-358 *)
Definition fifth_improved_solver (m : namatrix N) : res (solution N) :=
  fifth_rec (S (na_dim m)) m [] c0 (cinf, []).

(** The cache of the sixth solver: a map from hashes to lower bounds.
    [mst_cache.entry(hash).or_insert(v)]: the stored value if there is one, else store [v].
    The argument of [or_insert] is evaluated in both cases (exact.rs:514-517). *)
Definition cache := list (N.t * C N).
Fixpoint cache_find (c : cache) (h : N.t) : option (C N) :=
  match c with
  | [] => None
  | (k, v) :: t => if N.eqb k h then Some v else cache_find t h
  end.
Definition or_insert (c : cache) (h : N.t) (v : C N) : C N * cache :=
  match cache_find c h with
  | Some v' => (v', c)
  | None => (v, (h, v) :: c)
  end.

(** exact.rs:454-532; the hash function is a parameter [hash] (see [fx_hash] below) *)
Fixpoint sixth_rec (hash : list nat -> N.t) (fuel : nat) (m : namatrix N) (prefix : list nat)
         (cost : C N) (result : solution N) (mst_cache : cache)
  : res (solution N * cache) :=
  match fuel with
  | O => OutOfFuel
  | S f =>
    if length prefix =? na_dim m then
      result <- leaf (na_adj m) prefix cost result ;; Ok (result, mst_cache)
    else
      '(_, result, mst_cache) <-
        foldM (fun '(cost, result, mst_cache) i =>
          if memb i prefix then Ok (cost, result, mst_cache)
          else
            let prefix := prefix ++ [i] in
            if length prefix =? 1 then
              '(result, mst_cache) <- sixth_rec hash f m prefix cost result mst_cache ;;
              Ok (cost, result, mst_cache)
            else
              e <- last_edge (na_adj m) prefix ;;
              let cost := cadd cost e in
              computed <- prim_with_excluded_node_single_threaded m prefix ;;
              let '(lower_bound, mst_cache) :=
                or_insert mst_cache (hash prefix) (directed_edge_weight computed) in
              '(result, mst_cache) <-
                (if cle (cadd cost lower_bound) (fst result)
                 then sixth_rec hash f m prefix cost result mst_cache
                 else Ok (result, mst_cache)) ;;
              Ok (csub cost e, result, mst_cache))
          (seq 0 (na_dim m)) (cost, result, mst_cache) ;;
      Ok (result, mst_cache)
  end.

(** exact.rs:426-439 with an arbitrary hash function *)
Definition sixth_improved_solver_with (hash : list nat -> N.t) (m : namatrix N)
  : res (solution N) :=
  '(result, _) <- sixth_rec hash (S (na_dim m)) m [] c0 (cinf, []) [] ;; Ok result.

End Exact.

(** FxHasher of crate rustc-hash 1.x on 64-bit targets, as used in exact.rs:509-513:
    [hash = (hash.rotate_left(5) ^ word).wrapping_mul(0x517cc1b727220a95)], fed with the
    length of the vector and then its elements ([impl Hash for Vec<usize>] feeds the
    elements of a [usize] slice as one byte string, i.e. word by word). *)
Definition fx_word (h w : N.t) : N.t :=
  let rot := N.lor (N.land (N.shiftl h 5) (N.ones 64)) (N.shiftr h 59) in
  N.land (N.mul (N.lxor rot w) 5871781006564002453) (N.ones 64).
Definition fx_hash (l : list nat) : N.t :=
  fold_left fx_word (map N.of_nat l) (fx_word 0 (N.of_nat (length l))).

(** exact.rs:426-439 *)
Definition sixth_improved_solver {N : Num} (m : namatrix N) : res (solution N) :=
  sixth_improved_solver_with fx_hash m.

(** ** Splitting the key space, exact.rs:564-614.  Machine integers are unbounded here: the
    code's [usize] overflows only when [basis ^ digits >= 2^64]. *)

(** exact.rs:586-597 *)
Fixpoint digits_rev (value basis n : nat) : list nat :=
  match n with
  | O => []
  | S k => value mod basis :: digits_rev (value / basis) basis k
  end.
Definition convert_to_b_ary_digits (value basis number_digits : nat) : list nat :=
  rev (digits_rev value basis number_digits).

(** exact.rs:566-583.  [max = min + chunk - 1] cannot underflow since chunk >= 1; division by
    zero ([n = 0]) panics. *)
Definition split_up_b_ary_number_into_n_chunks (number_digits basis n k : nat)
  : res (list nat * list nat) :=
  let total := basis ^ number_digits in
  _ <- assert (n <? total) ;;
  _ <- assert (negb (n =? 0)) ;;
  let chunk := total / n in
  let min_value := k * chunk in
  let max_value := min_value + chunk - 1 in
  Ok (convert_to_b_ary_digits min_value basis number_digits,
      convert_to_b_ary_digits max_value basis number_digits).

(** exact.rs:601-614 on the digits from right to left; [true] = a value was produced.
    Division by a zero basis panics in the code and gives zero here; only the root of the dynamic
    solver on the empty matrix gets there, and then its workers panic as well. *)
Fixpoint next_rev (basis carry : nat) (l : list nat) : bool * list nat :=
  match l with
  | [] => (false, [])
  | d :: t =>
    let d' := d + carry in
    let carry' := d' / basis in
    if carry' =? 0 then (true, d' mod basis :: t)
    else let '(b, t') := next_rev basis carry' t in (b, d' mod basis :: t')
  end.
Definition get_next_value (current_digits : list nat) (basis : nat) : option (list nat) :=
  match next_rev basis 1 (rev current_digits) with
  | (true, l) => Some (rev l)
  | (false, _) => None
  end.
