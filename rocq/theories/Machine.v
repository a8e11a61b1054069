(** The index arithmetic of the work splits on machine integers: src/solvers/exact.rs:564-614,
    674-688 and src/solvers/approximate/nearest_neighbour.rs:134-146 once more, this time with
    64-bit [usize] and [i32] instead of natural numbers. *)
From Coq Require Import ZArith Bool List.
From Verif Require Import Num Base.
Import ListNotations.
Local Open Scope Z_scope.

(** Overflow panics in a debug build and wraps around in a release build. *)
Inductive build := Debug | Release.

(** the value of an operation on integers from [lo] up to but not including [hi] whose exact result is [z] *)
Definition machine (lo hi : Z) (b : build) (z : Z) : res Z :=
  if (lo <=? z) && (z <? hi) then Ok z
  else match b with Debug => Panic | Release => Ok ((z - lo) mod (hi - lo) + lo) end.

(** [usize] on a 64-bit target *)
Definition usize := machine 0 (2 ^ 64).
Definition u_add b x y := usize b (x + y).
Definition u_sub b x y := usize b (x - y).
Definition u_mul b x y := usize b (x * y).
(** division by zero panics in both builds *)
Definition u_div x y : res Z := if y =? 0 then Panic else Ok (x / y).
Definition u_rem x y : res Z := if y =? 0 then Panic else Ok (x mod y).

(** [i32]; the divisions of the code have a positive divisor (and a divisor 0 panics) *)
Definition i32 := machine (- 2 ^ 31) (2 ^ 31).
Definition i_add b x y := i32 b (x + y).
Definition i_sub b x y := i32 b (x - y).
Definition i_mul b x y := i32 b (x * y).
Definition i_div x y : res Z := if y =? 0 then Panic else Ok (Z.quot x y).
Definition i_rem x y : res Z := if y =? 0 then Panic else Ok (Z.rem x y).

(** [usize::pow] of the standard library: squaring, from the lowest bit of the exponent *)
Fixpoint pow_loop (b : build) (exp : positive) (base acc : Z) : res Z :=
  match exp with
  | xH => u_mul b acc base
  | xO e => base <- u_mul b base base ;; pow_loop b e base acc
  | xI e => acc <- u_mul b acc base ;; base <- u_mul b base base ;; pow_loop b e base acc
  end.
Definition u_pow (b : build) (base exp : Z) : res Z :=
  match exp with Zpos e => pow_loop b e base 1 | _ => Ok 1 end.

(** exact.rs:586-597 *)
Fixpoint m_digits_rev (value basis : Z) (n : nat) : res (list Z) :=
  match n with
  | O => Ok []
  | S k => d <- u_rem value basis ;; r <- u_div value basis ;; ds <- m_digits_rev r basis k ;; Ok (d :: ds)
  end.
Definition m_convert_to_b_ary_digits (value basis : Z) (number_digits : nat) : res (list Z) :=
  ds <- m_digits_rev value basis number_digits ;; Ok (rev ds).

(** exact.rs:566-583; [number_digits as u32] drops the higher bits *)
Definition m_split_up_b_ary_number_into_n_chunks (b : build) (number_digits : nat) (basis n k : Z) : res (list Z * list Z) :=
  total_values <- u_pow b basis (Z.of_nat number_digits mod 2 ^ 32) ;;
  _ <- assert (n <? total_values) ;;
  chunk_size <- u_div total_values n ;;
  min_value <- u_mul b k chunk_size ;;
  sum <- u_add b min_value chunk_size ;;
  max_value <- u_sub b sum 1 ;;
  min_digits <- m_convert_to_b_ary_digits min_value basis number_digits ;;
  max_digits <- m_convert_to_b_ary_digits max_value basis number_digits ;;
  Ok (min_digits, max_digits).

(** exact.rs:601-614 on the digits from right to left; [true]: a value was produced *)
Fixpoint m_next_rev (b : build) (basis carry : Z) (l : list Z) : res (bool * list Z) :=
  match l with
  | [] => Ok (false, [])
  | d :: t =>
    d' <- u_add b d carry ;;
    carry' <- u_div d' basis ;;
    d'' <- u_rem d' basis ;;
    if carry' =? 0 then Ok (true, d'' :: t)
    else '(done, t') <- m_next_rev b basis carry' t ;; Ok (done, d'' :: t')
  end.
Definition m_get_next_value (b : build) (current_digits : list Z) (basis : Z) : res (option (list Z)) :=
  '(done, l) <- m_next_rev b basis 1 (rev current_digits) ;; Ok (if done : bool then Some (rev l) else None).

(** [next_value.len() == set(next_value).len()] and [next_value == max_digits] *)
Definition m_is_unique (l : list Z) : bool := (length l =? length (nodup Z.eq_dec l))%nat.
Fixpoint m_list_eqb (x y : list Z) : bool :=
  match x, y with
  | [], [] => true
  | a :: x, b :: y => (a =? b) && m_list_eqb x y
  | _, _ => false
  end.

(** exact.rs:674-688 = 896-909: the prefixes a worker goes on to use.  [fuel] bounds the rounds. *)
Fixpoint m_walk (b : build) (fuel : nat) (min_digits max_digits : list Z) (basis : Z) : res (list (list Z)) :=
  match fuel with
  | O => OutOfFuel
  | S f =>
    next <- m_get_next_value b min_digits basis ;;
    match next with
    | None => Ok []
    | Some next_value =>
      if m_list_eqb next_value max_digits then Ok []
      else
        rest <- m_walk b f next_value max_digits basis ;;
        Ok (if m_is_unique next_value then next_value :: rest else rest)
    end
  end.
Definition m_chunk_prefixes (b : build) (fuel : nat) (prefix_length : nat) (dim n k : Z) : res (list (list Z)) :=
  '(min_digits, max_digits) <- m_split_up_b_ary_number_into_n_chunks b prefix_length dim n k ;;
  m_walk b fuel min_digits max_digits dim.

(** nearest_neighbour.rs:134-146: the first start node of a rank and the end of its range.  [dim]
    is converted to [i32] with [try_into().unwrap()]; [size] and [rank] are [i32] already. *)
Definition m_nn_chunk (b : build) (dim size rank : Z) : res (Z * Z) :=
  n <- (if dim <? 2 ^ 31 then Ok dim else Panic) ;;
  chunk_size <- i_div n size ;;
  start_node <- i_mul b chunk_size rank ;;
  end_node <- i_add b start_node chunk_size ;;
  last <- i_sub b size 1 ;;
  if rank =? last then
    r <- i_rem n size ;;
    Ok (start_node, if negb (r =? 0) then n else end_node)
  else Ok (start_node, end_node).
