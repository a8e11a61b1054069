(** Text, and the decimal form of natural numbers. *)
From Coq Require Import Ascii String DecimalString NArith Bool List.
Import ListNotations.

(** A string is the list of its bytes. *)
Definition text := list ascii.
Definition txt (s : string) : text := list_ascii_of_string s.
Arguments txt s%string.
Definition LF : text := ["010"%char].

Fixpoint text_eqb (a b : text) : bool :=
  match a, b with
  | [], [] => true
  | x :: a, y :: b => Ascii.eqb x y && text_eqb a b
  | _, _ => false
  end.

(** [println!]: a line *)
Definition line_of (s : text) : text := s ++ LF.

(** [Display for usize] (Rust's core library) *)
Definition show_nat (n : nat) : text := txt (NilZero.string_of_uint (N.to_uint (N.of_nat n))).

(** [FromStr for usize] and [u32] (Rust's core library): an optional plus sign, then at least one
    digit and nothing else; the number must be below [bound]. *)
Definition parse_unsigned (bound : N) (s : text) : option nat :=
  let digits := match s with "+"%char :: s' => s' | _ => s end in
  match NilZero.uint_of_string (string_of_list_ascii digits) with
  | Some d => if (N.of_uint d <? bound)%N then Some (N.to_nat (N.of_uint d)) else None
  | None => None
  end.
Definition parse_usize : text -> option nat := parse_unsigned (2 ^ 64).
Definition parse_u32 : text -> option nat := parse_unsigned (2 ^ 32).

(** [{:?}] of a [Vec<usize>] *)
Definition show_list (l : list nat) : text :=
  txt "[" ++ match l with [] => [] | x :: l => show_nat x ++ flat_map (fun y => txt ", " ++ show_nat y) l end ++ txt "]".

Definition is_digit (c : ascii) : bool := let k := N_of_ascii c in (48 <=? k)%N && (k <=? 57)%N.

(** white space of XML, and [str] without the white space at its ends *)
Definition is_space (c : ascii) : bool :=
  Ascii.eqb c " " || Ascii.eqb c "009" || Ascii.eqb c "010" || Ascii.eqb c "013".
Fixpoint trim_start (s : text) : text :=
  match s with
  | c :: s' => if is_space c then trim_start s' else s
  | [] => []
  end.
Definition trim_end (s : text) : text := rev (trim_start (rev s)).
Definition trim (s : text) : text := trim_end (trim_start s).
Definition blank (s : text) : bool := forallb is_space s.
