(** The decimal form of doubles: Rust's [FromStr for f64] and [Display for f64] (core library).
    src/parser.rs:172 reads the costs of the edges with the first (through serde), src/lib.rs:76,
    130, 151, 198, 211, 218 and utils/gen_matrix_fast/src/main.rs:35 print with the second; every
    definition of this file belongs to these.  Modelled from the documentation: reading rounds
    correctly (to nearest, ties to even), printing gives the shortest digits that are read back,
    the closest of these, without exponent.  *)
From Coq Require Import Ascii String ZArith NArith Bool List.
From Flocq Require Import Core IEEE754.Binary IEEE754.Bits.
From Flocq Require IEEE754.BinarySingleNaN.
From Verif Require Import Num NumB64 Text Xml.
Import ListNotations.
Local Open Scope char_scope.
Local Open Scope Z_scope.

(** ** Rounding *)
(** [(-1)^s * num / den], rounded *)
Definition ratio64 (s : bool) (num den : positive) : binary64 :=
  BSN2B 53 1024 default_nan_pl64
    (BinarySingleNaN.SF2B _ (proj1 (BinarySingleNaN.Bdiv_correct_aux 53 1024 eq_refl eq_refl BinarySingleNaN.mode_NE s num 0 false den 0))).
(** [(-1)^s * m * 10^k], rounded, for [0 <= m] *)
Definition decimal64 (s : bool) (m k : Z) : binary64 :=
  match m with
  | Zpos p => if 0 <=? k then ratio64 s (p * Z.to_pos (10 ^ k)) 1 else ratio64 s p (Z.to_pos (10 ^ (- k)))
  | _ => B754_zero 53 1024 s
  end.

(** ** Reading *)
Definition digit_value (c : ascii) : Z := Z.of_N (N_of_ascii c) - 48.
Definition digits_value (s : text) : Z := fold_left (fun a c => 10 * a + digit_value c) s 0.
(** the digits at the beginning, and the rest *)
Fixpoint span_digits (s : text) : text * text :=
  match s with
  | c :: s' => if is_digit c then let '(d, r) := span_digits s' in (c :: d, r) else ([], s)
  | [] => ([], [])
  end.
(** an exponent: an optional sign and at least one digit.  (Rust stops counting at about 10^5, which
    only matters for texts with as many digits.) *)
Definition parse_exponent (s : text) : option Z :=
  let '(negative, s) := match s with "-" :: s' => (true, s') | "+" :: s' => (false, s') | _ => (false, s) end in
  match span_digits s with
  | (c :: d, []) => Some (if negative then - digits_value (c :: d) else digits_value (c :: d))
  | _ => None
  end.
(** [parse_number]: digits, perhaps a point and digits (at least one digit in all), perhaps an exponent; nothing else.
    The result [(m, k)] stands for [m * 10^k]. *)
Definition parse_number (s : text) : option (Z * Z) :=
  let '(whole, s) := span_digits s in
  let '(fraction, s) := match s with "." :: s' => span_digits s' | _ => ([], s) end in
  match whole ++ fraction with
  | [] => None
  | digits =>
      match s with
      | [] => Some (digits_value digits, - Z.of_nat (length fraction))
      | c :: s => if Ascii.eqb c "e" || Ascii.eqb c "E" then
          match parse_exponent s with Some e => Some (digits_value digits, e - Z.of_nat (length fraction)) | None => None end
        else None
      end
  end.
Definition lower (c : ascii) : ascii :=
  let n := N_of_ascii c in if (65 <=? n)%N && (n <=? 90)%N then ascii_of_N (n + 32) else c.
(** [parse_inf_nan] *)
Definition parse_inf_nan (negative : bool) (s : text) : option binary64 :=
  let s := map lower s in
  if text_eqb s (txt "inf") || text_eqb s (txt "infinity") then Some (B754_infinity 53 1024 negative)
  else if text_eqb s (txt "nan") then Some (b64_of_bits (if negative then 18444492273895866368 else 9221120237041090560))
  else None.
(** [FromStr for f64] *)
Definition read_f64 (s : text) : option binary64 :=
  let '(negative, s) := match s with "-" :: s' => (true, s') | "+" :: s' => (false, s') | _ => (false, s) end in
  match parse_number s with
  | Some (m, k) => Some (decimal64 negative m k)
  | None => parse_inf_nan negative s
  end.

(** ** Printing *)
Definition digit (d : Z) : ascii := ascii_of_N (48 + Z.to_N d).
Fixpoint digits_from (fuel : nat) (n : Z) (acc : text) : text :=
  match fuel with
  | O => acc
  | S fuel => if n <? 10 then digit n :: acc else digits_from fuel (n / 10) (digit (n mod 10) :: acc)
  end.
(** the digits of [0 <= n] *)
Definition digits_of (n : Z) : text := digits_from (S (Z.to_nat (Z.log2 n))) n [].
Definition length10 (n : Z) : Z := Z.of_nat (length (digits_of n)).

(** [num / den] against [m * 10^k] *)
Definition floor10 (num den k : Z) : Z := if 0 <=? k then num / (den * 10 ^ k) else num * 10 ^ (- k) / den.
Definition below10 (num den m k : Z) : bool := if 0 <=? k then num <? m * 10 ^ k * den else num * 10 ^ (- k) <? m * den.
(** [10^(e-1) <= num / den < 10^e] *)
Definition exponent10 (num den : Z) : Z :=
  let e := length10 num - length10 den in
  if below10 num den 1 e then e else e + 1.

(** Of the two decimals with [n] digits next to [x = num / den] the one that is read as [x]; the
    closer one if both are. *)
Definition with_digits (x : binary64) (num den e n : Z) : option (Z * Z) :=
  let k := e - n in
  let lo := floor10 num den k in
  let hi := lo + 1 in
  match b64_cmp_eq (decimal64 false lo k) x, b64_cmp_eq (decimal64 false hi k) x with
  | true, true => Some (if below10 (2 * num) den (2 * lo + 1) k then lo else hi, k)
  | true, false => Some (lo, k)
  | false, true => Some (hi, k)
  | false, false => None
  end.
(** The least number of digits for which there is one.  At the end, the decimal that equals [num / den]
    (where [den] is [2^(-exact)]). *)
Fixpoint shortest (fuel : nat) (x : binary64) (num den e n exact : Z) : Z * Z :=
  match fuel with
  | O => (num * 5 ^ (- exact), exact)
  | S fuel => match with_digits x num den e n with
    | Some r => r
    | None => shortest fuel x num den e (n + 1) exact
    end
  end.
Fixpoint drop_zeros (s : text) (k : Z) : text * Z :=
  match s with
  | c :: s' => if Ascii.eqb c "0" then drop_zeros s' (k + 1) else (s, k)
  | [] => ([], k)
  end.
(** [digits_to_dec_str]: the number [0.d * 10^exp] for digits [d] *)
Definition place_point (d : text) (exp : Z) : text :=
  if exp <=? 0 then txt "0." ++ repeat "0" (Z.to_nat (- exp)) ++ d
  else if exp <? Z.of_nat (length d) then firstn (Z.to_nat exp) d ++ txt "." ++ skipn (Z.to_nat exp) d
  else d ++ repeat "0" (Z.to_nat (exp - Z.of_nat (length d))).
(** the decimal [m * 10^k] for [0 < m] *)
Definition show_decimal (m k : Z) : text :=
  let '(r, k) := drop_zeros (rev (digits_of m)) k in
  place_point (rev r) (k + Z.of_nat (length r)).
Definition show_magnitude (m e : Z) (x : binary64) : text :=
  let num := if 0 <=? e then m * 2 ^ e else m in
  let den := if 0 <=? e then 1 else 2 ^ (- e) in
  let '(m, k) := shortest (Z.to_nat (exponent10 num den - Z.min e 0)) x num den (exponent10 num den) 1 (Z.min e 0) in
  show_decimal m k.
(** [Display for f64] *)
Definition show_f64 (x : binary64) : text :=
  match x with
  | B754_zero _ _ s => (if s then txt "-" else []) ++ txt "0"
  | B754_infinity _ _ s => (if s then txt "-" else []) ++ txt "inf"
  | B754_nan _ _ _ _ _ => txt "NaN"
  | B754_finite _ _ s m e _ => (if s then txt "-" else []) ++ show_magnitude (Zpos m) e (Babs 53 1024 (fun _ => default_nan_pl64) x)
  end.
