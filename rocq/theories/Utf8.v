(** Model of the check in [Read::read_to_string] (src/lib.rs:41): the bytes of a file become a [String] only
    if they are well formed UTF-8; otherwise the call returns an error of kind InvalidData.  The table of
    allowed byte sequences is the one of core::str::from_utf8 (Unicode Standard, table 3-7). *)
From Coq Require Import Ascii NArith Bool List.
From Verif Require Import Text.
Import ListNotations.

(** A byte between two bounds *)
Definition byte_in (lo hi : N) (c : ascii) : bool := (lo <=? N_of_ascii c)%N && (N_of_ascii c <=? hi)%N.
(** A continuation byte *)
Definition continuation : ascii -> bool := byte_in 128 191.

(** src/lib.rs:41, core::str::from_utf8 *)
Fixpoint valid_utf8 (s : text) : bool :=
  match s with
  | [] => true
  | a :: s1 =>
      if byte_in 0 127 a then valid_utf8 s1
      else
        match s1 with
        | [] => false
        | b :: s2 =>
            if byte_in 194 223 a then continuation b && valid_utf8 s2
            else
              match s2 with
              | [] => false
              | c :: s3 =>
                  if byte_in 224 239 a then
                    byte_in (if byte_in 224 224 a then 160 else 128) (if byte_in 237 237 a then 159 else 191) b && continuation c && valid_utf8 s3
                  else
                    match s3 with
                    | [] => false
                    | d :: s4 =>
                        byte_in 240 244 a &&
                        byte_in (if byte_in 240 240 a then 144 else 128) (if byte_in 244 244 a then 143 else 191) b &&
                        continuation c && continuation d && valid_utf8 s4
                    end
              end
        end
  end.

(** src/lib.rs:41 *)
Definition read_to_string (bytes : text) : option text := if valid_utf8 bytes then Some bytes else None.
