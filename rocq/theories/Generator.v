(** Model of utils/gen_matrix_fast/src/main.rs: the generator of random documents. *)
From Coq Require Import ZArith Arith Bool List.
From Flocq Require Import IEEE754.Binary IEEE754.Bits.
From Flocq Require IEEE754.BinarySingleNaN.
From Verif Require Import Num NumB64 Base Data Points.
Import ListNotations.
Local Notation mode_NE := BinarySingleNaN.mode_NE.

(** main.rs:61-62.  [rand::random::<f64>()] of rand 0.8 is [k * 2^-53] with a random integer
    [0 <= k < 2^53]; [k] is the argument. *)
Definition coordinate (k : Z) : binary64 :=
  b64_minus mode_NE (b64_mult mode_NE (b64_inj (-53) k) (b64_inj 0 20)) (b64_inj 0 10).

(** main.rs:59-64: [draws] are the random integers, in the order in which they are drawn *)
Definition generated_points (n : nat) (draws : nat -> Z) : list point :=
  map (fun i => (coordinate (draws (2 * i)), coordinate (draws (2 * i + 1)))) (seq 0 n).

(** main.rs:10-14 *)
Definition euclidean_distance (p1 p2 : point) : C B64 :=
  let dx := b64_minus mode_NE (fst p2) (fst p1) in
  let dy := b64_minus mode_NE (snd p2) (snd p1) in
  b64_sqrt mode_NE (b64_plus mode_NE (b64_mult mode_NE dx dx) (b64_mult mode_NE dy dy)).

(** main.rs:66-75 *)
Definition generated_matrix (n : nat) (points : list point) : res (vecmatrix B64) :=
  foldM (fun matrix i =>
    foldM (fun matrix j =>
      if negb (i =? j) then
        p <- nth_res points i ;; q <- nth_res points j ;;
        vm_set matrix i j (euclidean_distance p q)
      else Ok matrix) (seq 0 n) matrix)
    (seq 0 n) (repeat (repeat (c0 : C B64) n) n).

(** main.rs:32-35: one vertex.  An entry that equals zero is left out.  Here the document is
    identified with the graph that is read from it; its text is modelled in GeneratorText.v, and
    C66 proves that this graph is read from the text. *)
Definition vertex_of_row (row : list (C B64)) : list (edge B64) :=
  flat_map (fun '(col_index, value) => if ceq value (c0 : C B64) then [] else [mkEdge col_index value])
    (combine (seq 0 (length row)) row).

(** main.rs:30-37 *)
Definition document_of_matrix (matrix : vecmatrix B64) : graph B64 := map vertex_of_row matrix.

(** What is written to stdout. *)
Inductive generator_output := NoN | InvalidN | Written (g : graph B64).

(** main.rs:44-78: [args] are the arguments after the name of the program, each as what
    [parse::<usize>] makes of it *)
Definition generator_main (args : list (option nat)) (draws : nat -> Z) : res generator_output :=
  match args with
  | [] => Ok NoN
  | None :: _ => Ok InvalidN
  | Some n :: _ =>
      matrix <- generated_matrix n (generated_points n draws) ;;
      Ok (Written (document_of_matrix matrix))
  end.
