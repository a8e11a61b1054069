(** Model of the constructors from points of src/datastructures/nalgebra.rs. *)
From Coq Require Import Arith Bool List.
From Flocq Require Import IEEE754.Binary IEEE754.Bits.
From Flocq Require IEEE754.BinarySingleNaN.
From Verif Require Import Num NumB64 Base Data Par Mem.
Import ListNotations.

Section Points.
Context {N : Num} {P : Type}.
(** the formula of nalgebra.rs:19 and 40, applied to [from] and [to] *)
Variable dist : P -> P -> C N.

(** nalgebra.rs:14-26 *)
Definition from_points (points : list P) : res (namatrix N) :=
  let n := length points in
  foldM (fun m '(i, from) =>
    foldM (fun m '(j, to) =>
      let j := i + j + 1 in
      let weight := dist from to in
      m <- na_set m i j weight ;; na_set m j i weight)
      (combine (seq 0 n) (skipn (i + 1) points)) m)
    (combine (seq 0 n) points) (na_from_dim n).

(** nalgebra.rs:29-47: one task per column, given as a mutable view of its own cells (offset
    [j * n] on); it writes the distances from its point to all points *)
Definition point_task (points : list P) (j : nat) (from : P) : list (@instr (C N)) :=
  let n := length points in
  map (fun '(i, to) => Store (j * n + i) (dist from to)) (combine (seq 0 n) points).
Definition par_from_points (sched : list nat) (points : list P) : res (namatrix N) :=
  let n := length points in
  d <- par_mem (map (fun '(j, from) => point_task points j from) (combine (seq 0 n) points)) sched (na_data (na_from_dim n)) ;;
  Ok (mkNA n d).
End Points.

(** nalgebra.rs:19, 40 in doubles.  [powi(2)] is taken to be one rounded multiplication. *)
Definition point : Type := (binary64 * binary64)%type.
Definition b64_sq (x : binary64) : binary64 := b64_mult BinarySingleNaN.mode_NE x x.
Definition b64_dist (from to : point) : C B64 :=
  b64_sqrt BinarySingleNaN.mode_NE
    (b64_plus BinarySingleNaN.mode_NE (b64_sq (b64_minus BinarySingleNaN.mode_NE (fst from) (fst to)))
       (b64_sq (b64_minus BinarySingleNaN.mode_NE (snd from) (snd to)))).
