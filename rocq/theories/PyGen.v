(** Model of utils/tsp_logic.py, utils/simple_gen.py and utils/benchmark_gen.py: the generators of random documents
    written in Python. *)
From Coq Require Import Ascii String ZArith NArith Arith Bool List.
From Flocq Require Import Core IEEE754.Binary IEEE754.Bits.
From Verif Require Import Num NumB64 Base Data Text Xml F64Text.
Import ListNotations.

(** ** Numbers: ["{:.15e}".format] (Python's library, used in tsp_logic.py:56) *)
(** Modelled from the documentation: sixteen digits, correctly rounded (to nearest, ties to even), the exponent with a
    sign and at least two digits. *)
Section Format.
Local Open Scope Z_scope.
(** [num / den] against [m * 10^k] *)
Definition above10 (num den m k : Z) : bool := if 0 <=? k then m * 10 ^ k * den <? num else m * den <? num * 10 ^ (- k).
(** [num / den / 10^k], rounded to an integer *)
Definition round10 (num den k : Z) : Z :=
  let lo := floor10 num den k in
  if below10 (2 * num) den (2 * lo + 1) k then lo
  else if above10 (2 * num) den (2 * lo + 1) k then lo + 1
  else if Z.even lo then lo else lo + 1.
(** sixteen digits [m] and the exponent of the first of them *)
Definition sixteen (num den : Z) : Z * Z :=
  let e := exponent10 num den - 1 in
  let m := round10 num den (e - 15) in
  if m =? 10 ^ 16 then (10 ^ 15, e + 1) else (m, e).
Definition show_exponent (e : Z) : text :=
  (if e <? 0 then txt "-" else txt "+") ++ (if Z.abs e <? 10 then txt "0" else []) ++ digits_of (Z.abs e).
Definition show_scientific (m e : Z) : text :=
  firstn 1 (digits_of m) ++ txt "." ++ skipn 1 (digits_of m) ++ txt "e" ++ show_exponent e.
Definition format_15e (x : binary64) : text :=
  match x with
  | B754_zero _ _ s => (if s then txt "-" else []) ++ txt "0.000000000000000e+00"
  | B754_infinity _ _ s => (if s then txt "-" else []) ++ txt "inf"
  | B754_nan _ _ _ _ _ => txt "nan"
  | B754_finite _ _ s m e _ =>
      let num := if 0 <=? e then Zpos m * 2 ^ e else Zpos m in
      let den := if 0 <=? e then 1 else 2 ^ (- e) in
      let '(m, e) := sixteen num den in
      (if s then txt "-" else []) ++ show_scientific m e
  end.
End Format.

(** ** Matrices *)
(** tsp_logic.py:8-21.  The random points are dropped: [distance i j] is what [np.linalg.norm] (tsp_logic.py:5-6)
    returns for the points number [i] and [j], an arbitrary double here. *)
Definition create_matrix (size : nat) (distance : nat -> nat -> C B64) : res (vecmatrix B64) :=
  foldM (fun graph_matrix i =>
    foldM (fun graph_matrix j =>
      graph_matrix <- vm_set graph_matrix i j (distance i j) ;;
      vm_set graph_matrix j i (distance i j)) (seq (i + 1) (size - (i + 1))) graph_matrix)
    (seq 0 size) (repeat (repeat (c0 : C B64) size) size).

(** benchmark_gen.py:12-19 *)
Definition principal_minor (matrix : vecmatrix B64) (k : nat) : res (vecmatrix B64) :=
  foldM (fun minor i =>
    foldM (fun minor j => v <- vm_get matrix i j ;; vm_set minor i j v) (seq 0 k) minor)
    (seq 0 k) (repeat (repeat (c0 : C B64) k) k).

(** ** Documents *)
(** [xml.etree.ElementTree] (Python's library): an element with text or children, or with neither.  The texts and the
    attribute of tsp_logic.py have no characters that must be escaped. *)
Definition tag (name attrs inner : text) : text :=
  match inner with
  | [] => txt "<" ++ name ++ attrs ++ txt " />"
  | _ => txt "<" ++ name ++ attrs ++ txt ">" ++ inner ++ txt "</" ++ name ++ txt ">"
  end.
(** tsp_logic.py:49-57 *)
Definition py_edge (matrix : vecmatrix B64) (i j : nat) : res text :=
  if negb (i =? j) then
    v <- vm_get matrix i j ;;
    Ok (tag (txt "edge") (txt " cost=""" ++ format_15e v ++ txt """") (show_nat j))
  else Ok [].
Definition py_vertex (matrix : vecmatrix B64) (i : nat) : res text :=
  edges <- mapM (py_edge matrix i) (seq 0 (length matrix)) ;;
  Ok (tag (txt "vertex") [] (concat edges)).
(** tsp_logic.py:36-58 *)
Definition convert_to_xml (matrix : vecmatrix B64) : res text :=
  vertices <- mapM (py_vertex matrix) (seq 0 (length matrix)) ;;
  Ok (tag (txt "travellingSalesmanProblemInstance") []
       (tag (txt "name") [] (txt "RandomGraph") ++
        tag (txt "source") [] (txt "gh:lquenti/walky") ++
        tag (txt "description") [] (txt "random example") ++
        tag (txt "doublePrecision") [] (show_nat 15) ++
        tag (txt "ignoredDigits") [] (show_nat 0) ++
        tag (txt "graph") [] (concat vertices))).

(** ** Programs *)
(** simple_gen.py:8-18 with the arguments [xml] and [size]: what is printed.  (The exact solver of python_tsp, whose
    answer is not used, is left out.) *)
Definition simple_gen (size : nat) (distance : nat -> nat -> C B64) : res text :=
  matrix <- create_matrix size distance ;;
  xml <- convert_to_xml matrix ;;
  Ok (line_of xml).
(** benchmark_gen.py:22-42 with the arguments [l] and [r]: the files of the folder, by number.  (The numbers may not be
    negative here.) *)
Definition benchmark_gen (l r : nat) (distance : nat -> nat -> C B64) : res (list (nat * text)) :=
  matrix <- create_matrix r distance ;;
  minors <- mapM (fun k => m <- principal_minor matrix k ;; Ok (k, m)) (seq l (r - l)) ;;
  mapM (fun '(k, m) => xml <- convert_to_xml m ;; Ok (k, xml)) (minors ++ [(r, matrix)]).
