(** Model of the text that utils/gen_matrix_fast/src/main.rs writes. *)
From Coq Require Import Ascii String ZArith Bool List.
From Verif Require Import Num NumB64 Base Data Points Generator Text.
Import ListNotations.

Section GeneratorText.
Variable show : C B64 -> text.   (* [Display for f64] *)

(** main.rs:33-35 *)
Definition edge_line (col_index : nat) (value : C B64) : text :=
  line_of (txt "      <edge cost=""" ++ show value ++ txt """>" ++ show_nat col_index ++ txt "</edge>").
(** main.rs:30-37 *)
Definition vertex_lines (row : list (C B64)) : text :=
  line_of (txt "    <vertex>") ++
  flat_map (fun '(col_index, value) => if ceq value (c0 : C B64) then [] else edge_line col_index value) (combine (seq 0 (length row)) row) ++
  line_of (txt "    </vertex>").
(** main.rs:16-41 *)
Definition generate_xml_from_matrix (matrix : vecmatrix B64) : text :=
  line_of (txt "<travellingSalesmanProblemInstance>") ++
  line_of (txt "  <name>" ++ txt "RandomGraph" ++ txt "</name>") ++
  line_of (txt "  <source>" ++ txt "gh:lquenti/walky" ++ txt "</source>") ++
  line_of (txt "  <description>" ++ txt "random example" ++ txt "</description>") ++
  line_of (txt "  <doublePrecision>" ++ show_nat 15 ++ txt "</doublePrecision>") ++
  line_of (txt "  <ignoredDigits>" ++ show_nat 0 ++ txt "</ignoredDigits>") ++
  line_of (txt "  <graph>") ++
  flat_map vertex_lines matrix ++
  line_of (txt "  </graph>") ++
  line_of (txt "</travellingSalesmanProblemInstance>").

(** main.rs:44-78: what is written to stdout, for the arguments after the name of the program *)
Definition generator_stdout (args : list text) (draws : nat -> Z) : res text :=
  match args with
  | [] => Ok (line_of (txt "No n"))
  | a :: _ =>
      match parse_usize a with
      | None => Ok (line_of (txt "Invalid n"))
      | Some n =>
          matrix <- generated_matrix n (generated_points n draws) ;;
          Ok (generate_xml_from_matrix matrix)
      end
  end.
End GeneratorText.
