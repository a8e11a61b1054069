(** Model of src/preconditions.rs and of the rest of src/parser.rs, of the graph conversions'
    callers and of [get_tsp_instance]. *)
From Coq Require Import Arith Bool List.
From Verif Require Import Num Base Data.
Import ListNotations.

Section Precond.
Context {N : Num}.

(** preconditions.rs:9-12; [n - 1] is evaluated only when there is a vertex *)
Definition is_fully_connected (g : graph N) : bool :=
  forallb (fun v => length v =? length g - 1) g.

(** preconditions.rs:15-26; the set of the destinations is [nodup] *)
Definition is_multi_edge (g : graph N) : bool :=
  existsb (fun v => negb (length (map e_to v) =? length (nodup Nat.eq_dec (map e_to v)))) g.

(** preconditions.rs:38-46: the first edge back to [i] decides *)
Definition reverse_agrees (i : nat) (v1e : edge N) (v2 : list (edge N)) : bool :=
  match find (fun v2e => e_to v2e =? i) v2 with
  | Some v2e => ceq (e_cost v2e) (e_cost v1e)
  | None => true
  end.

(** preconditions.rs:30-50; the accumulator is the early [return false] *)
Definition is_undirected (g : graph N) : res bool :=
  foldM (fun (ok : bool) i =>
    if ok then
      v1 <- nth_res g i ;;
      foldM (fun (ok : bool) v1e =>
        if ok then v2 <- nth_res g (e_to v1e) ;; Ok (reverse_agrees i v1e v2) else Ok false) v1 true
    else Ok false) (seq 0 (length g)) true.

(** parser.rs:40-43 *)
Definition do_conditions_hold (g : graph N) : res bool :=
  if is_fully_connected g then
    if negb (is_multi_edge g) then is_undirected g else Ok false
  else Ok false.

(** parser.rs:30-36.  What [quick_xml] makes of the document is the argument: [None] stands for
    an error, [Some g] for a document with the graph [g] (the other fields are dropped);
    Xml.v models the decoding of the text. *)
Definition parse_from_xml (doc : option (graph N)) : res (option (graph N)) :=
  match doc with
  | Some g => b <- do_conditions_hold g ;; _ <- assert b ;; Ok (Some g)
  | None => Ok None
  end.

End Precond.
