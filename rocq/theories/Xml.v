(** Model of the reading of documents: the data types of src/parser.rs with their serde
    attributes, as [quick_xml] 0.28 ([quick_xml::de::from_str]) fills them from text.

    The code of walky is the list of fields, their names and types; what [quick_xml] and serde's
    derive make of it is modelled from their documentation.  Left out, and turned into
    errors here: document type declarations that are empty or inside of the root element. *)
From Coq Require Import Ascii String NArith Bool List.
From Verif Require Import Num Base Data Precond Text.
Import ListNotations.
Local Open Scope char_scope.

(** ** Events *)
(** The markup is cut into pieces as in [quick_xml::Reader]: the whole inside of a tag, a name, or
    the text between two tags.  [EBad]: not well-formed from here on. *)
Inductive event :=
| EStart (tag : text)      (* <tag> *)
| EEmpty (tag : text)      (* <tag/> *)
| EEnd (name : text)       (* </name> *)
| EText (s : text)
| ECData (s : text)        (* <![CDATA[s]]> *)
| EDoctype                 (* <!DOCTYPE ... > *)
| EBad.

Inductive lstate :=
| LText (acc : text)                           (* between tags; [acc] is read backwards *)
| LOpen                                        (* after < *)
| LTag (acc : text) (quote : option ascii)     (* in a tag, perhaps within quotes *)
| LEnd (acc : text)                            (* after </ *)
| LPi (question : bool)                        (* in a processing instruction or XML declaration *)
| LBang (dash : bool)                          (* after <! or <!- *)
| LComment (dashes : nat)                      (* in a comment, after so many dashes *)
| LKey (doctype : bool) (key : text)           (* after <! and a part of a key word; [key]: the rest of it *)
| LCData (acc : text)                          (* in a CDATA section *)
| LDoctype (depth : nat) (seen : bool).        (* in a document type; [depth]: < not yet closed; [seen]: not empty *)

Definition text_event (acc : text) : list event := match acc with [] => [] | _ => [EText (rev acc)] end.
Definition tag_event (acc : text) : event :=
  match acc with
  | "/" :: acc' => EEmpty (rev acc')
  | _ => EStart (rev acc)
  end.
(** [eq_ignore_ascii_case] with a capital letter or another character *)
Definition upcase (c : ascii) : ascii := let n := N_of_ascii c in if ((97 <=? n) && (n <=? 122))%N then ascii_of_N (n - 32) else c.
Definition is_quote (c : ascii) : bool := Ascii.eqb c """" || Ascii.eqb c "'".

Fixpoint lex (st : lstate) (s : text) : list event :=
  match s with
  | [] => match st with LText acc => text_event acc | _ => [EBad] end
  | c :: s' =>
      let in_tag acc :=
        if Ascii.eqb c ">" then tag_event acc :: lex (LText []) s'
        else lex (LTag (c :: acc) (if is_quote c then Some c else None)) s' in
      match st with
      | LText acc => if Ascii.eqb c "<" then text_event acc ++ lex LOpen s' else lex (LText (c :: acc)) s'
      | LOpen =>
          if Ascii.eqb c "/" then lex (LEnd []) s'
          else if Ascii.eqb c "?" then lex (LPi false) s'
          else if Ascii.eqb c "!" then lex (LBang false) s'
          else in_tag []
      | LTag acc None => in_tag acc
      | LTag acc (Some q) => lex (LTag (c :: acc) (if Ascii.eqb c q then None else Some q)) s'
      | LEnd acc => if Ascii.eqb c ">" then EEnd (trim_end (rev acc)) :: lex (LText []) s' else lex (LEnd (c :: acc)) s'
      | LPi question => if question && Ascii.eqb c ">" then lex (LText []) s' else lex (LPi (Ascii.eqb c "?")) s'
      | LBang dash =>
          if Ascii.eqb c "-" then (if dash then lex (LComment 0) s' else lex (LBang true) s')
          else if dash then [EBad]
          else if Ascii.eqb c "[" then lex (LKey false (txt "CDATA[")) s'
          else if Ascii.eqb (upcase c) "D" then lex (LKey true (txt "OCTYPE")) s'
          else [EBad]
      | LComment dashes =>
          if (Nat.leb 2 dashes) && Ascii.eqb c ">" then lex (LText []) s'
          else lex (LComment (if Ascii.eqb c "-" then S dashes else 0)) s'
      | LKey doctype key =>
          match key with
          | [] => [EBad]
          | k :: key' =>
              if Ascii.eqb (upcase c) k then
                match key' with [] => lex (if doctype then LDoctype 0 false else LCData []) s' | _ => lex (LKey doctype key') s' end
              else [EBad]
          end
      | LCData acc =>
          match acc with
          | a :: b :: acc' =>
              if Ascii.eqb c ">" && Ascii.eqb a "]" && Ascii.eqb b "]" then ECData (rev acc') :: lex (LText []) s' else lex (LCData (c :: acc)) s'
          | _ => lex (LCData (c :: acc)) s'
          end
      | LDoctype depth seen =>
          if Ascii.eqb c "<" then lex (LDoctype (S depth) true) s'
          else if Ascii.eqb c ">" then
            match depth with
            | 0 => if seen then EDoctype :: lex (LText []) s' else [EBad]
            | S depth' => lex (LDoctype depth' true) s'
            end
          else lex (LDoctype depth (seen || negb (is_space c))) s'
      end
  end.

(** ** Elements *)
(** A text is a list of bits: comments and processing instructions vanish, but the texts before and after them are not
    the same bit; CDATA sections are bits of their own. *)
Inductive bit :=
| Raw (s : text)       (* as it is in the document: references are not yet replaced *)
| CData (s : text).
Inductive node :=
| Elem (name : text) (attrs : text) (kids : list node)   (* [attrs]: the rest of the start tag, as it is *)
| Text (bits : list bit).

Fixpoint take_name (tag : text) : text :=
  match tag with
  | c :: tag' => if is_space c then [] else c :: take_name tag'
  | [] => []
  end.
Definition rest_of_tag (tag : text) : text := skipn (length (take_name tag)) tag.

(** all bits between two tags are one text *)
Definition add_text (b : bit) (kids : list node) : list node :=
  match kids with
  | Text bits :: kids' => Text (bits ++ [b]) :: kids'
  | _ => Text [b] :: kids
  end.

(** The first element of the events; the rest is not looked at ([from_str] does not ask for the end
    of the document).  [stack] holds the open elements, their children in reverse order.  Between the document
    type and the root element, [quick_xml] 0.28 passes over one blank text only. *)
Fixpoint build (es : list event) (stack : list (text * text * list node)) : option node :=
  match es with
  | [] | EBad :: _ => None
  | EText s :: es' =>
      match stack with
      | [] => if blank s then build es' [] else None
      | (name, attrs, kids) :: stack' => build es' ((name, attrs, add_text (Raw s) kids) :: stack')
      end
  | ECData s :: es' =>
      match stack with
      | [] => None
      | (name, attrs, kids) :: stack' => build es' ((name, attrs, add_text (CData s) kids) :: stack')
      end
  | EDoctype :: es' =>
      match stack, es' with
      | _ :: _, _ => None
      | [], EText _ :: EText _ :: _ => None
      | [], _ => build es' []
      end
  | EStart tag :: es' => build es' ((take_name tag, rest_of_tag tag, []) :: stack)
  | EEmpty tag :: es' =>
      let e := Elem (take_name tag) (rest_of_tag tag) [] in
      match stack with
      | [] => Some e
      | (name, attrs, kids) :: stack' => build es' ((name, attrs, e :: kids) :: stack')
      end
  | EEnd name' :: es' =>
      match stack with
      | [] => None
      | (name, attrs, kids) :: stack' =>
          if text_eqb name' name then
            let e := Elem name attrs (rev kids) in
            match stack' with
            | [] => Some e
            | (name2, attrs2, kids2) :: stack2 => build es' ((name2, attrs2, e :: kids2) :: stack2)
            end
          else None
      end
  end.
Definition element_of (s : text) : option node := build (lex (LText []) s) [].

(** ** Attributes ([quick_xml]'s iterator over them: names, equal signs and quoted values) *)
Inductive astate := ANext | AName (acc : text) | AEq (name : text) | AQuote (name : text) | AValue (name : text) (q : ascii) (acc : text).
Fixpoint attributes_from (st : astate) (s : text) : option (list (text * text)) :=
  match s with
  | [] => match st with ANext => Some [] | _ => None end
  | c :: s' =>
      match st with
      | ANext => if is_space c then attributes_from ANext s' else if Ascii.eqb c "=" then None else attributes_from (AName [c]) s'
      | AName acc =>
          if Ascii.eqb c "=" then attributes_from (AQuote (rev acc)) s'
          else if is_space c then attributes_from (AEq (rev acc)) s'
          else attributes_from (AName (c :: acc)) s'
      | AEq name =>
          if is_space c then attributes_from (AEq name) s'
          else if Ascii.eqb c "=" then attributes_from (AQuote name) s' else None
      | AQuote name =>
          if is_space c then attributes_from (AQuote name) s'
          else if is_quote c then attributes_from (AValue name c []) s' else None
      | AValue name q acc =>
          if Ascii.eqb c q then option_map (cons (name, rev acc)) (attributes_from ANext s')
          else attributes_from (AValue name q (c :: acc)) s'
      end
  end.
Fixpoint distinct (names : list text) : bool :=
  match names with
  | [] => true
  | x :: names' => negb (existsb (text_eqb x) names') && distinct names'
  end.
Definition attributes (s : text) : option (list (text * text)) :=
  match attributes_from ANext s with
  | Some l => if distinct (map fst l) then Some l else None
  | None => None
  end.

(** References: the five named ones, and numbers of characters in decimal (at most seven digits) or in hexadecimal
    (at most six), which stand for the bytes of the character ([quick_xml::escape::unescape]). *)
Definition entity (name : text) : option ascii :=
  if text_eqb name (txt "lt") then Some "<" else if text_eqb name (txt "gt") then Some ">"
  else if text_eqb name (txt "amp") then Some "&" else if text_eqb name (txt "apos") then Some "'"
  else if text_eqb name (txt "quot") then Some """" else None.
Definition digit_value (c : ascii) : N :=
  let n := N_of_ascii c in
  (if (48 <=? n) && (n <=? 57) then n - 48 else if (65 <=? n) && (n <=? 70) then n - 55 else if (97 <=? n) && (n <=? 102) then n - 87 else 16)%N.
Fixpoint radix (base acc : N) (s : text) : option N :=
  match s with
  | [] => Some acc
  | c :: s' => if (digit_value c <? base)%N then radix base (base * acc + digit_value c) s' else None
  end.
(** [char::from_u32] and [char::encode_utf8]; zero is refused *)
Definition utf8 (n : N) : text :=
  map ascii_of_N
    (if n <? 128 then [n]
     else if n <? 2048 then [192 + n / 64; 128 + n mod 64]
     else if n <? 65536 then [224 + n / 4096; 128 + n / 64 mod 64; 128 + n mod 64]
     else [240 + n / 262144; 128 + n / 4096 mod 64; 128 + n / 64 mod 64; 128 + n mod 64])%N.
Definition character (n : N) : option text :=
  if ((n =? 0) || ((55296 <=? n) && (n <? 57344)) || (1114112 <=? n))%N then None else Some (utf8 n).
Definition reference (name : text) : option text :=
  match entity name with
  | Some c => Some [c]
  | None =>
      match name with
      | "#" :: "x" :: h => if Nat.leb (length h) 6 then match radix 16 0 h with Some n => character n | None => None end else None
      | "#" :: d => if Nat.leb (length d) 7 then match radix 10 0 d with Some n => character n | None => None end else None
      | _ => None
      end
  end.
Fixpoint unescape_from (name : option text) (s : text) : option text :=
  match s, name with
  | [], None => Some []
  | [], Some _ => None
  | c :: s', None => if Ascii.eqb c "&" then unescape_from (Some []) s' else option_map (cons c) (unescape_from None s')
  | c :: s', Some acc =>
      if Ascii.eqb c ";" then
        match reference (rev acc) with Some t => option_map (app t) (unescape_from None s') | None => None end
      else unescape_from (Some (c :: acc)) s'
  end.
Definition unescape (s : text) : option text := unescape_from None s.

(** ** Fields *)
(** White space is cut off before the first and after the last bit, unless they are CDATA sections; blank bits at the
    beginning are left out, and with them the text if nothing else is in it. *)
Fixpoint cut_start (bits : list bit) : list bit :=
  match bits with
  | Raw s :: bits' => if blank s then cut_start bits' else Raw (trim_start s) :: bits'
  | _ => bits
  end.
Fixpoint cut_end (bits : list bit) : list bit :=
  match bits with
  | [] => []
  | [Raw s] => [Raw (trim_end s)]
  | b :: bits' => b :: cut_end bits'
  end.
Definition no_bits (bits : list bit) : bool := match cut_start bits with [] => true | _ => false end.
(** the references in each bit are replaced, but not in CDATA sections *)
Fixpoint text_of (bits : list bit) : option text :=
  match bits with
  | [] => Some []
  | Raw s :: bits' => match unescape s, text_of bits' with Some t, Some t' => Some (t ++ t') | _, _ => None end
  | CData s :: bits' => match text_of bits' with Some t' => Some (s ++ t') | None => None end
  end.
Definition text_value (bits : list bit) : option text := text_of (cut_end (cut_start bits)).
(** the texts between the elements, without blank ones *)
Definition texts (kids : list node) : list (option text) :=
  flat_map (fun k => match k with Text bits => if no_bits bits then [] else [text_value bits] | _ => [] end) kids.
(** all children, without blank texts *)
Definition solid (kids : list node) : list node :=
  filter (fun k => match k with Text bits => negb (no_bits bits) | _ => true end) kids.
Definition named (name : text) (k : node) : bool := match k with Elem name' _ _ => text_eqb name' name | Text _ => false end.
Definition obind {A B} (x : option A) (f : A -> option B) : option B := match x with Some a => f a | None => None end.

(** A field of an ordinary name: exactly one child element of this name. *)
Definition field (name : text) (kids : list node) : option node :=
  match filter (named name) kids with [k] => Some k | _ => None end.
(** A field [$value] of type [Vec]: every child is an item, whatever its name; there must be one, as
    the field has no default. *)
Fixpoint all_some {A B} (f : A -> option B) (l : list A) : option (list B) :=
  match l with
  | [] => Some []
  | x :: l' => obind (f x) (fun y => option_map (cons y) (all_some f l'))
  end.
Definition items {B} (f : node -> option B) (kids : list node) : option (list B) :=
  match solid kids with [] => None | ks => all_some f ks end.
(** a field [String] *)
Definition string_value (k : node) : option text :=
  match k with
  | Elem _ _ kids => match solid kids with [] => Some [] | [Text bits] => text_value bits | _ => None end
  | Text _ => None
  end.
Definition u32_value (k : node) : option nat := obind (string_value k) parse_u32.

Section Decode.
Context {N : Num}.
Variable read : text -> option (C N).   (* [FromStr for f64] *)

(** parser.rs:167-174: [to] is the text ([$text]), [cost] the attribute; other attributes and
    child elements are ignored *)
Definition decode_edge (k : node) : option (edge N) :=
  match k with
  | Elem _ attrs kids =>
      obind (attributes attrs) (fun ats =>
      match filter (fun a => text_eqb (fst a) (txt "cost")) ats, texts kids with
      | [(_, v)], [s] =>
          obind (obind (unescape v) read) (fun c => obind (obind s parse_usize) (fun to => Some (mkEdge to c)))
      | _, _ => None
      end)
  | Text _ => None
  end.

(** parser.rs:132-138 *)
Definition decode_vertex (k : node) : option (list (edge N)) :=
  match k with
  | Elem _ attrs kids => obind (attributes attrs) (fun _ => items decode_edge kids)
  | Text _ => None
  end.

(** parser.rs:46-51 *)
Definition decode_graph (k : node) : option (graph N) :=
  match k with
  | Elem _ attrs kids => obind (attributes attrs) (fun _ => items decode_vertex kids)
  | Text _ => None
  end.

(** parser.rs:15-24 *)
Record instance := mkInstance {
  i_name : text; i_source : text; i_description : text;
  i_double_precision : nat; i_ignored_digits : nat;
  i_graph : graph N
}.

(** The same, with [rename_all = "camelCase"]; the name of the root element is not looked at, nor are
    children of other names.  Text between the children is not used, but references in it are replaced. *)
Definition decode_instance (k : node) : option instance :=
  match k with
  | Elem _ attrs kids =>
      obind (attributes attrs) (fun _ =>
      obind (all_some (fun t => t) (texts kids)) (fun _ =>
      obind (obind (field (txt "name") kids) string_value) (fun name =>
      obind (obind (field (txt "source") kids) string_value) (fun source =>
      obind (obind (field (txt "description") kids) string_value) (fun description =>
      obind (obind (field (txt "doublePrecision") kids) u32_value) (fun double_precision =>
      obind (obind (field (txt "ignoredDigits") kids) u32_value) (fun ignored_digits =>
      obind (obind (field (txt "graph") kids) decode_graph) (fun g =>
      Some (mkInstance name source description double_precision ignored_digits g)))))))))
  | Text _ => None
  end.

(** [quick_xml::de::from_str]; [None] is an error *)
Definition from_str (xml : text) : option instance := obind (element_of xml) decode_instance.

(** parser.rs:30-36 *)
Definition parse_text (xml : text) : res (option (graph N)) := parse_from_xml (option_map i_graph (from_str xml)).

End Decode.
Arguments instance : clear implicits.
