(** What a document looks like, independently of the reader of Xml.v (only its types of elements and of
    documents are used): how elements are written, and which elements say what. *)
From Coq Require Import Ascii String NArith Bool List.
From Verif Require Import Num Data Text Xml.
Import ListNotations.
Local Open Scope char_scope.

(** ** Written elements *)
Inductive piece :=
| PText (s : text)
| PAside (s : text)                                                (* a comment or a processing instruction *)
| PCData (key s : text)                                            (* <![CDATA[s]]>; [key]: CDATA, in any case *)
| PElem (name attrs : text) (inner : list piece) (space : text)    (* <name attrs>inner</name space> *)
| PEmpty (name attrs : text).                                      (* <name attrs/> *)
Fixpoint spell (p : piece) : text :=
  match p with
  | PText s => s
  | PAside s => s
  | PCData key s => txt "<![" ++ key ++ txt "[" ++ s ++ txt "]]>"
  | PElem name attrs inner space => txt "<" ++ name ++ attrs ++ txt ">" ++ flat_map spell inner ++ txt "</" ++ name ++ space ++ txt ">"
  | PEmpty name attrs => txt "<" ++ name ++ attrs ++ txt "/>"
  end.

(** What it stands for: comments vanish, texts next to each other are one text of several bits. *)
Fixpoint join (l : list node) : list node :=
  match l with
  | Text bs :: l' => match join l' with Text bs' :: l'' => Text (bs ++ bs') :: l'' | l'' => Text bs :: l'' end
  | k :: l' => k :: join l'
  | [] => []
  end.
Fixpoint meaning (p : piece) : list node :=
  match p with
  | PText s => [Text [Raw s]]
  | PAside _ => []
  | PCData _ s => [Text [CData s]]
  | PElem name attrs inner _ => [Elem name attrs (join (flat_map meaning inner))]
  | PEmpty name attrs => [Elem name attrs []]
  end.

(** <? ... ?>, such as the XML declaration, and <!-- ... --> *)
Definition contains (x s : text) : Prop := exists a b, s = a ++ x ++ b.
Inductive aside : text -> Prop :=
| aside_pi s : ~ contains (txt "?>") s -> aside (txt "<?" ++ s ++ txt "?>")
| aside_comment s : ~ contains (txt "-->") s -> aside (txt "<!--" ++ s ++ txt "-->").
(** names without white space and without the characters that have a meaning in a tag *)
Definition name_char (c : ascii) : bool :=
  negb (is_space c) && negb (is_quote c) && forallb (fun x => negb (Ascii.eqb c x)) ["<"; ">"; "/"; "?"; "!"; "="].
Definition plain_name (s : text) : bool := negb (match s with [] => true | _ => false end) && forallb name_char s.
(** what may follow the name in a tag: outside of quotes there is no [>] *)
Inductive tag_text : text -> Prop :=
| tag_nil : tag_text []
| tag_char c s : is_quote c = false -> c <> ">" -> tag_text s -> tag_text (c :: s)
| tag_quoted q v s : is_quote q = true -> ~ In q v -> tag_text s -> tag_text ([q] ++ v ++ [q] ++ s).
Definition tag_rest (s : text) : Prop := tag_text s /\ forall c s', s = c :: s' -> is_space c = true.
(** a key word in small or capital letters *)
Definition either_case (c u : ascii) : Prop := c = u \/ (97 <= N_of_ascii c <= 122 /\ N_of_ascii c = N_of_ascii u + 32)%N.
Definition key_word (word key : text) : Prop := Forall2 either_case key word.
(** no [PText] is followed by another one: a text goes up to the next [<] *)
Fixpoint no_two_texts (ps : list piece) : bool :=
  match ps with
  | PText _ :: (PText _ :: _) => false
  | _ :: ps' => no_two_texts ps'
  | [] => true
  end.
Inductive well_spelled : piece -> Prop :=
| ws_text s : s <> [] -> ~ In "<" s -> well_spelled (PText s)
| ws_aside s : aside s -> well_spelled (PAside s)
| ws_cdata key s : key_word (txt "CDATA") key -> ~ contains (txt "]]>") s -> well_spelled (PCData key s)
| ws_elem name attrs inner space : plain_name name = true -> tag_rest attrs -> (forall s, attrs <> s ++ txt "/") -> blank space = true ->
    no_two_texts inner = true -> (forall p, In p inner -> well_spelled p) -> well_spelled (PElem name attrs inner space)
| ws_empty name attrs : plain_name name = true -> tag_rest attrs -> well_spelled (PEmpty name attrs).

(** What may stand before the root element: white space, comments and processing instructions, then perhaps a document
    type, in which every [<] has its [>], and white space. *)
Inductive angled : text -> Prop :=
| ang_nil : angled []
| ang_char c s : c <> "<" -> c <> ">" -> angled s -> angled (c :: s)
| ang_nested s s' : angled s -> angled s' -> angled (txt "<" ++ s ++ txt ">" ++ s').
Inductive prologue : text -> Prop :=
| pro_nil : prologue []
| pro_space c p : is_space c = true -> prologue p -> prologue (c :: p)
| pro_aside s p : aside s -> prologue p -> prologue (s ++ p)
| pro_doctype key s space : key_word (txt "DOCTYPE") key -> angled s -> blank s = false -> blank space = true ->
    prologue (txt "<!" ++ key ++ s ++ txt ">" ++ space).

(** Elements that have been opened and not yet closed, the outermost first: name, attributes, and what was
    written after the start tag. *)
Definition opened (l : list (text * text * list piece)) : text :=
  flat_map (fun '(name, attrs, inner) => txt "<" ++ name ++ attrs ++ txt ">" ++ flat_map spell inner) l.
Definition well_opened (f : text * text * list piece) : Prop :=
  let '(name, attrs, inner) := f in
  plain_name name = true /\ tag_rest attrs /\ (forall s, attrs <> s ++ txt "/") /\ no_two_texts inner = true /\ forall p, In p inner -> well_spelled p.

(** ** Parts of a document *)
(** attributes: names, equal signs and values in either kind of quotes, with white space between *)
Definition attr_name (s : text) : Prop := s <> [] /\ forall c, In c s -> is_space c = false /\ c <> "=".
Inductive attrs_written : list (text * text) -> text -> Prop :=
| aw_nil s : blank s = true -> attrs_written [] s
| aw_cons a n b d q v l s : blank a = true -> attr_name n -> blank b = true -> blank d = true -> is_quote q = true -> ~ In q v ->
    attrs_written l s -> attrs_written ((n, v) :: l) (a ++ n ++ b ++ txt "=" ++ d ++ [q] ++ v ++ [q] ++ s).
Definition has_attrs (l : list (text * text)) (s : text) : Prop := attrs_written l s /\ NoDup (map fst l).

(** [v] is [s] with some characters escaped *)
Definition references : list (ascii * text) := [("<", txt "lt"); (">", txt "gt"); ("&", txt "amp"); ("'", txt "apos"); ("""", txt "quot")].
(** numbers of characters, in decimal or hexadecimal digits *)
Definition hexadecimal : list (ascii * N) :=
  [("0", 0); ("1", 1); ("2", 2); ("3", 3); ("4", 4); ("5", 5); ("6", 6); ("7", 7); ("8", 8); ("9", 9); ("a", 10); ("b", 11); ("c", 12); ("d", 13); ("e", 14); ("f", 15);
   ("A", 10); ("B", 11); ("C", 12); ("D", 13); ("E", 14); ("F", 15)]%N.
Inductive digits_of (base : N) : N -> text -> Prop :=
| dig_nil : digits_of base 0 []
| dig_snoc n s c d : digits_of base n s -> In (c, d) hexadecimal -> (d < base)%N -> digits_of base (base * n + d) (s ++ [c]).
Definition number_reference (n : N) (r : text) : Prop :=
  (exists d, r = txt "#" ++ d /\ length d <= 7 /\ digits_of 10 n d) \/ (exists d, r = txt "#x" ++ d /\ length d <= 6 /\ digits_of 16 n d).
(** the characters of Unicode, without zero and the surrogates, and their bytes *)
Definition scalar (n : N) : Prop := (0 < n < 55296 \/ 57344 <= n < 1114112)%N.
Definition utf8_of (n : N) (s : text) : Prop :=
  exists bytes, s = map ascii_of_N bytes /\
  ((n < 128)%N /\ bytes = [n] \/
   (exists a b, 128 <= n < 2048 /\ n = a * 64 + b /\ b < 64 /\ bytes = [192 + a; 128 + b])%N \/
   (exists a b c, 2048 <= n < 65536 /\ n = a * 4096 + b * 64 + c /\ b < 64 /\ c < 64 /\ bytes = [224 + a; 128 + b; 128 + c])%N \/
   (exists a b c d, 65536 <= n /\ n = a * 262144 + b * 4096 + c * 64 + d /\ b < 64 /\ c < 64 /\ d < 64 /\ bytes = [240 + a; 128 + b; 128 + c; 128 + d])%N).
(** a file that is text: characters of Unicode, each written in UTF-8 *)
Definition character_code (n : N) : Prop := (n < 55296 \/ 57344 <= n < 1114112)%N.
Inductive utf8_text : text -> Prop :=
| u8_nil : utf8_text []
| u8_char n s t : character_code n -> utf8_of n s -> utf8_text t -> utf8_text (s ++ t).
Inductive escaped : text -> text -> Prop :=
| esc_nil : escaped [] []
| esc_char c s v : c <> "&" -> escaped s v -> escaped (c :: s) (c :: v)
| esc_reference c r s v : In (c, r) references -> escaped s v -> escaped (c :: s) (txt "&" ++ r ++ txt ";" ++ v)
| esc_number n r t s v : number_reference n r -> scalar n -> utf8_of n t -> escaped s v -> escaped (t ++ s) (txt "&" ++ r ++ txt ";" ++ v).

(** a number: perhaps a plus sign and leading zeros *)
Definition numeral (bound : N) (n : nat) (s : text) : Prop :=
  (N.of_nat n < bound)%N /\ exists plus k, (plus = [] \/ plus = txt "+") /\ s = plus ++ repeat "0" k ++ show_nat n.

(** [kids] are the elements and texts [ks] with white space between, before and after them *)
Definition blank_bits (bits : list bit) : Prop := forall b, In b bits -> exists s, b = Raw s /\ blank s = true.
Inductive spaced : list node -> list node -> Prop :=
| sp_nil : spaced [] []
| sp_space bits ks kids : blank_bits bits -> spaced ks kids -> spaced ks (Text bits :: kids)
| sp_text bits ks kids : ~ blank_bits bits -> spaced ks kids -> spaced (Text bits :: ks) (Text bits :: kids)
| sp_elem name attrs sub ks kids : spaced ks kids -> spaced (Elem name attrs sub :: ks) (Elem name attrs sub :: kids).

(** [bits] say [s]: one after the other, perhaps with characters escaped outside of CDATA sections; blank bits at the
    beginning and white space at both ends do not count *)
Inductive written_as : text -> list bit -> Prop :=
| wr_nil : written_as [] []
| wr_raw s v s' bits : escaped s v -> written_as s' bits -> written_as (s ++ s') (Raw v :: bits)
| wr_cdata s s' bits : written_as s' bits -> written_as (s ++ s') (CData s :: bits).
Inductive starts_with : list bit -> list bit -> Prop :=     (* white space before the first bit *)
| st_cdata s bits : starts_with (CData s :: bits) (CData s :: bits)
| st_raw a c v bits : blank a = true -> is_space c = false -> starts_with (Raw (c :: v) :: bits) (Raw (a ++ c :: v) :: bits).
Inductive ends_with : list bit -> list bit -> Prop :=       (* white space after the last bit *)
| en_cdata s bits : ends_with (bits ++ [CData s]) (bits ++ [CData s])
| en_raw v b bits : blank b = true -> (forall c v', v = v' ++ [c] -> is_space c = false) -> ends_with (bits ++ [Raw v]) (bits ++ [Raw (v ++ b)]).
Definition says (s : text) (bits : list bit) : Prop :=
  exists blanks rest mid core, bits = blanks ++ rest /\ blank_bits blanks /\ starts_with mid rest /\ ends_with core mid /\ written_as s core.

(** an element whose content is the text [s] *)
Definition text_element (s : text) (k : node) : Prop :=
  exists name attrs kids, k = Elem name attrs kids /\ (spaced [] kids /\ s = [] \/ exists bits, spaced [Text bits] kids /\ says s bits).
Definition number_element (bound : N) (n : nat) (k : node) : Prop := exists s, text_element s k /\ numeral bound n s.

(** [k] is the only child of this name *)
Definition the_child (name : text) (kids : list node) (k : node) : Prop :=
  exists attrs sub before after, k = Elem name attrs sub /\ kids = before ++ k :: after /\
    forall attrs' sub', ~ In (Elem name attrs' sub') (before ++ after).

Section Documents.
Context {N : Num}.
Variable read : text -> option (C N).   (* what a decimal number stands for *)

(** <edge cost="v">to</edge>; there may be other attributes and elements *)
Definition edge_element (e : edge N) (k : node) : Prop :=
  exists name attrs ats v cost kids before bits after num,
    k = Elem name attrs kids /\ has_attrs ats attrs /\ In (txt "cost", v) ats /\ escaped cost v /\ read cost = Some (e_cost e) /\
    kids = before ++ Text bits :: after /\ (forall bits', In (Text bits') (before ++ after) -> blank_bits bits') /\
    says num bits /\ numeral (2 ^ 64) (e_to e) num.
(** <vertex> ... </vertex>, with at least one edge *)
Definition vertex_element (v : list (edge N)) (k : node) : Prop :=
  exists name attrs ats kids ks, k = Elem name attrs kids /\ has_attrs ats attrs /\ spaced ks kids /\ v <> [] /\ Forall2 edge_element v ks.
(** <graph> ... </graph>, with at least one vertex *)
Definition graph_element (g : graph N) (k : node) : Prop :=
  exists name attrs ats kids ks, k = Elem name attrs kids /\ has_attrs ats attrs /\ spaced ks kids /\ g <> [] /\ Forall2 vertex_element g ks.
(** The six elements, in any order, perhaps with others and with texts between them. *)
Definition document (i : instance N) (k : node) : Prop :=
  exists root attrs ats kids k1 k2 k3 k4 k5 k6, k = Elem root attrs kids /\ has_attrs ats attrs /\
    the_child (txt "name") kids k1 /\ text_element (i_name i) k1 /\
    the_child (txt "source") kids k2 /\ text_element (i_source i) k2 /\
    the_child (txt "description") kids k3 /\ text_element (i_description i) k3 /\
    the_child (txt "doublePrecision") kids k4 /\ number_element (2 ^ 32) (i_double_precision i) k4 /\
    the_child (txt "ignoredDigits") kids k5 /\ number_element (2 ^ 32) (i_ignored_digits i) k5 /\
    the_child (txt "graph") kids k6 /\ graph_element (i_graph i) k6 /\
    (forall bits, In (Text bits) kids -> blank_bits bits \/ exists s, says s bits).
End Documents.
