(** The text of the generator is a document for the reader.  (Proofs.) *)
From Coq Require Import Ascii String ZArith NArith Arith Bool List Permutation Lia.
From Flocq Require Import IEEE754.Binary IEEE754.Bits.
From Verif Require Import Num NumB64 Base Data Points Generator Text Xml TextSpec XmlProofs DecodeProofs GeneratorText.
Import ListNotations.

Lemma shift_lines {A} (f : A -> text) l X : LF ++ flat_map (fun a => f a ++ LF) l ++ X = flat_map (fun a => LF ++ f a) l ++ LF ++ X.
Proof.
  induction l as [|a l IH]; [reflexivity|]. cbn [flat_map]. rewrite <- !app_assoc. f_equal. f_equal. exact IH.
Qed.
Lemma flat_map_flat_map {A B D} (f : B -> list D) (g : A -> list B) l : flat_map f (flat_map g l) = flat_map (fun a => flat_map f (g a)) l.
Proof. induction l as [|a l IH]; [reflexivity|]. cbn. rewrite flat_map_app, IH. reflexivity. Qed.

Section GeneratorText.
Variable show : C B64 -> text.

Definition edge_piece (e : edge B64) : piece := PElem (txt "edge") (txt " cost=""" ++ show (e_cost e) ++ txt """") [PText (show_nat (e_to e))] [].
Definition vertex_piece (v : list (edge B64)) : piece :=
  PElem (txt "vertex") [] (flat_map (fun e => [PText (LF ++ txt "      "); edge_piece e]) v ++ [PText (LF ++ txt "    ")]) [].
Definition graph_piece (g : graph B64) : piece :=
  PElem (txt "graph") [] (flat_map (fun v => [PText (LF ++ txt "    "); vertex_piece v]) g ++ [PText (LF ++ txt "  ")]) [].
Definition field_piece (name s : text) : piece := PElem name [] [PText s] [].
Definition document_piece (g : graph B64) : piece :=
  PElem (txt "travellingSalesmanProblemInstance") []
    [PText (LF ++ txt "  "); field_piece (txt "name") (txt "RandomGraph");
     PText (LF ++ txt "  "); field_piece (txt "source") (txt "gh:lquenti/walky");
     PText (LF ++ txt "  "); field_piece (txt "description") (txt "random example");
     PText (LF ++ txt "  "); field_piece (txt "doublePrecision") (show_nat 15);
     PText (LF ++ txt "  "); field_piece (txt "ignoredDigits") (show_nat 0);
     PText (LF ++ txt "  "); graph_piece g; PText LF] [].

Lemma vertex_lines_eq row : vertex_lines show row = (txt "    " ++ spell (vertex_piece (vertex_of_row row))) ++ LF.
Proof.
  unfold vertex_lines, vertex_piece. set (es := vertex_of_row row).
  assert (E : flat_map (fun '(col_index, value) => if ceq value (c0 : C B64) then [] else edge_line show col_index value) (combine (seq 0 (length row)) row) =
    flat_map (fun e : edge B64 => (txt "      " ++ spell (edge_piece e)) ++ LF) es).
  { unfold es, vertex_of_row. rewrite flat_map_flat_map. apply flat_map_ext. intros [j v]. destruct (ceq v (c0 : C B64)); [reflexivity|]. cbn [flat_map]. rewrite app_nil_r.
    unfold edge_line, line_of, edge_piece. cbn [spell e_to e_cost flat_map]. rewrite !app_nil_r.
    change (txt "      <edge cost=""") with (txt "      " ++ txt "<" ++ txt "edge" ++ txt " cost=""").
    change (txt """>") with (txt """" ++ txt ">"). change (txt "</edge>") with (txt "</" ++ txt "edge" ++ txt ">"). repeat rewrite <- app_assoc. reflexivity. }
  rewrite E. clear E. cbn [spell]. rewrite flat_map_app, flat_map_flat_map. cbn [flat_map spell]. rewrite app_nil_r.
  unfold line_of. change (txt "    <vertex>") with (txt "    " ++ txt "<" ++ txt "vertex" ++ txt ">"). change (txt "    </vertex>") with (txt "    " ++ txt "</" ++ txt "vertex" ++ txt ">").
  cbn [app]. repeat rewrite <- app_assoc. do 4 f_equal.
  rewrite (shift_lines (fun e : edge B64 => txt "      " ++ spell (edge_piece e)) es).
  f_equal. apply flat_map_ext. intros e. cbn [flat_map spell]. rewrite app_nil_r, <- app_assoc. reflexivity.
Qed.

Lemma text_eq matrix : generate_xml_from_matrix show matrix = spell (document_piece (document_of_matrix matrix)) ++ LF.
Proof.
  unfold generate_xml_from_matrix, document_piece. cbn [spell flat_map field_piece].
  assert (E : LF ++ flat_map (vertex_lines show) matrix ++ line_of (txt "  </graph>") ++ line_of (txt "</travellingSalesmanProblemInstance>") =
    flat_map spell (flat_map (fun v => [PText (LF ++ txt "    "); vertex_piece v]) (document_of_matrix matrix) ++ [PText (LF ++ txt "  ")]) ++ txt "</graph>" ++ LF ++ txt "</travellingSalesmanProblemInstance>" ++ LF).
  { rewrite (flat_map_ext (vertex_lines show) (fun row => (txt "    " ++ spell (vertex_piece (vertex_of_row row))) ++ LF) vertex_lines_eq).
    rewrite (shift_lines (fun row => txt "    " ++ spell (vertex_piece (vertex_of_row row))) matrix).
    rewrite flat_map_app, flat_map_flat_map. unfold document_of_matrix. rewrite !flat_map_concat_map, map_map. cbn [map concat flat_map spell]. rewrite app_nil_r. rewrite <- !app_assoc.
    f_equal. f_equal. apply map_ext. intros row. cbn [flat_map spell]. rewrite app_nil_r, <- app_assoc. reflexivity. }
  unfold graph_piece. cbn [spell]. set (M := flat_map spell _) in *. clearbody M.
  unfold line_of in *. repeat rewrite <- app_assoc in E. repeat rewrite <- app_assoc. rewrite E. clear E. reflexivity.
Qed.

(** ** It is a document *)
Variable read : text -> option (C B64).
(** What is assumed of the decimal form of the numbers: it is read back, and has no quote and no
    ampersand in it. *)
Definition reads_back (x : C B64) : Prop :=
  read (show x) = Some x /\ forallb (fun c => negb (Ascii.eqb c """") && negb (Ascii.eqb c "&")) (show x) = true.
Variable matrix : vecmatrix B64.
Let g := document_of_matrix matrix.
Hypothesis Hshow : forall v e, In v g -> In e v -> reads_back (e_cost e) /\ (N.of_nat (e_to e) < 2 ^ 64)%N.

Lemma chars_not (f : ascii -> bool) x s : forallb f s = true -> f x = false -> ~ In x s.
Proof. rewrite forallb_forall. intros H Hx Hi. rewrite (H x Hi) in Hx. discriminate. Qed.
Lemma digits_no_lt s : forallb is_digit s = true -> ~ In "<"%char s.
Proof. intros H. exact (chars_not is_digit "<"%char s H eq_refl). Qed.
Lemma blank_no_lt s : blank s = true -> ~ In "<"%char s.
Proof. intros H. exact (chars_not is_space "<"%char s H eq_refl). Qed.
Lemma cost_chars x : reads_back x -> ~ In """"%char (show x) /\ ~ In "&"%char (show x).
Proof. intros [_ H]. split; [exact (chars_not _ """"%char (show x) H eq_refl)|exact (chars_not _ "&"%char (show x) H eq_refl)]. Qed.
Lemma escaped_plain s : ~ In "&"%char s -> escaped s s.
Proof. induction s as [|c s IH]; intros H; [constructor|]. apply notin_char in H. destruct H as [H1 H2]. constructor; [apply Ascii.eqb_neq, H1|auto]. Qed.
Lemma no_attrs : tag_rest [] /\ forall s, ([] : text) <> s ++ txt "/".
Proof. split; [split; [constructor|discriminate]|]. intros s H. destruct s; discriminate. Qed.
Lemma cost_attr v : ~ In """"%char v -> tag_rest (txt " cost=""" ++ v ++ txt """") /\ (forall s, txt " cost=""" ++ v ++ txt """" <> s ++ txt "/") /\
  has_attrs [(txt "cost", v)] (txt " cost=""" ++ v ++ txt """").
Proof.
  intros Hv. split; [|split; [|split]].
  - split.
    + change (txt " cost=""") with (txt " cost=" ++ [""""%char]). rewrite <- app_assoc. change (txt " cost=") with [" "; "c"; "o"; "s"; "t"; "="]%char. cbn [app].
      repeat (apply tag_char; [reflexivity|discriminate|]). apply (tag_quoted """"%char v []); [reflexivity|exact Hv|constructor].
    + intros c s E. cbn in E. injection E as <- _. reflexivity.
  - intros s E. rewrite app_assoc in E. apply app_inj_tail in E. destruct E; discriminate.
  - change (txt " cost=""" ++ v ++ txt """") with ([" "%char] ++ txt "cost" ++ [] ++ txt "=" ++ [] ++ [""""%char] ++ v ++ [""""%char] ++ []).
    apply aw_cons; try reflexivity; [|exact Hv|constructor; reflexivity]. split; [discriminate|]. intros c H. cbn in H. repeat (destruct H as [<-|H]; [split; [reflexivity|discriminate]|]). destruct H.
  - repeat constructor. intros [].
Qed.

Definition edge_node (e : edge B64) : node := Elem (txt "edge") (txt " cost=""" ++ show (e_cost e) ++ txt """") [Text [Raw (show_nat (e_to e))]].
Lemma edge_ok e : reads_back (e_cost e) -> (N.of_nat (e_to e) < 2 ^ 64)%N -> well_spelled (edge_piece e) /\ meaning (edge_piece e) = [edge_node e] /\ decode_edge read (edge_node e) = Some e.
Proof.
  intros Hr Hto. destruct (cost_chars _ Hr) as [Hq Ha]. destruct (cost_attr (show (e_cost e)) Hq) as (T1 & T2 & T3). split; [|split; [reflexivity|]].
  - apply ws_elem; [reflexivity|exact T1|exact T2|reflexivity|reflexivity|]. intros p [<-|[]]. apply ws_text; [apply show_nat_nonempty|apply digits_no_lt, show_nat_digits].
  - apply edge_iff. exists (txt "edge"), (txt " cost=""" ++ show (e_cost e) ++ txt """"), [(txt "cost", show (e_cost e))], (show (e_cost e)), (show (e_cost e)), [Text [Raw (show_nat (e_to e))]], [], [Raw (show_nat (e_to e))], [], (show_nat (e_to e)).
    split; [reflexivity|]. split; [exact T3|]. split; [left; reflexivity|]. split; [apply escaped_plain, Ha|]. split; [apply Hr|]. split; [reflexivity|].
    split; [intros bits []|]. split.
    + apply says_iff. unfold no_bits, text_value. cbn [cut_start]. rewrite digits_blank by (apply show_nat_nonempty || apply show_nat_digits). split; [reflexivity|]. cbn [cut_end text_of].
      change (trim_end (trim_start (show_nat (e_to e)))) with (trim (show_nat (e_to e))). rewrite trim_inside by apply no_space_inside, digits_no_space, show_nat_digits.
      rewrite (proj2 (unescape_iff _ (show_nat (e_to e)))); [rewrite app_nil_r; reflexivity|]. apply escaped_plain. exact (chars_not is_digit "&"%char _ (show_nat_digits _) eq_refl).
    + split; [exact Hto|]. exists [], 0. auto.
Qed.

(** elements with a white space before each and after all of them *)
Lemma interspersed {A} (p : A -> piece) (f : A -> node) l (s s' : text) : blank s = true -> blank s' = true -> s <> [] -> s' <> [] ->
  (forall a, exists name attrs kids, f a = Elem name attrs kids) -> (forall a, In a l -> well_spelled (p a) /\ meaning (p a) = [f a]) ->
  let ps := flat_map (fun a => [PText s; p a]) l ++ [PText s'] in
  no_two_texts ps = true /\ (forall q, In q ps -> well_spelled q) /\ solid (join (flat_map meaning ps)) = map f l.
Proof.
  intros Hb Hb' Hn Hn' Hf Hw ps. split; [|split].
  - unfold ps. clear ps. induction l as [|a l IH]; [reflexivity|]. destruct (Hw a (or_introl eq_refl)) as [_ Ea]. destruct (Hf a) as (name & attrs & kids & Ef). rewrite Ef in Ea.
    specialize (IH (fun b Hi => Hw b (or_intror Hi))). cbn [flat_map app]. destruct (p a); try discriminate; exact IH.
  - intros q Hq. apply in_app_or in Hq. destruct Hq as [Hq|[<-|[]]]; [|apply ws_text; [exact Hn'|apply blank_no_lt, Hb']].
    apply in_flat_map in Hq. destruct Hq as (a & Ha & [<-|[<-|[]]]); [apply ws_text; [exact Hn|apply blank_no_lt, Hb]|apply Hw, Ha].
  - assert (E : join (flat_map meaning ps) = flat_map (fun a => [Text [Raw s]; f a]) l ++ [Text [Raw s']]).
    { unfold ps. clear ps. induction l as [|a l IH]; [reflexivity|]. destruct (Hw a (or_introl eq_refl)) as [_ Ea]. cbn [flat_map app meaning]. rewrite flat_map_app, Ea.
      destruct (Hf a) as (name & attrs & kids & ->). cbn [meaning app join]. rewrite <- flat_map_app. cbn [app] in *. rewrite IH by (intros; apply Hw; right; assumption). reflexivity. }
    rewrite E. unfold solid. clear - Hb Hb' Hf. induction l as [|a l IH]; cbn [flat_map app filter map]; [unfold no_bits; cbn [cut_start]; rewrite Hb'; reflexivity|]. unfold no_bits at 1. cbn [cut_start]. rewrite Hb. cbn [negb].
    destruct (Hf a) as (name & attrs & kids & Ea). rewrite Ea. f_equal. exact IH.
Qed.
Lemma all_some_map {A B} (h : B -> option A) (f : A -> B) l : (forall a, In a l -> h (f a) = Some a) -> all_some h (map f l) = Some l.
Proof. induction l as [|a l IH]; intros H; [reflexivity|]. cbn. rewrite (H a (or_introl eq_refl)). cbn. rewrite IH; [reflexivity|]. intros b Hb. apply H. right. exact Hb. Qed.

Definition kids_of (p : piece) : list node := match p with PElem _ _ inner _ => join (flat_map meaning inner) | _ => [] end.
Definition vertex_node (v : list (edge B64)) : node := Elem (txt "vertex") [] (kids_of (vertex_piece v)).
Lemma vertex_ok v : In v g -> well_spelled (vertex_piece v) /\ meaning (vertex_piece v) = [vertex_node v] /\ decode_vertex read (vertex_node v) = match v with [] => None | _ => Some v end.
Proof.
  intros Hv. destruct (interspersed edge_piece edge_node v (LF ++ txt "      ") (LF ++ txt "    ")) as (H0 & H1 & H2); try reflexivity; try discriminate.
  { intros e. unfold edge_node. eauto. }
  { intros e He. destruct (edge_ok e) as (? & ? & _); try apply (Hshow v e Hv He). auto. }
  destruct no_attrs as [A1 A2]. split; [|split; [reflexivity|]].
  - apply ws_elem; [reflexivity|exact A1|exact A2|reflexivity|exact H0|exact H1].
  - unfold vertex_node, decode_vertex. change (attributes []) with (Some ([] : list (text * text))). cbn [obind]. unfold items. change (solid (kids_of (vertex_piece v)) = map edge_node v) in H2. rewrite H2.
    destruct v as [|e v]; [reflexivity|]. apply (all_some_map (decode_edge read) edge_node (e :: v)). intros e' He'. apply edge_ok; apply (Hshow (e :: v) e' Hv He').
Qed.
Definition some_empty (g : graph B64) : bool := (match g with [] => true | _ => false end) || existsb (fun v => match v with [] => true | _ => false end) g.
Definition graph_node (g : graph B64) : node := Elem (txt "graph") [] (kids_of (graph_piece g)).
Lemma graph_ok : well_spelled (graph_piece g) /\ meaning (graph_piece g) = [graph_node g] /\ decode_graph read (graph_node g) = if some_empty g then None else Some g.
Proof.
  destruct (interspersed vertex_piece vertex_node g (LF ++ txt "    ") (LF ++ txt "  ")) as (H0 & H1 & H2); try reflexivity; try discriminate.
  { intros v. unfold vertex_node. eauto. }
  { intros v Hv. destruct (vertex_ok v Hv) as (? & ? & _). auto. }
  destruct no_attrs as [A1 A2]. split; [|split; [reflexivity|]].
  - apply ws_elem; [reflexivity|exact A1|exact A2|reflexivity|exact H0|exact H1].
  - unfold graph_node, decode_graph. change (attributes []) with (Some ([] : list (text * text))). cbn [obind]. unfold items. change (solid (kids_of (graph_piece g)) = map vertex_node g) in H2. rewrite H2.
    assert (Hv : forall v, In v g -> decode_vertex read (vertex_node v) = match v with [] => None | _ => Some v end) by (intros v Hv; apply vertex_ok, Hv).
    clear H1 H2 Hshow. revert Hv. generalize g. clear. intros g0 Hv. unfold some_empty.
    assert (E : all_some (decode_vertex read) (map vertex_node g0) = if existsb (fun v : list (edge B64) => match v with [] => true | _ => false end) g0 then None else Some g0).
    { induction g0 as [|v g0 IH]; [reflexivity|]. cbn [map all_some existsb]. rewrite (Hv v (or_introl eq_refl)), IH by (intros v' Hv'; apply Hv; right; exact Hv'). destruct v; [reflexivity|]. cbn [obind orb]. destruct (existsb _ g0); reflexivity. }
    destruct g0 as [|v g0]; [reflexivity|]. exact E.
Qed.

Definition generated_instance (g : graph B64) : instance B64 :=
  mkInstance (txt "RandomGraph") (txt "gh:lquenti/walky") (txt "random example") 15 0 g.

Lemma field_ok name s : plain_name name = true -> s <> [] -> forallb (fun c => negb (Ascii.eqb c "<")) s = true -> well_spelled (field_piece name s).
Proof.
  intros Hn Hs H. destruct no_attrs as [A1 A2]. apply ws_elem; [exact Hn|exact A1|exact A2|reflexivity|reflexivity|]. intros p [<-|[]]. apply ws_text; [exact Hs|]. exact (chars_not _ "<"%char s H eq_refl).
Qed.
Definition document_node (g : graph B64) : node := Elem (txt "travellingSalesmanProblemInstance") [] (kids_of (document_piece g)).
Lemma document_ok : well_spelled (document_piece g) /\ meaning (document_piece g) = [document_node g] /\
  decode_instance read (document_node g) = if some_empty g then None else Some (generated_instance g).
Proof.
  destruct graph_ok as (Hw & Hm & Hg). destruct no_attrs as [A1 A2]. split; [|split; [reflexivity|]].
  - apply ws_elem; [reflexivity|exact A1|exact A2|reflexivity|reflexivity|].
    intros p Hp. cbn [In] in Hp. repeat (destruct Hp as [<-|Hp]; [first [exact Hw|apply field_ok; [reflexivity|discriminate|reflexivity]|apply ws_text; [discriminate|apply blank_no_lt; reflexivity]]|]). destruct Hp.
  - unfold document_node, document_piece, kids_of. cbn [flat_map meaning field_piece app]. rewrite Hm. cbn [app join]. unfold graph_node in *. set (K := kids_of _) in *. clearbody K.
    unfold decode_instance. change (attributes []) with (Some ([] : list (text * text))). cbn [obind].
    match goal with |- context [field (txt "graph") ?l] => change (field (txt "graph") l) with (Some (Elem (txt "graph") [] K)) end.
    cbn [obind]. rewrite Hg. destruct (some_empty g); reflexivity.
Qed.

Lemma text_read rest : from_str read (generate_xml_from_matrix show matrix ++ rest) = if some_empty g then None else Some (generated_instance g).
Proof.
  rewrite text_eq. fold g. rewrite <- app_assoc. destruct document_ok as (Hw & Hm & Hd). unfold from_str.
  rewrite (element_spell (document_piece g) (document_node g) (LF ++ rest) Hw Hm ltac:(discriminate)). exact Hd.
Qed.
End GeneratorText.
