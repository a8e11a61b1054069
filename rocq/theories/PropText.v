(** C64, C65 and C67: the documents, the command line and the printed text, character by character.

    A [piece] (TextSpec.v) is something written in a document; [spell p]: its text; [well_spelled p]: names,
    quotes and comments are in order; [meaning p]: the elements it stands for; [prologue]: XML declaration,
    comments, white space, a document type; [document read i k]: the element [k] is a document that says [i].
    [written mpi cmd path args] (ArgsSpec.v): [args] is a way to write the command.
    [read]: the value of a decimal number (Rust's [FromStr for f64]), [show]: the decimal form of
    a number ([Display for f64]); both are arbitrary functions here, with the assumption [prints_numbers]
    where they have to fit together. *)
From Coq Require Import Ascii String DecimalString DecimalN ZArith NArith Arith Bool List Permutation Lia.
From Verif Require Import Num Base Data Precond PrecondProofs Text Xml TextSpec XmlProofs DecodeProofs Utf8 Cli Args ArgsSpec ArgsProofs.
Import ListNotations.
Local Open Scope char_scope.

(** ** C64: documents are read as what they say *)
(** An element, with any layout, kind of quotes, escapes, comments inside and before it, and whatever comes after
    it: it is read as [i] exactly if it is a document that says [i]; otherwise it is an error.  Then the conditions on
    the graph are checked (C41). *)
Theorem C64_reads : forall (N : Num) (read : text -> option (C N)) p root attrs kids pro rest,
  let k := Elem root attrs kids in
  well_spelled p -> meaning p = [k] -> prologue pro ->
  (forall i, from_str read (pro ++ spell p ++ rest) = Some i <-> document read i k) /\
  (forall i, document read i k -> parse_text read (pro ++ spell p ++ rest) = parse_from_xml (Some (i_graph i))) /\
  ((forall i, ~ document read i k) -> parse_text read (pro ++ spell p ++ rest) = Ok None).
Proof.
  intros N read p root attrs kids pro rest k Hw Hm Hp.
  assert (H : forall i, from_str read (pro ++ spell p ++ rest) = Some i <-> document read i k) by (intros i; apply from_str_iff; [exact Hw|exact Hm|discriminate|exact Hp]).
  split; [exact H|]. unfold parse_text. split.
  - intros i Hi. apply H in Hi. rewrite Hi. reflexivity.
  - intros Hn. destruct (from_str read (pro ++ spell p ++ rest)) as [i|]; [|reflexivity]. destruct (Hn i). apply H. reflexivity.
Qed.
Print Assumptions C64_reads.

(** A document whose graph has no vertex, or a vertex without edges, is an error. *)
Theorem C64_empty_is_error : forall (N : Num) (read : text -> option (C N)) p root attrs kids pro rest gattrs gkids vertices,
  well_spelled p -> meaning p = [Elem root attrs kids] -> prologue pro ->
  In (Elem (txt "graph") gattrs gkids) kids -> spaced vertices gkids ->
  vertices = [] \/ (exists name vattrs vkids, In (Elem name vattrs vkids) vertices /\ spaced [] vkids) ->
  parse_text read (pro ++ spell p ++ rest) = Ok None.
Proof.
  intros N read p root attrs kids pro rest gattrs gkids vertices Hw Hm Hp Hg Hs He. apply (C64_reads N read p root attrs kids pro rest Hw Hm Hp).
  intros i (root' & attrs' & ats & kids' & k1 & k2 & k3 & k4 & k5 & k6 & Ek & _ & _ & _ & _ & _ & _ & _ & _ & _ & _ & _ & (ga & gs & before & after & Eg & Ekids & Hno) & Hgraph & _).
  injection Ek as <- <- <-. assert (Ek6 : k6 = Elem (txt "graph") gattrs gkids).
  { rewrite Ekids in Hg. apply in_app_or in Hg. destruct Hg as [Hg|[Hg|Hg]]; [|exact Hg|]; destruct (Hno gattrs gkids); apply in_or_app; auto. }
  rewrite Ek6 in Hgraph. destruct Hgraph as (n' & a' & ats' & gk & ks & E & _ & Hsp & Hne & HF). injection E as <- <- <-.
  apply solid_iff in Hs, Hsp. rewrite Hs in Hsp. subst ks. destruct He as [->|(name & vattrs & vkids & Hin & Hv)]; [inversion HF; congruence|].
  assert (Hall : exists v, vertex_element read v (Elem name vattrs vkids)).
  { clear - HF Hin. induction HF as [|v k g ks Hvk HF IH]; [destruct Hin|]. destruct Hin as [->|Hin]; [exists v; exact Hvk|auto]. }
  destruct Hall as (v & vn & va & vats & vk & vks & E & _ & Hvs & Hvne & HvF). injection E as <- <- <-. apply solid_iff in Hv, Hvs. rewrite Hv in Hvs. subst vks. inversion HvF. congruence.
Qed.
Print Assumptions C64_empty_is_error.

(** So is a text with something else before the root element: a character that is no white space, a CDATA section or
    an end tag. *)
Theorem C64_before_root : forall (N : Num) (read : text -> option (C N)) pro t, prologue pro ->
  (exists c s, t = c :: s /\ is_space c = false /\ c <> "<") \/ (exists key s rest, well_spelled (PCData key s) /\ t = spell (PCData key s) ++ rest) \/
  (exists m, t = txt "</" ++ m) ->
  parse_text read (pro ++ t) = Ok None.
Proof.
  intros N read pro t Hp Ht. unfold parse_text, from_str, element_of. rewrite (prologue_stops pro t Hp); [reflexivity| |reflexivity].
  intros acc Ha. destruct Ht as [(c & s & -> & H1 & H2)|[(key & s & rest & Hw & ->)|(m & ->)]].
  - apply char_stops; assumption.
  - inversion Hw; subst. cbn [spell]. rewrite <- !app_assoc, lex_cdata_section, blank_event by assumption. reflexivity.
  - change (txt "</" ++ m) with ("<" :: "/" :: m). rewrite lex_lt, blank_event by exact Ha. change (lex LOpen ("/" :: m)) with (lex (LEnd []) m). apply end_stops.
Qed.
Print Assumptions C64_before_root.

(** So is one in which one of the six elements is missing or occurs twice. *)
Theorem C64_field_once : forall (N : Num) (read : text -> option (C N)) p root attrs kids pro rest name,
  well_spelled p -> meaning p = [Elem root attrs kids] -> prologue pro ->
  In name [txt "name"; txt "source"; txt "description"; txt "doublePrecision"; txt "ignoredDigits"; txt "graph"] ->
  (forall attrs' sub, ~ In (Elem name attrs' sub) kids) \/
  (exists a b c attrs' sub attrs'' sub', kids = a ++ Elem name attrs' sub :: b ++ Elem name attrs'' sub' :: c) ->
  parse_text read (pro ++ spell p ++ rest) = Ok None.
Proof.
  intros N read p root attrs kids pro rest name Hw Hm Hp Hname Hbad. apply (C64_reads N read p root attrs kids pro rest Hw Hm Hp).
  assert (Hno : forall k, ~ the_child name kids k).
  { intros k H. apply field_iff in H. unfold field in H. destruct Hbad as [Hbad|(a & b & c & at1 & s1 & at2 & s2 & ->)].
    - rewrite (proj2 (filter_none (named name) kids)) in H; [discriminate|]. intros x Hx. apply not_true_iff_false. intros Hn. apply named_iff in Hn. destruct Hn as (a & s & ->). exact (Hbad a s Hx).
    - rewrite filter_app in H. cbn [filter named] in H. rewrite text_eqb_refl, filter_app in H. cbn [filter named] in H. rewrite text_eqb_refl in H.
      destruct (filter (named name) a) as [|x1 [|x2 l]]; cbn [app] in H; [|discriminate|discriminate]. destruct (filter (named name) b); discriminate. }
  intros i (root' & attrs' & ats & kids' & k1 & k2 & k3 & k4 & k5 & k6 & Ek & _ & F1 & _ & F2 & _ & F3 & _ & F4 & _ & F5 & _ & F6 & _).
  injection Ek as <- <- <-. cbn [In] in Hname. repeat (destruct Hname as [<-|Hname]; [eapply Hno; eassumption|]). destruct Hname.
Qed.
Print Assumptions C64_field_once.

(** An end tag of another name than the element that is open is an error, wherever it is and whatever follows it. *)
Theorem C64_mismatch : forall (N : Num) (read : text -> option (C N)) pro outer name attrs inner m rest,
  prologue pro -> Forall well_opened (outer ++ [(name, attrs, inner)]) -> ~ In ">" m -> (forall space, blank space = true -> m <> name ++ space) ->
  parse_text read (pro ++ opened (outer ++ [(name, attrs, inner)]) ++ txt "</" ++ m ++ txt ">" ++ rest) = Ok None.
Proof.
  intros N read pro outer name attrs inner m rest Hp Hl Hm Hne. unfold parse_text, from_str. rewrite element_mismatch; [reflexivity|exact Hp|exact Hl|exact Hm|].
  intros E. destruct (trim_end_split m) as (b & Eb & Hb). rewrite E in Eb. exact (Hne b Hb Eb).
Qed.
Print Assumptions C64_mismatch.

(** So a text that is accepted has at least two cities, whatever it looks like. *)
Theorem C64_at_least_two : forall (N : Num) (read : text -> option (C N)) xml g, parse_text read xml = Ok (Some g) ->
  2 <= length g /\ forall v, In v g -> length v = length g - 1.
Proof.
  intros N read xml g H. unfold parse_text in H. destruct (from_str read xml) as [i|] eqn:E; [|discriminate]. cbn [option_map] in H.
  apply from_str_nonempty in E. destruct E as [Hne Hv].
  assert (Hfc : i_graph i = g /\ is_fully_connected g = true).
  { unfold parse_from_xml, do_conditions_hold in H. destruct (is_fully_connected (i_graph i)) eqn:F; [|discriminate]. destruct (negb (is_multi_edge (i_graph i))); [|discriminate].
    destruct (is_undirected (i_graph i)) as [[]| |]; try discriminate. cbn in H. injection H as <-. auto. }
  destruct Hfc as [<- Hfc]. unfold is_fully_connected in Hfc. rewrite forallb_forall in Hfc.
  assert (Hl : forall v, In v (i_graph i) -> length v = length (i_graph i) - 1) by (intros v Hv'; apply Nat.eqb_eq, Hfc, Hv').
  split; [|exact Hl]. destruct (i_graph i) as [|v g]; [contradiction|]. specialize (Hl v (or_introl eq_refl)). destruct v; [exfalso; apply Hv; left; reflexivity|]. cbn [length] in *. lia.
Qed.
Print Assumptions C64_at_least_two.

(** ** C67: a document that is cut off is never read *)
(** The file has been written up to any point before the end of the document, for example because its writer was stopped: the
    reader reports an error.  (If only what follows the document is missing, C64.) *)
Theorem C67_cut_off : forall (N : Num) (read : text -> option (C N)) p root attrs kids pro s r,
  well_spelled p -> meaning p = [Elem root attrs kids] -> prologue pro -> s ++ r = pro ++ spell p -> r <> [] -> parse_text read s = Ok None.
Proof.
  intros N read p root attrs kids pro s r Hw Hm Hp E Hr. unfold parse_text. rewrite (from_str_cut read p _ pro s r Hw Hm ltac:(discriminate) Hp E Hr). reflexivity.
Qed.
Print Assumptions C67_cut_off.

(** The commands then fail without printing anything, in every process. *)
Theorem C67_command : forall (N : Num) read show mpi wd files args cmd path text p root attrs kids pro r,
  well_spelled p -> meaning p = [Elem root attrs kids] -> prologue pro -> text ++ r = pro ++ spell p -> r <> [] ->
  written mpi cmd path args -> files path = Some text ->
  forall res, walky (N := N) read show mpi wd files args res <->
    res = Ran (repeat [] (match cmd with ExactCmd _ p | ApproxCmd _ p _ | LowerBoundCmd _ p => processes wd p end)) Failed.
Proof.
  intros N read show mpi wd files args cmd path text p root attrs kids pro r Hw Hm Hp E Hr Ha Hf res.
  apply parse_args_written in Ha. unfold walky. rewrite Ha, Hf. cbn [obind]. replace (obind (read_to_string text) (from_str read)) with (@None (instance N));
    [|unfold read_to_string; destruct (valid_utf8 text); [symmetry; exact (from_str_cut read p _ pro text r Hw Hm ltac:(discriminate) Hp E Hr)|reflexivity]]. cbn [option_map].
  assert (Hrun : forall o, run (N := N) wd cmd None o <-> o = mkOut (repeat [] (match cmd with ExactCmd _ p | ApproxCmd _ p _ | LowerBoundCmd _ p => processes wd p end)) Failed).
  { intros o. destruct cmd as [a q|a q lb|a q]; reflexivity. }
  assert (Hrep : forall c, map (flat_map (line_text show)) (repeat [] c) = repeat [] c) by (induction c as [|c IH]; [reflexivity|cbn; f_equal; exact IH]).
  split.
  - intros (o & Ho & ->). apply Hrun in Ho. subst o. cbn [printed ended]. rewrite Hrep. reflexivity.
  - intros ->. eexists. split; [apply Hrun; reflexivity|]. cbn [printed ended]. rewrite Hrep. reflexivity.
Qed.
Print Assumptions C67_command.

(** ** C65: the command line *)
(** A command is run exactly if the arguments are a way to write it, and this determines the command
    and the path; otherwise the program only prints a message of clap. *)
Theorem C65_commands : forall mpi args,
  (forall cmd path, parse_args mpi args = Some (cmd, path) <-> written mpi cmd path args) /\
  (forall cmd path cmd' path', written mpi cmd path args -> written mpi cmd' path' args -> cmd = cmd' /\ path = path') /\
  forall (N : Num) read show wd files,
    (forall cmd path, written mpi cmd path args -> forall r, walky (N := N) read show mpi wd files args r <->
       exists o, run wd cmd (option_map i_graph (obind (obind (files path) read_to_string) (from_str read))) o /\
         r = Ran (map (fun ls => flat_map (line_text show) ls) (printed o)) (ended o)) /\
    ((forall cmd path, ~ written mpi cmd path args) -> forall r, walky (N := N) read show mpi wd files args r <-> r = Usage).
Proof.
  intros mpi args. split; [intros; apply parse_args_written|]. split.
  { intros cmd path cmd' path' H H'. apply parse_args_written in H, H'. rewrite H in H'. injection H' as -> ->. auto. }
  intros N read show wd files. split.
  - intros cmd path H r. apply parse_args_written in H. unfold walky. rewrite H. reflexivity.
  - intros H r. unfold walky. destruct (parse_args mpi args) as [[cmd path]|] eqn:E; [|reflexivity]. apply parse_args_written in E. destruct (H _ _ E).
Qed.
Print Assumptions C65_commands.

(** The default: without an option, one thread; and -p is not accepted twice. *)
Theorem C65_default : forall mpi a path, path <> [] -> is_word path ->
  parse_args mpi [txt "exact"; exact_name a; path] = Some (ExactCmd a SingleThreaded, path) /\
  forall p p' w w', In w (spellings (txt "p") (txt "parallelism") (parallelism_name p)) -> In w' (spellings (txt "p") (txt "parallelism") (parallelism_name p')) ->
    (p = MPI -> mpi = true) -> (p' = MPI -> mpi = true) ->
    parse_args mpi (txt "exact" :: w ++ [exact_name a; path]) = Some (ExactCmd a p, path) /\
    parse_args mpi (txt "exact" :: [exact_name a; path] ++ w) = Some (ExactCmd a p, path) /\
    parse_args mpi (txt "exact" :: w ++ [exact_name a; path] ++ w') = None.
Proof.
  intros mpi a path Hne Hw.
  assert (Ha : is_word (exact_name a)) by (right; intros s; destruct a; discriminate).
  assert (Hpos : arranged mpi false [exact_name a; path] [exact_name a; path] [] []) by (apply arr_word; [exact Ha|]; apply arr_word; [exact Hw|]; constructor).
  split; [apply parse_args_written; eapply wr_exact; [exact Hne|exact Hpos|left; auto]|].
  intros p p' w w' Hp Hp' Hm Hm'. assert (Hend : arranged mpi false w [] [p] []) by (rewrite <- (app_nil_r w); apply arr_parallelism; [exact Hm|exact Hp|constructor]).
  assert (Hend' : arranged mpi false w' [] [p'] []) by (rewrite <- (app_nil_r w'); apply arr_parallelism; [exact Hm'|exact Hp'|constructor]).
  split; [|split].
  - apply parse_args_written. eapply wr_exact; [exact Hne| |right; reflexivity]. apply arr_parallelism; [exact Hm|exact Hp|exact Hpos].
  - apply parse_args_written. eapply wr_exact; [exact Hne| |right; reflexivity]. apply arr_word; [exact Ha|]. apply arr_word; [exact Hw|]. exact Hend.
  - assert (Harr : arranged mpi false (w ++ [exact_name a; path] ++ w') [exact_name a; path] [p; p'] []).
    { apply arr_parallelism; [exact Hm|exact Hp|]. apply arr_word; [exact Ha|]. apply arr_word; [exact Hw|]. exact Hend'. }
    apply arguments_iff in Harr. unfold parse_args, subcommand. change (text_eqb (txt "exact") (txt "exact")) with true. cbn match. rewrite Harr. cbn [obind].
    destruct path as [|c path]; [contradiction|]. destruct (one_of exact_values (exact_name a)); reflexivity.
Qed.
Print Assumptions C65_default.

(** ** C65: what is printed can be read back *)
(** What is needed of the decimal form of finite numbers: it is read back, and consists of digits, points and
    signs.  [fine] is the set of the numbers. *)
Definition number_char (c : ascii) : bool := is_digit c || Ascii.eqb c "." || Ascii.eqb c "-".
Definition prints_numbers {T} (fine : T -> Prop) (show : T -> text) (read : text -> option T) : Prop :=
  forall x, fine x -> read (show x) = Some x /\ forallb number_char (show x) = true.

Definition costs_of {N : Num} (l : line N) : list (C N) :=
  match l with
  | BestCost c | ChristofidesWeight c | NnWeight c | OneTreeBound c | MstBound c => [c]
  | BestPermutation _ | NnSolution _ => []
  end.

Lemma show_nat_inj n m : show_nat n = show_nat m -> n = m.
Proof.
  intros H. pose proof (parse_show (N.of_nat n + N.of_nat m + 1) n ltac:(lia)) as H1. rewrite H in H1. pose proof (parse_show (N.of_nat n + N.of_nat m + 1) m ltac:(lia)). congruence.
Qed.
Lemma split_chars (f : ascii -> bool) a b c d x y : forallb f a = true -> forallb f b = true -> f c = false -> f d = false ->
  a ++ c :: x = b ++ d :: y -> a = b /\ c :: x = d :: y.
Proof.
  revert b. induction a as [|p a IH]; intros b Ha Hb Hc Hd E; destruct b as [|q b]; cbn [app] in E.
  - auto.
  - injection E as -> _. cbn in Hb. rewrite Hc in Hb. discriminate.
  - injection E as <- _. cbn in Ha. rewrite Hd in Ha. discriminate.
  - injection E as <- E. cbn in Ha, Hb. apply andb_true_iff in Ha, Hb. destruct (IH b (proj2 Ha) (proj2 Hb) Hc Hd E) as [-> H]. auto.
Qed.
Lemma show_tail_inj l : forall l' x y, flat_map (fun y => txt ", " ++ show_nat y) l ++ "]" :: x = flat_map (fun y => txt ", " ++ show_nat y) l' ++ "]" :: y -> l = l' /\ x = y.
Proof.
  assert (Hnext : forall (l : list nat) x, exists c s, flat_map (fun y => txt ", " ++ show_nat y) l ++ "]" :: x = c :: s /\ is_digit c = false).
  { intros [|a l0] x; [exists "]", x; auto|]. eexists _, _. split; [reflexivity|reflexivity]. }
  induction l as [|a l IH]; intros [|a' l'] x y E.
  - injection E as ->. auto.
  - discriminate.
  - discriminate.
  - cbn [flat_map] in E. change (txt ", ") with [","; " "] in E. cbn [app] in E. injection E as E. rewrite <- !app_assoc in E.
    change (show_nat a ++ flat_map (fun y => txt ", " ++ show_nat y) l ++ "]" :: x = show_nat a' ++ flat_map (fun y => txt ", " ++ show_nat y) l' ++ "]" :: y) in E.
    destruct (Hnext l x) as (c & s & Ec & Hc), (Hnext l' y) as (c' & s' & Ec' & Hc'). rewrite Ec, Ec' in E.
    apply (split_chars is_digit) in E; try apply show_nat_digits; try assumption. destruct E as [E1 E2]. apply show_nat_inj in E1. rewrite <- Ec, <- Ec' in E2. apply IH in E2. destruct E2 as [-> ->]. subst a'. auto.
Qed.
Lemma show_list_inj l l' : show_list l = show_list l' -> l = l'.
Proof.
  unfold show_list. change (txt "[") with ["["]. change (txt "]") with ["]"]. intros E. apply (app_inv_head ["["]) in E.
  assert (Hd : forall n s, exists c s', show_nat n ++ s = c :: s' /\ is_digit c = true).
  { intros n s. pose proof (show_nat_digits n) as H. pose proof (show_nat_nonempty n) as H'. destruct (show_nat n) as [|c s']; [contradiction|]. cbn in H. apply andb_true_iff in H. eexists _, _. split; [reflexivity|apply H]. }
  assert (Hnext : forall (l : list nat) x, exists c s, flat_map (fun y => txt ", " ++ show_nat y) l ++ "]" :: x = c :: s /\ is_digit c = false).
  { intros [|a l0] x; [exists "]", x; auto|]. eexists _, _. split; [reflexivity|reflexivity]. }
  destruct l as [|a l], l' as [|a' l'].
  - reflexivity.
  - rewrite <- app_assoc in E. destruct (Hd a' (flat_map (fun y => txt ", " ++ show_nat y) l' ++ ["]"])) as (c & s & E' & Hc). rewrite E' in E. cbn in E. injection E as <- _. discriminate.
  - rewrite <- app_assoc in E. destruct (Hd a (flat_map (fun y => txt ", " ++ show_nat y) l ++ ["]"])) as (c & s & E' & Hc). rewrite E' in E. cbn in E. injection E as -> _. discriminate.
  - rewrite <- !app_assoc in E. destruct (Hnext l []) as (c & s & Ec & Hc), (Hnext l' []) as (c' & s' & Ec' & Hc'). rewrite Ec, Ec' in E.
    apply (split_chars is_digit) in E; try apply show_nat_digits; try assumption. destruct E as [E1 E2]. apply show_nat_inj in E1. rewrite <- Ec, <- Ec' in E2. apply show_tail_inj in E2. destruct E2 as [-> _]. subst a'. reflexivity.
Qed.

Definition not_lf (c : ascii) : bool := negb (Ascii.eqb c "010").
Lemma show_list_line l : forallb not_lf (show_list l) = true.
Proof.
  assert (Hn : forall n, forallb not_lf (show_nat n) = true).
  { intros n. pose proof (show_nat_digits n) as H. rewrite forallb_forall in *. intros c Hc. specialize (H c Hc). destruct c as [[] [] [] [] [] [] [] []]; try reflexivity; discriminate. }
  unfold show_list. rewrite !forallb_app. destruct l as [|a l]; [reflexivity|]. rewrite forallb_app, Hn. cbn [forallb andb].
  replace (forallb not_lf (flat_map _ l)) with true; [reflexivity|]. symmetry. induction l as [|b l IH]; [reflexivity|]. cbn [flat_map]. rewrite !forallb_app, Hn, IH. reflexivity.
Qed.

(** The text a process prints determines the lines, with all their numbers and tours. *)
Theorem C65_output_determines_lines : forall (N : Num) (fine : C N -> Prop) (show : C N -> text) read,
  prints_numbers fine show read -> forall ls ls' : list (line N),
  (forall l c, In l ls \/ In l ls' -> In c (costs_of l) -> fine c) ->
  flat_map (line_text show) ls = flat_map (line_text show) ls' -> ls = ls'.
Proof.
  intros N fine show read Hs.
  assert (Hshow : forall x, fine x -> forallb not_lf (show x) = true).
  { intros x Hx. destruct (Hs x Hx) as [_ H]. rewrite forallb_forall in *. intros c Hc. specialize (H c Hc). destruct c as [[] [] [] [] [] [] [] []]; try reflexivity; discriminate. }
  assert (Hinj : forall x y, fine x -> fine y -> show x = show y -> x = y).
  { intros x y Hx Hy E. destruct (Hs x Hx) as [H1 _], (Hs y Hy) as [H2 _]. congruence. }
  assert (Hform : forall l : line N, exists s, line_text show l = s ++ ["010"] /\ ((forall c, In c (costs_of l) -> fine c) -> forallb not_lf s = true)).
  { intros l. destruct l as [c|p|c|c|p|c|c]; (eexists; split; [reflexivity|]); intros H; rewrite forallb_app; try (rewrite Hshow by (apply H; left; reflexivity)); try rewrite show_list_line; reflexivity. }
  assert (Hline : forall l l' : line N, (forall c, In c (costs_of l) -> fine c) -> (forall c, In c (costs_of l') -> fine c) -> line_text show l = line_text show l' -> l = l').
  { intros l l' F F' E. destruct l as [c|p|c|c|p|c|c], l' as [c'|p'|c'|c'|p'|c'|c']; unfold line_text, line_of in E; try discriminate E; apply app_inv_tail in E; apply app_inv_head in E; f_equal;
      try (apply show_list_inj; assumption); apply Hinj; try assumption; try (apply F; left; reflexivity); apply F'; left; reflexivity. }
  induction ls as [|l ls IH]; intros [|l' ls'] F E.
  - reflexivity.
  - exfalso. cbn [flat_map] in E. destruct (Hform l') as (s & Es & _). rewrite Es in E. destruct s; discriminate.
  - exfalso. cbn [flat_map] in E. destruct (Hform l) as (s & Es & _). rewrite Es in E. destruct s; discriminate.
  - cbn [flat_map] in E. destruct (Hform l) as (s & Es & H), (Hform l') as (s' & Es' & H'). rewrite Es, Es', <- !app_assoc in E. cbn [app] in E.
    assert (Fl : forall c, In c (costs_of l) -> fine c) by (intros c Hc; apply (F l); [left; left; reflexivity|exact Hc]).
    assert (Fl' : forall c, In c (costs_of l') -> fine c) by (intros c Hc; apply (F l'); [right; left; reflexivity|exact Hc]).
    apply (split_chars not_lf) in E; [|auto|auto|reflexivity|reflexivity]. destruct E as [E1 E2]. injection E2 as E2. f_equal.
    + apply Hline; [assumption..|]. rewrite Es, Es', E1. reflexivity.
    + apply IH; [|exact E2]. intros l0 c Hl0 Hc. apply (F l0); [|exact Hc]. destruct Hl0; [left; right; assumption|right; right; assumption].
Qed.
Print Assumptions C65_output_determines_lines.

(** ** Non-vacuity *)
(** The document of the tests (parser.rs:276-293), with integers instead of the doubles. *)
Definition ex_read (s : text) : option (C EZ) :=
  if text_eqb s (txt "1.123456789012345e+00") then Some (Fin 1) else if text_eqb s (txt "1.000000000000000e+01") then Some (Fin 10) else None.
Definition ex_lines (l : list string) : text := flat_map (fun s => txt s ++ LF) l.
Definition ex_text : text := ex_lines
  [""; "<?xml version=""1.0"" encoding=""UTF-8"" standalone=""no"" ?>";
   "<travellingSalesmanProblemInstance>"; "  <name>test</name>"; "  <source>Johann</source>"; "  <description>small example</description>";
   "  <doublePrecision>15</doublePrecision>"; "  <ignoredDigits>0</ignoredDigits>";
   "  <graph>"; "    <vertex>"; "        <edge cost=""1.123456789012345e+00"">1</edge>"; "    </vertex>";
   "    <vertex>"; "        <edge cost=""1.000000000000000e+01"">0</edge>"; "    </vertex>"; "  </graph>"; "</travellingSalesmanProblemInstance>"]%string.
Example C64_test_document :
  from_str ex_read ex_text = Some (mkInstance (txt "test") (txt "Johann") (txt "small example") 15 0 [[mkEdge (N := EZ) 1 (Fin 1)]; [mkEdge (N := EZ) 0 (Fin 10)]]).
Proof. vm_compute. reflexivity. Qed.

(** A document in the sense of TextSpec.v: other order, other elements, other attributes, white space, comments, escapes,
    both kinds of quotes, empty elements, leading zeros. *)
Definition ex_elem (name s : string) : piece := PElem (txt name) [] [PText (txt s)] (txt " ").
Definition ex_edge (attrs to : string) : piece := PElem (txt "edge") (txt attrs) [PText (txt " "); PAside (txt "<!-- --->"); PText (txt to); PEmpty (txt "x") (txt " ")] [].
Definition ex_piece : piece := PElem (txt "tsp") (txt " a = 'x>y' ")
  [ex_elem "source" "A &amp; B"; PText (txt " 1 &lt; 2 "); PElem (txt "graph") [] [PElem (txt "vertex") [] [PText LF; ex_edge " cost='1.000000000000000e+01' id="""" " "+001"; PAside (txt "<?a?>")] [];
     PElem (txt "vertex") [] [ex_edge " x='&' cost=""1.000000000000000&#101;&#x2b;01""" "0"] []] [];
   PEmpty (txt "author") [];
   PElem (txt "name") [] [PText (txt " "); PAside (txt "<?a?>"); PText LF; PCData (txt "CDATA") (txt "<&lt;"); PText (txt " &gt; "); PCData (txt "cData") (txt "] ")] [];
   ex_elem "ignoredDigits" "0"; ex_elem "doublePrecision" "15"; PEmpty (txt "description") (txt " ")] [].
Definition ex_instance : instance EZ := mkInstance (txt "<&lt; > ] ") (txt "A & B") [] 15 0 [[mkEdge (N := EZ) 1 (Fin 10)]; [mkEdge (N := EZ) 0 (Fin 10)]].
Fixpoint ex_find (x s : text) : bool := text_eqb (firstn (length x) s) x || match s with [] => false | _ :: s' => ex_find x s' end.
Lemma ex_contains x s : ex_find x s = false -> ~ contains x s.
Proof.
  intros H (a & b & ->). apply not_true_iff_false in H. apply H. clear H. induction a as [|c a IH].
  - cbn [app]. destruct (x ++ b) eqn:E; cbn [ex_find]; rewrite <- E, firstn_app, firstn_all, Nat.sub_diag, firstn_O, app_nil_r, text_eqb_refl; reflexivity.
  - cbn [app ex_find]. rewrite IH. apply orb_true_r.
Qed.
Lemma ex_aside s : ex_find (txt "-->") s = false -> aside (txt "<!--" ++ s ++ txt "-->").
Proof. intros H. constructor. apply ex_contains, H. Qed.
Lemma ex_pi s : ex_find (txt "?>") s = false -> aside (txt "<?" ++ s ++ txt "?>").
Proof. intros H. constructor. apply ex_contains, H. Qed.
Ltac ex_no := let H := fresh in intros H; cbn in H; repeat (destruct H as [H|H]; [discriminate|]); exact H.
Ltac ex_tag := repeat first [apply tag_nil | apply tag_char; [reflexivity|discriminate|] |
  match goal with |- tag_text (?q :: ?s) => let rec cut v s := match s with q :: ?s' => apply (tag_quoted q (rev v) s'); [reflexivity|ex_no|] | ?c :: ?s' => cut (c :: v) s' end in cut (@nil ascii) s end].
Ltac ex_ends := let s := fresh in let E := fresh in intros s E; apply (f_equal (@rev ascii)) in E; rewrite rev_app_distr in E; cbn in E; first [discriminate|injection E as E; discriminate].
Ltac ex_rest := split; [cbn [txt list_ascii_of_string app]; ex_tag|let E := fresh in intros ? ? E; cbn in E; first [discriminate|injection E as <- _; reflexivity]].
Ltac ex_spelled := first
  [ apply ws_text; [discriminate|ex_no]
  | apply ws_cdata; [repeat (apply Forall2_cons; [first [left; reflexivity|right; split; [split; discriminate|reflexivity]]|]); apply Forall2_nil|apply ex_contains; reflexivity]
  | apply ws_elem; [reflexivity|ex_rest|ex_ends|reflexivity|reflexivity|let p := fresh in let H := fresh in intros p H; cbn [In] in H; repeat (destruct H as [<-|H]; [ex_spelled|]); destruct H]
  | apply ws_empty; [reflexivity|ex_rest]
  | apply ws_aside; first [apply (ex_aside (txt " -")); reflexivity | apply (ex_pi (txt "a")); reflexivity] ].
Definition ex_pro : text := LF ++ txt "<?xml version=""1.0""?>" ++ txt "<!-- a <comment> -->" ++ txt "<!Doctype tsp [<!ELEMENT x ANY>]>" ++ LF.
Example C64_applies : well_spelled ex_piece /\ meaning ex_piece = [Elem (txt "tsp") (txt " a = 'x>y' ") (match meaning ex_piece with [Elem _ _ kids] => kids | _ => [] end)] /\
  document ex_read ex_instance (Elem (txt "tsp") (txt " a = 'x>y' ") (match meaning ex_piece with [Elem _ _ kids] => kids | _ => [] end)) /\ prologue ex_pro /\
  from_str ex_read (ex_pro ++ spell ex_piece ++ txt "</x>") = Some ex_instance.
Proof.
  split; [ex_spelled|]. split; [reflexivity|]. split; [apply document_iff; vm_compute; reflexivity|]. split; [|vm_compute; reflexivity].
  apply (pro_space "010"); [reflexivity|]. apply (pro_aside (txt "<?xml version=""1.0""?>")).
  - apply (ex_pi (txt "xml version=""1.0""")). reflexivity.
  - apply pro_aside; [apply (ex_aside (txt " a <comment> ")); reflexivity|]. apply (pro_doctype (txt "Doctype") (txt " tsp [<!ELEMENT x ANY>]") LF); try reflexivity.
    + repeat (apply Forall2_cons; [first [left; reflexivity|right; split; [split; discriminate|reflexivity]]|]). apply Forall2_nil.
    + change (txt " tsp [<!ELEMENT x ANY>]") with (txt " tsp [" ++ (txt "<" ++ txt "!ELEMENT x ANY" ++ txt ">" ++ txt "]")).
      cbn [txt list_ascii_of_string app]. do 6 (apply ang_char; [discriminate|discriminate|]). apply (ang_nested (txt "!ELEMENT x ANY") (txt "]"));
        cbn [txt list_ascii_of_string app]; repeat (apply ang_char; [discriminate|discriminate|]); apply ang_nil.
Qed.
(** a CDATA section before the root *)
Example C64_before_root_applies : prologue LF /\ well_spelled (PCData (txt "CDATA") (txt " ")) /\ LF ++ spell (PCData (txt "CDATA") (txt " ")) ++ txt "<a/>" = LF ++ txt "<![CDATA[ ]]><a/>".
Proof. split; [apply (pro_space "010"); [reflexivity|constructor]|]. split; [ex_spelled|reflexivity]. Qed.
(** an element that is opened twice and closed under another name *)
Example C64_mismatch_applies : Forall well_opened ([(txt "a", txt " x='>'", [PText (txt "t")])] ++ [(txt "b", [], [PEmpty (txt "c") []])]) /\
  (forall space, blank space = true -> txt "a " <> txt "b" ++ space) /\
  opened ([(txt "a", txt " x='>'", [PText (txt "t")])] ++ [(txt "b", [], [PEmpty (txt "c") []])]) ++ txt "</a >" = txt "<a x='>'>t<b><c/></a >".
Proof.
  split; [|split; [discriminate|reflexivity]]. repeat (apply Forall_cons; [cbn [well_opened]; split; [reflexivity|]; split; [ex_rest|]; split; [ex_ends|]; split; [reflexivity|]; intros p [<-|[]]; ex_spelled|]). apply Forall_nil.
Qed.

(** The document of C64 without its last character, and without its last 300 characters *)
Example C67_applies :
  let whole := (ex_pro ++ spell ex_piece)%list in
  let cut n := firstn (List.length whole - n) whole in
  (well_spelled ex_piece /\ prologue ex_pro) /\
  (forall n, In n [1; 300] -> (cut n ++ skipn (List.length whole - n) whole)%list = whole /\ skipn (List.length whole - n) whole <> []) /\
  from_str ex_read whole = Some ex_instance /\ parse_text ex_read (cut 1) = Ok None /\ parse_text ex_read (cut 300) = Ok None.
Proof.
  destruct C64_applies as (Hw & _ & _ & Hp & _). cbv zeta. split; [split; assumption|]. split.
  - intros n Hn. split; [apply firstn_skipn|]. destruct Hn as [<-|[<-|[]]]; vm_compute; discriminate.
  - split; [|split]; vm_compute; reflexivity.
Qed.

Example C65_applies : written true (ApproxCmd Christofides MultiThreaded (Some MSTQueue)) (txt "my file.xml")
  [txt "approx"; txt "-pmulti-threaded"; txt "christofides"; txt "--lower-bound"; txt "mst-queue"; txt "my file.xml"].
Proof. apply parse_args_written. reflexivity. Qed.
Example C65_usage : parse_args false [txt "exact"; txt "V1"; txt "a.xml"] = None /\ parse_args false [txt "exact"; txt "v1"; txt "a.xml"; txt "-p"; txt "mpi"] = None /\
  parse_args true [txt "exact"; txt "v1"; txt "a.xml"; txt "-p"; txt "mpi"] = Some (ExactCmd V1 MPI, txt "a.xml") /\ parse_args true [txt "exact"; txt "v1"; txt "a.xml"; txt "-l"; txt "mst"] = None.
Proof. repeat split. Qed.
