(** Reading back written documents.  (Proofs.) *)
From Coq Require Import Ascii String DecimalString DecimalFacts DecimalPos DecimalN NArith Arith Bool List Permutation Lia.
From Verif Require Import Num Base Data Precond Text Xml TextSpec.
Import ListNotations.
Local Open Scope char_scope.

(** ** Text *)
Lemma text_eqb_spec a b : text_eqb a b = true <-> a = b.
Proof.
  revert b. induction a as [|x a IH]; intros [|y b]; cbn; try (split; congruence).
  rewrite andb_true_iff, Ascii.eqb_eq, IH. split; [intros [-> ->]; reflexivity|intros H; injection H; auto].
Qed.
Lemma text_eqb_refl a : text_eqb a a = true.
Proof. apply text_eqb_spec. reflexivity. Qed.
Lemma text_eqb_neq a b : a <> b -> text_eqb a b = false.
Proof. intros H. destruct (text_eqb a b) eqn:E; [|reflexivity]. apply text_eqb_spec in E. contradiction. Qed.


Lemma uint_digits d : forallb is_digit (list_ascii_of_string (NilEmpty.string_of_uint d)) = true.
Proof. induction d as [|d IH|d IH|d IH|d IH|d IH|d IH|d IH|d IH|d IH|d IH]; cbn; try assumption; reflexivity. Qed.
Lemma to_uint_nonnil n : N.to_uint n <> Decimal.Nil.
Proof. destruct n as [|p]; [discriminate|]. apply DecimalPos.Unsigned.to_uint_nonnil. Qed.
Lemma show_nat_digits n : forallb is_digit (show_nat n) = true.
Proof.
  unfold show_nat, txt, NilZero.string_of_uint. destruct (N.to_uint (N.of_nat n)) eqn:E; [reflexivity|..]; rewrite <- E; apply uint_digits.
Qed.
Lemma show_nat_nonempty n : show_nat n <> [].
Proof. unfold show_nat, NilZero.string_of_uint. destruct (N.to_uint (N.of_nat n)); discriminate. Qed.
Lemma show_nat_head n : exists c s, show_nat n = c :: s /\ is_digit c = true.
Proof.
  pose proof (show_nat_digits n) as H. pose proof (show_nat_nonempty n) as H0. destruct (show_nat n) as [|c s]; [contradiction|].
  cbn in H. apply andb_true_iff in H. exists c, s. tauto.
Qed.

(** a number that is printed is read back *)
Lemma parse_show bound n : (N.of_nat n < bound)%N -> parse_unsigned bound (show_nat n) = Some n.
Proof.
  intros H. unfold parse_unsigned. destruct (show_nat_head n) as (c & s & E & Hc).
  replace (match show_nat n with "+" :: s' => s' | _ => show_nat n end) with (show_nat n).
  2:{ rewrite E. destruct c as [[] [] [] [] [] [] [] []]; try reflexivity. discriminate. }
  unfold show_nat, txt. rewrite string_of_list_ascii_of_string, NilZero.usu by apply to_uint_nonnil.
  rewrite DecimalN.Unsigned.of_to. apply N.ltb_lt in H. rewrite H, Nat2N.id. reflexivity.
Qed.

Definition inside (s : text) : bool := negb (match s with c :: _ => is_space c | [] => false end) && negb (match rev s with c :: _ => is_space c | [] => false end).
Lemma trim_start_inside s : match s with c :: _ => is_space c | [] => false end = false -> trim_start s = s.
Proof. destruct s as [|c s]; [reflexivity|]. cbn. intros ->. reflexivity. Qed.
Lemma trim_inside s : inside s = true -> trim s = s.
Proof.
  unfold inside. rewrite andb_true_iff, !negb_true_iff. intros [H1 H2]. unfold trim, trim_end.
  rewrite (trim_start_inside s H1), (trim_start_inside (rev s) H2), rev_involutive. reflexivity.
Qed.
Lemma no_space_inside s : forallb (fun c => negb (is_space c)) s = true -> inside s = true.
Proof.
  intros H. unfold inside. rewrite andb_true_iff, !negb_true_iff. rewrite forallb_forall in H. split.
  - destruct s as [|c s]; [reflexivity|]. apply negb_true_iff, H. left. reflexivity.
  - destruct (rev s) as [|c s'] eqn:E; [reflexivity|]. apply negb_true_iff, H. apply in_rev. rewrite E. left. reflexivity.
Qed.
Lemma digits_no_space s : forallb is_digit s = true -> forallb (fun c => negb (is_space c)) s = true.
Proof.
  rewrite !forallb_forall. intros H c Hc. specialize (H c Hc). destruct c as [[] [] [] [] [] [] [] []]; try reflexivity; discriminate.
Qed.
Lemma digits_blank s : s <> [] -> forallb is_digit s = true -> blank s = false.
Proof.
  intros Hn H. apply digits_no_space in H. destruct s as [|c s]; [contradiction|]. cbn in *. apply andb_true_iff in H. destruct H as [H _].
  apply negb_true_iff in H. rewrite H. reflexivity.
Qed.

Lemma unescape_plain s : forallb (fun c => negb (Ascii.eqb c "&")) s = true -> unescape s = Some s.
Proof.
  unfold unescape. induction s as [|c s IH]; [reflexivity|]. cbn [forallb unescape_from]. rewrite andb_true_iff, negb_true_iff. intros [-> H].
  rewrite IH by assumption. reflexivity.
Qed.


(** ** Lexing *)
Lemma notin_char (x : ascii) c s : ~ In x (c :: s) -> Ascii.eqb c x = false /\ ~ In x s.
Proof. intros H. split; [apply Ascii.eqb_neq; intros ->; apply H; left; reflexivity|intros Hi; apply H; right; exact Hi]. Qed.
Lemma lex_text s acc r : ~ In "<" s -> lex (LText acc) (s ++ r) = lex (LText (rev s ++ acc)) r.
Proof.
  revert acc. induction s as [|c s IH]; intros acc H; [reflexivity|]. apply notin_char in H. destruct H as [H1 H2].
  cbn [app lex]. rewrite H1, IH by assumption. cbn [rev]. rewrite <- app_assoc. reflexivity.
Qed.
Lemma lex_lt acc r : lex (LText acc) ("<" :: r) = text_event acc ++ lex LOpen r.
Proof. reflexivity. Qed.
Lemma lex_quoted q v acc r : ~ In q v -> lex (LTag acc (Some q)) (v ++ q :: r) = lex (LTag (rev (v ++ [q]) ++ acc) None) r.
Proof.
  revert acc. induction v as [|c v IH]; intros acc H.
  - cbn [app lex]. rewrite Ascii.eqb_refl. reflexivity.
  - apply notin_char in H. destruct H as [H1 H2]. cbn [app lex]. rewrite H1, IH by assumption. cbn [rev]. rewrite <- app_assoc. reflexivity.
Qed.
Lemma lex_tag s : tag_text s -> forall acc r, lex (LTag acc None) (s ++ r) = lex (LTag (rev s ++ acc) None) r.
Proof.
  induction 1 as [|c s Hq Hc Hs IH|q v s Hq Hv Hs IH]; intros acc r; [reflexivity|..].
  - cbn [app lex]. apply Ascii.eqb_neq in Hc. rewrite Hc, Hq, IH. cbn [rev]. rewrite <- app_assoc. reflexivity.
  - cbn [app]. rewrite <- app_assoc. cbn [app lex]. replace (Ascii.eqb q ">") with false by (destruct q as [[] [] [] [] [] [] [] []]; try reflexivity; discriminate).
    rewrite Hq. rewrite lex_quoted by assumption. rewrite IH. f_equal. f_equal. cbn [rev]. rewrite !rev_app_distr. cbn [rev app]. rewrite <- !app_assoc. reflexivity.
Qed.
Lemma name_char_not c : name_char c = true -> is_space c = false /\ is_quote c = false /\ Ascii.eqb c "<" = false /\ Ascii.eqb c ">" = false /\
  Ascii.eqb c "/" = false /\ Ascii.eqb c "?" = false /\ Ascii.eqb c "!" = false /\ Ascii.eqb c "=" = false.
Proof.
  unfold name_char. rewrite !andb_true_iff, !negb_true_iff. cbn [forallb]. rewrite !andb_true_iff, !negb_true_iff. tauto.
Qed.
Lemma plain_name_chars name : plain_name name = true -> name <> [] /\ forallb name_char name = true.
Proof. unfold plain_name. rewrite andb_true_iff. intros [H1 H2]. split; [|assumption]. destruct name; [discriminate|congruence]. Qed.
Lemma name_tag name : forallb name_char name = true -> tag_text name.
Proof.
  induction name as [|c s IH]; intros H; [constructor|]. cbn [forallb] in H. apply andb_true_iff in H. destruct H as [H1 H2]. apply name_char_not in H1.
  destruct H1 as (_ & E1 & _ & E2 & _). apply Ascii.eqb_neq in E2. constructor; auto.
Qed.
(** after the name and the rest of a tag *)
Lemma lex_open name s r : plain_name name = true -> tag_text s -> lex LOpen (name ++ s ++ r) = lex (LTag (rev (name ++ s)) None) r.
Proof.
  intros Hn Hs. apply plain_name_chars in Hn. destruct Hn as [Hne Hn]. destruct name as [|c name]; [contradiction|]. pose proof (name_tag _ Hn) as Ht.
  cbn [forallb] in Hn. apply andb_true_iff in Hn. destruct Hn as [Hc Hn]. apply name_char_not in Hc. destruct Hc as (_ & E1 & _ & E2 & E3 & E4 & E5 & _).
  cbn [app lex]. rewrite E1, E2, E3, E4, E5. rewrite (lex_tag name (name_tag _ Hn)), (lex_tag s Hs). f_equal. f_equal. cbn [rev]. rewrite rev_app_distr, <- app_assoc. reflexivity.
Qed.
Lemma tag_event_start s : s <> [] -> (forall s', s <> s' ++ ["/"]) -> tag_event (rev s) = EStart s.
Proof.
  intros Hs Hl. destruct (exists_last Hs) as (s' & c & ->). rewrite rev_unit. unfold tag_event.
  rewrite <- (rev_unit s' c), rev_involutive. destruct c as [[] [] [] [] [] [] [] []]; try reflexivity. exfalso. exact (Hl s' eq_refl).
Qed.
Lemma no_slash name attrs : plain_name name = true -> (forall s, attrs <> s ++ txt "/") -> forall s', name ++ attrs <> s' ++ ["/"].
Proof.
  intros Hn Ha s' E. destruct attrs as [|c attrs] using rev_ind.
  - rewrite app_nil_r in E. apply plain_name_chars in Hn. subst name. destruct Hn as [_ Hn]. rewrite forallb_app in Hn. cbn in Hn. rewrite andb_false_r in Hn. discriminate.
  - rewrite app_assoc in E. apply app_inj_tail in E. destruct E as [_ ->]. exact (Ha attrs eq_refl).
Qed.
Lemma lex_start name attrs r : plain_name name = true -> tag_rest attrs -> (forall s, attrs <> s ++ txt "/") ->
  lex LOpen (name ++ attrs ++ ">" :: r) = EStart (name ++ attrs) :: lex (LText []) r.
Proof.
  intros Hn Hr Ha. rewrite lex_open by (assumption || apply Hr). cbn [lex]. change (Ascii.eqb ">" ">") with true. cbn match.
  rewrite tag_event_start; [reflexivity| |apply no_slash; assumption]. apply plain_name_chars in Hn. destruct name; [tauto|discriminate].
Qed.
Lemma lex_empty name attrs r : plain_name name = true -> tag_rest attrs ->
  lex LOpen (name ++ attrs ++ "/" :: ">" :: r) = EEmpty (name ++ attrs) :: lex (LText []) r.
Proof.
  intros Hn Hr. rewrite lex_open by (assumption || apply Hr). cbn [lex]. change (Ascii.eqb "/" ">") with false. change (is_quote "/") with false. cbn match.
  change (Ascii.eqb ">" ">") with true. cbn match. cbn [tag_event]. rewrite rev_involutive. reflexivity.
Qed.
Lemma take_name_rest name s : forallb name_char name = true -> (forall c s', s = c :: s' -> is_space c = true) -> take_name (name ++ s) = name.
Proof.
  intros Hn Hs. induction name as [|c name IH].
  - destruct s as [|c s]; [reflexivity|]. cbn. rewrite (Hs c s eq_refl). reflexivity.
  - cbn [forallb] in Hn. apply andb_true_iff in Hn. destruct Hn as [H1 H2]. apply name_char_not in H1. destruct H1 as (E & _). cbn [app take_name]. rewrite E, IH by assumption. reflexivity.
Qed.
Lemma rest_of_tag_rest name s : forallb name_char name = true -> (forall c s', s = c :: s' -> is_space c = true) -> rest_of_tag (name ++ s) = s.
Proof. intros Hn Hs. unfold rest_of_tag. rewrite take_name_rest by assumption. rewrite skipn_app, skipn_all, Nat.sub_diag. reflexivity. Qed.
Lemma lex_end_acc s : forall acc r, ~ In ">" s -> lex (LEnd acc) (s ++ ">" :: r) = EEnd (trim_end (rev acc ++ s)) :: lex (LText []) r.
Proof.
  induction s as [|c s IH]; intros acc r H; [cbn; rewrite app_nil_r; reflexivity|]. apply notin_char in H. destruct H as [H1 H2].
  cbn [app lex]. rewrite H1, IH by assumption. cbn [rev]. rewrite <- app_assoc. reflexivity.
Qed.
Lemma lex_end s r : ~ In ">" s -> lex LOpen ("/" :: s ++ ">" :: r) = EEnd (trim_end s) :: lex (LText []) r.
Proof. intros H. cbn [lex]. change (Ascii.eqb "/" "/") with true. cbn match. rewrite lex_end_acc by assumption. reflexivity. Qed.
Lemma trim_start_blank a s : blank a = true -> trim_start (a ++ s) = trim_start s.
Proof. unfold blank. induction a as [|c a IH]; [reflexivity|]. cbn. rewrite andb_true_iff. intros [-> H]. apply IH. assumption. Qed.
Lemma blank_rev a : blank (rev a) = blank a.
Proof. unfold blank. induction a as [|c a IH]; [reflexivity|]. cbn. rewrite forallb_app, IH. cbn. destruct (is_space c), (forallb is_space a); reflexivity. Qed.
Lemma trim_end_space name space : forallb name_char name = true -> blank space = true -> trim_end (name ++ space) = name.
Proof.
  intros Hn Hs. unfold trim_end. rewrite rev_app_distr, trim_start_blank by (rewrite blank_rev; exact Hs). rewrite trim_start_inside; [apply rev_involutive|].
  destruct (rev name) as [|c s] eqn:E; [reflexivity|]. rewrite forallb_forall in Hn. apply name_char_not, Hn, in_rev. rewrite E. left. reflexivity.
Qed.
Lemma end_chars name space : forallb name_char name = true -> blank space = true -> ~ In ">" (name ++ space).
Proof.
  intros Hn Hs Hi. apply in_app_or in Hi. unfold blank in Hs. rewrite forallb_forall in *. destruct Hi as [Hi|Hi]; [specialize (Hn _ Hi)|specialize (Hs _ Hi)]; discriminate.
Qed.

(** ** Asides *)
Lemma lex_pi s : forall b r, ~ contains (txt "?>") ((if b : bool then ["?"] else []) ++ s) -> lex (LPi b) (s ++ "?" :: ">" :: r) = lex (LText []) r.
Proof.
  induction s as [|c s IH]; intros b r H.
  - cbn [app lex]. change (Ascii.eqb "?" ">") with false. rewrite andb_false_r. change (Ascii.eqb "?" "?") with true. reflexivity.
  - cbn [app lex]. destruct (b && Ascii.eqb c ">") eqn:E.
    + apply andb_true_iff in E. destruct E as [-> E]. apply Ascii.eqb_eq in E. subst c. exfalso. apply H. exists [], s. reflexivity.
    + apply IH. intros (x & y & Hxy). apply H. destruct (Ascii.eqb c "?") eqn:Ec.
      * apply Ascii.eqb_eq in Ec. subst c. exists ((if b then ["?"] else []) ++ x), y. rewrite <- app_assoc. f_equal. exact Hxy.
      * exists ((if b then ["?"] else []) ++ c :: x), y. rewrite <- app_assoc. f_equal. cbn [app] in Hxy |- *. f_equal. exact Hxy.
Qed.
Lemma dashes_snoc d (s : text) : repeat "-" (S d) ++ s = repeat "-" d ++ "-" :: s.
Proof. induction d as [|d IH]; [reflexivity|]. cbn [repeat app] in *. f_equal. exact IH. Qed.
Lemma lex_comment s : forall d r, ~ contains (txt "-->") (repeat "-" d ++ s) -> lex (LComment d) (s ++ "-" :: "-" :: ">" :: r) = lex (LText []) r.
Proof.
  induction s as [|c s IH]; intros d r H.
  - cbn [app lex]. change (Ascii.eqb "-" ">") with false. rewrite !andb_false_r. change (Ascii.eqb "-" "-") with true. cbn match. change (Ascii.eqb ">" ">") with true. reflexivity.
  - cbn [app lex]. destruct ((Nat.leb 2 d) && Ascii.eqb c ">") eqn:E.
    + apply andb_true_iff in E. destruct E as [Hd E]. apply Nat.leb_le in Hd. apply Ascii.eqb_eq in E. subst c. exfalso. apply H.
      exists (repeat "-" (d - 2)), s. replace d with ((d - 2) + 2) at 1 by lia. rewrite repeat_app, <- app_assoc. reflexivity.
    + apply IH. destruct (Ascii.eqb c "-") eqn:Ec.
      * apply Ascii.eqb_eq in Ec. subst c. rewrite dashes_snoc. exact H.
      * intros (x & y & Hxy). apply H. exists (repeat "-" d ++ c :: x), y. cbn [repeat app] in Hxy. rewrite Hxy, <- app_assoc. reflexivity.
Qed.
Lemma lex_aside s : aside s -> forall acc r, lex (LText acc) (s ++ r) = text_event acc ++ lex (LText []) r.
Proof.
  intros [x H|x H] acc r.
  - change (txt "<?" ++ x ++ txt "?>") with ("<" :: "?" :: x ++ ["?"; ">"]). cbn [app]. rewrite lex_lt. f_equal. rewrite <- app_assoc. cbn [app].
    change (lex LOpen ("?" :: x ++ "?" :: ">" :: r)) with (lex (LPi false) (x ++ "?" :: ">" :: r)). apply lex_pi. exact H.
  - change (txt "<!--" ++ x ++ txt "-->") with ("<" :: "!" :: "-" :: "-" :: x ++ ["-"; "-"; ">"]). cbn [app]. rewrite lex_lt. f_equal. rewrite <- app_assoc. cbn [app].
    change (lex LOpen ("!" :: "-" :: "-" :: x ++ "-" :: "-" :: ">" :: r)) with (lex (LComment 0) (x ++ "-" :: "-" :: ">" :: r)). apply lex_comment. exact H.
Qed.

(** ** CDATA sections and document types *)
Lemma upcase_either c u : either_case c u -> upcase u = u -> upcase c = u.
Proof.
  intros [->|[H E]] Hu; [exact Hu|]. unfold upcase. destruct H as [H1 H2]. apply N.leb_le in H1, H2. rewrite H1, H2. cbn [andb].
  rewrite E, N.add_sub. apply ascii_N_embedding.
Qed.
Lemma key_chars word key : key_word word key -> (forall u, In u word -> upcase u = u) -> map upcase key = word.
Proof.
  induction 1 as [|c u key word Hc H IH]; intros Hw; [reflexivity|]. cbn [map]. rewrite IH by (intros; apply Hw; right; assumption).
  rewrite (upcase_either c u Hc); [reflexivity|]. apply Hw. left. reflexivity.
Qed.
Lemma lex_key doctype key : forall word r, map upcase key = word -> word <> [] ->
  lex (LKey doctype word) (key ++ r) = lex (if doctype then LDoctype 0 false else LCData []) r.
Proof.
  induction key as [|c key IH]; intros word r E Hne; [symmetry in E; contradiction|]. subst word. cbn [map app lex]. rewrite Ascii.eqb_refl.
  destruct (map upcase key) as [|u word] eqn:E; [destruct key; [reflexivity|discriminate]|]. apply IH; [reflexivity|discriminate].
Qed.
Lemma lex_cdata s : forall acc r, ~ contains (txt "]]>") (rev acc ++ s) -> lex (LCData acc) (s ++ "]" :: "]" :: ">" :: r) = ECData (rev acc ++ s) :: lex (LText []) r.
Proof.
  induction s as [|c s IH]; intros acc r H.
  - rewrite app_nil_r. destruct acc as [|x [|y acc]]; reflexivity.
  - assert (E : lex (LCData acc) ((c :: s) ++ "]" :: "]" :: ">" :: r) = lex (LCData (c :: acc)) (s ++ "]" :: "]" :: ">" :: r)).
    { cbn [app lex]. destruct acc as [|x [|y acc]]; [reflexivity|reflexivity|]. destruct (Ascii.eqb c ">" && Ascii.eqb x "]" && Ascii.eqb y "]") eqn:Ec; [|reflexivity].
      rewrite !andb_true_iff, !Ascii.eqb_eq in Ec. destruct Ec as [[-> ->] ->]. exfalso. apply H. exists (rev acc), s. cbn [rev]. rewrite <- !app_assoc. reflexivity. }
    rewrite E, IH; cbn [rev]; rewrite <- app_assoc; [reflexivity|exact H].
Qed.
Lemma lex_cdata_section key s acc r : key_word (txt "CDATA") key -> ~ contains (txt "]]>") s ->
  lex (LText acc) (txt "<![" ++ key ++ txt "[" ++ s ++ txt "]]>" ++ r) = text_event acc ++ ECData s :: lex (LText []) r.
Proof.
  intros Hk Hs. change (txt "<![") with ["<"; "!"; "["]. cbn [app]. rewrite lex_lt. f_equal.
  change (lex LOpen ("!" :: "[" :: key ++ txt "[" ++ s ++ txt "]]>" ++ r)) with (lex (LKey false (txt "CDATA[")) (key ++ txt "[" ++ s ++ txt "]]>" ++ r)).
  rewrite (app_assoc key). rewrite (lex_key false (key ++ txt "[") (txt "CDATA[")); [|rewrite map_app, (key_chars _ _ Hk); [reflexivity|]|discriminate].
  - change (txt "]]>" ++ r) with ("]" :: "]" :: ">" :: r). apply (lex_cdata s []). exact Hs.
  - intros u Hu. cbn in Hu. repeat (destruct Hu as [<-|Hu]; [reflexivity|]). destruct Hu.
Qed.
Lemma eqb_no (c x : ascii) : c <> x -> Ascii.eqb c x = false.
Proof. apply Ascii.eqb_neq. Qed.
Lemma lex_angled s : angled s -> forall depth seen r, exists seen', lex (LDoctype depth seen) (s ++ r) = lex (LDoctype depth seen') r /\ (seen || negb (blank s) = true -> seen' = true).
Proof.
  induction 1 as [|c s H1 H2 H IH|s s' H IH H' IH']; intros depth seen r.
  - exists seen. split; [reflexivity|]. cbn. rewrite orb_false_r. auto.
  - destruct (IH depth (seen || negb (is_space c)) r) as (seen' & E & Hs). exists seen'. split.
    + cbn [app lex]. rewrite (eqb_no c "<"), (eqb_no c ">") by assumption. exact E.
    + intros Hb. apply Hs. unfold blank in *. cbn [forallb] in Hb. destruct seen, (is_space c), (forallb is_space s); auto.
  - destruct (IH (S depth) true (txt ">" ++ s' ++ r)) as (seen1 & E1 & _). destruct (IH' depth true r) as (seen2 & E2 & Hs). exists seen2. split.
    + change (txt "<") with ["<"]. rewrite <- !app_assoc. cbn [app lex]. change (Ascii.eqb "<" "<") with true. cbn match. rewrite E1. exact E2.
    + intros _. apply Hs. reflexivity.
Qed.
Lemma lex_doctype key s acc r : key_word (txt "DOCTYPE") key -> angled s -> blank s = false ->
  lex (LText acc) (txt "<!" ++ key ++ s ++ txt ">" ++ r) = text_event acc ++ EDoctype :: lex (LText []) r.
Proof.
  intros Hk Hs Hb. change (txt "<!") with ["<"; "!"]. cbn [app]. rewrite lex_lt. f_equal.
  assert (Hc : map upcase key = txt "DOCTYPE"). { apply (key_chars _ _ Hk). intros u Hu. cbn in Hu. repeat (destruct Hu as [<-|Hu]; [reflexivity|]). destruct Hu. }
  destruct key as [|d key]; [discriminate|]. cbn [map] in Hc. injection Hc as Hd Hc. change ("D" = upcase d) in Hd || change (upcase d = "D") in Hd.
  assert (E : lex LOpen ("!" :: (d :: key) ++ s ++ txt ">" ++ r) = lex (LKey true (txt "OCTYPE")) (key ++ s ++ txt ">" ++ r)).
  { cbn [app lex]. change (Ascii.eqb "!" "/") with false. change (Ascii.eqb "!" "?") with false. change (Ascii.eqb "!" "!") with true. cbn match.
    assert (H1 : Ascii.eqb d "-" = false) by (apply eqb_no; intros ->; discriminate).
    assert (H2 : Ascii.eqb d "[" = false) by (apply eqb_no; intros ->; discriminate). rewrite H1, H2, Hd. reflexivity. }
  rewrite E, (lex_key true key (txt "OCTYPE")); [|exact Hc|discriminate]. destruct (lex_angled s Hs 0 false (txt ">" ++ r)) as (seen & E2 & Hseen).
  rewrite E2, Hseen by (rewrite Hb; reflexivity). reflexivity.
Qed.

(** ** Elements *)
Definition flush (acc : text) (kids : list node) : list node := match acc with [] => kids | _ => add_text (Raw (rev acc)) kids end.
Definition push (kids : list node) (k : node) : list node := match k with Text bits => fold_left (fun ks b => add_text b ks) bits kids | _ => k :: kids end.
Lemma flush_event acc es nm at_ kids st : build (text_event acc ++ es) ((nm, at_, kids) :: st) = build es ((nm, at_, flush acc kids) :: st).
Proof. destruct acc; reflexivity. Qed.
Lemma flush_text s kids : s <> [] -> flush (rev s) kids = push kids (Text [Raw s]).
Proof.
  intros Hs. unfold flush, push. destruct (rev s) as [|c' s'] eqn:E; [apply (f_equal (@rev ascii)) in E; rewrite rev_involutive in E; contradiction|]. rewrite <- E, rev_involutive. reflexivity.
Qed.
(** the children in reverse order are those of [join] *)
Definition add_bits (bits : list bit) (kids : list node) : list node :=
  match kids with
  | Text bits' :: kids' => Text (bits' ++ bits) :: kids'
  | _ => Text bits :: kids
  end.
Lemma push_bits bits kids : bits <> [] -> push kids (Text bits) = add_bits bits kids.
Proof.
  unfold push. revert kids. induction bits as [|b bits IH]; intros kids Hne; [contradiction|]. cbn [fold_left]. destruct bits as [|b' bits].
  - destruct kids as [|[]]; reflexivity.
  - rewrite IH by discriminate. destruct kids as [|[name at_ sub|bits'] kids]; cbn [add_text add_bits]; [reflexivity|reflexivity|]. rewrite <- app_assoc. reflexivity.
Qed.
Definition full (k : node) : Prop := k <> Text [].
Lemma push_join l : Forall full l -> forall acc, exists acc', fold_left push l acc = acc' /\
  rev acc' = match acc, join l with
    | Text s :: t, Text s' :: l' => rev t ++ Text (s ++ s') :: l'
    | _, l' => rev acc ++ l' end.
Proof.
  induction 1 as [|k l Hk Hl IH]; intros acc.
  - exists acc. split; [reflexivity|]. cbn [join]. destruct acc as [|[|] acc]; rewrite ?app_nil_r; reflexivity.
  - cbn [fold_left]. destruct (IH (push acc k)) as (acc' & E & H). exists acc'. split; [exact E|]. rewrite H. clear E H IH. destruct k as [name at_ sub|s].
    + cbn [push join rev]. rewrite <- app_assoc. cbn [app]. destruct acc as [|[|] acc]; destruct (join l) as [|[|] l']; reflexivity.
    + rewrite push_bits by (intros ->; apply Hk; reflexivity). cbn [join]. destruct acc as [|[name at_ sub|x] acc]; cbn [add_bits rev app].
      * destruct (join l) as [|[|] l']; reflexivity.
      * destruct (join l) as [|[|] l']; cbn [rev]; rewrite <- ?app_assoc; reflexivity.
      * destruct (join l) as [|[|] l']; cbn [rev]; rewrite <- ?app_assoc; cbn [app]; rewrite <- ?app_assoc; reflexivity.
Qed.
Lemma pushed l : Forall full l -> rev (fold_left push l []) = join l.
Proof. intros Hl. destruct (push_join l Hl []) as (acc' & -> & H). rewrite H. destruct (join l) as [|[|]]; reflexivity. Qed.
Lemma meaning_full ps : Forall full (flat_map meaning ps).
Proof. induction ps as [|p ps IH]; [constructor|]. cbn [flat_map]. apply Forall_app. split; [|exact IH]. destruct p; repeat constructor; discriminate. Qed.

Definition is_text (p : piece) : bool := match p with PText _ => true | _ => false end.
Definition starts_text (ps : list piece) : bool := match ps with p :: _ => is_text p | [] => false end.
Definition reads_piece (ps : list piece) : Prop := forall acc kids nm at_ st r, (starts_text ps = true -> acc = []) -> exists acc' kids',
  build (lex (LText acc) (flat_map spell ps ++ r)) ((nm, at_, kids) :: st) = build (lex (LText acc') r) ((nm, at_, kids') :: st) /\
  flush acc' kids' = fold_left push (flat_map meaning ps) (flush acc kids).
Definition reads_one (p : piece) : Prop := forall acc kids nm at_ st r, (is_text p = true -> acc = []) -> exists acc' kids',
  build (lex (LText acc) (spell p ++ r)) ((nm, at_, kids) :: st) = build (lex (LText acc') r) ((nm, at_, kids') :: st) /\
  flush acc' kids' = fold_left push (meaning p) (flush acc kids) /\ (is_text p = false -> acc' = []).
Lemma apart_cons p ps : no_two_texts (p :: ps) = true -> no_two_texts ps = true /\ (starts_text ps = true -> is_text p = false).
Proof.
  destruct p; cbn [no_two_texts]; intros H; try (split; [exact H|reflexivity]). destruct ps as [|[]]; try discriminate; (split; [exact H|discriminate]).
Qed.
Lemma reads_list ps : no_two_texts ps = true -> (forall p, In p ps -> reads_one p) -> reads_piece ps.
Proof.
  induction ps as [|p ps IH]; intros Hap Hp acc kids nm at_ st r Hacc; [exists acc, kids; split; reflexivity|].
  destruct (apart_cons p ps Hap) as [Hap1 Hap2].
  destruct (Hp p (or_introl eq_refl) acc kids nm at_ st (flat_map spell ps ++ r) Hacc) as (acc1 & kids1 & E1 & H1 & G1).
  destruct (IH Hap1 (fun q Hq => Hp q (or_intror Hq)) acc1 kids1 nm at_ st r ltac:(auto)) as (acc2 & kids2 & E2 & H2).
  exists acc2, kids2. cbn [flat_map] in *. split; [rewrite <- app_assoc, E1; exact E2|]. rewrite fold_left_app, <- H1. exact H2.
Qed.
(** an element is read up to the end of its children *)
Lemma open_reads name attrs inner : plain_name name = true -> tag_rest attrs -> (forall s, attrs <> s ++ txt "/") -> reads_piece inner -> forall st r,
  exists acc' kids', build (lex LOpen (name ++ attrs ++ ">" :: flat_map spell inner ++ r)) st = build (lex (LText acc') r) ((name, attrs, kids') :: st) /\
    rev (flush acc' kids') = join (flat_map meaning inner).
Proof.
  intros Hn Ha Hs Hi st r. rewrite lex_start by assumption. cbn [build]. pose proof (plain_name_chars name Hn) as [_ Hc].
  rewrite take_name_rest, rest_of_tag_rest by (assumption || apply Ha).
  destruct (Hi [] [] name attrs st r ltac:(reflexivity)) as (acc' & kids' & E & H). exists acc', kids'. split; [exact E|]. rewrite H. apply pushed, meaning_full.
Qed.
(** ... and up to its end tag *)
Lemma elem_reads name attrs inner space : plain_name name = true -> tag_rest attrs -> (forall s, attrs <> s ++ txt "/") -> blank space = true -> reads_piece inner -> forall st r,
  exists kids', build (lex LOpen (name ++ attrs ++ ">" :: flat_map spell inner ++ "<" :: "/" :: name ++ space ++ ">" :: r)) st =
    build (EEnd name :: lex (LText []) r) ((name, attrs, kids') :: st) /\ rev kids' = join (flat_map meaning inner).
Proof.
  intros Hn Ha Hs Hsp Hi st r. destruct (open_reads name attrs inner Hn Ha Hs Hi st ("<" :: "/" :: name ++ space ++ ">" :: r)) as (acc' & kids' & E & H).
  exists (flush acc' kids'). split; [|exact H]. rewrite E, lex_lt, flush_event. pose proof (plain_name_chars name Hn) as [_ Hc].
  rewrite app_assoc, lex_end by (apply end_chars; assumption). rewrite trim_end_space by assumption. reflexivity.
Qed.
Lemma well_spelled_reads p : well_spelled p -> reads_one p.
Proof.
  induction 1 as [s Hs Hlt|s Ha|key s Hk Hs|name attrs inner space Hn Ha Hs Hsp Hap Hin IH|name attrs Hn Ha]; intros acc kids nm at_ st r Hacc; cbn [spell meaning is_text fold_left] in *.
  - rewrite Hacc by reflexivity. exists (rev s), kids. split; [rewrite lex_text, app_nil_r by assumption; reflexivity|]. split; [apply flush_text; assumption|discriminate].
  - exists [], (flush acc kids). split; [rewrite lex_aside, flush_event by assumption; reflexivity|split; reflexivity].
  - exists [], (push (flush acc kids) (Text [CData s])). split; [|split; reflexivity]. rewrite <- !app_assoc, lex_cdata_section, flush_event by assumption. reflexivity.
  - destruct (elem_reads name attrs inner space Hn Ha Hs Hsp (reads_list inner Hap IH) ((nm, at_, flush acc kids) :: st) r) as (kids' & E & H).
    exists [], (Elem name attrs (join (flat_map meaning inner)) :: flush acc kids). split; [|split; reflexivity].
    change (txt "<") with ["<"]. change (txt ">") with [">"]. change (txt "</") with ["<"; "/"]. cbn [app]. repeat (rewrite <- !app_assoc; cbn [app]).
    rewrite lex_lt, flush_event, E. cbn [build]. rewrite text_eqb_refl, H. reflexivity.
  - exists [], (Elem name attrs [] :: flush acc kids). split; [|split; reflexivity].
    change (txt "<") with ["<"]. change (txt "/>") with ["/"; ">"]. cbn [app]. repeat (rewrite <- !app_assoc; cbn [app]).
    rewrite lex_lt, flush_event, lex_empty by assumption. cbn [build]. pose proof (plain_name_chars name Hn) as [_ Hc].
    rewrite take_name_rest, rest_of_tag_rest by (assumption || apply Ha). reflexivity.
Qed.
Lemma reads_all ps : no_two_texts ps = true -> (forall p, In p ps -> well_spelled p) -> reads_piece ps.
Proof. intros Hap H. apply reads_list; [exact Hap|]. intros p Hp. apply well_spelled_reads, H, Hp. Qed.

(** A written element is read, whatever follows it. *)
Lemma element_spell p k r : well_spelled p -> meaning p = [k] -> (forall s, k <> Text s) -> element_of (spell p ++ r) = Some k.
Proof.
  intros Hw Hk Ht. unfold element_of. destruct Hw as [s Hs Hlt|s Ha|key s Hkw Hs|name attrs inner space Hn Ha Hs Hsp Hap Hin|name attrs Hn Ha]; cbn [meaning] in Hk.
  - exfalso. apply (Ht [Raw s]). congruence.
  - discriminate.
  - exfalso. apply (Ht [CData s]). congruence.
  - injection Hk as <-. destruct (elem_reads name attrs inner space Hn Ha Hs Hsp (reads_all inner Hap Hin) [] r) as (kids' & E & H).
    cbn [spell]. change (txt "<") with ["<"]. change (txt ">") with [">"]. change (txt "</") with ["<"; "/"]. cbn [app]. repeat (rewrite <- !app_assoc; cbn [app]).
    rewrite lex_lt. cbn [text_event app]. rewrite E. cbn [build]. rewrite text_eqb_refl, H. reflexivity.
  - injection Hk as <-. cbn [spell]. change (txt "<") with ["<"]. change (txt "/>") with ["/"; ">"]. cbn [app]. repeat (rewrite <- !app_assoc; cbn [app]).
    rewrite lex_lt. cbn [text_event app]. rewrite lex_empty by assumption. cbn [build]. pose proof (plain_name_chars name Hn) as [_ Hc].
    rewrite take_name_rest, rest_of_tag_rest by (assumption || apply Ha). reflexivity.
Qed.
(** the first character after < is neither that of a comment nor that of an instruction *)
Definition tag_start (r : text) : Prop := forall c r', r = c :: r' -> c <> "!" /\ c <> "?".
Lemma name_start name r : plain_name name = true -> tag_start (name ++ r).
Proof.
  intros Hn c r' E. apply plain_name_chars in Hn. destruct Hn as [Hne Hc]. destruct name as [|x name]; [contradiction|]. injection E as -> _. cbn [forallb] in Hc.
  apply andb_true_iff in Hc. destruct Hc as [Hc _]. split; intros ->; discriminate.
Qed.
Lemma spell_lt p k : well_spelled p -> meaning p = [k] -> (forall s, k <> Text s) -> exists r, spell p = "<" :: r /\ forall r', tag_start (r ++ r').
Proof.
  intros Hw Hk Ht. destruct Hw as [s Hs Hlt|s Ha|key s Hkw Hs|name attrs inner space Hn Ha Hs Hsp Hap Hin|name attrs Hn Ha]; cbn [meaning] in Hk.
  - exfalso. apply (Ht [Raw s]). congruence.
  - discriminate.
  - exfalso. apply (Ht [CData s]). congruence.
  - eexists. split; [reflexivity|]. intros r'. rewrite <- app_assoc. apply name_start, Hn.
  - eexists. split; [reflexivity|]. intros r'. rewrite <- app_assoc. apply name_start, Hn.
Qed.

(** ** What stands before the root *)
Lemma blank_event acc es : blank (rev acc) = true -> build (text_event acc ++ es) [] = build es [].
Proof. intros H. unfold text_event. destruct acc as [|c acc]; [reflexivity|]. cbn [app build]. rewrite H. reflexivity. Qed.
Definition no_text_first (es : list event) : Prop := forall s es', es <> EText s :: es'.
Lemma tag_first s : forall acc q, no_text_first (lex (LTag acc q) s).
Proof.
  induction s as [|c s IH]; intros acc q x es H; [discriminate|]. cbn [lex] in H. destruct q as [q|]; [eapply IH, H|].
  destruct (Ascii.eqb c ">"); [|eapply IH, H]. unfold tag_event in H. destruct acc as [|[[] [] [] [] [] [] [] []] acc]; discriminate.
Qed.
Lemma end_first s : forall acc, no_text_first (lex (LEnd acc) s).
Proof. induction s as [|c s IH]; intros acc x es H; [discriminate|]. cbn [lex] in H. destruct (Ascii.eqb c ">"); [discriminate|eapply IH, H]. Qed.
Lemma open_first r : tag_start r -> no_text_first (lex LOpen r).
Proof.
  intros Hr x es H. destruct r as [|c r]; [discriminate|]. destruct (Hr c r eq_refl) as [H1 H2]. cbn [lex] in H. rewrite (eqb_no c "!"), (eqb_no c "?") in H by assumption.
  destruct (Ascii.eqb c "/"); [exact (end_first _ _ _ _ H)|]. destruct (Ascii.eqb c ">"); [discriminate|exact (tag_first _ _ _ _ _ H)].
Qed.
Lemma space_no_lt s : blank s = true -> ~ In "<" s.
Proof. unfold blank. rewrite forallb_forall. intros H Hi. specialize (H _ Hi). discriminate. Qed.
Lemma doctype_event es acc : no_text_first es -> blank (rev acc) = true -> build (EDoctype :: text_event acc ++ es) [] = build es [].
Proof.
  intros He Ha. cbn [build]. transitivity (build (text_event acc ++ es) []); [|apply blank_event, Ha]. destruct acc as [|c acc]; cbn [text_event app].
  - destruct es as [|[] es]; try reflexivity. exfalso. exact (He _ _ eq_refl).
  - destruct es as [|[] es]; try reflexivity. exfalso. exact (He _ _ eq_refl).
Qed.
Lemma prologue_reads p r : prologue p -> tag_start r -> forall acc, blank (rev acc) = true ->
  build (lex (LText acc) (p ++ "<" :: r)) [] = build (lex LOpen r) [].
Proof.
  intros Hp Hr. induction Hp as [|c p Hc Hp IH|s p Hs Hp IH|key s space Hk Hs Hb Hsp]; intros acc Ha.
  - cbn [app]. rewrite lex_lt. apply blank_event, Ha.
  - cbn [app lex].
    replace (Ascii.eqb c "<") with false by (destruct c as [[] [] [] [] [] [] [] []]; try reflexivity; discriminate). apply IH.
    cbn [rev]. unfold blank in *. rewrite forallb_app, Ha. cbn. rewrite Hc. reflexivity.
  - rewrite <- app_assoc, lex_aside, blank_event by assumption. apply IH. reflexivity.
  - rewrite <- !app_assoc, lex_doctype, blank_event by assumption. rewrite lex_text by (apply space_no_lt, Hsp). rewrite app_nil_r, lex_lt.
    apply doctype_event; [apply open_first, Hr|]. rewrite rev_involutive. exact Hsp.
Qed.
Lemma element_prologue p r : prologue p -> tag_start r -> element_of (p ++ "<" :: r) = element_of ("<" :: r).
Proof.
  intros Hp Hr. unfold element_of. rewrite (prologue_reads p r Hp Hr [] eq_refl), lex_lt. reflexivity.
Qed.

(** Something else in place of the root *)
Lemma prologue_stops p r : prologue p -> (forall acc, blank (rev acc) = true -> build (lex (LText acc) r) [] = None) ->
  forall acc, blank (rev acc) = true -> build (lex (LText acc) (p ++ r)) [] = None.
Proof.
  intros Hp Hr. induction Hp as [|c p Hc Hp IH|s p Hs Hp IH|key s space Hk Hs Hb Hsp]; intros acc Ha.
  - apply Hr, Ha.
  - cbn [app lex]. replace (Ascii.eqb c "<") with false by (destruct c as [[] [] [] [] [] [] [] []]; try reflexivity; discriminate). apply IH.
    cbn [rev]. unfold blank in *. rewrite forallb_app, Ha. cbn. rewrite Hc. reflexivity.
  - rewrite <- app_assoc, lex_aside, blank_event by assumption. apply IH. reflexivity.
  - rewrite <- !app_assoc, lex_doctype, blank_event by assumption. rewrite lex_text by (apply space_no_lt, Hsp). rewrite app_nil_r.
    specialize (Hr (rev space)). rewrite rev_involutive in Hr. specialize (Hr Hsp). cbn [build]. destruct (lex (LText (rev space)) r) as [|[] [|[] l]]; try exact Hr; reflexivity.
Qed.
Lemma text_stops r : forall acc, blank (rev acc) = false -> build (lex (LText acc) r) [] = None.
Proof.
  assert (G : forall acc es, blank (rev acc) = false -> build (text_event acc ++ es) [] = None).
  { intros [|c acc] es H; [discriminate|]. cbn [text_event app build]. rewrite H. reflexivity. }
  induction r as [|c r IH]; intros acc H.
  - cbn [lex]. rewrite <- (app_nil_r (text_event acc)). apply G, H.
  - cbn [lex]. destruct (Ascii.eqb c "<"); [apply G, H|]. apply IH. cbn [rev]. unfold blank in *. rewrite forallb_app, H. reflexivity.
Qed.
Lemma char_stops c r acc : is_space c = false -> c <> "<" -> build (lex (LText acc) (c :: r)) [] = None.
Proof.
  intros H1 H2. cbn [lex]. rewrite eqb_no by exact H2. apply text_stops. cbn [rev]. unfold blank. rewrite forallb_app. cbn [forallb]. rewrite H1. apply andb_false_r.
Qed.
Lemma end_stops m : forall acc, build (lex (LEnd acc) m) [] = None.
Proof. induction m as [|c m IH]; intros acc; [reflexivity|]. cbn [lex]. destruct (Ascii.eqb c ">"); [reflexivity|apply IH]. Qed.

(** ** Cutting off *)
(** Reading does not look behind the element: what is read stays the same whatever is added. *)
Lemma lex_more s : forall st r, exists es fin more, lex st s = es ++ fin /\ lex st (s ++ r) = es ++ more /\ (fin = [EBad] \/ exists acc, fin = text_event acc).
Proof.
  induction s as [|c s IH]; intros st r.
  - exists [], (lex st []), (lex st r). split; [reflexivity|]. split; [reflexivity|]. destruct st; cbn; eauto.
  - assert (Hskip : forall st', exists es fin more, lex st' s = es ++ fin /\ lex st' (s ++ r) = es ++ more /\ (fin = [EBad] \/ exists acc, fin = text_event acc)) by (intros; apply IH).
    assert (Hev : forall e st', exists es fin more, e ++ lex st' s = es ++ fin /\ e ++ lex st' (s ++ r) = es ++ more /\ (fin = [EBad] \/ exists acc, fin = text_event acc)).
    { intros e st'. destruct (IH st' r) as (es & fin & more & E1 & E2 & H). exists (e ++ es), fin, more. rewrite E1, E2, <- !app_assoc. auto. }
    assert (Htag : forall acc, exists es fin more,
      (if Ascii.eqb c ">" then tag_event acc :: lex (LText []) s else lex (LTag (c :: acc) (if is_quote c then Some c else None)) s) = es ++ fin /\
      (if Ascii.eqb c ">" then tag_event acc :: lex (LText []) (s ++ r) else lex (LTag (c :: acc) (if is_quote c then Some c else None)) (s ++ r)) = es ++ more /\ (fin = [EBad] \/ exists acc, fin = text_event acc)).
    { intros acc. destruct (Ascii.eqb c ">"); [apply (Hev [tag_event acc])|apply Hskip]. }
    cbn [app lex]. destruct st as [acc| |acc [q|]|acc|question|dash|dashes|doctype key|acc|depth seen].
    + destruct (Ascii.eqb c "<"); [apply Hev|apply Hskip].
    + destruct (Ascii.eqb c "/"); [apply Hskip|]. destruct (Ascii.eqb c "?"); [apply Hskip|]. destruct (Ascii.eqb c "!"); [apply Hskip|]. apply Htag.
    + apply Hskip.
    + apply Htag.
    + destruct (Ascii.eqb c ">"); [apply (Hev [_])|apply Hskip].
    + destruct (question && Ascii.eqb c ">"); apply Hskip.
    + assert (Hbad : exists es fin more, [EBad] = es ++ fin /\ [EBad] = es ++ more /\ (fin = [EBad] \/ exists acc, fin = text_event acc)) by (exists [], [EBad], [EBad]; auto).
      destruct (Ascii.eqb c "-"); [destruct dash; apply Hskip|]. destruct dash; [exact Hbad|]. destruct (Ascii.eqb c "["); [apply Hskip|]. destruct (Ascii.eqb (upcase c) "D"); [apply Hskip|exact Hbad].
    + destruct ((Nat.leb 2 dashes) && Ascii.eqb c ">"); apply Hskip.
    + assert (Hbad : exists es fin more, [EBad] = es ++ fin /\ [EBad] = es ++ more /\ (fin = [EBad] \/ exists acc, fin = text_event acc)) by (exists [], [EBad], [EBad]; auto).
      destruct key as [|k [|k' key]]; [exact Hbad|..]; (destruct (Ascii.eqb (upcase c) k); [apply Hskip|exact Hbad]).
    + destruct acc as [|x [|y acc]]; [apply Hskip|apply Hskip|]. destruct (Ascii.eqb c ">" && Ascii.eqb x "]" && Ascii.eqb y "]"); [apply (Hev [ECData (rev acc)])|apply Hskip].
    + destruct (Ascii.eqb c "<"); [apply Hskip|]. destruct (Ascii.eqb c ">"); [|apply Hskip]. destruct depth; [|apply Hskip]. destruct seen; [apply (Hev [EDoctype])|].
      exists [], [EBad], [EBad]. auto.
Qed.
Lemma build_more es fin more : (fin = [EBad] \/ exists acc, fin = text_event acc) -> forall st k, build (es ++ fin) st = Some k -> build (es ++ more) st = Some k.
Proof.
  intros Hf. assert (Hnone : forall st, build fin st = None).
  { intros st. destruct Hf as [->|(acc & ->)]; [reflexivity|]. unfold text_event. destruct acc; [reflexivity|]. cbn [build].
    destruct st as [|[[nm at_] kids] st]; [destruct (blank _); reflexivity|reflexivity]. }
  induction es as [|e es IH]; intros st k H; [cbn [app] in H; rewrite Hnone in H; discriminate|].
  cbn [app build] in *. destruct e as [tag|tag|name|s|s| |]; [apply IH, H| | | | | |discriminate].
  - destruct st as [|[[nm at_] kids] st]; [exact H|apply IH, H].
  - destruct st as [|[[nm at_] kids] st]; [discriminate|]. destruct (text_eqb name nm); [|discriminate]. destruct st as [|[[nm2 at2] kids2] st]; [exact H|apply IH, H].
  - destruct st as [|[[nm at_] kids] st]; [destruct (blank s); [apply IH, H|discriminate]|apply IH, H].
  - destruct st as [|[[nm at_] kids] st]; [discriminate|apply IH, H].
  - destruct st as [|f st]; [|discriminate].
    assert (Hb : build (es ++ fin) [] = Some k) by (destruct (es ++ fin) as [|[] [|[] l]]; try exact H; discriminate).
    specialize (IH [] k Hb). destruct es as [|e1 [|e2 es]].
    + cbn [app] in Hb. rewrite Hnone in Hb. discriminate.
    + destruct e1; try exact IH. exfalso. cbn [app build] in Hb. destruct (blank s); [rewrite Hnone in Hb|]; discriminate.
    + destruct e1; try exact IH. destruct e2; try exact IH. discriminate.
Qed.
Lemma element_more s r k : element_of s = Some k -> element_of (s ++ r) = Some k.
Proof.
  unfold element_of. destruct (lex_more s (LText []) r) as (es & fin & more & E1 & E2 & H). rewrite E1, E2. apply build_more. exact H.
Qed.
Lemma lex_end_open s acc : ~ In ">" s -> lex (LEnd acc) s = [EBad].
Proof. revert acc. induction s as [|c s IH]; intros acc H; [reflexivity|]. apply notin_char in H. destruct H as [H1 H2]. cbn [lex]. rewrite H1. auto. Qed.
(** all but the last character *)
Lemma element_last p k pro : well_spelled p -> meaning p = [k] -> (forall s, k <> Text s) -> prologue pro ->
  exists body, spell p = body ++ [">"] /\ element_of (pro ++ body) = None.
Proof.
  intros Hw Hk Ht Hp. destruct Hw as [s Hs Hlt|s Ha|key s Hkw Hs|name attrs inner space Hn Ha Hs Hsp Hap Hin|name attrs Hn Ha]; cbn [meaning] in Hk.
  - exfalso. apply (Ht [Raw s]). congruence.
  - discriminate.
  - exfalso. apply (Ht [CData s]). congruence.
  - exists ("<" :: name ++ attrs ++ ">" :: flat_map spell inner ++ "<" :: "/" :: name ++ space). split.
    + cbn [spell]. change (txt "<") with ["<"]. change (txt ">") with [">"]. change (txt "</") with ["<"; "/"]. cbn [app]. repeat (rewrite <- !app_assoc; cbn [app]). reflexivity.
    + rewrite element_prologue by (assumption || apply name_start, Hn). unfold element_of. rewrite lex_lt. cbn [text_event app].
      destruct (open_reads name attrs inner Hn Ha Hs (reads_all inner Hap Hin) [] ("<" :: "/" :: name ++ space)) as (acc' & kids' & -> & _).
      rewrite lex_lt, flush_event. change (lex LOpen ("/" :: name ++ space)) with (lex (LEnd []) (name ++ space)).
      rewrite lex_end_open; [reflexivity|]. apply end_chars; [apply plain_name_chars, Hn|exact Hsp].
  - exists ("<" :: name ++ attrs ++ ["/"]). split.
    + cbn [spell]. change (txt "<") with ["<"]. change (txt "/>") with ["/"; ">"]. cbn [app]. rewrite <- !app_assoc. reflexivity.
    + rewrite element_prologue by (assumption || apply name_start, Hn). unfold element_of. rewrite lex_lt. cbn [text_event app]. rewrite lex_open by (assumption || apply Ha). reflexivity.
Qed.
Lemma element_cut p k pro s r : well_spelled p -> meaning p = [k] -> (forall s, k <> Text s) -> prologue pro ->
  s ++ r = pro ++ spell p -> r <> [] -> element_of s = None.
Proof.
  intros Hw Hk Ht Hp E Hr. destruct (element_last p k pro Hw Hk Ht Hp) as (body & Eb & H). destruct (exists_last Hr) as (r' & c & ->).
  rewrite Eb, !app_assoc in E. apply app_inj_tail in E. destruct E as [E _]. destruct (element_of s) as [k'|] eqn:Es; [|reflexivity].
  apply (element_more s r') in Es. congruence.
Qed.
(** An end tag of another name. *)
Lemma opened_reads l : Forall well_opened l -> l <> [] -> forall st r, exists acc kids name attrs inner st', last l ([], [], []) = (name, attrs, inner) /\
  build (lex (LText []) (opened l ++ r)) st = build (lex (LText acc) r) ((name, attrs, kids) :: st').
Proof.
  intros Hl Hne. assert (G : forall acc st r, (acc <> [] -> st <> []) -> exists acc' kids name attrs inner st', last l ([], [], []) = (name, attrs, inner) /\
    build (lex (LText acc) (opened l ++ r)) st = build (lex (LText acc') r) ((name, attrs, kids) :: st')).
  { induction Hl as [|[[name attrs] inner] l (Hn & Ha & Hs & Hap & Hin) Hl IH]; [contradiction|]. intros acc st r Hacc.
    assert (Hopen : exists st', build (lex (LText acc) (opened ((name, attrs, inner) :: l) ++ r)) st = build (lex LOpen (name ++ attrs ++ ">" :: flat_map spell inner ++ opened l ++ r)) st').
    { unfold opened. cbn [flat_map]. change (txt "<") with ["<"]. change (txt ">") with [">"]. cbn [app]. repeat (rewrite <- !app_assoc; cbn [app]). rewrite lex_lt.
      destruct acc as [|c acc]; [exists st; reflexivity|]. destruct st as [|[[nm at_] kids] st]; [exfalso; apply Hacc; [discriminate|reflexivity]|]. rewrite flush_event. eexists. reflexivity. }
    destruct Hopen as (st' & ->). destruct (open_reads name attrs inner Hn Ha Hs (reads_all inner Hap Hin) st' (opened l ++ r)) as (acc' & kids' & E & _). rewrite E.
    destruct l as [|f l].
    - exists acc', kids', name, attrs, inner, st'. split; reflexivity.
    - destruct (IH ltac:(discriminate) acc' ((name, attrs, kids') :: st') r ltac:(discriminate)) as (acc2 & kids2 & n2 & a2 & i2 & st2 & E2 & H2).
      exists acc2, kids2, n2, a2, i2, st2. split; [exact E2|exact H2]. }
  intros st r. apply G. intros H. contradiction.
Qed.
Lemma element_mismatch pro l name attrs inner m r : prologue pro -> Forall well_opened (l ++ [(name, attrs, inner)]) -> ~ In ">" m -> trim_end m <> name ->
  element_of (pro ++ opened (l ++ [(name, attrs, inner)]) ++ txt "</" ++ m ++ txt ">" ++ r) = None.
Proof.
  intros Hp Hl Hm Hne. set (fr := l ++ [(name, attrs, inner)]) in *.
  assert (Hfr : fr <> []) by (unfold fr; destruct l; discriminate).
  assert (E : exists x, opened fr = "<" :: x /\ forall r', tag_start (x ++ r')).
  { destruct fr as [|[[n a] i] fr']; [contradiction|]. eexists. split; [reflexivity|]. intros r'. rewrite <- !app_assoc. apply name_start. inversion Hl; subst. destruct H1 as [H1 _]. exact H1. }
  change (txt "</") with ["<"; "/"]. change (txt ">") with [">"]. cbn [app]. destruct E as (x & E & Hx). rewrite E. cbn [app]. rewrite element_prologue by (assumption || apply Hx).
  change ("<" :: x ++ "<" :: "/" :: m ++ ">" :: r) with (("<" :: x) ++ "<" :: "/" :: m ++ ">" :: r). rewrite <- E. unfold element_of.
  destruct (opened_reads fr Hl Hfr [] ("<" :: "/" :: m ++ ">" :: r)) as (acc & kids & n & a & i & st' & El & ->). unfold fr in El. rewrite last_last in El. injection El as <- <- <-.
  rewrite lex_lt, flush_event, lex_end by assumption. cbn [build]. rewrite text_eqb_neq by assumption. reflexivity.
Qed.

