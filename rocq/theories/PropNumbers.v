(** C68: the text of numbers.

    [numeral t v]: the text [t] is a decimal number and [v] is its value.  [nearest x v]: [x] is the double that [v] is
    rounded to.  [significant t]: how many digits are written, not counting zeros at the beginning
    and at the end. *)
From Coq Require Import Ascii String ZArith NArith Bool List Lia Reals Lra.
From Flocq Require Import Core IEEE754.Binary IEEE754.Bits.
From Verif Require Import Num NumB64 F64Facts Text PropText F64Text F64TextProofs.
Import ListNotations.
Local Open Scope R_scope.

(** ** Specification *)
(** the value of a sequence of digits *)
Fixpoint natural (s : text) : Z :=
  match s with
  | [] => 0
  | c :: s => (Z.of_N (N_of_ascii c) - 48) * 10 ^ Z.of_nat (length s) + natural s
  end.
Definition all_digits (s : text) : Prop := forall c, In c s -> (48 <= N_of_ascii c <= 57)%N.
(** sign, digits, point, digits, exponent; the point and the exponent may be missing *)
Inductive numeral : text -> bool -> R -> Prop :=
| a_numeral : forall sign negative whole rest fraction exponent e,
    (sign = [] /\ negative = false) \/ (sign = txt "+" /\ negative = false) \/ (sign = txt "-" /\ negative = true) ->
    all_digits whole -> all_digits fraction -> whole ++ fraction <> [] ->
    (rest = [] /\ fraction = []) \/ rest = txt "." ++ fraction ->
    exponent_text exponent e ->
    numeral (sign ++ whole ++ rest ++ exponent) negative (IZR (natural (whole ++ fraction)) * powerRZ 10 (e - Z.of_nat (length fraction)))
with exponent_text : text -> Z -> Prop :=
| no_exponent : exponent_text [] 0
| an_exponent : forall letter sign (negative : bool) ds,
    letter = "e"%char \/ letter = "E"%char ->
    (sign = [] /\ negative = false) \/ (sign = txt "+" /\ negative = false) \/ (sign = txt "-" /\ negative = true) ->
    all_digits ds -> ds <> [] ->
    exponent_text (letter :: sign ++ ds) (if negative then - natural ds else natural ds).

(** [x] is the rounding of [v >= 0] (with a minus sign if [negative]): to nearest, ties to even, beyond the largest double to infinity *)
Definition nearest (x : binary64) (negative : bool) (v : R) : Prop :=
  let r := round radix2 (FLT_exp (-1074) 53) ZnearestE v in
  (r < bpow radix2 1024 -> is_finite 53 1024 x = true /\ B2R 53 1024 x = (if negative then - r else r) /\ Bsign 53 1024 x = negative) /\
  (bpow radix2 1024 <= r -> x = B754_infinity 53 1024 negative).

Fixpoint before_e (s : text) : text :=
  match s with
  | c :: s => if Ascii.eqb c "e" || Ascii.eqb c "E" then [] else c :: before_e s
  | [] => []
  end.
Fixpoint skip_zeros (s : text) : text :=
  match s with
  | c :: s' => if Ascii.eqb c "0" then skip_zeros s' else s
  | [] => []
  end.
Definition significant (s : text) : nat := length (skip_zeros (rev (skip_zeros (rev (filter is_digit (before_e s)))))).

(** ** Reading *)
Lemma digits_all s : forallb is_digit s = true <-> all_digits s.
Proof.
  rewrite forallb_forall. unfold all_digits, is_digit. split; intros H c Hc; specialize (H c Hc).
  - apply andb_prop in H. destruct H as [H1 H2]. apply N.leb_le in H1, H2. auto.
  - apply andb_true_intro. split; apply N.leb_le; lia.
Qed.
Lemma natural_is s : natural s = digits_value s.
Proof. induction s as [|c s IH]; [reflexivity|]. rewrite digits_value_cons. cbn [natural]. rewrite IH. reflexivity. Qed.
Lemma power10 k : powerRZ 10 k = bpow radix10 k.
Proof. rewrite bpow_powerRZ. reflexivity. Qed.

Lemma span_spec s : exists r, span_digits s = (fst (span_digits s), r) /\ s = fst (span_digits s) ++ r /\ forallb is_digit (fst (span_digits s)) = true /\ (forall c r', r = c :: r' -> is_digit c = false).
Proof.
  induction s as [|c s (r & E & Es & Hd & Hr)]; [exists []; repeat split; discriminate|]. cbn [span_digits]. destruct (is_digit c) eqn:Ec.
  - rewrite E. cbn [fst]. exists r. split; [reflexivity|]. split; [cbn; congruence|]. split; [cbn; rewrite Ec; exact Hd|exact Hr].
  - exists (c :: s). cbn [fst]. split; [reflexivity|]. split; [reflexivity|]. split; [reflexivity|]. intros c' r' H. congruence.
Qed.

(** a sign at the beginning *)
Definition cut_sign (s : text) : bool * text := match s with "-"%char :: s' => (true, s') | "+"%char :: s' => (false, s') | _ => (false, s) end.
Definition is_sign (sign : text) (negative : bool) : Prop := (sign = [] /\ negative = false) \/ (sign = txt "+" /\ negative = false) \/ (sign = txt "-" /\ negative = true).
Lemma cut_sign_spec s : exists sign, is_sign sign (fst (cut_sign s)) /\ s = sign ++ snd (cut_sign s).
Proof.
  unfold cut_sign, is_sign. destruct s as [|c s]; [exists []; cbn; auto|]. destruct c as [[] [] [] [] [] [] [] []]; try (exists []; cbn; auto; fail); [exists (txt "+")|exists (txt "-")]; cbn; auto.
Qed.
Lemma cut_sign_app sign negative s : is_sign sign negative -> (forall c s', s = c :: s' -> c <> "-"%char /\ c <> "+"%char) -> cut_sign (sign ++ s) = (negative, s).
Proof.
  intros [[-> ->]|[[-> ->]|[-> ->]]] Hs; [|reflexivity|reflexivity]. cbn [app]. unfold cut_sign. destruct s as [|c s]; [reflexivity|]. destruct (Hs c s eq_refl) as [H1 H2].
  destruct c as [[] [] [] [] [] [] [] []]; try reflexivity; congruence.
Qed.
Lemma digit_no_sign c : is_digit c = true -> c <> "-"%char /\ c <> "+"%char.
Proof. intros H. split; intros ->; discriminate. Qed.

Lemma parse_exponent_cut s : parse_exponent s = (let '(negative, s) := cut_sign s in match span_digits s with (c :: d, []) => Some (if negative then (- digits_value (c :: d))%Z else digits_value (c :: d)) | _ => None end).
Proof. reflexivity. Qed.
Lemma read_f64_cut s : read_f64 s = (let '(negative, s) := cut_sign s in match parse_number s with Some (m, k) => Some (decimal64 negative m k) | None => parse_inf_nan negative s end).
Proof. reflexivity. Qed.

Lemma parse_exponent_iff s e : parse_exponent s = Some e <-> exists sign negative ds, s = sign ++ ds /\ is_sign sign negative /\ all_digits ds /\ ds <> [] /\ e = (if negative then - natural ds else natural ds)%Z.
Proof.
  rewrite parse_exponent_cut. split.
  - destruct (cut_sign_spec s) as (sign & Hs & Es). destruct (cut_sign s) as [negative s'] eqn:Ec. cbn [fst snd] in *. destruct (span_spec s') as (r & E & Er & Hd & _). rewrite E. destruct (fst (span_digits s')) as [|c d] eqn:Ed; [discriminate|]. destruct r as [|c' r]; [|discriminate].
    intros H. injection H as <-. exists sign, negative, (c :: d). rewrite app_nil_r in Er. subst s'. split; [exact Es|]. split; [exact Hs|]. split; [apply digits_all; exact Hd|]. split; [discriminate|]. rewrite natural_is. reflexivity.
  - intros (sign & negative & ds & -> & Hs & Hd & Hne & ->). apply digits_all in Hd. rewrite (cut_sign_app sign negative ds Hs).
    + rewrite <- (app_nil_r ds) at 1. rewrite span_digits_app; [|exact Hd|discriminate]. destruct ds; [contradiction|]. rewrite natural_is. reflexivity.
    + intros c s' ->. cbn in Hd. apply andb_prop in Hd. apply digit_no_sign. apply Hd.
Qed.

(** [parse_number] accepts what stands after the sign of a numeral *)
Lemma parse_number_iff s m k : parse_number s = Some (m, k) <-> exists whole rest fraction exponent e, s = whole ++ rest ++ exponent /\
  all_digits whole /\ all_digits fraction /\ whole ++ fraction <> [] /\ ((rest = [] /\ fraction = []) \/ rest = txt "." ++ fraction) /\ exponent_text exponent e /\
  m = natural (whole ++ fraction) /\ k = (e - Z.of_nat (length fraction))%Z.
Proof.
  split.
  - unfold parse_number. destruct (span_spec s) as (r & E & Es & Hd & _). rewrite E. set (whole := fst (span_digits s)) in *. clearbody whole. clear E.
    assert (Hf : exists rest fraction r', match r with "."%char :: s' => span_digits s' | _ => ([], r) end = (fraction, r') /\ r = rest ++ r' /\ forallb is_digit fraction = true /\ ((rest = [] /\ fraction = []) \/ rest = txt "." ++ fraction)).
    { destruct r as [|c r]; [exists [], [], []; repeat split; auto|]. destruct (Ascii.eqb_spec c ".") as [->|Hc].
      - destruct (span_spec r) as (r' & E & Er & Hd' & _). rewrite E. exists (txt "." ++ fst (span_digits r)), (fst (span_digits r)), r'. split; [reflexivity|]. split; [cbn [txt list_ascii_of_string app]; congruence|]. split; [exact Hd'|]. right. reflexivity.
      - exists [], [], (c :: r). split; [destruct c as [[] [] [] [] [] [] [] []]; try reflexivity; congruence|]. repeat split; auto. }
    destruct Hf as (rest & fraction & r' & Ef & Er & Hfd & Hrest). rewrite Ef. destruct (whole ++ fraction) as [|c0 ds] eqn:Ewf; [discriminate|]. rewrite <- Ewf.
    assert (Hne : whole ++ fraction <> []) by (rewrite Ewf; discriminate).
    destruct r' as [|c r'].
    + intros H. injection H as <- <-. exists whole, rest, fraction, [], 0%Z. split; [congruence|]. split; [apply digits_all; exact Hd|]. split; [apply digits_all; exact Hfd|]. split; [exact Hne|]. split; [exact Hrest|]. split; [constructor|]. rewrite natural_is. split; [reflexivity|lia].
    + destruct (Ascii.eqb c "e" || Ascii.eqb c "E")%bool eqn:Ec; [|discriminate]. destruct (parse_exponent r') as [e|] eqn:Ee; [|discriminate]. intros H. injection H as <- <-.
      apply parse_exponent_iff in Ee. destruct Ee as (sign & negative & ds' & -> & Hs & Hds & Hnds & ->).
      exists whole, rest, fraction, (c :: sign ++ ds'), (if negative then - natural ds' else natural ds')%Z. split; [congruence|]. split; [apply digits_all; exact Hd|]. split; [apply digits_all; exact Hfd|]. split; [exact Hne|]. split; [exact Hrest|]. split.
      * constructor; try assumption. apply orb_prop in Ec. destruct Ec as [Ec|Ec]; apply Ascii.eqb_eq in Ec; auto.
      * rewrite natural_is. auto.
  - intros (whole & rest & fraction & exponent & e & -> & Hw & Hf & Hne & Hrest & He & -> & ->). apply digits_all in Hw, Hf.
    assert (Hexp : forall c x, exponent = c :: x -> is_digit c = false /\ c <> "."%char) by (intros c x ->; inversion He as [|letter sign negative ds [->| ->] H1 H2 H3 H4]; subst; split; [reflexivity|discriminate|reflexivity|discriminate]).
    assert (Hend : match whole ++ fraction with [] => None | digits => match exponent with [] => Some (digits_value digits, (- Z.of_nat (length fraction))%Z) | c :: s => if (Ascii.eqb c "e" || Ascii.eqb c "E")%bool then match parse_exponent s with Some e => Some (digits_value digits, (e - Z.of_nat (length fraction))%Z) | None => None end else None end end = Some (natural (whole ++ fraction), (e - Z.of_nat (length fraction))%Z)).
    { destruct (whole ++ fraction) as [|c0 ds] eqn:Ewf; [contradiction|]. rewrite natural_is. inversion He as [|letter sign negative ds' Hl Hs Hds Hnds E1 E2]; subst.
      - reflexivity.
      - assert (Ee : parse_exponent (sign ++ ds') = Some (if negative then - natural ds' else natural ds')%Z) by (apply parse_exponent_iff; exists sign, negative, ds'; auto). rewrite Ee. destruct Hl as [->| ->]; reflexivity. }
    unfold parse_number. destruct Hrest as [[-> ->]| ->].
    + cbn [app]. rewrite span_digits_app; [|exact Hw|intros c x Hx; apply (Hexp c x Hx)].
      cbv iota beta. match goal with |- match ?t with (_, _) => _ end = _ => assert (Em : t = ([], exponent)) end.
      { destruct exponent as [|c x]; [reflexivity|]. destruct (Hexp c x eq_refl) as [_ Hc]. destruct c as [[] [] [] [] [] [] [] []]; try reflexivity; congruence. }
      rewrite Em. exact Hend.
    + rewrite <- app_assoc. change (txt "." ++ fraction ++ exponent) with ("."%char :: (fraction ++ exponent)). rewrite span_digits_app; [|exact Hw|intros c x Hx; injection Hx as <- _; reflexivity].
      cbv iota. rewrite span_digits_app; [|exact Hf|intros c x Hx; apply (Hexp c x Hx)]. exact Hend.
Qed.

Lemma number_head s m k : parse_number s = Some (m, k) -> forall c s', s = c :: s' -> c <> "-"%char /\ c <> "+"%char.
Proof.
  intros E c s' ->. split; intros ->; discriminate E.
Qed.

Lemma numeral_iff t negative v : numeral t negative v <-> exists m k, fst (cut_sign t) = negative /\ parse_number (snd (cut_sign t)) = Some (m, k) /\ (0 <= m)%Z /\ v = dec m k.
Proof.
  split.
  - intros H. inversion H as [sign neg whole rest fraction exponent e Hs Hw Hf Hne Hrest He E1 E2 E3]; subst.
    assert (Ep : parse_number (whole ++ rest ++ exponent) = Some (natural (whole ++ fraction), (e - Z.of_nat (length fraction))%Z)) by (apply parse_number_iff; exists whole, rest, fraction, exponent, e; auto 10).
    rewrite (cut_sign_app sign negative _ Hs (number_head _ _ _ Ep)). cbn [fst snd]. eexists _, _. split; [reflexivity|]. split; [exact Ep|]. split; [|unfold dec; rewrite power10; reflexivity].
    rewrite natural_is. apply digits_value_range. rewrite forallb_app. apply digits_all in Hw, Hf. rewrite Hw, Hf. reflexivity.
  - intros (m & k & En & Ep & _ & ->). destruct (cut_sign_spec t) as (sign & Hs & Et). rewrite En in Hs. apply parse_number_iff in Ep. destruct Ep as (whole & rest & fraction & exponent & e & Es & Hw & Hf & Hne & Hrest & He & -> & ->).
    rewrite Et, Es. unfold dec. rewrite <- power10. constructor; assumption.
Qed.

Lemma nearest_decimal negative m k : (0 <= m)%Z -> nearest (decimal64 negative m k) negative (dec m k).
Proof.
  intros Hm. unfold nearest. cbv zeta. change (FLT_exp (-1074) 53) with (SpecFloat.fexp 53 1024). change ZnearestE with (BinarySingleNaN.round_mode BinarySingleNaN.mode_NE).
  destruct (decimal64_spec negative m k Hm) as [(L & F & V & S)|(L & E)]; split; intros L'; try lra; [|exact E]. split; [exact F|]. split; [exact V|exact S].
Qed.
Lemma nearest_unique x y negative v : nearest x negative v -> nearest y negative v -> x = y.
Proof.
  unfold nearest. cbv zeta. intros [H1 H2] [K1 K2]. destruct (Rlt_or_le (round radix2 (FLT_exp (-1074) 53) ZnearestE v) (bpow radix2 1024)) as [L|L].
  - destruct (H1 L) as (F & V & S), (K1 L) as (F' & V' & S'). apply (B2R_Bsign_inj 53 1024); [exact F|exact F'|congruence|congruence].
  - rewrite (H2 L), (K2 L). reflexivity.
Qed.

Lemma text_eqb_eq a : forall b, text_eqb a b = true <-> a = b.
Proof.
  induction a as [|c a IH]; intros [|d b]; cbn; split; intros H; try reflexivity; try discriminate.
  - apply andb_prop in H. destruct H as [H1 H2]. apply Ascii.eqb_eq in H1. apply IH in H2. congruence.
  - injection H as -> ->. rewrite Ascii.eqb_refl. cbn. apply IH. reflexivity.
Qed.
Lemma word_start word : map lower word = txt "inf" \/ map lower word = txt "infinity" \/ map lower word = txt "nan" -> exists c r, word = c :: r /\ is_digit c = false /\ c <> "."%char /\ c <> "-"%char /\ c <> "+"%char.
Proof.
  destruct word as [|c r]; [intros [|[|]]; discriminate|]. intros H. exists c, r. split; [reflexivity|]. assert (Hc : lower c = "i"%char \/ lower c = "n"%char) by (destruct H as [H|[H|H]]; cbn [map txt list_ascii_of_string] in H; injection H as H _; auto).
  repeat split; [destruct (is_digit c) eqn:E; [|reflexivity]; exfalso; destruct c as [[] [] [] [] [] [] [] []]; try discriminate E; destruct Hc; discriminate|..]; intros ->; destruct Hc; discriminate.
Qed.
Lemma word_no_number word : map lower word = txt "inf" \/ map lower word = txt "infinity" \/ map lower word = txt "nan" -> parse_number word = None.
Proof.
  intros H. destruct (word_start word H) as (c & r & -> & Hd & Hp & _). unfold parse_number. cbn [span_digits]. rewrite Hd. destruct c as [[] [] [] [] [] [] [] []]; try reflexivity; congruence.
Qed.

(** What is read as which double: the decimal numbers, rounded, and the words for infinity and NaN,
    in small or capital letters; any other text is refused. *)
Theorem C68_reads : forall t x, read_f64 t = Some x <->
  (exists negative v, numeral t negative v /\ nearest x negative v) \/
  (exists sign negative word, t = sign ++ word /\
    ((sign = [] /\ negative = false) \/ (sign = txt "+" /\ negative = false) \/ (sign = txt "-" /\ negative = true)) /\
    ((map lower word = txt "inf" \/ map lower word = txt "infinity") /\ x = B754_infinity 53 1024 negative \/
     map lower word = txt "nan" /\ x = b64_of_bits (if negative then 18444492273895866368 else 9221120237041090560))).
Proof.
  intros t x. rewrite read_f64_cut. split.
  - destruct (cut_sign_spec t) as (sign & Hs & Et). destruct (cut_sign t) as [negative s] eqn:Ec. cbn [fst snd] in *. destruct (parse_number s) as [[m k]|] eqn:Ep; intros E.
    + left. injection E as <-. exists negative, (dec m k).
      assert (Hm : (0 <= m)%Z). { apply parse_number_iff in Ep. destruct Ep as (whole & rest & fraction & exponent & e & _ & Hw & Hf & _ & _ & _ & -> & _). rewrite natural_is. apply digits_value_range. rewrite forallb_app. apply digits_all in Hw, Hf. rewrite Hw, Hf. reflexivity. }
      split; [|apply nearest_decimal; exact Hm]. apply numeral_iff. exists m, k. rewrite Ec. auto.
    + right. exists sign, negative, s. split; [exact Et|]. split; [exact Hs|]. unfold parse_inf_nan in E.
      destruct (text_eqb (map lower s) (txt "inf")) eqn:E1; [apply text_eqb_eq in E1; cbn [orb] in E; left; split; [auto|congruence]|].
      destruct (text_eqb (map lower s) (txt "infinity")) eqn:E2; [apply text_eqb_eq in E2; cbn [orb] in E; left; split; [auto|congruence]|]. cbn [orb] in E.
      destruct (text_eqb (map lower s) (txt "nan")) eqn:E3; [apply text_eqb_eq in E3; right; split; [auto|congruence]|discriminate].
  - intros [(negative & v & Hn & Hx)|(sign & negative & word & -> & Hs & Hw)].
    + apply numeral_iff in Hn. destruct Hn as (m & k & En & Ep & Hm & ->). destruct (cut_sign t) as [neg s]. cbn [fst snd] in *. subst neg. rewrite Ep. f_equal. apply (nearest_unique _ _ negative (dec m k)); [apply nearest_decimal; exact Hm|exact Hx].
    + assert (Hword : map lower word = txt "inf" \/ map lower word = txt "infinity" \/ map lower word = txt "nan") by tauto.
      rewrite (cut_sign_app sign negative word Hs) by (intros c s' E; destruct (word_start word Hword) as (c' & r & E' & _ & _ & H1 & H2); rewrite E in E'; injection E' as -> _; auto).
      rewrite (word_no_number word Hword). unfold parse_inf_nan. destruct Hw as [[[Hw|Hw] ->]|[Hw ->]]; rewrite Hw; reflexivity.
Qed.
Print Assumptions C68_reads.

(** ** Printing *)
(** What is printed for a double other than NaN is read as this double. *)
Theorem C68_round_trip : forall x, is_nan 53 1024 x = false -> read_f64 (show_f64 x) = Some x.
Proof. intros x Hx. destruct (is_finite 53 1024 x) eqn:F; [apply read_show; exact F|]. destruct x as [s|s|s pl H|s m e H]; try discriminate; destruct s; reflexivity. Qed.
Print Assumptions C68_round_trip.

(** No digits of a number are lost by counting. *)
Lemma before_e_app a b : forallb is_digit a = true -> before_e (a ++ b) = a ++ before_e b.
Proof.
  induction a as [|c a IH]; intros H; [reflexivity|]. cbn in H. apply andb_prop in H. destruct H as [Hc Ha]. cbn [app before_e]. rewrite IH by exact Ha.
  destruct c as [[] [] [] [] [] [] [] []]; try discriminate Hc; reflexivity.
Qed.
Lemma filter_all {A} f (l : list A) : forallb f l = true -> filter f l = l.
Proof. induction l as [|x l IH]; intros H; [reflexivity|]. cbn in *. apply andb_prop in H. destruct H as [-> Hl]. rewrite IH by exact Hl. reflexivity. Qed.
Lemma counted t negative s whole rest fraction exponent e : cut_sign t = (negative, s) -> s = whole ++ rest ++ exponent -> forallb is_digit whole = true -> forallb is_digit fraction = true ->
  (rest = [] /\ fraction = []) \/ rest = txt "." ++ fraction -> exponent_text exponent e -> filter is_digit (before_e t) = whole ++ fraction.
Proof.
  intros Ec -> Hw Hf Hrest He. destruct (cut_sign_spec t) as (sign & Hs & Et). rewrite Ec in *. cbn [fst snd] in *.
  assert (Ee : before_e exponent = []) by (inversion He as [|l sg ng ds [->| ->] H1 H2 H3 H4]; reflexivity).
  assert (Hd : filter is_digit (before_e (whole ++ rest ++ exponent)) = whole ++ fraction).
  { rewrite before_e_app, filter_app, (filter_all is_digit whole) by exact Hw. f_equal. destruct Hrest as [[-> ->]| ->]; [cbn [app]; rewrite Ee; reflexivity|].
    rewrite <- app_assoc. change (txt "." ++ fraction ++ exponent) with ("."%char :: (fraction ++ exponent)). change (before_e ("."%char :: (fraction ++ exponent))) with ("."%char :: before_e (fraction ++ exponent)).
    rewrite before_e_app by exact Hf. rewrite Ee, app_nil_r. cbn [filter]. change (is_digit "."%char) with false. apply filter_all. exact Hf. }
  rewrite Et. destruct Hs as [[-> _]|[[-> _]|[-> _]]]; exact Hd.
Qed.

Lemma skip_zeros_spec s : exists z, s = repeat "0"%char z ++ skip_zeros s /\ forall c r, skip_zeros s = c :: r -> c <> "0"%char.
Proof.
  induction s as [|c s (z & E & H)]; [exists 0%nat; split; [reflexivity|discriminate]|]. cbn [skip_zeros]. destruct (Ascii.eqb_spec c "0") as [->|Hc].
  - exists (S z). split; [cbn; congruence|exact H].
  - exists 0%nat. split; [reflexivity|]. intros c' r Hr. congruence.
Qed.
Lemma skip_zeros_app z s : skip_zeros (repeat "0"%char z ++ s) = skip_zeros s.
Proof. induction z as [|z IH]; [reflexivity|exact IH]. Qed.
Lemma skip_zeros_length s : (length (skip_zeros s) <= length s)%nat.
Proof. induction s as [|c s IH]; [auto|]. cbn. destruct (Ascii.eqb c "0"); cbn; lia. Qed.

(** a number with [significant] digits *)
Lemma significant_value t negative v : numeral t negative v -> 0 < v -> exists m k, (0 < m < 10 ^ Z.of_nat (significant t))%Z /\ v = dec m k.
Proof.
  intros Hn Hv. apply numeral_iff in Hn. destruct Hn as (m & k & En & Ep & Hm & ->). destruct (cut_sign t) as [neg s] eqn:Ec. cbn [fst snd] in *. subst neg.
  apply parse_number_iff in Ep. destruct Ep as (whole & rest & fraction & exponent & e & Es & Hw & Hf & Hne & Hrest & He & -> & Ek). apply digits_all in Hw, Hf.
  unfold significant. rewrite (counted t negative s whole rest fraction exponent e Ec Es Hw Hf Hrest He). set (ds := whole ++ fraction) in *.
  assert (Hds : forallb is_digit ds = true) by (unfold ds; rewrite forallb_app, Hw, Hf; reflexivity). clearbody ds.
  destruct (skip_zeros_spec (rev ds)) as (z1 & E1 & _). set (a := skip_zeros (rev ds)) in *. clearbody a. destruct (skip_zeros_spec (rev a)) as (z2 & E2 & _). set (b := skip_zeros (rev a)) in *. clearbody b.
  assert (Ed : ds = repeat "0"%char z2 ++ b ++ repeat "0"%char z1) by (rewrite <- (rev_involutive ds), E1, rev_app_distr, rev_zeros, E2, <- app_assoc; reflexivity).
  assert (Hb : forallb is_digit b = true) by (rewrite Ed, !forallb_app in Hds; apply andb_prop in Hds; destruct Hds as [_ Hds]; apply andb_prop in Hds; apply Hds).
  pose proof (digits_value_range b Hb) as Rb.
  assert (Ev : natural ds = (digits_value b * 10 ^ Z.of_nat z1)%Z) by (rewrite natural_is, Ed, !digits_value_app, !zeros_value, !repeat_length; lia).
  exists (digits_value b), (k + Z.of_nat z1)%Z. rewrite Ev, dec_scale in * by lia. split; [|reflexivity]. split; [|apply Rb].
  destruct (Z.eq_dec (digits_value b) 0) as [E0|]; [|lia]. exfalso. rewrite E0 in Hv. unfold dec in Hv. rewrite Rmult_0_l in Hv. lra.
Qed.

Lemma placed_digits d exp : forallb is_digit d = true -> (forall c r, rev d = c :: r -> c <> "0"%char) -> (length (skip_zeros (rev (skip_zeros (rev (filter is_digit (before_e (place_point d exp))))))) <= length d)%nat.
Proof.
  intros Hd Hl. assert (E : exists z1 z2, filter is_digit (before_e (place_point d exp)) = repeat "0"%char z1 ++ d ++ repeat "0"%char z2).
  { unfold place_point. destruct (exp <=? 0)%Z; [|destruct (exp <? Z.of_nat (length d))%Z].
    - exists (S (Z.to_nat (- exp))), 0%nat. cbn [repeat]. rewrite app_nil_r. change (txt "0." ++ repeat "0"%char (Z.to_nat (- exp)) ++ d) with ("0"%char :: "."%char :: (repeat "0"%char (Z.to_nat (- exp)) ++ d)).
      set (l := repeat "0"%char (Z.to_nat (- exp)) ++ d). change (before_e ("0"%char :: "."%char :: l)) with ("0"%char :: "."%char :: before_e l). cbn [filter]. change (is_digit "0"%char) with true. change (is_digit "."%char) with false. cbv iota.
      assert (Hl' : forallb is_digit l = true) by (unfold l; rewrite forallb_app, zeros_digits; exact Hd). rewrite <- (app_nil_r l), before_e_app by exact Hl'. cbn [before_e]. rewrite app_nil_r, filter_all by exact Hl'. reflexivity.
    - exists 0%nat, 0%nat. cbn [repeat app]. rewrite app_nil_r. rewrite <- (firstn_skipn (Z.to_nat exp) d), forallb_app in Hd. apply andb_prop in Hd. destruct Hd as [H1 H2]. rewrite before_e_app by exact H1. change (txt "." ++ skipn (Z.to_nat exp) d) with ("."%char :: skipn (Z.to_nat exp) d).
      change (before_e ("."%char :: skipn (Z.to_nat exp) d)) with ("."%char :: before_e (skipn (Z.to_nat exp) d)). rewrite <- (app_nil_r (skipn (Z.to_nat exp) d)), before_e_app by exact H2. cbn [before_e]. rewrite app_nil_r, filter_app. cbn [filter]. change (is_digit "."%char) with false. rewrite !filter_all by assumption. apply firstn_skipn.
    - exists 0%nat, (Z.to_nat (exp - Z.of_nat (length d))). cbn [repeat app]. assert (Hl' : forallb is_digit (d ++ repeat "0"%char (Z.to_nat (exp - Z.of_nat (length d)))) = true) by (rewrite forallb_app, zeros_digits, Hd; reflexivity).
      rewrite <- (app_nil_r (d ++ _)), before_e_app by exact Hl'. cbn [before_e]. rewrite app_nil_r, filter_all by exact Hl'. reflexivity. }
  destruct E as (z1 & z2 & ->). rewrite !rev_app_distr, rev_zeros, <- app_assoc, skip_zeros_app.
  assert (Es : skip_zeros (rev d ++ rev (repeat "0"%char z1)) = rev d ++ rev (repeat "0"%char z1) \/ d = []).
  { destruct (rev d) as [|c r] eqn:Er; [right; rewrite <- (rev_involutive d), Er; reflexivity|left]. specialize (Hl c r eq_refl). cbn [app skip_zeros]. apply Ascii.eqb_neq in Hl. rewrite Hl. reflexivity. }
  destruct Es as [Es| ->].
  - rewrite Es, <- rev_app_distr, rev_involutive, skip_zeros_app. apply skip_zeros_length.
  - cbn [rev app length]. rewrite rev_zeros, <- (app_nil_r (repeat _ z1)), skip_zeros_app. auto.
Qed.

(** the number of digits printed for a decimal *)
Lemma shown_digits (s : bool) m k n : (0 < m <= 10 ^ n)%Z -> (1 <= n)%Z -> (Z.of_nat (significant ((if s then txt "-" else []) ++ show_decimal m k)) <= n)%Z.
Proof.
  intros Hm Hn. destruct (show_decimal_spec m k ltac:(lia)) as (d & -> & Hne & Hd & _ & Eds & Hl). pose proof (placed_digits d (k + length10 m) Hd Hl) as L.
  replace (significant ((if s then txt "-" else []) ++ place_point d (k + length10 m))) with (significant (place_point d (k + length10 m))) by (destruct s; reflexivity). fold (significant (place_point d (k + length10 m))) in L.
  enough (Z.of_nat (length d) <= n)%Z by lia. destruct (digits_of_spec m ltac:(lia)) as (Hd1 & Hv & _ & Hr). specialize (Hr ltac:(lia)). destruct (Z.eq_dec m (10 ^ n)) as [Em|Hlt].
  - assert (Hz : exists z, digits_of m = d ++ repeat "0"%char z /\ length10 m = (Z.of_nat (length d) + Z.of_nat z)%Z) by (eexists; split; [exact Eds|unfold length10 in *; rewrite Eds at 1; rewrite app_length, repeat_length; lia]).
    destruct Hz as (z & Ez & El). rewrite Ez, digits_value_app, zeros_value, repeat_length, Z.add_0_r in Hv.
    assert (Hlen : length10 m = (n + 1)%Z).
    { assert (P1 : (10 ^ n < 10 ^ length10 m)%Z) by (rewrite <- Em at 1; apply Hr). assert (P2 : (10 ^ (length10 m - 1) <= 10 ^ n)%Z) by (rewrite <- Em; apply Hr).
      apply Z.pow_lt_mono_r_iff in P1; [|lia|unfold length10; lia]. apply Z.pow_le_mono_r_iff in P2; [|lia|lia]. lia. }
    destruct (rev d) as [|c r] eqn:Er; [exfalso; apply Hne; rewrite <- (rev_involutive d), Er; reflexivity|]. specialize (Hl c r eq_refl).
    assert (Edd : d = rev r ++ [c]) by (rewrite <- (rev_involutive d), Er; reflexivity).
    assert (Hc : is_digit c = true) by (rewrite Edd, forallb_app in Hd; apply andb_prop in Hd; destruct Hd as [_ Hd]; cbn in Hd; apply andb_prop in Hd; apply Hd).
    assert (Hcv : (0 < digit_value c < 10)%Z).
    { pose proof (digit_value_range c Hc). enough (digit_value c <> 0)%Z by lia. intros E0. apply Hl. unfold digit_value in E0. rewrite <- (ascii_N_embedding c). replace (N_of_ascii c) with 48%N by lia. reflexivity. }
    rewrite Edd, digits_value_app in Hv. cbn [length] in Hv. rewrite Em in Hv. assert (Hzn : (Z.of_nat z >= n)%Z).
    { destruct (Z_ge_lt_dec (Z.of_nat z) n) as [|Hzl]; [assumption|]. exfalso. replace n with (Z.of_nat z + 1 + (n - Z.of_nat z - 1))%Z in Hv by lia. rewrite !Z.pow_add_r in Hv by lia. pose proof (Z.pow_pos_nonneg 10 (Z.of_nat z) ltac:(lia) ltac:(lia)) as P. set (q := (10 ^ Z.of_nat z)%Z) in *. clearbody q.
      change (10 ^ Z.of_nat 1)%Z with 10%Z in Hv. change (10 ^ 1)%Z with 10%Z in Hv. set (w := (10 ^ (n - Z.of_nat z - 1))%Z) in *. clearbody w. change (digits_value [c]) with (digit_value c) in Hv.
      assert (Hq : (digits_value (rev r) * 10 + digit_value c = 10 * w)%Z) by (apply (Z.mul_reg_r _ _ q); [lia|rewrite Hv; ring]). lia. }
    lia.
  - assert (Hl2 : (length10 m <= n)%Z). { assert (10 ^ (length10 m - 1) < 10 ^ n)%Z by lia. assert (length10 m - 1 < n)%Z by (apply (Z.pow_lt_mono_r_iff 10); [lia|lia|assumption]). lia. }
    enough (Z.of_nat (length d) <= length10 m)%Z by lia. unfold length10. rewrite Eds, app_length. lia.
Qed.

(** a text that is read as a finite double is a number *)
Lemma finite_numeral t x : is_finite 53 1024 x = true -> read_f64 t = Some x -> exists v, numeral t (Bsign 53 1024 x) v /\ round radix2 (SpecFloat.fexp 53 1024) (BinarySingleNaN.round_mode BinarySingleNaN.mode_NE) v = Rabs (B2R 53 1024 x) /\ 0 <= v.
Proof.
  intros Hx E. apply C68_reads in E. destruct E as [(negative & v & Hn & H1 & H2)|(sign & negative & word & _ & _ & [[_ ->]|[_ ->]])]; [|discriminate Hx|destruct negative; discriminate Hx].
  assert (Hv : 0 <= v). { apply numeral_iff in Hn. destruct Hn as (m & k & _ & _ & Hm & ->). unfold dec. apply Rmult_le_pos; [apply IZR_le; exact Hm|apply bpow_ge_0]. }
  change (FLT_exp (-1074) 53) with (SpecFloat.fexp 53 1024) in *. change ZnearestE with (BinarySingleNaN.round_mode BinarySingleNaN.mode_NE) in *.
  assert (Hr : 0 <= round radix2 (SpecFloat.fexp 53 1024) (BinarySingleNaN.round_mode BinarySingleNaN.mode_NE) v) by (apply RN_ge0; exact Hv).
  destruct (Rlt_or_le (round radix2 (SpecFloat.fexp 53 1024) (BinarySingleNaN.round_mode BinarySingleNaN.mode_NE) v) (bpow radix2 1024)) as [L|L].
  - destruct (H1 L) as (_ & V & S). exists v. rewrite S. split; [exact Hn|]. split; [|exact Hv]. rewrite V. destruct negative; [rewrite Rabs_Ropp|]; rewrite Rabs_pos_eq; auto.
  - rewrite (H2 L) in Hx. discriminate.
Qed.

Lemma magnitude_abs x : r64 (magnitude x) = Rabs (B2R 53 1024 x).
Proof. unfold r64, magnitude. apply B2R_Babs. Qed.
Lemma numeral_pos x v : is_finite_strict 53 1024 x = true -> round radix2 (SpecFloat.fexp 53 1024) (BinarySingleNaN.round_mode BinarySingleNaN.mode_NE) v = Rabs (B2R 53 1024 x) -> 0 <= v -> 0 < v.
Proof.
  intros Hx E Hv. destruct Hv as [Hv|<-]; [exact Hv|]. exfalso. rewrite round_0 in E by (auto with typeclass_instances). symmetry in E. destruct (Req_dec (B2R 53 1024 x) 0) as [E0|E0]; [|apply Rabs_no_R0 in E0; contradiction].
  destruct x as [s|s|s pl H|s m e H]; try discriminate. unfold B2R, F2R in E0. cbn [Fnum Fexp] in E0. apply Rmult_integral in E0. destruct E0 as [E0|E0]; [|pose proof (bpow_gt_0 radix2 e); lra]. apply eq_IZR in E0. destruct s; discriminate.
Qed.

(** No number that is read as the same double has fewer digits than the printed one. *)
Theorem C68_shortest : forall x t, is_finite 53 1024 x = true -> read_f64 t = Some x -> (significant (show_f64 x) <= significant t)%nat.
Proof.
  intros x t Hx E. destruct (finite_numeral t x Hx E) as (v & Hn & Hr & Hv). destruct x as [s|s|s pl H|s m e H]; try discriminate Hx; [destruct s; apply Nat.le_0_l|].
  destruct (show_finite_least s m e H) as (m' & k' & n' & Es & Hm & Hn' & _ & Hless & _). pose proof (shown_digits s m' k' n' Hm Hn') as L. rewrite <- Es in L.
  destruct (significant_value t _ v Hn (numeral_pos (B754_finite 53 1024 s m e H) v eq_refl Hr Hv)) as (m'' & k'' & Hm'' & Ev). destruct (Nat.le_gt_cases (significant (show_f64 (B754_finite 53 1024 s m e H))) (significant t)) as [|Hlt]; [assumption|]. exfalso.
  apply (Hless m'' k''); [|rewrite <- Ev, magnitude_abs; exact Hr]. split; [lia|]. eapply Z.lt_le_trans; [apply Hm''|]. apply Z.pow_le_mono_r; lia.
Qed.
Print Assumptions C68_shortest.

(** Of the numbers with as many digits that are read as the same double none is closer to it than the printed one. *)
Theorem C68_closest : forall x t negative v, is_finite 53 1024 x = true -> read_f64 t = Some x -> numeral t negative v -> (significant t <= significant (show_f64 x))%nat ->
  exists v', numeral (show_f64 x) negative v' /\ Rabs (v' - Rabs (B2R 53 1024 x)) <= Rabs (v - Rabs (B2R 53 1024 x)).
Proof.
  intros x t negative v Hx E Hnv Hl. destruct (finite_numeral t x Hx E) as (v0 & Hn & Hr & Hv).
  assert (Hsame : negative = Bsign 53 1024 x /\ v = v0).
  { apply numeral_iff in Hnv, Hn. destruct Hnv as (m1 & k1 & En1 & Ep1 & _ & ->), Hn as (m2 & k2 & En2 & Ep2 & _ & ->). rewrite Ep1 in Ep2. injection Ep2 as -> ->. split; [congruence|reflexivity]. }
  destruct Hsame as [-> ->]. destruct x as [s|s|s pl H|s m e H]; try discriminate Hx.
  - exists 0. split; [|cbn [B2R]; rewrite Rabs_R0, Rminus_0_r, Rabs_R0; apply Rabs_pos]. apply numeral_iff. exists 0%Z, 0%Z. destruct s; (split; [reflexivity|]); (split; [reflexivity|]); (split; [lia|]); unfold dec; ring.
  - destruct (show_finite_least s m e H) as (m' & k' & n' & Es & Hm & Hn' & _ & _ & Hclose). pose proof (shown_digits s m' k' n' Hm Hn') as L. rewrite <- Es in L.
    destruct (significant_value t _ v0 Hn (numeral_pos (B754_finite 53 1024 s m e H) v0 eq_refl Hr Hv)) as (m'' & k'' & Hm'' & Ev). exists (dec m' k'). rewrite magnitude_abs in Hclose. split.
    + rewrite Es. apply numeral_iff. destruct (parse_shown m' k' ltac:(lia)) as (mm & kk & Ep & H0 & Evv). exists mm, kk. destruct (shown_head m' k' ltac:(lia)) as (c & r & Ec & Hc). rewrite Ec in *.
      assert (Hcut : cut_sign ((if s then txt "-" else []) ++ c :: r) = (s, c :: r)) by (apply cut_sign_app; [destruct s; unfold is_sign; auto|intros c' s' Ecc; injection Ecc as <- _; apply digit_no_sign; exact Hc]).
      split; [exact (f_equal fst Hcut)|]. split; [|split; [exact H0|congruence]]. etransitivity; [|exact Ep]. exact (f_equal (fun p => parse_number (snd p)) Hcut).
    + rewrite Ev in *. apply Hclose; [|exact Hr]. split; [lia|]. eapply Z.lt_le_trans; [apply Hm''|]. apply Z.pow_le_mono_r; lia.
Qed.
Print Assumptions C68_closest.

(** What is printed for a finite double: digits, perhaps a point, perhaps a minus sign; no exponent. *)
Lemma shown_chars m k : (0 < m)%Z -> forallb number_char (show_decimal m k) = true.
Proof.
  intros Hm. destruct (show_decimal_spec m k Hm) as (d & -> & _ & Hd & _).
  assert (Hn : forall l, forallb is_digit l = true -> forallb number_char l = true) by (intros l Hl; rewrite forallb_forall in *; intros c Hc; unfold number_char; rewrite (Hl c Hc); reflexivity).
  unfold place_point. destruct (_ <=? 0)%Z; [|destruct (_ <? _)%Z].
  - rewrite !forallb_app, (Hn d Hd), (Hn _ (zeros_digits _)). reflexivity.
  - rewrite <- (firstn_skipn (Z.to_nat (k + length10 m)) d), forallb_app in Hd. apply andb_prop in Hd. destruct Hd as [H1 H2]. rewrite !forallb_app, (Hn _ H1), (Hn _ H2). reflexivity.
  - rewrite forallb_app, (Hn d Hd), (Hn _ (zeros_digits _)). reflexivity.
Qed.
Theorem C68_characters : prints_numbers (fun x => is_finite 53 1024 x = true) show_f64 read_f64.
Proof.
  intros x Hx. split; [apply read_show; exact Hx|]. destruct x as [s|s|s pl H|s m e H]; try discriminate Hx; [destruct s; reflexivity|].
  destruct (show_finite s m e H) as (m' & k' & -> & Hm & _). rewrite forallb_app, shown_chars by exact Hm. destruct s; reflexivity.
Qed.
Print Assumptions C68_characters.

(** ** Non-vacuity *)
(** 0.1, a sum that is not 0.3, and a number halfway between two doubles *)
Example C68_applies :
  (option_map bits_of_b64 (read_f64 (txt "0.1")) = Some 4591870180066957722%Z /\ option_map bits_of_b64 (read_f64 (txt "1.00000000000000005e-1")) = Some 4591870180066957722%Z /\
    is_finite 53 1024 (b64_of_bits 4591870180066957722) = true /\ show_f64 (b64_of_bits 4591870180066957722) = txt "0.1") /\
  (option_map bits_of_b64 (read_f64 (txt "+.30000000000000004")) = Some 4599075939470750516%Z /\ show_f64 (b64_of_bits 4599075939470750516) = txt "0.30000000000000004" /\ significant (txt "0.30000000000000004") = 17%nat) /\
  option_map show_f64 (read_f64 (txt "9007199254740993")) = Some (txt "9007199254740992") /\
  numeral (txt "-12.50e3") true 12500 /\
  read_f64 (txt "1e") = None /\ read_f64 (txt "1,5") = None /\ read_f64 (txt "") = None.
Proof.
  split; [vm_compute; auto|]. split; [vm_compute; auto|]. split; [vm_compute; reflexivity|].
  split; [|vm_compute; auto]. replace 12500%R with (dec 1250 1) by (unfold dec; cbn; lra). apply numeral_iff. exists 1250%Z, 1%Z. split; [reflexivity|]. split; [reflexivity|]. split; [lia|reflexivity].
Qed.
