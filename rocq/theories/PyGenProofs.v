(** The Python generators: the numbers they write, and that their text is a document.  (Proofs.) *)
From Coq Require Import Ascii String ZArith NArith Arith Bool List Lia Reals Lra.
From Flocq Require Import Core IEEE754.Binary IEEE754.Bits.
From Flocq Require IEEE754.BinarySingleNaN.
From Verif Require Import Num NumB64 F64Facts Base Data Text Xml TextSpec XmlProofs DecodeProofs F64Text F64TextProofs GeneratorText GeneratorTextProofs PyGen.
Import ListNotations.
Local Notation mode_NE := BinarySingleNaN.mode_NE.
Local Notation fexp := (SpecFloat.fexp 53 1024).
Local Notation RN := (round radix2 fexp (BinarySingleNaN.round_mode mode_NE)).

(** ** Numbers *)
Section Numbers.
Local Open Scope Z_scope.
(** [m * 10^k] has sixteen digits and no decimal with as many is closer to [v]; of two that are equally close it is the one with the even digit *)
Definition closest (m k : Z) (v : R) : Prop := 10 ^ 15 <= m < 10 ^ 16 /\
  forall m' k', 0 <= m' < 10 ^ 16 ->
    (Rabs (dec m k - v) < Rabs (dec m' k' - v))%R \/ dec m' k' = dec m k \/ (Rabs (dec m k - v) = Rabs (dec m' k' - v) /\ Z.even m = true).

Section Round.
Variables (x : binary64) (num den exact : Z).
Hypothesis Hx : fin x.
Hypothesis H0 : (0 < r64 x)%R.
Hypothesis Hnum : 0 < num.
Hypothesis Hden : 0 < den.
Hypothesis Hval : (r64 x * IZR den = IZR num)%R.
Hypothesis Hexact : exact <= 0 /\ den = 2 ^ (- exact).
Let e := exponent10 num den.

Lemma above10_spec c m k : above10 (c * num) den m k = true <-> (dec m k < IZR c * r64 x)%R.
Proof.
  assert (D : (0 < IZR den)%R) by (apply IZR_lt; exact Hden). pose proof (bpow10_pos k) as B. unfold above10, dec. destruct (Z.leb_spec 0 k) as [K|K]; rewrite Z.ltb_lt; (split; intros H; [apply IZR_lt in H|apply lt_IZR]); repeat rewrite mult_IZR in *; rewrite ?pow10 in * by lia.
  - apply (Rmult_lt_reg_r (IZR den)); [exact D|]. rewrite (Rmult_assoc (IZR c)), Hval. exact H.
  - rewrite <- Hval, <- Rmult_assoc. apply Rmult_lt_compat_r; assumption.
  - apply (Rmult_lt_reg_r (bpow radix10 (- k) * IZR den)); [apply Rmult_lt_0_compat; [apply bpow10_pos|exact D]|].
    replace (IZR c * r64 x * (bpow radix10 (- k) * IZR den))%R with (IZR c * (r64 x * IZR den) * bpow radix10 (- k))%R by ring. rewrite Hval.
    replace (IZR m * bpow radix10 k * (bpow radix10 (- k) * IZR den))%R with (IZR m * IZR den * (bpow radix10 k * bpow radix10 (- k)))%R by ring. rewrite <- bpow_plus. replace (k + - k) with 0 by lia. cbn [bpow]. rewrite Rmult_1_r. exact H.
  - apply (Rmult_lt_compat_r (bpow radix10 (- k) * IZR den)) in H; [|apply Rmult_lt_0_compat; [apply bpow10_pos|exact D]].
    replace (IZR c * r64 x * (bpow radix10 (- k) * IZR den))%R with (IZR c * (r64 x * IZR den) * bpow radix10 (- k))%R in H by ring. rewrite Hval in H.
    replace (IZR m * bpow radix10 k * (bpow radix10 (- k) * IZR den))%R with (IZR m * IZR den * (bpow radix10 k * bpow radix10 (- k)))%R in H by ring. rewrite <- bpow_plus in H. replace (k + - k) with 0 in H by lia. cbn [bpow] in H. rewrite Rmult_1_r in H. exact H.
Qed.

Lemma sixteen_spec : let '(m, e') := sixteen num den in closest m (e' - 15) (r64 x) /\ (Rabs (dec m (e' - 15) - r64 x) <= / 2 * / 10 ^ 15 * r64 x)%R.
Proof.
  unfold sixteen. fold e. set (k := e - 1 - 15). replace (e - 1 - 15) with k by reflexivity. assert (Ek : k = e - 16) by (unfold k; lia).
  assert (FS : (dec (floor10 num den k) k <= r64 x < dec (floor10 num den k + 1) k)%R) by (eapply floor10_spec; eassumption). destruct FS as [F1 F2].
  assert (ES : (bpow radix10 (e - 1) <= r64 x < bpow radix10 e)%R) by (eapply exponent10_spec; eassumption). destruct ES as [E1 E2].
  assert (G : forall m' k', 0 < m' < 10 ^ 16 -> (dec m' k' <= dec (floor10 num den k) k \/ dec (floor10 num den k + 1) k <= dec m' k')%R).
  { intros m' k' Hm. rewrite Ek. unfold e. eapply (gap x num den); try eassumption; lia. }
  assert (HB : below10 (2 * num) den (2 * floor10 num den k + 1) k = true <-> (2 * r64 x < dec (2 * floor10 num den k + 1) k)%R) by (apply (below10_spec x num den) with (c := 2); eassumption).
  assert (HA : above10 (2 * num) den (2 * floor10 num den k + 1) k = true <-> (dec (2 * floor10 num den k + 1) k < 2 * r64 x)%R) by exact (above10_spec 2 (2 * floor10 num den k + 1) k).
  unfold round10. set (lo := floor10 num den k) in *. clearbody lo.
  pose proof (bpow10_pos k) as Bk.
  assert (D1 : dec (lo + 1) k = (dec lo k + bpow radix10 k)%R) by (unfold dec; rewrite plus_IZR; ring).
  assert (D2 : dec (2 * lo + 1) k = (2 * dec lo k + bpow radix10 k)%R) by (unfold dec; rewrite plus_IZR, mult_IZR; ring).
  assert (Ee : bpow radix10 (e - 1) = (bpow radix10 15 * bpow radix10 k)%R) by (rewrite <- bpow_plus; f_equal; lia).
  assert (L1 : 10 ^ 15 <= lo).
  { apply Z.lt_succ_r, lt_IZR. unfold Z.succ. apply (Rmult_lt_reg_r (bpow radix10 k)); [exact Bk|]. rewrite pow10 by lia. rewrite <- Ee. unfold dec in F2. lra. }
  assert (L2 : lo < 10 ^ 16).
  { apply lt_IZR. apply (Rmult_lt_reg_r (bpow radix10 k)); [exact Bk|]. rewrite pow10 by lia. rewrite <- bpow_plus. replace (16 + k) with e by lia. unfold dec in F1. lra. }
  assert (Q : (/ 2 * bpow radix10 k <= / 2 * / 10 ^ 15 * r64 x)%R).
  { assert (T : (10 ^ 15)%R = bpow radix10 15) by (rewrite bpow_powerRZ; reflexivity). rewrite T. rewrite Ee in E1. pose proof (bpow10_pos 15) as B15.
    rewrite Rmult_assoc. apply Rmult_le_compat_l; [lra|]. apply (Rmult_le_reg_l (bpow radix10 15)); [exact B15|]. rewrite <- Rmult_assoc, Rinv_r, Rmult_1_l by lra. exact E1. }
  assert (Main : forall m k', 10 ^ 15 <= m < 10 ^ 16 -> (Z.even (if below10 (2 * num) den (2 * lo + 1) k then lo else if above10 (2 * num) den (2 * lo + 1) k then lo + 1 else if Z.even lo then lo else lo + 1) = true -> Z.even m = true) ->
    dec m k' = dec (if below10 (2 * num) den (2 * lo + 1) k then lo else if above10 (2 * num) den (2 * lo + 1) k then lo + 1 else if Z.even lo then lo else lo + 1) k ->
    closest m k' (r64 x) /\ (Rabs (dec m k' - r64 x) <= / 2 * / 10 ^ 15 * r64 x)%R).
  { intros m k' [Hm1 Hm2] Hev Hd. set (mm := if below10 _ _ _ _ then lo else _) in *.
    assert (Alo : Rabs (dec lo k - r64 x) = (r64 x - dec lo k)%R) by (rewrite Rabs_left1; lra).
    assert (Ahi : Rabs (dec (lo + 1) k - r64 x) = (dec (lo + 1) k - r64 x)%R) by (rewrite Rabs_pos_eq; lra).
    assert (Pos : (0 < dec lo k)%R) by (unfold dec; apply Rmult_lt_0_compat; [apply IZR_lt; lia|exact Bk]).
    assert (Split : forall m' k', 0 <= m' < 10 ^ 16 -> (dec m' k' <= dec lo k /\ Rabs (dec m' k' - r64 x) = r64 x - dec m' k' \/ dec (lo + 1) k <= dec m' k' /\ Rabs (dec m' k' - r64 x) = dec m' k' - r64 x)%R).
    { intros m' k'' Hm'. destruct (Z.eq_dec m' 0) as [->|N0].
      - left. assert (Z0 : dec 0 k'' = 0%R) by (unfold dec; ring). rewrite Z0. split; [lra|]. rewrite Rabs_left1; lra.
      - destruct (G m' k'' ltac:(lia)) as [Hg|Hg]; [left|right]; (split; [exact Hg|]); [rewrite Rabs_left1; lra|rewrite Rabs_pos_eq; lra]. }
    assert (Cases : (mm = lo /\ (2 * r64 x < 2 * dec lo k + bpow radix10 k)%R) \/ (mm = lo + 1 /\ (2 * dec lo k + bpow radix10 k < 2 * r64 x)%R) \/
      (Z.even mm = true /\ (mm = lo \/ mm = lo + 1) /\ (2 * r64 x = 2 * dec lo k + bpow radix10 k)%R)).
    { unfold mm. destruct (below10 _ _ _ _) eqn:B1; [left; split; [reflexivity|]; rewrite <- D2; apply HB; reflexivity|].
      destruct (above10 _ _ _ _) eqn:B2; [right; left; split; [reflexivity|]; rewrite <- D2; apply HA; reflexivity|]. right. right.
      assert (Tie : (2 * r64 x = 2 * dec lo k + bpow radix10 k)%R).
      { rewrite <- D2. apply Rle_antisym; apply Rnot_lt_le; intros H; [apply HA in H|apply HB in H]; congruence. }
      destruct (Z.even lo) eqn:Ev; (split; [|split; [auto|exact Tie]]); [exact Ev|]. rewrite Z.add_1_r, Z.even_succ, <- Z.negb_even, Ev. reflexivity. }
    rewrite Hd. clear HA HB. split; [split; [split; assumption|]|].
    - intros m' k'' Hm'. rewrite Hd. destruct (Split m' k'' Hm') as [[S1 S2]|[S1 S2]]; rewrite S2; destruct Cases as [[-> C1]|[[-> C1]|(Ce & [C2|C2] & C1)]]; rewrite ?Alo, ?Ahi, ?C2, ?Alo, ?Ahi; try (left; lra).
      all: destruct (Rle_lt_or_eq_dec _ _ S1) as [S3|S3]; [left; lra|first [right; left; lra|right; right; split; [lra|auto]]].
    - apply Rle_trans with (/ 2 * bpow radix10 k)%R; [|exact Q]. destruct Cases as [[-> C1]|[[-> C1]|(Ce & [->| ->] & C1)]]; rewrite ?Alo, ?Ahi; lra. }
  set (mm := if below10 _ _ _ _ then lo else _) in *.
  assert (Hmm : mm = lo \/ mm = lo + 1) by (unfold mm; destruct (below10 _ _ _ _); [auto|]; destruct (above10 _ _ _ _); [auto|]; destruct (Z.even lo); auto).
  destruct (Z.eqb_spec mm (10 ^ 16)) as [T|T].
  - replace (e - 1 + 1 - 15) with (k + 1) by (unfold k; lia). apply Main; [lia|reflexivity|]. rewrite T. change (10 ^ 16) with (10 ^ 15 * 10 ^ 1). rewrite dec_scale by lia. reflexivity.
  - fold k. apply Main; [lia|auto|reflexivity].
Qed.
End Round.

Lemma sixteen_digits m : 10 ^ 15 <= m < 10 ^ 16 -> exists c ds, F64Text.digits_of m = c :: ds /\ length ds = 15%nat /\ is_digit c = true /\ forallb is_digit ds = true /\ digits_value (c :: ds) = m.
Proof.
  intros Hm. destruct (digits_of_spec m ltac:(lia)) as (H1 & H2 & H3 & H4). specialize (H4 ltac:(lia)). unfold length10 in H4.
  destruct (F64Text.digits_of m) as [|c ds]; [contradiction|]. exists c, ds. cbn [forallb] in H1. apply andb_prop in H1. destruct H1 as [Hc Hd]. split; [reflexivity|]. split; [|auto].
  cbn [length] in H4. set (n := Z.of_nat (S (length ds))) in *. assert (A : n - 1 < 16) by (apply (Z.pow_lt_mono_r_iff 10); lia). assert (B : 15 < n) by (apply (Z.pow_lt_mono_r_iff 10); lia). lia.
Qed.
Lemma parse_shown_exponent e : parse_exponent (show_exponent e) = Some e.
Proof.
  set (d := (if Z.abs e <? 10 then txt "0" else []) ++ F64Text.digits_of (Z.abs e)).
  destruct (digits_of_spec (Z.abs e) ltac:(lia)) as (H1 & H2 & H3 & _).
  assert (Hd : forallb is_digit d = true) by (unfold d; rewrite forallb_app, H1; destruct (Z.abs e <? 10); reflexivity).
  assert (Hv : digits_value d = Z.abs e) by (unfold d; rewrite digits_value_app, H2; destruct (Z.abs e <? 10); reflexivity).
  assert (Hn : d <> []) by (unfold d; intros E; apply app_eq_nil in E; apply H3, E).
  assert (Hs : span_digits d = (d, [])) by (rewrite <- (app_nil_r d) at 1; apply span_digits_app; [exact Hd|discriminate]).
  unfold show_exponent. fold d. clearbody d. destruct (Z.ltb_spec e 0).
  - change (txt "-" ++ d) with ("-"%char :: d). unfold parse_exponent. rewrite Hs. destruct d; [contradiction|]. rewrite Hv. f_equal. lia.
  - change (txt "+" ++ d) with ("+"%char :: d). unfold parse_exponent. rewrite Hs. destruct d; [contradiction|]. rewrite Hv. f_equal. lia.
Qed.
Lemma parse_scientific m e : 10 ^ 15 <= m < 10 ^ 16 -> parse_number (show_scientific m e) = Some (m, e - 15) /\ exists c r, show_scientific m e = c :: r /\ is_digit c = true.
Proof.
  intros Hm. destruct (sixteen_digits m Hm) as (c & ds & E & L & Hc & Hd & Hv). unfold show_scientific. rewrite E. cbn [firstn skipn]. split; [|exists c; eexists; split; [reflexivity|exact Hc]].
  change (txt "." ++ ds ++ txt "e" ++ show_exponent e) with ("."%char :: (ds ++ "e"%char :: show_exponent e)). unfold parse_number.
  rewrite span_digits_app; [|cbn; rewrite Hc; reflexivity|intros c' r' H; injection H as <- _; reflexivity].
  rewrite span_digits_app; [|exact Hd|intros c' r' H; injection H as <- _; reflexivity].
  cbn [app]. change (Ascii.eqb "e" "e" || Ascii.eqb "e" "E") with true. cbv iota. rewrite parse_shown_exponent, Hv, L. reflexivity.
Qed.

Lemma format_finite s m e H : let x := B754_finite 53 1024 s m e H in exists m' e', format_15e x = (if s then txt "-" else []) ++ show_scientific m' e' /\
  closest m' (e' - 15) (Rabs (r64 x)) /\ (Rabs (dec m' (e' - 15) - Rabs (r64 x)) <= / 2 * / 10 ^ 15 * Rabs (r64 x))%R.
Proof.
  intros x. unfold format_15e, x. set (num := if 0 <=? e then Zpos m * 2 ^ e else Zpos m). set (den := if 0 <=? e then 1 else 2 ^ (- e)). fold x.
  assert (Hr : r64 (magnitude x) = (IZR (Zpos m) * bpow radix2 e)%R) by reflexivity.
  assert (Ha : Rabs (r64 x) = r64 (magnitude x)) by (unfold magnitude, r64; rewrite B2R_Babs; reflexivity).
  assert (Hf : fin (magnitude x)) by reflexivity.
  assert (Hpos : (0 < r64 (magnitude x))%R) by (rewrite Hr; apply Rmult_lt_0_compat; [apply IZR_lt; reflexivity|apply bpow_gt_0]).
  assert (Hn : 0 < num) by (unfold num; destruct (Z.leb_spec 0 e); [apply Z.mul_pos_pos; [reflexivity|apply Z.pow_pos_nonneg; lia]|reflexivity]).
  assert (Hd : 0 < den) by (unfold den; destruct (Z.leb_spec 0 e); [reflexivity|apply Z.pow_pos_nonneg; lia]).
  assert (Hv : (r64 (magnitude x) * IZR den = IZR num)%R).
  { rewrite Hr. unfold num, den. destruct (Z.leb_spec 0 e).
    - rewrite Rmult_1_r, mult_IZR. f_equal. change (2 ^ e) with (Zpower radix2 e). rewrite IZR_Zpower by assumption. reflexivity.
    - change (2 ^ - e) with (Zpower radix2 (- e)). rewrite IZR_Zpower by lia. rewrite Rmult_assoc, <- bpow_plus. replace (e + - e) with 0 by lia. cbn. ring. }
  assert (He : Z.min e 0 <= 0 /\ den = 2 ^ (- Z.min e 0)).
  { split; [lia|]. unfold den. destruct (Z.leb_spec 0 e); [rewrite Z.min_r by lia; reflexivity|rewrite Z.min_l by lia; reflexivity]. }
  assert (K : let '(m', e') := sixteen num den in closest m' (e' - 15) (r64 (magnitude x)) /\ (Rabs (dec m' (e' - 15) - r64 (magnitude x)) <= / 2 * / 10 ^ 15 * r64 (magnitude x))%R) by (eapply sixteen_spec; eassumption).
  destruct (sixteen num den) as [m' e']. exists m', e'. rewrite Ha. split; [reflexivity|exact K].
Qed.

(** the decimal that is written is read as the double next to it *)
Lemma read_format s m e H : let x := B754_finite 53 1024 s m e H in exists m' k', read_f64 (format_15e x) = Some (decimal64 s m' k') /\
  closest m' k' (Rabs (r64 x)) /\ (Rabs (dec m' k' - Rabs (r64 x)) <= / 2 * / 10 ^ 15 * Rabs (r64 x))%R.
Proof.
  intros x. destruct (format_finite s m e H) as (m' & e' & E & Hc & Hb). fold x in E, Hc, Hb. exists m', (e' - 15). split; [|auto].
  destruct (parse_scientific m' e' (proj1 Hc)) as (Ep & c & r & Ec & Hd). rewrite E. exact (read_signed s _ c r _ _ Ec Hd Ep).
Qed.

(** no double is closer to a number than the one it is rounded to *)
Lemma RN_nearest v (x : binary64) : (Rabs (RN v - v) <= Rabs (r64 x - v))%R.
Proof.
  pose proof (BinarySingleNaN.fexp_correct 53 1024 Hprec) as VE. destruct (@round_N_pt radix2 fexp VE (fun z => negb (Z.even z)) v) as [_ Hn]. apply Hn. apply (generic_format_B2R 53 1024).
Qed.
Lemma rounds_near s m k (x : binary64) : 0 <= m -> Bsign 53 1024 x = s -> (Rabs (dec m k - Rabs (r64 x)) <= / 2 * / 10 ^ 15 * Rabs (r64 x))%R -> (Rabs (r64 x) <= bpow radix2 1023)%R -> fin x ->
  fin (decimal64 s m k) /\ (Rabs (r64 (decimal64 s m k) - r64 x) <= / 10 ^ 15 * Rabs (r64 x))%R.
Proof.
  intros Hm Hs Hb Hl Hf. assert (T : (0 < / 10 ^ 15)%R) by (apply Rinv_0_lt_compat, pow_lt; lra). assert (T1 : (/ 10 ^ 15 < 1)%R) by (rewrite <- Rinv_1; apply Rinv_lt_contravar; [rewrite Rmult_1_l; apply pow_lt; lra|]; apply Rlt_pow_R1; [lra|lia]).
  assert (Hr : r64 x = signed s (Rabs (r64 x))).
  { subst s. unfold r64. destruct x as [[]|[]|s' pl Hpl|[] m0 e0 H0]; try discriminate Hf; cbn [Bsign signed B2R SpecFloat.cond_Zopp]; rewrite ?Rabs_R0, ?Ropp_0; try reflexivity.
    - rewrite Rabs_left1; [ring|]. apply F2R_le_0. cbn. lia.
    - rewrite Rabs_pos_eq; [reflexivity|]. apply F2R_ge_0. cbn. lia. }
  set (v := dec m k) in *. set (a := Rabs (r64 x)) in *.
  assert (Ha : a = r64 (magnitude x)) by (unfold a, magnitude, r64; rewrite B2R_Babs; reflexivity).
  assert (Hn : (Rabs (RN v - a) <= / 10 ^ 15 * a)%R).
  { pose proof (RN_nearest v (magnitude x)) as N. rewrite <- Ha in N. rewrite (Rabs_minus_sym a v) in N. replace (RN v - a)%R with ((RN v - v) + (v - a))%R by ring. eapply Rle_trans; [apply Rabs_triang|]. lra. }
  assert (A0 : (0 <= a)%R) by apply Rabs_pos.
  assert (Lt : (RN v < bpow radix2 1024)%R).
  { assert (W : bpow radix2 1024 = (2 * bpow radix2 1023)%R) by exact (bpow_plus radix2 1 1023). rewrite W. pose proof (bpow_gt_0 radix2 1023). pose proof (Rle_abs (RN v - a)). set (q := (/ 10 ^ 15)%R) in *. set (w := bpow radix2 1023) in *. assert (q * a <= q * w)%R by (apply Rmult_le_compat_l; lra). assert (q * w < 1 * w)%R by (apply Rmult_lt_compat_r; lra). lra. }
  destruct (decimal64_spec s m k Hm) as [(_ & F & V & _)|(L & _)]; [|fold v in L; lra]. split; [exact F|]. fold v in V. rewrite V, Hr. destruct s; cbn [signed]; [|exact Hn].
  replace (- RN v - - a)%R with (- (RN v - a))%R by ring. rewrite Rabs_Ropp. exact Hn.
Qed.
End Numbers.

(** ** Documents *)
(** the double that is read for the cost [x] *)
Definition kept (x : binary64) : binary64 := match read_f64 (format_15e x) with Some y => y | None => x end.
Definition clean (s : text) : bool := forallb (fun c => negb (Ascii.eqb c """") && negb (Ascii.eqb c "&")) s.
Lemma digits_clean s : forallb is_digit s = true -> clean s = true.
Proof.
  intros H. unfold clean. rewrite forallb_forall in *. intros c Hc. specialize (H c Hc). destruct (Ascii.eqb_spec c """") as [->|_]; [discriminate|]. destruct (Ascii.eqb_spec c "&") as [->|_]; [discriminate|reflexivity].
Qed.
Lemma clean_app a b : clean (a ++ b) = clean a && clean b.
Proof. apply forallb_app. Qed.
Lemma format_clean x : fin x -> clean (format_15e x) = true.
Proof.
  intros Hx. destruct x as [s|s|s pl Hpl|s m e H]; try discriminate Hx; [destruct s; reflexivity|]. destruct (format_finite s m e H) as (m' & e' & -> & [Hm _] & _).
  rewrite clean_app. apply andb_true_intro. split; [destruct s; reflexivity|]. unfold show_scientific, show_exponent. destruct (sixteen_digits m' Hm) as (c & ds & -> & _ & Hc & Hd & _). cbn [firstn skipn].
  rewrite !clean_app. rewrite (digits_clean [c]) by (cbn; rewrite Hc; reflexivity). rewrite (digits_clean ds) by exact Hd. rewrite (digits_clean (F64Text.digits_of _)) by (apply digits_of_spec; lia).
  destruct (e' <? 0)%Z, (Z.abs e' <? 10)%Z; reflexivity.
Qed.
Lemma read_kept x : fin x -> read_f64 (format_15e x) = Some (kept x).
Proof.
  intros Hx. unfold kept. destruct (read_f64 (format_15e x)) eqn:E; [reflexivity|]. exfalso. destruct x as [s|s|s pl Hpl|s m e H]; try discriminate Hx; [destruct s; discriminate E|].
  destruct (read_format s m e H) as (m' & k' & E' & _). rewrite E' in E. discriminate.
Qed.

(** a row: the numbers and costs of the edges *)
Definition cell := (nat * C B64)%type.
Definition cell_piece (c : cell) : piece := edge_piece (fun _ => format_15e (snd c)) (mkEdge (N := B64) (fst c) (kept (snd c))).
Definition cell_edge (c : cell) : edge B64 := mkEdge (N := B64) (fst c) (kept (snd c)).
Definition cell_node (c : cell) : node := edge_node (fun _ => format_15e (snd c)) (cell_edge c).
Definition bare_piece (name : text) (inner : list piece) : piece :=
  match inner with [] => PEmpty name (txt " ") | _ => PElem name [] inner [] end.
Definition row_piece (row : list cell) : piece := bare_piece (txt "vertex") (map cell_piece row).
Definition rows_piece (rows : list (list cell)) : piece := bare_piece (txt "graph") (map row_piece rows).
Definition py_document (rows : list (list cell)) : piece :=
  PElem (txt "travellingSalesmanProblemInstance") []
    [field_piece (txt "name") (txt "RandomGraph"); field_piece (txt "source") (txt "gh:lquenti/walky");
     field_piece (txt "description") (txt "random example"); field_piece (txt "doublePrecision") (show_nat 15);
     field_piece (txt "ignoredDigits") (show_nat 0); rows_piece rows] [].

Lemma tag_elem name attrs s : s <> [] -> tag name attrs s = txt "<" ++ name ++ attrs ++ txt ">" ++ s ++ txt "</" ++ name ++ txt ">".
Proof. destruct s; [contradiction|reflexivity]. Qed.
Lemma tag_bare name inner : (forall p, In p inner -> spell p <> []) -> tag name [] (flat_map spell inner) = spell (bare_piece name inner).
Proof.
  intros H. destruct inner as [|p ps]; [reflexivity|]. rewrite tag_elem; [reflexivity|]. cbn [flat_map]. intros E. apply app_eq_nil in E. apply (H p); [left; reflexivity|apply E].
Qed.
Lemma bare_nonempty name inner : spell (bare_piece name inner) <> [].
Proof. destruct inner; discriminate. Qed.

(** elements one after the other *)
Lemma in_a_row {A} (p : A -> piece) (f : A -> node) l :
  (forall a, exists name attrs kids, f a = Elem name attrs kids) -> (forall a, In a l -> well_spelled (p a) /\ meaning (p a) = [f a]) ->
  no_two_texts (map p l) = true /\ (forall q, In q (map p l) -> well_spelled q) /\ solid (join (flat_map meaning (map p l))) = map f l.
Proof.
  intros Hf Hw. split; [|split].
  - induction l as [|a l IH]; [reflexivity|]. destruct (Hw a (or_introl eq_refl)) as [_ Ea]. destruct (Hf a) as (name & attrs & kids & Ef). rewrite Ef in Ea.
    specialize (IH (fun b Hi => Hw b (or_intror Hi))). cbn [map]. destruct (p a); try discriminate; exact IH.
  - intros q Hq. apply in_map_iff in Hq. destruct Hq as (a & <- & Ha). apply Hw, Ha.
  - assert (E : join (flat_map meaning (map p l)) = map f l).
    { induction l as [|a l IH]; [reflexivity|]. destruct (Hw a (or_introl eq_refl)) as [_ Ea]. cbn [map flat_map]. rewrite Ea. destruct (Hf a) as (name & attrs & kids & ->). cbn [app join]. rewrite IH by (intros; apply Hw; right; assumption). reflexivity. }
    rewrite E. unfold solid. clear - Hf. induction l as [|a l IH]; [reflexivity|]. cbn [map filter]. destruct (Hf a) as (name & attrs & kids & Ea). rewrite Ea. f_equal. exact IH.
Qed.
Lemma all_some_value {A B D} (h : B -> option D) (f : A -> B) (v : A -> option D) l : (forall a, In a l -> h (f a) = v a) -> all_some h (map f l) = all_some v l.
Proof. induction l as [|a l IH]; intros H; [reflexivity|]. cbn. rewrite (H a (or_introl eq_refl)), IH; [reflexivity|]. intros b Hb. apply H. right. exact Hb. Qed.
Lemma all_some_total {A D} (v : A -> D) l : all_some (fun a => Some (v a)) l = Some (map v l).
Proof. induction l as [|a l IH]; [reflexivity|]. cbn. rewrite IH. reflexivity. Qed.

Definition good_cell (c : cell) : Prop := fin (snd c) /\ (N.of_nat (fst c) < 2 ^ 64)%N.
Lemma cell_ok c : good_cell c -> well_spelled (cell_piece c) /\ meaning (cell_piece c) = [cell_node c] /\ decode_edge (N := B64) read_f64 (cell_node c) = Some (cell_edge c).
Proof.
  intros [Hf Hn]. apply (edge_ok (fun _ => format_15e (snd c)) read_f64 (cell_edge c)); [|exact Hn]. split; [apply read_kept; exact Hf|apply format_clean; exact Hf].
Qed.
Lemma space_attr : tag_rest (txt " ") /\ attributes (txt " ") = Some [].
Proof. split; [|reflexivity]. split; [apply tag_char; [reflexivity|discriminate|constructor]|]. intros c s E. injection E as <- <-. reflexivity. Qed.

Definition bare_node (name : text) (inner : list piece) : node := match meaning (bare_piece name inner) with [k] => k | _ => Text [] end.
Lemma bare_ok name inner : plain_name name = true -> no_two_texts inner = true -> (forall q, In q inner -> well_spelled q) -> well_spelled (bare_piece name inner) /\
  meaning (bare_piece name inner) = [bare_node name inner] /\ exists attrs, attributes attrs = Some [] /\ bare_node name inner = Elem name attrs (join (flat_map meaning inner)).
Proof.
  intros Hn Ht Hw. destruct no_attrs as [A1 A2]. destruct space_attr as [A3 A4]. destruct inner as [|p ps].
  - split; [apply ws_empty; assumption|]. split; [reflexivity|]. exists (txt " "). split; [exact A4|reflexivity].
  - split; [apply ws_elem; [exact Hn|exact A1|exact A2|reflexivity|exact Ht|exact Hw]|]. split; [reflexivity|]. exists []. split; reflexivity.
Qed.

Definition row_node (row : list cell) : node := bare_node (txt "vertex") (map cell_piece row).
Definition row_value (row : list cell) : option (list (edge B64)) := match row with [] => None | _ => Some (map cell_edge row) end.
Lemma row_ok row : (forall c, In c row -> good_cell c) -> well_spelled (row_piece row) /\ meaning (row_piece row) = [row_node row] /\
  (exists name attrs kids, row_node row = Elem name attrs kids) /\ decode_vertex (N := B64) read_f64 (row_node row) = row_value row.
Proof.
  intros Hg. destruct (in_a_row cell_piece cell_node row) as (H0 & H1 & H2).
  { intros c. unfold cell_node, edge_node. eauto. }
  { intros c Hc. destruct (cell_ok c (Hg c Hc)) as (? & ? & _). auto. }
  destruct (bare_ok (txt "vertex") (map cell_piece row) eq_refl H0 H1) as (W & M & attrs & Ha & En). split; [exact W|]. split; [exact M|]. split; [unfold row_node; rewrite En; eauto|].
  unfold row_node. rewrite En. unfold decode_vertex. rewrite Ha. cbn [obind]. unfold items. rewrite H2. destruct row as [|c row]; [reflexivity|].
  change (all_some (decode_edge (N := B64) read_f64) (map cell_node (c :: row)) = Some (map cell_edge (c :: row))). rewrite <- all_some_total. apply all_some_value. intros a Ha'. apply cell_ok, Hg, Ha'.
Qed.
Definition rows_node (rows : list (list cell)) : node := bare_node (txt "graph") (map row_piece rows).
Definition rows_value (rows : list (list cell)) : option (graph B64) := match rows with [] => None | _ => all_some row_value rows end.
Lemma rows_ok rows : (forall row c, In row rows -> In c row -> good_cell c) -> well_spelled (rows_piece rows) /\ meaning (rows_piece rows) = [rows_node rows] /\
  (exists attrs kids, rows_node rows = Elem (txt "graph") attrs kids) /\ decode_graph (N := B64) read_f64 (rows_node rows) = rows_value rows.
Proof.
  intros Hg. destruct (in_a_row row_piece row_node rows) as (H0 & H1 & H2).
  { intros row. unfold row_node, bare_node, bare_piece. destruct (map cell_piece row); cbn [meaning]; eauto. }
  { intros row Hr. destruct (row_ok row (fun c Hc => Hg row c Hr Hc)) as (? & ? & _). auto. }
  destruct (bare_ok (txt "graph") (map row_piece rows) eq_refl H0 H1) as (W & M & attrs & Ha & En). split; [exact W|]. split; [exact M|]. split; [unfold rows_node; rewrite En; eauto|].
  unfold rows_node. rewrite En. unfold decode_graph. rewrite Ha. cbn [obind]. unfold items. rewrite H2. destruct rows as [|row rows]; [reflexivity|].
  change (all_some (decode_vertex (N := B64) read_f64) (map row_node (row :: rows)) = all_some row_value (row :: rows)). apply all_some_value. intros r Hr. apply row_ok. intros c Hc. exact (Hg r c Hr Hc).
Qed.
Definition py_node (rows : list (list cell)) : node := match meaning (py_document rows) with [k] => k | _ => Text [] end.
Lemma py_document_ok rows : (forall row c, In row rows -> In c row -> good_cell c) -> well_spelled (py_document rows) /\ meaning (py_document rows) = [py_node rows] /\
  decode_instance (N := B64) read_f64 (py_node rows) = option_map generated_instance (rows_value rows).
Proof.
  intros Hg. destruct (rows_ok rows Hg) as (Hw & Hm & (ga & K & Ek) & Hd). destruct no_attrs as [A1 A2]. split; [|split; [reflexivity|]].
  - apply ws_elem; [reflexivity|exact A1|exact A2|reflexivity| |].
    + unfold field_piece. cbn [no_two_texts]. unfold rows_piece, bare_piece. destruct (map row_piece rows); reflexivity.
    + intros p Hp. cbn [In] in Hp. repeat (destruct Hp as [<-|Hp]; [first [exact Hw|apply field_ok; [reflexivity|discriminate|reflexivity]]|]). destruct Hp.
  - unfold py_node, py_document. cbn [flat_map meaning field_piece app]. rewrite Hm, Ek in *. cbn [app join].
    unfold decode_instance. change (attributes []) with (Some ([] : list (text * text))). cbn [obind].
    match goal with |- context [field (txt "graph") ?l] => change (field (txt "graph") l) with (Some (Elem (txt "graph") ga K)) end.
    cbn [obind]. rewrite Hd. destruct (rows_value rows); reflexivity.
Qed.
Lemma py_read rows rest : (forall row c, In row rows -> In c row -> good_cell c) ->
  from_str (N := B64) read_f64 (spell (py_document rows) ++ rest) = option_map generated_instance (rows_value rows).
Proof.
  intros Hg. destruct (py_document_ok rows Hg) as (Hw & Hm & Hd). unfold from_str. rewrite (element_spell (py_document rows) (py_node rows) rest Hw Hm ltac:(discriminate)). exact Hd.
Qed.

(** ** Matrices *)
From Verif Require Import ConvProofs.
Section Matrix.
Variable n : nat.
Variable distance : nat -> nat -> C B64.
Definition wanted_cell (i j : nat) : C B64 := if i =? j then c0 else distance (Nat.min i j) (Nat.max i j).
Lemma zeros_val k : vm_sq k (repeat (repeat (c0 : C B64) k) k) /\ forall i j, i < k -> j < k -> vm_val (repeat (repeat (c0 : C B64) k) k) i j = c0.
Proof.
  clear. assert (R : forall i, i < k -> nth i (repeat (repeat (c0 : C B64) k) k) [] = repeat (c0 : C B64) k).
  { intros i Hi. rewrite (nth_indep _ [] (repeat (c0 : C B64) k)) by (rewrite repeat_length; assumption). apply nth_repeat. }
  split; [split; [apply repeat_length|]; intros i Hi; rewrite R by assumption; apply repeat_length|].
  intros i j Hi Hj. unfold vm_val. rewrite R by assumption. apply (nth_repeat (c0 : C B64)).
Qed.
Lemma memb_snoc x l y : memb x (l ++ [y]) = memb x l || (x =? y).
Proof. unfold memb. rewrite existsb_app. cbn [existsb]. rewrite orb_false_r. reflexivity. Qed.

Lemma create_matrix_val : exists m : vecmatrix B64, create_matrix n distance = Ok m /\ vm_sq n m /\ forall i j, i < n -> j < n -> vm_val m i j = wanted_cell i j.
Proof.
  unfold create_matrix. destruct (zeros_val n) as [Z1 Z2].
  match goal with |- context [foldM ?f ?l ?s] => destruct (foldM_inv f (fun pre (m : vecmatrix B64) => vm_sq n m /\ forall i j, i < n -> j < n ->
      vm_val m i j = if memb (Nat.min i j) pre then wanted_cell i j else c0) l s) as (m & E & S & V) end.
  - split; [exact Z1|]. exact Z2.
  - intros pre x post m El (S & V).
    assert (Hx : x < n) by (assert (In x (seq 0 n)) as H by (rewrite El; apply in_elt); apply in_seq in H; lia).
    assert (Hnd : NoDup (pre ++ x :: post)) by (rewrite <- El; apply seq_NoDup).
    assert (Hpre : memb x pre = false) by (apply memb_nIn; intros Hin; apply NoDup_remove_2 in Hnd; apply Hnd; apply in_or_app; left; assumption).
    match goal with |- context [foldM ?f ?l ?s] => destruct (foldM_inv f (fun pre' (m' : vecmatrix B64) => vm_sq n m' /\ forall i j, i < n -> j < n ->
      vm_val m' i j = if (Nat.min i j =? x) && memb (Nat.max i j) pre' then wanted_cell i j else vm_val m i j) l s) as (m' & E & S' & V') end.
    + split; [exact S|]. intros i j Hi Hj. cbn [memb existsb]. rewrite andb_false_r. reflexivity.
    + intros pre' y post' m' El' (S' & V').
      assert (Hy : x < y < n) by (assert (In y (seq (x + 1) (n - (x + 1)))) as H by (rewrite El'; apply in_elt); apply in_seq in H; lia).
      destruct (vm_set_Ok n m' x y (distance x y) S' Hx (proj2 Hy)) as (m2 & E2 & S2 & V2). rewrite E2. cbn [bind].
      destruct (vm_set_Ok n m2 y x (distance x y) S2 (proj2 Hy) Hx) as (m3 & E3 & S3 & V3). exists m3. split; [exact E3|]. split; [exact S3|].
      intros i j Hi Hj. rewrite V3, V2, V' by assumption. rewrite memb_snoc.
      assert (W1 : wanted_cell x y = distance x y) by (unfold wanted_cell; replace (x =? y) with false by (symmetry; apply Nat.eqb_neq; lia); rewrite Nat.min_l, Nat.max_r by lia; reflexivity).
      assert (W2 : wanted_cell y x = distance x y) by (unfold wanted_cell; replace (y =? x) with false by (symmetry; apply Nat.eqb_neq; lia); rewrite Nat.min_r, Nat.max_l by lia; reflexivity).
      destruct (Nat.eq_dec i y) as [I1|I1], (Nat.eq_dec j x) as [J1|J1].
      { subst i j. rewrite !Nat.eqb_refl, Nat.min_r, Nat.max_l by lia. rewrite !Nat.eqb_refl, orb_true_r. cbn [andb]. symmetry. exact W2. }
      all: replace ((i =? y) && (j =? x)) with false by (symmetry; apply andb_false_iff; rewrite !Nat.eqb_neq; lia).
      all: destruct (Nat.eq_dec i x) as [I2|I2], (Nat.eq_dec j y) as [J2|J2]; try lia.
      all: try (subst i j; rewrite !Nat.eqb_refl, Nat.min_l, Nat.max_r by lia; rewrite !Nat.eqb_refl, orb_true_r; cbn [andb]; symmetry; exact W1).
      all: replace ((i =? x) && (j =? y)) with false by (symmetry; apply andb_false_iff; rewrite !Nat.eqb_neq; lia).
      all: destruct (Nat.eqb_spec (Nat.max i j) y) as [M|M]; [|rewrite orb_false_r; reflexivity].
      all: replace (Nat.min i j =? x) with false by (symmetry; apply Nat.eqb_neq; lia).
      all: reflexivity.
    + exists m'. split; [exact E|]. split; [exact S'|]. intros i j Hi Hj. rewrite V', V by assumption. rewrite memb_snoc.
      destruct (Nat.eqb_spec (Nat.min i j) x) as [M|M]; cbn [andb]; [|rewrite orb_false_r; reflexivity]. rewrite ?M, ?Hpre. cbn [orb].
      destruct (Nat.eq_dec i j) as [->|N1].
      * rewrite Nat.min_id in M. subst j. unfold wanted_cell. rewrite Nat.eqb_refl. destruct (memb (Nat.max x x) _); reflexivity.
      * replace (memb (Nat.max i j) (seq (x + 1) (n - (x + 1)))) with true; [reflexivity|]. symmetry. apply memb_In, in_seq. lia.
  - exists m. split; [exact E|]. split; [exact S|]. intros i j Hi Hj. rewrite V by assumption.
    replace (memb (Nat.min i j) (seq 0 n)) with true by (symmetry; apply memb_In, in_seq; lia). reflexivity.
Qed.
End Matrix.

Lemma vm_ext k (m m' : vecmatrix B64) : vm_sq k m -> vm_sq k m' -> (forall i j, i < k -> j < k -> vm_val m i j = vm_val m' i j) -> m = m'.
Proof.
  intros [L H] [L' H'] E. apply (nth_ext m m' [] []); [congruence|]. intros i Hi. rewrite L in Hi. apply (nth_ext _ _ c0 c0); [rewrite H, H' by exact Hi; reflexivity|]. intros j Hj. rewrite H in Hj by exact Hi. apply E; assumption.
Qed.
(** the distances of the first points *)
Lemma principal_minor_val n k distance (m : vecmatrix B64) : k <= n -> create_matrix n distance = Ok m -> principal_minor m k = create_matrix k distance.
Proof.
  intros Hk Em. destruct (create_matrix_val n distance) as (m0 & E0 & S0 & V0). assert (m0 = m) as -> by congruence. destruct (create_matrix_val k distance) as (mk & Ek & Sk & Vk). rewrite Ek.
  unfold principal_minor. destruct (zeros_val k) as [Z1 Z2].
  match goal with |- context [foldM ?f ?l ?s] => destruct (foldM_inv f (fun pre (m' : vecmatrix B64) => vm_sq k m' /\ forall i j, i < k -> j < k ->
      vm_val m' i j = if memb i pre then vm_val m i j else c0) l s) as (m' & E & S & V) end.
  - split; [exact Z1|exact Z2].
  - intros pre x post m1 El (S & V). assert (Hx : x < k) by (assert (In x (seq 0 k)) as H by (rewrite El; apply in_elt); apply in_seq in H; lia).
    match goal with |- context [foldM ?f ?l ?s] => destruct (foldM_inv f (fun pre' (m' : vecmatrix B64) => vm_sq k m' /\ forall i j, i < k -> j < k ->
      vm_val m' i j = if (i =? x) && memb j pre' then vm_val m i j else vm_val m1 i j) l s) as (m' & E & S' & V') end.
    + split; [exact S|]. intros i j Hi Hj. cbn [memb existsb]. rewrite andb_false_r. reflexivity.
    + intros pre' y post' m' El' (S' & V'). assert (Hy : y < k) by (assert (In y (seq 0 k)) as H by (rewrite El'; apply in_elt); apply in_seq in H; lia).
      rewrite (vm_get_val n m x y S0) by lia. cbn [bind]. destruct (vm_set_Ok k m' x y (vm_val m x y) S' Hx Hy) as (m2 & E2 & S2 & V2). exists m2. split; [exact E2|]. split; [exact S2|].
      intros i j Hi Hj. rewrite V2, V' by assumption. rewrite memb_snoc. destruct (Nat.eqb_spec i x) as [->|]; cbn [andb]; [|reflexivity]. destruct (Nat.eqb_spec j y) as [->|]; [rewrite orb_true_r; reflexivity|rewrite orb_false_r; reflexivity].
    + exists m'. split; [exact E|]. split; [exact S'|]. intros i j Hi Hj. rewrite V', V by assumption. rewrite memb_snoc. destruct (Nat.eqb_spec i x) as [->|]; cbn [andb]; [|rewrite orb_false_r; reflexivity].
      rewrite orb_true_r. replace (memb j (seq 0 k)) with true by (symmetry; apply memb_In, in_seq; lia). reflexivity.
  - rewrite E. f_equal. apply (vm_ext k); [exact S|exact Sk|]. intros i j Hi Hj. rewrite V, Vk by assumption. replace (memb i (seq 0 k)) with true by (symmetry; apply memb_In, in_seq; lia). rewrite V0 by lia. reflexivity.
Qed.

(** ** The text *)
Definition others (n i : nat) : list nat := filter (fun j => negb (i =? j)) (seq 0 n).
Definition rows_of (n : nat) (val : nat -> nat -> C B64) : list (list cell) := map (fun i => map (fun j => (j, val i j)) (others n i)) (seq 0 n).

Lemma cell_text j x : tag (txt "edge") (txt " cost=""" ++ format_15e x ++ txt """") (show_nat j) = spell (cell_piece (j, x)).
Proof.
  rewrite tag_elem by apply show_nat_nonempty. unfold cell_piece, edge_piece. cbn [spell flat_map fst snd e_to e_cost]. rewrite !app_nil_r. repeat rewrite <- app_assoc. reflexivity.
Qed.
Lemma concat_filter {A} (f : nat -> bool) (h : nat -> list A) l : concat (map (fun j => if f j then h j else []) l) = flat_map h (filter f l).
Proof. induction l as [|j l IH]; [reflexivity|]. cbn [map concat filter]. rewrite IH. destruct (f j); reflexivity. Qed.
Lemma flat_map_map {A B D} (f : B -> list D) (g : A -> B) l : flat_map f (map g l) = flat_map (fun a => f (g a)) l.
Proof. induction l as [|a l IH]; [reflexivity|]. cbn. rewrite IH. reflexivity. Qed.

Lemma convert_text n (m : vecmatrix B64) : vm_sq n m -> convert_to_xml m = Ok (spell (py_document (rows_of n (vm_val m)))).
Proof.
  intros S. unfold convert_to_xml. rewrite (proj1 S).
  assert (Er : forall i, i < n -> py_vertex m i = Ok (spell (row_piece (map (fun j => (j, vm_val m i j)) (others n i))))).
  { intros i Hi. unfold py_vertex. rewrite (proj1 S).
    rewrite (mapM_Ok _ (fun j => if negb (i =? j) then spell (cell_piece (j, vm_val m i j)) else [])).
    - cbn [bind]. f_equal. rewrite (concat_filter (fun j => negb (i =? j)) (fun j => spell (cell_piece (j, vm_val m i j)))). unfold row_piece, others. rewrite <- tag_bare; [rewrite map_map, flat_map_map; reflexivity|].
      intros p Hp. apply in_map_iff in Hp. destruct Hp as (c & <- & _). discriminate.
    - intros j Hj. apply in_seq in Hj. unfold py_edge. destruct (negb (i =? j)); [|reflexivity]. rewrite (vm_get_val n m i j S) by lia. cbn [bind]. rewrite cell_text. reflexivity. }
  rewrite (mapM_Ok _ (fun i => spell (row_piece (map (fun j => (j, vm_val m i j)) (others n i))))) by (intros i Hi; apply in_seq in Hi; apply Er; lia).
  cbn [bind]. f_equal. rewrite <- flat_map_concat_map.
  assert (Eg : tag (txt "graph") [] (flat_map (fun i => spell (row_piece (map (fun j => (j, vm_val m i j)) (others n i)))) (seq 0 n)) = spell (rows_piece (rows_of n (vm_val m)))).
  { unfold rows_piece, rows_of. rewrite <- tag_bare; [rewrite !flat_map_map; reflexivity|]. intros p Hp. apply in_map_iff in Hp. destruct Hp as (row & <- & _). apply bare_nonempty. }
  rewrite Eg. unfold py_document. cbn [spell flat_map field_piece]. rewrite tag_elem by discriminate. set (G := spell (rows_piece _)). clearbody G.
  rewrite !app_nil_r. repeat rewrite <- app_assoc. reflexivity.
Qed.

Lemma others_in n i j : In j (others n i) <-> j < n /\ j <> i.
Proof. unfold others. rewrite filter_In, in_seq. destruct (Nat.eqb_spec i j); cbn [negb]; intuition (discriminate || lia). Qed.
Definition kept_graph (n : nat) (val : nat -> nat -> C B64) : graph B64 := map (fun i => map (fun j => mkEdge (N := B64) j (kept (val i j))) (others n i)) (seq 0 n).
Lemma rows_value_of n val : rows_value (rows_of n val) = if n <=? 1 then None else Some (kept_graph n val).
Proof.
  destruct (Nat.leb_spec n 1) as [L|L].
  - destruct n as [|[|]]; [reflexivity|reflexivity|lia].
  - unfold rows_value. assert (Hne : rows_of n val <> []) by (unfold rows_of; destruct n; [lia|discriminate]). destruct (rows_of n val) eqn:Er; [contradiction|]. rewrite <- Er. unfold rows_of, kept_graph.
    transitivity (all_some (fun row => Some (map cell_edge row)) (map (fun i => map (fun j => (j, val i j)) (others n i)) (seq 0 n))).
    + clear Er Hne. assert (H : forall l, (forall i, In i l -> i < n) -> all_some row_value (map (fun i => map (fun j => (j, val i j)) (others n i)) l) = all_some (fun row => Some (map cell_edge row)) (map (fun i => map (fun j => (j, val i j)) (others n i)) l)).
      { intros is. induction is as [|i is IH]; intros Hl; [reflexivity|]. cbn [map all_some]. rewrite IH by (intros; apply Hl; right; assumption). f_equal.
        assert (Hi : i < n) by (apply Hl; left; reflexivity).
        assert (Hin : exists j, In j (others n i)) by (destruct (Nat.eq_dec i 0) as [->|]; [exists 1; apply others_in; lia|exists 0; apply others_in; lia]).
        destruct Hin as [j Hj]. unfold row_value. destruct (others n i); [destruct Hj|reflexivity]. }
      apply H. intros i Hi. apply in_seq in Hi. lia.
    + rewrite all_some_total, map_map. f_equal. apply map_ext. intros i. rewrite map_map. reflexivity.
Qed.
Lemma rows_good n val : (forall i j, fin (val i j)) -> (N.of_nat n < 2 ^ 64)%N -> forall row c, In row (rows_of n val) -> In c row -> good_cell c.
Proof.
  intros Hf Hn row c Hr Hc. unfold rows_of in Hr. apply in_map_iff in Hr. destruct Hr as (i & <- & Hi). apply in_map_iff in Hc. destruct Hc as (j & <- & Hj). apply others_in in Hj. split; [apply Hf|]. cbn [fst]. lia.
Qed.

(** ** The graph that is read *)
From Verif Require Import PrimProofs ConvProofs Precond PrecondProofs.
Lemma filter_seq_one n j : j < n -> filter (fun k => k =? j) (seq 0 n) = [j].
Proof.
  intros H. rewrite <- (Nat.sub_add j n) by lia. rewrite Nat.add_comm, seq_app, filter_app. replace (n - j) with (S (n - j - 1)) by lia. cbn [seq filter plus]. rewrite Nat.eqb_refl.
  assert (Z : forall s l, (forall k, In k (seq s l) -> k <> j) -> filter (fun k => k =? j) (seq s l) = []).
  { intros s l. revert s. induction l as [|l IH]; intros s Hs; [reflexivity|]. cbn [seq filter]. destruct (Nat.eqb_spec s j) as [->|_]; [exfalso; apply (Hs j); [left; reflexivity|reflexivity]|]. apply IH. intros k Hk. apply Hs. right. exact Hk. }
  rewrite !Z; [reflexivity|intros k Hk; apply in_seq in Hk; lia|intros k Hk; apply in_seq in Hk; lia].
Qed.
Lemma filter_comm {A} (f g : A -> bool) l : filter f (filter g l) = filter g (filter f l).
Proof. induction l as [|a l IH]; [reflexivity|]. cbn [filter]. destruct (f a) eqn:F, (g a) eqn:G; cbn [filter]; rewrite ?F, ?G, ?IH; reflexivity. Qed.
Section Kept.
Variables (n : nat) (val : nat -> nat -> C B64).
Let g := kept_graph n val.
Lemma kept_length : length g = n.
Proof. unfold g, kept_graph. rewrite map_length, seq_length. reflexivity. Qed.
Lemma kept_nth i : i < n -> nth i g [] = map (fun j => mkEdge (N := B64) j (kept (val i j))) (others n i).
Proof.
  intros Hi. unfold g, kept_graph. set (f := fun i => map (fun j => mkEdge (N := B64) j (kept (val i j))) (others n i)).
  rewrite (nth_indep _ [] (f 0)) by (rewrite map_length, seq_length; assumption). rewrite map_nth, seq_nth by assumption. reflexivity.
Qed.
Lemma kept_to i j : i < n -> j < n -> to_edges g i j = if i =? j then [] else [mkEdge (N := B64) j (kept (val i j))].
Proof.
  intros Hi Hj. unfold to_edges. rewrite kept_nth by exact Hi. unfold others.
  assert (F : forall l, filter (fun e : edge B64 => e_to e =? j) (map (fun j => mkEdge (N := B64) j (kept (val i j))) l) = map (fun j => mkEdge (N := B64) j (kept (val i j))) (filter (fun k => k =? j) l)).
  { induction l as [|k l IH]; [reflexivity|]. cbn [map filter e_to]. rewrite IH. destruct (k =? j); reflexivity. }
  rewrite F, filter_comm, filter_seq_one by exact Hj. cbn [filter]. destruct (i =? j); reflexivity.
Qed.
Lemma kept_loop i e : i < length g -> In e (nth i g []) -> e_to e < length g /\ e_to e <> i.
Proof.
  rewrite kept_length. intros Hi He. rewrite kept_nth in He by exact Hi. apply in_map_iff in He. destruct He as (j & <- & Hj). apply others_in in Hj. exact Hj.
Qed.
Hypothesis Hf : forall i j, fin (val i j).
Hypothesis Hsym : forall i j, i < n -> j < n -> val i j = val j i.
Lemma kept_self x : fin x -> b64_cmp_eq (kept x) (kept x) = true.
Proof.
  assert (Fin : forall y : binary64, fin y -> b64_cmp_eq y y = true) by (intros y Hy; unfold b64_cmp_eq, b64_compare; rewrite Bcompare_correct by exact Hy; rewrite Rcompare_Eq by reflexivity; reflexivity).
  intros Hx. pose proof (read_kept x Hx) as E. destruct x as [s|s|s pl Hpl|s m e H]; try discriminate Hx.
  - assert (kept (B754_zero 53 1024 s) = B754_zero 53 1024 s) as -> by (unfold kept; destruct s; reflexivity). apply Fin. reflexivity.
  - destruct (read_format s m e H) as (m' & k' & E' & [Hc _] & _). assert (kept (B754_finite 53 1024 s m e H) = decimal64 s m' k') as -> by congruence.
    destruct (decimal64_spec s m' k' ltac:(lia)) as [(_ & F & _)|(_ & ->)]; [apply Fin; exact F|destruct s; reflexivity].
Qed.
Lemma kept_accepted : parse_from_xml (Some g) = Ok (Some g).
Proof.
  cbn. rewrite complete_conditions; [reflexivity|exact kept_loop|]. rewrite kept_length. intros i j Hi Hj Hij.
  exists (mkEdge (N := B64) j (kept (val i j))), (mkEdge (N := B64) i (kept (val j i))). rewrite !kept_to by assumption.
  replace (i =? j) with false by (symmetry; apply Nat.eqb_neq; assumption). replace (j =? i) with false by (symmetry; apply Nat.eqb_neq; lia). split; [reflexivity|]. split; [reflexivity|].
  cbn [e_cost]. rewrite (Hsym j i) by assumption. apply kept_self, Hf.
Qed.
Lemma kept_matrix : exists m, na_from_graph g = Ok m /\ na_wf m /\ na_dim m = n /\ forall i j, i < n -> j < n -> na_get m i j = Ok (if i =? j then @c0 B64 else kept (val i j)).
Proof.
  destruct (na_from_graph_val g) as (m & E & W & D & V); [intros i e Hi He; apply (kept_loop i e Hi He)|]. rewrite kept_length in D, V. exists m. split; [exact E|]. split; [exact W|]. split; [exact D|].
  intros i j Hi Hj. rewrite na_get_val by (try assumption; rewrite D; assumption). rewrite V by assumption. f_equal. pose proof (kept_to i j Hi Hj) as T. unfold to_edges in T. destruct (i =? j).
  - apply last_cost_none. exact T.
  - apply (last_cost_some _ _ _ [] _ T).
Qed.
End Kept.
