(** Reading a decimal rounds it correctly, and what is printed is read back. *)
From Coq Require Import Ascii String ZArith NArith Bool List Lia Reals Lra.
From Flocq Require Import Core IEEE754.Binary IEEE754.Bits.
From Flocq Require IEEE754.BinarySingleNaN.
From Verif Require Import Num NumB64 F64Facts Text F64Text.
Import ListNotations.
Local Open Scope R_scope.
Local Notation mode_NE := BinarySingleNaN.mode_NE.
Local Notation fexp := (SpecFloat.fexp 53 1024).
Local Notation RN := (round radix2 fexp (BinarySingleNaN.round_mode mode_NE)).

(** ** Rounding *)
Definition signed (s : bool) (v : R) : R := if s then - v else v.

Lemma RN_opp v : RN (- v) = - RN v.
Proof. exact (round_NE_opp radix2 fexp v). Qed.
Lemma RN_ge0 v : 0 <= v -> 0 <= RN v.
Proof. intros H. rewrite <- (round_0 radix2 fexp (BinarySingleNaN.round_mode mode_NE)). apply RN_mono. exact H. Qed.

Lemma finite_not_nan z : BinarySingleNaN.is_finite_SF z = true -> BinarySingleNaN.is_nan_SF z = false.
Proof. destruct z; cbn; congruence. Qed.

Lemma ratio64_spec s num den : let v := IZR (Zpos num) / IZR (Zpos den) in
  (RN v < bpow radix2 1024 /\ fin (ratio64 s num den) /\ r64 (ratio64 s num den) = signed s (RN v) /\ Bsign 53 1024 (ratio64 s num den) = s) \/
  (bpow radix2 1024 <= RN v /\ ratio64 s num den = B754_infinity 53 1024 s).
Proof.
  intros v. unfold ratio64, fin, r64. set (H := BinarySingleNaN.Bdiv_correct_aux 53 1024 eq_refl eq_refl mode_NE s num 0 false den 0).
  assert (Hv : 0 <= v) by (unfold v; apply Rlt_le, Rdiv_lt_0_compat; apply IZR_lt; reflexivity).
  assert (Ev : F2R (Float radix2 (cond_Zopp s (Zpos num)) 0) / F2R (Float radix2 (cond_Zopp false (Zpos den)) 0) = signed s v).
  { unfold F2R. cbn [Fnum Fexp bpow]. rewrite !Rmult_1_r. destruct s; cbn [cond_Zopp signed]; unfold v; [rewrite opp_IZR; unfold Rdiv; ring|reflexivity]. }
  pose proof (proj2 H) as K. rewrite Ev in K. clearbody H.
  assert (Er : Rabs (RN (signed s v)) = RN v) by (destruct s; cbn [signed]; [rewrite RN_opp, Rabs_Ropp|]; apply Rabs_pos_eq, RN_ge0, Hv).
  rewrite Er in K. destruct (Rlt_bool_spec (RN v) (bpow radix2 1024)) as [L|L].
  - left. destruct K as (K1 & K2 & K3). rewrite is_finite_BSN2B, B2R_BSN2B, BinarySingleNaN.is_finite_SF2B, BinarySingleNaN.B2R_SF2B. split; [exact L|]. split; [exact K2|].
    split; [etransitivity; [exact K1|]; destruct s; cbn [signed]; [apply RN_opp|reflexivity]|]. rewrite Bsign_BSN2B; [rewrite BinarySingleNaN.Bsign_SF2B, K3; apply xorb_false_r|].
    rewrite BinarySingleNaN.is_nan_SF2B. apply finite_not_nan. exact K2.
  - right. split; [exact L|]. generalize (proj1 H). rewrite K. intros Hb. destruct s; reflexivity.
Qed.

Definition radix10 : radix := Build_radix 10 eq_refl.
Definition dec (m k : Z) : R := IZR m * bpow radix10 k.

Lemma pow10 k : (0 <= k)%Z -> IZR (10 ^ k) = bpow radix10 k.
Proof. intros H. change 10%Z with (radix_val radix10). apply IZR_Zpower. exact H. Qed.
Lemma to_pos10 k : (0 <= k)%Z -> IZR (Zpos (Z.to_pos (10 ^ k))) = bpow radix10 k.
Proof. intros H. rewrite Z2Pos.id by (apply Z.pow_pos_nonneg; lia). apply pow10. exact H. Qed.

Lemma decimal64_spec s m k : (0 <= m)%Z ->
  (RN (dec m k) < bpow radix2 1024 /\ fin (decimal64 s m k) /\ r64 (decimal64 s m k) = signed s (RN (dec m k)) /\ Bsign 53 1024 (decimal64 s m k) = s) \/
  (bpow radix2 1024 <= RN (dec m k) /\ decimal64 s m k = B754_infinity 53 1024 s).
Proof.
  intros Hm. destruct m as [|p|p]; [|unfold decimal64; destruct (Z.leb_spec 0 k)|lia].
  - left. unfold dec. rewrite Rmult_0_l, round_0 by (auto with typeclass_instances). split; [apply bpow_gt_0|]. cbn. split; [reflexivity|]. split; [|reflexivity]. unfold r64. cbn. destruct s; cbn; ring.
  - replace (dec (Zpos p) k) with (IZR (Zpos (p * Z.to_pos (10 ^ k))) / IZR 1); [apply ratio64_spec|].
    unfold dec. rewrite Pos2Z.inj_mul, mult_IZR, to_pos10 by assumption. field.
  - replace (dec (Zpos p) k) with (IZR (Zpos p) / IZR (Zpos (Z.to_pos (10 ^ - k)))); [apply ratio64_spec|].
    unfold dec. rewrite to_pos10 by lia. rewrite bpow_opp. field. apply Rgt_not_eq, bpow_gt_0.
Qed.

(** the double depends only on the value *)
Lemma decimal64_value s m k m' k' : (0 <= m)%Z -> (0 <= m')%Z -> dec m k = dec m' k' -> decimal64 s m k = decimal64 s m' k'.
Proof.
  intros H H' E. destruct (decimal64_spec s m k H) as [(L & F & V & S)|(L & ->)], (decimal64_spec s m' k' H') as [(L' & F' & V' & S')|(L' & ->)]; rewrite E in *; try lra; [|reflexivity].
  apply (B2R_Bsign_inj 53 1024); [exact F|exact F'| |congruence]. fold (r64 (decimal64 s m k)) (r64 (decimal64 s m' k')). congruence.
Qed.

(** ** Digits *)
Local Open Scope Z_scope.
Lemma digit_spec d : 0 <= d < 10 -> is_digit (digit d) = true /\ digit_value (digit d) = d /\ (d <> 0 -> digit d <> "0"%char).
Proof.
  intros H. assert (E : d = 0 \/ d = 1 \/ d = 2 \/ d = 3 \/ d = 4 \/ d = 5 \/ d = 6 \/ d = 7 \/ d = 8 \/ d = 9) by lia.
  repeat (destruct E as [->|E]); try subst d; (split; [reflexivity|]; split; [reflexivity|]; intros; try contradiction; discriminate).
Qed.
Lemma digit_value_range c : is_digit c = true -> 0 <= digit_value c < 10.
Proof. unfold is_digit, digit_value. intros H. apply andb_prop in H. destruct H as [H1 H2]. apply N.leb_le in H1, H2. lia. Qed.

Lemma digits_value_acc s : forall a, fold_left (fun a c => 10 * a + digit_value c) s a = a * 10 ^ Z.of_nat (length s) + digits_value s.
Proof.
  unfold digits_value. induction s as [|c s IH]; intros a; [cbn; lia|]. cbn [fold_left length]. rewrite IH, (IH (10 * 0 + _)). rewrite Nat2Z.inj_succ, Z.pow_succ_r by lia. ring.
Qed.
Lemma digits_value_app a b : digits_value (a ++ b) = digits_value a * 10 ^ Z.of_nat (length b) + digits_value b.
Proof. unfold digits_value at 1. rewrite fold_left_app. apply digits_value_acc. Qed.
Lemma digits_value_cons c s : digits_value (c :: s) = digit_value c * 10 ^ Z.of_nat (length s) + digits_value s.
Proof. change (c :: s) with ([c] ++ s). rewrite digits_value_app. f_equal. Qed.
Lemma digits_value_range s : forallb is_digit s = true -> 0 <= digits_value s < 10 ^ Z.of_nat (length s).
Proof.
  induction s as [|c s IH]; intros H; [cbn; lia|]. cbn [forallb] in H. apply andb_prop in H. destruct H as [H1 H2]. specialize (IH H2). rewrite digits_value_cons. cbn [length]. rewrite Nat2Z.inj_succ, Z.pow_succ_r by lia.
  pose proof (digit_value_range c H1). nia.
Qed.
Lemma zeros_value z : digits_value (repeat "0"%char z) = 0.
Proof. induction z as [|z IH]; [reflexivity|]. cbn [repeat]. rewrite digits_value_cons, IH. reflexivity. Qed.
Lemma zeros_digits z : forallb is_digit (repeat "0"%char z) = true.
Proof. induction z; [reflexivity|]. cbn. assumption. Qed.

Lemma digits_from_spec fuel : forall n acc, 0 <= n < 10 ^ Z.of_nat (S fuel) ->
  exists d, digits_from (S fuel) n acc = d ++ acc /\ forallb is_digit d = true /\ digits_value d = n /\ d <> [] /\ (0 < n -> 10 ^ (Z.of_nat (length d) - 1) <= n).
Proof.
  induction fuel as [|fuel IH]; intros n acc Hn; remember (digits_from (S _) n acc) as l eqn:El; cbn [digits_from] in El.
  - change (10 ^ Z.of_nat 1) with 10 in Hn. destruct (Z.ltb_spec n 10); [|lia]. exists [digit n]. destruct (digit_spec n ltac:(lia)) as (D1 & D2 & _). rewrite El. cbn. rewrite D1, D2. repeat split; try discriminate; lia.
  - destruct (Z.ltb_spec n 10) as [L|L].
    + exists [digit n]. destruct (digit_spec n ltac:(lia)) as (D1 & D2 & _). rewrite El. cbn. rewrite D1, D2. repeat split; try discriminate; lia.
    + assert (Hq : 0 <= n / 10 < 10 ^ Z.of_nat (S fuel)).
      { split; [apply Z.div_pos; lia|]. apply Z.div_lt_upper_bound; [lia|]. rewrite (Nat2Z.inj_succ (S fuel)), Z.pow_succ_r in Hn by lia. lia. }
      destruct (IH (n / 10) (digit (n mod 10) :: acc) Hq) as (d & E & H1 & H2 & H3 & H4).
      pose proof (Z.mod_pos_bound n 10 ltac:(lia)) as Hm. destruct (digit_spec (n mod 10) Hm) as (D1 & D2 & _).
      exists (d ++ [digit (n mod 10)]). rewrite El. split; [etransitivity; [exact E|]; rewrite <- app_assoc; reflexivity|]. rewrite forallb_app, H1. cbn [forallb]. rewrite D1. split; [reflexivity|].
      rewrite digits_value_app, H2. change (digits_value [digit (n mod 10)]) with (10 * 0 + digit_value (digit (n mod 10))). rewrite D2. cbn [length]. change (10 ^ Z.of_nat 1) with 10.
      pose proof (Z.div_mod n 10 ltac:(lia)). split; [lia|]. split; [destruct d; discriminate|]. intros _. rewrite app_length, Nat2Z.inj_add. cbn [length]. change (Z.of_nat 1) with 1.
      assert (0 < n / 10) by (apply Z.div_str_pos; lia). specialize (H4 ltac:(lia)). replace (Z.of_nat (length d) + 1 - 1) with (Z.succ (Z.of_nat (length d) - 1)) by lia.
      rewrite Z.pow_succ_r; [lia|]. destruct d; [contradiction|]. cbn [length]. lia.
Qed.
Lemma digits_of_spec n : 0 <= n -> forallb is_digit (digits_of n) = true /\ digits_value (digits_of n) = n /\ digits_of n <> [] /\ (0 < n -> 10 ^ (length10 n - 1) <= n < 10 ^ length10 n).
Proof.
  intros Hn. unfold length10, digits_of. destruct (digits_from_spec (Z.to_nat (Z.log2 n)) n []) as (d & E & H1 & H2 & H3 & H4).
  { split; [exact Hn|]. destruct (Z.eq_dec n 0) as [->|Hn0]; [reflexivity|]. rewrite Nat2Z.inj_succ, Z2Nat.id by apply Z.log2_nonneg. eapply Z.lt_le_trans; [apply Z.log2_spec; lia|]. apply Z.pow_le_mono_l. lia. }
  rewrite E, app_nil_r. split; [exact H1|]. split; [exact H2|]. split; [exact H3|]. intros H. split; [apply H4; exact H|]. rewrite <- H2. apply digits_value_range. exact H1.
Qed.

(** ** Printed decimals *)
Lemma dec_scale m k j : 0 <= j -> dec (m * 10 ^ j) k = dec m (k + j).
Proof. intros H. unfold dec. rewrite mult_IZR, pow10, bpow_plus by exact H. ring. Qed.

Lemma drop_zeros_spec s : forall k, exists z r, drop_zeros s k = (r, k + Z.of_nat z) /\ s = repeat "0"%char z ++ r /\ (forall c r', r = c :: r' -> c <> "0"%char).
Proof.
  induction s as [|c s IH]; intros k; [exists 0%nat, []; cbn; rewrite Z.add_0_r; repeat split; discriminate|].
  cbn [drop_zeros]. destruct (Ascii.eqb_spec c "0") as [->|Hc].
  - destruct (IH (k + 1)) as (z & r & E & Es & Hr). exists (S z), r. rewrite E, Nat2Z.inj_succ. split; [f_equal; lia|]. split; [cbn; congruence|exact Hr].
  - exists 0%nat, (c :: s). rewrite Z.add_0_r. repeat split. intros c' r' H. congruence.
Qed.

Lemma rev_zeros z : rev (repeat "0"%char z) = repeat "0"%char z.
Proof. induction z as [|z IH]; [reflexivity|]. cbn. rewrite IH. symmetry. apply (repeat_cons z "0"%char). Qed.

Lemma span_digits_app d r : forallb is_digit d = true -> (forall c r', r = c :: r' -> is_digit c = false) -> span_digits (d ++ r) = (d, r).
Proof.
  induction d as [|c d IH]; intros Hd Hr.
  - cbn [app]. destruct r as [|c r]; [reflexivity|]. cbn. rewrite (Hr c r eq_refl). reflexivity.
  - cbn [forallb] in Hd. apply andb_prop in Hd. destruct Hd as [H1 H2]. cbn [app span_digits]. rewrite H1, IH by assumption. reflexivity.
Qed.

Lemma parse_placed d exp : d <> [] -> forallb is_digit d = true ->
  exists m k, parse_number (place_point d exp) = Some (m, k) /\ 0 <= m /\ dec m k = dec (digits_value d) (exp - Z.of_nat (length d)).
Proof.
  intros Hne Hd. unfold place_point. pose proof (digits_value_range d Hd) as Hv. destruct (Z.leb_spec exp 0) as [L|L]; [|destruct (Z.ltb_spec exp (Z.of_nat (length d))) as [L2|L2]].
  - unfold parse_number. change (txt "0." ++ repeat "0"%char (Z.to_nat (- exp)) ++ d) with (["0"%char] ++ ("."%char :: repeat "0"%char (Z.to_nat (- exp)) ++ d)).
    rewrite span_digits_app; [|reflexivity|intros c r' H; injection H as <- _; reflexivity].
    rewrite <- (app_nil_r (repeat _ _ ++ d)), (span_digits_app (repeat _ _ ++ d) []); [|rewrite forallb_app, zeros_digits; exact Hd|discriminate].
    cbn [app]. eexists _, _. split; [reflexivity|]. rewrite digits_value_cons, digits_value_app, zeros_value. change (digit_value "0") with 0. split; [lia|]. f_equal; try lia; rewrite app_length, repeat_length; lia.
  - unfold parse_number. rewrite span_digits_app; [|rewrite <- (firstn_skipn (Z.to_nat exp) d), forallb_app in Hd; apply andb_prop in Hd; apply Hd|intros c r' H; injection H as <- _; reflexivity].
    change (txt "." ++ skipn (Z.to_nat exp) d) with ("."%char :: skipn (Z.to_nat exp) d). cbv iota.
    rewrite <- (app_nil_r (skipn _ d)), span_digits_app; [|rewrite <- (firstn_skipn (Z.to_nat exp) d), forallb_app in Hd; apply andb_prop in Hd; apply Hd|discriminate].
    rewrite firstn_skipn. exists (digits_value d), (- Z.of_nat (length (skipn (Z.to_nat exp) d))). split; [destruct d; [contradiction|reflexivity]|]. split; [lia|]. f_equal. rewrite skipn_length. lia.
  - unfold parse_number. rewrite <- (app_nil_r (d ++ _)), span_digits_app; [|rewrite forallb_app, zeros_digits, Hd; reflexivity|discriminate]. rewrite !app_nil_r.
    exists (digits_value (d ++ repeat "0"%char (Z.to_nat (exp - Z.of_nat (length d))))), 0. split; [destruct d; [contradiction|reflexivity]|]. rewrite digits_value_app, zeros_value, repeat_length, Z.add_0_r, Z2Nat.id by lia.
    split; [apply Z.mul_nonneg_nonneg; [lia|apply Z.pow_nonneg; lia]|]. rewrite dec_scale by lia. f_equal.
Qed.

(** what is shown for a decimal: digits without zeros at the end, placed so that the value is right *)
Lemma show_decimal_spec m k : 0 < m -> exists d, show_decimal m k = place_point d (k + length10 m) /\ d <> [] /\ forallb is_digit d = true /\
  dec (digits_value d) (k + length10 m - Z.of_nat (length d)) = dec m k /\ digits_of m = d ++ repeat "0"%char (Z.to_nat (length10 m - Z.of_nat (length d))) /\
  forall c d', rev d = c :: d' -> c <> "0"%char.
Proof.
  intros Hm. unfold show_decimal. destruct (digits_of_spec m ltac:(lia)) as (H1 & H2 & H3 & _). destruct (drop_zeros_spec (rev (digits_of m)) k) as (z & r & E & Er & Hr). rewrite E.
  assert (Ed : digits_of m = rev r ++ repeat "0"%char z) by (rewrite <- (rev_involutive (digits_of m)), Er, rev_app_distr, rev_zeros; reflexivity).
  assert (El : length10 m = Z.of_nat (length r) + Z.of_nat z) by (unfold length10; rewrite Ed, app_length, rev_length, repeat_length; lia).
  exists (rev r). rewrite rev_length. split; [f_equal; lia|]. split; [intros E0|split; [|split; [|split]]].
  - rewrite E0 in Ed. rewrite Ed in H2. cbn [app] in H2. rewrite zeros_value in H2. lia.
  - rewrite Ed, forallb_app in H1. apply andb_prop in H1. apply H1.
  - replace (dec m k) with (dec (digits_value (digits_of m)) k) by congruence. rewrite El, Ed, digits_value_app, zeros_value, repeat_length, Z.add_0_r, dec_scale by lia. f_equal. lia.
  - rewrite Ed. do 2 f_equal. lia.
  - rewrite rev_involutive. exact Hr.
Qed.

Lemma parse_shown m k : 0 < m -> exists m' k', parse_number (show_decimal m k) = Some (m', k') /\ 0 <= m' /\ dec m' k' = dec m k.
Proof.
  intros Hm. destruct (show_decimal_spec m k Hm) as (d & -> & Hne & Hd & Ev & _). destruct (parse_placed d (k + length10 m) Hne Hd) as (m' & k' & E & H0 & E'). exists m', k'. split; [exact E|]. split; [exact H0|congruence].
Qed.

(** ** The search *)
Lemma cmp_eq_fin a x : fin x -> r64 x <> 0%R -> b64_cmp_eq a x = true -> a = x.
Proof.
  intros Hx H0 E. unfold b64_cmp_eq in E. destruct (is_finite 53 1024 a) eqn:Fa.
  - unfold b64_compare in E. rewrite Bcompare_correct in E by assumption. destruct (Rcompare_spec (B2R 53 1024 a) (B2R 53 1024 x)) as [?|Er|?]; try discriminate.
    apply (B2R_inj 53 1024); [destruct a; try discriminate Fa; [|reflexivity]; exfalso; apply H0; unfold r64; rewrite <- Er; reflexivity|destruct x; try discriminate Hx; [exfalso; apply H0; reflexivity|reflexivity]|exact Er].
  - exfalso. destruct a as [s|s|s pl Hpl|s m e He]; try discriminate Fa; destruct x as [s'|s'|s' pl' Hpl'|s' m' e' He']; try discriminate Hx; try destruct s; try destruct s'; cbn in E; discriminate E.
Qed.

Lemma strict_pos y : fin y -> (0 < r64 y)%R -> is_finite_strict 53 1024 y = true.
Proof. intros F V. destruct y; try discriminate F; [|reflexivity]. exfalso. unfold r64 in V. cbn in V. lra. Qed.

Section Search.
Variables (x : binary64) (num den e exact : Z).
Hypothesis Hx : fin x.
Hypothesis H0 : (0 < r64 x)%R.
Hypothesis Hnum : 0 < num.
Hypothesis Hden : 0 < den.
Hypothesis Hval : (r64 x * IZR den = IZR num)%R.
Hypothesis Hexact : exact <= 0 /\ den = 2 ^ (- exact).

Lemma decimal_exact m k : 0 <= m -> dec m k = r64 x -> decimal64 false m k = x.
Proof.
  intros Hm E. destruct (decimal64_spec false m k Hm) as [(_ & F & V & S)|(L & _)]; rewrite E, RN_r64 in *.
  - cbn [signed] in V. apply (B2R_inj 53 1024); [apply strict_pos; [exact F|rewrite V; exact H0]|apply strict_pos; assumption|exact V].
  - pose proof (fin_lt x) as K. rewrite Rabs_pos_eq in K by lra. lra.
Qed.
Lemma exact_is_exact : decimal64 false (num * 5 ^ (- exact)) exact = x /\ 0 < num * 5 ^ (- exact).
Proof.
  destruct Hexact as [He Ed]. assert (P : 0 < 5 ^ (- exact)) by (apply Z.pow_pos_nonneg; lia). split; [|nia]. apply decimal_exact; [nia|].
  unfold dec. rewrite mult_IZR. assert (E10 : (bpow radix10 exact * (IZR (5 ^ - exact) * IZR den) = 1)%R).
  { rewrite Ed, <- mult_IZR, <- Z.pow_mul_l. change (5 * 2) with 10. rewrite pow10 by lia. rewrite <- bpow_plus. replace (exact + - exact) with 0 by lia. reflexivity. }
  assert (D : (IZR den <> 0)%R) by (apply IZR_neq; lia). apply (Rmult_eq_reg_r (IZR den)); [|exact D]. rewrite Hval. replace (IZR num * IZR (5 ^ - exact) * bpow radix10 exact * IZR den)%R with (IZR num * (bpow radix10 exact * (IZR (5 ^ - exact) * IZR den)))%R by ring. rewrite E10. ring.
Qed.

Lemma floor10_ge0 k : 0 <= floor10 num den k.
Proof. unfold floor10. destruct (Z.leb_spec 0 k).
  - apply Z.div_pos; [lia|]. apply Z.mul_pos_pos; [lia|apply Z.pow_pos_nonneg; lia].
  - apply Z.div_pos; [|lia]. apply Z.mul_nonneg_nonneg; [lia|apply Z.pow_nonneg; lia].
Qed.

Lemma decimal_0 k : decimal64 false 0 k <> x.
Proof. cbn. intros E. rewrite <- E in H0. unfold r64 in H0. cbn in H0. lra. Qed.

Lemma with_digits_reads n m k : with_digits x num den e n = Some (m, k) -> decimal64 false m k = x /\ 0 < m.
Proof.
  unfold with_digits. set (lo := floor10 num den (e - n)). pose proof (floor10_ge0 (e - n)) as Hlo. fold lo in Hlo. intros E.
  assert (Heq : forall m k, b64_cmp_eq (decimal64 false m k) x = true -> decimal64 false m k = x) by (intros m' k'; apply cmp_eq_fin; [exact Hx|lra]).
  assert (Hpos : forall m k, 0 <= m -> decimal64 false m k = x -> 0 < m) by (intros m' k' Hm Hd; destruct (Z.eq_dec m' 0) as [->|]; [apply decimal_0 in Hd; contradiction|lia]).
  destruct (b64_cmp_eq (decimal64 false lo (e - n)) x) eqn:E1, (b64_cmp_eq (decimal64 false (lo + 1) (e - n)) x) eqn:E2; try discriminate; apply Heq in E1 || idtac; apply Heq in E2 || idtac.
  - destruct (below10 (2 * num) den (2 * lo + 1) (e - n)); injection E as <- <-; split; try assumption; [apply (Hpos _ _ Hlo E1)|lia].
  - injection E as <- <-. split; [assumption|apply (Hpos _ _ Hlo E1)].
  - injection E as <- <-. split; [assumption|lia].
Qed.

Lemma shortest_reads fuel : forall n m k, shortest fuel x num den e n exact = (m, k) -> decimal64 false m k = x /\ 0 < m.
Proof.
  induction fuel as [|fuel IH]; intros n m k; cbn [shortest].
  - intros E. injection E as <- <-. apply exact_is_exact.
  - destruct (with_digits x num den e n) as [[m' k']|] eqn:E; [|apply IH]. intros E'. injection E' as <- <-. apply (with_digits_reads n). exact E.
Qed.
End Search.

(** ** Reading what was printed *)
Definition magnitude (x : binary64) : binary64 := Babs 53 1024 (fun _ => default_nan_pl64) x.

Lemma show_finite s m e H : let x := B754_finite 53 1024 s m e H in exists m' k', show_f64 x = (if s then txt "-" else []) ++ show_decimal m' k' /\ 0 < m' /\ decimal64 s m' k' = x /\
  (RN (dec m' k') = r64 (magnitude x))%R.
Proof.
  intros x. unfold show_f64, x, show_magnitude. set (num := if 0 <=? e then Zpos m * 2 ^ e else Zpos m). set (den := if 0 <=? e then 1 else 2 ^ (- e)). fold (magnitude (B754_finite 53 1024 s m e H)). fold x.
  assert (Hr : r64 (magnitude x) = (IZR (Zpos m) * bpow radix2 e)%R) by reflexivity.
  assert (Hf : fin (magnitude x)) by reflexivity.
  assert (Hpos : (0 < r64 (magnitude x))%R) by (rewrite Hr; apply Rmult_lt_0_compat; [apply IZR_lt; reflexivity|apply bpow_gt_0]).
  assert (Hn : 0 < num) by (unfold num; destruct (Z.leb_spec 0 e); [apply Z.mul_pos_pos; [reflexivity|apply Z.pow_pos_nonneg; lia]|reflexivity]).
  assert (Hd : 0 < den) by (unfold den; destruct (Z.leb_spec 0 e); [reflexivity|apply Z.pow_pos_nonneg; lia]).
  assert (Hv : (r64 (magnitude x) * IZR den = IZR num)%R).
  { rewrite Hr. unfold num, den. destruct (Z.leb_spec 0 e).
    - rewrite Rmult_1_r, mult_IZR. f_equal. change (2 ^ e) with (Zpower radix2 e). rewrite IZR_Zpower by assumption. reflexivity.
    - change (2 ^ - e) with (Zpower radix2 (- e)). rewrite IZR_Zpower by lia. rewrite Rmult_assoc, <- bpow_plus. replace (e + - e) with 0 by lia. cbn. ring. }
  assert (He : Z.min e 0 <= 0 /\ den = 2 ^ (- Z.min e 0)).
  { split; [lia|]. unfold den. destruct (Z.leb_spec 0 e); [rewrite Z.min_r by lia; reflexivity|rewrite Z.min_l by lia; reflexivity]. }
  destruct (shortest _ (magnitude x) num den (exponent10 num den) 1 (Z.min e 0)) as [m' k'] eqn:E.
  destruct (shortest_reads (magnitude x) num den (exponent10 num den) (Z.min e 0) Hf Hpos Hn Hd Hv He _ _ _ _ E) as [E1 E2].
  assert (ERN : (RN (dec m' k') = r64 (magnitude x))%R /\ (RN (dec m' k') < bpow radix2 1024)%R).
  { destruct (decimal64_spec false m' k' ltac:(lia)) as [(L & _ & V & _)|(_ & E3)]; rewrite E1 in *; [cbn [signed] in V; auto|]. rewrite E3 in Hf. discriminate. }
  exists m', k'. split; [reflexivity|]. split; [exact E2|]. split; [|apply ERN].
  destruct (decimal64_spec s m' k' ltac:(lia)) as [(_ & F & V & S)|(L & _)]; [|exfalso; destruct ERN; lra]. rewrite (proj1 ERN) in V.
  apply (B2R_Bsign_inj 53 1024); [exact F|reflexivity| |exact S]. fold (r64 (decimal64 s m' k')). rewrite V, Hr. unfold r64, x. cbn. destruct s; cbn [signed SpecFloat.cond_Zopp]; unfold F2R; cbn [Fnum Fexp]; [rewrite opp_IZR; ring|reflexivity].
Qed.

Lemma placed_head d exp : d <> [] -> forallb is_digit d = true -> exists c r, place_point d exp = c :: r /\ is_digit c = true.
Proof.
  intros Hne Hd. destruct d as [|c d]; [contradiction|]. cbn in Hd. apply andb_prop in Hd. destruct Hd as [Hc Hd]. unfold place_point. destruct (Z.leb_spec exp 0) as [L|L]; [eexists _, _; split; reflexivity|].
  destruct (Z.ltb_spec exp (Z.of_nat (length (c :: d)))) as [L2|L2]; [|eexists _, _; split; [reflexivity|exact Hc]].
  destruct (Z.to_nat exp) eqn:E; [lia|]. eexists _, _. split; [reflexivity|exact Hc].
Qed.
Lemma shown_head m k : 0 < m -> exists c r, show_decimal m k = c :: r /\ is_digit c = true.
Proof. intros Hm. destruct (show_decimal_spec m k Hm) as (d & -> & Hne & Hd & _). apply placed_head; assumption. Qed.

Lemma read_signed (s : bool) t c r m k : t = c :: r -> is_digit c = true -> parse_number t = Some (m, k) -> read_f64 ((if s then txt "-" else []) ++ t) = Some (decimal64 s m k).
Proof.
  intros -> Hc E. unfold read_f64. destruct s; cbn [app].
  - change (txt "-" ++ c :: r) with ("-"%char :: c :: r). cbv iota. rewrite E. reflexivity.
  - destruct c as [[] [] [] [] [] [] [] []]; try discriminate Hc; cbv iota; rewrite E; reflexivity.
Qed.

Theorem read_show x : fin x -> read_f64 (show_f64 x) = Some x.
Proof.
  intros Hx. destruct x as [s|s|s pl Hpl|s m e H]; try discriminate Hx; [destruct s; reflexivity|].
  destruct (show_finite s m e H) as (m' & k' & E & Hm & Ex & _). rewrite E. destruct (shown_head m' k' Hm) as (c & r & Ec & Hc). destruct (parse_shown m' k' Hm) as (m'' & k'' & Ep & H0 & Ev).
  rewrite (read_signed s _ c r m'' k'' Ec Hc Ep), (decimal64_value s m'' k'' m' k' H0 ltac:(lia) Ev), Ex. reflexivity.
Qed.

(** ** The printed decimal is the shortest one, and the closest of these *)
Lemma bpow10_pos k : (0 < bpow radix10 k)%R. Proof. apply bpow_gt_0. Qed.

Section Shortest.
Variables (x : binary64) (num den exact : Z).
Hypothesis Hx : fin x.
Hypothesis H0 : (0 < r64 x)%R.
Hypothesis Hnum : 0 < num.
Hypothesis Hden : 0 < den.
Hypothesis Hval : (r64 x * IZR den = IZR num)%R.
Hypothesis Hexact : exact <= 0 /\ den = 2 ^ (- exact).
Let e := exponent10 num den.

Lemma den_pos : (0 < IZR den)%R. Proof. apply IZR_lt. exact Hden. Qed.

(** comparisons of the double with decimals; [c] times the double, since the middle is compared with twice the double *)
Lemma below10_spec c m k : below10 (c * num) den m k = true <-> (IZR c * r64 x < dec m k)%R.
Proof.
  pose proof den_pos as D. pose proof (bpow10_pos k) as B. unfold below10, dec. destruct (Z.leb_spec 0 k) as [K|K]; rewrite Z.ltb_lt; (split; intros H; [apply IZR_lt in H|apply lt_IZR]); repeat rewrite mult_IZR in *; rewrite ?pow10 in * by lia.
  - apply (Rmult_lt_reg_r (IZR den)); [exact D|]. rewrite Rmult_assoc, Hval. exact H.
  - rewrite <- Hval, <- Rmult_assoc. apply Rmult_lt_compat_r; assumption.
  - apply (Rmult_lt_reg_r (bpow radix10 (- k) * IZR den)); [apply Rmult_lt_0_compat; [apply bpow10_pos|exact D]|].
    replace (IZR c * r64 x * (bpow radix10 (- k) * IZR den))%R with (IZR c * (r64 x * IZR den) * bpow radix10 (- k))%R by ring. rewrite Hval.
    replace (IZR m * bpow radix10 k * (bpow radix10 (- k) * IZR den))%R with (IZR m * IZR den * (bpow radix10 k * bpow radix10 (- k)))%R by ring. rewrite <- bpow_plus. replace (k + - k) with 0 by lia. cbn [bpow]. rewrite Rmult_1_r. exact H.
  - apply (Rmult_lt_compat_r (bpow radix10 (- k) * IZR den)) in H; [|apply Rmult_lt_0_compat; [apply bpow10_pos|exact D]].
    replace (IZR c * r64 x * (bpow radix10 (- k) * IZR den))%R with (IZR c * (r64 x * IZR den) * bpow radix10 (- k))%R in H by ring. rewrite Hval in H.
    replace (IZR m * bpow radix10 k * (bpow radix10 (- k) * IZR den))%R with (IZR m * IZR den * (bpow radix10 k * bpow radix10 (- k)))%R in H by ring. rewrite <- bpow_plus in H. replace (k + - k) with 0 in H by lia. cbn [bpow] in H. rewrite Rmult_1_r in H. exact H.
Qed.

Lemma exponent10_spec : (bpow radix10 (e - 1) <= r64 x < bpow radix10 e)%R.
Proof.
  pose proof den_pos as D. unfold e, exponent10. destruct (digits_of_spec num ltac:(lia)) as (_ & _ & Nn & Ln). destruct (digits_of_spec den ltac:(lia)) as (_ & _ & Nd & Ld). specialize (Ln Hnum). specialize (Ld Hden).
  assert (Pn : 1 <= length10 num) by (unfold length10; destruct (digits_of num); [contradiction|cbn [length]; lia]). assert (Pd : 1 <= length10 den) by (unfold length10; destruct (digits_of den); [contradiction|cbn [length]; lia]).
  destruct Ln as [Ln1 Ln2], Ld as [Ld1 Ld2]. apply IZR_le in Ln1, Ld1. apply IZR_lt in Ln2, Ld2. rewrite pow10 in * by lia.
  set (e0 := length10 num - length10 den).
  assert (A : (bpow radix10 (e0 - 1) <= r64 x)%R).
  { apply (Rmult_le_reg_r (IZR den)); [exact D|]. rewrite Hval. apply Rle_trans with (bpow radix10 (e0 - 1) * bpow radix10 (length10 den))%R; [apply Rmult_le_compat_l; [apply bpow_ge_0|lra]|]. rewrite <- bpow_plus. unfold e0. replace (length10 num - length10 den - 1 + length10 den) with (length10 num - 1) by lia. exact Ln1. }
  assert (B : (r64 x < bpow radix10 (e0 + 1))%R).
  { apply (Rmult_lt_reg_r (IZR den)); [exact D|]. rewrite Hval. apply Rlt_le_trans with (bpow radix10 (e0 + 1) * bpow radix10 (length10 den - 1))%R; [|apply Rmult_le_compat_l; [apply bpow_ge_0|exact Ld1]]. rewrite <- bpow_plus. unfold e0. replace (length10 num - length10 den + 1 + (length10 den - 1)) with (length10 num) by lia. exact Ln2. }
  pose proof (below10_spec 1 1 e0) as S. rewrite Z.mul_1_l in S. unfold dec in S. rewrite !Rmult_1_l in S. destruct (below10 num den 1 e0) eqn:E.
  - split; [exact A|]. apply S. reflexivity.
  - replace (e0 + 1 - 1) with e0 by lia. split; [|exact B]. apply Rnot_lt_le. intros H. apply S in H. congruence.
Qed.

Lemma floor10_spec k : (dec (floor10 num den k) k <= r64 x < dec (floor10 num den k + 1) k)%R.
Proof.
  pose proof den_pos as D. unfold floor10, dec. destruct (Z.leb_spec 0 k) as [K|K].
  - set (P := den * 10 ^ k). assert (HP : 0 < P) by (apply Z.mul_pos_pos; [lia|apply Z.pow_pos_nonneg; lia]). pose proof (Z.mul_div_le num P HP) as L1. pose proof (Z.mul_succ_div_gt num P HP) as L2. apply IZR_le in L1. apply IZR_lt in L2. rewrite <- Z.add_1_r in L2.
    assert (EP : IZR P = (IZR den * bpow radix10 k)%R) by (unfold P; rewrite mult_IZR, pow10 by lia; reflexivity). rewrite mult_IZR in L1, L2. rewrite EP, <- Hval in L1, L2. split.
    + apply (Rmult_le_reg_l (IZR den)); [exact D|]. lra.
    + apply (Rmult_lt_reg_l (IZR den)); [exact D|]. lra.
  - set (T := num * 10 ^ - k). pose proof (Z.mul_div_le T den Hden) as L1. pose proof (Z.mul_succ_div_gt T den Hden) as L2. apply IZR_le in L1. apply IZR_lt in L2. rewrite <- Z.add_1_r in L2.
    assert (ET : IZR T = (r64 x * IZR den * bpow radix10 (- k))%R) by (unfold T; rewrite mult_IZR, pow10, Hval by lia; reflexivity). rewrite mult_IZR in L1, L2. rewrite ET in L1, L2. pose proof (bpow10_pos (- k)) as Bk.
    assert (E1 : (bpow radix10 k * bpow radix10 (- k) = 1)%R) by (rewrite <- bpow_plus; replace (k + - k) with 0 by lia; reflexivity).
    split.
    + apply (Rmult_le_reg_r (IZR den * bpow radix10 (- k))); [apply Rmult_lt_0_compat; assumption|]. replace (IZR (T / den) * bpow radix10 k * (IZR den * bpow radix10 (- k)))%R with (IZR den * IZR (T / den) * (bpow radix10 k * bpow radix10 (- k)))%R by ring. rewrite E1. lra.
    + apply (Rmult_lt_reg_r (IZR den * bpow radix10 (- k))); [apply Rmult_lt_0_compat; assumption|]. replace (IZR (T / den + 1) * bpow radix10 k * (IZR den * bpow radix10 (- k)))%R with (IZR den * IZR (T / den + 1) * (bpow radix10 k * bpow radix10 (- k)))%R by ring. rewrite E1. lra.
Qed.

Lemma reads_iff m k : 0 <= m -> (decimal64 false m k = x <-> RN (dec m k) = r64 x).
Proof.
  intros Hm. pose proof (fin_lt x) as K. rewrite Rabs_pos_eq in K by lra. destruct (decimal64_spec false m k Hm) as [(L & F & V & S)|(L & E)]; cbn [signed] in *; split; intros H.
  - rewrite <- V, H. reflexivity.
  - apply (B2R_inj 53 1024); [apply strict_pos; [exact F|lra]|apply strict_pos; assumption|]. change (r64 (decimal64 false m k) = r64 x). congruence.
  - rewrite E in H. rewrite <- H in Hx. discriminate.
  - lra.
Qed.
Lemma cmp_eq_iff m k : 0 <= m -> (b64_cmp_eq (decimal64 false m k) x = true <-> RN (dec m k) = r64 x).
Proof.
  intros Hm. rewrite <- reads_iff by exact Hm. split; [apply cmp_eq_fin; [exact Hx|lra]|]. intros ->. unfold b64_cmp_eq, b64_compare. rewrite Bcompare_correct by exact Hx. rewrite Rcompare_Eq by reflexivity. reflexivity.
Qed.
Lemma between a b : (a <= b <= r64 x)%R \/ (r64 x <= b <= a)%R -> RN a = r64 x -> RN b = r64 x.
Proof.
  intros [[H1 H2]|[H1 H2]] E; apply RN_mono in H1; apply RN_mono in H2; rewrite RN_r64, E in *; lra.
Qed.

(** the decimals with at most [n] digits keep out of the gap around the double *)
Lemma gap n m' k' : 1 <= n -> 0 < m' < 10 ^ n -> let k := e - n in let lo := floor10 num den k in (dec m' k' <= dec lo k)%R \/ (dec (lo + 1) k <= dec m' k')%R.
Proof.
  intros Hn Hm k lo. pose proof (floor10_spec k) as [F1 F2]. fold lo in F1, F2. pose proof exponent10_spec as [E1 E2]. pose proof (bpow10_pos k) as Bk.
  destruct (Z.le_gt_cases k k') as [K|K].
  - replace (dec m' k') with (dec (m' * 10 ^ (k' - k)) k) by (rewrite dec_scale by lia; f_equal; lia). unfold dec.
    destruct (Z.le_gt_cases (m' * 10 ^ (k' - k)) lo) as [L|L]; [left|right]; (apply Rmult_le_compat_r; [lra|]; apply IZR_le; lia).
  - destruct (Rle_or_lt (dec m' k') (dec lo k)) as [L|L]; [left; exact L|]. exfalso.
    assert (Y : (dec m' k' <= bpow radix10 (e - 1))%R).
    { unfold dec. apply Rle_trans with (bpow radix10 n * bpow radix10 k')%R; [apply Rmult_le_compat_r; [apply bpow_ge_0|]; rewrite <- pow10 by lia; apply IZR_le; lia|]. rewrite <- bpow_plus. apply bpow_le. lia. }
    assert (Llo : lo < 10 ^ (n - 1)).
    { apply lt_IZR. rewrite pow10 by lia. apply (Rmult_lt_reg_r (bpow radix10 k)); [exact Bk|]. rewrite <- bpow_plus. replace (n - 1 + k) with (e - 1) by lia. unfold dec in L at 1. lra. }
    assert (Z1 : (dec (lo + 1) k <= bpow radix10 (e - 1))%R).
    { unfold dec. replace (e - 1) with ((n - 1) + k) by lia. rewrite bpow_plus. apply Rmult_le_compat_r; [lra|]. rewrite <- pow10 by lia. apply IZR_le. lia. }
    lra.
Qed.

Lemma with_digits_none n m' k' : 1 <= n -> with_digits x num den e n = None -> 0 < m' < 10 ^ n -> RN (dec m' k') <> r64 x.
Proof.
  intros Hn E Hm Ey. assert (G : 0 <= floor10 num den (e - n)) by (exact (floor10_ge0 num den exact Hnum Hden (e - n))). pose proof (floor10_spec (e - n)) as [F1 F2]. pose proof (gap n m' k' Hn Hm) as Hg. cbv zeta in Hg. unfold with_digits in E. set (lo := floor10 num den (e - n)) in *.
  destruct (b64_cmp_eq (decimal64 false lo (e - n)) x) eqn:E1, (b64_cmp_eq (decimal64 false (lo + 1) (e - n)) x) eqn:E2; try discriminate.
  destruct Hg as [Hg|Hg].
  - assert (RN (dec lo (e - n)) = r64 x) by (apply (between (dec m' k')); [left; lra|exact Ey]). apply cmp_eq_iff in H; [congruence|lia].
  - assert (RN (dec (lo + 1) (e - n)) = r64 x) by (apply (between (dec m' k')); [right; lra|exact Ey]). apply cmp_eq_iff in H; [congruence|lia].
Qed.

Lemma with_digits_some n m k : 1 <= n -> with_digits x num den e n = Some (m, k) -> 0 < m <= 10 ^ n /\ k = e - n /\ RN (dec m k) = r64 x /\
  forall m' k', 0 < m' < 10 ^ n -> RN (dec m' k') = r64 x -> (Rabs (dec m k - r64 x) <= Rabs (dec m' k' - r64 x))%R.
Proof.
  intros Hn E. assert (Hrm : decimal64 false m k = x /\ 0 < m) by (exact (with_digits_reads x num den e exact Hx H0 Hnum Hden n m k E)). destruct Hrm as [Hr Hm0]. rewrite reads_iff in Hr by lia.
  assert (G : 0 <= floor10 num den (e - n)) by (exact (floor10_ge0 num den exact Hnum Hden (e - n))). pose proof (floor10_spec (e - n)) as [F1 F2]. pose proof (gap n) as Hg. cbv zeta in Hg. unfold with_digits in E.
  pose proof (below10_spec 2 (2 * floor10 num den (e - n) + 1) (e - n)) as Hb. set (lo := floor10 num den (e - n)) in *.
  assert (Hlo : lo < 10 ^ n).
  { apply lt_IZR. rewrite pow10 by lia. apply (Rmult_lt_reg_r (bpow radix10 (e - n))); [apply bpow10_pos|]. rewrite <- bpow_plus. replace (n + (e - n)) with e by lia. pose proof exponent10_spec. unfold dec in F1. lra. }
  assert (D1 : dec (lo + 1) (e - n) = (dec lo (e - n) + bpow radix10 (e - n))%R) by (unfold dec; rewrite plus_IZR; ring).
  assert (D2 : dec (2 * lo + 1) (e - n) = (2 * dec lo (e - n) + bpow radix10 (e - n))%R) by (unfold dec; rewrite plus_IZR, mult_IZR; ring).
  assert (Kk : k = e - n /\ (m = lo \/ m = lo + 1)).
  { destruct (b64_cmp_eq (decimal64 false lo (e - n)) x), (b64_cmp_eq (decimal64 false (lo + 1) (e - n)) x); try discriminate; injection E as Em Ek; (split; [congruence|]); try (destruct (below10 _ _ _ _) in Em; subst m; auto); subst m; auto. }
  split; [lia|]. split; [apply Kk|]. split; [exact Hr|]. intros m' k' Hm' Ey. specialize (Hg m' k' Hn Hm').
  destruct Kk as [-> Kk].
  assert (Flo : RN (dec lo (e - n)) = r64 x \/ ~ (dec m' k' <= dec lo (e - n))%R).
  { destruct (Rle_or_lt (dec m' k') (dec lo (e - n))); [left; apply (between (dec m' k')); [left; lra|exact Ey]|right; lra]. }
  assert (Fhi : RN (dec (lo + 1) (e - n)) = r64 x \/ ~ (dec (lo + 1) (e - n) <= dec m' k')%R).
  { destruct (Rle_or_lt (dec (lo + 1) (e - n)) (dec m' k')); [left; apply (between (dec m' k')); [right; lra|exact Ey]|right; lra]. }
  rewrite (Rabs_left1 (dec lo (e - n) - r64 x)) || idtac.
  assert (Alo : Rabs (dec lo (e - n) - r64 x) = (r64 x - dec lo (e - n))%R) by (rewrite Rabs_left1; lra).
  assert (Ahi : Rabs (dec (lo + 1) (e - n) - r64 x) = (dec (lo + 1) (e - n) - r64 x)%R) by (rewrite Rabs_pos_eq; lra).
  assert (Ay : (dec m' k' <= dec lo (e - n) /\ Rabs (dec m' k' - r64 x) = r64 x - dec m' k' \/ dec (lo + 1) (e - n) <= dec m' k' /\ Rabs (dec m' k' - r64 x) = dec m' k' - r64 x)%R).
  { destruct Hg; [left|right]; (split; [assumption|]); [rewrite Rabs_left1; lra|rewrite Rabs_pos_eq; lra]. }
  destruct (b64_cmp_eq (decimal64 false lo (e - n)) x) eqn:E1, (b64_cmp_eq (decimal64 false (lo + 1) (e - n)) x) eqn:E2; try discriminate.
  - destruct (below10 (2 * num) den (2 * lo + 1) (e - n)) eqn:E3; injection E as Em; subst m.
    + destruct Hb as [Hb _]. specialize (Hb eq_refl). rewrite Alo. lra.
    + rewrite Ahi. assert (~ (2 * r64 x < dec (2 * lo + 1) (e - n))%R) by (intros H; apply Hb in H; congruence). lra.
  - injection E as Em. subst m. rewrite Alo. destruct Ay as [Ay|[Ay1 Ay2]]; [lra|]. destruct Fhi as [Fhi|Fhi]; [|contradiction]. apply cmp_eq_iff in Fhi; [congruence|lia].
  - injection E as Em. subst m. rewrite Ahi. destruct Ay as [[Ay1 Ay2]|Ay]; [|lra]. destruct Flo as [Flo|Flo]; [|contradiction]. apply cmp_eq_iff in Flo; [congruence|lia].
Qed.

Lemma exact_found : exists m', 0 < m' < 10 ^ (e - exact) /\ RN (dec m' exact) = r64 x /\ 1 <= e - exact.
Proof.
  assert (Hee : decimal64 false (num * 5 ^ (- exact)) exact = x /\ 0 < num * 5 ^ (- exact)) by (eapply exact_is_exact; eassumption). destruct Hee as [E1 E2]. exists (num * 5 ^ (- exact)). set (m' := num * 5 ^ - exact) in *. rewrite reads_iff in E1 by lia.
  assert (Ev : dec m' exact = r64 x).
  { unfold dec, m'. destruct Hexact as [He Ed]. pose proof den_pos as D. rewrite mult_IZR. assert (E10 : (bpow radix10 exact * (IZR (5 ^ - exact) * IZR den) = 1)%R).
    { rewrite Ed, <- mult_IZR, <- Z.pow_mul_l. change (5 * 2) with 10. rewrite pow10 by lia. rewrite <- bpow_plus. replace (exact + - exact) with 0 by lia. reflexivity. }
    apply (Rmult_eq_reg_r (IZR den)); [|lra]. rewrite Hval. replace (IZR num * IZR (5 ^ - exact) * bpow radix10 exact * IZR den)%R with (IZR num * (bpow radix10 exact * (IZR (5 ^ - exact) * IZR den)))%R by ring. rewrite E10. ring. }
  pose proof exponent10_spec as [_ E3].
  assert (L : exact < e).
  { apply (lt_bpow radix10). apply Rle_lt_trans with (r64 x); [|exact E3]. rewrite <- Ev. unfold dec. rewrite <- (Rmult_1_l (bpow radix10 exact)) at 1. apply Rmult_le_compat_r; [apply bpow_ge_0|]. apply IZR_le. lia. }
  split; [|split; [exact E1|lia]]. split; [exact E2|]. apply lt_IZR. rewrite pow10 by lia. apply (Rmult_lt_reg_r (bpow radix10 exact)); [apply bpow10_pos|]. rewrite <- bpow_plus. replace (e - exact + exact) with e by lia. unfold dec in Ev. rewrite Ev. exact E3.
Qed.

Lemma shortest_least fuel : forall n m k, 1 <= n -> n + Z.of_nat fuel = e - exact + 1 ->
  (forall m' k', 0 < m' < 10 ^ (n - 1) -> RN (dec m' k') <> r64 x) ->
  shortest fuel x num den e n exact = (m, k) ->
  exists n', 1 <= n' /\ 0 < m <= 10 ^ n' /\ RN (dec m k) = r64 x /\
    (forall m' k', 0 < m' < 10 ^ (n' - 1) -> RN (dec m' k') <> r64 x) /\
    forall m' k', 0 < m' < 10 ^ n' -> RN (dec m' k') = r64 x -> (Rabs (dec m k - r64 x) <= Rabs (dec m' k' - r64 x))%R.
Proof.
  induction fuel as [|fuel IH]; intros n m k Hn Hf Hless E; cbn [shortest] in E.
  - exfalso. destruct exact_found as (m' & Hm' & Er & _). apply (Hless m' exact); [|exact Er]. replace (n - 1) with (e - exact) by lia. exact Hm'.
  - destruct (with_digits x num den e n) as [[m0 k0]|] eqn:Ew.
    + injection E as <- <-. destruct (with_digits_some n m0 k0 Hn Ew) as (H1 & H2 & H3 & H4). exists n. auto.
    + apply (IH (n + 1)); [lia|lia| |exact E]. intros m' k' Hm'. replace (n + 1 - 1) with n in Hm' by lia. apply (with_digits_none n); assumption.
Qed.
End Shortest.

Lemma show_finite_least s m e H : let x := B754_finite 53 1024 s m e H in exists m' k' n', show_f64 x = (if s then txt "-" else []) ++ show_decimal m' k' /\ 0 < m' <= 10 ^ n' /\ 1 <= n' /\
  (RN (dec m' k') = r64 (magnitude x))%R /\
  (forall m'' k'', 0 < m'' < 10 ^ (n' - 1) -> RN (dec m'' k'') <> r64 (magnitude x)) /\
  forall m'' k'', 0 < m'' < 10 ^ n' -> RN (dec m'' k'') = r64 (magnitude x) -> (Rabs (dec m' k' - r64 (magnitude x)) <= Rabs (dec m'' k'' - r64 (magnitude x)))%R.
Proof.
  intros x. unfold show_f64, x, show_magnitude. set (num := if 0 <=? e then Zpos m * 2 ^ e else Zpos m). set (den := if 0 <=? e then 1 else 2 ^ (- e)). fold (magnitude (B754_finite 53 1024 s m e H)). fold x.
  assert (Hr : r64 (magnitude x) = (IZR (Zpos m) * bpow radix2 e)%R) by reflexivity.
  assert (Hf : fin (magnitude x)) by reflexivity.
  assert (Hpos : (0 < r64 (magnitude x))%R) by (rewrite Hr; apply Rmult_lt_0_compat; [apply IZR_lt; reflexivity|apply bpow_gt_0]).
  assert (Hn : 0 < num) by (unfold num; destruct (Z.leb_spec 0 e); [apply Z.mul_pos_pos; [reflexivity|apply Z.pow_pos_nonneg; lia]|reflexivity]).
  assert (Hd : 0 < den) by (unfold den; destruct (Z.leb_spec 0 e); [reflexivity|apply Z.pow_pos_nonneg; lia]).
  assert (Hv : (r64 (magnitude x) * IZR den = IZR num)%R).
  { rewrite Hr. unfold num, den. destruct (Z.leb_spec 0 e).
    - rewrite Rmult_1_r, mult_IZR. f_equal. change (2 ^ e) with (Zpower radix2 e). rewrite IZR_Zpower by assumption. reflexivity.
    - change (2 ^ - e) with (Zpower radix2 (- e)). rewrite IZR_Zpower by lia. rewrite Rmult_assoc, <- bpow_plus. replace (e + - e) with 0 by lia. cbn. ring. }
  assert (He : Z.min e 0 <= 0 /\ den = 2 ^ (- Z.min e 0)).
  { split; [lia|]. unfold den. destruct (Z.leb_spec 0 e); [rewrite Z.min_r by lia; reflexivity|rewrite Z.min_l by lia; reflexivity]. }
  destruct (shortest _ (magnitude x) num den (exponent10 num den) 1 (Z.min e 0)) as [m' k'] eqn:E.
  destruct (exact_found (magnitude x) num den (Z.min e 0) Hf Hpos Hn Hd Hv He) as (_ & _ & _ & Hlen).
  destruct (shortest_least (magnitude x) num den (Z.min e 0) Hf Hpos Hn Hd Hv He (Z.to_nat (exponent10 num den - Z.min e 0)) 1 m' k') as (n' & H1 & H2 & H3 & H4 & H5); [lia|rewrite Z2Nat.id by lia; lia| |exact E|].
  { intros m'' k'' Hm''. cbn in Hm''. lia. }
  exists m', k', n'. split; [reflexivity|]. auto.
Qed.
