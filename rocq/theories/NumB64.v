(** IEEE-754 binary64 (round to nearest, ties to even) as an instance of [Num]. *)
From Coq Require Import ZArith Bool List Lia Reals Lra ZifyBool.
From Flocq Require Import Core IEEE754.Binary IEEE754.Bits.
From Flocq Require IEEE754.BinarySingleNaN.
From Verif Require Import Num.
Local Open Scope Z_scope.
Local Notation mode_NE := BinarySingleNaN.mode_NE.

Definition b64_cmp_lt (x y : binary64) : bool :=
  match b64_compare x y with Some Lt => true | _ => false end.
Definition b64_cmp_le (x y : binary64) : bool :=
  match b64_compare x y with Some Lt | Some Eq => true | _ => false end.
Definition b64_cmp_eq (x y : binary64) : bool :=
  match b64_compare x y with Some Eq => true | _ => false end.

(** The literals are given by their bit patterns: [f64::INFINITY], [-1.0], [1e-10], [0.5]. *)
Definition b64_inf : binary64 := B754_infinity 53 1024 false.
Definition b64_zero : binary64 := B754_zero 53 1024 false.
Definition b64_neg1 : binary64 := b64_of_bits 13830554455654793216.
Definition b64_eps : binary64 := b64_of_bits 4457293557087583675.
Definition b64_onehalf : binary64 := b64_of_bits 4602678819172646912.

Definition B64 : Num :=
  mkNum binary64 b64_zero b64_inf b64_neg1 b64_eps
    (b64_plus mode_NE) (b64_minus mode_NE) (fun x => b64_mult mode_NE x b64_onehalf)
    b64_cmp_lt b64_cmp_le b64_cmp_eq.

(** ** Order laws *)

Definition b64_ext (x : binary64) : option (Z * R) :=
  match x with
  | B754_nan _ _ _ _ _ => None
  | B754_infinity _ _ true => Some (-1, 0%R)
  | B754_infinity _ _ false => Some (1, 0%R)
  | _ => Some (0, B2R 53 1024 x)
  end.

Definition ext_cmp (a b : Z * R) : comparison :=
  match Z.compare (fst a) (fst b) with
  | Eq => Rcompare (snd a) (snd b)
  | c => c
  end.

Lemma b64_compare_ext x y :
  b64_compare x y =
  match b64_ext x, b64_ext y with
  | Some a, Some b => Some (ext_cmp a b)
  | _, _ => None
  end.
Proof.
  destruct (is_finite _ _ x) eqn:Fx; destruct (is_finite _ _ y) eqn:Fy.
  - unfold b64_compare. rewrite Bcompare_correct by assumption.
    destruct x, y; simpl in Fx, Fy; try discriminate; unfold b64_ext, ext_cmp; simpl; reflexivity.
  - destruct x, y; simpl in Fx, Fy; try discriminate;
      repeat match goal with s : bool |- _ => destruct s end; reflexivity.
  - destruct x, y; simpl in Fx, Fy; try discriminate;
      repeat match goal with s : bool |- _ => destruct s end; reflexivity.
  - destruct x, y; simpl in Fx, Fy; try discriminate;
      repeat match goal with s : bool |- _ => destruct s end; unfold b64_ext, ext_cmp; simpl;
      try rewrite Rcompare_Eq by reflexivity; reflexivity.
Qed.

Definition ext_le (a b : Z * R) : Prop :=
  fst a < fst b \/ (fst a = fst b /\ (snd a <= snd b)%R).

Lemma ext_cmp_le a b : match ext_cmp a b with Lt | Eq => true | Gt => false end = true <-> ext_le a b.
Proof.
  unfold ext_cmp, ext_le. destruct (Z.compare_spec (fst a) (fst b)) as [H|H|H].
  - destruct (Rcompare_spec (snd a) (snd b)); split; intros; try reflexivity; try discriminate.
    + right. split; [assumption|lra].
    + right. split; [assumption|lra].
    + exfalso. destruct H1 as [|[_ ?]]; [lia|lra].
  - split; intros; [left; assumption|reflexivity].
  - split; intros; [discriminate|exfalso; destruct H0 as [|[? _]]; lia].
Qed.

Lemma ext_cmp_sym a b : ext_cmp b a = CompOpp (ext_cmp a b).
Proof.
  unfold ext_cmp. rewrite Z.compare_antisym.
  destruct (fst a ?= fst b) eqn:E; simpl; try reflexivity.
  rewrite Rcompare_sym. reflexivity.
Qed.

Lemma b64_le_ext x y : b64_cmp_le x y = true <->
  exists a b, b64_ext x = Some a /\ b64_ext y = Some b /\ ext_le a b.
Proof.
  unfold b64_cmp_le. rewrite b64_compare_ext.
  destruct (b64_ext x) as [a|], (b64_ext y) as [b|]; try (split; [discriminate|intros (?&?&?&?&?); discriminate]).
  pose proof (ext_cmp_le a b) as H.
  split.
  - intros. exists a, b. split; [reflexivity|split; [reflexivity|]]. apply H.
    destruct (ext_cmp a b); congruence.
  - intros (a'&b'&Ha&Hb&Hle). injection Ha as <-. injection Hb as <-. apply H in Hle.
    destruct (ext_cmp a b); congruence.
Qed.

Lemma b64_nan_ext x : @cnan B64 x = true <-> b64_ext x = None.
Proof.
  unfold cnan; simpl. unfold b64_cmp_eq. rewrite b64_compare_ext.
  destruct (b64_ext x) as [[z r]|].
  - split; [|discriminate]. unfold ext_cmp. rewrite Z.compare_refl. simpl.
    rewrite Rcompare_Eq by reflexivity. discriminate.
  - split; reflexivity.
Qed.

Lemma b64_nnan_ext x : @cnan B64 x = false <-> exists a, b64_ext x = Some a.
Proof.
  pose proof (b64_nan_ext x) as H. destruct (b64_ext x) as [a|].
  - split; [intros _; exists a; reflexivity|].
    intros _. destruct (@cnan B64 x); [|reflexivity]. exfalso. destruct H as [H _]. specialize (H eq_refl). discriminate.
  - split; [|intros [a Ha]; discriminate]. intros E. destruct H as [_ H]. specialize (H eq_refl). rewrite H in E; discriminate.
Qed.

Lemma B64_ord : NumOrd B64.
Proof.
  constructor; simpl.
  - intros x. destruct (@cnan B64 x) eqn:E; simpl.
    + destruct (b64_cmp_le x x) eqn:E2; [|reflexivity]. apply b64_le_ext in E2.
      apply b64_nan_ext in E. destruct E2 as (a&b&H&_). rewrite H in E; discriminate.
    + apply b64_le_ext. apply b64_nnan_ext in E. destruct E as [a Ha]. exists a, a.
      repeat split; try assumption. right. split; [reflexivity|lra].
  - intros x y H. apply b64_le_ext in H. destruct H as (a&b&H1&H2&_). apply b64_nnan_ext. eauto.
  - intros x y H. apply b64_le_ext in H. destruct H as (a&b&H1&H2&_). apply b64_nnan_ext. eauto.
  - intros x y Hx Hy. apply b64_nnan_ext in Hx, Hy. destruct Hx as [a Ha], Hy as [b Hb].
    assert (ext_le a b \/ ext_le b a) as [H|H].
    { unfold ext_le. destruct (Z.lt_trichotomy (fst a) (fst b)) as [?|[?|?]]; auto.
      destruct (Rle_lt_dec (snd a) (snd b)); auto. right; right; split; [lia|lra]. }
    + left. apply b64_le_ext. eauto 6.
    + right. apply b64_le_ext. eauto 6.
  - intros x y z H1 H2. apply b64_le_ext in H1, H2. destruct H1 as (a&b&Ha&Hb&Hab), H2 as (b'&c&Hb'&Hc&Hbc).
    rewrite Hb in Hb'. injection Hb' as <-. apply b64_le_ext. exists a, c. repeat split; auto.
    unfold ext_le in *. destruct Hab as [?|[? ?]], Hbc as [?|[? ?]]; [left; lia..|right; split; [lia|lra]].
  - intros x y. unfold b64_cmp_lt, b64_cmp_le. rewrite !b64_compare_ext.
    destruct (b64_ext x) as [a|], (b64_ext y) as [b|]; try reflexivity.
    rewrite (ext_cmp_sym a b). destruct (ext_cmp a b); reflexivity.
  - intros x y. unfold b64_cmp_eq, b64_cmp_le. rewrite !b64_compare_ext.
    destruct (b64_ext x) as [a|], (b64_ext y) as [b|]; try reflexivity.
    rewrite (ext_cmp_sym a b). destruct (ext_cmp a b); reflexivity.
  - intros x H. apply b64_nnan_ext in H. destruct H as [a Ha]. apply b64_le_ext.
    exists a, (1, 0%R). repeat split; auto. unfold ext_le; simpl.
    destruct x as [s|[]|s pl H|s m e H]; simpl in Ha; inversion Ha; subst; simpl; try (left; lia).
    right; split; [reflexivity|lra].
  - reflexivity.
  - reflexivity.
Qed.

(** ** Exactness on the multiples [z * 2^e] with [|z| <= 2^53] *)

Section Exact.
Variable e : Z.
Hypothesis He : -1074 <= e <= 970.

Let fexp := SpecFloat.fexp 53 1024.

Lemma Hprec : FLX.Prec_gt_0 53. Proof. reflexivity. Qed.
Lemma Hmax : BinarySingleNaN.Prec_lt_emax 53 1024. Proof. reflexivity. Qed.

Definition b64_inj (z : Z) : binary64 :=
  binary_normalize 53 1024 Hprec Hmax mode_NE z e false.

Definition val (z : Z) : R := F2R (Float radix2 z e).

Lemma val_format z : Z.abs z <= 2^53 -> generic_format radix2 fexp (val z).
Proof.
  intros H. unfold val.
  destruct (Z.eq_dec (Z.abs z) (2^53)) as [E|E].
  - assert (exists s, (s = 1 \/ s = -1) /\ z = s * 2^53) as (s & Hs & ->).
    { destruct (Z.le_gt_cases 0 z); [exists 1|exists (-1)]; lia. }
    replace (F2R (Float radix2 (s * 2^53) e)) with (F2R (Float radix2 s (e + 53))).
    + apply generic_format_F2R. intros _. unfold cexp, fexp, SpecFloat.fexp, SpecFloat.emin.
      rewrite mag_F2R by lia.
      assert (Hm : (mag radix2 (IZR s) : Z) = 1).
      { destruct Hs as [-> | ->].
        - apply mag_unique. simpl. rewrite Rabs_pos_eq; lra.
        - apply mag_unique. simpl. rewrite Rabs_left; lra. }
      rewrite Hm. lia.
    + unfold F2R; cbn [Fnum Fexp]. rewrite bpow_plus, mult_IZR.
      replace (bpow radix2 53) with (IZR (2^53)) by reflexivity.
      generalize (IZR (2^53)). intros. ring.
  - apply generic_format_F2R. intros Hz. unfold cexp, fexp, SpecFloat.fexp, SpecFloat.emin.
    rewrite mag_F2R by assumption.
    assert ((mag radix2 (IZR z) : Z) <= 53).
    { apply mag_le_bpow; [apply IZR_neq; assumption|].
      rewrite <- abs_IZR. change (bpow radix2 53) with (IZR (2^53)). apply IZR_lt. lia. }
    lia.
Qed.

Lemma val_small z : Z.abs z <= 2^53 -> (Rabs (val z) < bpow radix2 1024)%R.
Proof.
  intros H. unfold val. rewrite <- F2R_Zabs. unfold F2R; cbn [Fnum Fexp].
  apply Rle_lt_trans with (IZR (2^53) * bpow radix2 e)%R.
  - apply Rmult_le_compat_r; [apply bpow_ge_0|]. apply IZR_le; assumption.
  - change (IZR (2^53)) with (bpow radix2 53). rewrite <- bpow_plus. apply bpow_lt. lia.
Qed.

Lemma val_round z : Z.abs z <= 2^53 -> round radix2 fexp (BinarySingleNaN.round_mode mode_NE) (val z) = val z.
Proof. intros. apply round_generic; [auto with typeclass_instances|]. apply val_format; assumption. Qed.

Lemma val_cmp a b : Rcompare (val a) (val b) = Z.compare a b.
Proof. unfold val. apply Rcompare_F2R. Qed.

Lemma val_0 : val 0 = 0%R. Proof. unfold val. apply F2R_0. Qed.

Lemma val_add a b : (val a + val b)%R = val (a + b).
Proof. unfold val, F2R; simpl. rewrite plus_IZR. ring. Qed.

Lemma val_sub a b : (val a - val b)%R = val (a - b).
Proof. unfold val, F2R; simpl. rewrite minus_IZR. ring. Qed.

Lemma inj_correct z : Z.abs z <= 2^53 ->
  B2R _ _ (b64_inj z) = val z /\ is_finite _ _ (b64_inj z) = true /\ Bsign _ _ (b64_inj z) = (z <? 0).
Proof.
  intros H. pose proof (binary_normalize_correct 53 1024 Hprec Hmax mode_NE z e false) as K.
  fold (b64_inj z) in K. fold (val z) in K. fold fexp in K.
  rewrite val_round in K by assumption.
  rewrite Rlt_bool_true in K by (apply val_small; assumption).
  destruct K as (K1&K2&K3). repeat split; try assumption.
  rewrite K3. rewrite <- val_0, val_cmp. destruct (Z.compare_spec z 0); lia.
Qed.

Lemma inj_unique x z : Z.abs z <= 2^53 -> is_finite _ _ x = true -> B2R _ _ x = val z ->
  Bsign _ _ x = (z <? 0) -> x = b64_inj z.
Proof.
  intros H F R S. destruct (inj_correct z H) as (K1&K2&K3).
  apply B2R_Bsign_inj; congruence.
Qed.

Lemma b64_inj_add a b : Z.abs a <= 2^53 -> Z.abs b <= 2^53 -> Z.abs (a + b) <= 2^53 ->
  b64_plus mode_NE (b64_inj a) (b64_inj b) = b64_inj (a + b).
Proof.
  intros Ha Hb Hab.
  destruct (inj_correct a Ha) as (A1&A2&A3), (inj_correct b Hb) as (B1&B2&B3).
  pose proof (Bplus_correct 53 1024 eq_refl eq_refl binop_nan_pl64 mode_NE (b64_inj a) (b64_inj b) A2 B2) as K.
  rewrite A1, B1, val_add in K. fold fexp in K.
  rewrite val_round in K by assumption.
  rewrite Rlt_bool_true in K by (apply val_small; assumption).
  destruct K as (K1&K2&K3). apply inj_unique; try assumption.
  unfold b64_plus. rewrite K3, <- val_0, val_cmp, A3, B3.
  destruct (Z.compare_spec (a + b) 0); lia.
Qed.

Lemma b64_inj_sub a b : Z.abs a <= 2^53 -> Z.abs b <= 2^53 -> Z.abs (a - b) <= 2^53 ->
  b64_minus mode_NE (b64_inj a) (b64_inj b) = b64_inj (a - b).
Proof.
  intros Ha Hb Hab.
  destruct (inj_correct a Ha) as (A1&A2&A3), (inj_correct b Hb) as (B1&B2&B3).
  pose proof (Bminus_correct 53 1024 eq_refl eq_refl binop_nan_pl64 mode_NE (b64_inj a) (b64_inj b) A2 B2) as K.
  rewrite A1, B1, val_sub in K. fold fexp in K.
  rewrite val_round in K by assumption.
  rewrite Rlt_bool_true in K by (apply val_small; assumption).
  destruct K as (K1&K2&K3). apply inj_unique; try assumption.
  unfold b64_minus. rewrite K3, <- val_0, val_cmp, A3, B3.
  destruct (Z.compare_spec (a - b) 0); lia.
Qed.

Lemma b64_half_correct : B2R 53 1024 b64_onehalf = (/ 2)%R.
Proof.
  change (B2R 53 1024 b64_onehalf) with (F2R (Float radix2 4503599627370496 (-53))).
  unfold F2R. cbn [Fnum Fexp]. change 4503599627370496 with (2^52).
  change (IZR (2 ^ 52)) with (bpow radix2 52). rewrite <- bpow_plus. reflexivity.
Qed.

Lemma fin_not_nan (x : binary64) : is_finite 53 1024 x = true -> is_nan 53 1024 x = false.
Proof. destruct x; simpl; congruence. Qed.

Lemma b64_inj_half a : Z.abs (2 * a) <= 2^53 ->
  b64_mult mode_NE (b64_inj (2 * a)) b64_onehalf = b64_inj a.
Proof.
  intros Ha. assert (Ha' : Z.abs a <= 2^53) by lia.
  destruct (inj_correct (2 * a) Ha) as (A1&A2&A3).
  pose proof (Bmult_correct 53 1024 eq_refl eq_refl binop_nan_pl64 mode_NE (b64_inj (2*a)) b64_onehalf) as K.
  rewrite A1, b64_half_correct in K.
  replace (val (2 * a) * / 2)%R with (val a) in K
    by (unfold val, F2R; cbn [Fnum Fexp]; rewrite mult_IZR; field).
  fold fexp in K. rewrite val_round in K by assumption.
  rewrite Rlt_bool_true in K by (apply val_small; assumption).
  destruct K as (K1&K2&K3). rewrite A2 in K2. change (is_finite 53 1024 b64_onehalf) with true in K2.
  rewrite andb_true_r in K2. apply inj_unique; try assumption.
  unfold b64_mult. rewrite K3.
  - rewrite A3. change (Bsign 53 1024 b64_onehalf) with false. lia.
  - apply fin_not_nan. exact K2.
Qed.

Lemma inj_cmp a b : Z.abs a <= 2^53 -> Z.abs b <= 2^53 ->
  b64_compare (b64_inj a) (b64_inj b) = Some (Z.compare a b).
Proof.
  intros Ha Hb. destruct (inj_correct a Ha) as (A1&A2&A3), (inj_correct b Hb) as (B1&B2&B3).
  unfold b64_compare. rewrite Bcompare_correct by assumption. rewrite A1, B1, val_cmp. reflexivity.
Qed.

Lemma inj_cmp_inf a : Z.abs a <= 2^53 -> b64_compare (b64_inj a) b64_inf = Some Lt.
Proof.
  intros Ha. destruct (inj_correct a Ha) as (A1&A2&A3).
  destruct (b64_inj a); simpl in A2; try discriminate; reflexivity.
Qed.

Lemma inf_cmp_inj a : Z.abs a <= 2^53 -> b64_compare b64_inf (b64_inj a) = Some Gt.
Proof.
  intros Ha. destruct (inj_correct a Ha) as (A1&A2&A3).
  destruct (b64_inj a); simpl in A2; try discriminate; reflexivity.
Qed.

Definition B64_exact : Exact B64 (2^53).
Proof.
  refine (mkExact B64 (2^53) b64_inj _ _ _ _ _ _ _ _ _ _ _ _ _ _ _ _ _); intros.
  - simpl. apply inj_unique; simpl; try lia; try reflexivity. symmetry; apply val_0.
  - apply b64_inj_add; assumption.
  - apply b64_inj_sub; assumption.
  - apply b64_inj_half; assumption.
  - simpl. unfold b64_cmp_lt. rewrite inj_cmp by assumption. unfold Z.ltb. destruct (a ?= b); reflexivity.
  - simpl. unfold b64_cmp_le. rewrite inj_cmp by assumption. unfold Z.leb. destruct (a ?= b); reflexivity.
  - simpl. unfold b64_cmp_eq. rewrite inj_cmp by assumption. rewrite Z.eqb_compare. destruct (a ?= b); reflexivity.
  - simpl. unfold b64_cmp_lt. rewrite inj_cmp_inf by assumption. reflexivity.
  - simpl. unfold b64_cmp_le. rewrite inj_cmp_inf by assumption. reflexivity.
  - simpl. unfold b64_cmp_eq. rewrite inj_cmp_inf by assumption. reflexivity.
  - simpl. unfold b64_cmp_lt. rewrite inf_cmp_inj by assumption. reflexivity.
  - simpl. unfold b64_cmp_le. rewrite inf_cmp_inj by assumption. reflexivity.
  - reflexivity.
  - reflexivity.
  - reflexivity.
  - simpl. destruct (inj_correct a H) as (A1&A2&A3). destruct (b64_inj a); simpl in A2; try discriminate; reflexivity.
  - simpl. destruct (inj_correct a H) as (A1&A2&A3). destruct (b64_inj a); simpl in A2; try discriminate; reflexivity.
Defined.

End Exact.
