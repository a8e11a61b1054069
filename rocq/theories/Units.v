(** Arbitrary finite doubles as integers.

    Every finite double is an integer multiple of 2^-1074, so the vocabulary of Spec.v, which
    is about integers, speaks about the true values of the cells of any matrix of finite
    doubles.  Rounding is measured by [within]. *)
From Coq Require Import ZArith Bool List Lia Reals Lra.
From Flocq Require Import Core IEEE754.Binary IEEE754.Bits.
From Flocq Require IEEE754.BinarySingleNaN.
From Flocq Require Import Relative Plus_error.
From Verif Require Import Num NumB64 F64Facts Data.
Import ListNotations.
Local Notation mode_NE := BinarySingleNaN.mode_NE.
Local Notation fexp := (SpecFloat.fexp 53 1024).
Local Notation RN := (round radix2 fexp (BinarySingleNaN.round_mode mode_NE)).
Local Open Scope Z_scope.
Local Instance prec53 : Prec_gt_0 53 := eq_refl.

(** The double [x] is finite and its value is [z * 2^-1074]. *)
Definition holds (x : binary64) (z : Z) : Prop :=
  is_finite 53 1024 x = true /\ B2R 53 1024 x = (IZR z * bpow radix2 (-1074))%R.

(** [c] is [z] up to [k] roundings to nearest: [z (1 - u)^k <= c <= z (1 + u)^k] with
    [u = 2^-53]. *)
Definition within (k : nat) (c z : Z) : Prop :=
  z * (2 ^ 53 - 1) ^ Z.of_nat k <= c * (2 ^ 53) ^ Z.of_nat k /\
  c * (2 ^ 53) ^ Z.of_nat k <= z * (2 ^ 53 + 1) ^ Z.of_nat k.

(** The double [x] is finite and its value is [z] up to [k] roundings. *)
Definition rounded (k : nat) (x : binary64) (z : Z) : Prop := exists c, holds x c /\ within k c z.

Local Notation tiny := (bpow radix2 (-1074)).
Lemma tiny_pos : (0 < tiny)%R. Proof. apply bpow_gt_0. Qed.

(** ** Values *)
(** the integer of a finite double *)
Definition units (x : binary64) : Z :=
  match x with
  | B754_finite _ _ s m e _ => cond_Zopp s (Zpos m) * 2 ^ (e + 1074)
  | _ => 0
  end.
Lemma holds_units x : is_finite 53 1024 x = true -> holds x (units x).
Proof.
  intros H. destruct x as [s|s|s pl Hp|s m e Hb]; try discriminate H.
  - split; [reflexivity|]. cbn. lra.
  - split; [reflexivity|]. unfold units. cbn [B2R]. unfold F2R. cbn [Fnum Fexp].
    assert (-1074 <= e).
    { clear H. pose proof Hb as K. unfold SpecFloat.bounded in K. apply andb_true_iff in K. destruct K as [K _]. unfold SpecFloat.canonical_mantissa in K.
      apply Zeq_bool_eq in K. unfold SpecFloat.fexp, SpecFloat.emin in K. lia. }
    rewrite mult_IZR. change (2 ^ (e + 1074)) with (Zpower radix2 (e + 1074)). rewrite IZR_Zpower by lia.
    rewrite Rmult_assoc, <- bpow_plus. f_equal. f_equal. lia.
Qed.
Lemma holds_exists x : is_finite 53 1024 x = true -> exists z, holds x z.
Proof. intros H. exists (units x). apply holds_units. assumption. Qed.

Lemma holds_unique x a b : holds x a -> holds x b -> a = b.
Proof.
  intros [_ H1] [_ H2]. rewrite H1 in H2. apply eq_IZR. apply (Rmult_eq_reg_r tiny); [assumption|]. pose proof tiny_pos. lra.
Qed.

Lemma holds_le x y a b : holds x a -> holds y b -> @cle B64 x y = (a <=? b).
Proof.
  intros [F1 H1] [F2 H2]. pose proof (cle_fin x y F1 F2) as K. unfold r64 in K. rewrite H1, H2 in K.
  change (@cle B64 x y) with (b64_cmp_le x y). apply Bool.eq_iff_eq_true. rewrite K, Z.leb_le. pose proof tiny_pos. split; intros H0.
  - apply le_IZR. apply (Rmult_le_reg_r tiny); assumption.
  - apply Rmult_le_compat_r; [lra|]. apply IZR_le. assumption.
Qed.

Lemma holds_lt x y a b : holds x a -> holds y b -> @clt B64 x y = (a <? b).
Proof.
  intros Ha Hb. rewrite (ord_lt B64 B64_ord), (holds_le x y a b), (holds_le y x b a) by assumption.
  apply Bool.eq_iff_eq_true. rewrite andb_true_iff, negb_true_iff, Z.leb_le, Z.leb_gt, Z.ltb_lt. lia.
Qed.

Lemma holds_nnan x a : holds x a -> @cnan B64 x = false.
Proof.
  intros H. pose proof (holds_le x x a a H H) as K. rewrite Z.leb_refl in K. apply (ord_nan_l B64 B64_ord) in K. exact K.
Qed.

Lemma holds_lt_inf x a : holds x a -> @clt B64 x cinf = true.
Proof. intros [F _]. destruct x; try discriminate F; reflexivity. Qed.
Lemma inf_lt_holds x a : holds x a -> @clt B64 cinf x = false.
Proof. intros [F _]. destruct x; try discriminate F; reflexivity. Qed.

Lemma holds_0 : holds (@c0 B64) 0.
Proof. split; [reflexivity|]. cbn. lra. Qed.

(** ** One rounding *)
Lemma within_refl k z : 0 <= z -> within k z z.
Proof.
  intros Hz. split; apply Z.mul_le_mono_nonneg_l; try assumption; apply Z.pow_le_mono_l; lia.
Qed.

Lemma pow_pos a k : 0 < a -> 0 < a ^ Z.of_nat k.
Proof. intros. apply Z.pow_pos_nonneg; lia. Qed.

Lemma within_trans j k d c z : within j d c -> within k c z -> within (j + k) d z.
Proof.
  intros [A1 A2] [B1 B2]. unfold within. rewrite Nat2Z.inj_add, !Z.pow_add_r by lia.
  set (p := (2 ^ 53 - 1) ^ Z.of_nat j) in *. set (q := (2 ^ 53) ^ Z.of_nat j) in *. set (r := (2 ^ 53 + 1) ^ Z.of_nat j) in *.
  set (p' := (2 ^ 53 - 1) ^ Z.of_nat k) in *. set (q' := (2 ^ 53) ^ Z.of_nat k) in *. set (r' := (2 ^ 53 + 1) ^ Z.of_nat k) in *.
  assert (0 < p /\ 0 < q /\ 0 < r /\ 0 < p' /\ 0 < q' /\ 0 < r') as (? & ? & ? & ? & ? & ?) by (repeat split; apply pow_pos; lia).
  clearbody p q r p' q' r'. nia.
Qed.

Lemma within_weaken j k c z : (j <= k)%nat -> 0 <= c -> within j c z -> within k c z.
Proof.
  intros Hjk Hc H. replace k with ((k - j) + j)%nat by lia. apply within_trans with (c := c); [|assumption]. apply within_refl. assumption.
Qed.

Lemma within_add k a b y z : within k a y -> within k b z -> within k (a + b) (y + z).
Proof. unfold within. intros [A1 A2] [B1 B2]. lia. Qed.

Lemma within_nonneg k c z : 0 <= z -> within k c z -> 0 <= c.
Proof. intros Hz [H _]. pose proof (pow_pos (2 ^ 53) k ltac:(lia)). pose proof (pow_pos (2 ^ 53 - 1) k ltac:(lia)). nia. Qed.

(** few roundings at most double a number *)
Lemma bernoulli k : Z.of_nat k <= 2 ^ 53 -> (2 ^ 53 + 1) ^ Z.of_nat k * (2 ^ 53 - Z.of_nat k) <= (2 ^ 53) ^ Z.of_nat k * 2 ^ 53.
Proof.
  induction k as [|k IH]; intros H; [cbn [Z.of_nat]; lia|]. specialize (IH ltac:(lia)).
  rewrite Nat2Z.inj_succ, !Z.pow_succ_r by lia.
  pose proof (pow_pos (2 ^ 53) k ltac:(lia)). pose proof (pow_pos (2 ^ 53 + 1) k ltac:(lia)).
  set (r := (2 ^ 53 + 1) ^ Z.of_nat k) in *. set (q := (2 ^ 53) ^ Z.of_nat k) in *. clearbody r q.
  set (u := 2 ^ 53) in *. set (t := Z.of_nat k) in *.
  assert (0 <= t) by (unfold t; lia). clearbody u t.
  assert ((u + 1) * (u - Z.succ t) <= u * (u - t)) by nia. nia.
Qed.

Lemma within_double k c z : Z.of_nat k <= 2 ^ 52 -> 0 <= z -> within k c z -> c <= 2 * z.
Proof.
  intros Hk Hz [_ H]. pose proof (bernoulli k ltac:(lia)) as B.
  pose proof (pow_pos (2 ^ 53) k ltac:(lia)). pose proof (pow_pos (2 ^ 53 + 1) k ltac:(lia)).
  set (r := (2 ^ 53 + 1) ^ Z.of_nat k) in *. set (q := (2 ^ 53) ^ Z.of_nat k) in *. clearbody r q.
  assert (r * 2 ^ 52 <= q * 2 ^ 53) by nia. assert (r <= 2 * q) by lia. nia.
Qed.

Lemma round_sum x y : generic_format radix2 fexp x -> generic_format radix2 fexp y ->
  exists eps, (Rabs eps <= / 2 ^ 53)%R /\ RN (x + y)%R = ((x + y) * (1 + eps))%R.
Proof.
  intros Fx Fy.
  destruct (FLT_plus_error_N_ex radix2 (-1074) 53 (fun n => negb (Z.even n)) x y) as (eps & He & E).
  - change (generic_format radix2 fexp x). assumption.
  - change (generic_format radix2 fexp y). assumption.
  - exists eps. split.
    + assert (Eu : u_ro radix2 53 = bpow radix2 (-53)).
      { unfold u_ro. change (- (53) + 1) with (1 + -53). rewrite bpow_plus. change (bpow radix2 1) with 2%R. lra. }
      rewrite Eu in He.
      replace (/ 2 ^ 53)%R with (bpow radix2 (-53)).
      2:{ change (bpow radix2 (-53)) with (/ IZR (Z.pow_pos 2 53))%R. f_equal. change (Z.pow_pos 2 53) with (2 ^ Z.of_nat 53). rewrite <- pow_IZR. reflexivity. }
      pose proof (bpow_gt_0 radix2 (-53)) as P. set (t := bpow radix2 (-53)) in *. clearbody t.
      eapply Rle_trans; [exact He|]. unfold Rdiv.
      apply Rle_trans with (t * 1)%R; [|lra]. apply Rmult_le_compat_l; [lra|]. rewrite <- Rinv_1. apply Rinv_le; lra.
    + exact E.
Qed.

Lemma small_format z : 0 <= z <= 2 ^ 53 -> generic_format radix2 fexp (IZR z * tiny)%R.
Proof. intros H. pose proof (val_format (-1074) ltac:(lia) z ltac:(lia)) as K. exact K. Qed.

Lemma holds_format x z : holds x z -> generic_format radix2 fexp (IZR z * tiny)%R.
Proof. intros [_ <-]. apply (generic_format_B2R 53 1024). Qed.

Theorem holds_plus x y a b : holds x a -> holds y b -> 0 <= a -> 0 <= b -> a + b <= 2 ^ 2097 ->
  exists c, holds (b64_plus mode_NE x y) c /\ within 1 c (a + b) /\ (a + b <= 2 ^ 53 -> c = a + b) /\ (2 ^ 53 <= a + b -> 2 ^ 53 <= c).
Proof.
  intros Hx Hy Ha Hb Hs. pose proof tiny_pos as P.
  assert (Es : (IZR a * tiny + IZR b * tiny = IZR (a + b) * tiny)%R) by (rewrite plus_IZR; ring).
  assert (H0 : (0 <= RN (IZR (a + b) * tiny))%R).
  { rewrite <- (round_0 radix2 fexp (BinarySingleNaN.round_mode mode_NE)). apply RN_mono. apply Rmult_le_pos; [apply IZR_le; lia|lra]. }
  assert (Hover : (Rabs (RN (IZR (a + b) * tiny)) < bpow radix2 1024)%R).
  { rewrite Rabs_pos_eq by assumption. apply Rle_lt_trans with (bpow radix2 1023); [|apply bpow_lt; lia].
    rewrite <- (round_generic radix2 fexp (BinarySingleNaN.round_mode mode_NE) (bpow radix2 1023)).
    - apply RN_mono. replace (bpow radix2 1023) with (IZR (2 ^ 2097) * tiny)%R.
      + apply Rmult_le_compat_r; [lra|]. apply IZR_le. assumption.
      + change (2 ^ 2097) with (Zpower radix2 2097). rewrite IZR_Zpower by lia. rewrite <- bpow_plus. reflexivity.
    - apply generic_format_bpow. unfold SpecFloat.fexp, SpecFloat.emin. lia. }
  destruct (plus_cases x y (proj1 Hx) (proj1 Hy)) as [(Hf & E & _)|[(E & L)|(E & L)]];
    unfold r64 in *; destruct Hx as [Fx Vx]; destruct Hy as [Fy Vy]; rewrite Vx, Vy, Es in *.
  2:{ exfalso. rewrite Rabs_pos_eq in Hover by assumption. lra. }
  2:{ exfalso. pose proof (bpow_gt_0 radix2 1024). lra. }
  destruct (holds_exists _ Hf) as (c & Hc). exists c. split; [assumption|]. destruct Hc as [_ Vc]. rewrite Vc in E.
  split.
  - destruct (round_sum (IZR a * tiny) (IZR b * tiny)) as (eps & He & Er).
    { rewrite <- Vx. apply (generic_format_B2R 53 1024). } { rewrite <- Vy. apply (generic_format_B2R 53 1024). }
    rewrite Es, <- E in Er. assert (Er' : (IZR c = IZR (a + b) * (1 + eps))%R).
    { apply (Rmult_eq_reg_r tiny); [|lra]. rewrite Er. ring. }
    assert (Hu : (-1 <= 2 ^ 53 * eps <= 1)%R).
    { apply Rabs_le_inv in He. assert (0 < 2 ^ 53)%R by (apply pow_lt; lra).
      assert (E1 : (2 ^ 53 * / 2 ^ 53 = 1)%R) by (apply Rinv_r; lra).
      split.
      - replace (-1)%R with (2 ^ 53 * - / 2 ^ 53)%R by lra. apply Rmult_le_compat_l; lra.
      - rewrite <- E1. apply Rmult_le_compat_l; lra. }
    assert (Hab : (0 <= IZR (a + b))%R) by (apply IZR_le; lia).
    unfold within. change (Z.of_nat 1) with 1. rewrite !Z.pow_1_r.
    assert (E2 : (IZR (c * 2 ^ 53) = IZR (a + b) * (2 ^ 53 + 2 ^ 53 * eps))%R).
    { rewrite mult_IZR, Er'. change (2 ^ 53)%Z with (2 ^ Z.of_nat 53). rewrite <- pow_IZR. change (IZR 2) with 2%R. ring. }
    split; apply le_IZR; rewrite E2, mult_IZR; apply Rmult_le_compat_l; try assumption.
    + rewrite minus_IZR. change (2 ^ 53)%Z with (2 ^ Z.of_nat 53). rewrite <- pow_IZR. lra.
    + rewrite plus_IZR. change (2 ^ 53)%Z with (2 ^ Z.of_nat 53). rewrite <- pow_IZR. lra.
  - split; intros Hsm.
    + rewrite round_generic in E; [|auto with typeclass_instances|apply small_format; lia].
      apply eq_IZR. apply (Rmult_eq_reg_r tiny); [assumption|lra].
    + apply le_IZR. apply (Rmult_le_reg_r tiny); [lra|]. rewrite E.
      rewrite <- (round_generic radix2 fexp (BinarySingleNaN.round_mode mode_NE) (IZR (2 ^ 53) * tiny)) by (apply small_format; lia).
      apply RN_mono. apply Rmult_le_compat_r; [lra|]. apply IZR_le. assumption.
Qed.

(** ** Sums *)
(** The double [x] stands for [z] after at most [k] roundings; small numbers (below 2^-1021)
    are not rounded at all. *)
Definition approx (k : nat) (x : binary64) (z : Z) : Prop :=
  exists c, holds x c /\ within k c z /\ (z <= 2 ^ 53 -> c = z) /\ (2 ^ 53 <= z -> 2 ^ 53 <= c).

Lemma approx_holds x z : holds x z -> 0 <= z -> approx 0 x z.
Proof. intros H Hz. exists z. split; [assumption|]. split; [apply within_refl; assumption|]. auto. Qed.

Lemma approx_weaken j k x z : (j <= k)%nat -> 0 <= z -> approx j x z -> approx k x z.
Proof.
  intros Hjk Hz (c & H1 & H2 & H3). exists c. split; [assumption|]. split; [|assumption].
  apply (within_weaken j); [assumption| |assumption]. apply (within_nonneg j c z); assumption.
Qed.

Lemma approx_plus k x y a b : approx k x a -> approx k y b -> 0 <= a -> 0 <= b -> a + b <= 2 ^ 2096 -> Z.of_nat k <= 2 ^ 52 ->
  approx (S k) (b64_plus mode_NE x y) (a + b).
Proof.
  intros (c & Hc & Wc & Ec & Lc) (d & Hd & Wd & Ed & Ld) Ha Hb Hs Hk.
  pose proof (within_nonneg k c a Ha Wc). pose proof (within_nonneg k d b Hb Wd).
  pose proof (within_double k c a Hk Ha Wc). pose proof (within_double k d b Hk Hb Wd).
  assert (E2 : 2 ^ 2097 = 2 * 2 ^ 2096) by (rewrite <- Z.pow_succ_r by lia; reflexivity).
  destruct (holds_plus x y c d Hc Hd) as (e & He & We & Ee & Le); [assumption..|lia|].
  exists e. split; [assumption|]. split; [|split].
  - apply (within_trans 1 k e (c + d)); [assumption|]. apply within_add; assumption.
  - intros Hsm. rewrite Ee; [rewrite Ec, Ed by lia; reflexivity|]. rewrite Ec, Ed by lia. assumption.
  - intros Hl. apply Le. destruct (Z.le_gt_cases (2 ^ 53) a) as [La|La]; [specialize (Lc La); lia|].
    destruct (Z.le_gt_cases (2 ^ 53) b) as [Lb|Lb]; [specialize (Ld Lb); lia|]. rewrite Ec, Ed by lia. assumption.
Qed.

Lemma approx_fold k : forall l zs j x a, approx (k + j) x a -> Forall2 (approx k) l zs -> Forall (fun z => 0 <= z) zs -> 0 <= a ->
  a + fold_right Z.add 0 zs <= 2 ^ 2096 -> Z.of_nat (k + j + length l) <= 2 ^ 52 ->
  approx (k + j + length l) (fold_left (@cadd B64) l x) (a + fold_right Z.add 0 zs).
Proof.
  induction l as [|y l IH]; intros zs j x a Hx Hl Hz Ha Hs Hk; inversion Hl as [|? z ? zs' Hy Hl']; subst; cbn [fold_left fold_right length] in *.
  - rewrite Z.add_0_r, Nat.add_0_r. assumption.
  - inversion Hz as [|? ? Hz1 Hz2]; subst.
    assert (Hp : 0 <= fold_right Z.add 0 zs') by (clear - Hz2; induction Hz2; cbn; lia).
    replace (k + j + S (length l))%nat with (k + S j + length l)%nat in * by lia. rewrite Z.add_assoc. apply IH; try assumption; try lia.
    replace (k + S j)%nat with (S (k + j)) by lia. apply approx_plus; try assumption; try lia.
    apply (approx_weaken k); [lia|assumption|assumption].
Qed.

Lemma approx_csum k l zs : Forall2 (approx k) l zs -> Forall (fun z => 0 <= z) zs ->
  fold_right Z.add 0 zs <= 2 ^ 2096 -> Z.of_nat (k + length l) <= 2 ^ 52 ->
  approx (k + length l) (@csum B64 l) (fold_right Z.add 0 zs).
Proof.
  intros Hl Hz Hs Hk. unfold csum. rewrite <- (Z.add_0_l (fold_right Z.add 0 zs)). replace k with (k + 0)%nat at 1 by lia.
  apply approx_fold; try assumption; try lia.
  replace (k + 0)%nat with k by lia. apply (approx_weaken 0); [lia|lia|]. apply approx_holds; [apply holds_0|lia].
Qed.

(** ** Halves *)
Lemma even_format c : 2 ^ 53 <= c -> generic_format radix2 fexp (IZR c * tiny) -> exists h, c = 2 * h.
Proof.
  intros Hc Hf. change fexp with (FLT_exp (-1074) 53) in Hf. apply FLT_format_generic in Hf; [|reflexivity].
  destruct Hf as [[m e] E Hm He]. cbn [Fnum Fexp] in *. unfold F2R in E. cbn [Fnum Fexp] in E.
  assert (Em : c = m * 2 ^ (e + 1074)).
  { apply eq_IZR. apply (Rmult_eq_reg_r tiny); [|pose proof tiny_pos; lra]. rewrite E, mult_IZR.
    change (2 ^ (e + 1074)) with (Zpower radix2 (e + 1074)). rewrite IZR_Zpower by lia. rewrite Rmult_assoc, <- bpow_plus. do 2 f_equal. lia. }
  change (Zpower radix2 53) with (2 ^ 53) in Hm.
  assert (e <> -1074) by (intros ->; change (2 ^ (-1074 + 1074)) with 1 in Em; lia).
  exists (m * 2 ^ (e + 1073)). rewrite Em. replace (e + 1074) with (Z.succ (e + 1073)) by lia. rewrite Z.pow_succ_r by lia. ring.
Qed.

Lemma half_format h : 0 <= h -> generic_format radix2 fexp (IZR (2 * h) * tiny) -> generic_format radix2 fexp (IZR h * tiny).
Proof.
  intros Hh Hf. destruct (Z.le_gt_cases h (2 ^ 53)) as [Hs|Hl]; [apply small_format; lia|].
  change fexp with (FLT_exp (-1074) 53) in *. apply FLT_format_generic in Hf; [|reflexivity].
  destruct Hf as [[m e] E Hm He]. cbn [Fnum Fexp] in *. unfold F2R in E. cbn [Fnum Fexp] in E. change (Zpower radix2 53) with (2 ^ 53) in Hm.
  assert (E' : (IZR h * tiny = F2R (Float radix2 m (e - 1)))%R).
  { unfold F2R. cbn [Fnum Fexp]. replace (e - 1) with (-1 + e) by lia. rewrite bpow_plus. change (bpow radix2 (-1)) with (/ 2)%R.
    rewrite mult_IZR in E. lra. }
  rewrite E'. apply generic_format_FLT. exists (Float radix2 m (e - 1)); cbn [Fnum Fexp]; [reflexivity|assumption|].
  assert (e <> -1074); [|lia]. intros ->.
  assert (Em : 2 * h = m) by (apply eq_IZR; apply (Rmult_eq_reg_r tiny); [assumption|pose proof tiny_pos; lra]). lia.
Qed.

Lemma holds_half x h : 0 <= h -> holds x (2 * h) -> holds (@chalf B64 x) h.
Proof.
  intros Hh Hx. pose proof (half_format h Hh (holds_format _ _ Hx)) as Hf. destruct Hx as [Fx Vx].
  pose proof (Bmult_correct 53 1024 eq_refl eq_refl binop_nan_pl64 mode_NE x b64_onehalf) as K.
  assert (E : (B2R 53 1024 x * B2R 53 1024 b64_onehalf = IZR h * tiny)%R) by (rewrite Vx, b64_half_correct, mult_IZR; lra).
  rewrite E in K. rewrite round_generic in K; [|auto with typeclass_instances|assumption].
  rewrite Rlt_bool_true in K.
  - destruct K as (K1 & K2 & _). split; [|exact K1]. change (is_finite 53 1024 (Bmult 53 1024 eq_refl eq_refl binop_nan_pl64 mode_NE x b64_onehalf) = true).
    rewrite K2, Fx. reflexivity.
  - pose proof (fin_lt x) as L. unfold r64 in L. rewrite Vx in L. eapply Rle_lt_trans; [|exact L].
    pose proof tiny_pos. rewrite !Rabs_pos_eq by (apply Rmult_le_pos; [apply IZR_le; lia|lra]).
    apply Rmult_le_compat_r; [lra|]. apply IZR_le. lia.
Qed.

Lemma approx_half k x z : 0 <= z -> approx k x (2 * z) -> rounded k (@chalf B64 x) z.
Proof.
  intros Hz (c & Hc & Wc & Ec & Lc).
  assert (exists h, c = 2 * h) as (h & ->).
  { destruct (Z.le_gt_cases (2 * z) (2 ^ 53)) as [Hs|Hl]; [exists z; auto|].
    apply even_format; [apply Lc; lia|apply (holds_format x); assumption]. }
  pose proof (within_nonneg k (2 * h) (2 * z) ltac:(lia) Wc).
  exists h. split; [apply holds_half; [lia|assumption]|]. unfold within in *; lia.
Qed.

Lemma approx_rounded k x z : approx k x z -> rounded k x z.
Proof. intros (c & H1 & H2 & _). exists c. auto. Qed.

Lemma rounded_weaken j k x z : (j <= k)%nat -> 0 <= z -> rounded j x z -> rounded k x z.
Proof.
  intros Hjk Hz (c & H1 & H2). exists c. split; [assumption|]. apply (within_weaken j); [assumption| |assumption].
  apply (within_nonneg j c z); assumption.
Qed.

Lemma rounded_finite k x z : rounded k x z -> is_finite 53 1024 x = true.
Proof. intros (c & [H _] & _). assumption. Qed.
Lemma rounded_nnan k x z : rounded k x z -> @cnan B64 x = false.
Proof. intros (c & H & _). apply (holds_nnan x c). assumption. Qed.

(** two reported numbers compared *)
Lemma rounded_le k x y a b : rounded k x a -> rounded k y b -> @cle B64 x y = true ->
  a * (2 ^ 53 - 1) ^ Z.of_nat k <= b * (2 ^ 53 + 1) ^ Z.of_nat k.
Proof.
  intros (c & Hc & Wc1 & Wc2) (d & Hd & Wd1 & Wd2) H. rewrite (holds_le x y c d Hc Hd) in H. apply Z.leb_le in H.
  pose proof (pow_pos (2 ^ 53) k ltac:(lia)) as P. pose proof (Z.mul_le_mono_nonneg_r c d ((2 ^ 53) ^ Z.of_nat k) ltac:(lia) H). lia.
Qed.
