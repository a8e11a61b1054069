(** Sums of doubles and exact sums: which side of a double they fall on. *)
From Coq Require Import ZArith Bool List Lia Reals Lra.
From Flocq Require Import Core IEEE754.Binary IEEE754.Bits.
From Flocq Require IEEE754.BinarySingleNaN.
From Verif Require Import Num NumB64.
Local Open Scope R_scope.
Local Notation mode_NE := BinarySingleNaN.mode_NE.
Local Notation fexp := (SpecFloat.fexp 53 1024).
Local Notation RN := (round radix2 fexp (BinarySingleNaN.round_mode mode_NE)).

Definition fin (x : binary64) : Prop := is_finite 53 1024 x = true.
Definition r64 (x : binary64) : R := B2R 53 1024 x.

Lemma fin_lt (x : binary64) : Rabs (r64 x) < bpow radix2 1024.
Proof. apply (abs_B2R_lt_emax 53 1024). Qed.
Lemma RN_r64 x : RN (r64 x) = r64 x.
Proof. apply round_generic; [auto with typeclass_instances|]. apply (generic_format_B2R 53 1024). Qed.
Lemma RN_mono a b : a <= b -> RN a <= RN b.
Proof. apply round_le; [apply (BinarySingleNaN.fexp_correct 53 1024 Hprec)|auto with typeclass_instances]. Qed.

Lemma cle_fin x y : fin x -> fin y -> b64_cmp_le x y = true <-> r64 x <= r64 y.
Proof.
  intros Hx Hy. unfold b64_cmp_le, b64_compare. rewrite Bcompare_correct by assumption. fold (r64 x) (r64 y).
  destruct (Rcompare_spec (r64 x) (r64 y)); split; intros; try reflexivity; try discriminate; lra.
Qed.
Lemma cle_inf x : fin x -> b64_cmp_le x b64_inf = true.
Proof. destruct x; intros H; try discriminate H; reflexivity. Qed.
Lemma ninf_cle y : fin y -> b64_cmp_le (B754_infinity 53 1024 true) y = true.
Proof. destruct y; intros H; try discriminate H; reflexivity. Qed.

(** the three outcomes of a sum of finite numbers *)
Lemma plus_cases x y : fin x -> fin y ->
  (fin (b64_plus mode_NE x y) /\ r64 (b64_plus mode_NE x y) = RN (r64 x + r64 y) /\ Rabs (RN (r64 x + r64 y)) < bpow radix2 1024) \/
  (b64_plus mode_NE x y = b64_inf /\ bpow radix2 1024 <= RN (r64 x + r64 y)) \/
  (b64_plus mode_NE x y = B754_infinity 53 1024 true /\ RN (r64 x + r64 y) <= - bpow radix2 1024).
Proof.
  intros Hx Hy. pose proof (Bplus_correct 53 1024 eq_refl eq_refl binop_nan_pl64 mode_NE x y Hx Hy) as K.
  change (Bplus 53 1024 eq_refl eq_refl binop_nan_pl64 mode_NE x y) with (b64_plus mode_NE x y) in K.
  fold (r64 x) (r64 y) in K. destruct (Rlt_bool_spec (Rabs (RN (r64 x + r64 y))) (bpow radix2 1024)) as [L|L].
  - left. destruct K as (K1 & K2 & _). auto.
  - right. destruct K as (K1 & K2).
    assert (Hs : forall s, Bsign 53 1024 x = s -> Bsign 53 1024 y = s -> b64_plus mode_NE x y = B754_infinity 53 1024 s).
    { intros s Es _. rewrite Es in K1. apply B2FF_inj. exact K1. }
    destruct (Bsign 53 1024 x) eqn:Sx; symmetry in K2.
    + right. split; [apply Hs; auto|].
      assert (r64 x <= 0 /\ r64 y <= 0) as [H1 H2].
      { split; [destruct x as [[]|[]|[] ? ?|[] m e ?]|destruct y as [[]|[]|[] ? ?|[] m e ?]]; try discriminate; unfold r64; simpl; try lra; apply F2R_le_0; simpl; lia. }
      assert (H0 : RN (r64 x + r64 y) <= 0) by (rewrite <- (round_0 radix2 fexp (BinarySingleNaN.round_mode mode_NE)); apply RN_mono; lra).
      rewrite Rabs_left1 in L by assumption. lra.
    + left. split; [apply Hs; auto|].
      assert (0 <= r64 x /\ 0 <= r64 y) as [H1 H2].
      { split; [destruct x as [[]|[]|[] ? ?|[] m e ?]|destruct y as [[]|[]|[] ? ?|[] m e ?]]; try discriminate; unfold r64; simpl; try lra; apply F2R_ge_0; simpl; lia. }
      assert (H0 : 0 <= RN (r64 x + r64 y)) by (rewrite <- (round_0 radix2 fexp (BinarySingleNaN.round_mode mode_NE)); apply RN_mono; lra).
      rewrite Rabs_pos_eq in L by assumption. lra.
Qed.

Lemma plus_ge x y z : fin x -> fin y -> fin z -> r64 z <= r64 x + r64 y -> b64_cmp_le z (b64_plus mode_NE x y) = true.
Proof.
  intros Hx Hy Hz H. apply RN_mono in H. rewrite RN_r64 in H. pose proof (fin_lt z) as Lz.
  destruct (plus_cases x y Hx Hy) as [(Hf & E & _)|[(E & L)|(E & L)]].
  - apply cle_fin; [assumption..|]. rewrite E. assumption.
  - rewrite E. apply cle_inf. assumption.
  - exfalso. apply Rabs_def2 in Lz. lra.
Qed.
Lemma plus_le x y z : fin x -> fin y -> fin z -> r64 x + r64 y <= r64 z -> b64_cmp_le (b64_plus mode_NE x y) z = true.
Proof.
  intros Hx Hy Hz H. apply RN_mono in H. rewrite RN_r64 in H. pose proof (fin_lt z) as Lz.
  destruct (plus_cases x y Hx Hy) as [(Hf & E & _)|[(E & L)|(E & L)]].
  - apply cle_fin; [assumption..|]. rewrite E. assumption.
  - exfalso. apply Rabs_def2 in Lz. lra.
  - rewrite E. apply ninf_cle. assumption.
Qed.

(** ** The tolerance *)
Lemma eps_fin : fin b64_eps. Proof. reflexivity. Qed.
Lemma eps_val : 0 < r64 b64_eps <= bpow radix2 (-33).
Proof.
  change (r64 b64_eps) with (F2R (Float radix2 7737125245533627 (-86))). unfold F2R. cbn [Fnum Fexp]. split.
  - apply Rmult_lt_0_compat; [apply IZR_lt; lia|apply bpow_gt_0].
  - replace (-33)%Z with (53 + -86)%Z by lia. rewrite bpow_plus. apply Rmult_le_compat_r; [apply bpow_ge_0|].
    change (bpow radix2 53) with (IZR (2 ^ 53)). apply IZR_le. lia.
Qed.

Lemma eps_ge x : fin x \/ x = b64_inf -> b64_cmp_le x (b64_plus mode_NE x b64_eps) = true.
Proof.
  intros [H| ->]; [|reflexivity]. apply plus_ge; [assumption|apply eps_fin|assumption|]. pose proof eps_val. lra.
Qed.

(** a test of is_metric that passes *)
Lemma test_passes a b d : fin a -> fin b -> fin d -> r64 d <= r64 a + r64 b ->
  b64_cmp_lt (b64_plus mode_NE (b64_plus mode_NE a b) b64_eps) d = false.
Proof.
  intros Ha Hb Hd H. pose proof (plus_ge a b d Ha Hb Hd H) as H1.
  assert (H2 : b64_cmp_le (b64_plus mode_NE a b) (b64_plus mode_NE (b64_plus mode_NE a b) b64_eps) = true).
  { apply eps_ge. destruct (plus_cases a b Ha Hb) as [(Hf & _)|[(E & _)|(E & L)]]; [auto|auto|]. exfalso.
    apply RN_mono in H. rewrite RN_r64 in H. pose proof (fin_lt d) as Ld. apply Rabs_def2 in Ld. lra. }
  pose proof (ord_trans B64 B64_ord _ _ _ H1 H2) as H3.
  change (b64_cmp_lt (b64_plus mode_NE (b64_plus mode_NE a b) b64_eps) d) with (@clt B64 (b64_plus mode_NE (b64_plus mode_NE a b) b64_eps) d).
  rewrite (ord_lt B64 B64_ord), H3. apply andb_false_r.
Qed.

(** ... and one that fails *)
Lemma test_fails a b d z : fin a -> fin b -> fin d -> fin z -> r64 (b64_plus mode_NE a b) = r64 a + r64 b -> fin (b64_plus mode_NE a b) ->
  r64 a + r64 b + r64 b64_eps <= r64 z -> r64 z < r64 d ->
  b64_cmp_lt (b64_plus mode_NE (b64_plus mode_NE a b) b64_eps) d = true.
Proof.
  intros Ha Hb Hd Hz Es Hs H1 H2.
  assert (L1 : b64_cmp_le (b64_plus mode_NE (b64_plus mode_NE a b) b64_eps) z = true) by (apply plus_le; [assumption|apply eps_fin|assumption|rewrite Es; assumption]).
  assert (L2 : b64_cmp_le d z = false).
  { destruct (b64_cmp_le d z) eqn:E; [|reflexivity]. apply cle_fin in E; [lra|assumption..]. }
  assert (L3 : b64_cmp_le z d = true) by (apply cle_fin; [assumption..|lra]).
  change (@clt B64 (b64_plus mode_NE (b64_plus mode_NE a b) b64_eps) d = true). rewrite (ord_lt B64 B64_ord).
  rewrite (ord_trans B64 B64_ord _ _ _ L1 L3). cbn [andb]. apply negb_true_iff. destruct (@cle B64 d _) eqn:E; [|reflexivity].
  pose proof (ord_trans B64 B64_ord _ _ _ E L1) as H. change (b64_cmp_le d z = true) in H. congruence.
Qed.
