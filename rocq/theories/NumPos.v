(** Sums of nonnegative numbers, and what is left when a summand is taken off again, are
    nonnegative (or NaN), rounding and overflow included. *)
From Coq Require Import ZArith Bool List Lia Reals Lra ZifyBool.
From Flocq Require Import Core IEEE754.Binary IEEE754.Bits.
From Flocq Require IEEE754.BinarySingleNaN.
From Verif Require Import Num NumB64.
Local Open Scope Z_scope.
Local Notation mode_NE := BinarySingleNaN.mode_NE.

(** nonnegative or NaN *)
Definition nn {N : Num} (c : C N) : Prop := cnan c = true \/ cle c0 c = true.

Record NumPos (N : Num) := mkNumPos {
  pos_add : forall a b : C N, nn a -> nn b -> nn (cadd a b);
  pos_cancel : forall a b : C N, nn a -> nn b -> nn (csub (cadd a b) b)
}.

Lemma ez_nn_fin z : 0 <= z -> @nn EZ (Fin z).
Proof. intros H. right. change (ez_le (Fin 0) (Fin z) = true). unfold ez_le, ez_lt, ez_eq. lia. Qed.
Lemma ez_nn_inv z : @nn EZ (Fin z) -> 0 <= z.
Proof.
  intros [H|H]; [change (negb (z =? z) = true) in H; lia|].
  change ((0 <? z) || (0 =? z) = true) in H. lia.
Qed.
Lemma EZ_pos : NumPos EZ.
Proof.
  constructor; intros [a| | |] [b| | |] Ha Hb; try (left; reflexivity); try (right; reflexivity);
    try (destruct Ha as [Ha|Ha]; discriminate Ha); try (destruct Hb as [Hb|Hb]; discriminate Hb);
    apply ez_nn_inv in Ha; apply ez_nn_inv in Hb; apply ez_nn_fin; lia.
Qed.

Definition nnb (x : binary64) : bool :=
  match x with B754_infinity _ _ true | B754_finite _ _ true _ _ _ => false | _ => true end.

Lemma nn_nnb x : @nn B64 x <-> nnb x = true.
Proof.
  unfold nn, cnan. simpl. unfold b64_cmp_eq, b64_cmp_le. rewrite !b64_compare_ext.
  destruct x as [s|s|s pl H|s m e H]; simpl.
  - split; [reflexivity|]. intros _. right. unfold ext_cmp; simpl. rewrite Rcompare_Eq by reflexivity. reflexivity.
  - destruct s; simpl; unfold ext_cmp; simpl.
    + rewrite Rcompare_Eq by reflexivity. split; [intros [?|?]|]; discriminate.
    + split; [reflexivity|]. intros _. right. reflexivity.
  - split; [reflexivity|left; reflexivity].
  - unfold ext_cmp; simpl. rewrite (Rcompare_Eq _ _ eq_refl). destruct s.
    + split; [|discriminate]. intros [?|H1]; [discriminate|]. exfalso.
      rewrite Rcompare_Gt in H1; [discriminate|]. apply F2R_lt_0. simpl. lia.
    + split; [reflexivity|]. intros _. right. rewrite Rcompare_Lt; [reflexivity|]. apply F2R_gt_0. simpl. lia.
Qed.

Lemma nnb_pos x : nnb x = true -> (0 <= B2R 53 1024 x)%R.
Proof. destruct x as [s|s|s pl H|[] m e H]; simpl; try lra; try discriminate. intros _. apply F2R_ge_0. simpl. lia. Qed.
Lemma pos_nnb x : is_finite 53 1024 x = true -> (0 <= B2R 53 1024 x)%R -> nnb x = true.
Proof.
  destruct x as [s|s|s pl H|[] m e H]; simpl; try reflexivity; try discriminate. intros _ Hp. exfalso.
  pose proof (F2R_lt_0 radix2 (Float radix2 (Z.neg m) e) ltac:(simpl; lia)). simpl in Hp. lra.
Qed.
Lemma nnb_sign x : is_finite 53 1024 x = true -> nnb x = true -> Bsign 53 1024 x = true -> B2R 53 1024 x = 0%R.
Proof. destruct x as [s|s|s pl H|[] m e H]; simpl; try reflexivity; discriminate. Qed.

Local Definition fexp := SpecFloat.fexp 53 1024.
Local Instance fexp_valid : Valid_exp fexp.
Proof. unfold fexp. apply (BinarySingleNaN.fexp_correct 53 1024). reflexivity. Qed.

Lemma overflow_nnb x : B2FF 53 1024 x = binary_overflow 53 1024 mode_NE false -> nnb x = true.
Proof. destruct x as [s|[]|s pl H|s m e H]; simpl; intros E; try reflexivity; discriminate. Qed.

Lemma round_0_small : Rlt_bool (Rabs (round radix2 fexp (BinarySingleNaN.round_mode mode_NE) 0)) (bpow radix2 1024) = true.
Proof. rewrite round_0 by auto with typeclass_instances. rewrite Rabs_R0. apply Rlt_bool_true. apply bpow_gt_0. Qed.

Lemma plus_nnb x y : nnb x = true -> nnb y = true -> nnb (b64_plus mode_NE x y) = true.
Proof.
  intros Hx Hy. destruct (is_finite _ _ x) eqn:Fx; destruct (is_finite _ _ y) eqn:Fy.
  - pose proof (Bplus_correct 53 1024 eq_refl eq_refl binop_nan_pl64 mode_NE x y Fx Fy) as K. fold fexp in K.
    pose proof (nnb_pos x Hx) as Px. pose proof (nnb_pos y Hy) as Py.
    destruct (Rlt_bool _ _) eqn:Eb in K.
    + destruct K as (K1 & K2 & _). apply pos_nnb; [exact K2|]. unfold b64_plus. rewrite K1.
      apply round_ge_generic; auto with typeclass_instances; [apply generic_format_0|lra].
    + destruct K as (K1 & K2). apply overflow_nnb. unfold b64_plus. rewrite K1.
      destruct (Bsign 53 1024 x) eqn:Sx; [|reflexivity]. exfalso.
      rewrite (nnb_sign x Fx Hx Sx), (nnb_sign y Fy Hy ltac:(congruence)), Rplus_0_r, round_0_small in Eb. discriminate.
  - destruct x, y; simpl in Fx, Fy, Hx, Hy |- *; repeat match goal with s : bool |- _ => destruct s end; try discriminate; reflexivity.
  - destruct x, y; simpl in Fx, Fy, Hx, Hy |- *; repeat match goal with s : bool |- _ => destruct s end; try discriminate; reflexivity.
  - destruct x, y; simpl in Fx, Fy, Hx, Hy |- *; repeat match goal with s : bool |- _ => destruct s end; try discriminate; reflexivity.
Qed.

Lemma cancel_nnb x y : nnb x = true -> nnb y = true -> nnb (b64_minus mode_NE (b64_plus mode_NE x y) y) = true.
Proof.
  intros Hx Hy. destruct (is_finite _ _ x) eqn:Fx; destruct (is_finite _ _ y) eqn:Fy.
  - pose proof (Bplus_correct 53 1024 eq_refl eq_refl binop_nan_pl64 mode_NE x y Fx Fy) as K. fold fexp in K.
    pose proof (nnb_pos x Hx) as Px. pose proof (nnb_pos y Hy) as Py.
    pose proof (plus_nnb x y Hx Hy) as Hs.
    destruct (Rlt_bool _ _) eqn:Eb in K.
    + destruct K as (K1 & K2 & _).
      pose proof (Bminus_correct 53 1024 eq_refl eq_refl binop_nan_pl64 mode_NE (b64_plus mode_NE x y) y K2 Fy) as J. fold fexp in J.
      assert (Hge : (B2R 53 1024 y <= B2R 53 1024 (b64_plus mode_NE x y))%R).
      { unfold b64_plus. rewrite K1. apply round_ge_generic; auto with typeclass_instances; [apply generic_format_B2R|lra]. }
      destruct (Rlt_bool _ _) eqn:Ec in J.
      * destruct J as (J1 & J2 & _). apply pos_nnb; [exact J2|]. unfold b64_minus. rewrite J1.
        apply round_ge_generic; auto with typeclass_instances; [apply generic_format_0|lra].
      * destruct J as (J1 & J2). apply overflow_nnb. unfold b64_minus. rewrite J1.
        destruct (Bsign 53 1024 (b64_plus mode_NE x y)) eqn:Sx; [|reflexivity]. exfalso.
        pose proof (nnb_sign _ K2 Hs Sx) as E0. unfold b64_plus in E0, Ec, Hge. rewrite E0 in *.
        replace (0 - B2R 53 1024 y)%R with 0%R in Ec by lra. rewrite round_0_small in Ec. discriminate.
    + destruct K as (K1 & K2).
      assert (Hinf : b64_plus mode_NE x y = B754_infinity 53 1024 false).
      { destruct (b64_plus mode_NE x y) as [s|s|s pl H|s m e H] eqn:Ep; unfold b64_plus in Ep; rewrite Ep in K1;
          destruct (Bsign 53 1024 x); try discriminate K1; destruct s; try discriminate; reflexivity. }
      rewrite Hinf. destruct y; simpl in Fy; try discriminate; reflexivity.
  - destruct x, y; simpl in Fx, Fy, Hx, Hy |- *; repeat match goal with s : bool |- _ => destruct s end; try discriminate; reflexivity.
  - destruct x, y; simpl in Fx, Fy, Hx, Hy |- *; repeat match goal with s : bool |- _ => destruct s end; try discriminate; reflexivity.
  - destruct x, y; simpl in Fx, Fy, Hx, Hy |- *; repeat match goal with s : bool |- _ => destruct s end; try discriminate; reflexivity.
Qed.

Lemma B64_pos : NumPos B64.
Proof.
  constructor; intros a b Ha Hb; apply nn_nnb; apply nn_nnb in Ha, Hb.
  - apply plus_nnb; assumption.
  - apply cancel_nnb; assumption.
Qed.
