(** From integers back to lengths: what the bounds on the costs in units of 2^-1074 say of the lengths of tours
    through points of the plane.  (Proofs.) *)
From Coq Require Import ZArith NArith Arith Bool List Permutation Lia Reals Lra.
From Flocq Require Import Core IEEE754.Binary IEEE754.Bits.
From Verif Require Import Num NumB64 Base Data Spec SpecFacts Units RoundProofs DriftProofs TourLength.
Import ListNotations.
Local Open Scope R_scope.
Local Notation unit := (bpow radix2 (-1074)).

Section Lengths.
Variables (n : nat) (w : nat -> nat -> Z) (d : nat -> nat -> R) (e : R).
Hypothesis He : forall i j, (i < n)%nat -> (j < n)%nat -> Rabs (IZR (w i j) * unit - d i j) <= e.

Lemma path_close p : (forall x, In x p -> (x < n)%nat) -> p <> [] -> Rabs (IZR (path_cost w p) * unit - path_length d p) <= INR (length p - 1) * e.
Proof.
  induction p as [|a p IH]; intros Hp Hne; [contradiction|]. destruct p as [|b p].
  - cbn. rewrite !Rmult_0_l, Rminus_0_r, Rabs_R0. lra.
  - change (path_cost w (a :: b :: p)) with (w a b + path_cost w (b :: p))%Z. change (path_length d (a :: b :: p)) with (d a b + path_length d (b :: p)). rewrite plus_IZR, Rmult_plus_distr_r. cbn [length] in *. replace (S (S (length p)) - 1)%nat with (S (S (length p) - 1)) by lia. rewrite S_INR.
    assert (H1 := He a b (Hp a (or_introl eq_refl)) (Hp b (or_intror (or_introl eq_refl)))).
    assert (H2 : Rabs (IZR (path_cost w (b :: p)) * unit - path_length d (b :: p)) <= INR (S (length p) - 1) * e) by (apply IH; [intros x Hx; apply Hp; right; assumption|discriminate]).
    apply Rabs_le. apply Rabs_le_inv in H1, H2. lra.
Qed.
Lemma tour_close p : (0 < n)%nat -> is_tour n p -> Rabs (IZR (tour_cost w p) * unit - tour_length d p) <= INR n * e.
Proof.
  intros Hn Hp. assert (Hl : length p = n) by (rewrite (Permutation_length Hp); apply seq_length).
  assert (Hin : forall x, In x p -> (x < n)%nat) by (intros x Hx; apply (Permutation_in x Hp) in Hx; apply in_seq in Hx; lia).
  destruct p as [|a p]; [cbn in Hl; lia|]. unfold tour_cost, tour_length. rewrite plus_IZR, Rmult_plus_distr_r.
  assert (H1 := path_close (a :: p) Hin ltac:(discriminate)). rewrite Hl in H1.
  assert (Hlast : In (last (a :: p) a) (a :: p)) by (destruct (exists_last (l := a :: p) ltac:(discriminate)) as (l' & y & ->); rewrite last_last; apply in_or_app; right; left; reflexivity).
  assert (H2 := He _ a (Hin _ Hlast) (Hin a (or_introl eq_refl))).
  replace (INR n) with (INR (n - 1) + 1) by (rewrite minus_INR by lia; cbn; lra). apply Rabs_le. apply Rabs_le_inv in H1, H2. lra.
Qed.
End Lengths.

Lemma path_cost_ext n w w' p : (forall i j, (i < n)%nat -> (j < n)%nat -> w i j = w' i j) -> (forall x, In x p -> (x < n)%nat) -> path_cost w p = path_cost w' p.
Proof.
  intros H. induction p as [|a p IH]; intros Hp; [reflexivity|]. destruct p as [|b p]; [reflexivity|].
  change (w a b + path_cost w (b :: p) = w' a b + path_cost w' (b :: p))%Z. rewrite (H a b), IH; [reflexivity| | |]; [intros x Hx; apply Hp; right; exact Hx|apply Hp; left; reflexivity|apply Hp; right; left; reflexivity].
Qed.
Lemma tour_cost_ext n w w' p : (forall i j, (i < n)%nat -> (j < n)%nat -> w i j = w' i j) -> is_tour n p -> tour_cost w p = tour_cost w' p.
Proof.
  intros H Hp. assert (Hin : forall x, In x p -> (x < n)%nat) by (intros x Hx; apply (Permutation_in _ Hp), in_seq in Hx; lia).
  unfold tour_cost. destruct p as [|a p]; [reflexivity|]. 
  assert (Hlast : In (last (a :: p) a) (a :: p)) by (destruct (exists_last (l := a :: p) ltac:(discriminate)) as (l' & y & ->); rewrite last_last; apply in_or_app; right; left; reflexivity).
  rewrite (path_cost_ext n w w' (a :: p) H Hin), (H _ a (Hin _ Hlast) (Hin a (or_introl eq_refl))). reflexivity.
Qed.

(** ** Powers of 1 + 2^-53 *)
Lemma bernoulli_upper k (x : R) : 0 <= x -> INR k * x <= / 2 -> (1 + x) ^ k <= 1 + 2 * (INR k * x).
Proof.
  intros Hx. induction k as [|k IH]; intros Hk; [cbn; lra|]. rewrite S_INR in *. cbn [pow].
  assert (INR k * x <= / 2) by (pose proof (pos_INR k); nra). specialize (IH H). pose proof (pos_INR k). nra.
Qed.
Lemma bernoulli_lower k (x : R) : 0 <= x <= 1 -> 1 - INR k * x <= (1 - x) ^ k.
Proof.
  intros Hx. induction k as [|k IH]; [cbn; lra|]. rewrite S_INR. cbn [pow]. pose proof (pos_INR k).
  destruct (Rle_dec 0 (1 - INR k * x)) as [H1|H1]; [nra|]. assert (0 <= (1 - x) * (1 - x) ^ k) by (apply Rmult_le_pos; [lra|apply pow_le; lra]). nra.
Qed.
Local Notation u := (/ 2 ^ 53).
Lemma u_pos : 0 < u. Proof. apply Rinv_0_lt_compat, pow_lt. lra. Qed.
Lemma u_small : u <= / 1024. Proof. apply Rinv_le; [lra|]. change 1024 with (IZR 1024). replace (2 ^ 53) with (IZR (2 ^ 53)) by (rewrite (pow_IZR 2 53); reflexivity). apply IZR_le. lia. Qed.
Lemma two53 : IZR (2 ^ 53) = 2 ^ 53. Proof. rewrite (pow_IZR 2 53). reflexivity. Qed.
Lemma pow_Z (z : Z) k : IZR (z ^ Z.of_nat k) = IZR z ^ k.
Proof. symmetry. apply pow_IZR. Qed.
Lemma p53 : (0 < 2 ^ 53)%R. Proof. apply pow_lt. lra. Qed.

(** [within] as a relative error *)
Lemma within_real k c z : (0 <= z)%Z -> INR k * u <= / 2 -> within k c z -> Rabs (IZR c - IZR z) <= 2 * (INR k * u) * IZR z.
Proof.
  intros Hz Hk [H1 H2]. apply IZR_le in H1, H2. rewrite !mult_IZR, !pow_Z, ?minus_IZR, ?plus_IZR, two53 in *. apply IZR_le in Hz.
  pose proof p53 as HP. set (P := 2 ^ 53) in *. pose proof u_pos as Hu. fold P in Hu. pose proof u_small as Hus. fold P in Hus.
  assert (E : P * / P = 1) by (apply Rinv_r; lra).
  replace (P - 1) with (P * (1 - / P)) in H1 by (rewrite Rmult_minus_distr_l, E; ring). replace (P + 1) with (P * (1 + / P)) in H2 by (rewrite Rmult_plus_distr_l, E; ring).
  rewrite Rpow_mult_distr in H1, H2. assert (HPk : 0 < P ^ k) by (apply pow_lt; assumption).
  assert (G1 : IZR z * (1 - / P) ^ k <= IZR c) by (apply (Rmult_le_reg_r (P ^ k)); [assumption|]; lra).
  assert (G2 : IZR c <= IZR z * (1 + / P) ^ k) by (apply (Rmult_le_reg_r (P ^ k)); [assumption|]; lra).
  pose proof (bernoulli_lower k (/ P) ltac:(lra)) as B1. pose proof (bernoulli_upper k (/ P) ltac:(lra) Hk) as B2. pose proof (pos_INR k).
  apply Rabs_le. nra.
Qed.
(** a bound with a factor on both sides *)
Lemma factor_real k a b : (0 <= a)%Z -> (0 <= b)%Z -> INR k * u <= / 8 -> (a * (2 ^ 53 - 1) ^ Z.of_nat k <= b * (2 ^ 53 + 1) ^ Z.of_nat k)%Z -> IZR a <= IZR b * (1 + 4 * (INR k * u)).
Proof.
  intros Ha Hb Hk H. apply IZR_le in H. rewrite !mult_IZR, !pow_Z, ?minus_IZR, ?plus_IZR, two53 in *. apply IZR_le in Ha, Hb.
  pose proof p53 as HP. set (P := 2 ^ 53) in *. pose proof u_pos as Hu. fold P in Hu. pose proof u_small as Hus. fold P in Hus.
  assert (E : P * / P = 1) by (apply Rinv_r; lra).
  replace (P - 1) with (P * (1 - / P)) in H by (rewrite Rmult_minus_distr_l, E; ring). replace (P + 1) with (P * (1 + / P)) in H by (rewrite Rmult_plus_distr_l, E; ring).
  rewrite !Rpow_mult_distr in H. assert (HPk : 0 < P ^ k) by (apply pow_lt; assumption).
  assert (G : IZR a * (1 - / P) ^ k <= IZR b * (1 + / P) ^ k) by (apply (Rmult_le_reg_r (P ^ k)); [assumption|]; lra).
  pose proof (bernoulli_lower k (/ P) ltac:(lra)) as B1. pose proof (bernoulli_upper k (/ P) ltac:(lra) ltac:(lra)) as B2. pose proof (pos_INR k).
  set (t := INR k * / P) in *. assert (Ht : 0 <= t) by (apply Rmult_le_pos; lra).
  assert (IZR a * (1 - t) <= IZR b * (1 + 2 * t)) by (apply Rle_trans with (IZR a * (1 - / P) ^ k); [apply Rmult_le_compat_l; lra|apply Rle_trans with (1 := G); apply Rmult_le_compat_l; lra]).
  apply (Rmult_le_reg_r (1 - t)); [lra|]. apply Rle_trans with (1 := H1). replace (IZR b * (1 + 4 * t) * (1 - t)) with (IZR b * ((1 + 4 * t) * (1 - t))) by ring. apply Rmult_le_compat_l; [assumption|]. nra.
Qed.
