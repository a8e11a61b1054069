(** The distance of two points in doubles: symmetric, not NaN, zero on equal points, accurate. *)
From Coq Require Import ZArith Bool List Lia Reals Lra Psatz.
From Flocq Require Import Core IEEE754.Binary IEEE754.Bits.
From Flocq Require Import Relative.
From Flocq Require IEEE754.BinarySingleNaN.
From Verif Require Import Num NumB64 F64Facts Data Points.
Local Open Scope R_scope.
Local Notation mode_NE := BinarySingleNaN.mode_NE.
Local Notation fexp := (SpecFloat.fexp 53 1024).
Local Notation RN := (round radix2 fexp (BinarySingleNaN.round_mode mode_NE)).
Local Notation Big := (bpow radix2 1024).
Local Notation Bsgn := (Bsign 53 1024).

Lemma RN_big : RN Big = Big.
Proof. apply round_generic; [auto with typeclass_instances|]. apply generic_format_bpow. unfold SpecFloat.fexp, SpecFloat.emin. lia. Qed.
Lemma RN_opp x : RN (- x) = - RN x.
Proof. apply round_NE_opp. Qed.
Lemma RN_0 : RN 0 = 0.
Proof. apply round_0. auto with typeclass_instances. Qed.
Lemma RN_ge0 x : 0 <= x -> 0 <= RN x.
Proof. intros H. rewrite <- RN_0. apply RN_mono. assumption. Qed.
Lemma Big_gt1 : 1 < Big.
Proof. change 1 with (bpow radix2 0). apply bpow_lt. lia. Qed.

(** ** The double of a real number that has been rounded *)
(** of either sign; not for nothing distinguishing the sign of zero *)
Definition rep (x : binary64) (r : R) : Prop :=
  (fin x /\ r64 x = r) \/ (Big <= Rabs r /\ exists s, x = B754_infinity 53 1024 s).
(** not negative *)
Definition repp (x : binary64) (r : R) : Prop :=
  (fin x /\ Bsgn x = false /\ r64 x = r) \/ (Big <= r /\ x = b64_inf).

Lemma repp_inj x y r : repp x r -> repp y r -> x = y.
Proof.
  intros [(F1 & S1 & V1)|(L1 & E1)] [(F2 & S2 & V2)|(L2 & E2)].
  - apply B2R_Bsign_inj; [assumption..|unfold r64 in *; congruence|congruence].
  - exfalso. pose proof (fin_lt x) as H. rewrite V1 in H. apply Rabs_def2 in H. lra.
  - exfalso. pose proof (fin_lt y) as H. rewrite V2 in H. apply Rabs_def2 in H. lra.
  - congruence.
Qed.
Lemma repp_0 x : repp x 0 -> x = b64_zero.
Proof. intros H. apply (repp_inj _ _ 0 H). left. split; [reflexivity|]. split; reflexivity. Qed.

Lemma minus_rep a b : fin a -> fin b -> rep (b64_minus mode_NE a b) (RN (r64 a - r64 b)).
Proof.
  intros Ha Hb. pose proof (Bminus_correct 53 1024 eq_refl eq_refl binop_nan_pl64 mode_NE a b Ha Hb) as K.
  change (Bminus 53 1024 eq_refl eq_refl binop_nan_pl64 mode_NE a b) with (b64_minus mode_NE a b) in K. fold (r64 a) (r64 b) in K.
  destruct (Rlt_bool_spec (Rabs (RN (r64 a - r64 b))) Big) as [L|L].
  - left. destruct K as (K1 & K2 & _). split; assumption.
  - right. split; [exact L|]. destruct K as (K1 & _). exists (Bsgn a). apply B2FF_inj. exact K1.
Qed.

Lemma sq_repp x r : rep x r -> repp (b64_sq x) (RN (r * r)).
Proof.
  intros [(F & V)|(L & s & ->)].
  - pose proof (Bmult_correct 53 1024 eq_refl eq_refl binop_nan_pl64 mode_NE x x) as K.
    change (Bmult 53 1024 eq_refl eq_refl binop_nan_pl64 mode_NE x x) with (b64_sq x) in K. fold (r64 x) in K. rewrite V in K.
    assert (P : 0 <= RN (r * r)) by (apply RN_ge0, Rle_0_sqr).
    destruct (Rlt_bool_spec (Rabs (RN (r * r))) Big) as [L|L].
    + left. destruct K as (K1 & K2 & K3). rewrite F in K2. split; [exact K2|]. split; [|exact K1]. rewrite K3, xorb_nilpotent; [reflexivity|].
      destruct (b64_sq x); [reflexivity..|discriminate K2|reflexivity].
    + right. rewrite Rabs_pos_eq in L by assumption. split; [exact L|]. rewrite xorb_nilpotent in K. apply B2FF_inj. exact K.
  - right. split; [|destruct s; reflexivity]. rewrite <- RN_big. apply RN_mono. pose proof Big_gt1.
    replace (r * r) with (Rabs r * Rabs r) by (rewrite <- Rabs_mult; apply Rabs_pos_eq, Rle_0_sqr). nra.
Qed.

Lemma repp_ge0 x r : repp x r -> 0 <= r.
Proof.
  intros [(F & S & V)|(L & _)]; [|pose proof Big_gt1; lra]. rewrite <- V.
  destruct x as [[]|[]|[] ? ?|[] m e ?]; try discriminate; unfold r64; simpl; try lra; apply F2R_ge_0; simpl; lia.
Qed.

Lemma plus_repp x y r s : repp x r -> repp y s -> repp (b64_plus mode_NE x y) (RN (r + s)).
Proof.
  intros Hx Hy. pose proof (repp_ge0 _ _ Hx) as R0. pose proof (repp_ge0 _ _ Hy) as S0.
  destruct Hx as [(F1 & S1 & V1)|(L1 & E1)]; [destruct Hy as [(F2 & S2 & V2)|(L2 & E2)]|].
  - pose proof (Bplus_correct 53 1024 eq_refl eq_refl binop_nan_pl64 mode_NE x y F1 F2) as K.
    change (Bplus 53 1024 eq_refl eq_refl binop_nan_pl64 mode_NE x y) with (b64_plus mode_NE x y) in K. fold (r64 x) (r64 y) in K. rewrite V1, V2 in K.
    assert (P : 0 <= RN (r + s)) by (apply RN_ge0; lra).
    destruct (Rlt_bool_spec (Rabs (RN (r + s))) Big) as [L|L].
    + left. destruct K as (K1 & K2 & K3). split; [exact K2|]. split; [|exact K1]. rewrite K3. destruct (Rcompare_spec (r + s) 0); [lra|rewrite S1, S2; reflexivity|reflexivity].
    + right. rewrite Rabs_pos_eq in L by assumption. split; [exact L|]. destruct K as (K1 & _). rewrite S1 in K1. apply B2FF_inj. exact K1.
  - right. split; [rewrite <- RN_big; apply RN_mono; lra|]. rewrite E2. destruct x as [[]|[]|[] ? ?|[] m e ?]; try discriminate; reflexivity.
  - right. split; [rewrite <- RN_big; apply RN_mono; lra|]. rewrite E1. destruct Hy as [(F2 & S2 & V2)|(L2 & E2)]; [|rewrite E2; reflexivity].
    destruct y as [[]|[]|[] ? ?|[] m e ?]; try discriminate; reflexivity.
Qed.

(** ** The distance *)
Definition fin_pt (p : point) : Prop := fin (fst p) /\ fin (snd p).
Definition dsum (p q : point) : R :=
  let dx := RN (r64 (fst p) - r64 (fst q)) in let dy := RN (r64 (snd p) - r64 (snd q)) in RN (RN (dx * dx) + RN (dy * dy)).
Lemma dist_sum p q : fin_pt p -> fin_pt q ->
  exists s, b64_dist p q = b64_sqrt mode_NE s /\ repp s (dsum p q).
Proof.
  intros [P1 P2] [Q1 Q2]. eexists. split; [reflexivity|]. apply plus_repp; apply sq_repp; apply minus_rep; assumption.
Qed.

Theorem dist_sym p q : fin_pt p -> fin_pt q -> b64_dist p q = b64_dist q p.
Proof.
  intros Hp Hq. destruct (dist_sum p q Hp Hq) as (s & -> & H1). destruct (dist_sum q p Hq Hp) as (t & -> & H2). f_equal.
  apply (repp_inj _ _ (dsum p q)); [assumption|]. replace (dsum p q) with (dsum q p); [assumption|]. unfold dsum.
  assert (G : forall a b, RN (a - b) * RN (a - b) = RN (b - a) * RN (b - a)) by (intros a b; replace (a - b) with (- (b - a)) by ring; rewrite RN_opp; ring).
  cbv zeta. rewrite (G (r64 (fst q))), (G (r64 (snd q))). reflexivity.
Qed.
Theorem dist_self p : fin_pt p -> b64_dist p p = b64_zero.
Proof.
  intros Hp. destruct (dist_sum p p Hp Hp) as (s & -> & H). replace (dsum p p) with 0 in H.
  - apply repp_0 in H. rewrite H. reflexivity.
  - unfold dsum. cbv zeta. unfold Rminus. rewrite !Rplus_opp_r, RN_0, Rmult_0_r, RN_0, Rplus_0_r, RN_0. reflexivity.
Qed.
Lemma repp_sqrt s r : repp s r -> (Big <= r /\ b64_sqrt mode_NE s = b64_inf) \/
  (r < Big /\ fin (b64_sqrt mode_NE s) /\ r64 (b64_sqrt mode_NE s) = RN (sqrt r)).
Proof.
  intros [(F & S & V)|(L & ->)]; [right|left; split; [assumption|reflexivity]].
  pose proof (Bsqrt_correct 53 1024 eq_refl eq_refl unop_nan_pl64 mode_NE s) as (K1 & K2 & K3).
  change (Bsqrt 53 1024 eq_refl eq_refl unop_nan_pl64 mode_NE s) with (b64_sqrt mode_NE s) in *. fold (r64 s) in K1. rewrite V in K1.
  split; [pose proof (fin_lt s) as H; rewrite V in H; apply Rabs_def2 in H; lra|]. split; [|exact K1].
  unfold fin. rewrite K2. destruct s as [[]|[]|[] ? ?|[] m e ?]; try discriminate; reflexivity.
Qed.
Theorem dist_range p q : fin_pt p -> fin_pt q ->
  b64_dist p q = b64_inf \/ (fin (b64_dist p q) /\ 0 <= r64 (b64_dist p q)).
Proof.
  intros Hp Hq. destruct (dist_sum p q Hp Hq) as (s & -> & H). destruct (repp_sqrt _ _ H) as [(_ & E)|(_ & F & V)]; [auto|]. right. split; [assumption|].
  rewrite V. apply RN_ge0, sqrt_pos.
Qed.

(** ** Accuracy *)
Local Notation U := (bpow radix2 (-53)).
Local Notation Eta := (bpow radix2 (-1075)).
Lemma bpow_half e : / 2 * bpow radix2 (1 + e) = bpow radix2 e.
Proof. rewrite bpow_plus. change (bpow radix2 1) with 2. field. Qed.
Lemma RN_err x : exists e t, Rabs e <= U /\ Rabs t <= Eta /\ RN x = x * (1 + e) + t.
Proof.
  destruct (error_N_FLT radix2 (-1074) 53 ltac:(lia) (fun x => negb (Z.even x)) x) as (e & t & E1 & E2 & _ & E3). exists e, t.
  split; [refine (Rle_trans _ _ _ E1 _); right; exact (bpow_half (-53))|].
  split; [|exact E3]. refine (Rle_trans _ _ _ E2 _); right. exact (bpow_half (-1075)).
Qed.
Lemma RN_bounds x : 0 <= x -> x * (1 - U) - Eta <= RN x <= x * (1 + U) + Eta.
Proof.
  intros Hx. destruct (RN_err x) as (e & t & E & T & ->). apply Rabs_le_inv in E. apply Rabs_le_inv in T. nra.
Qed.

(** the Euclidean length of a vector *)
Definition hyp (x y : R) : R := sqrt (x * x + y * y).
Lemma sq_ge0 x : 0 <= x * x. Proof. apply Rle_0_sqr. Qed.
Lemma hyp_ge0 x y : 0 <= hyp x y. Proof. apply sqrt_pos. Qed.
Lemma hyp_sq x y : hyp x y * hyp x y = x * x + y * y.
Proof. apply sqrt_sqrt. pose proof (sq_ge0 x). pose proof (sq_ge0 y). lra. Qed.
Lemma hyp_tri a b c d : hyp (a + c) (b + d) <= hyp a b + hyp c d.
Proof.
  pose proof (triangle (a + c) (b + d) 0 0 c d) as T. unfold dist_euc, Rsqr in T. unfold hyp.
  replace ((a + c - 0) * (a + c - 0) + (b + d - 0) * (b + d - 0)) with ((a + c) * (a + c) + (b + d) * (b + d)) in T by ring.
  replace ((a + c - c) * (a + c - c) + (b + d - d) * (b + d - d)) with (a * a + b * b) in T by ring.
  replace ((c - 0) * (c - 0) + (d - 0) * (d - 0)) with (c * c + d * d) in T by ring. exact T.
Qed.
Lemma hyp_mono a b c d : Rabs a <= c -> Rabs b <= d -> hyp a b <= hyp c d.
Proof.
  intros H1 H2. apply sqrt_le_1_alt. apply Rabs_le_inv in H1. apply Rabs_le_inv in H2. nra.
Qed.
Lemma hyp_scale k x y : 0 <= k -> hyp (k * Rabs x) (k * Rabs y) = k * hyp x y.
Proof.
  intros Hk. unfold hyp. replace (k * Rabs x * (k * Rabs x) + k * Rabs y * (k * Rabs y)) with (k * k * (x * x + y * y)).
  - rewrite sqrt_mult by (try apply sq_ge0; pose proof (sq_ge0 x); pose proof (sq_ge0 y); lra). rewrite sqrt_square by assumption. reflexivity.
  - assert (G : forall z, Rabs z * Rabs z = z * z) by (intros z; rewrite <- Rabs_mult; apply Rabs_pos_eq, sq_ge0).
    rewrite Rmult_plus_distr_l. rewrite <- (G x), <- (G y). ring.
Qed.
Lemma hyp_const h : 0 <= h -> hyp h h <= 2 * h.
Proof. intros Hh. unfold hyp. rewrite <- (sqrt_square (2 * h)) by lra. apply sqrt_le_1_alt. nra. Qed.

Lemma hyp_err u h x y a b : 0 <= u <= 1 -> 0 <= h ->
  (1 - u) * Rabs x - h <= Rabs a <= (1 + u) * Rabs x + h -> (1 - u) * Rabs y - h <= Rabs b <= (1 + u) * Rabs y + h ->
  (1 - u) * hyp x y - 2 * h <= hyp a b <= (1 + u) * hyp x y + 2 * h.
Proof.
  intros Hu Hh Ha Hb. pose proof (hyp_const h Hh) as Hc. split.
  - assert (L : hyp ((1 - u) * Rabs x) ((1 - u) * Rabs y) <= hyp (Rabs a + h) (Rabs b + h)).
    { apply hyp_mono; rewrite Rabs_mult, Rabs_Rabsolu, (Rabs_pos_eq (1 - u)) by lra; lra. }
    rewrite hyp_scale in L by lra. pose proof (hyp_tri (Rabs a) (Rabs b) h h) as T.
    assert (E : hyp (Rabs a) (Rabs b) = hyp a b) by (rewrite <- (Rmult_1_l (Rabs a)), <- (Rmult_1_l (Rabs b)), hyp_scale by lra; ring).
    rewrite E in T. lra.
  - assert (L : hyp a b <= hyp ((1 + u) * Rabs x + h) ((1 + u) * Rabs y + h)) by (apply hyp_mono; lra).
    pose proof (hyp_tri ((1 + u) * Rabs x) ((1 + u) * Rabs y) h h) as T. rewrite hyp_scale in T by lra. lra.
Qed.
Lemma RN_abs x : (1 - U) * Rabs x - Eta <= Rabs (RN x) <= (1 + U) * Rabs x + Eta.
Proof.
  destruct (Rle_or_lt 0 x) as [L|L].
  - rewrite !Rabs_pos_eq by (try apply RN_ge0; assumption). pose proof (RN_bounds x L). lra.
  - assert (E : exists y, x = - y /\ 0 <= y) by (exists (- x); lra). destruct E as (y & -> & Hy). rewrite RN_opp, !Rabs_Ropp.
    rewrite !Rabs_pos_eq by (try apply RN_ge0; assumption). pose proof (RN_bounds y Hy). lra.
Qed.

Lemma U_small : 0 < U <= / 1024.
Proof. split; [apply bpow_gt_0|]. replace (/ 1024) with (bpow radix2 (-10)) by reflexivity. apply bpow_le. lia. Qed.
Local Notation T := (bpow radix2 (-536)).
Lemma T_sq : T * T = 8 * Eta /\ 0 < Eta /\ 0 < T <= / 1024 /\ Eta <= T * / 1024.
Proof.
  assert (G : T * T = 8 * Eta).
  { rewrite <- bpow_plus. change (-536 + -536)%Z with (3 + -1075)%Z. rewrite bpow_plus. simpl (bpow radix2 3). reflexivity. }
  assert (P : T <= / 1024) by (replace (/ 1024) with (bpow radix2 (-10)) by reflexivity; apply bpow_le; lia).
  pose proof (bpow_gt_0 radix2 (-536)). pose proof (bpow_gt_0 radix2 (-1075)). repeat split; try assumption. nra.
Qed.
Lemma sqrt_err u h t a b s : 0 <= u <= / 1024 -> 0 <= h <= / 1024 -> 0 <= t -> t * t = 8 * h -> 0 <= s ->
  (a * a + b * b) * (1 - u) * (1 - u) - 4 * h <= s <= (a * a + b * b) * (1 + u) * (1 + u) + 4 * h ->
  hyp a b * (1 - u) - t <= sqrt s <= hyp a b * (1 + u) + t.
Proof.
  intros Hu Hh Ht Et Hs Hb. pose proof (hyp_sq a b) as Q. pose proof (hyp_ge0 a b) as P. pose proof (sqrt_pos s) as S0. pose proof (sqrt_sqrt s Hs) as S2.
  set (p := hyp a b) in *. set (r := sqrt s) in *. rewrite <- Q in Hb. split.
  - destruct (Rle_or_lt (p * (1 - u) - t) r) as [L|L]; [assumption|]. exfalso.
    assert (r * r < (p * (1 - u) - t) * (p * (1 - u) - t)) by nra. assert (0 <= p * (1 - u) - t) by lra.
    assert (0 <= t * (p * (1 - u) - t)) by (apply Rmult_le_pos; lra). nra.
  - destruct (Rle_or_lt r (p * (1 + u) + t)) as [L|L]; [assumption|]. exfalso.
    assert (0 <= p * (1 + u)) by (apply Rmult_le_pos; lra).
    assert ((p * (1 + u) + t) * (p * (1 + u) + t) < r * r) by nra. assert (0 <= t * (p * (1 + u))) by (apply Rmult_le_pos; lra). nra.
Qed.

(** the distance of the exact points *)
Definition edist (p q : point) : R := dist_euc (r64 (fst p)) (r64 (snd p)) (r64 (fst q)) (r64 (snd q)).
Lemma edist_hyp p q : edist p q = hyp (r64 (fst p) - r64 (fst q)) (r64 (snd p) - r64 (snd q)).
Proof. reflexivity. Qed.

Lemma dsum_ge0 p q : 0 <= dsum p q.
Proof. apply RN_ge0, Rplus_le_le_0_compat; apply RN_ge0, sq_ge0. Qed.
Lemma dsum_err p q : let a := RN (r64 (fst p) - r64 (fst q)) in let b := RN (r64 (snd p) - r64 (snd q)) in
  (a * a + b * b) * (1 - U) * (1 - U) - 4 * Eta <= dsum p q <= (a * a + b * b) * (1 + U) * (1 + U) + 4 * Eta.
Proof.
  intros a b. unfold dsum. fold a b. cbv zeta. pose proof (RN_bounds _ (sq_ge0 a)) as A. pose proof (RN_bounds _ (sq_ge0 b)) as B.
  pose proof (RN_ge0 _ (sq_ge0 a)) as Ra. pose proof (RN_ge0 _ (sq_ge0 b)) as Rb. pose proof (RN_bounds (RN (a * a) + RN (b * b)) ltac:(lra)) as S.
  pose proof U_small as [U0 U1]. destruct T_sq as (_ & H0 & _). pose proof (sq_ge0 a) as Qa. pose proof (sq_ge0 b) as Qb.
  set (x := RN (a * a)) in *. set (y := RN (b * b)) in *. set (s := RN (x + y)) in *. set (qa := a * a) in *. set (qb := b * b) in *.
  generalize dependent U. generalize dependent Eta. intros h H0 u A B S U0 U1. split; nra.
Qed.
Lemma sqrt_dsum p q : edist p q * (1 - 3 * U) - 2 * T <= sqrt (dsum p q) <= edist p q * (1 + 3 * U) + 2 * T.
Proof.
  pose proof (dsum_err p q) as E. cbv zeta in E. pose proof U_small as [U0 U1]. destruct T_sq as (T2 & H0 & (T0 & T1) & HT).
  assert (Hh : 0 <= Eta <= / 1024) by (split; [lra|nra]).
  pose proof (sqrt_err U Eta T _ _ (dsum p q) ltac:(lra) Hh ltac:(lra) T2 (dsum_ge0 p q) E) as S.
  pose proof (hyp_err U Eta _ _ _ _ ltac:(lra) ltac:(lra) (RN_abs (r64 (fst p) - r64 (fst q))) (RN_abs (r64 (snd p) - r64 (snd q)))) as Y.
  rewrite edist_hyp. pose proof (hyp_ge0 (r64 (fst p) - r64 (fst q)) (r64 (snd p) - r64 (snd q))) as D0.
  set (d := hyp (r64 (fst p) - r64 (fst q)) (r64 (snd p) - r64 (snd q))) in *. set (v := hyp (RN _) _) in *. set (r := sqrt (dsum p q)) in *.
  clear E. generalize dependent U. generalize dependent Eta. generalize dependent T. intros t T0 T1 h T2 H0 HT Hh u U0 U1 S Y.
  split; nra.
Qed.
Theorem dist_accurate p q : fin_pt p -> fin_pt q -> fin (b64_dist p q) ->
  Rabs (r64 (b64_dist p q) - edist p q) <= 5 * U * edist p q + 4 * T.
Proof.
  intros Hp Hq Hf. destruct (dist_sum p q Hp Hq) as (s & E & Hs). rewrite E in *. destruct (repp_sqrt _ _ Hs) as [(_ & E')|(_ & _ & V)]; [rewrite E' in Hf; discriminate|].
  rewrite V. pose proof (sqrt_dsum p q) as S. pose proof (RN_bounds _ (sqrt_pos (dsum p q))) as B. set (r := sqrt (dsum p q)) in *. set (z := RN r) in *.
  pose proof U_small as [U0 U1]. destruct T_sq as (T2 & H0 & (T0 & T1) & HT).
  assert (D0 : 0 <= edist p q) by (rewrite edist_hyp; apply hyp_ge0). set (d := edist p q) in *.
  generalize dependent U. generalize dependent Eta. generalize dependent T. intros. apply Rabs_le. split; nra.
Qed.

(** no overflow *)
Lemma dist_finite p q : fin_pt p -> fin_pt q ->
  (forall x, x = fst p \/ x = snd p \/ x = fst q \/ x = snd q -> Rabs (r64 x) <= bpow radix2 500) -> fin (b64_dist p q).
Proof.
  intros Hp Hq Hb. destruct (dist_sum p q Hp Hq) as (s & -> & Hs). destruct (repp_sqrt _ _ Hs) as [(L & _)|(_ & F & _)]; [exfalso|exact F].
  pose proof (dsum_err p q) as E. cbv zeta in E. pose proof U_small as [U0 U1]. destruct T_sq as (_ & H0 & (T0 & T1) & HT).
  assert (G : forall x y, Rabs x <= bpow radix2 500 -> Rabs y <= bpow radix2 500 -> RN (x - y) * RN (x - y) <= bpow radix2 1010).
  { intros x y Hx Hy. pose proof (RN_abs (x - y)) as [_ A]. assert (A2 : Rabs (x - y) <= 2 * bpow radix2 500) by (eapply Rle_trans; [apply Rabs_triang|rewrite Rabs_Ropp; lra]).
    assert (B1 : 1 <= bpow radix2 500) by (change 1 with (bpow radix2 0); apply bpow_le; lia).
    assert (A3 : Rabs (RN (x - y)) <= 4 * bpow radix2 500) by nra.
    replace (RN (x - y) * RN (x - y)) with (Rabs (RN (x - y)) * Rabs (RN (x - y))) by (rewrite <- Rabs_mult; apply Rabs_pos_eq, sq_ge0).
    change 1010%Z with (10 + (500 + 500))%Z. rewrite !bpow_plus. replace (bpow radix2 10) with 1024 by reflexivity. pose proof (Rabs_pos (RN (x - y))). nra. }
  pose proof (G _ _ (Hb (fst p) ltac:(auto)) (Hb (fst q) ltac:(auto))) as X. pose proof (G _ _ (Hb (snd p) ltac:(auto)) (Hb (snd q) ltac:(auto))) as Y.
  assert (BB : Big = 16384 * bpow radix2 1010) by (change 1024%Z with (14 + 1010)%Z; rewrite bpow_plus; replace (bpow radix2 14) with 16384 by reflexivity; reflexivity).
  assert (B1 : 1 <= bpow radix2 1010) by (change 1 with (bpow radix2 0); apply bpow_le; lia).
  rewrite BB in L. clear BB Hs G. set (a := RN (r64 (fst p) - r64 (fst q))) in *. set (b := RN (r64 (snd p) - r64 (snd q))) in *.
  set (g := bpow radix2 1010) in *. pose proof (sq_ge0 a). pose proof (sq_ge0 b). set (qa := a * a) in *. set (qb := b * b) in *.
  assert (L4 : (qa + qb) * (1 + U) * (1 + U) <= 8 * g) by nra. assert (4 * Eta <= 1) by nra. lra.
Qed.

(** ** The triangle inequality with the tolerance *)
Import ListNotations.
Lemma edist_tri p q r : edist p r <= edist p q + edist q r.
Proof. apply triangle. Qed.
Lemma eps_big : bpow radix2 (-34) <= r64 b64_eps.
Proof.
  change (r64 b64_eps) with (F2R (Float radix2 7737125245533627 (-86))). unfold F2R. cbn [Fnum Fexp].
  replace (-34)%Z with (52 + -86)%Z by lia. rewrite bpow_plus. apply Rmult_le_compat_r; [apply bpow_ge_0|].
  change (bpow radix2 52) with (IZR (2 ^ 52)). apply IZR_le. lia.
Qed.

Theorem dist_metric_test p q r : fin_pt p -> fin_pt q -> fin_pt r ->
  (forall x, In x [fst p; snd p; fst q; snd q; fst r; snd r] -> Rabs (r64 x) <= 16384) ->
  b64_cmp_lt (b64_plus mode_NE (b64_plus mode_NE (b64_dist p q) (b64_dist q r)) b64_eps) (b64_dist p r) = false.
Proof.
  intros Hp Hq Hr Hb.
  assert (Hbig : 16384 <= bpow radix2 500) by (replace 16384 with (bpow radix2 14) by reflexivity; apply bpow_le; lia).
  assert (F : forall s t, In s [p; q; r] -> In t [p; q; r] -> fin_pt s -> fin_pt t -> fin (b64_dist s t)).
  { intros s t Is It Fs Ft. apply dist_finite; [assumption..|]. intros x Hx. refine (Rle_trans _ _ _ (Hb x _) Hbig).
    repeat (destruct Is as [<-|Is]; [repeat (destruct It as [<-|It]; [simpl; intuition (subst; auto)|]); contradiction|]). contradiction. }
  pose proof (F p q ltac:(simpl; auto) ltac:(simpl; auto) Hp Hq) as F1. pose proof (F q r ltac:(simpl; auto) ltac:(simpl; auto) Hq Hr) as F2. pose proof (F p r ltac:(simpl; auto) ltac:(simpl; auto) Hp Hr) as F3. clear F.
  pose proof (dist_accurate p q Hp Hq F1) as A1. pose proof (dist_accurate q r Hq Hr F2) as A2. pose proof (dist_accurate p r Hp Hr F3) as A3.
  apply Rabs_le_inv in A1. apply Rabs_le_inv in A2. apply Rabs_le_inv in A3.
  pose proof (edist_tri p q r) as Tr.
  assert (P1 : 0 <= edist p q) by apply hyp_ge0. assert (P2 : 0 <= edist q r) by apply hyp_ge0. assert (P3 : 0 <= edist p r) by apply hyp_ge0.
  assert (D : edist p r <= 46341).
  { rewrite edist_hyp. unfold hyp. rewrite <- (sqrt_square 46341) by lra. apply sqrt_le_1_alt.
    assert (G : forall a b, Rabs a <= 16384 -> Rabs b <= 16384 -> (a - b) * (a - b) <= 32768 * 32768).
    { intros a b Ha Hb'. apply Rabs_le_inv in Ha. apply Rabs_le_inv in Hb'. assert (-32768 <= a - b <= 32768) by lra. nra. }
    pose proof (G (r64 (fst p)) (r64 (fst r)) ltac:(apply Hb; simpl; auto) ltac:(apply Hb; simpl; auto 10)).
    pose proof (G (r64 (snd p)) (r64 (snd r)) ltac:(apply Hb; simpl; auto) ltac:(apply Hb; simpl; auto 10)). lra. }
  pose proof eps_big as Eb. pose proof eps_fin as Ef.
  assert (Ev : bpow radix2 (-34) = 524288 * U).
  { change (-34)%Z with (19 + -53)%Z. rewrite bpow_plus. replace (bpow radix2 19) with 524288 by reflexivity. reflexivity. }
  assert (Tv : T <= U * / 1024).
  { replace (/ 1024) with (bpow radix2 (-10)) by reflexivity. rewrite <- bpow_plus. apply bpow_le. lia. }
  rewrite Ev in Eb. clear Ev Hb. pose proof U_small as [U0 U1]. destruct T_sq as (_ & H0 & (T0 & T1) & HT).
  set (x := b64_dist p q) in *. set (y := b64_dist q r) in *. set (z := b64_dist p r) in *.
  assert (L : b64_cmp_le z (b64_plus mode_NE (b64_plus mode_NE x y) b64_eps) = true).
  { destruct (plus_cases x y F1 F2) as [(Hf & Ex & _)|[(Ex & _)|(Ex & Lx)]].
    - apply plus_ge; [assumption..|]. rewrite Ex.
      destruct (Rle_or_lt 0 (r64 x + r64 y)) as [S0|S0].
      + pose proof (RN_bounds _ S0) as [B _].
        assert (S1 : edist p r * (1 - 5 * U) - 8 * T <= r64 x + r64 y) by nra.
        assert (S2 : (edist p r * (1 - 5 * U) - 8 * T) * (1 - U) - Eta <= RN (r64 x + r64 y)) by nra.
        assert (S3 : edist p r * U <= 46341 * U) by nra. nra.
      + exfalso. destruct (dist_range p q Hp Hq) as [E|[_ G1]]; [fold x in E; rewrite E in F1; discriminate|]. destruct (dist_range q r Hq Hr) as [E|[_ G2]]; [fold y in E; rewrite E in F2; discriminate|].
        fold x in G1. fold y in G2. lra.
    - rewrite Ex. change (b64_plus mode_NE b64_inf b64_eps) with b64_inf. apply cle_inf. assumption.
    - exfalso. pose proof Big_gt1.
      destruct (dist_range p q Hp Hq) as [E|[_ G1]]; [fold x in E; rewrite E in F1; discriminate|]. destruct (dist_range q r Hq Hr) as [E|[_ G2]]; [fold y in E; rewrite E in F2; discriminate|].
      fold x in G1. fold y in G2. pose proof (RN_ge0 (r64 x + r64 y) ltac:(lra)). lra. }
  change (@clt B64 (b64_plus mode_NE (b64_plus mode_NE x y) b64_eps) z = false). change (@cle B64 z (b64_plus mode_NE (b64_plus mode_NE x y) b64_eps) = true) in L.
  rewrite (ord_lt B64 B64_ord), L. apply andb_false_r.
Qed.
