(** Proofs about the generator of random documents. *)
From Coq Require Import ZArith Arith Bool List Lia Reals Lra Psatz.
From Flocq Require Import Core IEEE754.Binary IEEE754.Bits.
From Flocq Require IEEE754.BinarySingleNaN.
From Verif Require Import Num NumB64 F64Facts Base Data Points PointsProofs DistProofs ConvProofs PrecondProofs Precond PrimProofs Generator.
Import ListNotations.
Local Open Scope R_scope.
Local Notation mode_NE := BinarySingleNaN.mode_NE.
Local Notation fexp := (SpecFloat.fexp 53 1024).
Local Notation RN := (round radix2 fexp (BinarySingleNaN.round_mode mode_NE)).

(** ** Multiples of a power of two stay multiples when they are rounded *)
Definition on_grid (e : Z) (x : R) : Prop := exists z, x = IZR z * bpow radix2 e.

Lemma grid_round e x : (-1074 <= e)%Z -> on_grid e x -> on_grid e (RN x).
Proof.
  intros He (z & ->). set (x := IZR z * bpow radix2 e). destruct (Z_le_gt_dec (cexp radix2 fexp x) e) as [L|G].
  - exists z. apply round_generic; [auto with typeclass_instances|]. change x with (F2R (Float radix2 z e)). apply generic_format_F2R. intros _. exact L.
  - unfold round. set (c := cexp radix2 fexp x) in *. set (q := BinarySingleNaN.round_mode mode_NE (scaled_mantissa radix2 fexp x)).
    exists (q * 2 ^ (c - e))%Z. unfold F2R. cbn [Fnum Fexp]. rewrite mult_IZR. change (2 ^ (c - e))%Z with (Zpower radix2 (c - e)). rewrite IZR_Zpower by lia.
    rewrite Rmult_assoc, <- bpow_plus. do 2 f_equal. lia.
Qed.
Lemma grid_le e x : on_grid e x -> x <> 0 -> bpow radix2 e <= Rabs x.
Proof.
  intros (z & ->) H. rewrite Rabs_mult, (Rabs_pos_eq (bpow _ _)) by apply bpow_ge_0. rewrite <- abs_IZR.
  rewrite <- (Rmult_1_l (bpow radix2 e)) at 1. apply Rmult_le_compat_r; [apply bpow_ge_0|]. apply IZR_le.
  assert (z <> 0%Z) by (intros ->; apply H; lra). lia.
Qed.
Lemma grid_sub e x y : on_grid e x -> on_grid e y -> on_grid e (x - y).
Proof. intros (a & ->) (b & ->). exists (a - b)%Z. rewrite minus_IZR. ring. Qed.

Lemma RN_inj_small z : (Z.abs z <= 2 ^ 53)%Z -> RN (IZR z) = IZR z.
Proof. intros H. pose proof (val_round 0 ltac:(lia) z H) as K. unfold val, F2R in K. cbn [Fnum Fexp bpow] in K. rewrite !Rmult_1_r in K. exact K. Qed.
Lemma inj0 z : (Z.abs z <= 2 ^ 53)%Z -> fin (b64_inj 0 z) /\ r64 (b64_inj 0 z) = IZR z.
Proof.
  intros H. destruct (inj_correct 0 ltac:(lia) z H) as (A & B & _). split; [exact B|]. unfold r64. rewrite A. unfold val, F2R. cbn. apply Rmult_1_r.
Qed.
Lemma no_overflow x : Rabs x <= 16384 -> Rabs x < bpow radix2 1024.
Proof. intros H. apply Rle_lt_trans with (bpow radix2 14); [exact H|apply bpow_lt; lia]. Qed.

(** the exact value that the coordinate approximates *)
Definition wanted (k : Z) : R := 20 * (IZR k * bpow radix2 (-53)) - 10.

Lemma coordinate_val k : (0 <= k < 2 ^ 53)%Z ->
  fin (coordinate k) /\ r64 (coordinate k) = RN (RN (20 * (IZR k * bpow radix2 (-53))) - 10) /\ -10 <= r64 (coordinate k) <= 10 /\ on_grid (-53) (r64 (coordinate k)).
Proof.
  intros Hk. set (r := IZR k * bpow radix2 (-53)).
  assert (Hr : 0 <= r <= 1).
  { unfold r. split; [apply Rmult_le_pos; [apply IZR_le; lia|apply bpow_ge_0]|].
    replace 1 with (IZR (2 ^ 53) * bpow radix2 (-53)).
    - apply Rmult_le_compat_r; [apply bpow_ge_0|]. apply IZR_le. lia.
    - change (2 ^ 53)%Z with (Zpower radix2 53). rewrite IZR_Zpower by lia. rewrite <- bpow_plus. reflexivity. }
  destruct (inj_correct (-53) ltac:(lia) k ltac:(lia)) as (K1 & K2 & _).
  change (val (-53) k) with r in K1.
  destruct (inj0 20 ltac:(lia)) as [T1 T2]. destruct (inj0 10 ltac:(lia)) as [U1 U2]. unfold r64 in T2, U2.
  assert (M0 : 0 <= RN (20 * r) <= 20).
  { split; [apply RN_ge0; lra|]. apply Rle_trans with (RN 20); [apply RN_mono; lra|right; apply (RN_inj_small 20); lia]. }
  assert (M : fin (b64_mult mode_NE (b64_inj (-53) k) (b64_inj 0 20)) /\ r64 (b64_mult mode_NE (b64_inj (-53) k) (b64_inj 0 20)) = RN (20 * r)).
  { pose proof (Bmult_correct 53 1024 eq_refl eq_refl binop_nan_pl64 mode_NE (b64_inj (-53) k) (b64_inj 0 20)) as K.
    change (Bmult 53 1024 eq_refl eq_refl binop_nan_pl64 mode_NE (b64_inj (-53) k) (b64_inj 0 20)) with (b64_mult mode_NE (b64_inj (-53) k) (b64_inj 0 20)) in K.
    rewrite K1, T2, (Rmult_comm r) in K.
    rewrite Rlt_bool_true in K by (apply no_overflow; rewrite Rabs_pos_eq; lra). destruct K as (A & B & _). split; [unfold fin in *; rewrite B, K2, T1; reflexivity|exact A]. }
  destruct M as [M1 M2]. unfold coordinate.
  assert (D0 : -10 <= RN (RN (20 * r) - 10) <= 10).
  { split; [apply Rle_trans with (RN (-10)); [right; symmetry; apply (RN_inj_small (-10)); lia|apply RN_mono; lra]|apply Rle_trans with (RN 10); [apply RN_mono; lra|right; apply (RN_inj_small 10); lia]]. }
  destruct (minus_rep _ (b64_inj 0 10) M1 U1) as [(F & V)|(L & _)].
  - rewrite M2 in V. unfold r64 in V at 2. rewrite U2 in V. split; [exact F|]. split; [exact V|]. rewrite V. split; [exact D0|].
    apply grid_round; [lia|]. apply grid_sub.
    + apply grid_round; [lia|]. exists (20 * k)%Z. unfold r. rewrite mult_IZR. ring.
    + exists (10 * 2 ^ 53)%Z. rewrite mult_IZR. change (2 ^ 53)%Z with (Zpower radix2 53). rewrite IZR_Zpower by lia. rewrite Rmult_assoc, <- bpow_plus. cbn [Z.add Z.opp Z.pos_sub]. cbn. ring.
  - exfalso. rewrite M2 in L. unfold r64 in L. rewrite U2 in L. pose proof (no_overflow (RN (RN (20 * r) - 10))) as H. assert (Rabs (RN (RN (20 * r) - 10)) <= 10) by (apply Rabs_le; lra). lra.
Qed.

Lemma coordinate_near k : (0 <= k < 2 ^ 53)%Z -> Rabs (r64 (coordinate k) - wanted k) <= bpow radix2 (-47).
Proof.
  intros Hk. destruct (coordinate_val k Hk) as (_ & V & R0 & _). rewrite V in *. unfold wanted. set (r := IZR k * bpow radix2 (-53)) in *.
  destruct (RN_err (20 * r)) as (e & t & He & Ht & E). destruct (RN_err (RN (20 * r) - 10)) as (e' & t' & He' & Ht' & E').
  assert (Hr : 0 <= r <= 1).
  { unfold r. split; [apply Rmult_le_pos; [apply IZR_le; lia|apply bpow_ge_0]|].
    replace 1 with (IZR (2 ^ 53) * bpow radix2 (-53)).
    - apply Rmult_le_compat_r; [apply bpow_ge_0|]. apply IZR_le. lia.
    - change (2 ^ 53)%Z with (Zpower radix2 53). rewrite IZR_Zpower by lia. rewrite <- bpow_plus. reflexivity. }
  assert (M0 : 0 <= RN (20 * r) <= 20).
  { split; [apply RN_ge0; lra|]. apply Rle_trans with (RN 20); [apply RN_mono; lra|right; apply (RN_inj_small 20); lia]. }
  rewrite E'. set (a := RN (20 * r)) in *.
  replace ((a - 10) * (1 + e') + t' - (20 * r - 10)) with ((a - 20 * r) + (a - 10) * e' + t') by ring.
  assert (H1 : a - 20 * r = 20 * r * e + t) by (rewrite E; ring). rewrite H1.
  assert (HU : bpow radix2 (-47) = 64 * bpow radix2 (-53)).
  { change (-47)%Z with (6 + -53)%Z. rewrite bpow_plus. reflexivity. }
  assert (HE : bpow radix2 (-1075) <= bpow radix2 (-53)) by (apply bpow_le; lia).
  rewrite HU. change (/ 2 * bpow radix2 (-53 + 1)) with (/ 2 * bpow radix2 (-52)) in *.
  assert (B1 : Rabs (20 * r * e) <= 20 * bpow radix2 (-53)) by (rewrite Rabs_mult, (Rabs_pos_eq (20 * r)) by lra; pose proof (Rabs_pos e); nra).
  assert (B2 : Rabs ((a - 10) * e') <= 10 * bpow radix2 (-53)).
  { rewrite Rabs_mult. assert (Rabs (a - 10) <= 10) by (apply Rabs_le; lra). pose proof (Rabs_pos e'). pose proof (Rabs_pos (a - 10)). nra. }
  pose proof (Rabs_triang (20 * r * e + t + (a - 10) * e') t'). pose proof (Rabs_triang (20 * r * e + t) ((a - 10) * e')). pose proof (Rabs_triang (20 * r * e) t).
  pose proof (bpow_gt_0 radix2 (-53)). lra.
Qed.

(** ** Distances *)
Definition same_position (p q : point) : Prop := r64 (fst p) = r64 (fst q) /\ r64 (snd p) = r64 (snd q).

Lemma dist_same p q : fin_pt p -> fin_pt q -> same_position p q -> b64_dist p q = b64_zero.
Proof.
  intros Hp Hq [E1 E2]. destruct (dist_sum p q Hp Hq) as (s & E & Hs). unfold dsum in Hs. cbv zeta in Hs. rewrite E1, E2, !Rminus_diag_eq, RN_0, !Rmult_0_l, RN_0, Rplus_0_l, RN_0 in Hs by reflexivity.
  rewrite E, (repp_0 _ Hs). reflexivity.
Qed.

(** different points of a grid of width 2^-53 have a positive distance *)
Definition generated_point (p : point) : Prop :=
  fin_pt p /\ (-10 <= r64 (fst p) <= 10 /\ -10 <= r64 (snd p) <= 10) /\ on_grid (-53) (r64 (fst p)) /\ on_grid (-53) (r64 (snd p)).

Lemma dist_apart p q : generated_point p -> generated_point q -> ~ same_position p q ->
  fin (b64_dist p q) /\ 0 < r64 (b64_dist p q).
Proof.
  intros (Fp & (Xp & Yp) & Gp & Hp) (Fq & (Xq & Yq) & Gq & Hq) Hne.
  assert (F : fin (b64_dist p q)).
  { apply dist_finite; [assumption..|]. assert (B : 10 <= bpow radix2 500) by (apply Rle_trans with (bpow radix2 4); [cbn; lra|apply bpow_le; lia]).
    intros x [->|[->|[->| ->]]]; apply Rabs_le; lra. }
  split; [exact F|].
  assert (D : bpow radix2 (-53) <= edist p q).
  { rewrite edist_hyp. set (dx := r64 (fst p) - r64 (fst q)). set (dy := r64 (snd p) - r64 (snd q)).
    assert (H : dx <> 0 \/ dy <> 0).
    { destruct (Req_dec dx 0) as [A|A]; [|auto]. destruct (Req_dec dy 0) as [B|B]; [|auto]. exfalso. apply Hne. unfold dx, dy in *. split; lra. }
    assert (G : bpow radix2 (-53) <= Rmax (Rabs dx) (Rabs dy)).
    { destruct H as [H|H].
      - eapply Rle_trans; [apply (grid_le _ dx); [apply grid_sub; assumption|exact H]|apply Rmax_l].
      - eapply Rle_trans; [apply (grid_le _ dy); [apply grid_sub; assumption|exact H]|apply Rmax_r]. }
    eapply Rle_trans; [exact G|]. pose proof (hyp_ge0 dx dy). pose proof (hyp_sq dx dy) as Q.
    assert (forall v, 0 <= v -> v * v <= hyp dx dy * hyp dx dy -> v <= hyp dx dy) as S by (intros; nra).
    unfold Rmax. destruct (Rle_dec (Rabs dx) (Rabs dy)); apply S; try apply Rabs_pos; rewrite <- Rabs_mult, Rabs_pos_eq by apply sq_ge0; rewrite Q; pose proof (sq_ge0 dx); pose proof (sq_ge0 dy); lra. }
  pose proof (dist_accurate p q Fp Fq F) as A. apply Rabs_le_inv in A. destruct A as [A _].
  pose proof U_small as [U0 U1].
  match type of A with context [4 * ?T] => assert (HT : 4 * T <= bpow radix2 (-53) * / 2) end.
  { apply Rle_trans with (bpow radix2 (-54)); [|right; change (-53)%Z with (1 + -54)%Z; rewrite bpow_plus; cbn [bpow Z.pow_pos Pos.iter radix_val radix2 Z.mul Pos.mul]; lra].
    match goal with |- 4 * bpow radix2 ?e <= _ => change 4 with (bpow radix2 2); rewrite <- bpow_plus; apply bpow_le; lia end. }
  set (d := edist p q) in *. pose proof (bpow_gt_0 radix2 (-53)). nra.
Qed.

Lemma ceq_pos x : fin x -> 0 < r64 x -> @ceq B64 x b64_zero = false.
Proof. intros F P. change (b64_cmp_eq x b64_zero = false). unfold b64_cmp_eq, b64_compare. rewrite Bcompare_correct by (assumption || reflexivity). fold (r64 x). cbn [B2R b64_zero]. rewrite Rcompare_Gt by exact P. reflexivity. Qed.
Lemma ceq_refl x : fin x -> @ceq B64 x x = true.
Proof. intros F. change (b64_cmp_eq x x = true). unfold b64_cmp_eq, b64_compare. rewrite Bcompare_correct by assumption. rewrite Rcompare_Eq by reflexivity. reflexivity. Qed.

(** ** The matrix and the document *)
Local Open Scope nat_scope.
Section Gen.
Variable ps : list point.
Let n := length ps.
Let pt i := nth i ps (b64_zero, b64_zero).

Lemma generated_matrix_val : exists m : vecmatrix B64, generated_matrix n ps = Ok m /\ vm_sq n m /\
  forall i j, i < n -> j < n -> vm_val m i j = if i =? j then b64_zero else b64_dist (pt j) (pt i).
Proof.
  unfold generated_matrix.
  assert (Z0 : vm_sq n (repeat (repeat (c0 : C B64) n) n) /\ forall i j, i < n -> j < n -> vm_val (repeat (repeat (c0 : C B64) n) n) i j = b64_zero).
  { assert (R : forall i, i < n -> nth i (repeat (repeat (c0 : C B64) n) n) [] = repeat (c0 : C B64) n).
    { intros i Hi. rewrite (nth_indep _ [] (repeat (c0 : C B64) n)) by (rewrite repeat_length; assumption). apply nth_repeat. }
    split; [split; [apply repeat_length|]; intros i Hi; rewrite R by assumption; apply repeat_length|].
    intros i j Hi Hj. unfold vm_val. rewrite R by assumption. apply (nth_repeat (c0 : C B64)). }
  match goal with |- context [foldM ?f ?l ?s] => destruct (foldM_inv f (fun pre (m : vecmatrix B64) => vm_sq n m /\ forall i j, i < n -> j < n ->
      vm_val m i j = if memb i pre && negb (i =? j) then b64_dist (pt j) (pt i) else b64_zero) l s) as (m & E & S & V) end.
  - split; [apply Z0|]. intros i j Hi Hj. cbn [memb existsb andb]. apply Z0; assumption.
  - intros pre x post m El (S & V).
    assert (Hx : x < n) by (assert (In x (seq 0 n)) as H by (rewrite El; apply in_elt); apply in_seq in H; lia).
    assert (Hnd : NoDup (pre ++ x :: post)) by (rewrite <- El; apply seq_NoDup).
    assert (Hpre : memb x pre = false) by (apply memb_nIn; intros Hin; apply NoDup_remove_2 in Hnd; apply Hnd; apply in_or_app; left; assumption).
    match goal with |- context [foldM ?f ?l ?s] => destruct (foldM_inv f (fun pre' (m' : vecmatrix B64) => vm_sq n m' /\ forall i j, i < n -> j < n ->
      vm_val m' i j = if i =? x then (if memb j pre' && negb (x =? j) then b64_dist (pt j) (pt x) else b64_zero) else vm_val m i j) l s) as (m' & E & S' & V') end.
    + split; [exact S|]. intros i j Hi Hj. destruct (Nat.eqb_spec i x) as [->|]; [|reflexivity]. cbn [memb existsb andb]. rewrite V by assumption. rewrite Hpre. reflexivity.
    + intros pre' y post' m' El' (S' & V').
      assert (Hy : y < n) by (assert (In y (seq 0 n)) as H by (rewrite El'; apply in_elt); apply in_seq in H; lia).
      assert (Hm : forall j, memb j (pre' ++ [y]) = memb j pre' || (j =? y)) by (intros j; unfold memb; rewrite existsb_app; cbn [existsb]; rewrite orb_false_r; reflexivity).
      destruct (Nat.eqb_spec x y) as [<-|Hxy]; cbn [negb].
      * exists m'. split; [reflexivity|]. split; [exact S'|]. intros i j Hi Hj. rewrite V' by assumption. rewrite Hm. rewrite (Nat.eqb_sym x j).
        destruct (i =? x); [|reflexivity]. destruct (j =? x); [rewrite !andb_false_r|rewrite orb_false_r]; reflexivity.
      * rewrite (nth_res_nth ps x (b64_zero, b64_zero)) by exact Hx. cbn [bind]. rewrite (nth_res_nth ps y (b64_zero, b64_zero)) by exact Hy. cbn [bind].
        destruct (vm_set_Ok n m' x y (euclidean_distance (nth x ps (b64_zero, b64_zero)) (nth y ps (b64_zero, b64_zero))) S' Hx Hy) as (m2 & E2 & S2 & V2).
        exists m2. split; [exact E2|]. split; [exact S2|]. intros i j Hi Hj. rewrite V2, V' by assumption. rewrite Hm.
        destruct (Nat.eqb_spec i x) as [->|]; cbn [andb]; [|reflexivity].
        destruct (Nat.eqb_spec j y) as [->|]; [|rewrite orb_false_r; reflexivity].
        rewrite orb_true_r. replace (x =? y) with false by (symmetry; apply Nat.eqb_neq; assumption). reflexivity.
    + exists m'. split; [exact E|]. split; [exact S'|]. intros i j Hi Hj. rewrite V' by assumption.
      unfold memb at 2. rewrite existsb_app. cbn [existsb]. rewrite orb_false_r. fold (memb i pre).
      destruct (Nat.eqb_spec i x) as [->|].
      * rewrite orb_true_r. replace (memb j (seq 0 n)) with true by (symmetry; apply memb_In, in_seq; lia). reflexivity.
      * rewrite orb_false_r. apply V; assumption.
  - exists m. split; [exact E|]. split; [exact S|]. intros i j Hi Hj. rewrite V by assumption.
    replace (memb i (seq 0 n)) with true by (symmetry; apply memb_In, in_seq; lia). cbn [andb]. destruct (i =? j); reflexivity.
Qed.
End Gen.

Lemma row_edges (row : list (C B64)) : vertex_of_row row =
  flat_map (fun j => if ceq (nth j row c0) (c0 : C B64) then [] else [mkEdge j (nth j row c0)]) (seq 0 (length row)).
Proof.
  unfold vertex_of_row. rewrite (combine_seq_nth row (c0 : C B64) 0), flat_map_concat_map, map_map, <- flat_map_concat_map. reflexivity.
Qed.
Lemma in_row (row : list (C B64)) e : In e (vertex_of_row row) <->
  e_to e < length row /\ e_cost e = nth (e_to e) row c0 /\ ceq (nth (e_to e) row c0) (c0 : C B64) = false.
Proof.
  rewrite row_edges, in_flat_map. split.
  - intros (j & Hj & H). apply in_seq in Hj. destruct (ceq (nth j row c0) c0) eqn:E; [destruct H|]. destruct H as [<-|[]]. cbn [e_to e_cost]. split; [apply Hj|]. split; [reflexivity|exact E].
  - intros (H1 & H2 & H3). exists (e_to e). split; [apply in_seq; lia|]. rewrite H3. left. destruct e as [t c]. cbn [e_to e_cost] in *. rewrite H2. reflexivity.
Qed.
Lemma filter_flat_seq {A} (h : nat -> list A) (key : A -> nat) j : (forall k e, In e (h k) -> key e = k) -> forall m s,
  filter (fun e => key e =? j) (flat_map h (seq s m)) = if (s <=? j) && (j <? s + m) then h j else [].
Proof.
  intros Hk. assert (Hf : forall k, filter (fun e => key e =? j) (h k) = if k =? j then h k else []).
  { intros k. destruct (Nat.eqb_spec k j) as [->|Hne].
    - assert (G : forall l, (forall e, In e l -> key e = j) -> filter (fun e => key e =? j) l = l).
      { induction l as [|e l IH]; intros H; [reflexivity|]. cbn. rewrite (H e (or_introl eq_refl)), Nat.eqb_refl. f_equal. apply IH. intros; apply H; right; assumption. }
      apply G. apply Hk.
    - assert (G : forall l, (forall e, In e l -> key e = k) -> filter (fun e => key e =? j) l = []).
      { induction l as [|e l IH]; intros H; [reflexivity|]. cbn. rewrite (H e (or_introl eq_refl)). replace (k =? j) with false by (symmetry; apply Nat.eqb_neq; assumption). apply IH. intros; apply H; right; assumption. }
      apply G. apply Hk. }
  induction m as [|m IH]; intros s.
  - cbn [seq flat_map filter]. destruct (Nat.leb_spec s j), (Nat.ltb_spec j (s + 0)); cbn [andb]; reflexivity || lia.
  - cbn [seq flat_map]. rewrite filter_app, Hf, IH.
    destruct (Nat.eqb_spec s j), (Nat.leb_spec s j), (Nat.leb_spec (S s) j), (Nat.ltb_spec j (s + S m)), (Nat.ltb_spec j (S s + m)); cbn [andb app]; try lia; rewrite ?app_nil_r; subst; reflexivity.
Qed.
Lemma row_to (row : list (C B64)) j : j < length row ->
  filter (fun e => e_to e =? j) (vertex_of_row row) = if ceq (nth j row c0) (c0 : C B64) then [] else [mkEdge j (nth j row c0)].
Proof.
  intros Hj. rewrite row_edges, (filter_flat_seq _ e_to).
  - replace (0 <=? j) with true by reflexivity. replace (j <? 0 + length row) with true by (symmetry; apply Nat.ltb_lt; lia). reflexivity.
  - intros k e. destruct (ceq _ _); [intros []|]. intros [<-|[]]. reflexivity.
Qed.
