(** C38, C48, C49: matrices of Euclidean distances. *)
From Coq Require Import ZArith Arith Bool List Lia Reals Lra.
From Flocq Require Import Core IEEE754.Binary IEEE754.Bits.
From Flocq Require IEEE754.BinarySingleNaN.
From Verif Require Import Num NumB64 F64Facts Base Data Par Mem Points PointsProofs DistProofs PrimProofs ConvProofs MetricProofs PropData.
Import ListNotations.
Local Open Scope nat_scope.

(** ** Vocabulary *)
(** A point is a pair of doubles.  [finite_points ps]: no coordinate is NaN or infinite. *)
Definition finite_points (ps : list point) : Prop := forall p, In p ps -> fin (fst p) /\ fin (snd p).
(** every coordinate is at most [b] in absolute value *)
Definition coords_within (ps : list point) (b : R) : Prop := forall p, In p ps -> (Rabs (r64 (fst p)) <= b /\ Rabs (r64 (snd p)) <= b)%R.
Definition origin : point := (b64_zero, b64_zero).
(** the [i]-th point *)
Definition pt (ps : list point) (i : nat) : point := nth i ps origin.
(** the Euclidean distance of the exact positions, a real number (from Coq's library of real numbers) *)
Definition euclid (p q : point) : R := dist_euc (r64 (fst p)) (r64 (snd p)) (r64 (fst q)) (r64 (snd q)).

Lemma fin_pt_nth ps i : finite_points ps -> fin_pt (pt ps i).
Proof.
  intros H. unfold pt. destruct (Nat.lt_ge_cases i (length ps)) as [L|L].
  - apply H, nth_In. assumption.
  - rewrite nth_overflow by assumption. split; reflexivity.
Qed.
Lemma within_nth ps b i : (0 <= b)%R -> coords_within ps b -> (Rabs (r64 (fst (pt ps i))) <= b /\ Rabs (r64 (snd (pt ps i))) <= b)%R.
Proof.
  intros Hb H. unfold pt. destruct (Nat.lt_ge_cases i (length ps)) as [L|L].
  - apply H, nth_In. assumption.
  - rewrite nth_overflow by assumption. cbn. rewrite Rabs_R0. auto.
Qed.

(** ** C38 *)
(** Any arithmetic and any formula for the distance: the matrix is symmetric with zeros on the
    diagonal, each distance computed once, from the point of smaller number. *)
Theorem C38_from_points : forall (N : Num) (P : Type) (dist : P -> P -> C N) (d : P) (ps : list P),
  exists m, from_points dist ps = Ok m /\ na_dim m = length ps /\
    (forall i, i < length ps -> na_get m i i = Ok c0) /\
    (forall i j, i < j -> j < length ps -> na_get m i j = Ok (dist (nth i ps d) (nth j ps d)) /\ na_get m j i = Ok (dist (nth i ps d) (nth j ps d))).
Proof.
  intros N P dist d ps. destruct (from_points_val dist d ps) as (m & E & W & D & V). exists m. split; [assumption|]. split; [assumption|]. split.
  - intros i Hi. rewrite na_get_val, V by (assumption || lia). rewrite Nat.eqb_refl. reflexivity.
  - intros i j Hij Hj. rewrite !na_get_val, !V by (assumption || lia).
    replace (i =? j) with false by (symmetry; apply Nat.eqb_neq; lia). replace (j =? i) with false by (symmetry; apply Nat.eqb_neq; lia).
    rewrite Nat.min_l, Nat.max_r, Nat.min_r, Nat.max_l by lia. auto.
Qed.
Print Assumptions C38_from_points.

(** The parallel version: every schedule of the columns' tasks gives the same matrix. *)
Theorem C38_par_from_points : forall (N : Num) (P : Type) (dist : P -> P -> C N) (d : P) (ps : list P),
  exists m, (forall sched, par_from_points dist sched ps = Ok m) /\ na_dim m = length ps /\
    forall i j, i < length ps -> j < length ps -> na_get m i j = Ok (dist (nth j ps d) (nth i ps d)).
Proof.
  intros N P dist d ps. destruct (par_from_points_val dist d ps []) as (m & E & W & D & V). exists m. split; [|split; [assumption|]].
  - intros sched. destruct (par_from_points_val dist d ps sched) as (m' & E' & W' & D' & V'). rewrite E'. f_equal. apply wf_ext; try assumption; [congruence|].
    rewrite D'. intros i j Hi Hj. rewrite V, V' by assumption. reflexivity.
  - intros i j Hi Hj. rewrite na_get_val, V by (assumption || lia). reflexivity.
Qed.
Print Assumptions C38_par_from_points.

(** Doubles, finite coordinates, overflow of the formula included: sequential and parallel
    version give the same matrix under every schedule; it is symmetric, its diagonal is +0,
    its entries are the computed distances, none is NaN or negative. *)
Theorem C38_f64 : forall ps, finite_points ps ->
  exists m, from_points b64_dist ps = Ok m /\ (forall sched, par_from_points b64_dist sched ps = Ok m) /\ na_dim m = length ps /\
    (forall i j, i < length ps -> j < length ps -> na_get m i j = Ok (b64_dist (pt ps i) (pt ps j)) /\ na_get m j i = na_get m i j /\
       @cle B64 c0 (b64_dist (pt ps i) (pt ps j)) = true) /\
    (forall i, i < length ps -> na_get m i i = Ok (c0 : C B64)).
Proof.
  intros ps Hf. destruct (from_points_val b64_dist origin ps) as (m & E & W & D & V). exists m.
  assert (V' : forall i j, i < length ps -> j < length ps -> na_val m i j = b64_dist (pt ps i) (pt ps j)).
  { intros i j Hi Hj. rewrite V by assumption. fold (pt ps (Nat.min i j)) (pt ps (Nat.max i j)). destruct (Nat.eqb_spec i j) as [->|Hij].
    - symmetry. apply dist_self, fin_pt_nth, Hf.
    - destruct (Nat.lt_ge_cases i j) as [L|L]; [rewrite Nat.min_l, Nat.max_r by lia; reflexivity|].
      rewrite Nat.min_r, Nat.max_l by lia. apply dist_sym; apply fin_pt_nth, Hf. }
  split; [exact E|]. split; [|split; [exact D|split]].
  - intros sched. destruct (par_from_points_val b64_dist origin ps sched) as (m' & E' & W' & D' & P'). rewrite E'. f_equal. apply wf_ext; try assumption; [congruence|].
    rewrite D'. intros i j Hi Hj. rewrite V', P' by assumption. apply dist_sym; apply fin_pt_nth, Hf.
  - intros i j Hi Hj. rewrite !na_get_val, !V' by (assumption || lia). split; [reflexivity|]. split; [f_equal; apply dist_sym; apply fin_pt_nth, Hf|].
    destruct (dist_range (pt ps i) (pt ps j)) as [R|[F R]]; [apply fin_pt_nth, Hf..| |]; [rewrite R; reflexivity|]. apply cle_fin; [reflexivity|assumption|exact R].
  - intros i Hi. rewrite na_get_val, V' by (assumption || lia). f_equal. apply dist_self, fin_pt_nth, Hf.
Qed.
Print Assumptions C38_f64.

(** the matrix of a call that returns *)
Definition mat (r : res (namatrix B64)) : namatrix B64 := match r with Ok m => m | _ => mkNA 0 [] end.
Definition returns (r : res (namatrix B64)) : bool := match r with Ok _ => true | _ => false end.
Lemma mat_Ok r : returns r = true -> r = Ok (mat r).
Proof. destruct r; intros H; [reflexivity|discriminate..]. Qed.
Definition entry_is (m : namatrix B64) i j (t : binary64 -> bool) : bool := match na_get m i j with Ok x => t x | _ => false end.
Lemma entry_is_ex m i j t : entry_is m i j t = true -> exists x, na_get m i j = Ok x /\ t x = true.
Proof. unfold entry_is. destruct (na_get m i j) as [x| |]; intros H; try discriminate. exists x. auto. Qed.

(** A point with an infinite coordinate: zero on the diagonal of the one, NaN on that of the
    other. *)
Theorem C38_infinite_refuted : exists ps m m', from_points b64_dist ps = Ok m /\ par_from_points b64_dist [] ps = Ok m' /\
  na_get m 0 0 = Ok (c0 : C B64) /\ exists x, na_get m' 0 0 = Ok x /\ is_nan 53 1024 x = true.
Proof.
  exists [(b64_inf, b64_zero)], (mat (from_points b64_dist [(b64_inf, b64_zero)])), (mat (par_from_points b64_dist [] [(b64_inf, b64_zero)])).
  split; [apply mat_Ok; vm_compute; reflexivity|]. split; [apply mat_Ok; vm_compute; reflexivity|]. split; [vm_compute; reflexivity|].
  apply entry_is_ex. vm_compute. reflexivity.
Qed.
Print Assumptions C38_infinite_refuted.

Definition f (z : Z) : binary64 := b64_inj 0 z.
Definition three_points : list point := [(f 0, f 0); (f 3, f 4); (f (-5), f 12)].
Lemma three_points_finite : finite_points three_points.
Proof. intros p Hp. repeat destruct Hp as [<-|Hp]; try contradiction; split; vm_compute; reflexivity. Qed.
Example C38_applies : finite_points three_points /\ exists m, from_points b64_dist three_points = Ok m /\ (exists x, na_get m 2 0 = Ok x /\ @ceq B64 x (f 13) = true) /\ (exists x, na_get m 0 1 = Ok x /\ @ceq B64 x (f 5) = true).
Proof.
  split; [exact three_points_finite|]. exists (mat (from_points b64_dist three_points)). split; [apply mat_Ok; vm_compute; reflexivity|].
  split; [apply (entry_is_ex _ 2 0 (fun x => @ceq B64 x (f 13)))|apply (entry_is_ex _ 0 1 (fun x => @ceq B64 x (f 5)))]; vm_compute; reflexivity.
Qed.

(** ** C49: accuracy *)
(** Each entry is the Euclidean distance up to a relative error of 5 * 2^-53 and an absolute
    one of 2^-534, unless the coordinates exceed 2^500. *)
Theorem C49_accurate : forall ps m i j, finite_points ps -> coords_within ps (bpow radix2 500) -> from_points b64_dist ps = Ok m ->
  i < length ps -> j < length ps -> exists x, na_get m i j = Ok x /\ fin x /\
    (Rabs (r64 x - euclid (pt ps i) (pt ps j)) <= 5 * bpow radix2 (-53) * euclid (pt ps i) (pt ps j) + bpow radix2 (-534))%R.
Proof.
  intros ps m i j Hf Hw E Hi Hj. destruct (C38_f64 ps Hf) as (m' & E' & _ & _ & V & _). rewrite E in E'. injection E' as <-.
  destruct (V i j Hi Hj) as (G & _). exists (b64_dist (pt ps i) (pt ps j)). split; [exact G|].
  pose proof (fin_pt_nth ps i Hf) as Fi. pose proof (fin_pt_nth ps j Hf) as Fj.
  pose proof (within_nth ps _ i (bpow_ge_0 _ _) Hw) as [A1 A2]. pose proof (within_nth ps _ j (bpow_ge_0 _ _) Hw) as [B1 B2].
  assert (F : fin (b64_dist (pt ps i) (pt ps j))) by (apply dist_finite; [assumption..|]; intros x [->|[->|[->| ->]]]; assumption).
  split; [exact F|]. replace (bpow radix2 (-534)) with (4 * bpow radix2 (-536))%R; [apply dist_accurate; assumption|].
  change (-534)%Z with (2 + -536)%Z. rewrite bpow_plus. reflexivity.
Qed.
Print Assumptions C49_accurate.

(** Beyond that bound it may overflow. *)
Theorem C49_overflow_refuted : exists ps m, finite_points ps /\ from_points b64_dist ps = Ok m /\ na_get m 0 1 = Ok (cinf : C B64).
Proof.
  exists [(f 0, f 0); (b64_inj 600 1, f 0)], (mat (from_points b64_dist [(f 0, f 0); (b64_inj 600 1, f 0)])). split; [|split; [apply mat_Ok|]; vm_compute; reflexivity].
  intros p Hp. repeat destruct Hp as [<-|Hp]; try contradiction; split; vm_compute; reflexivity.
Qed.
Print Assumptions C49_overflow_refuted.

Lemma small_coords : forall z, (Z.abs z <= 16384)%Z -> (Rabs (r64 (f z)) <= 16384)%R.
Proof.
  intros z Hz. destruct (inj_correct 0 ltac:(lia) z ltac:(lia)) as (V & _). unfold r64, f. rewrite V. unfold val, F2R. cbn [Fnum Fexp].
  change (bpow radix2 0) with 1%R. rewrite Rmult_1_r, <- abs_IZR. apply IZR_le. assumption.
Qed.
Lemma three_points_within : coords_within three_points 16384.
Proof. intros p Hp. repeat destruct Hp as [<-|Hp]; try contradiction; split; apply small_coords; cbn; lia. Qed.
Example C49_applies : finite_points three_points /\ coords_within three_points (bpow radix2 500).
Proof.
  split; [exact three_points_finite|]. intros p Hp. destruct (three_points_within p Hp) as [A B].
  assert (H : (16384 <= bpow radix2 500)%R) by (replace 16384%R with (bpow radix2 14) by reflexivity; apply bpow_le; lia). lra.
Qed.

(** ** C48: such a matrix passes is_metric *)
Theorem C48_metric_partial : forall ps m, finite_points ps -> coords_within ps 16384 -> from_points b64_dist ps = Ok m ->
  is_metric (na_adj m) = Ok true.
Proof.
  intros ps m Hf Hw E. destruct (C38_f64 ps Hf) as (m' & E' & _ & D & V & _). rewrite E in E'. injection E' as <-.
  assert (Hdim : a_dim (na_adj m) = length ps) by exact D.
  apply (C37_what_is_tested B64 (na_adj m) (fun i j => b64_dist (pt ps i) (pt ps j))).
  { rewrite Hdim. intros i j Hi Hj. apply (V i j Hi Hj). }
  rewrite Hdim. intros i j k L Hj Hk. apply (dist_metric_test (pt ps i) (pt ps k) (pt ps j)); [apply fin_pt_nth, Hf..|].
  intros x Hx. pose proof (fun i => within_nth ps 16384 i ltac:(lra) Hw) as W.
  repeat (destruct Hx as [<-|Hx]; [apply W|]). contradiction.
Qed.
Print Assumptions C48_metric_partial.

(** With large coordinates the rounding errors of points on a line exceed the tolerance. *)
Theorem C48_large_refuted : exists ps m, finite_points ps /\ from_points b64_dist ps = Ok m /\ is_metric (na_adj m) = Ok false.
Proof.
  exists [(f 0, f 0); (f 257961, f 243975); (f 773883, f 731925)], (mat (from_points b64_dist [(f 0, f 0); (f 257961, f 243975); (f 773883, f 731925)])).
  split; [|split; [apply mat_Ok|]; vm_compute; reflexivity].
  intros p Hp. repeat destruct Hp as [<-|Hp]; try contradiction; split; vm_compute; reflexivity.
Qed.
Print Assumptions C48_large_refuted.

Example C48_applies : finite_points three_points /\ coords_within three_points 16384.
Proof. split; [exact three_points_finite|exact three_points_within]. Qed.
