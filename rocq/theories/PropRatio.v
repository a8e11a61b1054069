(** C56: Christofides' algorithm on arbitrary doubles, the triangle inequality up to a slack. *)
From Coq Require Import ZArith Arith Bool List Permutation Lia Reals Lra.
From Flocq Require Import Core IEEE754.Binary IEEE754.Bits.
From Flocq Require IEEE754.BinarySingleNaN.
From Verif Require Import Num NumB64 F64Facts Base Spec SpecFacts Data Mst Par Mem MstPar Matching Christofides Dfs Greedy PrimProofs MstFacts
  FillProofs PermProofs ChristofidesProofs ChristofidesExact SlackProofs Units RoundProofs Instances Points PointsProofs DistProofs PropExact PropMst PropData PropPoints PropChristofides PropRound.
Import ListNotations.
Local Open Scope nat_scope.

(** The tour is no longer than a minimum spanning tree plus the matching, plus half a slack for
    each matched vertex; its cost is reported up to rounding. *)
Theorem C56_tree_and_matching : forall (m : namatrix B64) w d debug env fenv mode comp, f64_values m w -> moderate w (na_dim m) -> 2 <= na_dim m -> mode <= 2 ->
  symmetric w (na_dim m) -> (0 <= d)%Z -> triangle_up_to w (na_dim m) d -> (debug = true -> is_metric (na_adj m) = Ok true) ->
  (forall mst, prim env mode m = Ok mst -> exists M, comp mst m = Ok M /\ perfect_matching (odd_in mst) M) ->
  exists mst M x p, prim env mode m = Ok mst /\ comp mst m = Ok M /\
    christofides_generic debug env fenv mode m comp = Ok (x, (0 :: p) ++ [0]) /\ is_tour (na_dim m) (0 :: p) /\
    rounded (na_dim m) x (tour_cost w (0 :: p)) /\
    forall T, spanning_tree (seq 0 (na_dim m)) T -> (forall T', spanning_tree (seq 0 (na_dim m)) T' -> (edges_cost w T <= edges_cost w T')%Z) ->
      (2 * tour_cost w (0%nat :: p) <= 2 * (edges_cost w T + edges_cost w M) + (Z.of_nat (length (odd_in mst)) - 2) * d)%Z.
Proof.
  intros m w d debug env fenv mode comp Hv Hm Hn Hmode Hs Hd Ht Hdbg Hcomp. set (n := na_dim m) in *.
  destruct (C53_prim_minimum m w env mode Hv Hm ltac:(fold n; lia) Hmode) as (mst & T & Ep & Hl & HT & Hadj & _ & Hmin). fold n in Hl, HT, Hadj, Hmin.
  destruct (Hcomp mst Ep) as (M & EM & HM). exists mst, M. unfold odd_in in *. rewrite <- odd_vertices_filter in *.
  assert (HV : forall v, In v (odd_vertices mst) -> v < n) by (intros v Hin; apply (odd_vertices_spec m mst Hl) in Hin; apply Hin).
  assert (HMin : forall a b, In (a, b) M -> a < n /\ b < n).
  { intros a b Hin. assert (forall x, In x [a; b] -> x < n).
    - intros x Hx. apply HV. apply (Permutation_in _ HM). apply in_flat_map. exists (a, b). auto.
    - split; apply H; cbn; auto. }
  destruct (generic_spec m (proj1 Hv) ltac:(fold n; lia) debug env fenv mode comp mst T M) as (x & p & Ec & Htour & Hcost & Hwalk); try assumption.
  { intros _. apply (perfect_distinct _ _ HM). apply odd_vertices_NoDup. }
  exists x, p. split; [assumption|]. split; [assumption|]. split; [assumption|]. split; [assumption|]. split.
  - pose proof (tour_length _ _ Htour) as Hlt.
    destruct (tour_rounded m w (0 :: p) Hv Hm Hn Htour) as (y & Ey & Hy). fold n in Hlt.
    pose proof (circle_is_path m (0 :: p) ltac:(fold n in Hlt; lia) x Hcost) as Ex. assert (y = x) by congruence. subst y. assumption.
  - intros T' HT' Hmin'. destruct (Hwalk HM Hn) as (q & Hq & Hsub & Htr).
    pose proof (walk_slack w n d T M (odd_vertices mst) p q Hd Hn Hs Ht Htour HT HM HV Hq Hsub Htr) as H. specialize (Hmin Hs T' HT'). lia.
Qed.
Print Assumptions C56_tree_and_matching.

(** With a least matching: three halves of every tour, plus half a slack per vertex. *)
Theorem C56_three_halves_rounded : forall (m : namatrix B64) w d debug env fenv mode comp, f64_values m w -> moderate w (na_dim m) -> 2 <= na_dim m -> mode <= 2 ->
  symmetric w (na_dim m) -> (0 <= d)%Z -> triangle_up_to w (na_dim m) d -> (debug = true -> is_metric (na_adj m) = Ok true) ->
  (forall mst, prim env mode m = Ok mst -> exists M, comp mst m = Ok M /\ perfect_matching (odd_in mst) M /\
     forall M', perfect_matching (odd_in mst) M' -> (edges_cost w M <= edges_cost w M')%Z) ->
  exists x p, christofides_generic debug env fenv mode m comp = Ok (x, (0 :: p) ++ [0]) /\ is_tour (na_dim m) (0 :: p) /\
    rounded (na_dim m) x (tour_cost w (0 :: p)) /\
    forall q, is_tour (na_dim m) q -> (2 * tour_cost w (0%nat :: p) <= 3 * tour_cost w q + (Z.of_nat (na_dim m) - 2) * d)%Z.
Proof.
  intros m w d debug env fenv mode comp Hv Hm Hn Hmode Hs Hd Ht Hdbg Hcomp.
  destruct (C56_tree_and_matching m w d debug env fenv mode comp Hv Hm Hn Hmode Hs Hd Ht Hdbg) as (mst & M & x & p & Ep & EM & Ec & Htour & Hr & Hb).
  { intros mst Emst. destruct (Hcomp mst Emst) as (M & EM & HM & _). exists M. auto. }
  exists x, p. split; [assumption|]. split; [assumption|]. split; [assumption|]. intros q Hq.
  destruct (C53_prim_minimum m w env mode Hv Hm ltac:(lia) Hmode) as (mst' & T & Ep' & Hl & HT & Hadj & _ & Hmin).
  assert (mst' = mst) by congruence. subst mst'. specialize (Hmin Hs).
  destruct (Hcomp mst Ep) as (M' & EM' & HM & HMmin). assert (M' = M) by congruence. subst M'.
  specialize (Hb T HT Hmin). unfold odd_in in *. rewrite <- odd_vertices_filter in *.
  apply (ratio_slack w (na_dim m) d T M (odd_vertices mst)); try assumption; [apply Hm|apply odd_vertices_NoDup|..].
  - intros v Hin. apply (odd_vertices_spec m mst Hl) in Hin. apply Hin.
  - apply (odd_vertices_even m T (na_val m) mst); assumption.
Qed.
Print Assumptions C56_three_halves_rounded.

(** ** The slack that [is_metric] allows *)
(** the tolerance 1e-10, in units of 2^-1074 *)
Definition eps_units : Z := (7737125245533627 * 2 ^ 988)%Z.
Lemma holds_eps : holds b64_eps eps_units.
Proof.
  pose proof (holds_units b64_eps eq_refl) as H. replace (units b64_eps) with eps_units in H; [exact H|]. vm_compute. reflexivity.
Qed.

(** A symmetric matrix that passes the check of the debug build satisfies the triangle
    inequality up to the tolerance and the rounding of the two additions; no cost is above [W]. *)
Theorem C56_is_metric_slack : forall (m : namatrix B64) w W D, f64_values m w -> moderate w (na_dim m) -> symmetric w (na_dim m) ->
  (forall i j, i < na_dim m -> j < na_dim m -> (w i j <= W)%Z) -> (0 <= W <= 2 ^ 2094)%Z -> (0 <= D)%Z ->
  ((2 * W + eps_units) * (2 ^ 53 + 1) ^ 2 <= (2 * W + D) * (2 ^ 53) ^ 2)%Z ->
  is_metric (na_adj m) = Ok true -> triangle_up_to w (na_dim m) D.
Proof.
  intros m w W D Hv Hm Hs HW [W0 W1] D0 HD Hmet. set (n := na_dim m) in *.
  assert (Hget : forall i j, i < n -> j < n -> na_get m i j = Ok (na_val m i j)) by (intros; apply na_get_val; [apply Hv|assumption..]).
  pose proof (proj1 (proj2 (C37_what_is_tested B64 (na_adj m) (na_val m) Hget)) Hmet) as Hmet0. clear Hmet. rename Hmet0 into Hmet. change (a_dim (na_adj m)) with n in Hmet.
  assert (Hle : forall i j k, i <= j -> j < n -> k < n -> (w i j <= w i k + w k j + D)%Z).
  { intros i j k Hij Hj Hk. specialize (Hmet i j k Hij Hj Hk). assert (Hi : i < n) by lia.
    pose proof (values_val m w i k Hv Hi Hk) as H1. pose proof (values_val m w k j Hv Hk Hj) as H2. pose proof (values_val m w i j Hv Hi Hj) as H3.
    destruct Hm as (Hnn & _ & _). pose proof (Hnn i k Hi Hk) as P1. pose proof (Hnn k j Hk Hj) as P2. pose proof (Hnn i j Hi Hj) as P3.
    assert (E0 : (0 <= eps_units)%Z) by (vm_compute; discriminate).
    pose proof (HW i k Hi Hk) as B1. pose proof (HW k j Hk Hj) as B2.
    assert (Hbig : (2 * 2 ^ 2094 + eps_units <= 2 ^ 2096)%Z) by (vm_compute; discriminate).
    assert (Ha : approx 2 (@cadd B64 (@cadd B64 (na_val m i k) (na_val m k j)) ceps) (w i k + w k j + eps_units)).
    { change (approx 2 (b64_plus BinarySingleNaN.mode_NE (b64_plus BinarySingleNaN.mode_NE (na_val m i k) (na_val m k j)) b64_eps) (w i k + w k j + eps_units)).
      assert (S1 : (w i k + w k j <= 2 ^ 2096)%Z) by lia. assert (S2 : (w i k + w k j + eps_units <= 2 ^ 2096)%Z) by lia.
      apply approx_plus; [apply approx_plus; [apply approx_holds; assumption..| | | |]|apply (approx_weaken 0); [lia|assumption|apply approx_holds; [exact holds_eps|assumption]]| | | |]; try assumption; try lia; vm_compute; discriminate. }
    apply approx_rounded in Ha. destruct Ha as (c & Hc & _ & Wc).
    pose proof (holds_lt _ _ c (w i j) Hc H3) as Hlt. rewrite Hmet in Hlt. symmetry in Hlt. apply Z.ltb_ge in Hlt.
    change (Z.of_nat 2) with 2%Z in Wc.
    assert (Hpow : ((2 ^ 53 + 1) ^ 2 - (2 ^ 53) ^ 2 = 2 ^ 54 + 1)%Z) by reflexivity.
    set (P := ((2 ^ 53) ^ 2)%Z) in *. set (Q := ((2 ^ 53 + 1) ^ 2)%Z) in *. assert (HP : (0 < P)%Z) by reflexivity. set (ee := eps_units) in *. clearbody ee.
    assert (HQ : (P <= Q)%Z) by (vm_compute; discriminate). clearbody P Q. clear Hpow Hbig W1.
    set (s := (w i k + w k j)%Z) in *. assert (Hs2 : (s <= 2 * W)%Z) by (unfold s; lia). clearbody s.
    assert ((s + ee) * Q <= (s + D) * P)%Z by nia. nia. }
  intros i j k Hi Hj Hk. destruct (Nat.le_ge_cases i j) as [Hij|Hij]; [auto|].
  rewrite (Hs i j), (Hs i k), (Hs k j) by assumption. pose proof (Hle j i k Hij Hi Hk). lia.
Qed.
Print Assumptions C56_is_metric_slack.

(** ** Points *)
Lemma euclid_small p q : (Rabs (r64 (fst p)) <= 16384 -> Rabs (r64 (snd p)) <= 16384 -> Rabs (r64 (fst q)) <= 16384 -> Rabs (r64 (snd q)) <= 16384 ->
  0 <= euclid p q <= 49152)%R.
Proof.
  intros A B C D. unfold euclid, dist_euc. split; [apply sqrt_pos|].
  replace 49152%R with (sqrt (Rsqr 49152)) by (apply sqrt_Rsqr; lra). apply sqrt_le_1_alt.
  apply Rabs_le_inv in A, B, C, D.
  assert (G : forall x, (- 32768 <= x <= 32768 -> Rsqr x <= 1073741824)%R) by (intros x Hx; unfold Rsqr; nra).
  pose proof (G (r64 (fst p) - r64 (fst q))%R ltac:(lra)). pose proof (G (r64 (snd p) - r64 (snd q))%R ltac:(lra)). unfold Rsqr at 3. lra.
Qed.

(** The whole way from points: with coordinates up to 16384, in every build and mode, the
    tour is at most three halves of every other one plus [(n - 2) * 2^-33] (the slack is
    [2^-32 = 2^1042 * 2^-1074] for twice the cost), measured with the entries of the matrix. *)
Theorem C56_points : forall ps m debug env fenv mode comp, finite_points ps -> coords_within ps 16384 -> from_points b64_dist ps = Ok m ->
  2 <= length ps -> (Z.of_nat (length ps) <= 2 ^ 50)%Z -> mode <= 2 ->
  exists w, f64_values m w /\ moderate w (length ps) /\ symmetric w (length ps) /\ triangle_up_to w (length ps) (2 ^ 1042) /\
  ((forall mst, prim env mode m = Ok mst -> exists M, comp mst m = Ok M /\ perfect_matching (odd_in mst) M /\
     forall M', perfect_matching (odd_in mst) M' -> (edges_cost w M <= edges_cost w M')%Z) ->
   exists x p, christofides_generic debug env fenv mode m comp = Ok (x, (0 :: p) ++ [0]) /\ is_tour (length ps) (0 :: p) /\
    rounded (length ps) x (tour_cost w (0 :: p)) /\
    forall q, is_tour (length ps) q -> (2 * tour_cost w (0%nat :: p) <= 3 * tour_cost w q + (Z.of_nat (length ps) - 2) * 2 ^ 1042)%Z).
Proof.
  intros ps m debug env fenv mode comp Hf Hw E Hn Hsmall Hmode.
  destruct (C38_f64 ps Hf) as (m' & E' & _ & Hdim & V & _). assert (m' = m) by congruence. subst m'. clear E'.
  set (w i j := units (na_val m i j)). exists w.
  assert (Hwf : na_wf m).
  { destruct (from_points_val b64_dist origin ps) as (m' & E' & W & _). assert (m' = m) by congruence. subst m'. exact W. }
  assert (Hcell : forall i j, i < length ps -> j < length ps -> na_val m i j = b64_dist (pt ps i) (pt ps j) /\ fin (na_val m i j) /\
     (r64 (na_val m i j) <= 65536)%R).
  { intros i j Hi Hj. destruct (V i j Hi Hj) as (G & _).
    rewrite na_get_val in G by (try assumption; rewrite Hdim; assumption). injection G as G. split; [assumption|].
    assert (Hb : coords_within ps (bpow radix2 500)).
    { intros p Hp. destruct (Hw p Hp) as [A B]. assert (H : (16384 <= bpow radix2 500)%R) by (replace 16384%R with (bpow radix2 14) by reflexivity; apply bpow_le; lia). lra. }
    destruct (C49_accurate ps m i j Hf Hb E Hi Hj) as (x & Gx & Fx & Hx).
    rewrite na_get_val in Gx by (try assumption; rewrite Hdim; assumption). injection Gx as <-. split; [assumption|].
    destruct (within_nth ps 16384 i ltac:(lra) Hw) as [A1 A2]. destruct (within_nth ps 16384 j ltac:(lra) Hw) as [B1 B2].
    pose proof (euclid_small (pt ps i) (pt ps j) A1 A2 B1 B2) as [E0 E1]. apply Rabs_le_inv in Hx.
    assert (U1 : (0 < bpow radix2 (-53) <= / 100)%R).
    { split; [apply bpow_gt_0|]. apply Rle_trans with (bpow radix2 (-10)); [apply bpow_le; lia|]. cbn. lra. }
    assert (U2 : (bpow radix2 (-534) <= 1)%R) by (change 1%R with (bpow radix2 0); apply bpow_le; lia).
    assert (5 * bpow radix2 (-53) * euclid (pt ps i) (pt ps j) <= 5 * / 100 * 49152)%R by (apply Rmult_le_compat; lra). lra. }
  assert (Hholds : forall i j, i < length ps -> j < length ps -> holds (na_val m i j) (w i j)).
  { intros i j Hi Hj. apply holds_units. apply Hcell; assumption. }
  assert (Hval : f64_values m w).
  { split; [assumption|]. rewrite Hdim. intros i j Hi Hj. exists (na_val m i j). split; [apply na_get_val; try assumption; rewrite Hdim; assumption|auto]. }
  assert (Hnn : nonneg w (length ps)).
  { intros i j Hi Hj. destruct (V i j Hi Hj) as (_ & _ & H0). destruct (Hcell i j Hi Hj) as (Ec & _). rewrite <- Ec in H0.
    rewrite (holds_le _ _ 0%Z (w i j) holds_0 (Hholds i j Hi Hj)) in H0. apply Z.leb_le in H0. assumption. }
  assert (HW : forall i j, i < length ps -> j < length ps -> (w i j <= 2 ^ 1090)%Z).
  { intros i j Hi Hj. destruct (Hcell i j Hi Hj) as (_ & _ & Hr). destruct (Hholds i j Hi Hj) as [_ Hu]. unfold r64 in Hr. rewrite Hu in Hr.
    apply le_IZR. apply (Rmult_le_reg_r (bpow radix2 (-1074))); [apply bpow_gt_0|]. eapply Rle_trans; [exact Hr|].
    change (2 ^ 1090)%Z with (Zpower radix2 1090). rewrite IZR_Zpower by lia. rewrite <- bpow_plus. cbn. lra. }
  assert (Hmod : moderate w (length ps)).
  { split; [assumption|]. split; [assumption|]. intros i j Hi Hj. specialize (HW i j Hi Hj).
    assert (Hp : (2 ^ 50 * 2 ^ 1090 <= 2 ^ 2095)%Z) by (vm_compute; discriminate).
    pose proof (Hnn i j Hi Hj). eapply Z.le_trans; [|exact Hp]. apply Z.mul_le_mono_nonneg; lia. }
  assert (Hsym : symmetric w (length ps)).
  { intros i j Hi Hj. destruct (V i j Hi Hj) as (_ & Hs & _). rewrite !na_get_val in Hs by (try assumption; rewrite Hdim; assumption). injection Hs as Hs. unfold w. rewrite Hs. reflexivity. }
  pose proof (C48_metric_partial ps m Hf Hw E) as Hmet.
  assert (Htri : triangle_up_to w (length ps) (2 ^ 1042)).
  { pose proof (C56_is_metric_slack m w (2 ^ 1090) (2 ^ 1042) Hval) as H. rewrite Hdim in H. apply H; try assumption; [split|..]; vm_compute; discriminate. }
  split; [assumption|]. split; [assumption|]. split; [assumption|]. split; [assumption|]. intros Hcomp.
  pose proof (C56_three_halves_rounded m w (2 ^ 1042) debug env fenv mode comp Hval) as H. rewrite Hdim in H. apply H; try assumption; [vm_compute; discriminate|].
  intros _. assumption.
Qed.
Print Assumptions C56_points.

(** ** Non-vacuity *)
(** three points; the matching of the code is the only one, so it is a least one *)
Definition ex_points_matrix : namatrix B64 := mat (from_points b64_dist three_points).
Definition ex_seq_env := mkEnv (fun _ => []) (fun _ => RLeaf).
Lemma ex_points_mst : match prim ex_seq_env SEQ_COMPUTATION ex_points_matrix with
  | Ok g => odd_in g = [0; 2] /\ compute_approx_matching ex_slip_mt SEQ_COMPUTATION g ex_points_matrix = Ok [(0, 2)]
  | _ => False end.
Proof. vm_compute. split; reflexivity. Qed.
Example C56_applies : exists w x p, f64_values ex_points_matrix w /\ triangle_up_to w 3 (2 ^ 1042) /\
  christofides true ex_seq_env (mkFillEnv [] []) ex_slip_mt SEQ_COMPUTATION ex_points_matrix = Ok (x, (0 :: p) ++ [0]) /\
  rounded 3 x (tour_cost w (0 :: p)) /\ forall q, is_tour 3 q -> (2 * tour_cost w (0%nat :: p) <= 3 * tour_cost w q + 2 ^ 1042)%Z.
Proof.
  destruct (C56_points three_points ex_points_matrix true ex_seq_env (mkFillEnv [] []) SEQ_COMPUTATION (compute_approx_matching ex_slip_mt SEQ_COMPUTATION)
    three_points_finite three_points_within) as (w & Hv & _ & Hs & Ht & H); [apply mat_Ok; vm_compute; reflexivity|cbn; lia|vm_compute; discriminate|unfold SEQ_COMPUTATION; lia|].
  destruct H as (x & p & E & _ & Hr & Hq).
  - intros mst E. pose proof ex_points_mst as X. rewrite E in X. destruct X as [X1 X2]. exists [(0, 2)]. split; [assumption|].
    rewrite X1. split; [apply Permutation_refl|].
    intros M' HM'. unfold perfect_matching in HM'. pose proof (Permutation_length HM') as Hlen. rewrite endpoints_length in Hlen. cbn in Hlen.
    destruct M' as [|[a b] [|]]; cbn in Hlen; try lia. cbn in HM'. apply Permutation_sym, Permutation_length_2_inv in HM'.
    destruct HM' as [H|H]; injection H as -> ->; [lia|]. unfold edges_cost. cbn. rewrite (Hs 0 2) by (cbn; lia). lia.
  - exists w, x, p. split; [assumption|]. split; [assumption|]. split; [exact E|]. split; [exact Hr|].
    intros q Hq'. specialize (Hq q Hq'). change (Z.of_nat (length three_points) - 2)%Z with 1%Z in Hq. lia.
Qed.
