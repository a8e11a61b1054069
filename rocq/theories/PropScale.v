(** C82: another unit for the costs.

    Whether the costs are given in kilometres or in metres should not matter. *)
From Coq Require Import ZArith Arith Bool List Reals Lia Lra.
From Flocq Require Import Core IEEE754.Binary IEEE754.Bits.
From Verif Require Import Num NumB64 F64Facts DistProofs Base Data Exact Mst Par Mem Rand MstPar OneTree Nn Matching Christofides Spec SpecFacts Instances ScaleSpec ScaleProofs ScaleChristofides ScaleMpi PropExact PropData.
Import ListNotations.
Local Open Scope nat_scope.

Section Unit.
Variable k : Z.
Hypothesis Hk : (0 < k)%Z.

Definition unit_rel (x y : C EZ) : Prop := y = in_unit k x.

Lemma u_add a b x y : unit_rel a x -> unit_rel b y -> unit_rel (cadd a b) (cadd x y).
Proof. intros -> ->. unfold unit_rel. destruct a, b; cbn; try reflexivity. f_equal. lia. Qed.
Lemma u_sub a b x y : unit_rel a x -> unit_rel b y -> unit_rel (csub a b) (csub x y).
Proof. intros -> ->. unfold unit_rel. destruct a, b; cbn; try reflexivity. f_equal. lia. Qed.
Lemma u_lt a b x y : unit_rel a x -> unit_rel b y -> clt a b = clt x y.
Proof. intros -> ->. destruct a, b; cbn; try reflexivity. apply Bool.eq_iff_eq_true. rewrite !Z.ltb_lt. nia. Qed.
Lemma u_eq a b x y : unit_rel a x -> unit_rel b y -> ceq a b = ceq x y.
Proof. intros -> ->. destruct a, b; cbn; try reflexivity. apply Bool.eq_iff_eq_true. rewrite !Z.eqb_eq. nia. Qed.
Lemma u_le a b x y : unit_rel a x -> unit_rel b y -> cle a b = cle x y.
Proof. intros H K. cbn [cle EZ]. unfold ez_le. f_equal; [exact (u_lt a b x y H K)|exact (u_eq a b x y H K)]. Qed.
Lemma u_0 : unit_rel c0 c0.
Proof. unfold unit_rel. cbn. f_equal. lia. Qed.
Lemma u_inf : unit_rel cinf cinf.
Proof. reflexivity. Qed.

Lemma u_matrix m : na_rel unit_rel m (matrix_in_unit k m).
Proof. split; [reflexivity|]. unfold matrix_in_unit. cbn [na_data]. induction (na_data m); constructor; [reflexivity|assumption]. Qed.

Lemma u_sol x y : res_rel (sol_rel unit_rel) x y -> y = outcome (tour_in_unit k) x.
Proof. destruct x as [[c p]| |], y as [[d q]| |]; cbn; try contradiction; try reflexivity. intros [H E]. cbn [fst snd] in *. rewrite H, E. reflexivity. Qed.

Lemma F2_is_map {A B} (R : A -> B -> Prop) (f : A -> B) l l' : (forall a b, R a b -> b = f a) -> Forall2 R l l' -> l' = map f l.
Proof. intros H. induction 1 as [|a b l l' Hab F IH]; [reflexivity|]. cbn. rewrite (H _ _ Hab), <- IH. reflexivity. Qed.

Lemma u_graph x y : res_rel (graph_rel unit_rel) x y -> y = outcome (graph_in_unit k) x.
Proof.
  destruct x as [g| |], y as [h| |]; cbn; try contradiction; try reflexivity. intros H. f_equal. revert H. apply F2_is_map. intros a b. apply F2_is_map.
  intros [t c] [t' c'] [E H]. cbn [e_to e_cost] in *. unfold edge_in_unit. cbn [e_to e_cost]. rewrite E, H. reflexivity.
Qed.

Lemma u_cost x y : res_rel unit_rel x y -> y = outcome (in_unit k) x.
Proof. destruct x, y; cbn; try contradiction; try reflexivity. intros H. rewrite H. reflexivity. Qed.

(** the same, for costs whose half is an integer too *)
Definition even_rel (x y : C EZ) : Prop := y = in_unit k x /\ has_half x.

Lemma even_add a b x y : even_rel a x -> even_rel b y -> even_rel (cadd a b) (cadd x y).
Proof.
  intros [H Ha] [K Hb]. split; [apply u_add; assumption|]. destruct a, b; cbn [has_half cadd csub EZ ez_add ez_sub ez_opp] in *; auto. destruct Ha as [p ->], Hb as [q ->]. exists (p + q)%Z. lia.
Qed.
Lemma even_sub a b x y : even_rel a x -> even_rel b y -> even_rel (csub a b) (csub x y).
Proof.
  intros [H Ha] [K Hb]. split; [apply u_sub; assumption|]. destruct a, b; cbn [has_half cadd csub EZ ez_add ez_sub ez_opp] in *; auto. destruct Ha as [p ->], Hb as [q ->]. exists (p - q)%Z. lia.
Qed.
Lemma even_lt a b x y : even_rel a x -> even_rel b y -> clt a b = clt x y.
Proof. intros [H _] [K _]. apply u_lt; assumption. Qed.
Lemma even_le a b x y : even_rel a x -> even_rel b y -> cle a b = cle x y.
Proof. intros [H _] [K _]. apply u_le; assumption. Qed.
Lemma even_eq a b x y : even_rel a x -> even_rel b y -> ceq a b = ceq x y.
Proof. intros [H _] [K _]. apply u_eq; assumption. Qed.
Lemma even_0 : even_rel c0 c0.
Proof. split; [apply u_0|]. exists 0%Z. reflexivity. Qed.
Lemma even_inf : even_rel cinf cinf.
Proof. split; [apply u_inf|exact I]. Qed.
Lemma even_half a x : even_rel a x -> unit_rel (chalf a) (chalf x).
Proof.
  intros [-> H]. unfold unit_rel. destruct a as [z| | |]; cbn; try reflexivity. destruct H as [p ->]. f_equal.
  replace (k * (2 * p))%Z with (k * p * 2)%Z by lia. rewrite Z.div_mul by lia. rewrite (Z.mul_comm 2 p), Z.div_mul by lia. reflexivity.
Qed.
Lemma even_matrix m : Forall has_half (na_data m) -> na_rel even_rel m (matrix_in_unit k m).
Proof. intros F. split; [reflexivity|]. unfold matrix_in_unit. cbn [na_data]. induction F; constructor; [split; [reflexivity|assumption]|assumption]. Qed.

Lemma even_weight m s : Forall has_half (na_data m) -> res_rel unit_rel (one_tree_weight m s) (one_tree_weight (matrix_in_unit k m) s).
Proof.
  intros F. unfold one_tree_weight. apply (bind_rel (graph_rel even_rel)).
  - apply one_tree_rel; first [exact even_0|exact even_inf|exact even_add|exact even_sub|exact even_lt|exact even_le|exact even_eq|apply even_matrix, F].
  - intros g h Hg. cbn [res_rel]. apply even_half. apply weight_rel; first [exact even_0|exact even_add|exact Hg].
Qed.

Lemma u_costs x y : res_rel (Forall2 unit_rel) x y -> y = outcome (map (in_unit k)) x.
Proof. destruct x, y; cbn; try contradiction; try reflexivity. intros H. f_equal. revert H. apply F2_is_map. auto. Qed.

Lemma u_sols x y : res_rel (Forall2 (sol_rel unit_rel)) x y -> y = outcome (map (tour_in_unit k)) x.
Proof.
  destruct x, y; cbn; try contradiction; try reflexivity. intros H. f_equal. revert H. apply F2_is_map.
  intros [c p] [d q] [H E]. cbn [fst snd] in *. unfold tour_in_unit. cbn [fst snd]. rewrite H, E. reflexivity.
Qed.
End Unit.

Ltac laws k Hk := first [assumption|exact (u_0 k)|exact (u_inf k)|exact (u_add k)|exact (u_sub k)|exact (u_lt k Hk)|exact (u_le k Hk)|exact (u_eq k Hk)].

(** The exact solvers find the same tour, its cost in the new unit: for every matrix, also one with absent edges, negative or NaN costs, symmetric
    or not, and also when the solver panics. *)
Theorem C82_exact : forall k (m : namatrix EZ), (0 < k)%Z ->
  let m' := matrix_in_unit k m in
  naive_solver (na_adj m') = outcome (tour_in_unit k) (naive_solver (na_adj m)) /\
  first_improved_solver (na_adj m') = outcome (tour_in_unit k) (first_improved_solver (na_adj m)) /\
  second_improved_solver (na_adj m') = outcome (tour_in_unit k) (second_improved_solver (na_adj m)) /\
  third_improved_solver (na_adj m') = outcome (tour_in_unit k) (third_improved_solver (na_adj m)) /\
  fourth_improved_solver (na_adj m') = outcome (tour_in_unit k) (fourth_improved_solver (na_adj m)) /\
  fifth_improved_solver m' = outcome (tour_in_unit k) (fifth_improved_solver m) /\
  sixth_improved_solver m' = outcome (tour_in_unit k) (sixth_improved_solver m).
Proof.
  intros k m Hk m'. pose proof (u_matrix k m) as R. pose proof (na_adj_rel (unit_rel k) _ _ R) as G.
  repeat split; apply u_sol.
  - apply naive_rel; laws k Hk.
  - apply first_rel; laws k Hk.
  - apply second_rel; laws k Hk.
  - apply third_rel; laws k Hk.
  - apply fourth_rel; laws k Hk.
  - apply fifth_rel; laws k Hk.
  - apply sixth_rel; laws k Hk.
Qed.
Print Assumptions C82_exact.

(** Prim finds the same tree, with any vertices excluded, the 1-tree has the same edges, and the value of a tour is its value in the new unit. *)
Theorem C82_trees : forall k (m : namatrix EZ), (0 < k)%Z ->
  let m' := matrix_in_unit k m in
  (forall X, prim_with_excluded_node_single_threaded m' X = outcome (graph_in_unit k) (prim_with_excluded_node_single_threaded m X)) /\
  (forall s, one_tree m' s = outcome (graph_in_unit k) (one_tree m s)) /\
  (forall p, evaluate_circle (na_adj m') p = outcome (in_unit k) (evaluate_circle (na_adj m) p)) /\
  (forall p, evaluate_path (na_adj m') p = outcome (in_unit k) (evaluate_path (na_adj m) p)).
Proof.
  intros k m Hk m'. pose proof (u_matrix k m) as R. pose proof (na_adj_rel (unit_rel k) _ _ R) as G.
  repeat split; intros.
  - apply u_graph, prim_rel; laws k Hk.
  - apply u_graph, one_tree_rel; laws k Hk.
  - apply u_cost, circle_rel; laws k Hk.
  - apply u_cost, path_rel; laws k Hk.
Qed.
Print Assumptions C82_trees.

(** The nearest-neighbour heuristic walks the same way, from every start, with the same random numbers and however rayon splits the work. *)
Theorem C82_nearest : forall k (m : namatrix EZ), (0 < k)%Z ->
  let m' := matrix_in_unit k m in
  (forall i, single_nearest_neighbour m' i = outcome (tour_in_unit k) (single_nearest_neighbour m i)) /\
  (forall env mode t, n_nearest_neighbour env mode m' t = outcome (tour_in_unit k) (n_nearest_neighbour env mode m t)).
Proof.
  intros k m Hk m'. pose proof (u_matrix k m) as R. split; intros; apply u_sol.
  - apply nn_single_rel; laws k Hk.
  - apply n_nn_rel; laws k Hk.
Qed.
Print Assumptions C82_nearest.

(** Christofides' algorithm in all modes, under the same schedules, in debug and release builds: the same triangle test in exact numbers, the same tree, the same
    matching out of the same random shuffles, and thus the same tour. *)
Theorem C82_christofides : forall k (m : namatrix EZ), (0 < k)%Z ->
  let m' := matrix_in_unit k m in
  is_metric (na_adj m') = is_metric (na_adj m) /\
  (forall env mode g, compute_approx_matching env mode (graph_in_unit k g) m' = compute_approx_matching env mode g m) /\
  (forall env mode, prim env mode m' = outcome (graph_in_unit k) (prim env mode m)) /\
  (forall debug env fenv mt mode,
    christofides debug env fenv mt mode m' = outcome (tour_in_unit k) (christofides debug env fenv mt mode m)).
Proof.
  intros k m Hk m'. pose proof (u_matrix k m) as R. assert (Ee : unit_rel k ceps ceps) by exact (u_0 k). split; [|split; [|split]]; intros.
  - symmetry. apply (metric_rel (unit_rel k)); laws k Hk.
  - symmetry. apply (approx_matching_rel (unit_rel k)); try laws k Hk. unfold graph_in_unit. clear. induction g as [|es g IH]; cbn [map]; constructor; [|exact IH].
    induction es as [|[t c] es IHe]; cbn [map]; constructor; [split; reflexivity|exact IHe].
  - apply u_graph. unfold prim. destruct (mode =? SEQ_COMPUTATION); [apply prim_rel; laws k Hk|]. destruct (mode =? PAR_COMPUTATION); [apply prim_par_rel; laws k Hk|].
    destruct (mode =? MPI_COMPUTATION); [apply prim_rel; laws k Hk|exact I].
  - apply u_sol, christofides_rel; laws k Hk.
Qed.
Print Assumptions C82_christofides.

(** The 1-tree bound, in all modes, under the same schedules and for the same number of processes, is the bound in the new unit.  The weight of a graph is
    half of a sum; the costs are therefore taken even, for the exact numbers are integers. *)
Theorem C82_bounds : forall k (m : namatrix EZ), (0 < k)%Z -> Forall has_half (na_data m) ->
  let m' := matrix_in_unit k m in
  (forall s, one_tree_weight m' s = outcome (in_unit k) (one_tree_weight m s)) /\
  one_tree_lower_bound_seq m' = outcome (in_unit k) (one_tree_lower_bound_seq m) /\
  (forall t, one_tree_lower_bound_par t m' = outcome (in_unit k) (one_tree_lower_bound_par t m)) /\
  (forall order t size, one_tree_lower_bound_mpi order t m' size = outcome (map (in_unit k)) (one_tree_lower_bound_mpi order t m size)).
Proof.
  intros k m Hk F m'. pose proof (fun s => even_weight k Hk m s F) as W. repeat split; intros.
  - apply u_cost, W.
  - apply u_cost, bound_seq_rel; first [exact (u_lt k Hk)|exact (u_eq k Hk)|reflexivity|exact W].
  - apply u_cost, bound_par_rel; first [exact (u_lt k Hk)|exact (u_eq k Hk)|reflexivity|exact W].
  - apply u_costs, bound_mpi_rel; first [exact (u_inf k)|exact (u_lt k Hk)|exact (u_eq k Hk)|reflexivity|exact W].
Qed.
Print Assumptions C82_bounds.

(** Nearest neighbour over MPI: every process returns the same tour as before, its cost in the new unit, whatever the order of the reduction. *)
Theorem C82_nearest_mpi : forall k (m : namatrix EZ), (0 < k)%Z -> forall order tree size,
  nearest_neighbour_mpi order tree (matrix_in_unit k m) size = outcome (map (tour_in_unit k)) (nearest_neighbour_mpi order tree m size).
Proof.
  intros k m Hk order tree size. pose proof (u_matrix k m) as R. apply u_sols, nn_mpi_rel; try solve [laws k Hk|reflexivity].
  intros i. apply nn_single_rel; laws k Hk.
Qed.
Print Assumptions C82_nearest_mpi.

(** A unit of length zero loses everything: [k > 0] is needed. *)
Theorem C82_zero_refuted : exists m : namatrix EZ, naive_solver (na_adj (matrix_in_unit 0 m)) <> outcome (tour_in_unit 0) (naive_solver (na_adj m)).
Proof. exists (int_matrix 4 (table [[0;9;1;1];[9;0;1;1];[1;1;0;9];[1;1;9;0]]%Z)). vm_compute. discriminate. Qed.
Print Assumptions C82_zero_refuted.

(** With doubles, costs that are multiples of [2^e], and the unit changed to [2^e']: the same least cost. *)
Theorem C82_exact_f64 : forall e e' n w W, (-1074 <= e <= 970)%Z -> (-1074 <= e' <= 970)%Z -> bounded w n W -> (W * (Z.of_nat n + 1) <= 2 ^ 53)%Z ->
  let same a b := exists c p q, a = Ok (b64_inj e c : C B64, p) /\ b = Ok (b64_inj e' c : C B64, q) /\ is_optimal w n c p /\ is_optimal w n c q in
  let a := na_adj (f64_matrix e n w) in let b := na_adj (f64_matrix e' n w) in
  (2 <= n -> same (naive_solver a) (naive_solver b)) /\
  (3 <= n -> symmetric w n -> same (first_improved_solver a) (first_improved_solver b)) /\
  (1 <= n -> same (second_improved_solver a) (second_improved_solver b)) /\
  (1 <= n -> nonneg w n -> same (third_improved_solver a) (third_improved_solver b)).
Proof.
  intros e e' n w W He He' HW HB same a b.
  assert (K : forall x y, (exists c p, x = Ok (b64_inj e c : C B64, p) /\ is_optimal w n c p) -> (exists c p, y = Ok (b64_inj e' c : C B64, p) /\ is_optimal w n c p) -> same x y).
  { intros x y (c & p & -> & Hp) (c' & q & -> & Hq).
    assert (E : c = c') by (destruct Hp as (T1 & <- & L1), Hq as (T2 & <- & L2); specialize (L1 _ T2); specialize (L2 _ T1); lia).
    subst c'. exists c, p, q. auto. }
  repeat split; intros Hn; [|intros Hs| |intros Hs]; apply K.
  - exact (C01_naive_optimal_f64 e n w W He Hn HW HB).
  - exact (C01_naive_optimal_f64 e' n w W He' Hn HW HB).
  - exact (C02_first_optimal_f64_partial e n w W He Hn Hs HW HB).
  - exact (C02_first_optimal_f64_partial e' n w W He' Hn Hs HW HB).
  - exact (C03_second_optimal_f64 e n w W He Hn HW HB).
  - exact (C03_second_optimal_f64 e' n w W He' Hn HW HB).
  - exact (C04_third_optimal_f64 e n w W He Hn Hs HW HB).
  - exact (C04_third_optimal_f64 e' n w W He' Hn Hs HW HB).
Qed.
Print Assumptions C82_exact_f64.

(** The triangle test does depend on the unit: its tolerance is fixed, so that it accepts every matrix all of whose costs are at most [2^-34]. *)
Theorem C82_metric_small : forall e b n w, (-1074 <= e)%Z -> (0 <= b <= 52)%Z -> (e + b <= -34)%Z ->
  (forall i j, i < n -> j < n -> (0 <= w i j <= 2 ^ b)%Z) -> is_metric (na_adj (f64_matrix e n w)) = Ok true.
Proof.
  intros e b n w He Hb Heb Hw. assert (He' : (-1074 <= e <= 970)%Z) by lia.
  assert (P : (2 ^ b <= 2 ^ 52)%Z) by (apply Z.pow_le_mono_r; lia).
  destruct (C37_what_is_tested B64 (na_adj (f64_matrix e n w)) (fun i j => b64_inj e (w i j))) as [_ Hiff].
  { intros i j Hi Hj. exact (matrix_of_get n (fun i j => b64_inj e (w i j) : C B64) i j Hi Hj). }
  apply Hiff. change (a_dim (na_adj (f64_matrix e n w))) with n. intros i j x L Hj Hx.
  assert (Hin : forall z, (Z.abs z <= 2 ^ 53)%Z -> fin (b64_inj e z) /\ r64 (b64_inj e z) = val e z) by (intros z Hz; destruct (inj_correct e He' z Hz) as (A & B & _); auto).
  pose proof (Hw i x ltac:(lia) Hx) as W1. pose proof (Hw x j Hx Hj) as W2. pose proof (Hw i j ltac:(lia) Hj) as W3.
  destruct (Hin (w i x + w x j)%Z ltac:(lia)) as [F1 V1]. destruct (Hin (w i j) ltac:(lia)) as [F3 V3].
  change (@clt B64 (b64_plus BinarySingleNaN.mode_NE (b64_plus BinarySingleNaN.mode_NE (b64_inj e (w i x)) (b64_inj e (w x j))) b64_eps) (b64_inj e (w i j)) = false).
  pose proof (b64_inj_add e He' (w i x) (w x j) ltac:(lia) ltac:(lia) ltac:(lia)) as Ea. rewrite Ea.
  assert (G : @cle B64 (b64_inj e (w i j)) (b64_plus BinarySingleNaN.mode_NE (b64_inj e (w i x + w x j)) b64_eps) = true).
  { apply (plus_ge _ _ _ F1 eps_fin F3). rewrite V1, V3. pose proof eps_big as Eb.
    assert (U : (val e (w i j) <= bpow radix2 (-34))%R).
    { unfold val, F2R. cbn [Fnum Fexp]. refine (Rle_trans _ (bpow radix2 b * bpow radix2 e) _ _ _).
      - apply Rmult_le_compat_r; [apply bpow_ge_0|]. rewrite <- (IZR_Zpower radix2) by lia. apply IZR_le. apply W3.
      - rewrite <- bpow_plus. apply bpow_le. lia. }
    assert (Z0 : (0 <= val e (w i x + w x j))%R).
    { unfold val, F2R. cbn [Fnum Fexp]. apply Rmult_le_pos; [apply IZR_le; lia|apply bpow_ge_0]. }
    lra. }
  rewrite (ord_lt B64 B64_ord), G. apply andb_false_r.
Qed.
Print Assumptions C82_metric_small.

(** ... and thus the answer changes when the same matrix is given in another unit. *)
Theorem C82_metric_refuted : exists n w e e', symmetric w n /\ nonneg w n /\ ~ triangle w n /\
  is_metric (na_adj (f64_matrix e n w)) = Ok false /\ is_metric (na_adj (f64_matrix e' n w)) = Ok true.
Proof.
  exists 3, (table [[0;1;3];[1;0;1];[3;1;0]]%Z), 0%Z, (-60)%Z.
  assert (Hs : symmetric (table [[0;1;3];[1;0;1];[3;1;0]]%Z) 3) by (apply symmetric_dec; reflexivity).
  assert (Hr : forall i j, i < 3 -> j < 3 -> (0 <= table [[0;1;3];[1;0;1];[3;1;0]]%Z i j <= 2 ^ 2)%Z).
  { intros [|[|[|i]]] [|[|[|j]]] Hi Hj; try lia; vm_compute; split; discriminate. }
  assert (Ht : ~ triangle (table [[0;1;3];[1;0;1];[3;1;0]]%Z) 3).
  { intros H. specialize (H 0 2 1 ltac:(lia) ltac:(lia) ltac:(lia)). vm_compute in H. apply H. reflexivity. }
  split; [exact Hs|]. split; [intros i j Hi Hj; apply (Hr i j Hi Hj)|]. split; [exact Ht|]. split.
  - apply (C37_decides_triangle_f64 0 3 _ 4); [lia| |lia|exact Hs|exact Ht]. intros i j Hi Hj. specialize (Hr i j Hi Hj). lia.
  - apply (C82_metric_small (-60) 2); [lia..|exact Hr].
Qed.
Print Assumptions C82_metric_refuted.

(** Four vertices, kilometres and metres, one edge absent *)
Example C82_applies :
  let m := @mkNA EZ 4 [Fin 0; Fin 2; PInf; Fin 7; Fin 2; Fin 0; Fin 3; Fin 4; PInf; Fin 3; Fin 0; Fin 5; Fin 7; Fin 4; Fin 5; Fin 0] in
  naive_solver (na_adj m) = Ok (Fin 17, [0; 3; 2; 1]) /\ naive_solver (na_adj (matrix_in_unit 1000 m)) = Ok (Fin 17000, [0; 3; 2; 1]) /\
  sixth_improved_solver m = Ok (Fin 17, [0; 1; 2; 3]) /\ single_nearest_neighbour m 2 = Ok (Fin 17, [2; 1; 0; 3]).
Proof. vm_compute. repeat split. Qed.

Example C82_applies_christofides :
  let m := int_matrix 5 (table [[0;2;3;4;5];[2;0;3;4;4];[3;3;0;2;4];[4;4;2;0;3];[5;4;4;3;0]]%Z) in
  let run mode m := christofides true (mkEnv (fun _ => []) (fun _ => RLeaf)) (mkFillEnv [] []) (mkMtEnv (fun i => i) (fun _ _ i => i) (fun _ => []) 1) mode m in
  run PAR_COMPUTATION m = Ok (Fin 14%Z, [0; 1; 4; 3; 2; 0]) /\ run PAR_COMPUTATION (matrix_in_unit 1000 m) = Ok (Fin 14000%Z, [0; 1; 4; 3; 2; 0]).
Proof. vm_compute. repeat split. Qed.

Example C82_applies_bounds :
  let m := int_matrix 4 (table [[0;2;6;8];[2;0;4;6];[6;4;0;2];[8;6;2;0]]%Z) in
  Forall has_half (na_data m) /\ one_tree_lower_bound_seq m = Ok (Fin 14%Z) /\ one_tree_lower_bound_seq (matrix_in_unit 1000 m) = Ok (Fin 14000%Z) /\
  one_tree_lower_bound_mpi [1; 0] RLeaf (matrix_in_unit 1000 m) 2 = Ok [Fin 14000%Z; PInf] /\
  nearest_neighbour_mpi (fun _ => [1; 0]) (fun _ => RLeaf) (matrix_in_unit 1000 m) 2 = Ok [(Fin 16000%Z, [0; 1; 2; 3]); (Fin 16000%Z, [0; 1; 2; 3])].
Proof.
  split; [|vm_compute; repeat split].
  apply Forall_forall. intros x Hx. vm_compute in Hx. repeat (destruct Hx as [<-|Hx]; [match goal with |- has_half (Fin ?z) => exists (z / 2)%Z; reflexivity end|]). destruct Hx.
Qed.
