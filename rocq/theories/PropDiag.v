(** C79: only the costs between different vertices matter, whatever stands on the diagonal of the matrix. *)
From Coq Require Import ZArith Arith Bool List Lia Permutation NArith Reals Lra.
From Flocq Require Import Core IEEE754.Binary IEEE754.Bits.
From Flocq Require IEEE754.BinarySingleNaN.
From Verif Require Import Num NumB64 F64Facts Base Data Precond PrecondProofs Mst Exact OneTree Par Rand MstPar Nn Spec PrimProofs ConvProofs DiagProofs PropData.
Import ListNotations.
Local Open Scope nat_scope.
Local Notation RN := (round radix2 (SpecFloat.fexp 53 1024) (BinarySingleNaN.round_mode BinarySingleNaN.mode_NE)).

(** Two matrices, of the same type or not, that agree about every pair of different vertices. *)
Definition same_between {N : Num} (a b : adj N) : Prop := a_dim a = a_dim b /\
  forall i j, i < a_dim a -> j < a_dim a -> i <> j -> a_get a i j = a_get b i j.

Lemma seq_good {N : Num} (a : adj N) : good a (seq 0 (a_dim a)).
Proof. split; [apply seq_NoDup|]. intros v Hv. apply in_seq in Hv. lia. Qed.

Lemma nil_good {N : Num} (a : adj N) : good a [].
Proof. split; [constructor|intros v []]. Qed.

(** Any arithmetic, and also when a cell cannot be read: the cost of a path or circle without repetition, and the exact
    solvers that take any matrix. *)
Theorem C79_circles : forall (N : Num) (a b : adj N) p, same_between a b -> NoDup p -> (forall v, In v p -> v < a_dim a) ->
  evaluate_path a p = evaluate_path b p /\ evaluate_circle a p = evaluate_circle b p.
Proof.
  intros N a b p [Hd Hg] Hn Hr. split; [apply path_same|apply circle_same]; try assumption; split; assumption.
Qed.
Print Assumptions C79_circles.

Theorem C79_enumeration : forall (N : Num) (a b : adj N), same_between a b ->
  naive_solver a = naive_solver b /\ first_improved_solver a = first_improved_solver b.
Proof.
  intros N a b [Hd Hg]. unfold naive_solver, first_improved_solver. rewrite <- Hd. cbv zeta.
  split; [apply naive_same|apply first_same]; try assumption; apply seq_good.
Qed.
Print Assumptions C79_enumeration.

Theorem C79_searches : forall (N : Num) (a b : adj N), same_between a b -> 2 <= a_dim a ->
  second_improved_solver a = second_improved_solver b /\ third_improved_solver a = third_improved_solver b /\
  fourth_improved_solver a = fourth_improved_solver b.
Proof.
  intros N a b [Hd Hg] H2. unfold second_improved_solver, third_improved_solver, fourth_improved_solver. rewrite <- Hd.
  split; [|split]; [apply second_same|apply third_same|apply fourth_same]; try assumption; apply nil_good.
Qed.
Print Assumptions C79_searches.

(** The functions that take an [NAMatrix]. *)
Theorem C79_trees : forall (N : Num) (m m' : namatrix N), na_wf m -> na_wf m' -> same_between (na_adj m) (na_adj m') ->
  (forall excluded, prim_with_excluded_node_single_threaded m excluded = prim_with_excluded_node_single_threaded m' excluded) /\
  (forall special, one_tree m special = one_tree m' special) /\
  one_tree_lower_bound_seq m = one_tree_lower_bound_seq m' /\
  (forall t, one_tree_lower_bound_par t m = one_tree_lower_bound_par t m') /\
  (forall order t size, one_tree_lower_bound_mpi order t m size = one_tree_lower_bound_mpi order t m' size).
Proof.
  intros N m m' W W' [Hd Hg]. cbn [na_adj a_dim a_get] in Hd, Hg.
  assert (Hw := one_tree_weight_same m m' W W' Hd Hg).
  split; [intros ex; apply prim_same; assumption|]. split; [intros s; apply one_tree_same; assumption|].
  assert (Hm : forall l, mapM (one_tree_weight m) l = mapM (one_tree_weight m') l) by (intros l; apply mapM_same; intros; apply Hw).
  split; [|split].
  - unfold one_tree_lower_bound_seq. rewrite <- Hd, Hm. reflexivity.
  - intros t. unfold one_tree_lower_bound_par. rewrite <- Hd, Hm. reflexivity.
  - intros order t size. unfold one_tree_lower_bound_mpi. apply bind_same; [|reflexivity]. apply mapM_same. intros r _.
    unfold local_lower_bound. rewrite <- Hd, Hm. reflexivity.
Qed.
Print Assumptions C79_trees.

Theorem C79_namatrix : forall (N : Num) (m m' : namatrix N), na_wf m -> na_wf m' -> same_between (na_adj m) (na_adj m') -> 2 <= na_dim m ->
  (forall s, single_nearest_neighbour m s = single_nearest_neighbour m' s) /\
  (forall env mode k, n_nearest_neighbour env mode m k = n_nearest_neighbour env mode m' k) /\
  (forall env mode, nearest_neighbour env mode m = nearest_neighbour env mode m') /\
  fifth_improved_solver m = fifth_improved_solver m' /\ sixth_improved_solver m = sixth_improved_solver m'.
Proof.
  intros N m m' W W' [Hd Hg] H2. cbn [na_adj a_dim a_get] in Hd, Hg.
  assert (Hs : forall s, single_nearest_neighbour m s = single_nearest_neighbour m' s) by (intros s; apply single_same; assumption).
  assert (Hk : forall env mode k, n_nearest_neighbour env mode m k = n_nearest_neighbour env mode m' k).
  { intros env mode k. unfold n_nearest_neighbour. rewrite <- Hd. rewrite (mapM_same _ (single_nearest_neighbour m')) by (intros; apply Hs). reflexivity. }
  split; [exact Hs|]. split; [exact Hk|]. split; [intros env mode; unfold nearest_neighbour; rewrite <- Hd; apply Hk|].
  unfold fifth_improved_solver, sixth_improved_solver, sixth_improved_solver_with. rewrite <- Hd. split.
  - apply fifth_same; try assumption. apply nil_good.
  - rewrite (sixth_same m m' W W' Hd Hg H2) by apply nil_good. reflexivity.
Qed.
Print Assumptions C79_namatrix.

(** ** The two matrix types of one document *)
(** [VecMatrix] puts infinity on the diagonal, [NAMatrix] zero.  A cost is the only number equal to it, unless it is zero:
    then the two directions can have zeros of different signs, and [VecMatrix] keeps one of them for both. *)
Theorem C79_types : forall (N : Num) (O : NumOrd N) (g : graph N), loop_free g -> do_conditions_hold g = Ok true -> 2 <= length g ->
  (forall i e x, i < length g -> In e (nth i g []) -> ceq x (e_cost e) = true -> x = e_cost e) ->
  exists m v, na_from_graph g = Ok m /\ vm_from_graph g = Ok v /\
    naive_solver (vm_adj v) = naive_solver (na_adj m) /\ first_improved_solver (vm_adj v) = first_improved_solver (na_adj m) /\
    second_improved_solver (vm_adj v) = second_improved_solver (na_adj m) /\ third_improved_solver (vm_adj v) = third_improved_solver (na_adj m) /\
    fourth_improved_solver (vm_adj v) = fourth_improved_solver (na_adj m).
Proof.
  intros N O g Hl Hc H2 Hx. destruct (C35_accepted N O g Hl Hc) as (m & v & Em & Ev & Dm & Dv & _ & Hcell).
  exists m, v. split; [exact Em|]. split; [exact Ev|].
  assert (S : same_between (vm_adj v) (na_adj m)).
  { split; [congruence|]. rewrite Dv. intros i j Hi Hj Hij. destruct (Hcell i j Hi Hj Hij) as (e & c & Hin & E1 & E2 & _ & E3).
    rewrite E1, E2. f_equal. apply (Hx i e c Hi); [|exact E3]. assert (H : In e (to_edges g i j)) by (rewrite Hin; left; reflexivity).
    unfold to_edges in H. apply filter_In in H. apply H. }
  destruct (C79_enumeration N _ _ S) as [H3 H4]. destruct (C79_searches N _ _ S ltac:(lia)) as (H5 & H6 & H7). auto.
Qed.
Print Assumptions C79_types.

Theorem C79_types_f64 : forall g : graph B64, loop_free g -> do_conditions_hold g = Ok true -> 2 <= length g ->
  (forall i e, i < length g -> In e (nth i g []) -> is_finite_strict 53 1024 (e_cost e) = true) ->
  exists m v, na_from_graph g = Ok m /\ vm_from_graph g = Ok v /\
    naive_solver (vm_adj v) = naive_solver (na_adj m) /\ first_improved_solver (vm_adj v) = first_improved_solver (na_adj m) /\
    second_improved_solver (vm_adj v) = second_improved_solver (na_adj m) /\ third_improved_solver (vm_adj v) = third_improved_solver (na_adj m) /\
    fourth_improved_solver (vm_adj v) = fourth_improved_solver (na_adj m).
Proof.
  intros g Hl Hc H2 Hf. apply (C79_types B64 B64_ord g Hl Hc H2). intros i e x Hi He E. specialize (Hf i e Hi He).
  set (y := e_cost e) in *. clearbody y. clear - E Hf.
  assert (Fy : is_finite 53 1024 y = true) by (destruct y; try discriminate Hf; reflexivity).
  assert (Fx : is_finite 53 1024 x = true).
  { change (b64_cmp_eq x y = true) in E. destruct x as [ | [] | | ]; try reflexivity; destruct y; discriminate. }
  change (b64_cmp_eq x y = true) in E. unfold b64_cmp_eq, b64_compare in E. rewrite Bcompare_correct in E by assumption.
  destruct (Rcompare_spec (B2R 53 1024 x) (B2R 53 1024 y)) as [|Ev|]; try discriminate.
  apply B2R_inj; [|exact Hf|exact Ev]. destruct x; try discriminate Fx; [|reflexivity]. exfalso.
  destruct y as [ | | |sy my ey Hy]; try discriminate Hf. cbn [B2R] in Ev. symmetry in Ev. apply eq_0_F2R in Ev. destruct sy; discriminate Ev.
Qed.
Print Assumptions C79_types_f64.

(** ** Where the diagonal does matter *)
(** One vertex: the searches close the circle with the cell on the diagonal.  For the same document they return the tour of
    cost zero with [NAMatrix] and no tour at all with [VecMatrix]. *)
Theorem C79_one_vertex_refuted : exists (g : graph B64) m v, do_conditions_hold g = Ok true /\
  na_from_graph g = Ok m /\ vm_from_graph g = Ok v /\ same_between (na_adj m) (vm_adj v) /\ forall solver,
  In solver [second_improved_solver; third_improved_solver; fourth_improved_solver] ->
  solver (na_adj m) = Ok (c0, [0]) /\ solver (vm_adj v) = Ok (cinf, []).
Proof.
  exists [[]], (mkNA (N := B64) 1 [c0]), [[cinf : C B64]]. split; [reflexivity|]. split; [reflexivity|]. split; [reflexivity|].
  split; [split; [reflexivity|intros i j Hi Hj Hij; cbn in Hi, Hj; lia]|].
  intros solver [<-|[<-|[<-|[]]]]; split; vm_compute; reflexivity.
Qed.
Print Assumptions C79_one_vertex_refuted.

(** Nearest neighbours of one vertex: the loop is closed with the cell on the diagonal. *)
Theorem C79_one_vertex_nn_refuted : forall (N : Num) (c : C N), single_nearest_neighbour (mkNA 1 [c]) 0 = Ok (cadd c0 c, [0]).
Proof. reflexivity. Qed.
Print Assumptions C79_one_vertex_nn_refuted.

Lemma vecmatrix_not_metric : forall (N : Num) (O : NumOrd N) (g : graph N) v, loop_free g -> do_conditions_hold g = Ok true -> 2 <= length g ->
  (forall x y : C N, (exists i e, In e (nth i g []) /\ ceq x (e_cost e) = true) -> (exists i e, In e (nth i g []) /\ ceq y (e_cost e) = true) -> clt (cadd (cadd x y) ceps) cinf = true) ->
  vm_from_graph g = Ok v -> is_metric (vm_adj v) = Ok false.
Proof.
  intros N O g v Hl Hc H2 Hfin Ev. destruct (C35_accepted N O g Hl Hc) as (m & v' & _ & Ev' & _ & Dv & Hdiag & Hcell).
  assert (v' = v) by congruence. subst v'.
  assert (Hcost : exists cost, forall i j, i < a_dim (vm_adj v) -> j < a_dim (vm_adj v) -> a_get (vm_adj v) i j = Ok (cost i j)).
  { exists (vm_val v). rewrite Dv. intros i j Hi Hj. destruct (Nat.eq_dec i j) as [->|Hij].
    - destruct (Hdiag j Hj) as [_ E]. rewrite E. cbn [vm_adj a_get] in E. unfold vm_get in E. apply bind_Ok in E. destruct E as (r & E1 & E2).
      apply nth_res_Ok in E1, E2. unfold vm_val. rewrite (proj2 E1), (proj2 E2). reflexivity.
    - destruct (Hcell i j Hi Hj Hij) as (_ & c & _ & _ & E & _). rewrite E. cbn [vm_adj a_get] in E. unfold vm_get in E. apply bind_Ok in E. destruct E as (r & E1 & E2).
      apply nth_res_Ok in E1, E2. unfold vm_val. rewrite (proj2 E1), (proj2 E2). reflexivity. }
  destruct Hcost as (cost & Hcost). destruct (C37_what_is_tested N (vm_adj v) cost Hcost) as [[H|H] Hiff]; [|exact H]. exfalso.
  apply Hiff with (i := 0) (j := 0) (k := 1) in H; [|lia..].
  assert (E00 : cost 0 0 = cinf) by (destruct (Hdiag 0 ltac:(lia)) as [_ E]; rewrite Hcost in E by lia; congruence).
  destruct (Hcell 0 1 ltac:(lia) ltac:(lia) ltac:(lia)) as (e & c & Hin & _ & E1 & E2 & E3). rewrite Hcost in E1, E2 by lia.
  injection E1 as E1. injection E2 as E2. rewrite E00, E1, E2 in H.
  assert (Hee : exists i e, In e (nth i g []) /\ ceq c (e_cost e) = true).
  { exists 0, e. split; [|exact E3]. assert (Hi : In e (to_edges g 0 1)) by (rewrite Hin; left; reflexivity). unfold to_edges in Hi. apply filter_In in Hi. apply Hi. }
  rewrite (Hfin c c Hee Hee) in H. discriminate.
Qed.

(** [is_metric] says no to every [VecMatrix] made from a document with two or more vertices: going from a vertex to itself
    costs infinity, and a detour over another vertex is cheaper. *)
Theorem C79_vecmatrix_metric_refuted : forall (g : graph EZ) v, loop_free g -> do_conditions_hold g = Ok true -> 2 <= length g ->
  (forall i e, In e (nth i g []) -> exists z, e_cost e = Fin z) ->
  vm_from_graph g = Ok v -> is_metric (vm_adj v) = Ok false.
Proof.
  intros g v Hl Hc H2 Hf Ev. apply (vecmatrix_not_metric EZ EZ_ord g v Hl Hc H2); [|exact Ev].
  intros x y (i & e & Hi & E) (j & e' & Hj & E'). destruct (Hf i e Hi) as (z & Ez). destruct (Hf j e' Hj) as (z' & Ez').
  rewrite Ez in E. rewrite Ez' in E'. destruct x; try discriminate E; destruct y; try discriminate E'; reflexivity.
Qed.
Print Assumptions C79_vecmatrix_metric_refuted.

Theorem C79_vecmatrix_metric_f64_refuted : forall (g : graph B64) v, loop_free g -> do_conditions_hold g = Ok true -> 2 <= length g ->
  (forall i e, In e (nth i g []) -> is_finite 53 1024 (e_cost e) = true /\ (r64 (e_cost e) <= powerRZ 2 1000)%R) ->
  vm_from_graph g = Ok v -> is_metric (vm_adj v) = Ok false.
Proof.
  intros g v Hl Hc H2 Hf Ev. apply (vecmatrix_not_metric B64 B64_ord g v Hl Hc H2); [|exact Ev].
  assert (Heq : forall x y : C B64, is_finite 53 1024 y = true -> ceq x y = true -> is_finite 53 1024 x = true /\ r64 x = r64 y).
  { intros x y Fy E. change (b64_cmp_eq x y = true) in E. assert (Fx : is_finite 53 1024 x = true) by (destruct x as [ | [] | | ]; try reflexivity; destruct y; discriminate).
    split; [exact Fx|]. unfold b64_cmp_eq, b64_compare in E. rewrite Bcompare_correct in E by assumption.
    destruct (Rcompare_spec (B2R 53 1024 x) (B2R 53 1024 y)) as [|Ex|]; try discriminate. exact Ex. }
  intros x y (i & e & Hi & E) (j & e' & Hj & E'). destruct (Hf i e Hi) as [F1 L1]. destruct (Hf j e' Hj) as [F2 L2].
  destruct (Heq _ _ F1 E) as [Fx Vx]. destruct (Heq _ _ F2 E') as [Fy Vy]. rewrite <- Vx in L1. rewrite <- Vy in L2.
  change 2%R with (IZR radix2) in L1, L2. rewrite <- bpow_powerRZ in L1, L2.
  assert (D : (bpow radix2 1000 + bpow radix2 1000 = bpow radix2 1001)%R) by (replace 1001%Z with (1 + 1000)%Z by reflexivity; rewrite bpow_plus; change (bpow radix2 1) with 2%R; lra).
  assert (RNb : forall k, (-1000 <= k <= 1023)%Z -> RN (bpow radix2 k) = bpow radix2 k).
  { intros k Hk. apply round_generic; [auto with typeclass_instances|]. apply generic_format_bpow. unfold SpecFloat.fexp, FLT_exp. cbn. lia. }
  change (b64_cmp_lt (b64_plus BinarySingleNaN.mode_NE (b64_plus BinarySingleNaN.mode_NE x y) b64_eps) b64_inf = true).
  assert (Lt : forall z : binary64, is_finite 53 1024 z = true -> b64_cmp_lt z b64_inf = true) by (intros z Hz; destruct z; try discriminate Hz; reflexivity).
  assert (B1 : (bpow radix2 1001 < bpow radix2 1024)%R) by (apply bpow_lt; lia). assert (B2 : (bpow radix2 1002 < bpow radix2 1024)%R) by (apply bpow_lt; lia).
  assert (S1 : (RN (r64 x + r64 y) <= bpow radix2 1001)%R) by (rewrite <- (RNb 1001%Z) by lia; apply RN_mono; lra).
  destruct (plus_cases x y Fx Fy) as [(Hp & Ep & _)|[(_ & L)|(-> & _)]]; [|lra|reflexivity].
  assert (Le : (r64 b64_eps <= bpow radix2 1001)%R) by (apply Rle_trans with (1 := proj2 eps_val); apply bpow_le; lia).
  assert (D2 : (bpow radix2 1001 + bpow radix2 1001 = bpow radix2 1002)%R) by (replace 1002%Z with (1 + 1001)%Z by lia; rewrite bpow_plus; change (bpow radix2 1) with 2%R; lra).
  assert (S2 : (RN (r64 (b64_plus BinarySingleNaN.mode_NE x y) + r64 b64_eps) <= bpow radix2 1002)%R) by (rewrite <- (RNb 1002%Z) by lia; apply RN_mono; rewrite Ep; lra).
  destruct (plus_cases _ _ Hp eps_fin) as [(Hq & _)|[(_ & L)|(-> & _)]]; [apply Lt; exact Hq|lra|reflexivity].
Qed.
Print Assumptions C79_vecmatrix_metric_f64_refuted.

(** ** Non-vacuity *)
(** Three vertices with costs 3, 4 and 5, and two diagonals. *)
Definition diag_ex (d : C EZ) : namatrix EZ := mkNA 3 [d; Fin 3%Z; Fin 4%Z; Fin 3%Z; d; Fin 5%Z; Fin 4%Z; Fin 5%Z; d].
Example C79_applies : same_between (na_adj (diag_ex (Fin 0%Z))) (na_adj (diag_ex (Fin (-7)%Z))) /\
  na_wf (diag_ex (Fin 0%Z)) /\ na_wf (diag_ex (Fin (-7)%Z)) /\ diag_ex (Fin 0%Z) <> diag_ex (Fin (-7)%Z) /\
  fifth_improved_solver (diag_ex (Fin (-7)%Z)) = Ok (Fin 12%Z : C EZ, [0; 1; 2]) /\
  loop_free triangle_graph /\ do_conditions_hold triangle_graph = Ok true /\
  (forall i e, In e (nth i triangle_graph []) -> exists z, e_cost e = Fin z) /\
  exists v, vm_from_graph triangle_graph = Ok v /\ is_metric (vm_adj v) = Ok false /\ naive_solver (vm_adj v) = Ok (Fin 12%Z : C EZ, [0; 2; 1]).
Proof.
  destruct C40_applies as [H1 H2].
  split; [split; [reflexivity|]|].
  { intros i j Hi Hj Hij. cbn in Hi, Hj. destruct i as [|[|[|]]]; try lia; destruct j as [|[|[|]]]; try lia; reflexivity. }
  split; [reflexivity|]. split; [reflexivity|]. split; [discriminate|]. split; [vm_compute; reflexivity|]. split; [exact H1|]. split; [exact H2|].
  split; [|eexists; split; [|split]; vm_compute; reflexivity].
  intros i e He. destruct i as [|[|[|i]]]; cbn in He; repeat (destruct He as [<-|He]; [eexists; reflexivity|]); try destruct He. destruct i; destruct He.
Qed.
