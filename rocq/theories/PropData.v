(** C35-C37, C39-C41: graphs, matrices, evaluation, the metric and Hamiltonian checks, and the
    preconditions. *)
From Coq Require Import ZArith Arith Bool List Permutation Lia Reals Lra.
From Flocq Require Import Core IEEE754.Binary IEEE754.Bits.
From Flocq Require IEEE754.BinarySingleNaN.
From Verif Require Import Num NumB64 F64Facts Base Spec SpecFacts Data Precond PrecondProofs ConvProofs MetricProofs Christofides HamProofs
  PrimProofs Nn PermProofs Instances.
Import ListNotations.
Local Open Scope nat_scope.

(** ** Vocabulary *)
(** The edges of [g] from [i] to [j] are [to_edges g i j] (PrecondProofs.v): those edges stored
    at vertex [i] whose target is [j].  [loop_free g]: no edge leads from a vertex to itself. *)

(** Between any two different vertices there is exactly one edge each way, the two with equal
    costs, and there are no other edges. *)
Definition complete_undirected {N : Num} (g : graph N) : Prop :=
  (forall i e, i < length g -> In e (nth i g []) -> e_to e < length g /\ e_to e <> i) /\
  (forall i j, i < length g -> j < length g -> i <> j ->
    exists e e', to_edges g i j = [e] /\ to_edges g j i = [e'] /\ ceq (e_cost e') (e_cost e) = true).

Definition in_range {N : Num} (g : graph N) : Prop := forall i e, i < length g -> In e (nth i g []) -> e_to e < length g.

(** ** C40: accepted graphs are complete and undirected *)
Theorem C40_accepts_exactly_complete_partial : forall (N : Num) (g : graph N), loop_free g ->
  (do_conditions_hold g = Ok true <-> complete_undirected g).
Proof.
  intros N g Hl. split.
  - intros H. split; [|apply conditions_complete; assumption].
    intros i e Hi He. split; [|apply (Hl i e Hi He)]. apply conditions_true in H. destruct H as (_ & _ & H3).
    rewrite is_undirected_true in H3. apply (H3 i e Hi He).
  - intros [H1 H2]. apply complete_conditions; assumption.
Qed.
Print Assumptions C40_accepts_exactly_complete_partial.

(** A self loop takes the place of the missing edge: [0 -> 0] and [1 -> 0] are accepted, and
    the matrix then has an infinite entry. *)
Theorem C40_self_loop_refuted : exists (g : graph EZ) m, do_conditions_hold g = Ok true /\ to_edges g 0 1 = [] /\
  ~ complete_undirected g /\ na_from_graph g = Ok m /\ na_get m 0 1 = Ok cinf.
Proof.
  exists [[mkEdge 0 (Fin 1%Z : C EZ)]; [mkEdge 0 (Fin 1%Z : C EZ)]]. eexists. split; [vm_compute; reflexivity|]. split; [vm_compute; reflexivity|].
  split; [|split; vm_compute; reflexivity].
  intros [H _]. destruct (H 0 (mkEdge 0 (Fin 1%Z : C EZ))) as [_ H']; [cbn; lia|left; reflexivity|]. apply H'. reflexivity.
Qed.
Print Assumptions C40_self_loop_refuted.

Definition triangle_graph : graph EZ :=
  [[mkEdge 1 (Fin 3%Z : C EZ); mkEdge 2 (Fin 4%Z : C EZ)]; [mkEdge 0 (Fin 3%Z : C EZ); mkEdge 2 (Fin 5%Z : C EZ)];
   [mkEdge 1 (Fin 5%Z : C EZ); mkEdge 0 (Fin 4%Z : C EZ)]].
Lemma triangle_graph_range : (forall i e, i < 3 -> In e (nth i triangle_graph []) -> e_to e < 3 /\ e_to e <> i).
Proof.
  intros i e Hi He. destruct i as [|[|[|i]]]; [..|lia]; cbn in He; repeat destruct He as [He|He]; try contradiction; rewrite <- He; cbn [e_to]; lia.
Qed.
Example C40_applies : loop_free triangle_graph /\ do_conditions_hold triangle_graph = Ok true.
Proof. split; [|vm_compute; reflexivity]. intros i e Hi He. apply (triangle_graph_range i e Hi He). Qed.

(** ** C41: parse_from_xml *)
(** [doc] is what the XML library makes of the document ([None]: an error).  A graph that is
    handed out is the one of the document and meets the conditions; there is no error value for
    a violation, the function panics. *)
Theorem C41_checked : forall (N : Num) (doc : option (graph N)) g, parse_from_xml doc = Ok (Some g) ->
  doc = Some g /\ is_fully_connected g = true /\ is_multi_edge g = false /\ is_undirected g = Ok true.
Proof.
  intros N [g0|] g H; [|discriminate]. cbn in H. destruct (do_conditions_hold g0) as [[]| |] eqn:E; cbn in H; try discriminate.
  injection H as <-. unfold do_conditions_hold in E. destruct (is_fully_connected g0) eqn:E1; [|discriminate]. destruct (is_multi_edge g0) eqn:E2; [discriminate|]. auto.
Qed.
Print Assumptions C41_checked.

Theorem C41_error_or_panic : forall (N : Num), parse_from_xml (N := N) None = Ok None /\
  forall g : graph N, loop_free g ->
    (complete_undirected g -> parse_from_xml (Some g) = Ok (Some g)) /\
    (~ complete_undirected g -> parse_from_xml (Some g) = Panic).
Proof.
  intros N. split; [reflexivity|]. intros g Hl. pose proof (C40_accepts_exactly_complete_partial N g Hl) as Hiff. split; intros H; cbn.
  - rewrite (proj2 Hiff H). reflexivity.
  - destruct (do_conditions_hold g) as [[]| |] eqn:E; [exfalso; apply H, Hiff; reflexivity|reflexivity|reflexivity|].
    exfalso. exact (conditions_fuel g E).
Qed.
Print Assumptions C41_error_or_panic.

Example C41_applies : parse_from_xml (Some triangle_graph) = Ok (Some triangle_graph) /\
  parse_from_xml (Some (removelast triangle_graph)) = Panic.
Proof. split; vm_compute; reflexivity. Qed.

(** ** C35: conversions *)
(** NAMatrix: entry (i, j) is the cost of the edge from [i] to [j] (of the last one, if there
    are several); without an edge zero on the diagonal and infinity off it. *)
Theorem C35_namatrix : forall (N : Num) (g : graph N), in_range g ->
  exists m, na_from_graph g = Ok m /\ na_wf m /\ na_dim m = length g /\
    forall i j, i < length g -> j < length g ->
      (forall es e, to_edges g i j = es ++ [e] -> na_get m i j = Ok (e_cost e)) /\
      (to_edges g i j = [] -> na_get m i j = Ok (if i =? j then c0 else cinf)).
Proof.
  intros N g Hr. destruct (na_from_graph_val g Hr) as (m & E & W & D & V). exists m. split; [assumption|]. split; [assumption|]. split; [assumption|].
  intros i j Hi Hj. rewrite na_get_val, V by (assumption || lia). split.
  - intros es e He. f_equal. eapply last_cost_some. exact He.
  - intros He. f_equal. apply last_cost_none. exact He.
Qed.
Print Assumptions C35_namatrix.

Theorem C35_out_of_range_panics : forall (N : Num) (g : graph N),
  (exists i e, i < length g /\ In e (nth i g []) /\ length g <= e_to e) -> na_from_graph g = Panic.
Proof. intros N g H. apply na_from_graph_bad. assumption. Qed.
Print Assumptions C35_out_of_range_panics.

(** For an accepted graph without loops: both matrix types hold the cost of the one edge
    between the two vertices.  ([VecMatrix] keeps the cost given at the vertex of larger
    number, for both directions; the costs of the two directions are equal.  Its diagonal is
    infinite, that of [NAMatrix] zero.) *)
Theorem C35_accepted : forall (N : Num) (O : NumOrd N) (g : graph N), loop_free g -> do_conditions_hold g = Ok true ->
  exists m v, na_from_graph g = Ok m /\ vm_from_graph g = Ok v /\ a_dim (na_adj m) = length g /\ a_dim (vm_adj v) = length g /\
    (forall i, i < length g -> a_get (na_adj m) i i = Ok c0 /\ a_get (vm_adj v) i i = Ok cinf) /\
    forall i j, i < length g -> j < length g -> i <> j -> exists e c, to_edges g i j = [e] /\
      a_get (na_adj m) i j = Ok (e_cost e) /\
      a_get (vm_adj v) i j = Ok c /\ a_get (vm_adj v) j i = Ok c /\ ceq c (e_cost e) = true.
Proof.
  intros N O g Hl H. pose proof (proj1 (C40_accepts_exactly_complete_partial N g Hl) H) as [Hr Hc].
  assert (Hr' : in_range g) by (intros i e Hi He; apply (Hr i e Hi He)).
  destruct (na_from_graph_val g Hr') as (m & E & W & D & V). destruct (vm_from_graph_val g Hr') as (v & E' & Sq & V').
  assert (Hdiag : forall i, i < length g -> to_edges g i i = []).
  { intros i Hi. unfold to_edges. destruct (filter _ _) as [|e t] eqn:Ef; [reflexivity|]. exfalso.
    assert (He : In e (e :: t)) by (left; reflexivity). rewrite <- Ef in He. apply filter_In in He. destruct He as [He Ei]. apply Nat.eqb_eq in Ei. exact (Hl i e Hi He Ei). }
  exists m, v. split; [assumption|]. split; [assumption|]. split; [exact D|]. split; [apply Sq|].
  cbn [na_adj vm_adj a_get]. split.
  - intros i Hi. rewrite na_get_val, (vm_get_val (length g)), V, V' by (assumption || lia). rewrite Nat.eqb_refl. rewrite !last_cost_none by (apply Hdiag; assumption). auto.
  - intros i j Hi Hj Hij. destruct (Hc i j Hi Hj Hij) as (e & e' & E1 & E2 & E3).
    assert (Hself : forall x y : C N, ceq x y = true -> ceq x x = true /\ ceq y y = true /\ ceq y x = true).
    { intros x y Hxy. rewrite !(ord_eq N O) in *. apply andb_true_iff in Hxy. destruct Hxy as [H1 H2].
      rewrite !(ord_trans N O x y x), !(ord_trans N O y x y), H1, H2 by assumption. auto. }
    destruct (Hself _ _ E3) as (S1 & S2 & S3).
    rewrite na_get_val, !(vm_get_val (length g)), V, !V' by (assumption || lia).
    replace (i =? j) with false by (symmetry; apply Nat.eqb_neq; assumption). replace (j =? i) with false by (symmetry; apply Nat.eqb_neq; congruence).
    rewrite (Nat.max_comm j i), (Nat.min_comm j i).
    exists e. rewrite (last_cost_some (nth i g []) j _ [] e) by exact E1.
    destruct (Nat.lt_ge_cases i j) as [L|L].
    + rewrite Nat.max_r, Nat.min_l by lia. rewrite (last_cost_some (nth j g []) i _ [] e') by exact E2. exists (e_cost e'). auto.
    + rewrite Nat.max_l, Nat.min_r by lia. rewrite (last_cost_some (nth i g []) j _ [] e) by exact E1. exists (e_cost e). auto.
Qed.
Print Assumptions C35_accepted.

Example C35_applies : loop_free triangle_graph /\ do_conditions_hold triangle_graph = Ok true /\
  exists m v, na_from_graph triangle_graph = Ok m /\ vm_from_graph triangle_graph = Ok v /\
    na_get m 1 2 = Ok (Fin 5%Z : C EZ) /\ vm_get v 1 2 = Ok (Fin 5%Z : C EZ) /\ na_get m 0 2 = Ok (Fin 4%Z : C EZ).
Proof.
  destruct C40_applies as [H1 H2]. split; [exact H1|]. split; [exact H2|]. eexists. eexists. repeat split; vm_compute; reflexivity.
Qed.

(** Copying any matrix into an NAMatrix keeps the entries. *)
Theorem C35_copy : forall (N : Num) (a : adj N) (v : nat -> nat -> C N),
  (forall i j, i < a_dim a -> j < a_dim a -> a_get a i j = Ok (v i j)) ->
  exists m, na_from_adj a = Ok m /\ na_dim m = a_dim a /\ forall i j, i < a_dim a -> j < a_dim a -> na_get m i j = a_get a i j.
Proof.
  intros N a v Hv. destruct (na_from_adj_val a v Hv) as (m & E & W & D & V). exists m. split; [assumption|]. split; [assumption|].
  intros i j Hi Hj. rewrite na_get_val, V, Hv by (assumption || lia). reflexivity.
Qed.
Print Assumptions C35_copy.

(** ** C36: evaluate_path and evaluate_circle *)
(** In every arithmetic, rounding included: the sum in order of the steps, then the closing
    edge. *)
Theorem C36_sum_of_steps : forall (N : Num) (a : adj N) (cost : nat -> nat -> C N) x y p,
  (forall i j, i < a_dim a -> j < a_dim a -> a_get a i j = Ok (cost i j)) -> Forall (fun v => v < a_dim a) (x :: y :: p) ->
  let steps := combine (x :: y :: p) (y :: p) in
  evaluate_path a (x :: y :: p) = Ok (fold_left (fun acc e => cadd acc (cost (fst e) (snd e))) steps c0) /\
  evaluate_circle a (x :: y :: p) = Ok (cadd (fold_left (fun acc e => cadd acc (cost (fst e) (snd e))) steps c0) (cost (last (y :: p) y) x)).
Proof.
  intros N a cost x y p Hget Hr steps. rewrite Forall_forall in Hr.
  assert (Hp : evaluate_path a (x :: y :: p) = Ok (fold_left (fun acc e => cadd acc (cost (fst e) (snd e))) steps c0)).
  { unfold evaluate_path. replace (length (x :: y :: p) <=? 1) with false by (symmetry; apply Nat.leb_gt; cbn; lia).
    replace (length (x :: y :: p) - 1) with (length (y :: p)) by (cbn; lia).
    assert (G : forall (t l : list nat) h acc, (forall v, In v (l ++ h :: t) -> v < a_dim a) ->
      foldM (fun acc from => x0 <- nth_res (l ++ h :: t) from ;; y0 <- nth_res (l ++ h :: t) (from + 1) ;; cost0 <- a_get a x0 y0 ;; Ok (cadd acc cost0)) (seq (length l) (length t)) acc
      = Ok (fold_left (fun acc e => cadd acc (cost (fst e) (snd e))) (combine (h :: t) t) acc)).
    { induction t as [|z t IH]; intros l h acc Hv; [reflexivity|]. cbn [length seq foldM].
      rewrite (nth_res_nth _ _ 0) by (rewrite app_length; cbn; lia). rewrite app_nth2, Nat.sub_diag by lia. cbn [nth bind].
      rewrite (nth_res_nth _ _ 0) by (rewrite app_length; cbn; lia). rewrite app_nth2 by lia. replace (length l + 1 - length l) with 1 by lia. cbn [nth bind].
      rewrite Hget by (apply Hv, in_or_app; right; cbn; auto). cbn [bind].
      specialize (IH (l ++ [h]) z (cadd acc (cost h z))). rewrite <- app_assoc in IH. cbn [app] in IH. rewrite app_length in IH. cbn [length] in IH.
      rewrite (Nat.add_comm (length l) 1) in IH. cbn [plus] in IH. rewrite IH; [reflexivity|]. intros v Hin. apply Hv. exact Hin. }
    apply (G (y :: p) [] x). exact Hr. }
  split; [exact Hp|]. unfold evaluate_circle. rewrite Hp. replace (length (x :: y :: p) <=? 1) with false by (symmetry; apply Nat.leb_gt; cbn; lia).
  rewrite (last_res_last _ 0) by discriminate. rewrite (first_res_hd _ 0) by discriminate. cbn [bind hd].
  change (last (x :: y :: p) 0) with (last (y :: p) 0). rewrite Hget; [|apply Hr; right; apply last_In; discriminate|apply Hr; left; reflexivity].
  cbn [bind]. do 3 f_equal. apply last_default. discriminate.
Qed.
Print Assumptions C36_sum_of_steps.

Theorem C36_no_step : forall (N : Num) (a : adj N) p, length p <= 1 -> evaluate_path a p = Ok c0 /\ evaluate_circle a p = Ok c0.
Proof. intros N a p H. unfold evaluate_path, evaluate_circle. rewrite (proj2 (Nat.leb_le _ _) H). auto. Qed.
Print Assumptions C36_no_step.

(** Exact arithmetic: the cost of the closed tour; any list of vertices, also with
    repetitions. *)
Lemma circle_exact {N B} (E : Exact N B) n w W p : bounded w n W -> (W * Z.of_nat (length p) <= B)%Z -> 2 <= length p -> Forall (fun v => v < n) p ->
  evaluate_circle (na_adj (emb_matrix E n w)) p = Ok (inj E (tour_cost w p)).
Proof.
  intros HW HB Hl Hr. rewrite Forall_forall in Hr. assert (Hne : p <> []) by (intros ->; cbn in Hl; lia).
  assert (Hh : In (hd 0 p) p) by (destruct p; [congruence|left; reflexivity]).
  assert (W0 : (0 <= W)%Z) by (specialize (HW _ _ (Hr _ Hh) (Hr _ Hh)); lia).
  assert (Hcell : forall i j, i < n -> j < n -> cell_ok E (na_adj (emb_matrix E n w)) w W i j).
  { intros i j Hi Hj. split; [|apply HW; assumption]. exact (matrix_of_get n (fun i j => inj E (w i j)) i j Hi Hj). }
  apply (evaluate_circle_exact E _ w W); try assumption.
  - intros k Hk. apply Hcell; apply Hr, nth_In; lia.
  - apply Hcell; apply Hr; [apply last_In|]; assumption.
Qed.

Theorem C36_circle_is_tour_cost : forall n w p, 2 <= length p -> Forall (fun v => v < n) p ->
  evaluate_circle (na_adj (int_matrix n w)) p = Ok (Fin (tour_cost w p)).
Proof.
  intros n w p Hl Hr. destruct (bound_exists w n) as (W & HW & W0).
  exact (circle_exact (EZ_exact (W * Z.of_nat (length p))) n w W p HW (Z.le_refl _) Hl Hr).
Qed.
Print Assumptions C36_circle_is_tour_cost.

Theorem C36_circle_f64 : forall e n w W p, (-1074 <= e <= 970)%Z -> bounded w n W -> (W * Z.of_nat (length p) <= 2 ^ 53)%Z ->
  2 <= length p -> Forall (fun v => v < n) p ->
  evaluate_circle (na_adj (f64_matrix e n w)) p = Ok (b64_inj e (tour_cost w p)).
Proof. intros e n w W p He HW HB Hl Hr. exact (circle_exact (B64_exact e He) n w W p HW HB Hl Hr). Qed.
Print Assumptions C36_circle_f64.

Theorem C36_rotation : forall n w p q, Forall (fun v => v < n) (p ++ q) ->
  evaluate_circle (na_adj (int_matrix n w)) (p ++ q) = evaluate_circle (na_adj (int_matrix n w)) (q ++ p).
Proof.
  intros n w p q Hr. destruct (Nat.le_gt_cases (length (p ++ q)) 1) as [Hs|Hl].
  - rewrite (proj2 (C36_no_step _ _ _ Hs)). symmetry. apply C36_no_step. rewrite app_length in *. lia.
  - rewrite !C36_circle_is_tour_cost; [f_equal; f_equal; apply tour_cost_rot|rewrite app_length in *; lia| |lia|assumption].
    apply Forall_app in Hr. apply Forall_app. tauto.
Qed.
Print Assumptions C36_rotation.

Theorem C36_reversal : forall n w p, symmetric w n -> Forall (fun v => v < n) p ->
  evaluate_circle (na_adj (int_matrix n w)) (rev p) = evaluate_circle (na_adj (int_matrix n w)) p.
Proof.
  intros n w p Hs Hr. destruct (Nat.le_gt_cases (length p) 1) as [Hsm|Hl].
  - rewrite (proj2 (C36_no_step _ _ _ Hsm)). apply C36_no_step. rewrite rev_length. assumption.
  - rewrite !C36_circle_is_tour_cost; [f_equal; f_equal; apply (tour_cost_rev w n); assumption|lia|assumption|rewrite rev_length; lia|].
    apply Forall_rev. assumption.
Qed.
Print Assumptions C36_reversal.

Example C36_applies : evaluate_circle (na_adj (int_matrix 3 (table [[0;1;2];[1;0;4];[2;4;0]]%Z))) [2;0;1] = Ok (Fin 7%Z) /\
  evaluate_circle (na_adj (int_matrix 3 (table [[0;1;2];[1;0;4];[2;4;0]]%Z))) [1;2;0] = Ok (Fin 7%Z).
Proof. split; vm_compute; reflexivity. Qed.

(** ** C37: is_metric *)
(** Any arithmetic: what is tested, for every matrix.  [ceps] is the tolerance; only the pairs
    with [i <= j] are looked at. *)
Theorem C37_what_is_tested : forall (N : Num) (a : adj N) (cost : nat -> nat -> C N),
  (forall i j, i < a_dim a -> j < a_dim a -> a_get a i j = Ok (cost i j)) ->
  (is_metric a = Ok true \/ is_metric a = Ok false) /\
  (is_metric a = Ok true <-> forall i j k, i <= j -> j < a_dim a -> k < a_dim a ->
     clt (cadd (cadd (cost i k) (cost k j)) ceps) (cost i j) = false).
Proof.
  intros N a cost H. destruct (is_metric_iff a cost H) as [(b & E) Hiff]. split; [|exact Hiff]. rewrite E. destruct b; auto.
Qed.
Print Assumptions C37_what_is_tested.

Theorem C37_decides_triangle : forall n w, symmetric w n ->
  (is_metric (na_adj (int_matrix n w)) = Ok true <-> triangle w n) /\
  (is_metric (na_adj (int_matrix n w)) = Ok false <-> ~ triangle w n).
Proof.
  intros n w Hs.
  destruct (C37_what_is_tested EZ (na_adj (int_matrix n w)) (fun i j => Fin (w i j))) as [Hb Hiff].
  { intros i j Hi Hj. exact (matrix_of_get n (fun i j => Fin (w i j) : C EZ) i j Hi Hj). }
  assert (H : is_metric (na_adj (int_matrix n w)) = Ok true <-> triangle w n).
  { rewrite Hiff. change (a_dim (na_adj (int_matrix n w))) with n. split.
    - intros H i j k Hi Hj Hk. destruct (Nat.le_ge_cases i j) as [L|L].
      + specialize (H i j k L Hj Hk). change ((w i k + w k j + 0 <? w i j)%Z = false) in H. lia.
      + specialize (H j i k L Hi Hk). change ((w j k + w k i + 0 <? w j i)%Z = false) in H. rewrite (Hs j k), (Hs k i), (Hs j i) in H by assumption. lia.
    - intros H i j k L Hj Hk. change ((w i k + w k j + 0 <? w i j)%Z = false). specialize (H i j k ltac:(lia) Hj Hk). lia. }
  split; [exact H|]. rewrite <- H. destruct Hb as [-> | ->]; split; intros; try discriminate; try reflexivity; intuition congruence.
Qed.
Print Assumptions C37_decides_triangle.

(** Doubles: a matrix of finite doubles whose values satisfy the triangle inequality exactly is
    accepted (for every rounding and overflow of the sums) ... *)
Theorem C37_accepts_f64 : forall n (x : nat -> nat -> C B64), (forall i j, i < n -> j < n -> fin (x i j)) ->
  (forall i j k, i < n -> j < n -> k < n -> (r64 (x i j) <= r64 (x i k) + r64 (x k j))%R) ->
  is_metric (na_adj (matrix_of n x)) = Ok true.
Proof.
  intros n x Hf Ht. apply (C37_what_is_tested B64 (na_adj (matrix_of n x)) x).
  { intros i j Hi Hj. exact (matrix_of_get n x i j Hi Hj). }
  change (a_dim (na_adj (matrix_of n x))) with n. intros i j k L Hj Hk. apply test_passes; [apply Hf; lia|apply Hf; lia|apply Hf; lia|apply Ht; lia].
Qed.
Print Assumptions C37_accepts_f64.

(** ... and for costs that are multiples of [2^e], [e >= -32] (the tolerance is below half a
    unit), the test decides the triangle inequality. *)
Theorem C37_decides_triangle_f64 : forall e n w W, (-32 <= e <= 970)%Z -> bounded w n W -> (4 * W + 1 <= 2 ^ 53)%Z -> symmetric w n ->
  (is_metric (na_adj (f64_matrix e n w)) = Ok true <-> triangle w n) /\
  (is_metric (na_adj (f64_matrix e n w)) = Ok false <-> ~ triangle w n).
Proof.
  intros e n w W He HW HB Hs. assert (He' : (-1074 <= e <= 970)%Z) by lia.
  destruct (C37_what_is_tested B64 (na_adj (f64_matrix e n w)) (fun i j => b64_inj e (w i j))) as [Hb Hiff].
  { intros i j Hi Hj. exact (matrix_of_get n (fun i j => b64_inj e (w i j) : C B64) i j Hi Hj). }
  assert (Hin : forall z, (Z.abs z <= 2 ^ 53)%Z -> fin (b64_inj e z) /\ r64 (b64_inj e z) = val e z) by (intros z Hz; destruct (inj_correct e He' z Hz) as (A & B & _); auto).
  assert (Htest : forall i j k, i < n -> j < n -> k < n ->
    @clt B64 (@cadd B64 (@cadd B64 (b64_inj e (w i k)) (b64_inj e (w k j))) ceps) (b64_inj e (w i j)) = false <-> (w i j <= w i k + w k j)%Z).
  { intros i j k Hi Hj Hk. pose proof (HW i k Hi Hk). pose proof (HW k j Hk Hj). pose proof (HW i j Hi Hj).
    destruct (Hin (w i k) ltac:(lia)) as [F1 V1]. destruct (Hin (w k j) ltac:(lia)) as [F2 V2]. destruct (Hin (w i j) ltac:(lia)) as [F3 V3].
    split.
    - intros Ht. destruct (Z.le_gt_cases (w i j) (w i k + w k j)) as [L|L]; [assumption|]. exfalso.
      destruct (inj_correct (e - 1) ltac:(lia) (2 * (w i k + w k j) + 1) ltac:(lia)) as (Vz & Fz & _).
      destruct (Hin (w i k + w k j)%Z ltac:(lia)) as [Fs Vs]. pose proof (b64_inj_add e He' (w i k) (w k j) ltac:(lia) ltac:(lia) ltac:(lia)) as Ea.
      assert (Hv : forall z, val e z = (IZR z * bpow radix2 e)%R) by reflexivity.
      assert (Hv1 : forall z, val (e - 1) z = (IZR z * bpow radix2 (e - 1))%R) by reflexivity.
      assert (Hpow : bpow radix2 e = (2 * bpow radix2 (e - 1))%R).
      { replace e with (1 + (e - 1))%Z at 1 by lia. rewrite bpow_plus. reflexivity. }
      pose proof (bpow_gt_0 radix2 (e - 1)) as Hpos. pose proof eps_val as [_ Heps].
      assert (Hsmall : (bpow radix2 (-33) <= bpow radix2 (e - 1))%R) by (apply bpow_le; lia).
      pose proof (test_fails (b64_inj e (w i k)) (b64_inj e (w k j)) (b64_inj e (w i j)) (b64_inj (e - 1) (2 * (w i k + w k j) + 1)) F1 F2 F3 Fz) as Hx.
      change (b64_cmp_lt (b64_plus BinarySingleNaN.mode_NE (b64_plus BinarySingleNaN.mode_NE (b64_inj e (w i k)) (b64_inj e (w k j))) b64_eps) (b64_inj e (w i j)) = false) in Ht.
      rewrite Hx in Ht; [discriminate| | | |].
      + rewrite Ea, Vs, V1, V2, <- val_add. reflexivity.
      + rewrite Ea. assumption.
      + unfold r64 at 4. rewrite Vz, V1, V2, val_add, Hv, Hv1, Hpow. rewrite (plus_IZR (2 * _)), mult_IZR. set (q := IZR (w i k + w k j)). nra.
      + unfold r64 at 1. rewrite Vz, V3, Hv, Hv1, Hpow. rewrite <- Rmult_assoc. apply Rmult_lt_compat_r; [assumption|]. rewrite (Rmult_comm (IZR (w i j))), <- mult_IZR. apply IZR_lt. lia.
    - intros L. apply test_passes; [assumption..|]. rewrite V1, V2, V3, val_add. unfold val, F2R. cbn [Fnum Fexp].
      apply Rmult_le_compat_r; [apply bpow_ge_0|]. apply IZR_le. assumption. }
  assert (H : is_metric (na_adj (f64_matrix e n w)) = Ok true <-> triangle w n).
  { rewrite Hiff. change (a_dim (na_adj (f64_matrix e n w))) with n. split.
    - intros H i j k Hi Hj Hk. destruct (Nat.le_ge_cases i j) as [L|L].
      + specialize (H i j k L Hj Hk). apply Htest in H; try assumption.
      + specialize (H j i k L Hi Hk). apply Htest in H; try assumption. rewrite (Hs j k), (Hs k i), (Hs j i) in H by assumption. lia.
    - intros H i j k L Hj Hk. apply Htest; try assumption; [lia|]. apply H; lia. }
  split; [exact H|]. rewrite <- H. destruct Hb as [-> | ->]; split; intros; try discriminate; try reflexivity; intuition congruence.
Qed.
Print Assumptions C37_decides_triangle_f64.

(** Without symmetry the pairs [i > j] are not looked at. *)
Theorem C37_asymmetric_refuted : exists n w, is_metric (na_adj (int_matrix n w)) = Ok true /\ ~ triangle w n.
Proof.
  exists 3, (table [[0;1;1];[1;0;1];[9;1;0]]%Z). split; [vm_compute; reflexivity|].
  intros H. specialize (H 2 0 1 ltac:(lia) ltac:(lia) ltac:(lia)). vm_compute in H. apply H. reflexivity.
Qed.
Print Assumptions C37_asymmetric_refuted.

Example C37_applies : symmetric (table [[0;1;2];[1;0;3];[2;3;0]]%Z) 3 /\ triangle (table [[0;1;2];[1;0;3];[2;3;0]]%Z) 3.
Proof. concrete. Qed.

(** ** C39: is_hamiltonian_cycle *)
(** Under the documented assumption that the path ends where it starts. *)
Theorem C39_decides_cycles : forall n a q, is_hamiltonian_cycle (a :: q ++ [a]) n = true <-> is_tour n (a :: q).
Proof.
  intros n a q. rewrite is_hamiltonian_iff. unfold is_tour. split.
  - assert (Hc : count_occ Nat.eq_dec (a :: q ++ [a]) a >= 2).
    { cbn [count_occ]. rewrite count_occ_app. cbn [count_occ]. destruct (Nat.eq_dec a a); [lia|congruence]. }
    intros [H|(v & Hv & H)].
    + exfalso. rewrite (proj1 (Permutation_count_occ Nat.eq_dec _ _) H), count_seq in Hc. destruct (a <? n); lia.
    + assert (v = a) as ->.
      { rewrite (proj1 (Permutation_count_occ Nat.eq_dec _ _) H) in Hc. cbn [count_occ] in Hc. rewrite count_seq in Hc. destruct (Nat.eq_dec v a); [assumption|]. destruct (a <? n); lia. }
      apply Permutation_cons_inv in H. rewrite <- H. apply Permutation_cons_append.
  - intros H. right. exists a. split; [assert (In a (a :: q)) as Hin by (left; reflexivity); apply (Permutation_in _ H) in Hin; apply in_seq in Hin; lia|].
    apply perm_skip. rewrite <- H. symmetry. apply Permutation_cons_append.
Qed.
Print Assumptions C39_decides_cycles.

(** What it accepts in general: every vertex once, or one of them twice. *)
Theorem C39_accepts : forall p n, is_hamiltonian_cycle p n = true <->
  Permutation p (seq 0 n) \/ exists v, v < n /\ Permutation p (v :: seq 0 n).
Proof. exact is_hamiltonian_iff. Qed.
Print Assumptions C39_accepts.

(** So without the assumption paths are accepted that are not closed. *)
Theorem C39_open_path_refuted : exists p n, is_hamiltonian_cycle p n = true /\ hd 0 p <> last p 0.
Proof. exists [0;1;1], 2. split; [reflexivity|discriminate]. Qed.
Print Assumptions C39_open_path_refuted.

Example C39_applies : is_hamiltonian_cycle (2 :: [0;1] ++ [2]) 3 = true /\ is_hamiltonian_cycle (2 :: [0;0] ++ [2]) 3 = false.
Proof. split; reflexivity. Qed.
