(** C78: the reference script NN_approx.py and the nearest-neighbour heuristic agree. *)
From Coq Require Import ZArith Arith Bool List Permutation Lia.
From Verif Require Import Num NumB64 Base Data Nn Spec SpecFacts Dfs Instances PrimProofs NnProofs NnExact PyNn PyNnSpec PyNnProofs.
Import ListNotations.

(** Whatever the order of iteration of a Python set is, the script prints a tour that starts where it should, goes to a nearest
    vertex each time, and its length. *)
Theorem C78_any_order : forall order w n s, (forall xs, Permutation (order xs) xs) -> s < n ->
  exists p, tsp_nearest_neighbour order w n s = Ok (p, tour_cost w p) /\ is_tour n p /\ hd 0 p = s /\ greedy_tour w n p.
Proof.
  intros order w n s Ho Hs. apply (py_nn_spec order Ho w n (fun a b v => (w a b <= w a v)%Z)); [|exact Hs].
  intros cur path v E u Hu Hn.
  destruct (py_min_spec (w cur) (order (left_over n path))) as (v' & E1 & _ & H); [intros H0; rewrite H0 in E; discriminate|].
  assert (v' = v) by congruence. subst v'. apply H. apply (Permutation_in u (Permutation_sym (Ho _))), left_over_In. auto.
Qed.
Print Assumptions C78_any_order.

(** In increasing order, as CPython does it, ties go to the smallest number ... *)
Theorem C78_trace : forall w n s, s < n ->
  exists p, tsp_nearest_neighbour increasing w n s = Ok (p, tour_cost w p) /\ is_tour n p /\ hd 0 p = s /\ first_nearest w n p.
Proof.
  intros w n s Hs.
  apply (py_nn_spec increasing (fun xs => Permutation_refl xs) w n
    (fun a b v => (w a b < w a v)%Z \/ w a b = w a v /\ b <= v)); [|exact Hs].
  intros cur path v E u Hu Hn. unfold increasing in E.
  destruct (py_min_spec (w cur) (left_over n path)) as (v' & E1 & _ & H); [intros H0; rewrite H0 in E; discriminate|].
  assert (v' = v) by congruence. subst v'. assert (Hin : In u (left_over n path)) by (apply left_over_In; auto).
  specialize (H u Hin). destruct (Z.eq_dec (w cur u) (w cur v)) as [Ek|Ek]; [|left; lia].
  right. split; [lia|]. apply (py_min_first (w cur) (left_over n path) v); try assumption. apply filter_sorted, seq_sorted.
Qed.
Print Assumptions C78_trace.

(** ... and there is only one tour of this kind. *)
Theorem C78_unique : forall w n p q, is_tour n p -> is_tour n q -> hd 0 p = hd 0 q ->
  first_nearest w n p -> first_nearest w n q -> p = q.
Proof. exact first_nearest_unique. Qed.
Print Assumptions C78_unique.

(** A start that is not there: the script raises KeyError, the library panics. *)
Theorem C78_bad_start : forall (N : Num) order w (m : namatrix N) s, na_dim m <= s ->
  tsp_nearest_neighbour order w (na_dim m) s = Panic /\ single_nearest_neighbour m s = Panic.
Proof.
  intros N order w m s Hs. unfold tsp_nearest_neighbour, single_nearest_neighbour.
  rewrite (proj2 (Nat.ltb_ge s (na_dim m)) Hs). split; reflexivity.
Qed.
Print Assumptions C78_bad_start.

Lemma same_generic {N B} (E : Exact N B) (O : NumOrd N) (m : namatrix N) w W s :
  na_wf m -> represents E (na_adj m) w -> bounded w (na_dim m) W -> (W * (Z.of_nat (na_dim m) + 1) <= B)%Z -> s < na_dim m ->
  exists p, tsp_nearest_neighbour increasing w (na_dim m) s = Ok (p, tour_cost w p) /\
    single_nearest_neighbour m s = Ok (inj E (tour_cost w p), p).
Proof.
  intros Hwf Hrep HW HB Hs. destruct (C78_trace w (na_dim m) s Hs) as (p & E1 & _). exists p. split; [exact E1|].
  destruct (single_exact E O m Hwf w W Hrep HW HB s Hs) as (q & E2 & _).
  assert (W0 : (0 <= W)%Z) by (pose proof (HW s s Hs Hs); lia).
  destruct (single_same E O m Hwf w) with (s := s) (p := p) (c := tour_cost w p) as (d & E3); [| |exact Hs|exact E1|].
  - intros a b Ha Hb Hab. specialize (Hrep a b Ha Hb ltac:(congruence)). cbn [na_adj a_get] in Hrep.
    rewrite na_get_val in Hrep by assumption. congruence.
  - intros a b Ha Hb. pose proof (HW a b Ha Hb). nia.
  - rewrite E2 in E3. injection E3 as <- <-. exact E2.
Qed.

(** The library's heuristic, from the same start on the same costs, returns the same tour and the same length. *)
Theorem C78_same : forall w n s, s < n ->
  exists p, tsp_nearest_neighbour increasing w n s = Ok (p, tour_cost w p) /\
    single_nearest_neighbour (int_matrix n w) s = Ok (Fin (tour_cost w p), p).
Proof.
  intros w n s Hs. destruct (EZ_bound 1 w n ltac:(lia)) as (W & B & HW & H0 & HB).
  exact (same_generic (EZ_exact B) EZ_ord (int_matrix n w) w W s (matrix_of_wf n _) (emb_represents (EZ_exact B) n w) HW
    ltac:(change (na_dim (int_matrix n w)) with n; lia) Hs).
Qed.
Print Assumptions C78_same.

Theorem C78_same_f64 : forall e w n W s, (-1074 <= e <= 970)%Z -> bounded w n W -> (W * (Z.of_nat n + 1) <= 2 ^ 53)%Z -> s < n ->
  exists p, tsp_nearest_neighbour increasing w n s = Ok (p, tour_cost w p) /\
    single_nearest_neighbour (f64_matrix e n w) s = Ok (b64_inj e (tour_cost w p), p).
Proof.
  intros e w n W s He HW HB Hs.
  exact (same_generic (B64_exact e He) B64_ord (f64_matrix e n w) w W s (matrix_of_wf n _) (emb_represents (B64_exact e He) n w) HW HB Hs).
Qed.
Print Assumptions C78_same_f64.

(** The printed Rust code stands for a graph whose matrix has the costs of the script's matrix, except that a cost of zero
    becomes infinity: the edge is left out. *)
Theorem C78_printed : forall (N : Num) (f : Z -> C N) w n,
  exists m, na_from_graph (convert_to_rust_code f w n) = Ok m /\ na_dim m = n /\
    forall i j, i < n -> j < n -> na_get m i j = Ok (if i =? j then c0 else if (w i j =? 0)%Z then cinf else f (w i j)).
Proof.
  intros N f w n. destruct (rust_code_matrix f w n) as (m & E & W & D & V). exists m. split; [exact E|]. split; [exact D|].
  intros i j Hi Hj. rewrite na_get_val by (try assumption; lia). rewrite V by assumption. reflexivity.
Qed.
Print Assumptions C78_printed.

(** The script's own matrices have no such cost: off the diagonal they are between 1 and 9 and symmetric. *)
Theorem C78_matrix : forall a, (forall i j, 1 <= a i j <= 9)%Z ->
  forall i j, generate_graph_matrix a i i = 0%Z /\ (i <> j -> (1 <= generate_graph_matrix a i j <= 9)%Z) /\
    generate_graph_matrix a i j = generate_graph_matrix a j i.
Proof.
  intros a Ha i j. unfold generate_graph_matrix. rewrite Nat.eqb_refl. split; [reflexivity|]. split.
  - intros Hij. rewrite (proj2 (Nat.eqb_neq i j) Hij), (proj2 (Nat.eqb_neq j i) (not_eq_sym Hij)).
    pose proof (Ha i j). pose proof (Ha j i). split; [apply Z.div_le_lower_bound|apply Z.div_le_upper_bound]; lia.
  - f_equal. apply Z.add_comm.
Qed.
Print Assumptions C78_matrix.

(** So for every outcome of the random numbers, what the script prints for a start is what the library returns for it on the
    printed graph. *)
Theorem C78_script : forall a n s, (forall i j, 1 <= a i j <= 9)%Z -> (Z.of_nat n < 2 ^ 49)%Z -> s < n ->
  let w := generate_graph_matrix a in
  exists m p, na_from_graph (convert_to_rust_code (b64_inj 0 : Z -> C B64) w n) = Ok m /\
    tsp_nearest_neighbour increasing w n s = Ok (p, tour_cost w p) /\
    single_nearest_neighbour m s = Ok (b64_inj 0 (tour_cost w p), p).
Proof.
  intros a n s Ha Hn Hs w. assert (He : (-1074 <= 0 <= 970)%Z) by lia.
  destruct (rust_code_matrix (b64_inj 0 : Z -> C B64) w n) as (m & E & W & D & V). subst n.
  destruct (same_generic (B64_exact 0 He) B64_ord m w 9 s W) as (p & E1 & E2).
  - intros i j Hi Hj Hij. cbn [na_adj a_dim a_get] in *. rewrite na_get_val by assumption. rewrite V by assumption. f_equal.
    destruct (Nat.eqb_spec i j) as [->|Hne].
    + unfold w. rewrite (proj1 (C78_matrix a Ha j j)). apply (inj_0 B64 _ (B64_exact 0 He)).
    + destruct (C78_matrix a Ha i j) as (_ & H & _). specialize (H Hne). fold w in H.
      rewrite (proj2 (Z.eqb_neq (w i j) 0)) by lia. reflexivity.
  - intros i j _ _. destruct (C78_matrix a Ha i j) as (H0 & H & _). fold w in H, H0.
    destruct (Nat.eq_dec i j) as [<-|Hne]; [rewrite H0; cbn; lia|]. specialize (H Hne). lia.
  - lia.
  - exact Hs.
  - exists m, p. auto.
Qed.
Print Assumptions C78_script.

(** With another order of iteration the script could print another tour, of another length. *)
Definition tied (i j : nat) : Z :=
  match i, j with
  | 0%nat, 0%nat | 1%nat, 1%nat | 2%nat, 2%nat | 3%nat, 3%nat => 0
  | 0%nat, 3%nat | 3%nat, 0%nat => 5
  | 1%nat, 2%nat | 2%nat, 1%nat => 2
  | 1%nat, 3%nat | 3%nat, 1%nat => 3
  | 2%nat, 3%nat | 3%nat, 2%nat => 9
  | _, _ => 1
  end%Z.
Theorem C78_order_refuted : exists w n p c p' c', (forall i j, w i j = w j i) /\
  tsp_nearest_neighbour increasing w n 0 = Ok (p, c) /\
  tsp_nearest_neighbour (@rev nat) w n 0 = Ok (p', c') /\ c <> c'.
Proof.
  exists tied, 4. do 4 eexists. split; [intros [|[|[|[|]]]] [|[|[|[|]]]]; reflexivity|].
  split; [vm_compute; reflexivity|]. split; [vm_compute; reflexivity|]. discriminate.
Qed.
Print Assumptions C78_order_refuted.

Example C78_applies :
  tsp_nearest_neighbour increasing tied 4 0 = Ok ([0; 1; 2; 3], 17%Z) /\
  single_nearest_neighbour (int_matrix 4 tied) 0 = Ok (Fin 17, [0; 1; 2; 3]) /\
  (forall i j : nat, (1 <= 1 + Z.of_nat ((i + 3 * j) mod 9) <= 9)%Z).
Proof.
  split; [vm_compute; reflexivity|]. split; [vm_compute; reflexivity|]. intros i j.
  pose proof (Nat.mod_upper_bound (i + 3 * j) 9 ltac:(lia)). lia.
Qed.
