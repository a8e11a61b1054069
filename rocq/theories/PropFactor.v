(** C60: how long the tours of the nearest-neighbour heuristic can be when the triangle inequality
    holds; and the factors that remain for the fourth solver (C05) and for Christofides'
    algorithm as it is run (C47). *)
From Coq Require Import ZArith Arith Bool List Permutation Lia Reals Lra.
From Verif Require Import Num NumB64 Base Spec SpecFacts Data Precond Mst Par MstPar Rand Nn Matching Christofides Exact Dfs Cli PrimProofs MstFacts PermProofs
  MatchingProofs ChristofidesProofs ChristofidesExact SlackProofs RatioProofs FourthProofs Units RoundProofs Instances Points PointsProofs
  PropExact PropNn PropData PropPoints PropChristofides PropRound PropRatio PropCli Generator PropGenerator PropCliRound.
Import ListNotations.
Local Open Scope nat_scope.

(** [ceil_log2 n] is the least [k] with [n <= 2^k]. *)
Definition ceil_log2 (n : nat) : nat := Nat.log2_up n.
Lemma ceil_log2_spec : forall n k, 1 <= n -> (n <= 2 ^ k <-> ceil_log2 n <= k).
Proof.
  intros n k Hn. unfold ceil_log2. destruct (Nat.eq_dec n 1) as [->|H1].
  - rewrite Nat.log2_up_1. pose proof (Nat.pow_nonzero 2 k). split; intros; lia.
  - split; intros H; [apply Nat.log2_up_le_pow2; lia|apply Nat.log2_up_le_pow2; lia].
Qed.

(** ** C60: the nearest-neighbour heuristic *)
(** [p] costs at most [(ceil_log2 n + 1) / 2] times any tour. *)
Definition log_factor (w : nat -> nat -> Z) (n : nat) (p : list nat) : Prop :=
  forall q, is_tour n q -> (2 * tour_cost w p <= (Z.of_nat (ceil_log2 n) + 1) * tour_cost w q)%Z.

Lemma greedy_log w n p : 2 <= n -> symmetric w n -> triangle w n -> is_tour n p -> greedy_tour w n p -> log_factor w n p.
Proof.
  intros Hn Hs Ht Hp Hg q Hq. assert (H0d : triangle_up_to w n 0) by (intros i j k Hi Hj Hk; specialize (Ht i j k Hi Hj Hk); lia).
  pose proof (greedy_ratio w n 0%Z ltac:(lia) Hs H0d (metric_nonneg w n Hs Ht) p q Hn Hp Hg Hq). unfold ceil_log2. lia.
Qed.

(** From every start, from the best of any number of starts with and without threads, and with MPI. *)
Theorem C60_log_factor : forall n w, 2 <= n -> symmetric w n -> triangle w n ->
  (forall s, s < n -> exists p, single_nearest_neighbour (int_matrix n w) s = Ok (Fin (tour_cost w p), p) /\ is_tour n p /\ log_factor w n p) /\
  (forall env mode k, mode <= 1 -> 1 <= k <= n ->
     exists p, n_nearest_neighbour env mode (int_matrix n w) k = Ok (Fin (tour_cost w p), p) /\ is_tour n p /\ log_factor w n p) /\
  (forall order tree size, 1 <= size <= n -> (forall r, r < size -> Permutation (order r) (seq 0 size)) ->
     exists p, nearest_neighbour_mpi order tree (int_matrix n w) size = Ok (repeat (Fin (tour_cost w p) : C EZ, p) size) /\ is_tour n p /\ log_factor w n p).
Proof.
  intros n w Hn Hs Ht. split; [|split].
  - intros s H. destruct (C25_exact n w s H) as (p & E & Hp & _ & Hg). exists p. split; [exact E|]. split; [exact Hp|]. apply greedy_log; assumption.
  - intros env mode k Hm Hk. destruct (C26_exact n w env mode k Hm Hk) as (st & p & _ & _ & _ & E & Hp & _ & Hg & _).
    exists p. split; [exact E|]. split; [exact Hp|]. apply greedy_log; assumption.
  - intros order tree size Hsz Ho. destruct (C27_mpi_is_seq n w order tree size (mkNnEnv (fun _ => 0) RLeaf) Hsz Ho) as (c & p & q & E & Hp & Hc & Hg & _).
    subst c. exists p. split; [exact E|]. split; [exact Hp|]. apply greedy_log; assumption.
Qed.
Print Assumptions C60_log_factor.

Theorem C60_log_factor_f64 : forall e n w W, (-1074 <= e <= 970)%Z -> bounded w n W -> (W * (Z.of_nat n + 1) <= 2 ^ 53)%Z ->
  2 <= n -> symmetric w n -> triangle w n ->
  (forall s, s < n -> exists p, single_nearest_neighbour (f64_matrix e n w) s = Ok (b64_inj e (tour_cost w p), p) /\ is_tour n p /\ log_factor w n p) /\
  (forall env mode k, mode <= 1 -> 1 <= k <= n ->
     exists p, n_nearest_neighbour env mode (f64_matrix e n w) k = Ok (b64_inj e (tour_cost w p), p) /\ is_tour n p /\ log_factor w n p) /\
  (forall order tree size, 1 <= size <= n -> (forall r, r < size -> Permutation (order r) (seq 0 size)) ->
     exists p, nearest_neighbour_mpi order tree (f64_matrix e n w) size = Ok (repeat (b64_inj e (tour_cost w p), p) size) /\ is_tour n p /\ log_factor w n p).
Proof.
  intros e n w W He HW HB Hn Hs Ht. split; [|split].
  - intros s H. destruct (C25_exact_f64 e n w W s He HW HB H) as (p & E & Hp & _ & Hg). exists p. split; [exact E|]. split; [exact Hp|]. apply greedy_log; assumption.
  - intros env mode k Hm Hk. destruct (C26_exact_f64 e n w W env mode k He HW HB Hm Hk) as (st & p & _ & _ & _ & E & Hp & _ & Hg & _).
    exists p. split; [exact E|]. split; [exact Hp|]. apply greedy_log; assumption.
  - intros order tree size Hsz Ho. destruct (C27_exact_f64 e n w W order tree size He HW HB Hsz Ho) as (p & E & Hp & Hg & _).
    exists p. split; [exact E|]. split; [exact Hp|]. apply greedy_log; assumption.
Qed.
Print Assumptions C60_log_factor_f64.

(** Arbitrary doubles, the triangle inequality up to a slack [d], and the whole command: the
    tour that is printed is within the factor of every tour, up to the slack of [n - 1]
    shortcuts, and the cost that is printed is its cost up to rounding. *)
Theorem C60_command_rounded : forall wd g m w d p, rounded_document g m w -> 3 <= na_dim m ->
  (0 <= d)%Z -> triangle_up_to w (na_dim m) d -> fitting wd (na_dim m) p ->
  exists x t, only_outcome wd (ApproxCmd NearestNeighbour p None) g (mkOut (repeat [NnWeight x; NnSolution t] (processes wd p)) Done) /\
    is_tour (na_dim m) t /\ rounded (na_dim m) x (tour_cost w t) /\
    forall q, is_tour (na_dim m) q ->
      (2 * tour_cost w t <= (Z.of_nat (ceil_log2 (na_dim m)) + 1) * (tour_cost w q + (Z.of_nat (na_dim m) - 1) * d))%Z.
Proof.
  intros wd g m w d p Hdoc Hn Hd Ht Hf. destruct (C59_runs wd g m w Hdoc Hn) as (_ & _ & H & _).
  destruct (H p Hf) as (x & t & Ho & Htour & Hg & Hr). exists x, t. split; [exact Ho|]. split; [exact Htour|]. split; [exact Hr|].
  intros q Hq. destruct Hdoc as (_ & _ & _ & (Hnn & _) & Hs).
  exact (greedy_ratio w (na_dim m) d Hd Hs Ht Hnn t q ltac:(lia) Htour Hg Hq).
Qed.
Print Assumptions C60_command_rounded.

(** For the documents of the generator the slack is at most [2^-32 = 2^1042 * 2^-1074]. *)
Theorem C60_generated : forall n rest draws wd p, random_bits draws -> (Z.of_nat n <= 2 ^ 50)%Z -> apart (generated_points n draws) -> 3 <= n ->
  fitting wd n p ->
  exists g m w x t, generator_main (Some n :: rest) draws = Ok (Written g) /\ rounded_document g m w /\ na_dim m = n /\
    only_outcome wd (ApproxCmd NearestNeighbour p None) g (mkOut (repeat [NnWeight x; NnSolution t] (processes wd p)) Done) /\
    is_tour n t /\ rounded n x (tour_cost w t) /\
    forall q, is_tour n q -> (2 * tour_cost w t <= (Z.of_nat (ceil_log2 n) + 1) * (tour_cost w q + (Z.of_nat n - 1) * 2 ^ 1042))%Z.
Proof.
  intros n rest draws wd p Hr Hsmall Hap Hn Hf. set (ps := generated_points n draws) in *.
  destruct (C58_points n draws Hr) as (Hl & Hfin & Hw & _). fold ps in Hl, Hfin, Hw.
  destruct (C58_accepted_iff_apart n rest draws Hr) as (g & Eg & Lg & Hacc & _). destruct (Hacc Hap) as (Hp & m & Em & Ep & Hmet). fold ps in Ep.
  assert (Hw' : coords_within ps 16384) by (intros v Hv; destruct (Hw v Hv); lra).
  destruct (C56_points ps m false ex_menv (mkFillEnv [] []) 0 (fun _ _ => Panic) Hfin Hw' Ep ltac:(lia) ltac:(rewrite Hl; exact Hsmall) ltac:(lia)) as (w & Hv & Hm & Hs & Ht & _).
  rewrite Hl in *. assert (Hdim : na_dim m = n) by (destruct (C38_f64 ps Hfin) as (m' & E' & _ & D & _); rewrite Ep in E'; injection E' as <-; lia).
  assert (Hdoc : rounded_document g m w) by (split; [exact Hp|]; split; [exact Em|]; split; [exact Hv|]; rewrite Hdim; auto).
  destruct (C60_command_rounded wd g m w (2 ^ 1042)%Z p Hdoc) as (x & t & Ho & Htour & Hrd & Hq); try (rewrite Hdim; assumption); [vm_compute; discriminate|].
  rewrite Hdim in *. exists g, m, w, x, t. auto 10.
Qed.
Print Assumptions C60_generated.

(** On this instance the tour from vertex 0 costs 24 and the optimum 22. *)
Definition ex_nn : nat -> nat -> Z := fun i j => Z.abs (nth i [0; 1; -2; 4; -7]%Z 0%Z - nth j [0; 1; -2; 4; -7]%Z 0%Z).
Example C60_applies : symmetric ex_nn 5 /\ triangle ex_nn 5 /\ ceil_log2 5 = 3 /\ log_factor ex_nn 5 [0; 1; 2; 4; 3] /\
  single_nearest_neighbour (int_matrix 5 ex_nn) 0 = Ok (Fin 24%Z, [0; 1; 2; 4; 3]) /\ tour_cost ex_nn [0; 1; 3; 4; 2] = 22%Z.
Proof.
  assert (Hs : symmetric ex_nn 5) by (intros i j _ _; unfold ex_nn; lia).
  assert (Ht : triangle ex_nn 5) by (intros i j k _ _ _; unfold ex_nn; lia).
  split; [exact Hs|]. split; [exact Ht|]. split; [reflexivity|].
  assert (E : single_nearest_neighbour (int_matrix 5 ex_nn) 0 = Ok (Fin 24%Z, [0; 1; 2; 4; 3])) by (vm_compute; reflexivity).
  split; [|split; [exact E|vm_compute; reflexivity]].
  destruct (proj1 (C60_log_factor 5 ex_nn ltac:(lia) Hs Ht) 0 ltac:(lia)) as (p & Ep & _ & H). assert (p = [0; 1; 2; 4; 3]) by congruence. subst p. exact H.
Qed.

(** ** C05: what remains for the fourth solver *)
(** With the triangle inequality the tour of V4 costs at most [ceil_log2 (n - 2) / 2 + 1] times any
    tour.  (Missing: optimality, which is false; instances without the triangle inequality.) *)
Theorem C05_fourth_log_partial : forall n w, 1 <= n -> symmetric w n -> triangle w n ->
  exists c p, fourth_improved_solver (na_adj (int_matrix n w)) = Ok (Fin c, p) /\ is_tour n p /\ tour_cost w p = c /\
    forall q, is_tour n q -> (2 * c <= (Z.of_nat (ceil_log2 (n - 2)) + 2) * tour_cost w q)%Z.
Proof.
  intros n w Hn Hs Ht. destruct (EZ_bound 2 w n ltac:(lia)) as (W & B & HW & H0 & HB).
  exact (fourth_ratio (EZ_exact B) (na_adj (int_matrix n w)) w W Hn (emb_represents (EZ_exact B) n w) HW Hs Ht HB).
Qed.
Print Assumptions C05_fourth_log_partial.

Theorem C05_fourth_log_f64_partial : forall e n w W, (-1074 <= e <= 970)%Z -> 1 <= n -> symmetric w n -> triangle w n ->
  bounded w n W -> (2 * W * (Z.of_nat n + 1) <= 2 ^ 53)%Z ->
  exists c p, fourth_improved_solver (na_adj (f64_matrix e n w)) = Ok (b64_inj e c, p) /\ is_tour n p /\ tour_cost w p = c /\
    forall q, is_tour n q -> (2 * c <= (Z.of_nat (ceil_log2 (n - 2)) + 2) * tour_cost w q)%Z.
Proof.
  intros e n w W He Hn Hs Ht HW HB.
  exact (fourth_ratio (B64_exact e He) (na_adj (f64_matrix e n w)) w W Hn (emb_represents (B64_exact e He) n w) HW Hs Ht HB).
Qed.
Print Assumptions C05_fourth_log_f64_partial.

(** Without the triangle inequality there is no factor at all: here the tour of V4 costs 1 although
    there is a tour of cost 0. *)
Definition ex_v4_free : nat -> nat -> Z :=
  table [[0;1;2;1;0;0]; [1;0;1;0;5;0]; [2;1;0;0;0;0]; [1;0;0;0;5;5]; [0;5;0;5;0;5]; [0;0;0;5;5;0]]%Z.
Theorem C05_no_factor_refuted : exists n w c p q, symmetric w n /\ nonneg w n /\
  fourth_improved_solver (na_adj (int_matrix n w)) = Ok (Fin c, p) /\ is_tour n q /\
  forall k, (k * tour_cost w q < c)%Z.
Proof.
  exists 6, ex_v4_free, 1%Z, [0;3;1;5;2;4], [0;4;2;3;1;5].
  split; [|split; [|split; [|split]]]; [concrete..|]. intros k.
  replace (tour_cost ex_v4_free [0;4;2;3;1;5]) with 0%Z by (vm_compute; reflexivity). lia.
Qed.
Print Assumptions C05_no_factor_refuted.

(** ** C47: what remains for Christofides' algorithm as it is run *)
(** For every outcome of the random numbers, also when the matching is not perfect: at most
    [n / 2] times any tour.  (Missing: the factor 3/2, which is false; parallel mode, see C28.) *)
Theorem C47_half_n_partial : forall n w debug env fenv mt mode, 2 <= n -> mode = SEQ_COMPUTATION \/ mode = MPI_COMPUTATION ->
  symmetric w n -> triangle w n -> 1 <= mt_size mt ->
  exists p, christofides debug env fenv mt mode (int_matrix n w) = Ok (Fin (tour_cost w (0 :: p)), (0 :: p) ++ [0]) /\
    is_tour n (0 :: p) /\ forall q, is_tour n q -> (2 * tour_cost w (0%nat :: p) <= Z.of_nat n * tour_cost w q)%Z.
Proof.
  intros n w debug env fenv mt mode Hn Hmode Hs Ht Hsize. destruct (EZ_bound 2 w n ltac:(lia)) as (W & B & HW & H0 & HB).
  assert (H : hamiltonian_result (int_matrix n w) (christofides debug env fenv mt mode (int_matrix n w))).
  { assert (Hwf : na_wf (int_matrix n w)) by apply matrix_of_wf.
    assert (Hget : forall i j, i < n -> j < n -> na_get (int_matrix n w) i j = Ok (Fin (w i j) : C EZ)) by (intros; apply matrix_of_get; assumption).
    destruct Hmode as [-> | ->].
    - apply (C28_sequential EZ EZ_ord (int_matrix n w) (fun i j => Fin (w i j))); try assumption; [reflexivity|cbn; lia|intros _; apply metric_EZ; assumption].
    - apply (C28_mpi EZ EZ_ord (int_matrix n w) (fun i j => Fin (w i j))); try assumption; [reflexivity|intros _; apply metric_EZ; assumption]. }
  destruct H as (c & p & E & Hp & He & _). change (na_dim (int_matrix n w)) with n in *.
  rewrite (closed_exact (EZ_exact B) (int_matrix n w) ltac:(cbn; lia) w W (emb_represents (EZ_exact B) n w) HW HB p c Hp He) in E.
  exists p. split; [exact E|]. split; [exact Hp|]. intros q Hq.
  assert (H0d : triangle_up_to w n 0) by (intros i j k Hi Hj Hk; specialize (Ht i j k Hi Hj Hk); lia).
  pose proof (tour_half_n w n 0%Z ltac:(lia) Hs H0d (metric_nonneg w n Hs Ht) (0 :: p) q Hn Hp Hq). lia.
Qed.
Print Assumptions C47_half_n_partial.

(** When the matching of the code pairs up the odd vertices (see C30): at most [1 + k / 4] times
    any tour for [k] odd vertices of the tree; for two of them this is 3/2. *)
Theorem C47_quarter_partial : forall n w debug env fenv mt mode, 2 <= n -> mode <= 2 -> symmetric w n -> triangle w n ->
  (forall mst, prim env mode (int_matrix n w) = Ok mst -> exists M, compute_approx_matching mt mode mst (int_matrix n w) = Ok M /\ perfect_matching (odd_in mst) M) ->
  exists mst p, prim env mode (int_matrix n w) = Ok mst /\
    christofides debug env fenv mt mode (int_matrix n w) = Ok (Fin (tour_cost w (0 :: p)), (0 :: p) ++ [0]) /\
    is_tour n (0 :: p) /\ forall q, is_tour n q -> (4 * tour_cost w (0%nat :: p) <= (4 + Z.of_nat (length (odd_in mst))) * tour_cost w q)%Z.
Proof.
  intros n w debug env fenv mt mode Hn Hmode Hs Ht Hc.
  destruct (C32_tree_and_matching n w debug env fenv mode (compute_approx_matching mt mode) Hn Hmode Hs Ht Hc) as (mst & M & p & Ep & EM & E & Hp & Hb).
  exists mst, p. split; [exact Ep|]. split; [exact E|]. split; [exact Hp|]. intros q Hq.
  pose proof (metric_nonneg w n Hs Ht) as Hnn.
  assert (H0d : triangle_up_to w n 0) by (intros i j k Hi Hj Hk; specialize (Ht i j k Hi Hj Hk); lia).
  destruct (Hc mst Ep) as (M' & EM' & HM). assert (M' = M) by congruence. subst M'. clear EM'.
  destruct (EZ_bound 2 w n ltac:(lia)) as (W & B & HW & W0 & HB).
  destruct (prim_least (EZ_exact B) EZ_ord (int_matrix n w) (matrix_of_wf n _) ltac:(cbn; lia) w W (emb_represents (EZ_exact B) n w) HW HB env mode Hmode)
    as (mst' & T & Ep' & Hl & HT & Hadj & Hmin). assert (mst' = mst) by congruence. subst mst'. specialize (Hmin Hs). change (na_dim (int_matrix n w)) with n in *.
  specialize (Hb T HT Hmin).
  assert (HT1 : (edges_cost w T <= tour_cost w q)%Z).
  { assert (Hne : q <> []) by (intros ->; apply tour_length in Hq; cbn in Hq; lia).
    specialize (Hmin _ (path_spanning q (seq 0 n) Hne Hq)). rewrite path_edges_cost' in Hmin.
    pose proof (path_tour w n Hnn q (fun v Hv => proj1 (tour_In n q v Hq) Hv)). lia. }
  assert (HV : forall v, In v (odd_in mst) -> v < n).
  { intros v Hv. unfold odd_in in Hv. apply filter_In in Hv. destruct Hv as [Hv _]. apply in_seq in Hv. lia. }
  assert (HVnd : NoDup (odd_in mst)) by (apply NoDup_filter, seq_NoDup).
  assert (HM1 : (2 * edges_cost w M <= Z.of_nat (length M) * tour_cost w q)%Z).
  { pose proof (Permutation_NoDup (Permutation_sym HM) HVnd) as Hnd. assert (Hin : forall v, In v (endpoints M) -> v < n) by (intros v Hv; apply HV, (Permutation_in v HM Hv)).
    clear -Hnd Hin Hs H0d Hnn Hq. induction M as [|[a b] M IH]; [cbn; lia|].
    change (endpoints ((a, b) :: M)) with (a :: b :: endpoints M) in *. inversion Hnd as [|? ? N1 N2]; subst. inversion N2 as [|? ? N3 N4]; subst.
    specialize (IH N4 (fun v Hv => Hin v (or_intror (or_intror Hv)))).
    pose proof (edge_half w n 0%Z ltac:(lia) Hs H0d Hnn a b q Hq (Hin a (or_introl eq_refl)) (Hin b (or_intror (or_introl eq_refl))) ltac:(intros ->; apply N1; left; reflexivity)).
    change (edges_cost w ((a, b) :: M)) with (w a b + edges_cost w M)%Z. cbn [length]. lia. }
  assert (Hlen : length (odd_in mst) = 2 * length M) by (rewrite <- (Permutation_length HM); clear; induction M as [|[a b] M IH]; [reflexivity|change (endpoints ((a, b) :: M)) with (a :: b :: endpoints M); cbn [length]; lia]).
  rewrite Hlen. lia.
Qed.
Print Assumptions C47_quarter_partial.

(** ** Non-vacuity *)
Example C05_log_applies : symmetric ex_nn 5 /\ triangle ex_nn 5 /\
  exists p, fourth_improved_solver (na_adj (int_matrix 5 ex_nn)) = Ok (Fin 22%Z, p).
Proof.
  split; [intros i j _ _; unfold ex_nn; lia|]. split; [intros i j k _ _ _; unfold ex_nn; lia|]. eexists. vm_compute. reflexivity.
Qed.
(** four odd vertices *)
Definition ex_star : nat -> nat -> Z := table [[0;1;1;1]; [1;0;2;2]; [1;2;0;2]; [1;2;2;0]]%Z.
Example C47_quarter_applies : symmetric ex_star 4 /\ triangle ex_star 4 /\
  forall mst, prim ex_menv SEQ_COMPUTATION (int_matrix 4 ex_star) = Ok mst -> length (odd_in mst) = 4 /\
    exists M, compute_approx_matching (mkMtEnv (fun _ => 0) (fun _ _ _ => 0) (fun _ => []) 1) SEQ_COMPUTATION mst (int_matrix 4 ex_star) = Ok M /\ perfect_matching (odd_in mst) M.
Proof.
  split; [concrete|]. split; [concrete|].
  assert (E : exists mst, prim ex_menv SEQ_COMPUTATION (int_matrix 4 ex_star) = Ok mst /\ odd_in mst = [0; 1; 2; 3] /\
    exists M, compute_approx_matching (mkMtEnv (fun _ => 0) (fun _ _ _ => 0) (fun _ => []) 1) SEQ_COMPUTATION mst (int_matrix 4 ex_star) = Ok M /\ Permutation (endpoints M) [0; 1; 2; 3]).
  { eexists. split; [vm_compute; reflexivity|]. split; [vm_compute; reflexivity|]. eexists. split; [vm_compute; reflexivity|].
    apply NoDup_Permutation; [vm_compute; repeat constructor; cbn; lia|repeat constructor; cbn; lia|]. intros v. cbn. tauto. }
  destruct E as (mst & E1 & E2 & M & E3 & E4). intros mst' E'. assert (mst' = mst) by congruence. subst mst'. rewrite E2. split; [reflexivity|]. exists M. auto.
Qed.
