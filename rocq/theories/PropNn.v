(** C25-C27: the nearest-neighbour heuristic. *)
From Coq Require Import ZArith Arith Bool List Permutation Lia.
From Verif Require Import Num NumB64 Base Spec SpecFacts Data Par Rand MstPar Nn Exact Dfs PrimProofs PermProofs
  MstParProofs NnProofs NnExact Instances PropExact.
Import ListNotations.

(** ** C25: a greedy tour with its cost *)
(** In every arithmetic, for finite costs [cost i j] off the diagonal: the tour starts at [s],
    visits every vertex once, every step is to an unvisited vertex of least cost, and the
    reported cost is the result of evaluate_circle. *)
Theorem C25_greedy_tour : forall (N : Num) (O : NumOrd N) (m : namatrix N) (cost : nat -> nat -> C N) s,
  na_wf m -> (forall i j, i < na_dim m -> j < na_dim m -> na_get m i j = Ok (cost i j)) ->
  (forall i j, i < na_dim m -> j < na_dim m -> i <> j -> clt (cost i j) cinf = true) ->
  s < na_dim m ->
  exists c p, single_nearest_neighbour m s = Ok (c, p) /\ is_tour (na_dim m) p /\ hd 0 p = s /\
    (forall k v, S k < length p -> v < na_dim m -> ~ In v (firstn (S k) p) ->
      cle (cost (nth k p 0) (nth (S k) p 0)) (cost (nth k p 0) v) = true) /\
    (2 <= na_dim m -> evaluate_circle (na_adj m) p = Ok c) /\
    (na_dim m = 1 -> c = cadd c0 (cost 0 0)).
Proof.
  intros N O m cost s Hwf Hget Hfin Hs.
  assert (Hval : forall i j, i < na_dim m -> j < na_dim m -> na_val m i j = cost i j).
  { intros i j Hi Hj. specialize (Hget i j Hi Hj). rewrite na_get_val in Hget by assumption. congruence. }
  destruct (single_nn_spec O m Hwf) with (s := s) as (c & p & Es & Ht & Hh & Hg & Hc); [|assumption|].
  { intros i j Hi Hj Hij. rewrite Hval by assumption. auto. }
  assert (Hin : forall j, j < length p -> nth j p 0 < na_dim m) by (intros j Hj; apply (tour_In _ _ _ Ht), nth_In; assumption).
  exists c, p. split; [assumption|]. split; [assumption|]. split; [assumption|]. split; [|split; [assumption|]].
  - intros k v Hk Hv Hn. rewrite <- !Hval; try assumption; try (apply Hin; lia). apply Hg; assumption.
  - intros H1. assert (E0 : s = 0) by lia. rewrite E0 in *. clear E0. unfold single_nearest_neighbour in Es. rewrite H1 in Es.
    cbn in Es. rewrite na_get_val in Es by assumption. cbn [bind] in Es. injection Es as <- _. rewrite Hval by assumption. reflexivity.
Qed.
Print Assumptions C25_greedy_tour.

Theorem C25_exact : forall n w s, s < n ->
  exists p, single_nearest_neighbour (int_matrix n w) s = Ok (Fin (tour_cost w p), p) /\
    is_tour n p /\ hd 0 p = s /\ greedy_tour w n p.
Proof.
  intros n w s Hs. destruct (EZ_bound 1 w n ltac:(lia)) as (W & B & HW & H0 & HB).
  exact (single_exact (EZ_exact B) EZ_ord (int_matrix n w) (matrix_of_wf n _) w W (emb_represents (EZ_exact B) n w) HW
    ltac:(change (na_dim (int_matrix n w)) with n; lia) s Hs).
Qed.
Print Assumptions C25_exact.

Theorem C25_exact_f64 : forall e n w W s, (-1074 <= e <= 970)%Z -> bounded w n W -> (W * (Z.of_nat n + 1) <= 2 ^ 53)%Z -> s < n ->
  exists p, single_nearest_neighbour (f64_matrix e n w) s = Ok (b64_inj e (tour_cost w p), p) /\
    is_tour n p /\ hd 0 p = s /\ greedy_tour w n p.
Proof.
  intros e n w W s He HW HB Hs.
  exact (single_exact (B64_exact e He) B64_ord (f64_matrix e n w) (matrix_of_wf n _) w W (emb_represents (B64_exact e He) n w) HW HB s Hs).
Qed.
Print Assumptions C25_exact_f64.

Theorem C25_bad_start : forall (N : Num) (m : namatrix N) s, na_dim m <= s -> single_nearest_neighbour m s = Panic.
Proof. intros N m s Hs. unfold single_nearest_neighbour. apply Nat.ltb_ge in Hs. rewrite Hs. reflexivity. Qed.
Print Assumptions C25_bad_start.

(** ** C26: the best of [k] distinct starts *)
(** [env] holds the random numbers and the way rayon splits the reduction; [mode] is SEQ or PAR.
    [starts] are the chosen start vertices.  No cost is smaller in the order of OrderedFloat. *)
Theorem C26_best_start : forall (N : Num) (O : NumOrd N) (m : namatrix N) (cost : nat -> nat -> C N) env mode k,
  na_wf m -> (forall i j, i < na_dim m -> j < na_dim m -> na_get m i j = Ok (cost i j)) ->
  (forall i j, i < na_dim m -> j < na_dim m -> i <> j -> clt (cost i j) cinf = true) ->
  mode <= 1 -> 1 <= k <= na_dim m ->
  exists starts c p, length starts = k /\ NoDup starts /\ Forall (fun s => s < na_dim m) starts /\
    n_nearest_neighbour env mode m k = Ok (c, p) /\ is_tour (na_dim m) p /\
    (2 <= na_dim m -> evaluate_circle (na_adj m) p = Ok c) /\
    (exists s, In s starts /\ single_nearest_neighbour m s = Ok (c, p)) /\
    forall s c' p', In s starts -> single_nearest_neighbour m s = Ok (c', p') -> olt c' c = false.
Proof.
  intros N O m cost env mode k Hwf Hget Hfin Hm Hk.
  destruct (n_nn_spec O env mode m k Hm Hk) as (starts & [c p] & H1 & H2 & H3 & H4 & (s & Hs & Es) & H6).
  { intros s Hs. destruct (C25_greedy_tour N O m cost s Hwf Hget Hfin Hs) as (c & p & E & _). eexists. exact E. }
  assert (Hsn : s < na_dim m) by (rewrite Forall_forall in H3; auto).
  destruct (C25_greedy_tour N O m cost s Hwf Hget Hfin Hsn) as (c' & p' & E & Ht & _ & _ & Hc & _).
  assert (c' = c /\ p' = p) as [-> ->] by (split; congruence).
  exists starts, c, p. do 6 (split; [assumption|]). split; [exists s; auto|].
  intros s' c' p' Hs' Es'. apply (H6 s' (c', p') Hs' Es').
Qed.
Print Assumptions C26_best_start.

Theorem C26_par_is_seq : forall (N : Num) (O : NumOrd N) (m : namatrix N) env k,
  n_nearest_neighbour env PAR_COMPUTATION m k = n_nearest_neighbour env SEQ_COMPUTATION m k.
Proof. intros. apply n_nn_modes. assumption. Qed.
Print Assumptions C26_par_is_seq.

(** In exact arithmetic: a greedy tour from one of the starts, no worse than the tour from any
    other start, and no better than any lower bound on the tours. *)
Theorem C26_exact : forall n w env mode k, mode <= 1 -> 1 <= k <= n ->
  exists starts p, length starts = k /\ NoDup starts /\ Forall (fun s => s < n) starts /\
    n_nearest_neighbour env mode (int_matrix n w) k = Ok (Fin (tour_cost w p), p) /\
    is_tour n p /\ In (hd 0 p) starts /\ greedy_tour w n p /\
    single_nearest_neighbour (int_matrix n w) (hd 0 p) = Ok (Fin (tour_cost w p), p) /\
    forall s, In s starts -> exists q, single_nearest_neighbour (int_matrix n w) s = Ok (Fin (tour_cost w q), q) /\ (tour_cost w p <= tour_cost w q)%Z.
Proof.
  intros n w env mode k Hm Hk. destruct (EZ_bound 1 w n ltac:(lia)) as (W & B & HW & H0 & HB).
  exact (n_nn_exact (EZ_exact B) EZ_ord (int_matrix n w) (matrix_of_wf n _) w W (emb_represents (EZ_exact B) n w) HW
    ltac:(change (na_dim (int_matrix n w)) with n; lia) env mode k Hm Hk).
Qed.
Print Assumptions C26_exact.

Theorem C26_exact_f64 : forall e n w W env mode k, (-1074 <= e <= 970)%Z -> bounded w n W -> (W * (Z.of_nat n + 1) <= 2 ^ 53)%Z ->
  mode <= 1 -> 1 <= k <= n ->
  exists starts p, length starts = k /\ NoDup starts /\ Forall (fun s => s < n) starts /\
    n_nearest_neighbour env mode (f64_matrix e n w) k = Ok (b64_inj e (tour_cost w p), p) /\
    is_tour n p /\ In (hd 0 p) starts /\ greedy_tour w n p /\
    single_nearest_neighbour (f64_matrix e n w) (hd 0 p) = Ok (b64_inj e (tour_cost w p), p) /\
    forall s, In s starts -> exists q, single_nearest_neighbour (f64_matrix e n w) s = Ok (b64_inj e (tour_cost w q), q) /\ (tour_cost w p <= tour_cost w q)%Z.
Proof.
  intros e n w W env mode k He HW HB Hm Hk.
  exact (n_nn_exact (B64_exact e He) B64_ord (f64_matrix e n w) (matrix_of_wf n _) w W (emb_represents (B64_exact e He) n w) HW HB env mode k Hm Hk).
Qed.
Print Assumptions C26_exact_f64.

(** All starts: the cost is the least over all start vertices, so it does not depend on the
    random order; it is the cost of a tour, hence not below the optimum. *)
Theorem C26_all_starts : forall n w, 1 <= n -> exists c,
  (forall env mode, mode <= 1 -> exists p, nearest_neighbour env mode (int_matrix n w) = Ok (Fin c, p) /\
     is_tour n p /\ tour_cost w p = c) /\
  (forall s, s < n -> exists q, single_nearest_neighbour (int_matrix n w) s = Ok (Fin (tour_cost w q), q) /\ (c <= tour_cost w q)%Z) /\
  (forall c' p', is_optimal w n c' p' -> (c' <= c)%Z).
Proof.
  intros n w Hn.
  assert (Hall : forall l s, length l = n -> NoDup l -> Forall (fun s => s < n) l -> s < n -> In s l).
  { intros l s Hl Hnd Hf Hs. assert (Ht : is_tour n l) by (apply tour_intro; assumption). apply (tour_In n l s Ht). assumption. }
  set (env0 := mkNnEnv (fun _ => 0) RLeaf).
  destruct (C26_exact n w env0 0 n ltac:(lia) ltac:(lia)) as (st & p & L1 & L2 & L3 & Ep & Ht & Hin & Hg & Eh & Hmin).
  exists (tour_cost w p). split; [|split].
  - intros env mode Hm. destruct (C26_exact n w env mode n Hm ltac:(lia)) as (st' & p' & L1' & L2' & L3' & Ep' & Ht' & Hin' & Hg' & Eh' & Hmin').
    exists p'. assert (Hc : tour_cost w p' = tour_cost w p).
    { destruct (Hmin (hd 0 p')) as (q & Eq & Hq); [apply Hall; try assumption; apply (tour_In _ _ _ Ht'); destruct p'; [apply tour_length in Ht'; cbn in Ht'; lia|left; reflexivity]|].
      destruct (Hmin' (hd 0 p)) as (q' & Eq' & Hq'); [apply Hall; try assumption; apply (tour_In _ _ _ Ht); destruct p; [apply tour_length in Ht; cbn in Ht; lia|left; reflexivity]|].
      rewrite Eh' in Eq. injection Eq as Eq _. rewrite Eh in Eq'. injection Eq' as Eq' _. lia. }
    unfold nearest_neighbour. rewrite <- Hc. auto.
  - intros s Hs. apply Hmin. apply Hall; assumption.
  - intros c' p' (_ & _ & Hopt). apply Hopt. assumption.
Qed.
Print Assumptions C26_all_starts.

Theorem C26_bad_count : forall (N : Num) (m : namatrix N) env mode k, k = 0 \/ na_dim m < k -> n_nearest_neighbour env mode m k = Panic.
Proof.
  intros N m env mode k [->|Hk]; [reflexivity|]. unfold n_nearest_neighbour. destruct (k =? 0); [reflexivity|].
  replace (k <=? na_dim m) with false by (symmetry; apply Nat.leb_gt; lia). reflexivity.
Qed.
Print Assumptions C26_bad_count.

(** ** C27: the MPI version *)
(** [order] and [tree] say, for every rank, in which order and association the all-reduce
    combines the contributions for that rank. *)
Theorem C27_all_ranks_agree : forall (N : Num) (O : NumOrd N) (m : namatrix N) (cost : nat -> nat -> C N) order tree size,
  na_wf m -> (forall i j, i < na_dim m -> j < na_dim m -> na_get m i j = Ok (cost i j)) ->
  (forall i j, i < na_dim m -> j < na_dim m -> i <> j -> clt (cost i j) cinf = true) ->
  (forall s c p, single_nearest_neighbour m s = Ok (c, p) -> cnan c = false) ->
  1 <= size <= na_dim m -> (forall r, r < size -> Permutation (order r) (seq 0 size)) ->
  exists c p, nearest_neighbour_mpi order tree m size = Ok (repeat (c, p) size) /\
    is_tour (na_dim m) p /\ (2 <= na_dim m -> evaluate_circle (na_adj m) p = Ok c) /\
    (exists s, s < na_dim m /\ single_nearest_neighbour m s = Ok (c, p)) /\
    forall s c' p', s < na_dim m -> single_nearest_neighbour m s = Ok (c', p') -> cle c c' = true.
Proof.
  intros N O m cost order tree size Hwf Hget Hfin Hnn Hsz Hord.
  destruct (nn_mpi_spec O order tree m size) as ([c p] & E & (s & Hs & Es) & Hmin); [|assumption|assumption|].
  { intros s Hs. destruct (C25_greedy_tour N O m cost s Hwf Hget Hfin Hs) as (c & p & E & _). exists (c, p). split; [assumption|]. apply (Hnn s c p E). }
  destruct (C25_greedy_tour N O m cost s Hwf Hget Hfin Hs) as (c' & p' & E' & Ht & _ & _ & Hc & _).
  assert (c' = c /\ p' = p) as [-> ->] by (split; congruence).
  exists c, p. split; [assumption|]. split; [assumption|]. split; [assumption|]. split; [exists s; auto|].
  intros s' c' p' Hs' Es'. apply (Hmin s' (c', p') Hs' Es').
Qed.
Print Assumptions C27_all_ranks_agree.

(** The cost is that of the sequential heuristic, whatever its random choices. *)
Theorem C27_mpi_is_seq : forall n w order tree size env, 1 <= size <= n ->
  (forall r, r < size -> Permutation (order r) (seq 0 size)) ->
  exists c p q, nearest_neighbour_mpi order tree (int_matrix n w) size = Ok (repeat (Fin c : C EZ, p) size) /\
    is_tour n p /\ tour_cost w p = c /\ greedy_tour w n p /\
    nearest_neighbour env SEQ_COMPUTATION (int_matrix n w) = Ok (Fin c : C EZ, q) /\ tour_cost w q = c.
Proof.
  intros n w order tree size env Hsz Hord. destruct (EZ_bound 1 w n ltac:(lia)) as (W & B & HW & H0 & HB).
  destruct (nn_mpi_exact (EZ_exact B) EZ_ord (int_matrix n w) (matrix_of_wf n _) w W (emb_represents (EZ_exact B) n w) HW
    ltac:(change (na_dim (int_matrix n w)) with n; lia) order tree size Hsz Hord) as (p & E & Ht & Hg & Eh & Hmin).
  change (na_dim (int_matrix n w)) with n in *.
  destruct (C26_all_starts n w ltac:(lia)) as (c & Hc1 & Hc2 & _).
  destruct (Hc1 env SEQ_COMPUTATION ltac:(unfold SEQ_COMPUTATION; lia)) as (q & Eq & Htq & Hcq).
  assert (Ec : tour_cost w p = c).
  { assert (Hin : hd 0 p < n) by (apply (tour_In _ _ _ Ht); destruct p; [apply tour_length in Ht; cbn in Ht; lia|left; reflexivity]).
    destruct (Hc2 (hd 0 p) Hin) as (q' & Eq' & Hq'). change (inj (EZ_exact B) (tour_cost w p)) with (Fin (tour_cost w p) : C EZ) in Eh.
    rewrite Eh in Eq'. injection Eq' as Eq' _.
    (* the sequential solution comes from some start *)
    destruct (C26_exact n w env SEQ_COMPUTATION n ltac:(unfold SEQ_COMPUTATION; lia) ltac:(lia)) as (st & p2 & _ & _ & L3 & E2 & _ & Hin2 & _ & Eh2 & _).
    unfold nearest_neighbour in Eq. change (na_dim (int_matrix n w)) with n in Eq. rewrite E2 in Eq. injection Eq as Ecc Eqq.
    rewrite Forall_forall in L3. destruct (Hmin (hd 0 p2) (L3 _ Hin2)) as (q3 & E3 & H3).
    change (inj (EZ_exact B) (tour_cost w q3)) with (Fin (tour_cost w q3) : C EZ) in E3. rewrite Eh2 in E3. injection E3 as E3 _. lia. }
  exists c, p, q. rewrite <- Ec at 1. split; [exact E|]. auto 10.
Qed.
Print Assumptions C27_mpi_is_seq.

Theorem C27_exact_f64 : forall e n w W order tree size, (-1074 <= e <= 970)%Z -> bounded w n W -> (W * (Z.of_nat n + 1) <= 2 ^ 53)%Z ->
  1 <= size <= n -> (forall r, r < size -> Permutation (order r) (seq 0 size)) ->
  exists p, nearest_neighbour_mpi order tree (f64_matrix e n w) size = Ok (repeat (b64_inj e (tour_cost w p), p) size) /\
    is_tour n p /\ greedy_tour w n p /\ single_nearest_neighbour (f64_matrix e n w) (hd 0 p) = Ok (b64_inj e (tour_cost w p), p) /\
    forall s, s < n -> exists q, single_nearest_neighbour (f64_matrix e n w) s = Ok (b64_inj e (tour_cost w q), q) /\ (tour_cost w p <= tour_cost w q)%Z.
Proof.
  intros e n w W order tree size He HW HB Hsz Hord.
  exact (nn_mpi_exact (B64_exact e He) B64_ord (f64_matrix e n w) (matrix_of_wf n _) w W (emb_represents (B64_exact e He) n w) HW HB order tree size Hsz Hord).
Qed.
Print Assumptions C27_exact_f64.

(** More processes than vertices: the first rank has no start vertex and panics. *)
Theorem C27_too_many_processes : forall n w order tree size, n < size ->
  nearest_neighbour_mpi order tree (int_matrix n w) size = Panic.
Proof.
  intros n w order tree size Hsz. apply nn_mpi_too_many; [assumption|].
  intros s Hs. destruct (C25_exact n w s Hs) as (p & E & _). eexists. exact E.
Qed.
Print Assumptions C27_too_many_processes.

(** The operator of the all-reduce, on contributions of different ranks without NaN. *)
Theorem C27_operator_commutative : forall (N : Num) (O : NumOrd N) (a b : C N * nat), cnan (fst a) = false -> cnan (fst b) = false ->
  snd a <> snd b -> mpi_cost_rank_op a b = mpi_cost_rank_op b a.
Proof. intros N O a b Ha Hb Hr. apply (rank_op_comm O); assumption. Qed.
Print Assumptions C27_operator_commutative.
Theorem C27_operator_associative : forall (N : Num) (O : NumOrd N) (a b c : C N * nat), cnan (fst a) = false -> cnan (fst b) = false ->
  cnan (fst c) = false -> snd a <> snd b -> snd b <> snd c -> snd a <> snd c ->
  mpi_cost_rank_op a (mpi_cost_rank_op b c) = mpi_cost_rank_op (mpi_cost_rank_op a b) c.
Proof. intros. apply (rank_op_assoc O); assumption. Qed.
Print Assumptions C27_operator_associative.

(** ** Concrete cases *)
Example C25_applies : (forall i j, i < 4 -> j < 4 -> na_get (int_matrix 4 ex_sym) i j = Ok (Fin (ex_sym i j) : C EZ)) /\
  (forall i j, i < 4 -> j < 4 -> i <> j -> clt (Fin (ex_sym i j) : C EZ) cinf = true) /\
  exists c p, single_nearest_neighbour (int_matrix 4 ex_sym) 2 = Ok (Fin c : C EZ, p).
Proof.
  split; [intros; apply (matrix_of_get 4 (fun i j => Fin (ex_sym i j) : C EZ)); assumption|].
  split; [reflexivity|]. eexists. eexists. vm_compute. reflexivity.
Qed.
Example C26_applies : exists c p, n_nearest_neighbour (mkNnEnv (fun i => 7 * i + 3) (RNode 1 RLeaf RLeaf)) 1 (int_matrix 4 ex_sym) 3 = Ok (Fin c : C EZ, p).
Proof. eexists. eexists. vm_compute. reflexivity. Qed.
Example C27_applies : (forall r, r < 3 -> Permutation ((fun r => if r =? 1 then [2; 1; 0] else [0; 1; 2]) r) (seq 0 3)) /\
  exists c p, nearest_neighbour_mpi (fun r => if r =? 1 then [2; 1; 0] else [0; 1; 2]) (fun r => RNode r RLeaf RLeaf) (int_matrix 4 ex_sym) 3 =
    Ok (repeat (Fin c : C EZ, p) 3).
Proof.
  split.
  - intros r Hr. destruct (r =? 1); [|apply Permutation_refl]. change (seq 0 3) with (rev [2; 1; 0]). apply Permutation_rev.
  - eexists. eexists. vm_compute. reflexivity.
Qed.
