(** Property C75: with unlucky random numbers Christofides' algorithm as it is run misses the
    optimum by a factor that grows with the number of cities. *)
From Coq Require Import ZArith Arith Bool List Permutation Lia.
From Verif Require Import Num NumB64 Base Spec SpecFacts Data Par Mem Rand MstPar Matching Christofides Cli Instances PermProofs BoundsProofs
  WorstProofs PropChristofides PropCli PropTight.
Import ListNotations.

(** Two stars: 8k leaves and two centres.  Leaves are at 1 from their own centre, three out of
    four belong to the first, and the centres are at 8k from each other. *)
Definition two_hubs (k : nat) : nat -> nat -> Z := stars (2 * k) (4 * Z.of_nat (2 * k)).

Lemma two_hubs_metric k n : 1 <= k -> metric (two_hubs k) n.
Proof.
  intros Hk. unfold two_hubs. split; [intros i j _ _; apply stars_sym|]. split; [intros i j _ _; apply stars_range; lia|].
  split; [intros i j l _ _ _; apply stars_triangle; lia|]. intros i _. apply stars_diag.
Qed.
Lemma two_hubs_cheap k : 1 <= k -> exists q, is_tour (8 * k + 2) q /\ (tour_cost (two_hubs k) q <= 32 * Z.of_nat k)%Z.
Proof.
  intros Hk. destruct (two_hubs_metric k (8 * k + 2) Hk) as (Hs & Hnn & Ht & _).
  pose proof (two_stars_spanning (2 * k)) as (H1 & H2 & _). replace (4 * (2 * k) + 2) with (8 * k + 2) in H1, H2 by lia.
  destruct (tree_tour (8 * k + 2) (two_hubs k) Hs Hnn Ht (two_stars (2 * k))) as (q & Hq & Hc).
  - lia.
  - intros a b Hin. destruct (H1 a b Hin) as [Ha Hb]. apply in_seq in Ha, Hb. lia.
  - intros a b Ha Hb. apply H2; apply in_seq; lia.
  - exists q. split; [assumption|]. unfold two_hubs in Hc |- *. rewrite two_stars_cost in Hc. lia.
Qed.

(** For every n = 8k + 2 there are a metric and random numbers of the shuffles for which the tour
    of Christofides' algorithm, computed in any of the three ways and under every schedule, costs
    at least (n - 6)/16 times as much as some other tour.  (C47_half_n_partial: never more than
    n/2 times as much.) *)
Theorem C75_linear : forall k, 1 <= k -> exists w q first draws, metric w (8 * k + 2) /\ is_tour (8 * k + 2) q /\ (0 < tour_cost w q)%Z /\
  forall debug env fenv sched size mode, mode <= 2 -> (mode = MPI_COMPUTATION -> 1 <= size) ->
  exists p, christofides debug env fenv (mkMtEnv first draws sched size) mode (int_matrix (8 * k + 2) w) = Ok (Fin (tour_cost w (0 :: p)), (0 :: p) ++ [0]) /\
    is_tour (8 * k + 2) (0 :: p) /\ ((Z.of_nat (8 * k + 2) - 6) * tour_cost w q <= 16 * tour_cost w (0%nat :: p))%Z.
Proof.
  intros k Hk. destruct (two_hubs_cheap k Hk) as (q & Hq & Hc). pose proof (two_hubs_metric k (8 * k + 2) Hk) as Hm.
  exists (two_hubs k), q, (fun i => i), (fun _ _ i => i). split; [assumption|]. split; [assumption|]. split.
  { pose proof (tour_NoDup _ _ Hq) as Hnd. pose proof (tour_length _ _ Hq) as Hl. destruct q as [|a [|b q]]; [cbn in Hl; lia|cbn in Hl; lia|].
    assert (Ha : a < 8 * k + 2) by (apply (tour_In _ _ a Hq); cbn; auto). assert (Hb : b < 8 * k + 2) by (apply (tour_In _ _ b Hq); cbn; auto).
    assert (Hab : a <> b) by (inversion Hnd as [|? ? Hn _]; intros ->; apply Hn; left; reflexivity).
    rewrite tour_cost_closed. cbn [app path_cost].
    assert (H1 : (1 <= two_hubs k a b)%Z) by (apply stars_one; lia).
    assert (Hp : forall l, (0 <= path_cost (two_hubs k) l)%Z).
    { clear -Hk. induction l as [|x [|y l] IH]; [cbn; lia..|]. cbn [path_cost] in *. pose proof (stars_range (2 * k) (4 * Z.of_nat (2 * k)) ltac:(lia) x y). unfold two_hubs at 1. lia. }
    specialize (Hp (b :: q ++ [a])). cbn [path_cost] in Hp. lia. }
  intros debug env fenv sched size mode Hmode Hmpi.
  destruct (worst_tour (EZ_exact (2 * (4 * Z.of_nat (2 * k) + 2) * (Z.of_nat (8 * k + 2) + 1))) EZ_ord k Hk (int_matrix (8 * k + 2) (two_hubs k)) (matrix_of_wf _ _))
    with (debug := debug) (env := env) (fenv := fenv) (mt := mkMtEnv (fun i => i) (fun _ _ i => i) sched size) (mode := mode) as (p & E & Hp & Hb);
    try assumption; try reflexivity; [cbn; lia|apply (emb_represents (EZ_exact _) (8 * k + 2) (two_hubs k))|intros _; apply metric_EZ; apply Hm|].
  exists p. split; [exact E|]. split; [exact Hp|]. fold (two_hubs k) in Hb. set (c := tour_cost (two_hubs k) (0 :: p)) in *. clearbody c.
  replace (Z.of_nat (8 * k + 2) - 6)%Z with (4 * (2 * Z.of_nat k - 1))%Z by lia. replace (Z.of_nat (2 * k)) with (2 * Z.of_nat k)%Z in Hb by lia. nia.
Qed.
Print Assumptions C75_linear.

(** The same with doubles, in every unit 2^e in which the numbers are exact. *)
Theorem C75_linear_f64 : forall e k, (-1074 <= e <= 970)%Z -> 1 <= k -> (2 * (8 * Z.of_nat k + 2) * (8 * Z.of_nat k + 3) <= 2 ^ 53)%Z ->
  exists w q first draws, metric w (8 * k + 2) /\ is_tour (8 * k + 2) q /\
  forall debug env fenv sched size mode, mode <= 2 -> (mode = MPI_COMPUTATION -> 1 <= size) ->
  exists p, christofides debug env fenv (mkMtEnv first draws sched size) mode (f64_matrix e (8 * k + 2) w) = Ok (b64_inj e (tour_cost w (0 :: p)), (0 :: p) ++ [0]) /\
    is_tour (8 * k + 2) (0 :: p) /\ ((Z.of_nat (8 * k + 2) - 6) * tour_cost w q <= 16 * tour_cost w (0%nat :: p))%Z.
Proof.
  intros e k He Hk HB. destruct (two_hubs_cheap k Hk) as (q & Hq & Hc). pose proof (two_hubs_metric k (8 * k + 2) Hk) as Hm.
  exists (two_hubs k), q, (fun i => i), (fun _ _ i => i). split; [assumption|]. split; [assumption|].
  intros debug env fenv sched size mode Hmode Hmpi.
  assert (Hdbg : debug = true -> is_metric (na_adj (f64_matrix e (8 * k + 2) (two_hubs k))) = Ok true).
  { intros _. apply (metric_B64 e _ _ (8 * Z.of_nat k + 2)); [assumption| |nia|apply Hm]. intros i j _ _. pose proof (stars_range (2 * k) (4 * Z.of_nat (2 * k)) ltac:(lia) i j). unfold two_hubs. lia. }
  destruct (worst_tour (B64_exact e He) B64_ord k Hk (f64_matrix e (8 * k + 2) (two_hubs k)) (matrix_of_wf _ _))
    with (debug := debug) (env := env) (fenv := fenv) (mt := mkMtEnv (fun i => i) (fun _ _ i => i) sched size) (mode := mode) as (p & E & Hp & Hb);
    try assumption; try reflexivity; [cbn [na_dim f64_matrix matrix_of]; lia|apply (emb_represents (B64_exact e He) (8 * k + 2) (two_hubs k))|cbn [na_dim f64_matrix matrix_of]; lia|].
  exists p. split; [exact E|]. split; [exact Hp|]. fold (two_hubs k) in Hb. set (c := tour_cost (two_hubs k) (0 :: p)) in *. clearbody c.
  replace (Z.of_nat (8 * k + 2) - 6)%Z with (4 * (2 * Z.of_nat k - 1))%Z by lia. replace (Z.of_nat (2 * k)) with (2 * Z.of_nat k)%Z in Hb by lia. nia.
Qed.
Print Assumptions C75_linear_f64.

(** No factor is guaranteed: for every K, some document with a metric and some random numbers make
    the command print, however it is parallelised, more than K times the cost of another tour. *)
Theorem C75_no_factor : forall K, exists g n w q first draws, document (N := EZ) Fin g n w /\ metric w n /\ is_tour n q /\
  forall wd p, mt_first (w_mtenv wd) = first -> mt_draws (w_mtenv wd) = draws -> (p = MPI -> 1 <= w_size wd) ->
  exists c, only_outcome wd (ApproxCmd Christofides p None) g (mkOut ([ChristofidesWeight (Fin c : C EZ)] :: repeat [] (processes wd p - 1)) Done) /\
    (K * tour_cost w q < c)%Z.
Proof.
  intros K. set (k := S (Z.to_nat (2 * Z.max K 0))). destruct (C75_linear k ltac:(lia)) as (w & q & first & draws & Hm & Hq & Hpos & H). set (n := 8 * k + 2) in *.
  assert (Hd : document (N := EZ) Fin (table_graph n w) n w) by (apply table_document; apply Hm).
  exists (table_graph n w), n, w, q, first, draws. split; [exact Hd|]. split; [exact Hm|]. split; [exact Hq|].
  intros wd p E1 E2 Hsize.
  destruct (H (w_debug wd) (w_menv wd) (w_fillenv wd) (mt_sched (w_mtenv wd)) (w_size wd) (match p with SingleThreaded => SEQ_COMPUTATION | MultiThreaded => PAR_COMPUTATION | MPI => MPI_COMPUTATION end))
    as (t & E & _ & Hc); [destruct p; unfold SEQ_COMPUTATION, PAR_COMPUTATION, MPI_COMPUTATION; lia| |].
  { destruct p; try discriminate. intros _. apply Hsize. reflexivity. }
  exists (tour_cost w (0 :: t)). split.
  - intros o. cbn [run]. unfold approx_run. rewrite (int_document _ _ _ Hd). unfold matching_env. rewrite E1, E2. rewrite E. cbn [finish option_map then_bound fst]. reflexivity.
  - assert (Hn : (Z.of_nat n - 6 = 16 * Z.max K 0 + 4)%Z) by (unfold n, k; lia). rewrite Hn in Hc. nia.
Qed.
Print Assumptions C75_no_factor.

(** Eighteen cities: the answer costs 128, another tour 64. *)
Example C75_applies : metric (two_hubs 2) 18 /\ tour_cost (two_hubs 2) [0;2;3;4;6;7;8;10;11;12;14;15;16;17;1;5;9;13] = 64%Z /\
  christofides false ex_menv (mkFillEnv [] []) (mkMtEnv (fun i => i) (fun _ _ i => i) (fun _ => []) 1) SEQ_COMPUTATION (int_matrix 18 (two_hubs 2)) =
    Ok (Fin 128%Z, [0;1;17;9;8;16;2;3;6;7;10;11;12;13;14;15;5;4;0]).
Proof. split; [apply two_hubs_metric; lia|]. split; vm_compute; reflexivity. Qed.
