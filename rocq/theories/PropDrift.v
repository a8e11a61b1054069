(** C61 and C62: the exact solvers V2 to V6, the threads and the MPI workers on matrices of
    arbitrary finite doubles, and the command line program that runs them.

    They add the cost of a step when they go down the search tree and subtract it when they come
    back, so the cost they report is not a sum of the costs of the steps, rounded.

    [f64_values m w] and [holds] as in PropRound.v: true costs in units of 2^-1074.
    [sized w n W]: [0 <= w i j <= W], nothing overflows, n at most 208061.
    [near e x z]: the double [x] is finite and [|x - z| <= e * 2^-53].
    [drift n W = (n+3)^2 (n+1) W]. *)
From Coq Require Import ZArith NArith Arith Bool List Permutation Lia Reals Lra.
From Flocq Require Import Core IEEE754.Binary IEEE754.Bits.
From Verif Require Import Num NumB64 NumPos F64Facts Base Spec SpecFacts Data Precond Mst Par MstPar OneTree Rand Nn Matching Christofides Exact Threaded Mpi Cli
  Dfs PrimProofs ExactProofs DigitsProofs SearchProofs Coverage ThreadedProofs MpiStatic MpiDynamic MpiProofs MpiChunks MpiExact Units RoundProofs DriftProofs DriftSolvers DriftParallel Instances
  Points PointsProofs DistProofs PropExact PropMst PropThreaded PropMpi PropNn PropData PropPoints PropRound PropCli Generator GeneratorProofs PropGenerator PropCliRound.
Import ListNotations.
Local Open Scope nat_scope.

(** what is meant by "at most [k] times the cost of every tour, up to rounding" *)
Definition almost (k : Z) (w : nat -> nat -> Z) (n : nat) (W : Z) (p : list nat) : Prop :=
  forall q, is_tour n q -> (tour_cost w p * 2 ^ 53 <= k * tour_cost w q * 2 ^ 53 + 2 * drift n W)%Z.

(** what [near] and [almost] say of real numbers: [c] is the value of the double *)
Theorem C61_in_reals : forall n W e x z, near (drift n W) x z -> (z * 2 ^ 53 <= e * 2 ^ 53 + 2 * drift n W)%Z ->
  let unit := bpow radix2 (-1074) in let err := ((INR n + 3) ^ 2 * (INR n + 1) * (IZR W * unit) * bpow radix2 (-53))%R in
  is_finite 53 1024 x = true /\
  (Rabs (B2R 53 1024 x - IZR z * unit) <= err)%R /\ (IZR z * unit <= IZR e * unit + 2 * err)%R.
Proof.
  intros n W e x z (c & [Hf Hx] & Hc) He unit err. split; [exact Hf|].
  assert (Hu : (0 < unit)%R) by (apply bpow_gt_0).
  assert (H53 : (bpow radix2 (-53) * 2 ^ 53 = 1)%R).
  { change (bpow radix2 (-53)) with (/ IZR (Zpower_pos 2 53))%R. rewrite <- (pow_IZR 2 53) || idtac.
    replace (2 ^ 53)%R with (IZR (Zpower_pos 2 53)) by (rewrite <- Zpower_pos_nat || idtac; rewrite (pow_IZR 2 53); reflexivity).
    apply Rinv_l. apply IZR_neq. discriminate. }
  assert (HD : (err * 2 ^ 53 = IZR (drift n W) * unit)%R).
  { unfold err, drift. rewrite !mult_IZR, (plus_IZR (Z.of_nat n) 1). replace (IZR ((Z.of_nat n + 3) ^ 2)) with ((INR n + 3) ^ 2)%R.
    - rewrite <- INR_IZR_INZ. replace (((INR n + 3) ^ 2 * (INR n + 1) * (IZR W * unit) * bpow radix2 (-53)) * 2 ^ 53)%R
        with (((INR n + 3) ^ 2 * (INR n + 1) * (IZR W * unit)) * (bpow radix2 (-53) * 2 ^ 53))%R by ring. rewrite H53. ring.
    - rewrite INR_IZR_INZ. rewrite <- (plus_IZR (Z.of_nat n) 3). rewrite (pow_IZR _ 2). reflexivity. }
  assert (H2 : (0 < 2 ^ 53)%R) by (apply pow_lt; lra).
  assert (E53 : IZR (2 ^ 53) = (2 ^ 53)%R) by (rewrite (pow_IZR 2 53); reflexivity).
  split.
  - apply (Rmult_le_reg_r (2 ^ 53)); [assumption|]. rewrite HD. unfold holds in *. rewrite Hx.
    replace (IZR c * bpow radix2 (-1074) - IZR z * unit)%R with (IZR (c - z) * unit)%R by (rewrite minus_IZR; unfold unit; ring).
    rewrite Rabs_mult, (Rabs_pos_eq unit) by lra. apply IZR_le in Hc. rewrite mult_IZR, abs_IZR, E53 in Hc.
    replace (Rabs (IZR (c - z)) * unit * 2 ^ 53)%R with (Rabs (IZR (c - z)) * 2 ^ 53 * unit)%R by ring. apply Rmult_le_compat_r; lra.
  - apply (Rmult_le_reg_r (2 ^ 53)); [assumption|].
    replace ((IZR e * unit + 2 * err) * 2 ^ 53)%R with ((IZR e * 2 ^ 53) * unit + 2 * (err * 2 ^ 53))%R by ring. rewrite HD.
    apply IZR_le in He. rewrite plus_IZR, !mult_IZR, E53 in He.
    replace (IZR z * unit * 2 ^ 53)%R with (IZR z * 2 ^ 53 * unit)%R by ring.
    replace (IZR e * 2 ^ 53 * unit + 2 * (IZR (drift n W) * unit))%R with ((IZR e * 2 ^ 53 + 2 * IZR (drift n W)) * unit)%R by ring.
    apply Rmult_le_compat_r; lra.
Qed.
Print Assumptions C61_in_reals.

(** ** C61: the solvers *)
(** V2 and V3: an optimal tour up to rounding, with its cost up to rounding *)
Theorem C61_second_third : forall (m : namatrix B64) w W, f64_values m w -> 1 <= na_dim m -> sized w (na_dim m) W ->
  (exists x p, second_improved_solver (na_adj m) = Ok (x, p) /\ is_tour (na_dim m) p /\
     near (drift (na_dim m) W) x (tour_cost w p) /\ almost 1 w (na_dim m) W p) /\
  (exists x p, third_improved_solver (na_adj m) = Ok (x, p) /\ is_tour (na_dim m) p /\
     near (drift (na_dim m) W) x (tour_cost w p) /\ almost 1 w (na_dim m) W p).
Proof.
  intros m w W Hv Hn Hs. split.
  - destruct (second_drift m w W Hv Hn Hs) as (x & p & E & H1 & H2 & H3). exists x, p. split; [exact E|]. split; [exact H1|]. split; [exact H2|].
    intros q Hq. rewrite Z.mul_1_l. apply H3. exact Hq.
  - destruct (third_drift m w W Hv Hn Hs) as (x & p & E & H1 & H2 & H3). exists x, p. split; [exact E|]. split; [exact H1|]. split; [exact H2|].
    intros q Hq. rewrite Z.mul_1_l. apply H3. exact Hq.
Qed.
Print Assumptions C61_second_third.

(** V4, and V6 with any hash function: a tour with its cost up to rounding *)
Theorem C61_fourth_sixth : forall (m : namatrix B64) w W hash, f64_values m w -> 1 <= na_dim m -> sized w (na_dim m) W ->
  (exists x p, fourth_improved_solver (na_adj m) = Ok (x, p) /\ is_tour (na_dim m) p /\ near (drift (na_dim m) W) x (tour_cost w p)) /\
  (exists x p, sixth_improved_solver_with hash m = Ok (x, p) /\ is_tour (na_dim m) p /\ near (drift (na_dim m) W) x (tour_cost w p)).
Proof.
  intros m w W hash Hv Hn Hs. split; [apply (fourth_drift m w W Hv Hn Hs)|apply (sixth_drift m w W Hv Hn Hs hash)].
Qed.
Print Assumptions C61_fourth_sixth.

(** V5, and V6 if no two prefixes collide: at most twice the optimum if the distances are symmetric *)
Theorem C61_fifth_sixth : forall (m : namatrix B64) w W hash, f64_values m w -> 1 <= na_dim m -> sized w (na_dim m) W ->
  (exists x p, fifth_improved_solver m = Ok (x, p) /\ is_tour (na_dim m) p /\
     near (drift (na_dim m) W) x (tour_cost w p) /\ (symmetric w (na_dim m) -> almost 2 w (na_dim m) W p)) /\
  ((forall p q, NoDup p -> Forall (fun i => i < na_dim m) p -> NoDup q -> Forall (fun i => i < na_dim m) q -> hash p = hash q -> p = q) ->
     sixth_improved_solver_with hash m = fifth_improved_solver m).
Proof.
  intros m w W hash Hv Hn Hs. split.
  - destruct (fifth_drift m w W Hv Hn Hs) as (x & p & E & H1 & H2 & H3). exists x, p. auto.
  - apply C08_sixth_equals_fifth.
Qed.
Print Assumptions C61_fifth_sixth.

(** the threads, with every interleaving *)
Theorem C61_threaded : forall (m : namatrix B64) w W threads, f64_values m w -> 3 <= na_dim m -> sized w (na_dim m) W -> 1 <= threads ->
  forall s, threaded_result m 3 threads s -> exists x p, s = (x, p) /\ is_tour (na_dim m) p /\
    near (drift (na_dim m) W) x (tour_cost w p) /\ (symmetric w (na_dim m) -> almost 2 w (na_dim m) W p).
Proof.
  intros m w W t Hv Hn Hs Ht s. unfold threaded_result. destruct (Nat.leb_spec (na_dim m) t) as [Hle|Hgt].
  - destruct (fifth_drift m w W Hv ltac:(lia) Hs) as (x & p & E & H). rewrite E. intros Hs'. injection Hs' as <-. exists x, p. split; [reflexivity|exact H].
  - intros (c1 & c & E1 & H1 & H2 & ->).
    pose proof (threaded_drift m w W Hv Hn Hs t c1 c ltac:(lia) E1 H1 H2) as H. exists (fst (fst c)), (snd (fst c)).
    split; [apply surjective_pairing|exact H].
Qed.
Print Assumptions C61_threaded.

(** MPI with the static distribution, with every schedule, if there are at most as many workers as
    cities *)
Theorem C61_static : forall (m : namatrix B64) w W size, f64_values m w -> 3 <= na_dim m -> sized w (na_dim m) W -> 2 <= size -> enough_prefixes (na_dim m) (size - 1) ->
  forall out, static_result m 3 size out -> exists x p, out = Ok (repeat (x, p) size) /\ is_tour (na_dim m) p /\
    near (drift (na_dim m) W) x (tour_cost w p) /\ (symmetric w (na_dim m) -> almost 2 w (na_dim m) W p).
Proof.
  intros m w W size Hv Hn Hs Hsz Hen out. set (k := size - 1) in *.
  assert (Hk : k < na_dim m ^ 3) by (apply (busy_lt _ _ Hen); unfold k; lia).
  destruct (static_todo_Ok m ltac:(lia) 3 k Hk) as (todo & Et & _).
  unfold static_result. fold k. rewrite Et. intros (c & H1 & H2 & ->).
  destruct (static_drift m w W Hv Hn Hs k ltac:(unfold k; lia) Hen todo Et c H1 H2) as (x & p & E & H).
  exists x, p. replace size with (S k) by (unfold k; lia). split; [exact E|exact H].
Qed.
Print Assumptions C61_static.

(** MPI with the dynamic distribution: what the root announces, and what is returned unless the
    final broadcast fails *)
Theorem C61_dynamic : forall (m : namatrix B64) w W size, f64_values m w -> 4 <= na_dim m -> sized w (na_dim m) W -> 2 <= size ->
  forall c, dynamic_run m (size - 1) c -> ddone (size - 1) c ->
  exists x i p, i < size - 1 /\ d_winner c = (x, S i) /\ dlocal_of (d_worker c i) = (x, p) /\ is_tour (na_dim m) p /\
    near (drift (na_dim m) W) x (tour_cost w p) /\ (symmetric w (na_dim m) -> almost 2 w (na_dim m) W p) /\
    (wrapup (d_winner c) (dynamic_paths (na_dim m) (size - 1) c) = Panic \/
     wrapup (d_winner c) (dynamic_paths (na_dim m) (size - 1) c) = Ok (repeat (x, p) size)).
Proof.
  intros m w W size Hv Hn Hs Hsz c Hc Hd. set (n := na_dim m) in *.
  destruct (dynamic_stream n Hn) as (L & H1 & H2 & H3 & H4).
  destruct (dynamic_drift m w W Hv ltac:(fold n; lia) Hs Hn L H1 H3 H4 (size - 1) ltac:(lia) c Hc Hd) as (i & x & p & Hi & Ew & El & Hp & Hx & Hq).
  exists x, i, p. split; [assumption|]. split; [exact Ew|]. split; [exact El|]. split; [exact Hp|]. split; [exact Hx|]. split; [exact Hq|].
  unfold wrapup, nth_res. rewrite Ew. cbn [snd fst]. unfold dynamic_paths.
  rewrite (nth_paths (repeat 0 n) (fun i => snd (dlocal_of (d_worker c i)))) by assumption. rewrite El. cbn [bind snd].
  destruct (forallb _ _); [right|left; reflexivity]. f_equal.
  replace size with (S (size - 1)) at 2 by lia. cbn [map repeat]. f_equal.
  assert (G : forall l : list (list nat), map (fun _ => (x, p)) l = repeat (x, p) (length l)).
  { clear. induction l as [|y l IH]; [reflexivity|]. cbn [map repeat length]. f_equal. exact IH. }
  etransitivity; [apply G|]. rewrite map_length, seq_length. reflexivity.
Qed.
Print Assumptions C61_dynamic.

(** ** C62: the command line *)
Section Runs.
Variables (wd : world) (g : graph B64) (m : namatrix B64) (w : nat -> nat -> Z) (W : Z).
Hypothesis Hdoc : rounded_document g m w.
Let n := na_dim m.
Hypothesis Hn : 3 <= n.
Hypothesis Hsz : sized w n W.

Let Hv : f64_values m w. Proof. apply Hdoc. Qed.
Let Hsym : symmetric w n. Proof. apply Hdoc. Qed.
Let Hwf : na_wf m. Proof. apply Hv. Qed.
Let Hnnm : nonneg_matrix m.
Proof.
  intros i j x Hx. assert (Hij : i < n /\ j < n).
  { unfold na_get in Hx. fold n in Hx. destruct (Nat.ltb_spec i n), (Nat.ltb_spec j n); cbn in Hx; try discriminate. auto. }
  destruct Hij as [Hi Hj]. destruct (proj2 Hv i j Hi Hj) as (y & Ey & Hy). assert (y = x) by congruence. subst y.
  right. rewrite (holds_le _ _ _ _ holds_0 Hy). apply Z.leb_le. apply Hsz; assumption.
Qed.

Lemma outcomes a p o : run wd (ExactCmd a p) (Some g) o <-> exists rs, exact_solved wd a p m rs /\
  o = finish (processes wd p) rs (fun sols => mkOut (map (fun s => [BestCost (fst s); BestPermutation (snd s)]) sols) Done).
Proof. cbn [run]. unfold exact_run. rewrite (rounded_instance _ _ _ Hdoc). reflexivity. Qed.

Lemma single a x p : exact_solver a m = Ok (x, p) -> only_outcome wd (ExactCmd a SingleThreaded) g (mkOut [[BestCost x; BestPermutation p]] Done).
Proof.
  intros E o'. rewrite outcomes. unfold exact_solved. rewrite E. cbn [bind].
  split; [intros (rs & -> & ->); reflexivity|]. intros ->. eexists. split; reflexivity.
Qed.

Lemma threads_run a : 1 <= w_threads wd ->
  (exists o, run wd (ExactCmd a MultiThreaded) (Some g) o) /\
  forall o, run wd (ExactCmd a MultiThreaded) (Some g) o -> exists x p, o = mkOut [[BestCost x; BestPermutation p]] Done /\
    is_tour n p /\ near (drift n W) x (tour_cost w p) /\ almost 2 w n W p.
Proof.
  intros Ht. assert (Hex : exists s, threaded_result m 3 (w_threads wd) s).
  { unfold threaded_result. fold n. destruct (Nat.leb_spec n (w_threads wd)) as [Hle|Hgt].
    - destruct (fifth_drift m w W Hv ltac:(fold n; lia) Hsz) as (x & p & E & _). exists (x, p). exact E.
    - assert (Hlt : w_threads wd < na_dim m ^ 3) by (fold n; rewrite pow3; nia).
      destruct (tinit_Ok m ltac:(fold n; lia) 3 (w_threads wd) Ht Hlt) as (c0 & E0 & _).
      destruct (run_extends B64_ord m ltac:(fold n; lia) Hwf 3 (w_threads wd) Ht Hlt c0 E0 c0 (tsteps_refl _ _)) as (c & H1 & H2).
      exists (fst c), c0, c. auto. }
  destruct Hex as (s & Hs). split.
  - eexists. apply outcomes. exists (Ok [s]). split; [left; eauto|reflexivity].
  - intros o Ho. apply outcomes in Ho. destruct Ho as (rs & [(s' & Hs' & ->)|[Hp ->]] & ->).
    + destruct (C61_threaded m w W (w_threads wd) Hv Hn Hsz Ht s' Hs') as (x & p & -> & H1 & H2 & H3). exists x, p. split; [reflexivity|]. auto.
    + exfalso. unfold threaded_result in Hs. destruct (na_dim m <=? w_threads wd); [congruence|]. destruct Hs as (c0 & c & E & _). congruence.
Qed.

Lemma static_run : 2 <= w_size wd -> enough_prefixes n (w_size wd - 1) ->
  (exists o, run wd (ExactCmd V0 MPI) (Some g) o) /\
  forall o, run wd (ExactCmd V0 MPI) (Some g) o -> exists x p, o = mkOut (repeat [BestCost x; BestPermutation p] (w_size wd)) Done /\
    is_tour n p /\ near (drift n W) x (tour_cost w p) /\ almost 2 w n W p.
Proof.
  intros Hs Hen. assert (Hk : w_size wd - 1 < na_dim m ^ 3) by (apply (busy_lt _ _ Hen); lia).
  destruct (C15_no_deadlock B64 B64_ord B64_pos m 3 (w_size wd - 1) ltac:(fold n; lia) Hwf Hnnm Hk) as (todo & Et & Hprog). split.
  - destruct (s_finishes B64_ord B64_pos m ltac:(fold n; lia) Hwf Hnnm 3 (w_size wd - 1) Hk todo Et _ (steps_refl _ _)) as (c & H1 & H2).
    eexists. apply outcomes. eexists. split; [left; unfold static_result; rewrite Et; exists c; split; [exact H1|]; split; [exact H2|reflexivity]|reflexivity].
  - intros o Ho. apply outcomes in Ho. destruct Ho as (rs & [Hrs|Hrs] & ->).
    + destruct (C61_static m w W (w_size wd) Hv Hn Hsz Hs Hen rs Hrs) as (x & p & -> & H1 & H2 & H3). exists x, p.
      split; [cbn [finish processes]; rewrite map_repeat; reflexivity|]. auto.
    + exfalso. destruct Hrs as (todo' & c & Et' & Hc & Hend). rewrite Et in Et'. injection Et' as <-.
      destruct Hend as [[Hcr _]|(_ & Hnd & Hst & _)].
      * destruct Hcr as (i & p & rest & local & gl & Hi & Est & Ep).
        destruct (C15_no_worker_panics B64 B64_ord B64_pos m 3 (w_size wd - 1) todo c i p rest local gl) as (x & Ex);
          try assumption; try (fold n; lia). congruence.
      * destruct (Hprog c Hc); contradiction.
Qed.

Lemma dynamic_runs : 4 <= n -> 2 <= w_size wd ->
  (exists o, run wd (ExactCmd V1 MPI) (Some g) o) /\
  forall o, run wd (ExactCmd V1 MPI) (Some g) o -> o = mkOut (repeat [] (w_size wd)) Panicked \/
    exists x p, o = mkOut (repeat [BestCost x; BestPermutation p] (w_size wd)) Done /\
      is_tour n p /\ near (drift n W) x (tour_cost w p) /\ almost 2 w n W p.
Proof.
  intros Hn4 Hs. split.
  - destruct (dynamic_ok B64_ord B64_pos m Hn4 Hwf Hnnm) as (L & H1 & H2 & H3 & H4 & H5).
    destruct (dynamic_finishes B64_ord (w_size wd - 1) n (mpi_work m) L H1 H4 (sound n) (sound_init B64_ord _) (sound_nonneg m) H5 dinit (steps_refl _ _))
      as (c & Hc & Hdone).
    eexists. apply outcomes. eexists. split; [left; exists c; split; [exact Hc|split; [exact Hdone|reflexivity]]|reflexivity].
  - intros o Ho. apply outcomes in Ho. destruct Ho as (rs & [Hrs|Hrs] & ->).
    + destruct Hrs as (c & Hc & Hdone & ->).
      destruct (C61_dynamic m w W (w_size wd) Hv Hn4 Hsz Hs c Hc Hdone) as (x & i & p & Hi & Ew & El & Ht & Hx & Hq & [E|E]).
      * left. rewrite E. reflexivity.
      * right. exists x, p. rewrite E. cbn [finish]. rewrite map_repeat. auto.
    + exfalso. destruct Hrs as (c & Hc & Hend). destruct Hend as [[Hcr _]|(_ & Hnd & Hst & _)].
      * destruct Hcr as (i & h & local & p & gl & Hi & Est & Ep).
        destruct (C17_no_worker_panics B64 B64_ord B64_pos m (w_size wd - 1) c i h local p gl) as (x & Ex); try assumption. congruence.
      * destruct (C17_no_deadlock B64 B64_ord B64_pos m (w_size wd - 1) Hn4 Hwf Hnnm c Hc); contradiction.
Qed.
End Runs.

(** For every accepted document of doubles: V2 and V3 print an optimal tour, V4 and V6 a tour, V5
    one of at most twice the optimal cost, and so do the threads (which ignore the algorithm),
    and the MPI processes with V0 and V1 (these may panic at the end, C17); the printed cost is
    that of the printed tour; all up to the drift. *)
Theorem C62_exact_runs : forall wd g m w W, rounded_document g m w -> 3 <= na_dim m -> sized w (na_dim m) W ->
  let n := na_dim m in
  (forall a, In a [V2; V3; V4; V5; V6] -> exists x p,
     only_outcome wd (ExactCmd a SingleThreaded) g (mkOut [[BestCost x; BestPermutation p]] Done) /\
     is_tour n p /\ near (drift n W) x (tour_cost w p) /\
     (In a [V2; V3] -> almost 1 w n W p) /\ (a = V5 -> almost 2 w n W p)) /\
  (forall a, 1 <= w_threads wd ->
     (exists o, run wd (ExactCmd a MultiThreaded) (Some g) o) /\
     forall o, run wd (ExactCmd a MultiThreaded) (Some g) o -> exists x p, o = mkOut [[BestCost x; BestPermutation p]] Done /\
       is_tour n p /\ near (drift n W) x (tour_cost w p) /\ almost 2 w n W p) /\
  (2 <= w_size wd -> enough_prefixes n (w_size wd - 1) ->
     (exists o, run wd (ExactCmd V0 MPI) (Some g) o) /\
     forall o, run wd (ExactCmd V0 MPI) (Some g) o -> exists x p, o = mkOut (repeat [BestCost x; BestPermutation p] (w_size wd)) Done /\
       is_tour n p /\ near (drift n W) x (tour_cost w p) /\ almost 2 w n W p) /\
  (4 <= n -> 2 <= w_size wd ->
     (exists o, run wd (ExactCmd V1 MPI) (Some g) o) /\
     forall o, run wd (ExactCmd V1 MPI) (Some g) o -> o = mkOut (repeat [] (w_size wd)) Panicked \/
       exists x p, o = mkOut (repeat [BestCost x; BestPermutation p] (w_size wd)) Done /\
         is_tour n p /\ near (drift n W) x (tour_cost w p) /\ almost 2 w n W p).
Proof.
  intros wd g m w W Hd Hn Hs n. pose proof Hd as (_ & _ & Hv & _ & Hsym). fold n in Hn, Hs, Hsym.
  destruct (C61_second_third m w W Hv ltac:(fold n; lia) Hs) as [(x2 & p2 & E2 & T2 & N2 & O2) (x3 & p3 & E3 & T3 & N3 & O3)].
  destruct (C61_fourth_sixth m w W fx_hash Hv ltac:(fold n; lia) Hs) as [(x4 & p4 & E4 & T4 & N4) (x6 & p6 & E6 & T6 & N6)].
  destruct (C61_fifth_sixth m w W fx_hash Hv ltac:(fold n; lia) Hs) as [(x5 & p5 & E5 & T5 & N5 & O5) _].
  split; [|split; [|split]].
  - intros a [<-|[<-|[<-|[<-|[<-|[]]]]]].
    + exists x2, p2. split; [apply (single wd g m w Hd V2); exact E2|]. split; [exact T2|]. split; [exact N2|]. split; [auto|discriminate].
    + exists x3, p3. split; [apply (single wd g m w Hd V3); exact E3|]. split; [exact T3|]. split; [exact N3|]. split; [auto|discriminate].
    + exists x4, p4. split; [apply (single wd g m w Hd V4); exact E4|]. split; [exact T4|]. split; [exact N4|]. split; [|discriminate].
      intros [H|[H|[]]]; discriminate.
    + exists x5, p5. split; [apply (single wd g m w Hd V5); exact E5|]. split; [exact T5|]. split; [exact N5|]. split; [intros [H|[H|[]]]; discriminate|auto].
    + exists x6, p6. split; [apply (single wd g m w Hd V6); exact E6|]. split; [exact T6|]. split; [exact N6|]. split; [|discriminate].
      intros [H|[H|[]]]; discriminate.
  - intros a. apply (threads_run wd g m w W Hd Hn Hs).
  - apply (static_run wd g m w W Hd Hn Hs).
  - apply (dynamic_runs wd g m w W Hd Hs).
Qed.
Print Assumptions C62_exact_runs.

(** ** C50 on documents of arbitrary doubles: every command with one thread ends and prints. *)
Theorem C50_ends_well_doubles_partial : forall wd g m w W cmd, rounded_document g m w -> 3 <= na_dim m -> sized w (na_dim m) W -> single_threaded cmd ->
  w_debug wd = false \/ is_metric (na_adj m) = Ok true ->
  exists o, only_outcome wd cmd g o /\ ended o = Done /\ lines o <> [].
Proof.
  intros wd g m w W cmd Hd Hn Hs Hst Hdbg. destruct (C59_runs wd g m w Hd Hn) as (Hex & Hlb & Hnn & Hch).
  destruct (C62_exact_runs wd g m w W Hd Hn Hs) as (Hex' & _).
  assert (Hfit : fitting wd (na_dim m) SingleThreaded) by discriminate.
  destruct cmd as [a p|a p lb|a p]; cbn in Hst; subst p.
  - assert (Ha : In a [V0; V1] \/ In a [V2; V3; V4; V5; V6]) by (destruct a; cbn; tauto). destruct Ha as [Ha|Ha].
    + destruct (Hex a Ha) as (x & p & H & _). eexists. split; [exact H|]. split; [reflexivity|discriminate].
    + destruct (Hex' a Ha) as (x & p & H & _). eexists. split; [exact H|]. split; [reflexivity|discriminate].
  - destruct lb as [lb|].
    + destruct (C59_approx_with_bound wd g m w a SingleThreaded lb Hd Hn) as (x & q & b & c & H & _).
      { destruct a; [left; split; [reflexivity|discriminate]|right; auto]. }
      eexists. split; [exact H|]. split; [reflexivity|destruct a; discriminate].
    + destruct a.
      * destruct (Hnn SingleThreaded Hfit) as (x & q & H & _). eexists. split; [exact H|]. split; [reflexivity|discriminate].
      * destruct (Hch Hdbg) as (x & q & H & _). eexists. split; [exact H|]. split; [reflexivity|discriminate].
  - destruct (Hlb a SingleThreaded Hfit) as (o & x & c & H & He & Hl & _). exists o. auto.
Qed.
Print Assumptions C50_ends_well_doubles_partial.

(** The documents of the generator: coordinates in [-10, 10], so no distance is above 32. *)
Lemma euclid_32 p q : (Rabs (r64 (fst p)) <= 10 -> Rabs (r64 (snd p)) <= 10 -> Rabs (r64 (fst q)) <= 10 -> Rabs (r64 (snd q)) <= 10 ->
  0 <= euclid p q <= 30)%R.
Proof.
  intros H1 H2 H3 H4. unfold euclid, dist_euc. split; [apply sqrt_pos|].
  apply Rabs_le_inv in H1, H2, H3, H4. rewrite <- (sqrt_square 30) by lra. apply sqrt_le_1_alt. unfold Rsqr. nra.
Qed.

Theorem C62_generated : forall n rest draws, random_bits draws -> ((Z.of_nat n + 3) ^ 2 * (Z.of_nat n + 1) <= 2 ^ 53)%Z ->
  apart (generated_points n draws) -> 2 <= n ->
  exists g m w, generator_main (Some n :: rest) draws = Ok (Written g) /\ rounded_document g m w /\ na_dim m = n /\ sized w n (2 ^ 1079).
Proof.
  intros n rest draws Hr Hsm Hap Hn.
  assert (H50 : (Z.of_nat n <= 2 ^ 50)%Z) by (assert (2 ^ 53 = 8 * 2 ^ 50)%Z by reflexivity; set (P := (2 ^ 50)%Z) in *; clearbody P; nia).
  destruct (C59_generated n rest draws Hr H50 Hap Hn) as (g & m & w & Eg & Hd & Hdim & _ & Hw).
  exists g, m, w. split; [exact Eg|]. split; [exact Hd|]. split; [exact Hdim|].
  destruct Hd as (_ & _ & _ & (Hnn & _) & _). rewrite Hdim in Hnn. destruct (C58_points n draws Hr) as (Hl & _ & Hc & _).
  split; [exact Hnn|]. split; [|split; [|exact Hsm]].
  - intros i j Hi Hj. specialize (Hw i j Hi Hj). set (ps := generated_points n draws) in *.
    destruct (Hc (pt ps i)) as [A1 A2]; [unfold pt; apply nth_In; rewrite Hl; assumption|].
    destruct (Hc (pt ps j)) as [B1 B2]; [unfold pt; apply nth_In; rewrite Hl; assumption|].
    pose proof (euclid_32 _ _ A1 A2 B1 B2) as He. apply Rabs_le_inv in Hw.
    assert (H1 : (bpow radix2 (-53) <= bpow radix2 (-10))%R) by (apply bpow_le; lia). change (bpow radix2 (-10)) with (/ 1024)%R in H1.
    assert (H2 : (bpow radix2 (-534) <= bpow radix2 (-1))%R) by (apply bpow_le; lia). change (bpow radix2 (-1)) with (/ 2)%R in H2. pose proof (bpow_gt_0 radix2 (-53)).
    apply le_IZR. apply (Rmult_le_reg_r (bpow radix2 (-1074))); [apply bpow_gt_0|].
    change (2 ^ 1079)%Z with (Zpower radix2 1079). rewrite IZR_Zpower by lia. rewrite <- bpow_plus. change (bpow radix2 (1079 + -1074)) with 32%R.
    assert (5 * bpow radix2 (-53) * euclid (pt ps i) (pt ps j) <= 5 * / 1024 * 30)%R by (apply Rmult_le_compat; lra). lra.
  - assert (Hp : (2 ^ 50 * 2 ^ 1079 <= 2 ^ 2094)%Z) by (vm_compute; discriminate). eapply Z.le_trans; [|exact Hp].
    apply Z.mul_le_mono_nonneg_r; [apply Z.pow_nonneg; lia|exact H50].
Qed.
Print Assumptions C62_generated.

(** On the generator's documents, in every build: C50 in full. *)
Theorem C50_generated : forall n rest draws, random_bits draws -> ((Z.of_nat n + 3) ^ 2 * (Z.of_nat n + 1) <= 2 ^ 53)%Z ->
  apart (generated_points n draws) -> 3 <= n ->
  exists g, generator_main (Some n :: rest) draws = Ok (Written g) /\
    forall wd cmd, single_threaded cmd -> exists o, only_outcome wd cmd g o /\ ended o = Done /\ lines o <> [].
Proof.
  intros n rest draws Hr Hsm Hap Hn.
  assert (H50 : (Z.of_nat n <= 2 ^ 50)%Z) by (assert (2 ^ 53 = 8 * 2 ^ 50)%Z by reflexivity; set (P := (2 ^ 50)%Z) in *; clearbody P; nia).
  destruct (C59_generated n rest draws Hr H50 Hap ltac:(lia)) as (g' & m' & w' & Eg' & Hd' & _ & Hmet & _).
  destruct (C62_generated n rest draws Hr Hsm Hap ltac:(lia)) as (g & m & w & Eg & Hd & Hdim & Hsz).
  assert (g' = g) by congruence. subst g'. exists g. split; [exact Eg|]. intros wd cmd Hst.
  apply (C50_ends_well_doubles_partial wd g m w (2 ^ 1079) cmd Hd ltac:(lia) ltac:(rewrite Hdim; exact Hsz) Hst). right.
  destruct Hd as (_ & E & _), Hd' as (_ & E' & _). assert (m' = m) by congruence. subst m'. exact Hmet.
Qed.
Print Assumptions C50_generated.

(** ** Non-vacuity *)
Lemma ex_drift_sized : sized ex_units (na_dim ex_drift) (2 ^ 1080).
Proof.
  split; [apply ex_drift_moderate|]. split; [|split; vm_compute; discriminate].
  intros i j Hi Hj. apply Z.leb_le. apply (all_pairs_spec 4 (fun i j => ex_units i j <=? 2 ^ 1080)%Z); [vm_compute; reflexivity|assumption..].
Qed.
Example C61_applies : exists x p, second_improved_solver (na_adj ex_drift) = Ok (x, p) /\ almost 1 ex_units 4 (2 ^ 1080) p.
Proof.
  destruct (C61_second_third ex_drift ex_units (2 ^ 1080) ex_drift_values ltac:(cbn; lia) ex_drift_sized) as [(x & p & E & _ & _ & H) _]. exists x, p. split; [exact E|exact H].
Qed.
(** the reported number is not the rounded sum of the steps *)
Example C61_drifts : match second_improved_solver (na_adj ex_drift) with
  | Ok (x, p) => match evaluate_circle (na_adj ex_drift) p with Ok y => negb (@ceq B64 x y) | _ => false end | _ => false end = true.
Proof. vm_compute. reflexivity. Qed.
Example C61_threaded_applies : symmetric ex_units (na_dim ex_drift) /\ exists s, threaded_result ex_drift 3 4 s.
Proof.
  split; [exact ex_drift_symmetric|]. destruct (C61_fifth_sixth ex_drift ex_units (2 ^ 1080) fx_hash ex_drift_values ltac:(cbn; lia) ex_drift_sized) as [(x & p & E & _) _].
  exists (x, p). exact E.
Qed.
Example C62_applies : exists g m w, generator_main [Some 3] ex_draws = Ok (Written g) /\ rounded_document g m w /\ na_dim m = 3 /\ sized w 3 (2 ^ 1079).
Proof. destruct C58_applies as (H1 & H2 & _). apply (C62_generated 3 [] ex_draws H1); [vm_compute; discriminate|exact H2|lia]. Qed.
Example C50_generated_applies : exists g, generator_main [Some 3] ex_draws = Ok (Written g) /\
  forall wd cmd, single_threaded cmd -> exists o, only_outcome wd cmd g o /\ ended o = Done /\ lines o <> [].
Proof. destruct C58_applies as (H1 & H2 & _). apply (C50_generated 3 [] ex_draws H1); [vm_compute; discriminate|exact H2|lia]. Qed.
