(** C59: the command line program on documents of arbitrary doubles, with rounding; and on the
    documents of the generator. *)
From Coq Require Import ZArith Arith Bool List Permutation Lia Reals Lra.
From Flocq Require Import Core IEEE754.Binary IEEE754.Bits.
From Flocq Require IEEE754.BinarySingleNaN.
From Verif Require Import Num NumB64 F64Facts Base Spec SpecFacts Data Precond Mst Par MstPar OneTree Rand Nn Matching Christofides Exact Threaded Mpi Cli
  PrimProofs Units RoundProofs Instances Points PointsProofs DistProofs PropExact PropMst PropNn PropData PropPoints PropChristofides PropRound PropRatio PropCli
  Generator GeneratorProofs PropGenerator.
Import ListNotations.
Local Open Scope nat_scope.

(** The document is accepted and [m] is the matrix read from it; its entries are finite doubles of
    the values [w] (in units of 2^-1074, see PropRound.v), non-negative and symmetric, and their sums do
    not overflow. *)
Definition rounded_document (g : graph B64) (m : namatrix B64) (w : nat -> nat -> Z) : Prop :=
  parse_from_xml (Some g) = Ok (Some g) /\ na_from_graph g = Ok m /\
  f64_values m w /\ moderate w (na_dim m) /\ symmetric w (na_dim m).

Lemma rounded_instance g m w : rounded_document g m w ->
  forall T procs (stop : outcome B64 -> T) k, with_instance procs (Some g) stop k = k m.
Proof. intros (H1 & H2 & _) T procs stop k. unfold with_instance. rewrite H1, H2. reflexivity. Qed.

(** The numbers of roundings of the bounds. *)
Definition roundings (a : lower_bound_algorithm) (n : nat) : nat := match a with MSTQueue => 3 * n | _ => 2 * n end.

Section Runs.
Variables (wd : world) (g : graph B64) (m : namatrix B64) (w : nat -> nat -> Z).
Hypothesis Hdoc : rounded_document g m w.
Let n := na_dim m.
Hypothesis Hn : 3 <= n.

(** V0 and V1: a tour that is optimal up to rounding, with its cost up to rounding *)
Lemma exact_rounded a : In a [V0; V1] -> exists x p,
  only_outcome wd (ExactCmd a SingleThreaded) g (mkOut [[BestCost x; BestPermutation p]] Done) /\
  is_tour n p /\ rounded n x (tour_cost w p) /\
  forall q, is_tour n q -> (tour_cost w p * (2 ^ 53 - 1) ^ Z.of_nat n <= tour_cost w q * (2 ^ 53 + 1) ^ Z.of_nat n)%Z.
Proof.
  pose proof (rounded_instance _ _ _ Hdoc) as HI. destruct Hdoc as (_ & _ & Hv & Hm & Hs).
  assert (R : forall x p, exact_solver a m = Ok (x, p) -> only_outcome wd (ExactCmd a SingleThreaded) g (mkOut [[BestCost x; BestPermutation p]] Done)).
  { intros x p E o'. cbn [run]. unfold exact_run. rewrite HI. unfold exact_solved. rewrite E. cbn [bind].
    split; [intros (rs & -> & ->); reflexivity|]. intros ->. eexists. split; reflexivity. }
  intros [<-|[<-|[]]].
  - destruct (C52_naive_near_optimal m w Hv Hm ltac:(fold n; lia)) as (x & p & E & H1 & H2 & H3). exists x, p. split; [apply R; exact E|]. auto.
  - destruct (C52_first_near_optimal m w Hv Hm Hs Hn) as (x & p & E & H1 & _ & H2 & H3). exists x, p. split; [apply R; exact E|]. auto.
Qed.

(** the bounds: at most the true cost of every tour, up to rounding *)
Lemma bound_rounded a p : fitting wd n p -> exists o x c, only_outcome wd (LowerBoundCmd a p) g o /\ ended o = Done /\
  lines o <> [] /\ (forall l, In l (lines o) -> l = bound_line a x) /\
  rounded (roundings a n) x c /\ forall q, is_tour n q -> (c <= tour_cost w q)%Z.
Proof.
  pose proof (rounded_instance _ _ _ Hdoc) as HI. destruct Hdoc as (_ & _ & Hv & Hm & Hs). intros Hf.
  assert (Hp : 1 <= processes wd p) by (destruct p; cbn; [lia|lia|destruct (Hf eq_refl); lia]).
  assert (R : forall x, lower_bound_run wd false (processes wd p) a p (Some g) = mkOut (repeat [bound_line a x] (processes wd p)) Done ->
    exists o, only_outcome wd (LowerBoundCmd a p) g o /\ ended o = Done /\ lines o <> [] /\ (forall l, In l (lines o) -> l = bound_line a x)).
  { intros x E. eexists. split; [intros o'; cbn [run]; rewrite E; reflexivity|]. split; [reflexivity|]. unfold lines. cbn [printed].
    split; [apply concat_repeat_ne; exact Hp|]. intros l Hl. apply (in_concat_repeat _ _ _ Hl). }
  destruct a.
  - destruct (C54_one_tree_bounds m w (w_tree wd) Hv Hm Hs Hn) as (c & x & E1 & E2 & Hx & _ & _ & Hc). destruct p.
    + destruct (R x) as (o & H1 & H2 & H3 & H4); [unfold lower_bound_run; rewrite HI, E1; reflexivity|]. exists o, x, c. auto 10.
    + destruct (R x) as (o & H1 & H2 & H3 & H4); [unfold lower_bound_run; rewrite HI, E2; reflexivity|]. exists o, x, c. auto 10.
    + destruct (Hf eq_refl) as (Hsz & Ho & _).
      destruct (C54_one_tree_mpi m w (w_order wd) (w_tree wd) (w_size wd) Hv Hm Hs Hn Hsz Ho) as (c' & x' & y & E & Hx' & _ & _ & _ & Hc').
      exists (mkOut ([OneTreeBound x'] :: map (fun _ => []) (repeat (@cinf B64) (w_size wd - 1))) Done), x', c'. split.
      * intros o'. cbn [run]. unfold lower_bound_run. rewrite HI. cbn [processes]. rewrite E. reflexivity.
      * split; [reflexivity|]. unfold lines. cbn [printed concat]. rewrite concat_nil_map. split; [discriminate|]. split; [intros l [<-|[]]; reflexivity|auto].
  - set (mode := match p with SingleThreaded => SEQ_COMPUTATION | MultiThreaded => PAR_COMPUTATION | MPI => MPI_COMPUTATION end).
    assert (Hmode : mode <= 2) by (unfold mode; destruct p; repeat constructor).
    destruct (C54_mst_bounds m w (w_menv wd) mode (w_pick wd) Hv Hm Hs ltac:(fold n; lia) Hmode) as (c & x & y & E & Hx & _ & _ & Hc).
    destruct (R x) as (o & H1 & H2 & H3 & H4); [|exists o, x, c; auto 10].
    unfold lower_bound_run. rewrite HI. fold mode. unfold mst_bound in E. destruct (prim (w_menv wd) mode m) as [t| |]; [|discriminate..].
    cbn [bind] in E. assert (E' : undirected_edge_weight t = x) by congruence. cbn [finish]. rewrite E'. reflexivity.
  - destruct (C54_mst_bounds m w (w_menv wd) 0 (w_pick wd) Hv Hm Hs ltac:(fold n; lia) ltac:(lia)) as (c & x & y & _ & _ & E & Hy & Hc).
    destruct (R y) as (o & H1 & H2 & H3 & H4); [|exists o, y, c; auto 10].
    unfold lower_bound_run. rewrite HI. unfold mst_queue_bound in E. destruct (prim_with_excluded_node_priority_queue (w_pick wd) m []) as [t| |]; [|discriminate..].
    cbn [bind] in E. assert (E' : undirected_edge_weight t = y) by congruence. cbn [finish]. rewrite E'. reflexivity.
Qed.

(** nearest neighbour: a greedy tour with its cost up to rounding, the same on every process *)
Lemma nn_rounded p : fitting wd n p -> exists x q,
  only_outcome wd (ApproxCmd NearestNeighbour p None) g (mkOut (repeat [NnWeight x; NnSolution q] (processes wd p)) Done) /\
  is_tour n q /\ greedy_tour w n q /\ rounded n x (tour_cost w q).
Proof.
  pose proof (rounded_instance _ _ _ Hdoc) as HI. destruct Hdoc as (_ & _ & Hv & Hm & Hs). intros Hf.
  assert (E : exists x q, (match p with
     | SingleThreaded => s <- nearest_neighbour (w_nnenv wd) SEQ_COMPUTATION m ;; Ok [s]
     | MultiThreaded => s <- nearest_neighbour (w_nnenv wd) PAR_COMPUTATION m ;; Ok [s]
     | MPI => nearest_neighbour_mpi (w_nnorder wd) (w_nntree wd) m (w_size wd)
     end) = Ok (repeat (x, q) (processes wd p)) /\ is_tour n q /\ greedy_tour w n q /\ rounded n x (tour_cost w q)).
  { destruct p.
    - destruct (C55_best_start_rounded m w (w_nnenv wd) SEQ_COMPUTATION n Hv Hm ltac:(fold n; lia) ltac:(repeat constructor) ltac:(fold n; lia)) as (st & x & q & _ & _ & _ & E & H1 & _ & H2 & H3 & _).
      exists x, q. split; [|auto]. unfold nearest_neighbour. fold n. rewrite E. reflexivity.
    - destruct (C55_best_start_rounded m w (w_nnenv wd) PAR_COMPUTATION n Hv Hm ltac:(fold n; lia) ltac:(repeat constructor) ltac:(fold n; lia)) as (st & x & q & _ & _ & _ & E & H1 & _ & H2 & H3 & _).
      exists x, q. split; [|auto]. unfold nearest_neighbour. fold n. rewrite E. reflexivity.
    - destruct (Hf eq_refl) as (Hsz & _ & Ho).
      destruct (C55_mpi_rounded m w (w_nnorder wd) (w_nntree wd) (w_size wd) Hv Hm ltac:(fold n; lia) Hsz Ho) as (x & q & E & H1 & H2 & H3 & _). exists x, q. auto. }
  destruct E as (x & q & E & H1 & H2 & H3). exists x, q. split; [|auto].
  intros o'. cbn [run]. unfold approx_run. rewrite HI, E. cbn [finish option_map then_bound]. rewrite map_repeat. reflexivity.
Qed.

(** christofides: the cost of a tour up to rounding *)
Lemma christofides_rounded : w_debug wd = false \/ is_metric (na_adj m) = Ok true -> exists x q,
  only_outcome wd (ApproxCmd Christofides SingleThreaded None) g (mkOut [[ChristofidesWeight x]] Done) /\
  is_tour n q /\ rounded n x (tour_cost w q).
Proof.
  intros Hdbg. pose proof (rounded_instance _ _ _ Hdoc) as HI. destruct Hdoc as (_ & _ & Hv & Hm & Hs).
  destruct (C28_sequential B64 B64_ord m (na_val m) (w_debug wd) (w_menv wd) (w_fillenv wd) (matching_env wd)) as (x & p & E & Ht & _ & Hc).
  { apply Hv. }
  { intros; apply na_get_val; [apply Hv|assumption..]. }
  { intros i j Hi Hj _. apply (holds_lt_inf _ (w i j)). apply values_val; assumption. }
  { fold n. lia. }
  { intros Hd. destruct Hdbg as [H|H]; [congruence|exact H]. }
  exists x, (0 :: p). split; [|split; [exact Ht|]].
  - intros o'. cbn [run]. unfold approx_run. rewrite HI, E. reflexivity.
  - destruct (tour_rounded m w (0 :: p) Hv Hm ltac:(fold n; lia) Ht) as (y & Ey & Hy). rewrite (Hc ltac:(fold n; lia)) in Ey. injection Ey as <-. exact Hy.
Qed.

(** a run of a bound without MPI prints one line *)
Lemma bound_single a p : p <> MPI -> exists x c, lower_bound_run wd false 1 a p (Some g) = mkOut [[bound_line a x]] Done /\
  rounded (roundings a n) x c /\ forall q, is_tour n q -> (c <= tour_cost w q)%Z.
Proof.
  pose proof (rounded_instance _ _ _ Hdoc) as HI. destruct Hdoc as (_ & _ & Hv & Hm & Hs). intros Hp. destruct a.
  - destruct (C54_one_tree_bounds m w (w_tree wd) Hv Hm Hs Hn) as (c & x & E1 & E2 & Hx & _ & _ & Hc). exists x, c. split; [|auto].
    unfold lower_bound_run. rewrite HI. destruct p; [rewrite E1; reflexivity|rewrite E2; reflexivity|congruence].
  - set (mode := match p with SingleThreaded => SEQ_COMPUTATION | MultiThreaded => PAR_COMPUTATION | MPI => MPI_COMPUTATION end).
    assert (Hmode : mode <= 2) by (unfold mode; destruct p; repeat constructor).
    destruct (C54_mst_bounds m w (w_menv wd) mode (w_pick wd) Hv Hm Hs ltac:(fold n; lia) Hmode) as (c & x & y & E & Hx & _ & _ & Hc).
    exists x, c. split; [|auto]. unfold lower_bound_run. rewrite HI. fold mode. unfold mst_bound in E. destruct (prim (w_menv wd) mode m) as [t| |]; [|discriminate..].
    cbn [bind] in E. assert (E' : undirected_edge_weight t = x) by congruence. cbn [finish]. rewrite E'. reflexivity.
  - destruct (C54_mst_bounds m w (w_menv wd) 0 (w_pick wd) Hv Hm Hs ltac:(fold n; lia) ltac:(lia)) as (c & x & y & _ & _ & E & Hy & Hc).
    exists y, c. split; [|auto]. unfold lower_bound_run. rewrite HI. unfold mst_queue_bound in E.
    destruct (prim_with_excluded_node_priority_queue (w_pick wd) m []) as [t| |]; [|discriminate..].
    cbn [bind] in E. assert (E' : undirected_edge_weight t = y) by congruence. cbn [finish]. rewrite E'. reflexivity.
Qed.

(** option --lower-bound prints the line of the bound below those of the approximation *)
Lemma approx_then_bound a p lb (l : list (line B64)) (bl : line B64) : p <> MPI -> approx_run wd a p None (Some g) = mkOut [l] Done ->
  lower_bound_run wd false 1 lb p (Some g) = mkOut [[bl]] Done -> approx_run wd a p (Some lb) (Some g) = mkOut [l ++ [bl]] Done.
Proof.
  pose proof (rounded_instance _ _ _ Hdoc) as HI. intros Hp. unfold approx_run. rewrite !HI.
  assert (Hpr : processes wd p = 1) by (destruct p; [reflexivity|reflexivity|congruence]). rewrite Hpr.
  assert (Hi : match p with MPI => true | _ => false end = false) by (destruct p; [reflexivity|reflexivity|congruence]). rewrite Hi.
  destruct a.
  - match goal with |- finish 1 ?r _ = _ -> _ => destruct r as [sols| |] end; [|discriminate..]. cbn [finish option_map then_bound].
    intros E Eb. rewrite Eb. assert (Es : map (fun s => [NnWeight (fst s); NnSolution (snd s)]) sols = [l]) by congruence. rewrite Es. reflexivity.
  - match goal with |- finish 1 ?r _ = _ -> _ => destruct r as [s| |] end; [|discriminate..]. cbn [finish option_map then_bound].
    intros E Eb. rewrite Eb. assert (Es : ChristofidesWeight (fst s) :: [] = l) by congruence. subst l. reflexivity.
Qed.
End Runs.

(** ** C59: all of it, for every accepted document *)
Theorem C59_runs : forall wd g m w, rounded_document g m w -> 3 <= na_dim m ->
  let n := na_dim m in
  (forall a, In a [V0; V1] -> exists x p,
     only_outcome wd (ExactCmd a SingleThreaded) g (mkOut [[BestCost x; BestPermutation p]] Done) /\
     is_tour n p /\ rounded n x (tour_cost w p) /\
     forall q, is_tour n q -> (tour_cost w p * (2 ^ 53 - 1) ^ Z.of_nat n <= tour_cost w q * (2 ^ 53 + 1) ^ Z.of_nat n)%Z) /\
  (forall a p, fitting wd n p -> exists o x c, only_outcome wd (LowerBoundCmd a p) g o /\ ended o = Done /\
     lines o <> [] /\ (forall l, In l (lines o) -> l = bound_line a x) /\
     rounded (roundings a n) x c /\ forall q, is_tour n q -> (c <= tour_cost w q)%Z) /\
  (forall p, fitting wd n p -> exists x q,
     only_outcome wd (ApproxCmd NearestNeighbour p None) g (mkOut (repeat [NnWeight x; NnSolution q] (processes wd p)) Done) /\
     is_tour n q /\ greedy_tour w n q /\ rounded n x (tour_cost w q)) /\
  (w_debug wd = false \/ is_metric (na_adj m) = Ok true -> exists x q,
     only_outcome wd (ApproxCmd Christofides SingleThreaded None) g (mkOut [[ChristofidesWeight x]] Done) /\
     is_tour n q /\ rounded n x (tour_cost w q)).
Proof.
  intros wd g m w Hd Hn n. split; [|split; [|split]].
  - intros a. apply exact_rounded; assumption.
  - intros a p. apply bound_rounded; assumption.
  - intros p. apply nn_rounded; assumption.
  - apply christofides_rounded; assumption.
Qed.
Print Assumptions C59_runs.

(** With option --lower-bound (one thread, and nearest neighbour also with several): the tour's line
    or lines, and below them a bound that is, up to rounding, at most the cost of every tour. *)
Theorem C59_approx_with_bound : forall wd g m w a p lb, rounded_document g m w -> 3 <= na_dim m ->
  (a = NearestNeighbour /\ p <> MPI \/ a = Christofides /\ p = SingleThreaded /\ (w_debug wd = false \/ is_metric (na_adj m) = Ok true)) ->
  let n := na_dim m in exists x q b c,
    only_outcome wd (ApproxCmd a p (Some lb)) g
      (mkOut [match a with NearestNeighbour => [NnWeight x; NnSolution q; bound_line lb b] | Christofides => [ChristofidesWeight x; bound_line lb b] end] Done) /\
    is_tour n q /\ rounded n x (tour_cost w q) /\ rounded (roundings lb n) b c /\ forall q', is_tour n q' -> (c <= tour_cost w q')%Z.
Proof.
  intros wd g m w a p lb Hd Hn Ha n.
  assert (Hp : p <> MPI) by (destruct Ha as [[_ H]|(_ & -> & _)]; [exact H|discriminate]).
  destruct (bound_single wd g m w Hd Hn lb p Hp) as (b & c & Eb & Hb & Hc).
  assert (Hpr : processes wd p = 1) by (destruct p; [reflexivity|reflexivity|congruence]).
  destruct Ha as [[-> _]|(-> & -> & Hdbg)].
  - destruct (nn_rounded wd g m w Hd Hn p ltac:(intros; congruence)) as (x & q & Ho & Ht & _ & Hx). exists x, q, b, c. split; [|auto].
    rewrite Hpr in Ho. pose proof (proj1 (Ho (approx_run wd NearestNeighbour p None (Some g))) eq_refl) as E.
    intros o'. cbn [run]. rewrite (approx_then_bound wd g m w Hd _ _ _ _ _ Hp E Eb). reflexivity.
  - destruct (christofides_rounded wd g m w Hd Hn Hdbg) as (x & q & Ho & Ht & Hx). exists x, q, b, c. split; [|auto].
    pose proof (proj1 (Ho (approx_run wd Christofides SingleThreaded None (Some g))) eq_refl) as E.
    intros o'. cbn [run]. rewrite (approx_then_bound wd g m w Hd _ _ _ _ _ Hp E Eb). reflexivity.
Qed.
Print Assumptions C59_approx_with_bound.

(** Every generated document without coinciding points is such a document, in every build, and
    its values are the Euclidean distances of the points up to rounding. *)
Theorem C59_generated : forall n rest draws, random_bits draws -> (Z.of_nat n <= 2 ^ 50)%Z ->
  let ps := generated_points n draws in apart ps -> 2 <= n ->
  exists g m w, generator_main (Some n :: rest) draws = Ok (Written g) /\ rounded_document g m w /\ na_dim m = n /\ is_metric (na_adj m) = Ok true /\
    forall i j, i < n -> j < n ->
      (Rabs (IZR (w i j) * bpow radix2 (-1074) - euclid (pt ps i) (pt ps j)) <= 5 * bpow radix2 (-53) * euclid (pt ps i) (pt ps j) + bpow radix2 (-534))%R.
Proof.
  intros n rest draws Hr Hsmall ps Hap Hn. destruct (C58_points n draws Hr) as (Hl & Hf & Hw & _). fold ps in Hl, Hf, Hw.
  destruct (C58_accepted_iff_apart n rest draws Hr) as (g & Eg & Lg & Hacc & _). destruct (Hacc Hap) as (Hp & m & Em & Ep & Hmet). fold ps in Ep.
  assert (Hw' : coords_within ps 16384) by (intros p Hp'; destruct (Hw p Hp'); lra).
  destruct (C56_points ps m false ex_menv (mkFillEnv [] []) 0 (fun _ _ => Panic) Hf Hw' Ep ltac:(lia) ltac:(rewrite Hl; exact Hsmall) ltac:(lia)) as (w & Hv & Hm & Hs & _).
  rewrite Hl in *. assert (Hdim : na_dim m = n) by (destruct (C38_f64 ps Hf) as (m' & E' & _ & D & _); rewrite Ep in E'; injection E' as <-; lia).
  exists g, m, w. split; [exact Eg|]. split; [split; [exact Hp|]; split; [exact Em|]; split; [exact Hv|]; rewrite Hdim; auto|]. split; [exact Hdim|]. split; [exact Hmet|].
  intros i j Hi Hj. assert (Hb : coords_within ps (bpow radix2 500)).
  { intros p Hp'. destruct (Hw p Hp') as [A B]. assert (H : (10 <= bpow radix2 500)%R) by (apply Rle_trans with (bpow radix2 4); [cbn; lra|apply bpow_le; lia]). lra. }
  destruct (C49_accurate ps m i j Hf Hb Ep ltac:(lia) ltac:(lia)) as (x & Gx & Fx & Hx).
  destruct (proj2 Hv i j ltac:(lia) ltac:(lia)) as (y & Gy & [_ Hy]). assert (y = x) by congruence. subst y. unfold r64 in Hx. rewrite Hy in Hx. exact Hx.
Qed.
Print Assumptions C59_generated.

(** ** Non-vacuity *)
Example C59_applies : exists g m w, generator_main [Some 3] ex_draws = Ok (Written g) /\ rounded_document g m w /\ na_dim m = 3 /\ is_metric (na_adj m) = Ok true.
Proof.
  destruct C58_applies as (H1 & H2 & _). destruct (C59_generated 3 [] ex_draws H1 ltac:(lia) H2 ltac:(lia)) as (g & m & w & A & B & C & D & _). exists g, m, w. auto.
Qed.
