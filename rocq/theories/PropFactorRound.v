(** C05 and C47 on arbitrary doubles, where the distances of rounded coordinates meet the triangle
    inequality only up to a slack: the factors that remain for the fourth solver and for
    Christofides' algorithm as it is run, and the documents of the generator.

    [f64_values], [holds], [rounded] as in PropRound.v, [sized], [near], [drift] as in PropDrift.v,
    [rounded_document] as in PropCliRound.v, [ceil_log2] as in PropFactor.v.  True costs are in
    units of 2^-1074.  [triangle_up_to w n d]: [w i k <= w i j + w j k + d]. *)
From Coq Require Import ZArith NArith Arith Bool List Permutation Lia Reals Lra.
From Flocq Require Import Core IEEE754.Binary IEEE754.Bits.
From Verif Require Import Num NumB64 Base Spec SpecFacts Data Precond Mst Par MstPar Rand Nn Matching Christofides Exact Threaded Cli
  Dfs PrimProofs SlackProofs RatioProofs FourthProofs FourthDrift Units RoundProofs DriftProofs DriftSolvers Instances Points PointsProofs
  PropExact PropData PropPoints PropChristofides PropRound PropRatio PropCli Generator PropGenerator PropCliRound PropDrift PropFactor.
Import ListNotations.
Local Open Scope nat_scope.

(** ** C05 *)
(** The fourth solver on arbitrary doubles: a tour of at most [ceil_log2 (n - 2) / 2 + 1] times the
    cost of any tour, up to the slack and the drift.  (Missing: optimality, which is false.) *)
Definition log_close (w : nat -> nat -> Z) (n : nat) (W d : Z) (p : list nat) : Prop :=
  forall q, is_tour n q ->
    (2 * tour_cost w p * 2 ^ 53 <= (Z.of_nat (ceil_log2 (n - 2)) + 2) * (tour_cost w q + (Z.of_nat n - 1) * d) * 2 ^ 53 + 4 * drift n W)%Z.

Theorem C05_fourth_rounded_partial : forall m w W d, f64_values m w -> 1 <= na_dim m -> sized w (na_dim m) W ->
  symmetric w (na_dim m) -> (0 <= d)%Z -> triangle_up_to w (na_dim m) d ->
  exists x p, fourth_improved_solver (na_adj m) = Ok (x, p) /\ is_tour (na_dim m) p /\
    near (drift (na_dim m) W) x (tour_cost w p) /\ log_close w (na_dim m) W d p.
Proof.
  intros m w W d Hv Hn Hsz Hs Hd Ht. exact (fourth_log m w W Hv Hn Hsz d Hd Hs Ht).
Qed.
Print Assumptions C05_fourth_rounded_partial.

Lemma holds_fun x a b : holds x a -> holds x b -> a = b.
Proof.
  intros (_ & A) (_ & B). rewrite A in B. apply eq_IZR. apply (Rmult_eq_reg_r (bpow radix2 (-1074))); [exact B|].
  apply Rgt_not_eq, bpow_gt_0.
Qed.
Lemma values_fun m w w' : f64_values m w -> f64_values m w' -> forall i j, i < na_dim m -> j < na_dim m -> w i j = w' i j.
Proof.
  intros (_ & A) (_ & B) i j Hi Hj. destruct (A i j Hi Hj) as (x & Ex & Hx), (B i j Hi Hj) as (y & Ey & Hy).
  assert (y = x) by congruence. subst y. exact (holds_fun x _ _ Hx Hy).
Qed.

(** the documents of the generator: the slack is [2^-32 = 2^1042 * 2^-1074] *)
Lemma generated_slack n rest draws : random_bits draws -> ((Z.of_nat n + 3) ^ 2 * (Z.of_nat n + 1) <= 2 ^ 53)%Z ->
  apart (generated_points n draws) -> 2 <= n ->
  exists g m w, generator_main (Some n :: rest) draws = Ok (Written g) /\ rounded_document g m w /\ na_dim m = n /\ is_metric (na_adj m) = Ok true /\
    sized w n (2 ^ 1079) /\ triangle_up_to w n (2 ^ 1042).
Proof.
  intros Hr Hsm Hap Hn. assert (H50 : (Z.of_nat n <= 2 ^ 50)%Z) by (assert (2 ^ 53 = 8 * 2 ^ 50)%Z by reflexivity; set (P := (2 ^ 50)%Z) in *; clearbody P; nia).
  destruct (C62_generated n rest draws Hr Hsm Hap Hn) as (g & m & w & Eg & Hd & Hdim & Hsz).
  exists g, m, w. split; [exact Eg|]. split; [exact Hd|]. split; [exact Hdim|].
  destruct (C58_points n draws Hr) as (Hl & Hfin & Hw & _). set (ps := generated_points n draws) in *.
  destruct (C58_accepted_iff_apart n rest draws Hr) as (g' & Eg' & Lg & Hacc & _). destruct (Hacc Hap) as (Hp & m' & Em & Ep & Hmet). fold ps in Ep.
  assert (g' = g) by congruence. subst g'.
  pose proof Hd as (_ & Em' & Hv & _ & _). assert (m' = m) by congruence. subst m'.
  assert (Hw' : coords_within ps 16384) by (intros v Hv'; destruct (Hw v Hv'); lra).
  destruct (C56_points ps m false ex_menv (mkFillEnv [] []) 0 (fun _ _ => Panic) Hfin Hw' Ep ltac:(lia) ltac:(rewrite Hl; exact H50) ltac:(lia)) as (w' & Hv' & _ & _ & Ht & _).
  rewrite Hl in Ht. split; [exact Hmet|]. split; [exact Hsz|].
  intros i j k Hi Hj Hk. rewrite !(values_fun m w w' Hv Hv') by (rewrite Hdim; assumption). apply Ht; assumption.
Qed.

Theorem C05_fourth_command_partial : forall wd g m w W d, rounded_document g m w -> 1 <= na_dim m -> sized w (na_dim m) W ->
  (0 <= d)%Z -> triangle_up_to w (na_dim m) d ->
  exists x p, only_outcome wd (ExactCmd V4 SingleThreaded) g (mkOut [[BestCost x; BestPermutation p]] Done) /\
    is_tour (na_dim m) p /\ near (drift (na_dim m) W) x (tour_cost w p) /\ log_close w (na_dim m) W d p.
Proof.
  intros wd g m w W d Hd Hn Hsz Hd0 Ht. pose proof Hd as (_ & _ & Hv & _ & Hs).
  destruct (C05_fourth_rounded_partial m w W d Hv Hn Hsz Hs Hd0 Ht) as (x & p & E & H). exists x, p. split; [|exact H].
  apply (single wd g m w Hd V4). exact E.
Qed.
Print Assumptions C05_fourth_command_partial.

Theorem C05_fourth_generated_partial : forall n rest draws wd, random_bits draws -> ((Z.of_nat n + 3) ^ 2 * (Z.of_nat n + 1) <= 2 ^ 53)%Z ->
  apart (generated_points n draws) -> 2 <= n ->
  exists g m w x p, generator_main (Some n :: rest) draws = Ok (Written g) /\ rounded_document g m w /\ na_dim m = n /\
    only_outcome wd (ExactCmd V4 SingleThreaded) g (mkOut [[BestCost x; BestPermutation p]] Done) /\
    is_tour n p /\ near (drift n (2 ^ 1079)) x (tour_cost w p) /\ log_close w n (2 ^ 1079) (2 ^ 1042) p.
Proof.
  intros n rest draws wd Hr Hsm Hap Hn.
  destruct (generated_slack n rest draws Hr Hsm Hap Hn) as (g & m & w & Eg & Hd & Hdim & _ & Hsz & Ht). subst n.
  destruct (C05_fourth_command_partial wd g m w (2 ^ 1079) (2 ^ 1042)%Z Hd ltac:(lia) Hsz ltac:(vm_compute; discriminate) Ht) as (x & p & H).
  exists g, m, w, x, p. auto.
Qed.
Print Assumptions C05_fourth_generated_partial.

(** ** C47 *)
(** The command approx christofides on arbitrary doubles: the number it prints is the cost of a tour
    of at most [n / 2] times the cost of any tour, up to the slack.  (Missing: the factor 3/2,
    which is false.) *)
Theorem C47_command_rounded_partial : forall wd g m w d, rounded_document g m w -> 3 <= na_dim m ->
  (0 <= d)%Z -> triangle_up_to w (na_dim m) d -> w_debug wd = false \/ is_metric (na_adj m) = Ok true ->
  exists x p, only_outcome wd (ApproxCmd Christofides SingleThreaded None) g (mkOut [[ChristofidesWeight x]] Done) /\
    is_tour (na_dim m) p /\ rounded (na_dim m) x (tour_cost w p) /\
    forall q, is_tour (na_dim m) q -> (2 * tour_cost w p <= Z.of_nat (na_dim m) * (tour_cost w q + (Z.of_nat (na_dim m) - 2) * d))%Z.
Proof.
  intros wd g m w d Hd Hn Hd0 Ht Hdb. destruct (C59_runs wd g m w Hd Hn) as (_ & _ & _ & H). destruct (H Hdb) as (x & p & Ho & Hp & Hx).
  exists x, p. split; [exact Ho|]. split; [exact Hp|]. split; [exact Hx|]. intros q Hq.
  destruct Hd as (_ & _ & _ & (Hnn & _) & Hs). exact (tour_half_n w (na_dim m) d Hd0 Hs Ht Hnn p q ltac:(lia) Hp Hq).
Qed.
Print Assumptions C47_command_rounded_partial.

Theorem C47_generated_partial : forall n rest draws wd, random_bits draws -> ((Z.of_nat n + 3) ^ 2 * (Z.of_nat n + 1) <= 2 ^ 53)%Z ->
  apart (generated_points n draws) -> 3 <= n ->
  exists g m w x p, generator_main (Some n :: rest) draws = Ok (Written g) /\ rounded_document g m w /\ na_dim m = n /\
    only_outcome wd (ApproxCmd Christofides SingleThreaded None) g (mkOut [[ChristofidesWeight x]] Done) /\
    is_tour n p /\ rounded n x (tour_cost w p) /\
    forall q, is_tour n q -> (2 * tour_cost w p <= Z.of_nat n * (tour_cost w q + (Z.of_nat n - 2) * 2 ^ 1042))%Z.
Proof.
  intros n rest draws wd Hr Hsm Hap Hn.
  destruct (generated_slack n rest draws Hr Hsm Hap ltac:(lia)) as (g & m & w & Eg & Hd & Hdim & Hmet & _ & Ht). subst n.
  destruct (C47_command_rounded_partial wd g m w (2 ^ 1042)%Z Hd Hn ltac:(vm_compute; discriminate) Ht (or_intror Hmet)) as (x & p & H).
  exists g, m, w, x, p. auto.
Qed.
Print Assumptions C47_generated_partial.

(** ** Non-vacuity *)
Example C05_generated_applies : forall wd, exists g m w x p, generator_main [Some 3] ex_draws = Ok (Written g) /\ rounded_document g m w /\ na_dim m = 3 /\
  only_outcome wd (ExactCmd V4 SingleThreaded) g (mkOut [[BestCost x; BestPermutation p]] Done) /\ log_close w 3 (2 ^ 1079) (2 ^ 1042) p.
Proof.
  intros wd. destruct C58_applies as (H1 & H2 & _).
  destruct (C05_fourth_generated_partial 3 [] ex_draws wd H1) as (g & m & w & x & p & A & B & C & D & _ & _ & E); [vm_compute; discriminate|exact H2|lia|].
  exists g, m, w, x, p. auto.
Qed.
Example C47_generated_applies : forall wd, exists g x, generator_main [Some 3] ex_draws = Ok (Written g) /\
  only_outcome wd (ApproxCmd Christofides SingleThreaded None) g (mkOut [[ChristofidesWeight x]] Done).
Proof.
  intros wd. destruct C58_applies as (H1 & H2 & _).
  destruct (C47_generated_partial 3 [] ex_draws wd H1) as (g & m & w & x & p & A & _ & _ & D & _); [vm_compute; discriminate|exact H2|lia|].
  exists g, x. auto.
Qed.
