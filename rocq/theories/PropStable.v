(** C84: costs that are not quite right.

    Distances are measured or rounded; a user expects results that are nearly right when the costs are, and costs that do
    not rise when distances shrink. *)
From Coq Require Import ZArith Arith Bool List Permutation Lia.
From Verif Require Import Num NumB64 Base Data Exact Mst Par Rand MstPar OneTree Nn Spec SpecFacts Instances RenameProofs StableSpec StableProofs PropExact PropMst PropNn.
Import ListNotations.
Local Open Scope nat_scope.

(** both runs end with a cost, the second at most [d] above the first *)
Definition rises_at_most (d : Z) {N : Num} (inj : Z -> C N) (a b : res (C N * list nat)) : Prop :=
  exists c p c' q, a = Ok (inj c, p) /\ b = Ok (inj c', q) /\ (c' <= c + d)%Z.

Lemma rises_intro n w w' d (N : Num) (inj : Z -> C N) a b : raised_by_at_most n w w' d ->
  (exists c p, a = Ok (inj c, p) /\ is_optimal w n c p) -> (exists c p, b = Ok (inj c, p) /\ is_optimal w' n c p) -> rises_at_most (d * Z.of_nat n) inj a b.
Proof.
  intros H (c & p & -> & Hp) (c' & q & -> & Hq). exists c, p, c', q. repeat split. apply (optimal_raised n w w' d H c c' p q Hp Hq).
Qed.

(** If no cost is raised by more than [d], the cost found by V0 to V3 rises by at most [n * d].  With [d = 0]: lower costs never make it rise. *)
Theorem C84_exact : forall n w w' d, raised_by_at_most n w w' d ->
  let a := na_adj (int_matrix n w) in let b := na_adj (int_matrix n w') in
  let close := rises_at_most (d * Z.of_nat n) (Fin : Z -> C EZ) in
  (2 <= n -> close (naive_solver a) (naive_solver b)) /\
  (3 <= n -> symmetric w n -> symmetric w' n -> close (first_improved_solver a) (first_improved_solver b)) /\
  (1 <= n -> close (second_improved_solver a) (second_improved_solver b)) /\
  (1 <= n -> nonneg w n -> nonneg w' n -> close (third_improved_solver a) (third_improved_solver b)).
Proof.
  intros n w w' d H a b close. repeat split; intros Hn.
  - apply (rises_intro n w w' d EZ); [exact H|apply C01_naive_optimal; assumption..].
  - intros Hs Hs'. apply (rises_intro n w w' d EZ); [exact H|apply C02_first_optimal_partial; assumption..].
  - apply (rises_intro n w w' d EZ); [exact H|apply C03_second_optimal; assumption..].
  - intros Hs Hs'. apply (rises_intro n w w' d EZ); [exact H|apply C04_third_optimal; assumption..].
Qed.

Theorem C84_exact_f64 : forall e n w w' W d, (-1074 <= e <= 970)%Z -> bounded w n W -> bounded w' n W -> (W * (Z.of_nat n + 1) <= 2 ^ 53)%Z -> raised_by_at_most n w w' d ->
  let a := na_adj (f64_matrix e n w) in let b := na_adj (f64_matrix e n w') in
  let close := rises_at_most (d * Z.of_nat n) (b64_inj e : Z -> C B64) in
  (2 <= n -> close (naive_solver a) (naive_solver b)) /\
  (3 <= n -> symmetric w n -> symmetric w' n -> close (first_improved_solver a) (first_improved_solver b)) /\
  (1 <= n -> close (second_improved_solver a) (second_improved_solver b)) /\
  (1 <= n -> nonneg w n -> nonneg w' n -> close (third_improved_solver a) (third_improved_solver b)).
Proof.
  intros e n w w' W d He HW HW' HB H a b close. repeat split; intros Hn.
  - apply (rises_intro n w w' d B64); [exact H|exact (C01_naive_optimal_f64 e n w W He Hn HW HB)|exact (C01_naive_optimal_f64 e n w' W He Hn HW' HB)].
  - intros Hs Hs'. apply (rises_intro n w w' d B64); [exact H|exact (C02_first_optimal_f64_partial e n w W He Hn Hs HW HB)|exact (C02_first_optimal_f64_partial e n w' W He Hn Hs' HW' HB)].
  - apply (rises_intro n w w' d B64); [exact H|exact (C03_second_optimal_f64 e n w W He Hn HW HB)|exact (C03_second_optimal_f64 e n w' W He Hn HW' HB)].
  - intros Hs Hs'. apply (rises_intro n w w' d B64); [exact H|exact (C04_third_optimal_f64 e n w W He Hn Hs HW HB)|exact (C04_third_optimal_f64 e n w' W He Hn Hs' HW' HB)].
Qed.

(** A minimum spanning tree of [k] vertices rises by at most [(k - 1) * d], the 1-tree bound by at most [n * d]. *)
Theorem C84_trees : forall n w w' d, symmetric w n -> symmetric w' n -> raised_by_at_most n w w' d ->
  (forall X, Forall (fun x => x < n) X -> (exists v, v < n /\ ~ In v X) ->
    exists c c' g g', prim_with_excluded_node_single_threaded (int_matrix n w) X = Ok g /\ undirected_edge_weight g = Fin c /\
      prim_with_excluded_node_single_threaded (int_matrix n w') X = Ok g' /\ undirected_edge_weight g' = Fin c' /\
      (c' <= c + d * (Z.of_nat (length (free_vertices n X)) - 1))%Z) /\
  (3 <= n -> exists c c', one_tree_lower_bound_seq (int_matrix n w) = Ok (Fin c : C EZ) /\
    one_tree_lower_bound_seq (int_matrix n w') = Ok (Fin c' : C EZ) /\ (c' <= c + d * Z.of_nat n)%Z).
Proof.
  intros n w w' d Hs Hs' H. split.
  - intros X HX Hex.
    destruct (C19_minimum_weight n w X Hs HX Hex) as (g & T & Eg & HT & _ & Ew & MT).
    destruct (C19_minimum_weight n w' X Hs' HX Hex) as (g' & T' & Eg' & HT' & _ & Ew' & MT').
    exists (edges_cost w T), (edges_cost w' T'), g, g'. pose proof (tree_raised n w w' d H X T T' HT HT' MT'). auto.
  - intros Hn. destruct (C23_one_tree_value n w Hn Hs) as (c & E & V1 & V2 & _). destruct (C23_one_tree_value n w' Hn Hs') as (c' & E' & V1' & V2' & _).
    exists c, c'. split; [exact E|]. split; [exact E'|]. apply (one_tree_raised n w w' d H); split; assumption.
Qed.

Theorem C84_trees_f64 : forall e n w w' W d, (-1074 <= e <= 970)%Z -> bounded w n W -> bounded w' n W -> (2 * W * Z.of_nat n <= 2 ^ 53)%Z ->
  symmetric w n -> symmetric w' n -> raised_by_at_most n w w' d ->
  (forall X, Forall (fun x => x < n) X -> (exists v, v < n /\ ~ In v X) ->
    exists c c' g g', prim_with_excluded_node_single_threaded (f64_matrix e n w) X = Ok g /\ undirected_edge_weight g = b64_inj e c /\
      prim_with_excluded_node_single_threaded (f64_matrix e n w') X = Ok g' /\ undirected_edge_weight g' = b64_inj e c' /\
      (c' <= c + d * (Z.of_nat (length (free_vertices n X)) - 1))%Z) /\
  (3 <= n -> exists c c', one_tree_lower_bound_seq (f64_matrix e n w) = Ok (b64_inj e c : C B64) /\
    one_tree_lower_bound_seq (f64_matrix e n w') = Ok (b64_inj e c' : C B64) /\ (c' <= c + d * Z.of_nat n)%Z).
Proof.
  intros e n w w' W d He HW HW' HB Hs Hs' H. split.
  - intros X HX Hex.
    destruct (C19_minimum_weight_f64 e n w W X He HW HB Hs HX Hex) as (g & T & Eg & HT & _ & Ew & MT).
    destruct (C19_minimum_weight_f64 e n w' W X He HW' HB Hs' HX Hex) as (g' & T' & Eg' & HT' & _ & Ew' & MT').
    exists (edges_cost w T), (edges_cost w' T'), g, g'. pose proof (tree_raised n w w' d H X T T' HT HT' MT'). auto.
  - intros Hn. destruct (C23_one_tree_value_f64 e n w W He HW HB Hn Hs) as (c & E & V1 & V2 & _).
    destruct (C23_one_tree_value_f64 e n w' W He HW' HB Hn Hs') as (c' & E' & V1' & V2' & _).
    exists c, c'. split; [exact E|]. split; [exact E'|]. apply (one_tree_raised n w w' d H); split; assumption.
Qed.

(** Not so the nearest-neighbour heuristic: all distances shrink or stay, and what it finds over all starts gets dearer, though the triangle
    inequality holds before and after. *)
Definition near_before : nat -> nat -> Z := table [[0;6;6;5];[6;0;6;5];[6;6;0;9];[5;5;9;0]]%Z.
Definition near_after : nat -> nat -> Z := table [[0;5;6;5];[5;0;6;5];[6;6;0;8];[5;5;8;0]]%Z.

Lemma four_triangle w : forallb (fun i => forallb (fun j => forallb (fun k => (w i j <=? w i k + w k j)%Z) (seq 0 4)) (seq 0 4)) (seq 0 4) = true -> triangle w 4.
Proof.
  intros H i j k Hi Hj Hk. rewrite forallb_forall in H. specialize (H i ltac:(apply in_seq; lia)). rewrite forallb_forall in H. specialize (H j ltac:(apply in_seq; lia)).
  rewrite forallb_forall in H. specialize (H k ltac:(apply in_seq; lia)). apply Z.leb_le, H.
Qed.

Theorem C84_nearest_refuted : exists n w w', symmetric w n /\ symmetric w' n /\ triangle w n /\ triangle w' n /\ raised_by_at_most n w w' 0 /\
  exists c c', (c < c')%Z /\ forall env mode, mode <= 1 ->
    (exists p, nearest_neighbour env mode (int_matrix n w) = Ok (Fin c : C EZ, p)) /\ (exists p, nearest_neighbour env mode (int_matrix n w') = Ok (Fin c' : C EZ, p)).
Proof.
  exists 4, near_before, near_after. split; [apply symmetric_dec; reflexivity|]. split; [apply symmetric_dec; reflexivity|].
  split; [apply four_triangle; reflexivity|]. split; [apply four_triangle; reflexivity|]. split.
  { intros i j Hi Hj. destruct i as [|[|[|[|i]]]]; [| | | |lia]; (destruct j as [|[|[|[|j]]]]; [| | | |lia]); vm_compute; discriminate. }
  assert (H : forall v c, (exists env, match nearest_neighbour env 0 (int_matrix 4 v) with Ok (x, _) => x = Fin c | _ => False end) ->
    forall env mode, mode <= 1 -> exists p, nearest_neighbour env mode (int_matrix 4 v) = Ok (Fin c : C EZ, p)).
  { intros v c (env0 & H0) env mode Hm. destruct (C26_all_starts 4 v ltac:(lia)) as (c1 & A & _). destruct (A env0 0 ltac:(lia)) as (p0 & E0 & _). rewrite E0 in H0. injection H0 as ->.
    destruct (A env mode Hm) as (p & E & _). exists p. exact E. }
  exists 22%Z, 24%Z. split; [lia|]. intros env mode Hm. split; revert env mode Hm; apply H; exists (mkNnEnv (fun _ => 0) RLeaf); vm_compute; reflexivity.
Qed.

(** The same two instances: the exact solver and the 1-tree bound find 22 for both. *)
Example C84_applies : raised_by_at_most 4 near_before near_after 0 /\ raised_by_at_most 4 near_after near_before 1 /\
  naive_solver (na_adj (int_matrix 4 near_before)) = Ok (Fin 22%Z : C EZ, [0; 2; 1; 3]) /\
  naive_solver (na_adj (int_matrix 4 near_after)) = Ok (Fin 22%Z : C EZ, [0; 2; 1; 3]) /\
  one_tree_lower_bound_seq (int_matrix 4 near_before) = Ok (Fin 22%Z : C EZ) /\ one_tree_lower_bound_seq (int_matrix 4 near_after) = Ok (Fin 22%Z : C EZ).
Proof.
  split; [|split; [|vm_compute; repeat split]]; intros i j Hi Hj; (destruct i as [|[|[|[|i]]]]; [| | | |lia]); (destruct j as [|[|[|[|j]]]]; [| | | |lia]); vm_compute; discriminate.
Qed.

Print Assumptions C84_exact.
Print Assumptions C84_exact_f64.
Print Assumptions C84_trees.
Print Assumptions C84_trees_f64.
Print Assumptions C84_nearest_refuted.
