(** C81: other names for the vertices.

    The order in which the vertices stand in a document means nothing; a user expects the same costs in every order. *)
From Coq Require Import ZArith Arith Bool List Permutation Lia.
From Verif Require Import Num NumB64 Base Data Exact Mst Par Rand MstPar OneTree Nn Spec SpecFacts Instances RenameSpec RenameProofs PropExact PropMst PropNn.
Import ListNotations.
Local Open Scope nat_scope.

Lemma sym_renamed n w f : renaming n f -> symmetric w n -> symmetric (renamed w f) n.
Proof. intros Hf H i j Hi Hj. apply H; apply (ren_lt n f Hf); assumption. Qed.
Lemma nonneg_renamed n w f : renaming n f -> nonneg w n -> nonneg (renamed w f) n.
Proof. intros Hf H i j Hi Hj. apply H; apply (ren_lt n f Hf); assumption. Qed.
Lemma bounded_renamed n w f W : renaming n f -> bounded w n W -> bounded (renamed w f) n W.
Proof. intros Hf H i j Hi Hj. apply H; apply (ren_lt n f Hf); assumption. Qed.

(** The solvers V0 to V3 find the same cost, and the tour of the renamed instance is, with the old names, an optimal tour. *)
Definition same_cost (w : nat -> nat -> Z) (n : nat) (f : nat -> nat) {N : Num} (inj : Z -> C N)
    (a b : res (C N * list nat)) : Prop :=
  exists c p q, a = Ok (inj c, p) /\ b = Ok (inj c, q) /\ is_optimal w n c p /\ is_optimal w n c (map f q).

Lemma same_intro w n f (Hf : renaming n f) (N : Num) (inj : Z -> C N) a b :
  (exists c p, a = Ok (inj c, p) /\ is_optimal w n c p) -> (exists c p, b = Ok (inj c, p) /\ is_optimal (renamed w f) n c p) -> same_cost w n f inj a b.
Proof.
  intros (c & p & -> & Hp) (c' & q & -> & Hq). destruct (optimal_renamed n f Hf w c c' p q Hp Hq) as [<- H]. exists c, p, q. auto.
Qed.

Theorem C81_exact : forall n w f, renaming n f ->
  (2 <= n -> same_cost w n f (Fin : Z -> C EZ) (naive_solver (na_adj (int_matrix n w))) (naive_solver (na_adj (int_matrix n (renamed w f))))) /\
  (3 <= n -> symmetric w n -> same_cost w n f (Fin : Z -> C EZ) (first_improved_solver (na_adj (int_matrix n w))) (first_improved_solver (na_adj (int_matrix n (renamed w f))))) /\
  (1 <= n -> same_cost w n f (Fin : Z -> C EZ) (second_improved_solver (na_adj (int_matrix n w))) (second_improved_solver (na_adj (int_matrix n (renamed w f))))) /\
  (1 <= n -> nonneg w n -> same_cost w n f (Fin : Z -> C EZ) (third_improved_solver (na_adj (int_matrix n w))) (third_improved_solver (na_adj (int_matrix n (renamed w f))))).
Proof.
  intros n w f Hf. repeat split; intros Hn.
  - apply (same_intro w n f Hf EZ); apply C01_naive_optimal; assumption.
  - intros Hs. apply (same_intro w n f Hf EZ); apply C02_first_optimal_partial; try assumption. apply sym_renamed; assumption.
  - apply (same_intro w n f Hf EZ); apply C03_second_optimal; assumption.
  - intros Hs. apply (same_intro w n f Hf EZ); apply C04_third_optimal; try assumption. apply nonneg_renamed; assumption.
Qed.

Theorem C81_exact_f64 : forall e n w W f, (-1074 <= e <= 970)%Z -> bounded w n W -> (W * (Z.of_nat n + 1) <= 2 ^ 53)%Z -> renaming n f ->
  let a := na_adj (f64_matrix e n w) in let b := na_adj (f64_matrix e n (renamed w f)) in
  (2 <= n -> same_cost w n f (b64_inj e : Z -> C B64) (naive_solver a) (naive_solver b)) /\
  (3 <= n -> symmetric w n -> same_cost w n f (b64_inj e : Z -> C B64) (first_improved_solver a) (first_improved_solver b)) /\
  (1 <= n -> same_cost w n f (b64_inj e : Z -> C B64) (second_improved_solver a) (second_improved_solver b)) /\
  (1 <= n -> nonneg w n -> same_cost w n f (b64_inj e : Z -> C B64) (third_improved_solver a) (third_improved_solver b)).
Proof.
  intros e n w W f He HW HB Hf a b. pose proof (bounded_renamed n w f W Hf HW) as HW'. repeat split; intros Hn.
  - apply (same_intro w n f Hf B64); [exact (C01_naive_optimal_f64 e n w W He Hn HW HB)|exact (C01_naive_optimal_f64 e n _ W He Hn HW' HB)].
  - intros Hs. apply (same_intro w n f Hf B64); [exact (C02_first_optimal_f64_partial e n w W He Hn Hs HW HB)|exact (C02_first_optimal_f64_partial e n _ W He Hn (sym_renamed n w f Hf Hs) HW' HB)].
  - apply (same_intro w n f Hf B64); [exact (C03_second_optimal_f64 e n w W He Hn HW HB)|exact (C03_second_optimal_f64 e n _ W He Hn HW' HB)].
  - intros Hs. apply (same_intro w n f Hf B64); [exact (C04_third_optimal_f64 e n w W He Hn Hs HW HB)|exact (C04_third_optimal_f64 e n _ W He Hn (nonneg_renamed n w f Hf Hs) HW' HB)].
Qed.

(** The minimum spanning tree, also without some of the vertices, and the 1-tree bound have the same weight. *)
Theorem C81_trees : forall n w f, renaming n f -> symmetric w n ->
  (forall X, Forall (fun x => x < n) X -> (exists v, v < n /\ ~ In v X) ->
    exists c g g', prim_with_excluded_node_single_threaded (int_matrix n w) (map f X) = Ok g /\ undirected_edge_weight g = Fin c /\
      prim_with_excluded_node_single_threaded (int_matrix n (renamed w f)) X = Ok g' /\ undirected_edge_weight g' = Fin c) /\
  (3 <= n -> exists c, one_tree_lower_bound_seq (int_matrix n w) = Ok (Fin c : C EZ) /\
    one_tree_lower_bound_seq (int_matrix n (renamed w f)) = Ok (Fin c : C EZ)).
Proof.
  intros n w f Hf Hs. pose proof (sym_renamed n w f Hf Hs) as Hs'. split.
  - intros X HX (v & Hv & Hvx).
    assert (HX' : Forall (fun x => x < n) (map f X)) by (apply Forall_map; apply (Forall_impl _ (P := fun x => x < n)); [exact (ren_lt n f Hf)|assumption]).
    assert (Hex : exists u, u < n /\ ~ In u (map f X)) by (exists (f v); split; [apply (ren_lt n f Hf), Hv|]; rewrite <- (in_map_f n f Hf v X Hv HX); assumption).
    destruct (C19_minimum_weight n w (map f X) Hs HX' Hex) as (g & T & Eg & HT & _ & Ew & MT).
    destruct (C19_minimum_weight n (renamed w f) X Hs' HX (ex_intro _ v (conj Hv Hvx))) as (g' & T' & Eg' & HT' & _ & Ew' & MT').
    exists (edges_cost w T), g, g'. rewrite (min_tree n f Hf w X T T' HX HT MT HT' MT') in Ew'. auto.
  - intros Hn. destruct (C23_one_tree_value n w Hn Hs) as (c & E & V1 & V2 & _). destruct (C23_one_tree_value n (renamed w f) Hn Hs') as (c' & E' & V1' & V2' & _).
    assert (c = c') by (apply (one_tree_renamed n f Hf w); split; assumption). subst c'. exists c. auto.
Qed.

Theorem C81_trees_f64 : forall e n w W f, (-1074 <= e <= 970)%Z -> bounded w n W -> (2 * W * Z.of_nat n <= 2 ^ 53)%Z -> renaming n f -> symmetric w n ->
  (forall X, Forall (fun x => x < n) X -> (exists v, v < n /\ ~ In v X) ->
    exists c g g', prim_with_excluded_node_single_threaded (f64_matrix e n w) (map f X) = Ok g /\ undirected_edge_weight g = b64_inj e c /\
      prim_with_excluded_node_single_threaded (f64_matrix e n (renamed w f)) X = Ok g' /\ undirected_edge_weight g' = b64_inj e c) /\
  (3 <= n -> exists c, one_tree_lower_bound_seq (f64_matrix e n w) = Ok (b64_inj e c : C B64) /\
    one_tree_lower_bound_seq (f64_matrix e n (renamed w f)) = Ok (b64_inj e c : C B64)).
Proof.
  intros e n w W f He HW HB Hf Hs. pose proof (sym_renamed n w f Hf Hs) as Hs'. pose proof (bounded_renamed n w f W Hf HW) as HW'. split.
  - intros X HX (v & Hv & Hvx).
    assert (HX' : Forall (fun x => x < n) (map f X)) by (apply Forall_map; apply (Forall_impl _ (P := fun x => x < n)); [exact (ren_lt n f Hf)|assumption]).
    assert (Hex : exists u, u < n /\ ~ In u (map f X)) by (exists (f v); split; [apply (ren_lt n f Hf), Hv|]; rewrite <- (in_map_f n f Hf v X Hv HX); assumption).
    destruct (C19_minimum_weight_f64 e n w W (map f X) He HW HB Hs HX' Hex) as (g & T & Eg & HT & _ & Ew & MT).
    destruct (C19_minimum_weight_f64 e n (renamed w f) W X He HW' HB Hs' HX (ex_intro _ v (conj Hv Hvx))) as (g' & T' & Eg' & HT' & _ & Ew' & MT').
    exists (edges_cost w T), g, g'. rewrite (min_tree n f Hf w X T T' HX HT MT HT' MT') in Ew'. auto.
  - intros Hn. destruct (C23_one_tree_value_f64 e n w W He HW HB Hn Hs) as (c & E & V1 & V2 & _).
    destruct (C23_one_tree_value_f64 e n (renamed w f) W He HW' HB Hn Hs') as (c' & E' & V1' & V2' & _).
    assert (c = c') by (apply (one_tree_renamed n f Hf w); split; assumption). subst c'. exists c. auto.
Qed.

(** The nearest neighbour heuristic finds the same tour if no vertex has two others equally near: with the old names, what it
    finds from [s] is what it found from the vertex that is now called [s]. *)
Theorem C81_nearest : forall n w f s, renaming n f -> no_ties w n -> s < n ->
  exists q, single_nearest_neighbour (int_matrix n (renamed w f)) s = Ok (Fin (tour_cost w (map f q)), q) /\
    single_nearest_neighbour (int_matrix n w) (f s) = Ok (Fin (tour_cost w (map f q)), map f q).
Proof.
  intros n w f s Hf Ht Hs. destruct (C25_exact n (renamed w f) s Hs) as (q & Eq & Tq & Hq & Gq).
  destruct (C25_exact n w (f s) (ren_lt n f Hf s Hs)) as (p & Ep & Tp & Hp & Gp). exists q. rewrite <- (tour_renamed f w q) at 1. split; [assumption|].
  rewrite Ep. rewrite (greedy_unique n f Hf w p (map f q)); [reflexivity|assumption|assumption|apply (tour_forth n f Hf), Tq| |assumption|apply (greedy_forth n f Hf); assumption].
  rewrite Hp, <- Hq. destruct q as [|a q]; [|reflexivity]. apply Permutation_length in Tq. rewrite seq_length in Tq. cbn in Tq. lia.
Qed.

Theorem C81_nearest_f64 : forall e n w W f s, (-1074 <= e <= 970)%Z -> bounded w n W -> (W * (Z.of_nat n + 1) <= 2 ^ 53)%Z ->
  renaming n f -> no_ties w n -> s < n ->
  exists q, single_nearest_neighbour (f64_matrix e n (renamed w f)) s = Ok (b64_inj e (tour_cost w (map f q)), q) /\
    single_nearest_neighbour (f64_matrix e n w) (f s) = Ok (b64_inj e (tour_cost w (map f q)), map f q).
Proof.
  intros e n w W f s He HW HB Hf Ht Hs. destruct (C25_exact_f64 e n (renamed w f) W s He (bounded_renamed n w f W Hf HW) HB Hs) as (q & Eq & Tq & Hq & Gq).
  destruct (C25_exact_f64 e n w W (f s) He HW HB (ren_lt n f Hf s Hs)) as (p & Ep & Tp & Hp & Gp). exists q. rewrite <- (tour_renamed f w q) at 1. split; [assumption|].
  rewrite Ep. rewrite (greedy_unique n f Hf w p (map f q)); [reflexivity|assumption|assumption|apply (tour_forth n f Hf), Tq| |assumption|apply (greedy_forth n f Hf); assumption].
  rewrite Hp, <- Hq. destruct q as [|a q]; [|reflexivity]. apply Permutation_length in Tq. rewrite seq_length in Tq. cbn in Tq. lia.
Qed.

(** Without ties, the best of all starts costs the same, in any order of the starts and both modes. *)
Theorem C81_all_starts : forall n w f env env' mode mode', renaming n f -> no_ties w n -> 1 <= n -> mode <= 1 -> mode' <= 1 ->
  exists c p q, nearest_neighbour env mode (int_matrix n w) = Ok (Fin c, p) /\ nearest_neighbour env' mode' (int_matrix n (renamed w f)) = Ok (Fin c, q).
Proof.
  intros n w f env env' mode mode' Hf Ht Hn Hm Hm'. destruct (C26_all_starts n w Hn) as (c & A & B & _). destruct (C26_all_starts n (renamed w f) Hn) as (c' & A' & B' & _).
  destruct (A env mode Hm) as (p & Ep & Tp & Cp). destruct (A' env' mode' Hm') as (q & Eq & Tq & Cq).
  destruct (C26_exact n w env mode n Hm ltac:(lia)) as (st & p1 & _ & _ & L3 & E1 & T1 & Hin & _ & Es & _).
  destruct (C26_exact n (renamed w f) env' mode' n Hm' ltac:(lia)) as (st' & q1 & _ & _ & L3' & E2 & T2 & Hin' & _ & Es' & _).
  assert (Hcc : c = c').
  { unfold nearest_neighbour in Ep, Eq. change (na_dim (int_matrix n w)) with n in Ep. change (na_dim (int_matrix n (renamed w f))) with n in Eq.
    rewrite E1 in Ep. injection Ep as Ec _. rewrite E2 in Eq. injection Eq as Ec' _.
    assert (Hp0 : hd 0 p1 < n). { destruct p1 as [|a p1]; [cbn; lia|]. cbn [hd]. assert (H : In a (seq 0 n)) by (apply (Permutation_in _ T1); left; reflexivity). apply in_seq in H. lia. }
    assert (Hq0 : hd 0 q1 < n). { destruct q1 as [|a q1]; [cbn; lia|]. cbn [hd]. assert (H : In a (seq 0 n)) by (apply (Permutation_in _ T2); left; reflexivity). apply in_seq in H. lia. }
    destruct (back_spec n f Hf (hd 0 p1) Hp0) as [Hb Eb].
    apply Z.le_antisymm.
    - destruct (C81_nearest n w f (hd 0 q1) Hf Ht Hq0) as (r & R1 & R2). destruct (B (f (hd 0 q1)) (ren_lt n f Hf _ Hq0)) as (r' & R3 & Hle).
      rewrite R2 in R3. injection R3 as _ <-. rewrite Es' in R1. injection R1 as R1 _. lia.
    - destruct (C81_nearest n w f (back n f (hd 0 p1)) Hf Ht Hb) as (r & R1 & R2). destruct (B' (back n f (hd 0 p1)) Hb) as (r' & R3 & Hle).
      rewrite R1 in R3. injection R3 as R3 <-. rewrite Eb, Es in R2. injection R2 as R2 _. lia. }
  rewrite <- Hcc in Eq. exists c, p, q. split; assumption.
Qed.

(** With ties the heuristic can find another cost, from every start, even with the triangle inequality; *)
Definition ex_tie : nat -> nat -> Z := table [[0;1;1;3]; [1;0;1;3]; [1;1;0;4]; [3;3;4;0]]%Z.
Definition swap12 (i : nat) : nat := match i with 1 => 2 | 2 => 1 | _ => i end.
Theorem C81_nearest_ties_refuted : exists n w f, renaming n f /\ symmetric w n /\ nonneg w n /\ triangle w n /\
  exists c c', (forall env mode, mode <= 1 -> exists p, nearest_neighbour env mode (int_matrix n w) = Ok (Fin c, p)) /\
    (forall env mode, mode <= 1 -> exists p, nearest_neighbour env mode (int_matrix n (renamed w f)) = Ok (Fin c', p)) /\ c <> c'.
Proof.
  exists 4, ex_tie, swap12. split; [cbn; do 1 constructor; apply perm_swap|]. split; [concrete|]. split; [concrete|]. split; [concrete|].
  exists 9%Z, 8%Z. assert (H : forall v c, (exists env, match nearest_neighbour env 0 (int_matrix 4 v) with Ok (x, _) => x = Fin c | _ => False end) ->
    forall env mode, mode <= 1 -> exists p, nearest_neighbour env mode (int_matrix 4 v) = Ok (Fin c, p)).
  { intros v c (env0 & H0) env mode Hm. destruct (C26_all_starts 4 v ltac:(lia)) as (c1 & A & _). destruct (A env0 0 ltac:(lia)) as (p0 & E0 & _). rewrite E0 in H0. injection H0 as ->.
    destruct (A env mode Hm) as (p & E & _). exists p. exact E. }
  split; [|split; [|discriminate]]; apply H; exists (mkNnEnv (fun _ => 0) RLeaf); vm_compute; reflexivity.
Qed.

(** and so can the solver V4, which is meant to be exact. *)
Theorem C81_fourth_refuted : exists n w f, renaming n f /\ symmetric w n /\ nonneg w n /\
  exists c c' p q, fourth_improved_solver (na_adj (int_matrix n w)) = Ok (Fin c, p) /\
    fourth_improved_solver (na_adj (int_matrix n (renamed w f))) = Ok (Fin c', q) /\ c <> c'.
Proof.
  exists 6, ex_v4, (fun i => match i with 3 => 4 | 4 => 3 | _ => i end). split; [cbn; do 3 constructor; apply perm_swap|]. split; [concrete|]. split; [concrete|].
  exists 8%Z, 7%Z, [0;3;1;4;2;5], [0;3;1;4;2;5]. split; [vm_compute; reflexivity|]. split; [vm_compute; reflexivity|discriminate].
Qed.

(** four cities on a line at 0, 1, 3 and 7, no two distances from a city alike, in another order *)
Example C81_applies :
  let w := table [[0;1;3;7]; [1;0;2;6]; [3;2;0;4]; [7;6;4;0]]%Z in
  renaming 4 swap12 /\ symmetric w 4 /\ nonneg w 4 /\ no_ties w 4 /\ renamed w swap12 0 1 = 3%Z /\ bounded w 4 7 /\
  single_nearest_neighbour (int_matrix 4 w) 1 = Ok (Fin 14, [1; 0; 2; 3]) /\
  single_nearest_neighbour (int_matrix 4 (renamed w swap12)) 2 = Ok (Fin 14, [2; 0; 1; 3]).
Proof.
  cbv zeta. split; [cbn; do 1 constructor; apply perm_swap|]. split; [concrete|]. split; [concrete|]. split.
  - intros i a b Hi Ha Hb. do 4 (destruct i as [|i]; [do 4 (destruct a as [|a]; [do 4 (destruct b as [|b]; [cbn; try congruence; try lia|]); lia|]); lia|]). lia.
  - split; [reflexivity|]. split; [|split; vm_compute; reflexivity].
    intros i j Hi Hj. do 4 (destruct i as [|i]; [do 4 (destruct j as [|j]; [cbn; lia|]); lia|]). lia.
Qed.

Print Assumptions C81_exact.
Print Assumptions C81_exact_f64.
Print Assumptions C81_trees.
Print Assumptions C81_trees_f64.
Print Assumptions C81_nearest.
Print Assumptions C81_nearest_f64.
Print Assumptions C81_all_starts.
Print Assumptions C81_nearest_ties_refuted.
Print Assumptions C81_fourth_refuted.
