(** C85: one city less.

    With the triangle inequality a tour of fewer cities is never dearer, and one more city costs at most the way there and back. *)
From Coq Require Import ZArith Arith Bool List Permutation Lia.
From Verif Require Import Num NumB64 Base Data Exact Mst Par Rand MstPar OneTree Nn Spec SpecFacts Instances RenameProofs DropSpec DropProofs PropExact PropMst.
Import ListNotations.
Local Open Scope nat_scope.

(** [a] is the outcome with all [n + 1] cities, [b] the one without [v]: [b] costs no more, and [a] costs at most a detour from any other city more *)
Definition one_less (n v : nat) (w : nat -> nat -> Z) {N : Num} (inj : Z -> C N) (a b : res (C N * list nat)) : Prop :=
  exists c p c' q, a = Ok (inj c, p) /\ b = Ok (inj c', q) /\ (c' <= c)%Z /\ forall u, u < S n -> u <> v -> (c <= c' + w u v + w v u)%Z.

Lemma less_intro n v w (N : Num) (inj : Z -> C N) a b : 1 <= n -> v <= n -> triangle w (S n) ->
  (exists c p, a = Ok (inj c, p) /\ is_optimal w (S n) c p) -> (exists c p, b = Ok (inj c, p) /\ is_optimal (without w v) n c p) -> one_less n v w inj a b.
Proof.
  intros Hn Hv Ht (c & p & -> & Hp) (c' & q & -> & Hq). exists c, p, c', q. split; [reflexivity|]. split; [reflexivity|].
  exact (optimal_without n v w Hn Hv Ht c c' p q Hp Hq).
Qed.

Theorem C85_exact : forall n v w, v <= n -> triangle w (S n) ->
  let a := na_adj (int_matrix (S n) w) in let b := na_adj (int_matrix n (without w v)) in
  let less := one_less n v w (Fin : Z -> C EZ) in
  (2 <= n -> less (naive_solver a) (naive_solver b)) /\
  (3 <= n -> symmetric w (S n) -> less (first_improved_solver a) (first_improved_solver b)) /\
  (1 <= n -> less (second_improved_solver a) (second_improved_solver b)) /\
  (1 <= n -> nonneg w (S n) -> less (third_improved_solver a) (third_improved_solver b)).
Proof.
  intros n v w Hv Ht a b less. repeat split; intros Hn.
  - apply (less_intro n v w EZ); [lia|assumption..|apply C01_naive_optimal; lia|apply C01_naive_optimal; lia].
  - intros Hs. apply (less_intro n v w EZ); [lia|assumption..|apply C02_first_optimal_partial; [lia|assumption]|apply C02_first_optimal_partial; [lia|apply sym_without; assumption]].
  - apply (less_intro n v w EZ); [lia|assumption..|apply C03_second_optimal; lia|apply C03_second_optimal; lia].
  - intros Hs. apply (less_intro n v w EZ); [lia|assumption..|apply C04_third_optimal; [lia|assumption]|apply C04_third_optimal; [lia|apply nonneg_without; assumption]].
Qed.

Theorem C85_exact_f64 : forall e n v w W, (-1074 <= e <= 970)%Z -> bounded w (S n) W -> (W * (Z.of_nat n + 2) <= 2 ^ 53)%Z -> v <= n -> triangle w (S n) ->
  let a := na_adj (f64_matrix e (S n) w) in let b := na_adj (f64_matrix e n (without w v)) in
  let less := one_less n v w (b64_inj e : Z -> C B64) in
  (2 <= n -> less (naive_solver a) (naive_solver b)) /\
  (3 <= n -> symmetric w (S n) -> less (first_improved_solver a) (first_improved_solver b)) /\
  (1 <= n -> less (second_improved_solver a) (second_improved_solver b)) /\
  (1 <= n -> nonneg w (S n) -> less (third_improved_solver a) (third_improved_solver b)).
Proof.
  intros e n v w W He HW HB Hv Ht a b less. pose proof (bounded_without n w v W HW) as HW'.
  assert (H0 : (0 <= W)%Z) by (specialize (HW v v ltac:(lia) ltac:(lia)); lia).
  assert (HB1 : (W * (Z.of_nat (S n) + 1) <= 2 ^ 53)%Z) by nia. assert (HB2 : (W * (Z.of_nat n + 1) <= 2 ^ 53)%Z) by nia.
  repeat split; intros Hn.
  - apply (less_intro n v w B64); [lia|assumption..|exact (C01_naive_optimal_f64 e (S n) w W He ltac:(lia) HW HB1)|exact (C01_naive_optimal_f64 e n _ W He Hn HW' HB2)].
  - intros Hs. apply (less_intro n v w B64); [lia|assumption..|exact (C02_first_optimal_f64_partial e (S n) w W He ltac:(lia) Hs HW HB1)|
      exact (C02_first_optimal_f64_partial e n _ W He Hn (sym_without n w v Hs) HW' HB2)].
  - apply (less_intro n v w B64); [lia|assumption..|exact (C03_second_optimal_f64 e (S n) w W He ltac:(lia) HW HB1)|exact (C03_second_optimal_f64 e n _ W He Hn HW' HB2)].
  - intros Hs. apply (less_intro n v w B64); [lia|assumption..|exact (C04_third_optimal_f64 e (S n) w W He ltac:(lia) Hs HW HB1)|
      exact (C04_third_optimal_f64 e n _ W He Hn (nonneg_without n w v Hs) HW' HB2)].
Qed.

(** Without the triangle inequality fewer cities can cost more: a city between three that are far apart. *)
Definition hub : nat -> nat -> Z := table [[0;1;1;1];[1;0;10;10];[1;10;0;10];[1;10;10;0]]%Z.
Theorem C85_no_triangle_refuted : exists n v w c c' p q, v <= n /\ symmetric w (S n) /\ nonneg w (S n) /\
  naive_solver (na_adj (int_matrix (S n) w)) = Ok (Fin c : C EZ, p) /\ naive_solver (na_adj (int_matrix n (without w v))) = Ok (Fin c' : C EZ, q) /\ (c < c')%Z.
Proof.
  exists 3, 0, hub, 22%Z, 30%Z. do 2 eexists. split; [lia|]. split; [apply symmetric_dec; reflexivity|]. split.
  { intros i j Hi Hj. destruct i as [|[|[|[|i]]]]; [| | | |lia]; (destruct j as [|[|[|[|j]]]]; [| | | |lia]); vm_compute; discriminate. }
  split; [vm_compute; reflexivity|]. split; [vm_compute; reflexivity|]. lia.
Qed.

(** And a minimum spanning tree can become dearer even with the triangle inequality. *)
Definition star : nat -> nat -> Z := table [[0;1;1;1];[1;0;2;2];[1;2;0;2];[1;2;2;0]]%Z.
Lemma star_triangle : triangle star 4.
Proof.
  intros i j k Hi Hj Hk. destruct i as [|[|[|[|i]]]]; [| | | |lia]; (destruct j as [|[|[|[|j]]]]; [| | | |lia]); (destruct k as [|[|[|[|k]]]]; [| | | |lia]); vm_compute; discriminate.
Qed.
Theorem C85_tree_refuted : exists n v w c c' g g', v < n /\ symmetric w n /\ triangle w n /\
  prim_with_excluded_node_single_threaded (int_matrix n w) [] = Ok g /\ undirected_edge_weight g = Fin c /\
  prim_with_excluded_node_single_threaded (int_matrix n w) [v] = Ok g' /\ undirected_edge_weight g' = Fin c' /\ (c < c')%Z.
Proof.
  exists 4, 0, star, 3%Z, 4%Z. do 2 eexists. split; [lia|]. split; [apply symmetric_dec; reflexivity|]. split; [exact star_triangle|].
  split; [vm_compute; reflexivity|]. split; [vm_compute; reflexivity|]. split; [vm_compute; reflexivity|]. split; [vm_compute; reflexivity|]. lia.
Qed.

(** The star: 6 with its centre, 6 without it. *)
Example C85_applies : triangle star 4 /\ nonneg star 4 /\ symmetric star 4 /\
  third_improved_solver (na_adj (int_matrix 4 star)) = Ok (Fin 6%Z : C EZ, [0; 1; 2; 3]) /\
  third_improved_solver (na_adj (int_matrix 3 (without star 0))) = Ok (Fin 6%Z : C EZ, [0; 1; 2]).
Proof.
  split; [exact star_triangle|]. split.
  { intros i j Hi Hj. destruct i as [|[|[|[|i]]]]; [| | | |lia]; (destruct j as [|[|[|[|j]]]]; [| | | |lia]); vm_compute; discriminate. }
  split; [apply symmetric_dec; reflexivity|]. vm_compute. repeat split.
Qed.

Print Assumptions C85_exact.
Print Assumptions C85_exact_f64.
Print Assumptions C85_no_triangle_refuted.
Print Assumptions C85_tree_refuted.
