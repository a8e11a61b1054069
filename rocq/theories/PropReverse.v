(** C86: one-way streets turned round.

    Turning every way round turns every tour round. *)
From Coq Require Import ZArith Arith Bool List Permutation Lia.
From Verif Require Import Num NumB64 Base Data Exact Mst Par Rand MstPar OneTree Nn Spec SpecFacts Instances RenameProofs ReverseSpec ReverseProofs PropExact PropData.
Import ListNotations.
Local Open Scope nat_scope.

(** [a] is the outcome for [w], [b] that for [w] turned round: the same cost, and each tour is an optimal one of the other instance walked backwards *)
Definition turned (n : nat) (w : nat -> nat -> Z) {N : Num} (inj : Z -> C N) (a b : res (C N * list nat)) : Prop :=
  exists c p q, a = Ok (inj c, p) /\ b = Ok (inj c, q) /\ is_optimal w n c (rev q) /\ is_optimal (reversed w) n c (rev p).

Lemma turned_intro n w (N : Num) (inj : Z -> C N) a b :
  (exists c p, a = Ok (inj c, p) /\ is_optimal w n c p) -> (exists c p, b = Ok (inj c, p) /\ is_optimal (reversed w) n c p) -> turned n w inj a b.
Proof.
  intros (c & p & -> & Hp) (c' & q & -> & Hq). pose proof (optimal_reversed _ _ _ _ Hp) as Hp'. pose proof (optimal_reversed _ _ _ _ Hq) as Hq'.
  assert (E : c = c').
  { destruct Hp' as (T1 & E1 & L1), Hq as (T2 & E2 & L2). specialize (L1 _ T2). specialize (L2 _ T1). rewrite E1, E2 in *. apply Z.le_antisymm; assumption. }
  subst c'. exists c, p, q. auto.
Qed.

Theorem C86_exact : forall n w,
  let a := na_adj (int_matrix n w) in let b := na_adj (int_matrix n (reversed w)) in
  let turn := turned n w (Fin : Z -> C EZ) in
  (2 <= n -> turn (naive_solver a) (naive_solver b)) /\
  (1 <= n -> turn (second_improved_solver a) (second_improved_solver b)) /\
  (1 <= n -> nonneg w n -> turn (third_improved_solver a) (third_improved_solver b)).
Proof.
  intros n w a b turn. repeat split; intros Hn; [| |intros Hs]; apply (turned_intro n w EZ).
  - apply C01_naive_optimal, Hn.
  - apply C01_naive_optimal, Hn.
  - apply C03_second_optimal, Hn.
  - apply C03_second_optimal, Hn.
  - apply C04_third_optimal; assumption.
  - apply C04_third_optimal; [exact Hn|apply nonneg_reversed, Hs].
Qed.
Print Assumptions C86_exact.

Theorem C86_exact_f64 : forall e n w W, (-1074 <= e <= 970)%Z -> bounded w n W -> (W * (Z.of_nat n + 1) <= 2 ^ 53)%Z ->
  let a := na_adj (f64_matrix e n w) in let b := na_adj (f64_matrix e n (reversed w)) in
  let turn := turned n w (b64_inj e : Z -> C B64) in
  (2 <= n -> turn (naive_solver a) (naive_solver b)) /\
  (1 <= n -> turn (second_improved_solver a) (second_improved_solver b)) /\
  (1 <= n -> nonneg w n -> turn (third_improved_solver a) (third_improved_solver b)).
Proof.
  intros e n w W He HW HB a b turn. pose proof (bounded_reversed w n W HW) as HW'. repeat split; intros Hn; [| |intros Hs]; apply (turned_intro n w B64).
  - exact (C01_naive_optimal_f64 e n w W He Hn HW HB).
  - exact (C01_naive_optimal_f64 e n _ W He Hn HW' HB).
  - exact (C03_second_optimal_f64 e n w W He Hn HW HB).
  - exact (C03_second_optimal_f64 e n _ W He Hn HW' HB).
  - exact (C04_third_optimal_f64 e n w W He Hn Hs HW HB).
  - exact (C04_third_optimal_f64 e n _ W He Hn (nonneg_reversed w n Hs) HW' HB).
Qed.
Print Assumptions C86_exact_f64.

(** The value of a tour, or of any other list of vertices, is that of the list walked backwards. *)
Theorem C86_circle : forall n w p, Forall (fun v => v < n) p ->
  evaluate_circle (na_adj (int_matrix n (reversed w))) (rev p) = evaluate_circle (na_adj (int_matrix n w)) p.
Proof.
  intros n w p Hr. destruct (le_lt_dec (length p) 1) as [H|H].
  - rewrite (proj2 (C36_no_step EZ _ p H)). apply C36_no_step. rewrite rev_length. exact H.
  - rewrite !C36_circle_is_tour_cost; [|lia|exact Hr|rewrite rev_length; lia|apply Forall_rev, Hr]. do 2 f_equal. apply tour_reversed.
Qed.
Print Assumptions C86_circle.

Theorem C86_circle_f64 : forall e n w W p, (-1074 <= e <= 970)%Z -> bounded w n W -> (W * Z.of_nat (length p) <= 2 ^ 53)%Z -> Forall (fun v => v < n) p ->
  evaluate_circle (na_adj (f64_matrix e n (reversed w))) (rev p) = evaluate_circle (na_adj (f64_matrix e n w)) p.
Proof.
  intros e n w W p He HW HB Hr. destruct (le_lt_dec (length p) 1) as [H|H].
  - rewrite (proj2 (C36_no_step B64 _ p H)). apply C36_no_step. rewrite rev_length. exact H.
  - rewrite (C36_circle_f64 e n w W p He HW HB H Hr).
    rewrite (C36_circle_f64 e n (reversed w) W (rev p) He (bounded_reversed w n W HW)); [|rewrite rev_length; assumption..|apply Forall_rev, Hr].
    rewrite tour_reversed. reflexivity.
Qed.
Print Assumptions C86_circle_f64.

(** V1 takes for granted that the way there is the way back: its cost changes. *)
Theorem C86_first_refuted : exists n w c c' p q, 3 <= n /\ nonneg w n /\
  first_improved_solver (na_adj (int_matrix n w)) = Ok (Fin c : C EZ, p) /\
  first_improved_solver (na_adj (int_matrix n (reversed w))) = Ok (Fin c' : C EZ, q) /\ c <> c'.
Proof.
  exists 3, (table [[0;1;9];[9;0;1];[1;9;0]]%Z). do 4 eexists. split; [lia|]. split.
  { intros i j Hi Hj. destruct i as [|[|[|i]]]; [| | |lia]; (destruct j as [|[|[|j]]]; [| | |lia]); vm_compute; discriminate. }
  split; [vm_compute; reflexivity|]. split; [vm_compute; reflexivity|]. discriminate.
Qed.
Print Assumptions C86_first_refuted.

(** So do the nearest-neighbour tour from the same start, the weight of the spanning tree, and the outcome of the triangle test: each of them reads the
    ways in one direction only. *)
Theorem C86_heuristics_refuted : exists n w, nonneg w n /\
  (exists c c' p q, single_nearest_neighbour (int_matrix n w) 0 = Ok (Fin c : C EZ, p) /\
    single_nearest_neighbour (int_matrix n (reversed w)) 0 = Ok (Fin c' : C EZ, q) /\ c <> c') /\
  (exists c c' g g', prim_with_excluded_node_single_threaded (int_matrix n w) [] = Ok g /\ undirected_edge_weight g = (Fin c : C EZ) /\
    prim_with_excluded_node_single_threaded (int_matrix n (reversed w)) [] = Ok g' /\ undirected_edge_weight g' = (Fin c' : C EZ) /\ c <> c') /\
  is_metric (na_adj (int_matrix n w)) = Ok false /\ is_metric (na_adj (int_matrix n (reversed w))) = Ok true.
Proof.
  exists 3, (table [[0;2;3];[1;0;5];[2;3;0]]%Z). split.
  { intros i j Hi Hj. destruct i as [|[|[|i]]]; [| | |lia]; (destruct j as [|[|[|j]]]; [| | |lia]); vm_compute; discriminate. }
  split; [|split; [|split]].
  - do 4 eexists. split; [vm_compute; reflexivity|]. split; [vm_compute; reflexivity|]. discriminate.
  - do 4 eexists. split; [vm_compute; reflexivity|]. split; [vm_compute; reflexivity|]. split; [vm_compute; reflexivity|]. split; [vm_compute; reflexivity|]. discriminate.
  - vm_compute. reflexivity.
  - vm_compute. reflexivity.
Qed.
Print Assumptions C86_heuristics_refuted.

Example C86_applies : let w := table [[0;1;9;4];[9;0;1;5];[7;9;0;1];[1;8;9;0]]%Z in
  nonneg w 4 /\ third_improved_solver (na_adj (int_matrix 4 w)) = Ok (Fin 4%Z : C EZ, [0; 1; 2; 3]) /\
  third_improved_solver (na_adj (int_matrix 4 (reversed w))) = Ok (Fin 4%Z : C EZ, [0; 3; 2; 1]).
Proof.
  cbv zeta. split.
  { intros i j Hi Hj. destruct i as [|[|[|[|i]]]]; [| | | |lia]; (destruct j as [|[|[|[|j]]]]; [| | | |lia]); vm_compute; discriminate. }
  vm_compute. repeat split.
Qed.
