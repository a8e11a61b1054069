(** C83: charges at the vertices, and a surcharge on every edge.

    Every tour enters and leaves every vertex once, so that a charge for it is paid by all tours alike. *)
From Coq Require Import ZArith Arith Bool List Permutation Lia.
From Verif Require Import Num NumB64 Base Data Exact Mst Par Rand MstPar OneTree Nn Spec SpecFacts Instances RenameSpec RenameProofs ChargeSpec ChargeProofs PropExact PropMst PropNn.
Import ListNotations.
Local Open Scope nat_scope.

(** Both runs end with an optimal tour of the instance without charges, and the costs differ by the charges. *)
Definition same_up_to (w : nat -> nat -> Z) (n : nat) (d : Z) {N : Num} (inj : Z -> C N) (a b : res (C N * list nat)) : Prop :=
  exists c p q, a = Ok (inj c, p) /\ b = Ok (inj (c + d)%Z, q) /\ is_optimal w n c p /\ is_optimal w n c q.

Lemma up_to_intro w n o i (N : Num) (inj : Z -> C N) a b :
  (exists c p, a = Ok (inj c, p) /\ is_optimal w n c p) -> (exists c p, b = Ok (inj c, p) /\ is_optimal (charged w o i) n c p) -> same_up_to w n (charges n o i) inj a b.
Proof.
  intros (c & p & -> & Hp) (c' & q & -> & Hq). destruct (optimal_charged n w o i c c' p q Hp Hq) as [-> H]. exists c, p, q. auto.
Qed.

Theorem C83_exact : forall n w out into,
  let a := na_adj (int_matrix n w) in let b := na_adj (int_matrix n (charged w out into)) in
  let same := same_up_to w n (charges n out into) (Fin : Z -> C EZ) in
  (2 <= n -> same (naive_solver a) (naive_solver b)) /\
  (3 <= n -> symmetric w n -> symmetric (charged w out into) n -> same (first_improved_solver a) (first_improved_solver b)) /\
  (1 <= n -> same (second_improved_solver a) (second_improved_solver b)) /\
  (1 <= n -> nonneg w n -> nonneg (charged w out into) n -> same (third_improved_solver a) (third_improved_solver b)).
Proof.
  intros n w o i a b same. repeat split; intros Hn.
  - apply (up_to_intro w n o i EZ); apply C01_naive_optimal; assumption.
  - intros Hs Hs'. apply (up_to_intro w n o i EZ); apply C02_first_optimal_partial; assumption.
  - apply (up_to_intro w n o i EZ); apply C03_second_optimal; assumption.
  - intros Hs Hs'. apply (up_to_intro w n o i EZ); apply C04_third_optimal; assumption.
Qed.

Theorem C83_exact_f64 : forall e n w W out into, (-1074 <= e <= 970)%Z -> bounded w n W -> bounded (charged w out into) n W -> (W * (Z.of_nat n + 1) <= 2 ^ 53)%Z ->
  let a := na_adj (f64_matrix e n w) in let b := na_adj (f64_matrix e n (charged w out into)) in
  let same := same_up_to w n (charges n out into) (b64_inj e : Z -> C B64) in
  (2 <= n -> same (naive_solver a) (naive_solver b)) /\
  (3 <= n -> symmetric w n -> symmetric (charged w out into) n -> same (first_improved_solver a) (first_improved_solver b)) /\
  (1 <= n -> same (second_improved_solver a) (second_improved_solver b)) /\
  (1 <= n -> nonneg w n -> nonneg (charged w out into) n -> same (third_improved_solver a) (third_improved_solver b)).
Proof.
  intros e n w W o i He HW HW' HB a b same. repeat split; intros Hn.
  - apply (up_to_intro w n o i B64); [exact (C01_naive_optimal_f64 e n w W He Hn HW HB)|exact (C01_naive_optimal_f64 e n _ W He Hn HW' HB)].
  - intros Hs Hs'. apply (up_to_intro w n o i B64); [exact (C02_first_optimal_f64_partial e n w W He Hn Hs HW HB)|exact (C02_first_optimal_f64_partial e n _ W He Hn Hs' HW' HB)].
  - apply (up_to_intro w n o i B64); [exact (C03_second_optimal_f64 e n w W He Hn HW HB)|exact (C03_second_optimal_f64 e n _ W He Hn HW' HB)].
  - intros Hs Hs'. apply (up_to_intro w n o i B64); [exact (C04_third_optimal_f64 e n w W He Hn Hs HW HB)|exact (C04_third_optimal_f64 e n _ W He Hn Hs' HW' HB)].
Qed.

(** The 1-tree bound with any charges, less the charges, is again a lower bound for the instance without them (this is how Held and Karp use it). *)
Theorem C83_one_tree_bound : forall n w t, 3 <= n -> symmetric w n ->
  exists c, one_tree_lower_bound_seq (int_matrix n (charged w t t)) = Ok (Fin c : C EZ) /\
    forall q, is_tour n q -> (c - charges n t t <= tour_cost w q)%Z.
Proof.
  intros n w t Hn Hs. destruct (C23_one_tree_value n (charged w t t) Hn) as (c & E & _ & _ & H).
  { intros i j Hi Hj. unfold charged. rewrite (Hs i j Hi Hj). lia. }
  exists c. split; [exact E|]. intros q Hq. specialize (H q Hq). rewrite (tour_charged n) in H by assumption. lia.
Qed.

Theorem C83_one_tree_bound_f64 : forall e n w W t, (-1074 <= e <= 970)%Z -> bounded (charged w t t) n W -> (2 * W * Z.of_nat n <= 2 ^ 53)%Z -> 3 <= n -> symmetric w n ->
  exists c, one_tree_lower_bound_seq (f64_matrix e n (charged w t t)) = Ok (b64_inj e c : C B64) /\
    forall q, is_tour n q -> (c - charges n t t <= tour_cost w q)%Z.
Proof.
  intros e n w W t He HW HB Hn Hs. destruct (C23_one_tree_value_f64 e n (charged w t t) W He HW HB Hn) as (c & E & _ & _ & H).
  { intros i j Hi Hj. unfold charged. rewrite (Hs i j Hi Hj). lia. }
  exists c. split; [exact E|]. intros q Hq. specialize (H q Hq). rewrite (tour_charged n) in H by assumption. lia.
Qed.

Lemma sym_surcharged n w d : symmetric w n -> symmetric (surcharged w d) n.
Proof. intros Hs i j Hi Hj. unfold surcharged. rewrite (Hs i j Hi Hj). reflexivity. Qed.

(** A surcharge of [d] on every edge: a tree of [k] vertices pays it [k - 1] times, a 1-tree [n] times. *)
Theorem C83_trees : forall n w d, symmetric w n ->
  (forall X, Forall (fun x => x < n) X -> (exists v, v < n /\ ~ In v X) ->
    exists c g g', prim_with_excluded_node_single_threaded (int_matrix n w) X = Ok g /\ undirected_edge_weight g = Fin c /\
      prim_with_excluded_node_single_threaded (int_matrix n (surcharged w d)) X = Ok g' /\
      undirected_edge_weight g' = Fin (c + d * (Z.of_nat (length (free_vertices n X)) - 1))%Z) /\
  (3 <= n -> exists c, one_tree_lower_bound_seq (int_matrix n w) = Ok (Fin c : C EZ) /\
    one_tree_lower_bound_seq (int_matrix n (surcharged w d)) = Ok (Fin (c + d * Z.of_nat n)%Z : C EZ)).
Proof.
  intros n w d Hs. pose proof (sym_surcharged n w d Hs) as Hs'. split.
  - intros X HX Hex.
    destruct (C19_minimum_weight n w X Hs HX Hex) as (g & T & Eg & HT & _ & Ew & MT).
    destruct (C19_minimum_weight n (surcharged w d) X Hs' HX Hex) as (g' & T' & Eg' & HT' & _ & Ew' & MT').
    exists (edges_cost w T), g, g'. rewrite (tree_surcharged w d _ T T' HT MT HT' MT') in Ew'. auto.
  - intros Hn. destruct (C23_one_tree_value n w Hn Hs) as (c & E & V1 & V2 & _). destruct (C23_one_tree_value n (surcharged w d) Hn Hs') as (c' & E' & V1' & V2' & _).
    assert (c' = (c + d * Z.of_nat n)%Z) by (apply (one_tree_surcharged n w d); split; assumption). subst c'. exists c. auto.
Qed.

Theorem C83_trees_f64 : forall e n w W d, (-1074 <= e <= 970)%Z -> bounded w n W -> bounded (surcharged w d) n W -> (2 * W * Z.of_nat n <= 2 ^ 53)%Z -> symmetric w n ->
  (forall X, Forall (fun x => x < n) X -> (exists v, v < n /\ ~ In v X) ->
    exists c g g', prim_with_excluded_node_single_threaded (f64_matrix e n w) X = Ok g /\ undirected_edge_weight g = b64_inj e c /\
      prim_with_excluded_node_single_threaded (f64_matrix e n (surcharged w d)) X = Ok g' /\
      undirected_edge_weight g' = b64_inj e (c + d * (Z.of_nat (length (free_vertices n X)) - 1))) /\
  (3 <= n -> exists c, one_tree_lower_bound_seq (f64_matrix e n w) = Ok (b64_inj e c : C B64) /\
    one_tree_lower_bound_seq (f64_matrix e n (surcharged w d)) = Ok (b64_inj e (c + d * Z.of_nat n) : C B64)).
Proof.
  intros e n w W d He HW HW' HB Hs. pose proof (sym_surcharged n w d Hs) as Hs'. split.
  - intros X HX Hex.
    destruct (C19_minimum_weight_f64 e n w W X He HW HB Hs HX Hex) as (g & T & Eg & HT & _ & Ew & MT).
    destruct (C19_minimum_weight_f64 e n (surcharged w d) W X He HW' HB Hs' HX Hex) as (g' & T' & Eg' & HT' & _ & Ew' & MT').
    exists (edges_cost w T), g, g'. rewrite (tree_surcharged w d _ T T' HT MT HT' MT') in Ew'. auto.
  - intros Hn. destruct (C23_one_tree_value_f64 e n w W He HW HB Hn Hs) as (c & E & V1 & V2 & _).
    destruct (C23_one_tree_value_f64 e n (surcharged w d) W He HW' HB Hn Hs') as (c' & E' & V1' & V2' & _).
    assert (c' = (c + d * Z.of_nat n)%Z) by (apply (one_tree_surcharged n w d); split; assumption). subst c'. exists c. auto.
Qed.

Lemma surcharge_is_charge w d i j : surcharged w d i j = charged w (fun _ => d) (fun _ => 0%Z) i j.
Proof. unfold surcharged, charged. lia. Qed.

Lemma total_const d p : total (fun _ => d) p = (d * Z.of_nat (length p))%Z.
Proof. induction p as [|a p IH]; [cbn; lia|]. unfold total in *. cbn [fold_right length]. rewrite IH. lia. Qed.

Lemma path_ext w w' p : (forall i j, w i j = w' i j) -> path_cost w p = path_cost w' p.
Proof. intros H. induction p as [|a [|b p] IH]; [reflexivity..|]. cbn [path_cost] in *. rewrite H, IH. reflexivity. Qed.

Lemma tour_surcharged n w d p : is_tour n p -> tour_cost (surcharged w d) p = (tour_cost w p + d * Z.of_nat n)%Z.
Proof.
  intros Hp. assert (E : tour_cost (surcharged w d) p = tour_cost (charged w (fun _ => d) (fun _ => 0%Z)) p).
  { destruct p as [|a p]; [reflexivity|]. unfold tour_cost. rewrite (path_ext _ _ _ (surcharge_is_charge w d)), surcharge_is_charge. reflexivity. }
  rewrite E, (tour_charged n) by assumption. unfold charges. rewrite !total_const, seq_length. lia.
Qed.

Lemma id_renaming n : renaming n (fun i => i).
Proof. unfold renaming. rewrite map_id. apply Permutation_refl. Qed.

(** With a surcharge the nearest-neighbour heuristic walks the same way (no vertex having two others equally near) ... *)
Theorem C83_nearest : forall n w d s, no_ties w n -> s < n ->
  exists p, single_nearest_neighbour (int_matrix n w) s = Ok (Fin (tour_cost w p), p) /\
    single_nearest_neighbour (int_matrix n (surcharged w d)) s = Ok (Fin (tour_cost w p + d * Z.of_nat n)%Z, p).
Proof.
  intros n w d s Ht Hs. destruct (C25_exact n w s Hs) as (p & Ep & Tp & Hp & Gp). destruct (C25_exact n (surcharged w d) s Hs) as (q & Eq & Tq & Hq & Gq).
  apply greedy_surcharged in Gq. assert (E : p = q) by (apply (greedy_unique n (fun i => i) (id_renaming n) w); auto; congruence). subst q.
  exists p. rewrite <- (tour_surcharged n) by assumption. auto.
Qed.

Theorem C83_nearest_f64 : forall e n w W d s, (-1074 <= e <= 970)%Z -> bounded w n W -> bounded (surcharged w d) n W -> (W * (Z.of_nat n + 1) <= 2 ^ 53)%Z ->
  no_ties w n -> s < n ->
  exists p, single_nearest_neighbour (f64_matrix e n w) s = Ok (b64_inj e (tour_cost w p), p) /\
    single_nearest_neighbour (f64_matrix e n (surcharged w d)) s = Ok (b64_inj e (tour_cost w p + d * Z.of_nat n), p).
Proof.
  intros e n w W d s He HW HW' HB Ht Hs. destruct (C25_exact_f64 e n w W s He HW HB Hs) as (p & Ep & Tp & Hp & Gp).
  destruct (C25_exact_f64 e n (surcharged w d) W s He HW' HB Hs) as (q & Eq & Tq & Hq & Gq).
  apply greedy_surcharged in Gq. assert (E : p = q) by (apply (greedy_unique n (fun i => i) (id_renaming n) w); auto; congruence). subst q.
  exists p. rewrite <- (tour_surcharged n) by assumption. auto.
Qed.

(** ... but a charge at one vertex can make it worse by more than the charge, though the costs stay symmetric and non-negative. *)
Definition ex_w : nat -> nat -> Z := table [[0;5;8;3];[5;0;9;7];[8;9;0;6];[3;7;6;0]]%Z.
Definition ex_t : nat -> Z := fun v => if v =? 2 then 2%Z else 0%Z.

Lemma ex_no_ties : no_ties ex_w 4.
Proof.
  intros i a b Hi Ha Hb Hai Hbi E.
  destruct i as [|[|[|[|i]]]]; [| | | |lia]; (destruct a as [|[|[|[|a]]]]; [| | | |lia]); (destruct b as [|[|[|[|b]]]]; [| | | |lia]); try reflexivity; try lia; discriminate E.
Qed.

Lemma ex_nonneg w : forallb (fun i => forallb (fun j => (0 <=? w i j)%Z) (seq 0 4)) (seq 0 4) = true -> nonneg w 4.
Proof.
  intros H i j Hi Hj. rewrite forallb_forall in H. specialize (H i ltac:(apply in_seq; lia)). rewrite forallb_forall in H. specialize (H j ltac:(apply in_seq; lia)).
  apply Z.leb_le, H.
Qed.

Theorem C83_nearest_charge_refuted : exists n w t s c c' p q, symmetric w n /\ nonneg w n /\ nonneg (charged w t t) n /\ no_ties w n /\
  single_nearest_neighbour (int_matrix n w) s = Ok (Fin c : C EZ, p) /\ single_nearest_neighbour (int_matrix n (charged w t t)) s = Ok (Fin c' : C EZ, q) /\
  (c + charges n t t < c')%Z.
Proof.
  exists 4, ex_w, ex_t, 0, 23%Z, 31%Z, [0; 3; 2; 1], [0; 3; 1; 2]. split; [apply symmetric_dec; reflexivity|].
  split; [apply ex_nonneg; reflexivity|]. split; [apply ex_nonneg; reflexivity|]. split; [exact ex_no_ties|]. repeat split; vm_compute; reflexivity.
Qed.

(** The same four vertices: the least tour costs 23, with the charge of 2 on entering and on leaving vertex 2 it costs 27. *)
Example C83_applies : charges 4 ex_t ex_t = 4%Z /\
  naive_solver (na_adj (int_matrix 4 ex_w)) = Ok (Fin 23%Z : C EZ, [0; 3; 2; 1]) /\
  naive_solver (na_adj (int_matrix 4 (charged ex_w ex_t ex_t))) = Ok (Fin 27%Z : C EZ, [0; 3; 2; 1]) /\
  one_tree_lower_bound_seq (int_matrix 4 ex_w) = Ok (Fin 22%Z : C EZ).
Proof. vm_compute. repeat split. Qed.

Print Assumptions C83_exact.
Print Assumptions C83_exact_f64.
Print Assumptions C83_one_tree_bound.
Print Assumptions C83_one_tree_bound_f64.
Print Assumptions C83_trees.
Print Assumptions C83_trees_f64.
Print Assumptions C83_nearest.
Print Assumptions C83_nearest_f64.
Print Assumptions C83_nearest_charge_refuted.
