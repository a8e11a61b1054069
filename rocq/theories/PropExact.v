(** Properties C01-C10 and C44: the sequential exact solvers.

    Each optimality property comes in three forms: for exact arithmetic ([int_matrix]: all
    sizes, all integer costs; every finite matrix is one, [int_matrix_complete]), for IEEE
    doubles ([f64_matrix]: costs [w i j * 2^e] whose sums fit 53 bits), and generically
    for any arithmetic with an exact embedding and any matrix type. *)
From Coq Require Import ZArith Arith Bool List Permutation Sorted Lia.
From Verif Require Import Num NumB64 Base Spec SpecFacts Data Mst Exact Dfs PrimProofs MstFacts
  ExactProofs PermProofs Instances.
Import ListNotations.

(** ** C01 *)
Theorem C01_naive_optimal : forall n w, 2 <= n ->
  exists c p, naive_solver (na_adj (int_matrix n w)) = Ok (Fin c, p) /\ is_optimal w n c p.
Proof.
  intros n w Hn. destruct (EZ_bound 1 w n ltac:(lia)) as (W & B & HW & H0 & HB).
  exact (naive_optimal (EZ_exact B) EZ_ord (na_adj (int_matrix n w)) w W Hn
           (emb_represents (EZ_exact B) n w) HW ltac:(simpl; lia)).
Qed.
Print Assumptions C01_naive_optimal.

Theorem C01_naive_optimal_f64 : forall e n w W, (-1074 <= e <= 970)%Z -> 2 <= n -> bounded w n W ->
  (W * (Z.of_nat n + 1) <= 2 ^ 53)%Z ->
  exists c p, naive_solver (na_adj (f64_matrix e n w)) = Ok (b64_inj e c, p) /\ is_optimal w n c p.
Proof.
  intros e n w W He Hn HW HB.
  exact (naive_optimal (B64_exact e He) B64_ord (na_adj (f64_matrix e n w)) w W Hn
           (emb_represents (B64_exact e He) n w) HW HB).
Qed.
Print Assumptions C01_naive_optimal_f64.

Theorem C01_naive_optimal_generic : forall N B (E : Exact N B) (O : NumOrd N) (g : adj N) w W,
  2 <= a_dim g -> represents E g w -> bounded w (a_dim g) W -> (W * (Z.of_nat (a_dim g) + 1) <= B)%Z ->
  exists c p, naive_solver g = Ok (inj E c, p) /\ is_optimal w (a_dim g) c p.
Proof. intros. apply (naive_optimal E O g w W); assumption. Qed.
Print Assumptions C01_naive_optimal_generic.

(** an asymmetric instance with a negative cost *)
Definition ex_asym : nat -> nat -> Z := table [[0;5;1;9]; [2;0;7;-3]; [8;4;0;6]; [1;3;2;0]]%Z.
Example C01_applies :
  naive_solver (na_adj (int_matrix 4 ex_asym)) = Ok (Fin 3%Z, [0;2;1;3]) /\ ~ symmetric ex_asym 4.
Proof. split; [vm_compute; reflexivity|]. intros H. specialize (H 0 1 ltac:(lia) ltac:(lia)). discriminate. Qed.

(** one vertex: the only tour has cost w 0 0, the solver reports infinity *)
Theorem C01_single_vertex : forall w,
  naive_solver (na_adj (int_matrix 1 w)) = Ok (PInf : C EZ, [0]).
Proof. intros w. reflexivity. Qed.
Print Assumptions C01_single_vertex.

(** ** C02.  Full statement: optimal for every n.  It fails for n <= 2; proved from 3 on. *)
Theorem C02_first_optimal_partial : forall n w, 3 <= n -> symmetric w n ->
  exists c p, first_improved_solver (na_adj (int_matrix n w)) = Ok (Fin c, p) /\ is_optimal w n c p.
Proof.
  intros n w Hn Hs. destruct (EZ_bound 1 w n ltac:(lia)) as (W & B & HW & H0 & HB).
  exact (first_optimal (EZ_exact B) EZ_ord (na_adj (int_matrix n w)) w W ltac:(simpl; lia)
           (emb_represents (EZ_exact B) n w) HW ltac:(simpl; lia) Hn Hs).
Qed.
Print Assumptions C02_first_optimal_partial.

Theorem C02_first_optimal_f64_partial : forall e n w W, (-1074 <= e <= 970)%Z -> 3 <= n -> symmetric w n ->
  bounded w n W -> (W * (Z.of_nat n + 1) <= 2 ^ 53)%Z ->
  exists c p, first_improved_solver (na_adj (f64_matrix e n w)) = Ok (b64_inj e c, p) /\ is_optimal w n c p.
Proof.
  intros e n w W He Hn Hs HW HB.
  exact (first_optimal (B64_exact e He) B64_ord (na_adj (f64_matrix e n w)) w W ltac:(simpl; lia)
           (emb_represents (B64_exact e He) n w) HW HB Hn Hs).
Qed.
Print Assumptions C02_first_optimal_f64_partial.

Definition ex_sym : nat -> nat -> Z := table [[0;4;2;5]; [4;0;6;1]; [2;6;0;3]; [5;1;3;0]]%Z.
Example C02_applies : symmetric ex_sym 4 /\
  first_improved_solver (na_adj (int_matrix 4 ex_sym)) = Ok (Fin 10%Z, [0;1;3;2]) /\
  tour_cost ex_sym [0;1;2;3] = 18%Z.
Proof. concrete. Qed.

(** For two vertices the only tour is never evaluated: the reported cost is infinity. *)
Theorem C02_two_vertices_refuted : forall w,
  first_improved_solver (na_adj (int_matrix 2 w)) = Ok (PInf : C EZ, [0; 1]).
Proof. intros w. reflexivity. Qed.
Print Assumptions C02_two_vertices_refuted.

(** Without symmetry the tour 0 1 2 ... is missed. *)
Theorem C02_asymmetric_refuted : exists n w c p q, 3 <= n /\
  first_improved_solver (na_adj (int_matrix n w)) = Ok (Fin c, p) /\ is_tour n q /\ (tour_cost w q < c)%Z.
Proof.
  exists 3, (table [[0;1;9]; [9;0;1]; [1;9;0]]%Z), 27%Z, [0;2;1], [0;1;2].
  concrete.
Qed.
Print Assumptions C02_asymmetric_refuted.

(** An empty matrix: V1 slices [1..] of an empty vector. *)
Theorem C02_empty_panics : forall w, first_improved_solver (na_adj (int_matrix 0 w)) = Panic.
Proof. reflexivity. Qed.
Print Assumptions C02_empty_panics.

(** ** C03 *)
Theorem C03_second_optimal : forall n w, 1 <= n ->
  exists c p, second_improved_solver (na_adj (int_matrix n w)) = Ok (Fin c, p) /\ is_optimal w n c p.
Proof.
  intros n w Hn. destruct (EZ_bound 1 w n ltac:(lia)) as (W & B & HW & H0 & HB).
  exact (second_optimal (EZ_exact B) (na_adj (int_matrix n w)) w W Hn
           (emb_represents (EZ_exact B) n w) HW ltac:(simpl; lia)).
Qed.
Print Assumptions C03_second_optimal.

Theorem C03_second_optimal_f64 : forall e n w W, (-1074 <= e <= 970)%Z -> 1 <= n -> bounded w n W ->
  (W * (Z.of_nat n + 1) <= 2 ^ 53)%Z ->
  exists c p, second_improved_solver (na_adj (f64_matrix e n w)) = Ok (b64_inj e c, p) /\ is_optimal w n c p.
Proof.
  intros e n w W He Hn HW HB.
  exact (second_optimal (B64_exact e He) (na_adj (f64_matrix e n w)) w W Hn
           (emb_represents (B64_exact e He) n w) HW HB).
Qed.
Print Assumptions C03_second_optimal_f64.

Theorem C03_second_optimal_generic : forall N B (E : Exact N B) (g : adj N) w W,
  1 <= a_dim g -> represents E g w -> bounded w (a_dim g) W -> (W * (Z.of_nat (a_dim g) + 1) <= B)%Z ->
  exists c p, second_improved_solver g = Ok (inj E c, p) /\ is_optimal w (a_dim g) c p.
Proof. intros. apply (second_optimal E g w W); assumption. Qed.
Print Assumptions C03_second_optimal_generic.

Example C03_applies :
  second_improved_solver (na_adj (int_matrix 4 ex_asym)) = Ok (Fin 3%Z, [0;2;1;3]).
Proof. vm_compute. reflexivity. Qed.

(** ** C04 *)
Theorem C04_third_optimal : forall n w, 1 <= n -> nonneg w n ->
  exists c p, third_improved_solver (na_adj (int_matrix n w)) = Ok (Fin c, p) /\ is_optimal w n c p.
Proof.
  intros n w Hn Hnn. destruct (EZ_bound 1 w n ltac:(lia)) as (W & B & HW & H0 & HB).
  exact (third_optimal (EZ_exact B) (na_adj (int_matrix n w)) w W Hn
           (emb_represents (EZ_exact B) n w) HW Hnn ltac:(simpl; lia)).
Qed.
Print Assumptions C04_third_optimal.

Theorem C04_third_optimal_f64 : forall e n w W, (-1074 <= e <= 970)%Z -> 1 <= n -> nonneg w n -> bounded w n W ->
  (W * (Z.of_nat n + 1) <= 2 ^ 53)%Z ->
  exists c p, third_improved_solver (na_adj (f64_matrix e n w)) = Ok (b64_inj e c, p) /\ is_optimal w n c p.
Proof.
  intros e n w W He Hn Hnn HW HB.
  exact (third_optimal (B64_exact e He) (na_adj (f64_matrix e n w)) w W Hn
           (emb_represents (B64_exact e He) n w) HW Hnn HB).
Qed.
Print Assumptions C04_third_optimal_f64.

Theorem C04_third_optimal_generic : forall N B (E : Exact N B) (g : adj N) w W,
  1 <= a_dim g -> represents E g w -> nonneg w (a_dim g) -> bounded w (a_dim g) W ->
  (W * (Z.of_nat (a_dim g) + 1) <= B)%Z ->
  exists c p, third_improved_solver g = Ok (inj E c, p) /\ is_optimal w (a_dim g) c p.
Proof. intros. apply (third_optimal E g w W); assumption. Qed.
Print Assumptions C04_third_optimal_generic.

Example C04_applies : nonneg ex_sym 4 /\
  third_improved_solver (na_adj (int_matrix 4 ex_sym)) = Ok (Fin 10%Z, [0;1;3;2]).
Proof. concrete. Qed.

(** Negative costs break the pruning. *)
Theorem C04_negative_refuted : exists n w c p q,
  third_improved_solver (na_adj (int_matrix n w)) = Ok (Fin c, p) /\ is_tour n q /\ (tour_cost w q < c)%Z.
Proof.
  exists 3, (table [[0;-1;-2]; [-2;0;-1]; [-1;-2;0]]%Z), (-3)%Z, [0;1;2], [0;2;1].
  concrete.
Qed.
Print Assumptions C04_negative_refuted.

(** ** C05.  Full statement: optimal.  It is false of the code (the "nearest neighbour" bound
    overestimates); what remains true is that a genuine tour with its genuine cost is
    returned. *)
Definition ex_v4 : nat -> nat -> Z :=
  table [[0;1;2;2;1;1]; [1;0;2;1;1;1]; [2;2;0;1;1;2]; [2;1;1;0;10;10]; [1;1;1;10;0;10]; [1;1;2;10;10;0]]%Z.
Theorem C05_fourth_optimal_refuted : exists n w c p q, symmetric w n /\ nonneg w n /\
  fourth_improved_solver (na_adj (int_matrix n w)) = Ok (Fin c, p) /\ is_tour n q /\ (tour_cost w q < c)%Z.
Proof.
  exists 6, ex_v4, 8%Z, [0;3;1;4;2;5], [0;4;2;3;1;5].
  concrete.
Qed.
Print Assumptions C05_fourth_optimal_refuted.

Theorem C05_fourth_tour_partial : forall n w, 1 <= n ->
  exists c p, fourth_improved_solver (na_adj (int_matrix n w)) = Ok (Fin c, p) /\
    is_tour n p /\ tour_cost w p = c.
Proof.
  intros n w Hn. destruct (EZ_bound 2 w n ltac:(lia)) as (W & B & HW & H0 & HB).
  exact (fourth_genuine (EZ_exact B) (na_adj (int_matrix n w)) w W Hn
           (emb_represents (EZ_exact B) n w) HW HB).
Qed.
Print Assumptions C05_fourth_tour_partial.

(** ** C06.  Full statement: optimal.  It is false of the code (the MST is counted twice in
    the bound), even on metric instances; C07 is the true part. *)
Definition ex_v5 : nat -> nat -> Z :=
  table [[0;2;1;2;1;1;1]; [2;0;1;1;2;1;1]; [1;1;0;1;1;1;1]; [2;1;1;0;1;2;1]; [1;2;1;1;0;1;2];
         [1;1;1;2;1;0;1]; [1;1;1;1;2;1;0]]%Z.
Theorem C06_fifth_optimal_refuted : exists n w c p q, symmetric w n /\ nonneg w n /\ triangle w n /\
  fifth_improved_solver (int_matrix n w) = Ok (Fin c, p) /\ is_tour n q /\ (tour_cost w q < c)%Z.
Proof.
  exists 7, ex_v5, 8%Z, [0;1;2;3;4;5;6], [0;2;1;3;4;5;6].
  concrete.
Qed.
Print Assumptions C06_fifth_optimal_refuted.

(** ** C07, and the remaining part of C06 *)
Theorem C07_fifth_factor_two : forall n w, 1 <= n -> symmetric w n -> nonneg w n ->
  exists c p, fifth_improved_solver (int_matrix n w) = Ok (Fin c, p) /\
    is_tour n p /\ tour_cost w p = c /\ forall q, is_tour n q -> (c <= 2 * tour_cost w q)%Z.
Proof.
  intros n w Hn Hs Hnn. destruct (EZ_bound 3 w n ltac:(lia)) as (W & B & HW & H0 & HB).
  destruct (fifth_spec (EZ_exact B) EZ_ord (int_matrix n w) (matrix_of_wf n _) w W Hn
           (emb_represents (EZ_exact B) n w) HW HB) as (c & p & E1 & E2 & E3 & E4).
  exists c, p. repeat split; try assumption. apply E4; assumption.
Qed.
Print Assumptions C07_fifth_factor_two.

Theorem C07_fifth_factor_two_f64 : forall e n w W, (-1074 <= e <= 970)%Z -> 1 <= n -> symmetric w n -> nonneg w n ->
  bounded w n W -> (3 * W * (Z.of_nat n + 1) <= 2 ^ 53)%Z ->
  exists c p, fifth_improved_solver (f64_matrix e n w) = Ok (b64_inj e c, p) /\
    is_tour n p /\ tour_cost w p = c /\ forall q, is_tour n q -> (c <= 2 * tour_cost w q)%Z.
Proof.
  intros e n w W He Hn Hs Hnn HW HB.
  destruct (fifth_spec (B64_exact e He) B64_ord (f64_matrix e n w) (matrix_of_wf n _) w W Hn
           (emb_represents (B64_exact e He) n w) HW HB) as (c & p & E1 & E2 & E3 & E4).
  exists c, p. repeat split; try assumption. apply E4; assumption.
Qed.
Print Assumptions C07_fifth_factor_two_f64.

Example C07_applies : symmetric ex_v5 7 /\ nonneg ex_v5 7 /\
  fifth_improved_solver (int_matrix 7 ex_v5) = Ok (Fin 8%Z, [0;1;2;3;4;5;6]).
Proof. concrete. Qed.

(** ** C08 *)
Theorem C08_sixth_equals_fifth : forall (N : Num) (m : namatrix N) (hash : list nat -> N.t),
  (forall p q, NoDup p -> Forall (fun i => i < na_dim m) p -> NoDup q -> Forall (fun i => i < na_dim m) q ->
     hash p = hash q -> p = q) ->
  sixth_improved_solver_with hash m = fifth_improved_solver m.
Proof. intros N m hash H. apply sixth_eq_fifth. assumption. Qed.
Print Assumptions C08_sixth_equals_fifth.

Theorem C08_sixth_tour_any_hash : forall n w hash, 1 <= n ->
  exists c p, sixth_improved_solver_with hash (int_matrix n w) = Ok (Fin c, p) /\
    is_tour n p /\ tour_cost w p = c.
Proof.
  intros n w hash Hn. destruct (EZ_bound 3 w n ltac:(lia)) as (W & B & HW & H0 & HB).
  exact (sixth_genuine (EZ_exact B) EZ_ord (int_matrix n w) (matrix_of_wf n _) w W Hn
           (emb_represents (EZ_exact B) n w) HW HB hash).
Qed.
Print Assumptions C08_sixth_tour_any_hash.

(** The real hash function does not collide on the prefixes of instances with 5
    vertices, so that V6 and V5 agree there. *)
Lemma NoDup_map_inj {A B} (f : A -> B) l x y : NoDup (map f l) -> In x l -> In y l -> f x = f y -> x = y.
Proof.
  induction l as [|a l IH]; simpl; [intros _ []|]. intros Hnd Hx Hy E. inversion Hnd as [|? ? Hni Hnd']; subst.
  destruct Hx as [->|Hx], Hy as [->|Hy]; auto.
  - exfalso. apply Hni. rewrite E. apply in_map. assumption.
  - exfalso. apply Hni. rewrite <- E. apply in_map. assumption.
Qed.

(** all lists of [k] distinct numbers below [n] *)
Fixpoint dlists (n k : nat) : list (list nat) :=
  match k with
  | O => [[]]
  | S k => flat_map (fun l => map (fun i => i :: l) (filter (fun i => negb (memb i l)) (seq 0 n))) (dlists n k)
  end.

Lemma dlists_In n p : NoDup p -> Forall (fun i => i < n) p -> In p (dlists n (length p)).
Proof.
  induction p as [|i p IH]; intros Hnd Hr; [left; reflexivity|].
  inversion Hnd; inversion Hr; subst. simpl. apply in_flat_map. exists p. split; [auto|].
  apply in_map_iff. exists i. split; [reflexivity|].
  apply filter_In. split; [apply in_seq; lia|]. apply negb_true_iff, memb_nIn. assumption.
Qed.

Definition no_collision (n : nat) : bool :=
  let hs := map fx_hash (flat_map (dlists n) (seq 0 (S n))) in
  (length (nodup N.eq_dec hs) =? length hs).

Lemma nodup_len_NoDup (l : list N) : length (nodup N.eq_dec l) = length l -> NoDup l.
Proof.
  assert (Hle : forall l : list N, length (nodup N.eq_dec l) <= length l).
  { clear. induction l as [|x l IH]; simpl; [lia|]. destruct (in_dec N.eq_dec x l); simpl; lia. }
  induction l as [|x l IH]; intros H; [constructor|]. simpl in H. destruct (in_dec N.eq_dec x l) as [Hin|Hni].
  - specialize (Hle l). lia.
  - constructor; [assumption|]. apply IH. simpl in H. lia.
Qed.

Lemma no_collision_inj n : no_collision n = true ->
  forall p q, NoDup p -> Forall (fun i => i < n) p -> NoDup q -> Forall (fun i => i < n) q ->
  fx_hash p = fx_hash q -> p = q.
Proof.
  intros H p q H1 H2 H3 H4 E. unfold no_collision in H. apply Nat.eqb_eq, nodup_len_NoDup in H.
  assert (Hin : forall p, NoDup p -> Forall (fun i => i < n) p -> In p (flat_map (dlists n) (seq 0 (S n)))).
  { intros r Hr1 Hr2. apply in_flat_map. exists (length r). split; [|apply dlists_In; assumption].
    apply in_seq. pose proof (in_range_length r n Hr1 Hr2). lia. }
  apply (NoDup_map_inj fx_hash (flat_map (dlists n) (seq 0 (S n)))); auto.
Qed.

Example C08_applies : forall p q, NoDup p -> Forall (fun i => i < 5) p -> NoDup q -> Forall (fun i => i < 5) q ->
  fx_hash p = fx_hash q -> p = q.
Proof. apply no_collision_inj. vm_compute. reflexivity. Qed.

(** A colliding hash function can change the answer of V6. *)
Theorem C08_collision_refuted : exists n w hash, symmetric w n /\ nonneg w n /\
  sixth_improved_solver_with hash (int_matrix n w) <> fifth_improved_solver (int_matrix n w).
Proof.
  exists 6, (table [[0;5;8;3;3;3]; [5;0;3;5;8;3]; [8;3;0;3;3;3]; [3;5;3;0;8;5]; [3;8;3;8;0;3]; [3;3;3;5;3;0]]%Z), (fun _ => 0%N).
  split; [concrete|split; [concrete|]]. vm_compute. discriminate.
Qed.

(** ** C09 *)
(** [s] is the solution: a tour together with its cost *)
Definition genuine (n : nat) (w : nat -> nat -> Z) (s : res (solution EZ)) : Prop :=
  exists c p, s = Ok (Fin c, p) /\ is_tour n p /\ tour_cost w p = c.

Theorem C09_genuine_tours : forall n w, 1 <= n ->
  genuine n w (second_improved_solver (na_adj (int_matrix n w))) /\
  genuine n w (third_improved_solver (na_adj (int_matrix n w))) /\
  genuine n w (fourth_improved_solver (na_adj (int_matrix n w))) /\
  genuine n w (fifth_improved_solver (int_matrix n w)) /\
  genuine n w (sixth_improved_solver (int_matrix n w)).
Proof.
  intros n w Hn. destruct (EZ_bound 3 w n ltac:(lia)) as (W & B & HW & H0 & HB).
  assert (HB2 : (2 * W * (Z.of_nat n + 1) <= B)%Z) by nia.
  assert (HB1 : (W * (Z.of_nat n + 1) <= B)%Z) by nia.
  pose proof (emb_represents (EZ_exact B) n w) as Hr.
  split; [|split; [|split; [|split]]].
  - destruct (C03_second_optimal n w Hn) as (c & p & E & H1 & H2 & _). exists c, p. auto.
  - exact (third_genuine (EZ_exact B) (na_adj (int_matrix n w)) w W Hn Hr HW HB1).
  - exact (fourth_genuine (EZ_exact B) (na_adj (int_matrix n w)) w W Hn Hr HW HB2).
  - destruct (fifth_spec (EZ_exact B) EZ_ord (int_matrix n w) (matrix_of_wf n _) w W Hn Hr HW HB) as (c & p & E1 & E2 & E3 & _).
    exists c, p. auto.
  - exact (sixth_genuine (EZ_exact B) EZ_ord (int_matrix n w) (matrix_of_wf n _) w W Hn Hr HW HB fx_hash).
Qed.
Print Assumptions C09_genuine_tours.

Example C09_applies : genuine 4 ex_asym (sixth_improved_solver (int_matrix 4 ex_asym)).
Proof. exists 3%Z, [0;2;1;3]. concrete. Qed.

(** For every arithmetic (rounding, infinities and NaN included): V2-V6 do not panic and
    return the empty path or a tour. *)
Theorem C09_no_panic : forall (N : Num) (O : NumOrd N) (m : namatrix N), 1 <= na_dim m -> na_wf m ->
  (exists s, second_improved_solver (na_adj m) = Ok s /\ (snd s = [] \/ is_tour (na_dim m) (snd s))) /\
  (exists s, third_improved_solver (na_adj m) = Ok s /\ (snd s = [] \/ is_tour (na_dim m) (snd s))) /\
  (exists s, fourth_improved_solver (na_adj m) = Ok s /\ (snd s = [] \/ is_tour (na_dim m) (snd s))) /\
  (exists s, fifth_improved_solver m = Ok s /\ (snd s = [] \/ is_tour (na_dim m) (snd s))) /\
  (exists s, sixth_improved_solver m = Ok s /\ (snd s = [] \/ is_tour (na_dim m) (snd s))).
Proof.
  intros N O m Hn Hwf.
  assert (Hget : forall i j, i < a_dim (na_adj m) -> j < a_dim (na_adj m) -> exists c, a_get (na_adj m) i j = Ok c).
  { intros i j Hi Hj. exists (na_val m i j). apply na_get_val; assumption. }
  split; [|split; [|split; [|split]]].
  - apply (second_struct (na_adj m)); assumption.
  - apply (third_struct (na_adj m)); assumption.
  - apply (fourth_struct (na_adj m)); assumption.
  - apply (fifth_struct O m); assumption.
  - apply (sixth_struct O fx_hash m); assumption.
Qed.
Print Assumptions C09_no_panic.

(** A single infinite cost (a missing edge) poisons the running cost with NaN: V2 misses
    the optimal tour although finite tours exist. *)
Theorem C09_infinite_cost_refuted : exists (m : namatrix EZ) c p q, na_wf m /\
  second_improved_solver (na_adj m) = Ok (c, p) /\ is_tour (na_dim m) q /\
  exists z, evaluate_circle (na_adj m) q = Ok (Fin z) /\ clt (Fin z : C EZ) c = true.
Proof.
  exists (mkNA (N := EZ) 4 [Fin 0; PInf; Fin 1; Fin 1;  PInf; Fin 0; Fin 1; Fin 1;
                            Fin 1; Fin 1; Fin 0; Fin 9;  Fin 1; Fin 1; Fin 9; Fin 0]%Z), PInf, [], [0;2;1;3].
  split; [reflexivity|]. split; [vm_compute; reflexivity|]. split; [apply is_tour_dec; reflexivity|].
  exists 4%Z. split; vm_compute; reflexivity.
Qed.
Print Assumptions C09_infinite_cost_refuted.

(** ** C10 *)
Theorem C10_next_permutation : forall l,
  exists b l', next_permutation l = Ok (b, l') /\ Permutation l l' /\
    (b = true -> lex l l' /\ forall q, Permutation l q -> lex l q -> q = l' \/ lex l' q) /\
    (b = false -> l' = l /\ forall q, Permutation l q -> q = l \/ lex q l).
Proof. apply next_permutation_spec. Qed.
Print Assumptions C10_next_permutation.

Theorem C10_iteration_reaches_all : forall l q, StronglySorted (fun a b => a <= b) l -> Permutation l q ->
  exists i, i < fact (length l) /\ iterate_np i l = Ok q.
Proof. apply iterate_np_all. Qed.
Print Assumptions C10_iteration_reaches_all.

Example C10_applies : next_permutation [1;3;2] = Ok (true, [2;1;3]) /\ next_permutation [2;2;1] = Ok (false, [2;2;1])
  /\ iterate_np 4 [1;2;2;3] = Ok [2;1;3;2].
Proof. concrete. Qed.

(** ** C44.  Full statement: for arbitrary finite doubles each exact solver returns a path whose
    floating-point cost (evaluate_circle) is least.  It is false of the code.  What holds: V0
    returns the least evaluation among all tours but the sorted one (which it never evaluates,
    and whose rotations may round differently), for every ordered arithmetic. *)
Theorem C44_naive_rounded_partial : forall (N : Num) (O : NumOrd N) (g : adj N),
  (forall q, is_tour (a_dim g) q -> exists c, evaluate_circle g q = Ok c /\ cnan c = false) ->
  exists c p, naive_solver g = Ok (c, p) /\ is_tour (a_dim g) p /\
    (p <> seq 0 (a_dim g) /\ evaluate_circle g p = Ok c \/ p = seq 0 (a_dim g) /\ c = cinf) /\
    forall q cq, is_tour (a_dim g) q -> q <> seq 0 (a_dim g) -> evaluate_circle g q = Ok cq -> cle c cq = true.
Proof.
  intros N O g Hev.
  set (ev q := match evaluate_circle g q with Ok c => c | _ => c0 end).
  destruct (naive_generic O g ev) as (c & p & E1 & E2 & E3 & E4).
  - intros q Hq. destruct (Hev q Hq) as (c & Ec & _). unfold ev. rewrite Ec. reflexivity.
  - intros q Hq. destruct (Hev q Hq) as (c & Ec & Hc). unfold ev. rewrite Ec. assumption.
  - exists c, p. split; [assumption|]. split; [assumption|]. split.
    + destruct E3 as [[-> H]|[-> H]]; [left|right; auto]. split; [assumption|].
      destruct (Hev p E2) as (c & Ec & _). unfold ev. rewrite Ec. reflexivity.
    + intros q cq Hq Hne Ecq. specialize (E4 q Hq Hne). unfold ev in E4. rewrite Ecq in E4. assumption.
Qed.
Print Assumptions C44_naive_rounded_partial.

(** the doubles nearest to 0.0, 0.1, ..., 0.9 *)
Definition tenth (k : nat) : C B64 :=
  Flocq.IEEE754.Bits.b64_of_bits (nth k [0; 4591870180066957722; 4596373779694328218; 4599075939470750515; 4600877379321698714; 4602678819172646912; 4603579539098121011; 4604480259023595110; 4605380978949069210; 4606281698874543309]%Z 0%Z).
Definition tenths (rows : list (list nat)) : namatrix B64 :=
  matrix_of (length rows) (fun i j => tenth (nth j (nth i rows []) 0)).

(** [solver] returned a path whose evaluation is greater than that of [q] *)
Definition worse_than (g : adj B64) (s : res (solution B64)) (q : list nat) : bool :=
  match s with
  | Ok (c, p) => match evaluate_circle g p, evaluate_circle g q with
                 | Ok x, Ok y => clt y x | _, _ => false end
  | _ => false
  end.
Lemma worse_than_spec g s q : worse_than g s q = true ->
  exists c p x y, s = Ok (c, p) /\ evaluate_circle g p = Ok x /\ evaluate_circle g q = Ok y /\ clt y x = true.
Proof.
  unfold worse_than. destruct s as [[c p]| |]; try discriminate.
  destruct (evaluate_circle g p) as [x| |] eqn:E1; try discriminate.
  destruct (evaluate_circle g q) as [y| |] eqn:E2; try discriminate.
  intros H. exists c, p, x, y. auto.
Qed.

Theorem C44_naive_rounded_refuted : exists (m : namatrix B64) q c p x y, is_tour (na_dim m) q /\
  naive_solver (na_adj m) = Ok (c, p) /\ evaluate_circle (na_adj m) p = Ok x /\
  evaluate_circle (na_adj m) q = Ok y /\ clt y x = true.
Proof.
  exists (tenths [[0;1;7;3]; [1;0;9;9]; [7;9;0;9]; [3;9;9;0]]), [0;1;2;3].
  destruct (worse_than_spec (na_adj (tenths [[0;1;7;3]; [1;0;9;9]; [7;9;0;9]; [3;9;9;0]])) (naive_solver (na_adj (tenths [[0;1;7;3]; [1;0;9;9]; [7;9;0;9]; [3;9;9;0]]))) [0;1;2;3])
    as (c & p & x & y & H); [vm_compute; reflexivity|].
  exists c, p, x, y. split; [apply is_tour_dec; vm_compute; reflexivity|exact H].
Qed.
Print Assumptions C44_naive_rounded_refuted.

Definition ex_drift : namatrix B64 := tenths [[0;1;4;9]; [1;0;3;3]; [4;3;0;2]; [9;3;2;0]].
Theorem C44_second_rounded_refuted : exists (m : namatrix B64) q c p x y, is_tour (na_dim m) q /\
  second_improved_solver (na_adj m) = Ok (c, p) /\ evaluate_circle (na_adj m) p = Ok x /\
  evaluate_circle (na_adj m) q = Ok y /\ clt y x = true.
Proof.
  exists ex_drift, [0;1;3;2].
  destruct (worse_than_spec (na_adj ex_drift) (second_improved_solver (na_adj ex_drift)) [0;1;3;2])
    as (c & p & x & y & H); [vm_compute; reflexivity|].
  exists c, p, x, y. split; [apply is_tour_dec; vm_compute; reflexivity|exact H].
Qed.
Print Assumptions C44_second_rounded_refuted.

Theorem C44_third_rounded_refuted : exists (m : namatrix B64) q c p x y, is_tour (na_dim m) q /\
  third_improved_solver (na_adj m) = Ok (c, p) /\ evaluate_circle (na_adj m) p = Ok x /\
  evaluate_circle (na_adj m) q = Ok y /\ clt y x = true.
Proof.
  exists ex_drift, [0;1;3;2].
  destruct (worse_than_spec (na_adj ex_drift) (third_improved_solver (na_adj ex_drift)) [0;1;3;2])
    as (c & p & x & y & H); [vm_compute; reflexivity|].
  exists c, p, x, y. split; [apply is_tour_dec; vm_compute; reflexivity|exact H].
Qed.
Print Assumptions C44_third_rounded_refuted.

(** and the cost V2 reports need not be the evaluation of the path it returns *)
Theorem C44_reported_cost_refuted : exists (m : namatrix B64) c p x, 
  second_improved_solver (na_adj m) = Ok (c, p) /\ evaluate_circle (na_adj m) p = Ok x /\ clt c x = true.
Proof.
  set (m := ex_drift).
  assert (H : match second_improved_solver (na_adj m) with
              | Ok (c, p) => match evaluate_circle (na_adj m) p with Ok x => clt c x | _ => false end
              | _ => false end = true) by (vm_compute; reflexivity).
  exists m. destruct (second_improved_solver (na_adj m)) as [[c p]| |]; try discriminate.
  exists c, p. destruct (evaluate_circle (na_adj m) p) as [x| |]; try discriminate.
  exists x. auto.
Qed.
Print Assumptions C44_reported_cost_refuted.

Example C44_applies : forall q, is_tour 4 q ->
  match evaluate_circle (na_adj ex_drift) q with Ok c => negb (cnan c) | _ => false end = true.
Proof.
  intros q Hq. assert (Hall : forallb (fun q => match evaluate_circle (na_adj ex_drift) q with Ok c => negb (cnan c) | _ => false end)
    (perms (seq 0 4)) = true) by (vm_compute; reflexivity).
  rewrite forallb_forall in Hall. apply Hall. apply perms_complete. apply Permutation_sym. assumption.
Qed.
