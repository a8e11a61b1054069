(** Property C73: how far the lower bounds are from the optimum. *)
From Coq Require Import ZArith Arith Bool List Permutation Lia.
From Verif Require Import Num NumB64 NumPos Base Spec SpecFacts Data Precond Mst Par MstPar OneTree Rand Nn Matching Christofides
  Exact Threaded Mpi Cli Dfs PrimProofs ConvProofs PrecondProofs Instances PermProofs BoundsProofs
  PropExact PropMst PropThreaded PropMpi PropNn PropChristofides PropData PropCli.
Import ListNotations.

(** The value of the lower bounds, whatever the kind of parallelism, the schedules, the number of
    processes and the choices of the queue: [mst] for both versions of the spanning tree, [tree]
    for the 1-tree. *)
Definition bounds_are {N : Num} (number : Z -> C N) (n : nat) (m : namatrix N) (mst tree : Z) : Prop :=
  (forall env mode, mode <= 2 -> mst_bound env mode m = Ok (number mst)) /\
  (forall pick, mst_queue_bound pick m = Ok (number mst)) /\
  one_tree_lower_bound_seq m = Ok (number tree) /\
  (forall t, one_tree_lower_bound_par t m = Ok (number tree)) /\
  forall order t size, 1 <= size <= n -> Permutation order (seq 0 size) ->
    one_tree_lower_bound_mpi order t m size = Ok (number tree :: repeat cinf (size - 1)).

(** The spanning tree bound is not above the 1-tree bound, this one is not above the cost of any
    tour, and with the triangle inequality some tour costs at most twice the spanning tree bound. *)
Definition bounds_ordered (n : nat) (w : nat -> nat -> Z) (mst tree : Z) : Prop :=
  (mst <= tree)%Z /\ (forall q, is_tour n q -> (tree <= tour_cost w q)%Z) /\
  (triangle w n -> exists q, is_tour n q /\ (tour_cost w q <= 2 * mst)%Z).

(** What they are: [mst] is the least weight of a spanning tree; [tree] is the greatest of the
    least weights of the 1-trees at the cities. *)
Definition bounds_mean (n : nat) (w : nat -> nat -> Z) (mst tree : Z) : Prop :=
  (exists T, spanning_tree (seq 0 n) T /\ edges_cost w T = mst) /\
  (forall T, spanning_tree (seq 0 n) T -> (mst <= edges_cost w T)%Z) /\
  (exists s F, s < n /\ one_tree_at n s F /\ edges_cost w F = tree /\ forall F', one_tree_at n s F' -> (tree <= edges_cost w F')%Z) /\
  (forall s, s < n -> exists F, one_tree_at n s F /\ (edges_cost w F <= tree)%Z).

Lemma tree_order n w T s F : 3 <= n -> symmetric w n -> nonneg w n -> spanning_tree (free_vertices n []) T ->
  (forall T', spanning_tree (free_vertices n []) T' -> (edges_cost w T <= edges_cost w T')%Z) ->
  s < n -> one_tree_at n s F -> (edges_cost w T <= edges_cost w F)%Z.
Proof.
  intros Hn Hs Hnn HT Hmin Hsn (T0 & a & b & -> & Hsp & Ha & Hb & Has & Hbs & Hab).
  destruct (one_tree_spanning n s T0 a w Hsn Hsp Ha Has) as [H1 H2].
  specialize (Hmin _ H1). rewrite H2 in Hmin. rewrite edges_cost_app. cbn [edges_cost fold_right fst snd]. specialize (Hnn s b Hsn Hb). lia.
Qed.

Lemma tree_double n w T : 3 <= n -> symmetric w n -> nonneg w n -> triangle w n -> spanning_tree (free_vertices n []) T ->
  exists q, is_tour n q /\ (tour_cost w q <= 2 * edges_cost w T)%Z.
Proof.
  intros Hn Hs Hnn Htri (H1 & H2 & _). rewrite free_all in H1, H2. apply (tree_tour n w Hs Hnn Htri T); [lia| |].
  - intros a b Hab. apply H1 in Hab. rewrite !in_seq in Hab. lia.
  - intros a b Ha Hb. apply H2; apply in_seq; lia.
Qed.

Theorem C73_bounds : forall n w, 3 <= n -> symmetric w n -> nonneg w n ->
  exists mst tree, bounds_are (N := EZ) Fin n (int_matrix n w) mst tree /\ bounds_mean n w mst tree /\ bounds_ordered n w mst tree.
Proof.
  intros n w Hn Hs Hnn. destruct (C19_minimum_weight n w [] Hs ltac:(constructor) (one_free n ltac:(lia))) as (g & T & Eg & Hsp & _ & Hw & Hmin).
  destruct (C23_one_tree_value n w Hn Hs) as (c & E & (s & F & Hsn & HF & <- & HFm) & Hat & Hb). rewrite free_all in Hsp, Hmin. exists (edges_cost w T), (edges_cost w F). split.
  - split; [|split; [|split; [exact E|split]]].
    + intros env mode Hm. unfold mst_bound. rewrite (C20_prim_modes_agree EZ EZ_ord (int_matrix n w) env mode 0) by (try lia; apply matrix_of_wf).
      change (prim env 0 (int_matrix n w)) with (prim_with_excluded_node_single_threaded (int_matrix n w) []). rewrite Eg. cbn [bind]. rewrite Hw. reflexivity.
    + intros pick. destruct (C21_same_weight n w pick [] Hs ltac:(constructor) (one_free n ltac:(lia))) as (g1 & g2 & Eg2 & Eg1 & Ew).
      assert (g1 = g) by congruence. subst g1. unfold mst_queue_bound. rewrite Eg2. cbn [bind]. rewrite Ew, Hw. reflexivity.
    + intros t. rewrite C24_par_is_seq by exact EZ_ord. exact E.
    + intros order t size Hsz Ho. destruct (C24_mpi_is_seq n w order t size Hn Hsz Ho) as (c' & E' & E2). rewrite E in E'. injection E' as <-. exact E2.
  - split; [split; [eauto|]; split; [assumption|]; split; [exists s, F; auto|assumption]|]. rewrite <- free_all in Hsp, Hmin. split; [apply (tree_order n w T s F); assumption|]. split; [exact Hb|]. intros Htri. apply tree_double; assumption.
Qed.
Print Assumptions C73_bounds.

Theorem C73_bounds_f64 : forall e n w W, (-1074 <= e <= 970)%Z -> bounded w n W -> (2 * W * Z.of_nat n <= 2 ^ 53)%Z ->
  3 <= n -> symmetric w n -> nonneg w n ->
  exists mst tree, bounds_are (N := B64) (b64_inj e) n (f64_matrix e n w) mst tree /\ bounds_mean n w mst tree /\ bounds_ordered n w mst tree.
Proof.
  intros e n w W He HW HB Hn Hs Hnn.
  destruct (C19_minimum_weight_f64 e n w W [] He HW HB Hs ltac:(constructor) (one_free n ltac:(lia))) as (g & T & Eg & Hsp & _ & Hw & Hmin).
  destruct (C23_one_tree_value_f64 e n w W He HW HB Hn Hs) as (c & E & (s & F & Hsn & HF & <- & HFm) & Hat & Hb). rewrite free_all in Hsp, Hmin. exists (edges_cost w T), (edges_cost w F). split.
  - split; [|split; [|split; [exact E|split]]].
    + intros env mode Hm. unfold mst_bound. rewrite (C20_prim_modes_agree B64 B64_ord (f64_matrix e n w) env mode 0) by (try lia; apply matrix_of_wf).
      change (prim env 0 (f64_matrix e n w)) with (prim_with_excluded_node_single_threaded (f64_matrix e n w) []). rewrite Eg. cbn [bind]. rewrite Hw. reflexivity.
    + intros pick. destruct (C21_same_weight_f64 e n w W pick [] He HW HB Hs ltac:(constructor) (one_free n ltac:(lia))) as (g1 & g2 & Eg2 & Eg1 & Ew).
      assert (g1 = g) by congruence. subst g1. unfold mst_queue_bound. rewrite Eg2. cbn [bind]. rewrite Ew, Hw. reflexivity.
    + intros t. rewrite C24_par_is_seq by exact B64_ord. exact E.
    + intros order t size Hsz Ho. destruct (C24_mpi_is_seq_f64 e n w W order t size He HW HB Hn Hsz Ho) as (M & E' & E2). rewrite E in E'. injection E' as <-. exact E2.
  - split; [split; [eauto|]; split; [assumption|]; split; [exists s, F; auto|assumption]|]. rewrite <- free_all in Hsp, Hmin. split; [apply (tree_order n w T s F); assumption|]. split; [exact Hb|]. intros Htri. apply tree_double; assumption.
Qed.
Print Assumptions C73_bounds_f64.

(** ** The command lower-bound *)
(** It ends well, prints something, and nothing but its bound. *)
Definition prints_bound {N : Num} (wd : world) (a : lower_bound_algorithm) (p : parallelism) (g : graph N) (l : line N) : Prop :=
  exists o, only_outcome wd (LowerBoundCmd a p) g o /\ ended o = Done /\ lines o <> [] /\ forall l', In l' (lines o) -> l' = l.

Definition prints_bounds {N : Num} (number : Z -> C N) (n : nat) (g : graph N) (mst tree : Z) : Prop :=
  forall wd p, fitting wd n p ->
    prints_bound wd MST p g (MstBound (number mst)) /\ prints_bound wd MSTQueue p g (MstBound (number mst)) /\
    prints_bound wd OneTree p g (OneTreeBound (number tree)).

Lemma commands_print {N : Num} (number : Z -> C N) n m (g : graph N) mst tree :
  (forall T procs (stop : outcome N -> T) k, with_instance procs (Some g) stop k = k m) ->
  bounds_are number n m mst tree -> prints_bounds number n g mst tree.
Proof.
  intros Hdoc (H1 & H2 & H3 & H4 & H5) wd p Hf. pose proof (processes_pos n wd p Hf) as Hp.
  assert (Hall : forall a l, lower_bound_run wd false (processes wd p) a p (Some g) = mkOut (repeat [l] (processes wd p)) Done -> prints_bound wd a p g l).
  { intros a l E. eexists. split; [intros o'; cbn [run]; rewrite E; reflexivity|]. split; [reflexivity|]. unfold lines. cbn [printed].
    split; [apply concat_repeat_ne; assumption|]. intros l' Hl. apply (in_concat_repeat _ _ _ Hl). }
  split; [|split].
  - apply Hall. unfold lower_bound_run. rewrite Hdoc.
    set (mode := match p with SingleThreaded => _ | MultiThreaded => _ | MPI => _ end).
    specialize (H1 (w_menv wd) mode ltac:(unfold mode; destruct p; repeat constructor)). unfold mst_bound in H1.
    destruct (prim (w_menv wd) mode m) as [t| |]; [|discriminate|discriminate]. cbn [bind] in H1. injection H1 as H1. cbn [finish]. rewrite H1. reflexivity.
  - apply Hall. unfold lower_bound_run. rewrite Hdoc. specialize (H2 (w_pick wd)). unfold mst_queue_bound in H2.
    destruct (prim_with_excluded_node_priority_queue (w_pick wd) m []) as [t| |]; [|discriminate|discriminate].
    cbn [bind] in H2. injection H2 as H2. cbn [finish]. rewrite H2. reflexivity.
  - destruct p.
    + apply Hall. unfold lower_bound_run. rewrite Hdoc, H3. reflexivity.
    + apply Hall. unfold lower_bound_run. rewrite Hdoc, H4. reflexivity.
    + destruct (Hf eq_refl) as (Hs & Ho & _). eexists. split; [intros o'; cbn [run]; unfold lower_bound_run; rewrite Hdoc; cbn [processes]; rewrite H5 by assumption; reflexivity|].
      split; [reflexivity|]. unfold lines. cbn [finish printed concat map]. rewrite concat_nil_map. split; [discriminate|]. intros l' [<-|[]]. reflexivity.
Qed.

(** On every document with nonnegative distances: each of the three bounds prints one value,
    whatever the kind of parallelism, and the values are ordered; with the triangle inequality the
    optimum is at most twice the least of them. *)
Theorem C73_commands : forall g n w, document (N := EZ) Fin g n w -> 3 <= n -> nonneg w n ->
  exists mst tree, prints_bounds (N := EZ) Fin n g mst tree /\ bounds_mean n w mst tree /\ bounds_ordered n w mst tree.
Proof.
  intros g n w Hd Hn Hnn. destruct (C73_bounds n w Hn ltac:(apply Hd) Hnn) as (mst & tree & H1 & H2). exists mst, tree. split; [|assumption].
  apply (commands_print (N := EZ) Fin n (int_matrix n w)); [apply int_document; assumption|assumption].
Qed.
Print Assumptions C73_commands.

Theorem C73_commands_f64 : forall e g n w W, (-1074 <= e <= 970)%Z -> bounded w n W -> (2 * W * Z.of_nat n <= 2 ^ 53)%Z ->
  document (N := B64) (b64_inj e) g n w -> 3 <= n -> nonneg w n ->
  exists mst tree, prints_bounds (N := B64) (b64_inj e) n g mst tree /\ bounds_mean n w mst tree /\ bounds_ordered n w mst tree.
Proof.
  intros e g n w W He HW HB Hd Hn Hnn. destruct (C73_bounds_f64 e n w W He HW HB Hn ltac:(apply Hd) Hnn) as (mst & tree & H1 & H2). exists mst, tree. split; [|assumption].
  apply (commands_print (N := B64) (b64_inj e) n (f64_matrix e n w)); [|assumption]. apply (f64_document e g n w W); try assumption.
  specialize (HW 0 0 ltac:(lia) ltac:(lia)). nia.
Qed.
Print Assumptions C73_commands_f64.

(** ** The factor two is reached *)
(** By both bounds in the limit, and exactly by the spanning tree bound, for every number of
    cities: two cities in the middle, the others at distance 1 from them and 2 from each other. *)
Lemma hub_values n : 4 <= n -> exists mst tree, bounds_are (N := EZ) Fin n (int_matrix n hub) mst tree /\ mst = (Z.of_nat n - 2)%Z /\ tree = (Z.of_nat n - 1)%Z.
Proof.
  intros Hn. destruct (C73_bounds n hub ltac:(lia) ltac:(intros i j _ _; apply hub_sym) ltac:(intros i j _ _; apply hub_nonneg))
    as (mst & tree & H & (_ & Hmin & (s & F & Hs & HF & EF & HFm) & Hat) & (Hle & _ & Htw)). exists mst, tree. split; [assumption|].
  assert (E1 : mst = (Z.of_nat n - 2)%Z).
  { destruct (Htw ltac:(intros i j k _ _ _; apply hub_triangle)) as (q & Hq & Hc). rewrite (hub_tour n q ltac:(lia) Hq) in Hc.
    pose proof (star_spanning n 0 [] ltac:(lia) ltac:(intros [])) as Hst. rewrite free_all in Hst. specialize (Hmin _ Hst).
    rewrite hub_star, free_all, rads_seq in Hmin by (try lia; intros []). lia. }
  split; [assumption|]. assert (Hge : (Z.of_nat n - 1 <= tree)%Z).
  { destruct (Hat 2 ltac:(lia)) as (F2 & (T & a & b & -> & Hsp & Ha & Hb & Ha2 & Hb2 & _) & Hc).
    destruct (one_tree_spanning n 2 T a hub ltac:(lia) Hsp Ha Ha2) as [H1 H2]. rewrite free_all in H1. specialize (Hmin _ H1). rewrite H2 in Hmin.
    rewrite edges_cost_app in Hc. cbn [edges_cost fold_right fst snd] in Hc. rewrite (hub_ne 2 b) in Hc by congruence. pose proof (rad_range b). change (rad 2) with 1%Z in Hc. lia. }
  assert (Hsum : (rad s + rads (free_vertices n [s]) = Z.of_nat n - 2)%Z).
  { rewrite <- rads_seq by lia. rewrite <- free_all, <- (rads_perm _ _ (free_perm n s [] Hs ltac:(intros []))). reflexivity. }
  assert (Hex : exists c a b, c < 2 /\ c <> s /\ a < n /\ b < n /\ a <> s /\ b <> s /\ a <> b /\ (rads (free_vertices n [s]) + hub s a + hub s b = Z.of_nat n - 1)%Z).
  { destruct (Nat.eq_dec s 0) as [->|H0]; [exists 1, 1, 2|destruct (Nat.eq_dec s 1) as [->|H1]; [exists 0, 0, 2|exists 0, 0, 1]]; repeat split; try lia; rewrite !hub_ne by lia;
      try change (rad 0) with 0%Z in *; try change (rad 1) with 0%Z in *; try change (rad 2) with 1%Z in *; try lia.
    assert (rad s = 1%Z) by (unfold rad; destruct (Nat.ltb_spec s 2); lia). lia. }
  destruct Hex as (c & a & b & Hc & Hcs & Ha & Hb & Has & Hbs & Hab & Ec).
  specialize (HFm (star c (free_vertices n [c; s]) ++ [(s, a); (s, b)])).
  assert (Hone : one_tree_at n s (star c (free_vertices n [c; s]) ++ [(s, a); (s, b)])).
  { exists (star c (free_vertices n [c; s])), a, b. split; [reflexivity|]. split; [apply star_spanning; [lia|intros [H'|[]]; congruence]|]. auto. }
  specialize (HFm Hone). rewrite edges_cost_app, hub_star in HFm by (try lia; intros [H'|[]]; congruence). cbn [edges_cost fold_right fst snd] in HFm. lia.
Qed.

Theorem C73_factor_two_reached : forall n, 4 <= n -> exists g w, document (N := EZ) Fin g n w /\ nonneg w n /\ triangle w n /\
  prints_bounds (N := EZ) Fin n g (Z.of_nat n - 2) (Z.of_nat n - 1) /\
  forall q, is_tour n q -> tour_cost w q = (2 * (Z.of_nat n - 2))%Z.
Proof.
  intros n Hn. exists (table_graph n hub), hub.
  assert (Hd : document (N := EZ) Fin (table_graph n hub) n hub) by (apply table_document; [intros i j _ _; apply hub_sym|intros i _; apply hub_diag]).
  split; [assumption|]. split; [intros i j _ _; apply hub_nonneg|]. split; [intros i j k _ _ _; apply hub_triangle|].
  split; [|intros q Hq; apply hub_tour; [lia|assumption]].
  destruct (hub_values n Hn) as (mst & tree & H & -> & ->). apply (commands_print (N := EZ) Fin n (int_matrix n hub)); [apply int_document; assumption|assumption].
Qed.
Print Assumptions C73_factor_two_reached.

(** ** Without the triangle inequality no factor holds *)
(** Five cities, two on one side and three on the other: the bounds are 4 and 5, and every tour is
    dearer than any given multiple of them. *)
Lemma sides_must_pay : forall q, is_tour 5 q -> (0 <= tour_cost (sides 0) q)%Z /\ (1 <= tour_cost within q)%Z.
Proof.
  assert (H : forallb (fun q => (0 <=? tour_cost (sides 0) q)%Z && (1 <=? tour_cost within q)%Z) (perms (seq 0 5)) = true) by (vm_compute; reflexivity).
  intros q Hq. rewrite forallb_forall in H. specialize (H q (perms_complete _ _ (Permutation_sym Hq))). apply andb_true_iff in H. rewrite !Z.leb_le in H. exact H.
Qed.

Theorem C73_no_factor_without_triangle : forall K, exists g w mst tree, document (N := EZ) Fin g 5 w /\ nonneg w 5 /\
  prints_bounds (N := EZ) Fin 5 g mst tree /\ (0 < mst)%Z /\ (0 < tree)%Z /\
  forall q, is_tour 5 q -> (K * mst < tour_cost w q)%Z /\ (K * tree < tour_cost w q)%Z.
Proof.
  intros K. set (L := (5 * Z.abs K + 1)%Z). assert (HL : (1 <= L)%Z) by lia.
  assert (Hnn : nonneg (sides L) 5) by (intros i j _ _; unfold sides; destruct (i =? j); [lia|]; destruct (Bool.eqb _ _); lia).
  assert (Hs : symmetric (sides L) 5) by (intros i j _ _; unfold sides; rewrite Nat.eqb_sym; destruct (j =? i); [reflexivity|]; destruct (i <? 2), (j <? 2); reflexivity).
  assert (Hd : document (N := EZ) Fin (table_graph 5 (sides L)) 5 (sides L)) by (apply table_document; [assumption|intros i _; unfold sides; rewrite Nat.eqb_refl; reflexivity]).
  destruct (C73_bounds 5 (sides L) ltac:(lia) Hs Hnn) as (mst & tree & H & ((T & HT & ET) & _ & (s & F & Hsn & HF & EF & HFm) & _) & (Hle & _ & _)).
  exists (table_graph 5 (sides L)), (sides L), mst, tree. split; [assumption|]. split; [assumption|].
  split; [apply (commands_print (N := EZ) Fin 5 (int_matrix 5 (sides L))); [apply int_document; assumption|assumption]|].
  assert (Hpos : forall a b, a <> b -> (1 <= sides L a b)%Z) by (intros a b Hab; unfold sides; apply Nat.eqb_neq in Hab; rewrite Hab; destruct (Bool.eqb _ _); lia).
  assert (Hm : (0 < mst)%Z).
  { destruct HT as (H1 & H2 & _). destruct (leaves T [0] 0 1) as (x & y & Hx & Hy & Hxy); [apply H2; cbn; tauto|left; reflexivity|cbn; lia|].
    assert (Hr : forall a b, In (a, b) T -> a < 5 /\ b < 5) by (intros a b Hab; apply H1 in Hab; rewrite !in_seq in Hab; lia).
    assert (Hne : x <> y) by (intros ->; contradiction). pose proof (Hpos x y Hne). pose proof (Hpos y x ltac:(congruence)).
    destruct Hxy as [Hxy|Hxy]; pose proof (edge_below 5 (sides L) T _ _ Hnn Hr Hxy); lia. }
  assert (Ht : (tree <= 5)%Z) by (destruct (across_tree s Hsn) as [H1 H2]; specialize (HFm _ H1); rewrite H2 in HFm; exact HFm).
  split; [assumption|]. split; [lia|]. intros q Hq. destruct (sides_must_pay q Hq) as [H1 H2]. rewrite sides_tour by (apply (tour_nonempty 5); [assumption|lia]).
  assert (K * mst <= Z.abs K * 5)%Z by nia. assert (K * tree <= Z.abs K * 5)%Z by nia. nia.
Qed.
Print Assumptions C73_no_factor_without_triangle.

(** Six cities around a hub: the bounds are 4 and 5, every tour costs 8. *)
Example C73_applies : document (N := EZ) Fin (table_graph 6 hub) 6 hub /\ nonneg hub 6 /\ triangle hub 6 /\
  mst_bound ex_env 1 (int_matrix 6 hub) = Ok (Fin 4 : C EZ) /\ one_tree_lower_bound_seq (int_matrix 6 hub) = Ok (Fin 5 : C EZ) /\
  is_tour 6 [0; 2; 1; 3; 5; 4] /\ tour_cost hub [0; 2; 1; 3; 5; 4] = 8%Z.
Proof.
  split; [apply table_document; [intros i j _ _; apply hub_sym|intros i _; apply hub_diag]|]. split; [intros i j _ _; apply hub_nonneg|].
  split; [intros i j k _ _ _; apply hub_triangle|]. concrete.
Qed.
