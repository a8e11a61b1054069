(** C18-C24: Prim's algorithm, the MST bound and the 1-tree bound. *)
From Coq Require Import ZArith Arith Bool List Permutation Lia.
From Verif Require Import Num NumB64 Base Spec SpecFacts Data Mst Par MstPar OneTree Dfs Greedy PrimProofs MstParProofs
  MstFacts OneTreeProofs PqProofs PqExact Instances PropExact.
Import ListNotations.

(** ** C18: a spanning tree *)
(** For every arithmetic: [cost i j] are the matrix entries, finite off the diagonal; [X] are
    the excluded vertices.  The graph stores exactly the edges [T], each in both directions
    and with its matrix cost. *)
Theorem C18_spanning_tree : forall (N : Num) (O : NumOrd N) (m : namatrix N) (cost : nat -> nat -> C N) X,
  na_wf m -> (forall i j, i < na_dim m -> j < na_dim m -> na_get m i j = Ok (cost i j)) ->
  (forall i j, i < na_dim m -> j < na_dim m -> i <> j -> clt (cost i j) cinf = true) ->
  Forall (fun x => x < na_dim m) X -> (exists v, v < na_dim m /\ ~ In v X) ->
  exists g T, prim_with_excluded_node_single_threaded m X = Ok g /\ length g = na_dim m /\
    spanning_tree (free_vertices (na_dim m) X) T /\
    forall v, v < na_dim m -> nth v g [] =
      map (fun x => mkEdge (fst x) (cost (fst (snd x)) (snd (snd x)))) (incident T v).
Proof.
  intros N O m cost X Hwf Hget Hfin HX Hex.
  assert (Hval : forall i j, i < na_dim m -> j < na_dim m -> na_val m i j = cost i j).
  { intros i j Hi Hj. specialize (Hget i j Hi Hj). rewrite na_get_val in Hget by assumption. congruence. }
  destruct (prim_single_spec O m Hwf) with (X := X) as (g & T & start & R & Eg & Hl & Hgr & HP & Hadj); try assumption.
  { intros i j Hi Hj Hij. rewrite Hval by assumption. auto. }
  assert (Hsp : spanning_tree (free_vertices (na_dim m) X) T).
  { pose proof (greedy_spanning _ _ _ _ Hgr) as (H1 & H2 & H3). split; [|split].
    - intros a b Hin. destruct (H1 a b Hin). split; apply (Permutation_in _ (Permutation_sym HP)); assumption.
    - intros a b Ha Hb. apply H2; apply (Permutation_in _ HP); assumption.
    - rewrite H3. symmetry. apply Permutation_length. assumption. }
  exists g, T. split; [assumption|]. split; [assumption|]. split; [assumption|].
  intros v Hv. rewrite Hadj by assumption. unfold adjlist. apply map_ext_in. intros [x [a b]] Hin. cbn [fst snd].
  rewrite Hval; [reflexivity|..]; unfold incident in Hin; apply in_flat_map in Hin; destruct Hin as ([a' b'] & HT & Hin); cbn [fst snd] in Hin;
    assert (a' = a /\ b' = b) as [-> ->] by (destruct (b' =? v); destruct (a' =? v); cbn in Hin; intuition congruence);
    destruct Hsp as [Hs _]; destruct (Hs a b HT) as [H1 H2]; apply (free_In m) in H1, H2; tauto.
Qed.
Print Assumptions C18_spanning_tree.

(** Nothing left: the empty graph. *)
Theorem C18_nothing_left : forall (N : Num) (O : NumOrd N) (m : namatrix N) X,
  (forall v, v < na_dim m -> In v X) -> prim_with_excluded_node_single_threaded m X = Ok [].
Proof. intros N O m X H. apply prim_single_none; assumption. Qed.
Print Assumptions C18_nothing_left.

(** ** C19: of least weight *)
Theorem C19_minimum_weight : forall n w X, symmetric w n -> Forall (fun x => x < n) X -> (exists v, v < n /\ ~ In v X) ->
  exists g T, prim_with_excluded_node_single_threaded (int_matrix n w) X = Ok g /\
    spanning_tree (free_vertices n X) T /\
    (forall v, v < n -> nth v g [] = map (fun x => mkEdge (fst x) (Fin (w (fst (snd x)) (snd (snd x))) : C EZ)) (incident T v)) /\
    undirected_edge_weight g = Fin (edges_cost w T) /\
    forall T', spanning_tree (free_vertices n X) T' -> (edges_cost w T <= edges_cost w T')%Z.
Proof.
  intros n w X Hs HX Hex. destruct (EZ_bound 2 w n ltac:(lia)) as (W & B & HW & H0 & HB).
  destruct (prim_exact (EZ_exact B) EZ_ord (int_matrix n w) (matrix_of_wf n _) w W (emb_represents (EZ_exact B) n w) HW ltac:(change (na_dim (int_matrix n w)) with n; nia) X HX Hex)
    as (g & T & Eg & Hl & Hsp & Hadj & Hd & Hmin).
  exists g, T. split; [assumption|]. split; [assumption|]. split; [assumption|]. split; [|apply Hmin; assumption].
  unfold undirected_edge_weight. rewrite Hd. exact (inj_half _ _ (EZ_exact (Z.abs (2 * edges_cost w T))) (edges_cost w T) (Z.le_refl _)).
Qed.
Print Assumptions C19_minimum_weight.

Lemma spanning_abs n X (w : nat -> nat -> Z) W T : bounded w n W -> (0 <= W)%Z -> spanning_tree (free_vertices n X) T ->
  (Z.abs (2 * edges_cost w T) <= 2 * W * Z.of_nat n)%Z.
Proof.
  intros HW H0 (H1 & _ & Hl).
  assert (Hfr : forall x, In x (free_vertices n X) -> x < n).
  { intros x Hx. unfold free_vertices in Hx. apply filter_In in Hx. destruct Hx as [Hx _]. apply in_seq in Hx. lia. }
  assert (Hlen : length T <= n).
  { assert (length (free_vertices n X) <= n); [|lia]. unfold free_vertices. rewrite <- (seq_length n 0) at 2.
    clear. induction (seq 0 n); cbn; [lia|]. destruct (negb _); cbn; lia. }
  pose proof (edges_cost_abs w T). pose proof (edges_cost_abs_le w T W) as H2.
  assert (edges_cost (fun a b => Z.abs (w a b)) T <= W * Z.of_nat (length T))%Z.
  { apply H2. intros a b Hin. destruct (H1 a b Hin). apply HW; auto. }
  nia.
Qed.

Theorem C19_minimum_weight_f64 : forall e n w W X, (-1074 <= e <= 970)%Z -> bounded w n W -> (2 * W * Z.of_nat n <= 2 ^ 53)%Z ->
  symmetric w n -> Forall (fun x => x < n) X -> (exists v, v < n /\ ~ In v X) ->
  exists g T, prim_with_excluded_node_single_threaded (f64_matrix e n w) X = Ok g /\
    spanning_tree (free_vertices n X) T /\
    (forall v, v < n -> nth v g [] = map (fun x => mkEdge (fst x) (b64_inj e (w (fst (snd x)) (snd (snd x))) : C B64)) (incident T v)) /\
    undirected_edge_weight g = b64_inj e (edges_cost w T) /\
    forall T', spanning_tree (free_vertices n X) T' -> (edges_cost w T <= edges_cost w T')%Z.
Proof.
  intros e n w W X He HW HB Hs HX Hex.
  assert (H0 : (0 <= W)%Z) by (destruct Hex as (v & Hv & _); pose proof (HW v v Hv Hv); lia).
  destruct (prim_exact (B64_exact e He) B64_ord (f64_matrix e n w) (matrix_of_wf n _) w W (emb_represents (B64_exact e He) n w) HW HB X HX Hex)
    as (g & T & Eg & Hl & Hsp & Hadj & Hd & Hmin).
  exists g, T. split; [assumption|]. split; [assumption|]. split; [assumption|]. split; [|apply Hmin; assumption].
  unfold undirected_edge_weight. rewrite Hd. apply (inj_half _ _ (B64_exact e He)).
  pose proof (spanning_abs n X w W T HW H0 Hsp). lia.
Qed.
Print Assumptions C19_minimum_weight_f64.

(** ** C20: the multi-threaded version returns the same graph, for every schedule of the
    parallel loops and every reduction tree ([env]), in every arithmetic. *)
Theorem C20_multi_is_single : forall (N : Num) (O : NumOrd N) (m : namatrix N) env X, na_wf m ->
  prim_with_excluded_node_multi_threaded env m X = prim_with_excluded_node_single_threaded m X.
Proof. intros N O m env X Hwf. apply mt_prim; assumption. Qed.
Print Assumptions C20_multi_is_single.

Theorem C20_prim_modes_agree : forall (N : Num) (O : NumOrd N) (m : namatrix N) env mode mode', na_wf m ->
  mode <= 2 -> mode' <= 2 -> prim env mode m = prim env mode' m.
Proof.
  intros N O m env mode mode' Hwf H1 H2. unfold prim. rewrite mt_prim by assumption.
  unfold SEQ_COMPUTATION, PAR_COMPUTATION, MPI_COMPUTATION.
  destruct mode as [|[|[|]]]; [..|lia]; destruct mode' as [|[|[|]]]; try lia; reflexivity.
Qed.
Print Assumptions C20_prim_modes_agree.

(** ** C21: the priority-queue version has the same weight, whichever minimum the queue picks *)
Theorem C21_same_weight : forall n w pick X, symmetric w n -> Forall (fun x => x < n) X -> (exists v, v < n /\ ~ In v X) ->
  exists g g', prim_with_excluded_node_priority_queue pick (int_matrix n w) X = Ok g' /\
    prim_with_excluded_node_single_threaded (int_matrix n w) X = Ok g /\
    undirected_edge_weight g' = undirected_edge_weight g.
Proof.
  intros n w pick X Hs HX Hex. destruct (EZ_bound 2 w n ltac:(lia)) as (W & B & HW & H0 & HB).
  assert (HB' : (2 * W * Z.of_nat (na_dim (int_matrix n w)) <= B)%Z) by (change (na_dim (int_matrix n w)) with n; nia).
  destruct (prim_exact (EZ_exact B) EZ_ord (int_matrix n w) (matrix_of_wf n _) w W (emb_represents (EZ_exact B) n w) HW HB' X HX Hex)
    as (g & T & Eg & Hl & Hsp & Hadj & Hd & Hmin).
  destruct (prim_pq_exact (EZ_exact B) EZ_ord (int_matrix n w) (matrix_of_wf n _) w W (emb_represents (EZ_exact B) n w) HW HB' pick X HX Hex)
    as (g' & T' & Eg' & Hl' & Hsp' & Hd' & Hmin').
  exists g, g'. split; [assumption|]. split; [assumption|]. unfold undirected_edge_weight. rewrite Hd, Hd'.
  specialize (Hmin Hs T' Hsp'). specialize (Hmin' Hs T Hsp). do 2 f_equal. lia.
Qed.
Print Assumptions C21_same_weight.

Theorem C21_same_weight_f64 : forall e n w W pick X, (-1074 <= e <= 970)%Z -> bounded w n W -> (2 * W * Z.of_nat n <= 2 ^ 53)%Z ->
  symmetric w n -> Forall (fun x => x < n) X -> (exists v, v < n /\ ~ In v X) ->
  exists g g', prim_with_excluded_node_priority_queue pick (f64_matrix e n w) X = Ok g' /\
    prim_with_excluded_node_single_threaded (f64_matrix e n w) X = Ok g /\
    undirected_edge_weight g' = undirected_edge_weight g.
Proof.
  intros e n w W pick X He HW HB Hs HX Hex.
  destruct (prim_exact (B64_exact e He) B64_ord (f64_matrix e n w) (matrix_of_wf n _) w W (emb_represents (B64_exact e He) n w) HW HB X HX Hex)
    as (g & T & Eg & Hl & Hsp & Hadj & Hd & Hmin).
  destruct (prim_pq_exact (B64_exact e He) B64_ord (f64_matrix e n w) (matrix_of_wf n _) w W (emb_represents (B64_exact e He) n w) HW HB pick X HX Hex)
    as (g' & T' & Eg' & Hl' & Hsp' & Hd' & Hmin').
  exists g, g'. split; [assumption|]. split; [assumption|]. unfold undirected_edge_weight. rewrite Hd, Hd'.
  specialize (Hmin Hs T' Hsp'). specialize (Hmin' Hs T Hsp). do 2 f_equal. lia.
Qed.
Print Assumptions C21_same_weight_f64.

(** ** C22: the MST bound *)
Definition mst_bound {N : Num} (env : menv) (mode : nat) (m : namatrix N) : res (C N) :=
  g <- prim env mode m ;; Ok (undirected_edge_weight g).
Definition mst_queue_bound {N : Num} (pick : nat -> nat) (m : namatrix N) : res (C N) :=
  g <- prim_with_excluded_node_priority_queue pick m [] ;; Ok (undirected_edge_weight g).

Lemma mst_below_tour {N : Num} (m : namatrix N) n w T q : nonneg w n -> 1 <= n -> spanning_tree (free_vertices n []) T ->
  (forall T', spanning_tree (free_vertices n []) T' -> (edges_cost w T <= edges_cost w T')%Z) ->
  is_tour n q -> (edges_cost w T <= tour_cost w q)%Z.
Proof.
  intros Hnn Hn Hsp Hmin Hq. pose proof (tour_nonempty n q Hq Hn) as Hne.
  assert (HP : Permutation q (free_vertices n [])).
  { unfold free_vertices. rewrite Hq. clear. induction (seq 0 n); cbn; auto. }
  specialize (Hmin _ (path_spanning q _ Hne HP)). rewrite (path_edges_cost m) in Hmin.
  pose proof (prefix_cost_le w n q [] Hnn ltac:(rewrite app_nil_r; apply tour_Forall; assumption)) as H. rewrite app_nil_r in H. lia.
Qed.

Lemma one_free n : 1 <= n -> exists v, v < n /\ ~ In v [].
Proof. intros H. exists 0. split; [lia|intros []]. Qed.

Theorem C22_mst_below_every_tour : forall n w env mode pick, 1 <= n -> symmetric w n -> nonneg w n -> mode <= 2 ->
  exists c, mst_bound env mode (int_matrix n w) = Ok (Fin c : C EZ) /\
    mst_queue_bound pick (int_matrix n w) = Ok (Fin c : C EZ) /\
    forall q, is_tour n q -> (c <= tour_cost w q)%Z.
Proof.
  intros n w env mode pick Hn Hs Hnn Hm.
  destruct (C19_minimum_weight n w [] Hs ltac:(constructor) (one_free n Hn)) as (g & T & Eg & Hsp & _ & Hw & Hmin).
  destruct (C21_same_weight n w pick [] Hs ltac:(constructor) (one_free n Hn)) as (g1 & g2 & Eg2 & Eg1 & Ew).
  assert (g1 = g) by congruence. subst g1.
  exists (edges_cost w T). split; [|split].
  - unfold mst_bound. rewrite (C20_prim_modes_agree EZ EZ_ord (int_matrix n w) env mode 0) by (try lia; apply matrix_of_wf).
    change (prim env 0 (int_matrix n w)) with (prim_with_excluded_node_single_threaded (int_matrix n w) []). rewrite Eg. cbn [bind]. rewrite Hw. reflexivity.
  - unfold mst_queue_bound. rewrite Eg2. cbn [bind]. rewrite Ew, Hw. reflexivity.
  - intros q Hq. apply (mst_below_tour (int_matrix n w) n); assumption.
Qed.
Print Assumptions C22_mst_below_every_tour.

Theorem C22_mst_below_every_tour_f64 : forall e n w W env mode pick, (-1074 <= e <= 970)%Z -> bounded w n W -> (2 * W * Z.of_nat n <= 2 ^ 53)%Z ->
  1 <= n -> symmetric w n -> nonneg w n -> mode <= 2 ->
  exists c, mst_bound env mode (f64_matrix e n w) = Ok (b64_inj e c : C B64) /\
    mst_queue_bound pick (f64_matrix e n w) = Ok (b64_inj e c : C B64) /\
    forall q, is_tour n q -> (c <= tour_cost w q)%Z.
Proof.
  intros e n w W env mode pick He HW HB Hn Hs Hnn Hm.
  destruct (C19_minimum_weight_f64 e n w W [] He HW HB Hs ltac:(constructor) (one_free n Hn)) as (g & T & Eg & Hsp & _ & Hw & Hmin).
  destruct (C21_same_weight_f64 e n w W pick [] He HW HB Hs ltac:(constructor) (one_free n Hn)) as (g1 & g2 & Eg2 & Eg1 & Ew).
  assert (g1 = g) by congruence. subst g1.
  exists (edges_cost w T). split; [|split].
  - unfold mst_bound. rewrite (C20_prim_modes_agree B64 B64_ord (f64_matrix e n w) env mode 0) by (try lia; apply matrix_of_wf).
    change (prim env 0 (f64_matrix e n w)) with (prim_with_excluded_node_single_threaded (f64_matrix e n w) []). rewrite Eg. cbn [bind]. rewrite Hw. reflexivity.
  - unfold mst_queue_bound. rewrite Eg2. cbn [bind]. rewrite Ew, Hw. reflexivity.
  - intros q Hq. apply (mst_below_tour (f64_matrix e n w) n); assumption.
Qed.
Print Assumptions C22_mst_below_every_tour_f64.

(** ** C23: the 1-tree bound *)
(** What it computes: the dearest of the cheapest 1-trees, over the choice of the special vertex. *)
Theorem C23_one_tree_value : forall n w, 3 <= n -> symmetric w n ->
  exists c, one_tree_lower_bound_seq (int_matrix n w) = Ok (Fin c : C EZ) /\
    (exists s F, s < n /\ one_tree_at n s F /\ edges_cost w F = c /\
       forall F', one_tree_at n s F' -> (c <= edges_cost w F')%Z) /\
    (forall s, s < n -> exists F, one_tree_at n s F /\ (edges_cost w F <= c)%Z) /\
    forall q, is_tour n q -> (c <= tour_cost w q)%Z.
Proof.
  intros n w Hn Hs. destruct (EZ_bound 2 w n ltac:(lia)) as (W & B & HW & H0 & HB).
  destruct (one_tree_seq_exact (EZ_exact B) EZ_ord (int_matrix n w) (matrix_of_wf n _) w W (emb_represents (EZ_exact B) n w) HW ltac:(change (na_dim (int_matrix n w)) with n; nia) Hn)
    as (s & F & Hsn & HF & EF & _ & Hmin & Hall).
  exists (edges_cost w F). split; [assumption|]. split; [exists s, F; auto|]. split.
  - intros s' Hs'. destruct (Hall s' Hs') as (F' & HF' & Hle & _). exists F'. auto.
  - intros q Hq. destruct (tour_one_tree (int_matrix n w) w s q Hsn Hn Hs Hq) as (F' & HF' & <-). apply Hmin; assumption.
Qed.
Print Assumptions C23_one_tree_value.

Theorem C23_one_tree_value_f64 : forall e n w W, (-1074 <= e <= 970)%Z -> bounded w n W -> (2 * W * Z.of_nat n <= 2 ^ 53)%Z ->
  3 <= n -> symmetric w n ->
  exists c, one_tree_lower_bound_seq (f64_matrix e n w) = Ok (b64_inj e c : C B64) /\
    (exists s F, s < n /\ one_tree_at n s F /\ edges_cost w F = c /\
       forall F', one_tree_at n s F' -> (c <= edges_cost w F')%Z) /\
    (forall s, s < n -> exists F, one_tree_at n s F /\ (edges_cost w F <= c)%Z) /\
    forall q, is_tour n q -> (c <= tour_cost w q)%Z.
Proof.
  intros e n w W He HW HB Hn Hs.
  destruct (one_tree_seq_exact (B64_exact e He) B64_ord (f64_matrix e n w) (matrix_of_wf n _) w W (emb_represents (B64_exact e He) n w) HW HB Hn)
    as (s & F & Hsn & HF & EF & _ & Hmin & Hall).
  exists (edges_cost w F). split; [assumption|]. split; [exists s, F; auto|]. split.
  - intros s' Hs'. destruct (Hall s' Hs') as (F' & HF' & Hle & _). exists F'. auto.
  - intros q Hq. destruct (tour_one_tree (f64_matrix e n w) w s q Hsn Hn Hs Hq) as (F' & HF' & <-). apply Hmin; assumption.
Qed.
Print Assumptions C23_one_tree_value_f64.

(** ** C24: the parallel versions *)
Theorem C24_par_is_seq : forall (N : Num) (O : NumOrd N) (m : namatrix N) t,
  one_tree_lower_bound_par t m = one_tree_lower_bound_seq m.
Proof. intros N O m t. apply one_tree_par_seq. assumption. Qed.
Print Assumptions C24_par_is_seq.

(** In any arithmetic the root of the MPI version returns one of the 1-tree weights, and one
    that is as great as every other; so does the sequential version. *)
Theorem C24_mpi_maximum : forall (N : Num) (O : NumOrd N) (m : namatrix N) order t size,
  (forall s, s < na_dim m -> exists x, one_tree_weight m s = Ok x /\ cnan x = false) ->
  1 <= size <= na_dim m -> Permutation order (seq 0 size) ->
  exists M M', one_tree_lower_bound_mpi order t m size = Ok (M :: repeat cinf (size - 1)) /\
    one_tree_lower_bound_seq m = Ok M' /\ cle M M' = true /\ cle M' M = true.
Proof.
  intros N O m order t size Hw Hsz HP.
  destruct (mpi_bound_max O m Hw order t size Hsz HP) as (M & EM & (s & Hs & Es) & Hmax).
  destruct (seq_bound_max O m Hw ltac:(lia)) as (M' & EM' & (s' & Hs' & Es') & Hmax').
  exists M, M'. split; [assumption|]. split; [assumption|]. split; [apply (Hmax' s)|apply (Hmax s')]; assumption.
Qed.
Print Assumptions C24_mpi_maximum.

Lemma weights_ok {N B} (E : Exact N B) (O : NumOrd N) (m : namatrix N) (Hwf : na_wf m) w W : represents E (na_adj m) w ->
  bounded w (na_dim m) W -> (2 * W * Z.of_nat (na_dim m) <= B)%Z -> 3 <= na_dim m ->
  forall s, s < na_dim m -> exists c, one_tree_weight m s = Ok (inj E c) /\ (Z.abs c <= B)%Z.
Proof.
  intros Hrep HW HB Hn s Hs.
  destruct (one_tree_exact E O m Hwf w W Hrep HW HB s Hs Hn) as (g & F & Eg & _ & _ & _ & Ew & Habs & _).
  exists (edges_cost w F). unfold one_tree_weight. rewrite Eg. cbn [bind]. rewrite Ew. split; [reflexivity|].
  pose proof (HW s s Hs Hs). nia.
Qed.

Lemma mpi_is_seq {N B} (E : Exact N B) (O : NumOrd N) (m : namatrix N) (Hwf : na_wf m) w W order t size :
  represents E (na_adj m) w -> bounded w (na_dim m) W -> (2 * W * Z.of_nat (na_dim m) <= B)%Z -> 3 <= na_dim m ->
  1 <= size <= na_dim m -> Permutation order (seq 0 size) ->
  exists M, one_tree_lower_bound_seq m = Ok M /\ one_tree_lower_bound_mpi order t m size = Ok (M :: repeat cinf (size - 1)).
Proof.
  intros Hrep HW HB Hn Hsz HP.
  pose proof (weights_ok E O m Hwf w W Hrep HW HB Hn) as Hwt.
  assert (Hw : forall s, s < na_dim m -> exists x, one_tree_weight m s = Ok x /\ cnan x = false).
  { intros s Hs. destruct (Hwt s Hs) as (c & E1 & Hc). exists (inj E c). split; [assumption|]. apply (inj_not_nan E O). assumption. }
  destruct (mpi_bound_max O m Hw order t size Hsz HP) as (M & EM & (s & Hs & Es) & Hmax).
  destruct (seq_bound_max O m Hw ltac:(lia)) as (M' & EM' & (s' & Hs' & Es') & Hmax').
  pose proof (Hmax' s M Hs Es) as H1. pose proof (Hmax s' M' Hs' Es') as H2.
  destruct (Hwt s Hs) as (c & Ec & Hc). destruct (Hwt s' Hs') as (c' & Ec' & Hc').
  assert (M = inj E c) by congruence. assert (M' = inj E c') by congruence. subst M M'.
  rewrite inj_le in H1, H2 by assumption. apply Z.leb_le in H1, H2. assert (c = c') by lia. subst c'.
  exists (inj E c). auto.
Qed.

(** With exact arithmetic the root's value is the sequential value; the other processes return
    infinity (only the root prints). *)
Theorem C24_mpi_is_seq : forall n w order t size, 3 <= n -> 1 <= size <= n -> Permutation order (seq 0 size) ->
  exists c, one_tree_lower_bound_seq (int_matrix n w) = Ok (Fin c : C EZ) /\
    one_tree_lower_bound_mpi order t (int_matrix n w) size = Ok ((Fin c : C EZ) :: repeat (PInf : C EZ) (size - 1)).
Proof.
  intros n w order t size Hn Hsz HP. destruct (EZ_bound 2 w n ltac:(lia)) as (W & B & HW & H0 & HB).
  assert (HB' : (2 * W * Z.of_nat (na_dim (int_matrix n w)) <= B)%Z) by (change (na_dim (int_matrix n w)) with n; nia).
  destruct (mpi_is_seq (EZ_exact B) EZ_ord (int_matrix n w) (matrix_of_wf n _) w W order t size (emb_represents (EZ_exact B) n w) HW HB' Hn Hsz HP)
    as (M & E1 & E2).
  destruct (one_tree_seq_exact (EZ_exact B) EZ_ord (int_matrix n w) (matrix_of_wf n _) w W (emb_represents (EZ_exact B) n w) HW HB' Hn)
    as (s & F & _ & _ & EF & _).
  exists (edges_cost w F). split; [assumption|]. rewrite E2.
  assert (M = (Fin (edges_cost w F) : C EZ)) by (rewrite E1 in EF; injection EF as EF; exact EF). subst M. reflexivity.
Qed.
Print Assumptions C24_mpi_is_seq.

Theorem C24_mpi_is_seq_f64 : forall e n w W order t size, (-1074 <= e <= 970)%Z -> bounded w n W -> (2 * W * Z.of_nat n <= 2 ^ 53)%Z ->
  3 <= n -> 1 <= size <= n -> Permutation order (seq 0 size) ->
  exists M, one_tree_lower_bound_seq (f64_matrix e n w) = Ok M /\
    one_tree_lower_bound_mpi order t (f64_matrix e n w) size = Ok (M :: repeat cinf (size - 1)).
Proof.
  intros e n w W order t size He HW HB Hn Hsz HP.
  exact (mpi_is_seq (B64_exact e He) B64_ord (f64_matrix e n w) (matrix_of_wf n _) w W order t size (emb_represents (B64_exact e He) n w) HW HB Hn Hsz HP).
Qed.
Print Assumptions C24_mpi_is_seq_f64.

(** More processes than vertices: a process without a vertex panics. *)
Theorem C24_too_many_processes : forall n w order t size, 3 <= n -> n < size -> Permutation order (seq 0 size) ->
  one_tree_lower_bound_mpi order t (int_matrix n w) size = Panic.
Proof.
  intros n w order t size Hn Hsz HP. destruct (EZ_bound 2 w n ltac:(lia)) as (W & B & HW & H0 & HB).
  assert (HB' : (2 * W * Z.of_nat (na_dim (int_matrix n w)) <= B)%Z) by (change (na_dim (int_matrix n w)) with n; nia).
  apply mpi_bound_too_many; [|exact Hsz|exact HP]. intros s Hs.
  destruct (weights_ok (EZ_exact B) EZ_ord (int_matrix n w) (matrix_of_wf n _) w W (emb_represents (EZ_exact B) n w) HW HB' Hn s Hs) as (c & Ec & Hc).
  exists (inj (EZ_exact B) c). split; [assumption|]. apply (inj_not_nan (EZ_exact B) EZ_ord). assumption.
Qed.
Print Assumptions C24_too_many_processes.

(** ** C46: the graph of the priority-queue version is not the tree it weighs *)
(** The edge to a new vertex is attached to the vertex added last, not to the vertex it comes
    from ([push_increase] returns the new priority when it does not increase the stored one):
    the graph contains an edge whose cost is not the matrix entry. *)
Definition ex_pq : nat -> nat -> Z := table [[0;1;2;9];[1;0;9;4];[2;9;0;8];[9;4;8;0]]%Z.

Theorem C46_priority_queue_edges_refuted : exists n w pick g v e, symmetric w n /\ nonneg w n /\
  prim_with_excluded_node_priority_queue pick (int_matrix n w) [] = Ok g /\
  v < n /\ e_to e < n /\ In e (nth v g []) /\ e_cost e <> (Fin (w v (e_to e)) : C EZ).
Proof.
  exists 4, ex_pq, (fun _ => 0). eexists. exists 1, (mkEdge 2 (Fin 2 : C EZ)).
  split; [concrete|]. split; [concrete|]. split; [vm_compute; reflexivity|].
  split; [lia|]. split; [cbn; lia|]. split; [cbn; auto|]. cbn. discriminate.
Qed.
Print Assumptions C46_priority_queue_edges_refuted.

(** ** Concrete cases *)
Definition ex_env : menv := mkEnv (fun _ => [3; 1; 2; 0; 2; 2; 3; 1; 0]) (fun _ => RNode 2 RLeaf (RNode 1 RLeaf RLeaf)).

Example C18_applies : exists g, prim_with_excluded_node_single_threaded (int_matrix 4 ex_sym) [1] = Ok g /\
  (forall i j, i < 4 -> j < 4 -> na_get (int_matrix 4 ex_sym) i j = Ok (Fin (ex_sym i j) : C EZ)) /\
  (exists v, v < 4 /\ ~ In v [1]) /\ undirected_edge_weight g = (Fin 5 : C EZ).
Proof.
  eexists. split; [vm_compute; reflexivity|]. split; [intros; apply (matrix_of_get 4 (fun i j => Fin (ex_sym i j) : C EZ)); assumption|].
  split; [exists 0; split; [lia|intros [|[]]; discriminate]|vm_compute; reflexivity].
Qed.
Example C19_applies : symmetric ex_sym 4 /\ bounded ex_sym 4 6 /\ (2 * 6 * 4 <= 2 ^ 53)%Z /\
  spanning_tree (free_vertices 4 []) [(0, 1); (1, 2); (2, 3)] /\ edges_cost ex_sym [(0, 1); (1, 2); (2, 3)] = 13%Z /\
  (exists g, prim_with_excluded_node_single_threaded (int_matrix 4 ex_sym) [] = Ok g /\ undirected_edge_weight g = (Fin 6 : C EZ)).
Proof.
  split; [concrete|]. split.
  { intros i j Hi Hj. do 4 (destruct i as [|i]; [do 4 (destruct j as [|j]; [vm_compute; discriminate|]); lia|]); lia. }
  split; [lia|]. split; [apply (path_spanning [0; 1; 2; 3]); [discriminate|apply Permutation_refl]|].
  split; [reflexivity|]. eexists. split; vm_compute; reflexivity.
Qed.
Example C20_applies : na_wf (int_matrix 4 ex_sym) /\
  exists g, prim_with_excluded_node_multi_threaded ex_env (int_matrix 4 ex_sym) [1] = Ok g /\ length g = 4.
Proof. split; [apply matrix_of_wf|]. eexists. split; vm_compute; reflexivity. Qed.
Example C21_applies : symmetric ex_pq 4 /\
  exists g g', prim_with_excluded_node_priority_queue (fun t => t) (int_matrix 4 ex_pq) [] = Ok g' /\
    prim_with_excluded_node_single_threaded (int_matrix 4 ex_pq) [] = Ok g /\ g <> g' /\
    undirected_edge_weight g' = (Fin 7 : C EZ).
Proof. split; [concrete|]. eexists. eexists. split; [vm_compute; reflexivity|]. split; [vm_compute; reflexivity|]. split; [discriminate|vm_compute; reflexivity]. Qed.
Example C22_applies : symmetric ex_sym 4 /\ nonneg ex_sym 4 /\ is_tour 4 [0; 1; 3; 2] /\ tour_cost ex_sym [0; 1; 3; 2] = 10%Z /\
  mst_bound ex_env 1 (int_matrix 4 ex_sym) = Ok (Fin 6 : C EZ) /\ mst_queue_bound (fun t => t) (int_matrix 4 ex_sym) = Ok (Fin 6 : C EZ).
Proof. concrete. Qed.
Example C23_applies : symmetric ex_sym 4 /\ one_tree_lower_bound_seq (int_matrix 4 ex_sym) = Ok (Fin 10 : C EZ) /\ tour_cost ex_sym [0; 1; 3; 2] = 10%Z.
Proof. concrete. Qed.
(** Below three vertices there is no 1-tree: two vertices give infinity, one panics. *)
Theorem C23_small : (forall a b, one_tree_lower_bound_seq (int_matrix 2 (table [[0; a]; [b; 0]]%Z)) = Ok (PInf : C EZ)) /\
  forall w, one_tree_lower_bound_seq (int_matrix 1 w) = Panic.
Proof. split; intros; vm_compute; reflexivity. Qed.
Print Assumptions C23_small.
Example C24_applies : Permutation [1; 0; 2] (seq 0 3) /\
  one_tree_lower_bound_mpi [1; 0; 2] (RNode 2 RLeaf RLeaf) (int_matrix 4 ex_sym) 3 = Ok [Fin 10 : C EZ; PInf : C EZ; PInf : C EZ].
Proof. split; [apply perm_swap|]. vm_compute. reflexivity. Qed.
