(** Properties C42 and C45: whole runs of the command line program, from the document to the
    printed lines. *)
From Coq Require Import ZArith Arith Bool List Permutation Lia.
From Verif Require Import Num NumB64 NumPos Base Spec SpecFacts Data Precond Mst Par MstPar OneTree Rand Nn Matching Christofides
  Exact Threaded Mpi Cli Dfs PrimProofs ConvProofs PrecondProofs Instances
  ThreadedProofs MpiStatic MpiDynamic MpiProofs MpiExact PropExact PropMst PropThreaded PropMpi PropNn PropChristofides PropData.
Import ListNotations.

(** A document of [n] cities with the symmetric distances [w], the number [z] being written
    [number z]: for every two cities there is one edge each way, and there are no others. *)
Definition document {N : Num} (number : Z -> C N) (g : graph N) (n : nat) (w : nat -> nat -> Z) : Prop :=
  length g = n /\ symmetric w n /\ (forall i, i < n -> w i i = 0%Z) /\
  (forall i e, i < n -> In e (nth i g []) -> e_to e < n /\ e_to e <> i) /\
  (forall i j, i < n -> j < n -> i <> j ->
    filter (fun e => e_to e =? j) (nth i g []) = [mkEdge j (number (w i j))]).

(** The reductions take every process once, and there are not more processes than cities. *)
Definition fitting (wd : world) (n : nat) (p : parallelism) : Prop :=
  p = MPI -> 1 <= w_size wd <= n /\ Permutation (w_order wd) (seq 0 (w_size wd)) /\
    forall r, r < w_size wd -> Permutation (w_nnorder wd r) (seq 0 (w_size wd)).

(** All lines printed, by all processes. *)
Definition lines {N : Num} (o : outcome N) : list (line N) := concat (printed o).

(** Documents with integer distances are the accepted ones. *)
Lemma document_accepted {N : Num} (number : Z -> C N) g n w : document number g n w ->
  (forall i j, i < n -> j < n -> ceq (number (w i j)) (number (w i j)) = true) -> do_conditions_hold g = Ok true.
Proof.
  intros (Hl & Hs & Hd & Hr & He) Hq. subst n. apply complete_conditions; [assumption|]. intros i j Hi Hj Hij.
  unfold to_edges. exists (mkEdge j (number (w i j))), (mkEdge i (number (w j i))). rewrite !He by (assumption || congruence).
  repeat split. cbn [e_cost]. rewrite (Hs j i) by assumption. apply Hq; assumption.
Qed.

Theorem C42_documents : forall (g : graph EZ), loop_free g ->
  (forall i e, i < length g -> In e (nth i g []) -> exists z, e_cost e = (Fin z : C EZ)) ->
  (do_conditions_hold g = Ok true <-> exists w, document (N := EZ) Fin g (length g) w).
Proof.
  intros g Hl Hz. split; [|intros (w & H); apply (document_accepted (N := EZ) Fin g (length g) w H); intros; apply Z.eqb_refl].
  intros H. destruct (proj1 (C40_accepts_exactly_complete_partial _ g Hl) H) as [Hr Hc].
  set (w := fun i j => match to_edges g i j with e :: _ => match e_cost e with Fin z => z | _ => 0%Z end | [] => 0%Z end).
  assert (Hone : forall i j, i < length g -> j < length g -> i <> j -> exists z, to_edges g i j = [mkEdge j (Fin z : C EZ)] /\ w i j = z).
  { intros i j Hi Hj Hij. destruct (Hc i j Hi Hj Hij) as ([t x] & e' & E & _ & _).
    assert (Hin : In (mkEdge t x) (to_edges g i j)) by (rewrite E; left; reflexivity). apply filter_In in Hin. destruct Hin as [Hin Et].
    apply Nat.eqb_eq in Et. cbn in Et. subst t. destruct (Hz i _ Hi Hin) as (z & Ez). cbn in Ez. subst x. exists z. split; [assumption|].
    unfold w. rewrite E. reflexivity. }
  exists w. split; [reflexivity|]. split; [|split; [|split; [assumption|]]].
  - intros i j Hi Hj. destruct (Nat.eq_dec i j) as [->|Hij]; [reflexivity|].
    destruct (Hone i j Hi Hj Hij) as (z & Ez & ->). destruct (Hone j i Hj Hi ltac:(congruence)) as (z' & Ez' & ->).
    destruct (Hc i j Hi Hj Hij) as (e & e' & E & E' & Eq). rewrite Ez in E. rewrite Ez' in E'. injection E as <-. injection E' as <-.
    cbn in Eq. apply Z.eqb_eq in Eq. congruence.
  - intros i Hi. unfold w. destruct (to_edges g i i) as [|e t] eqn:E; [reflexivity|]. exfalso.
    assert (Hin : In e (to_edges g i i)) by (rewrite E; left; reflexivity). apply filter_In in Hin. destruct Hin as [Hin Et].
    apply Nat.eqb_eq in Et. exact (Hl i e Hi Hin Et).
  - intros i j Hi Hj Hij. destruct (Hone i j Hi Hj Hij) as (z & Ez & <-). exact Ez.
Qed.
Print Assumptions C42_documents.

Section Runs.
Context {N : Num} (number : Z -> C N) (n : nat) (w : nat -> nat -> Z).
Let m := matrix_of n (fun i j => number (w i j)).

Definition below (c : Z) : Prop := forall q, is_tour n q -> (c <= tour_cost w q)%Z.
Definition tour_of (c : Z) (p : list nat) : Prop := is_tour n p /\ tour_cost w p = c.

Lemma document_matrix g : document number g n w -> c0 = number 0%Z ->
  (forall i j, i < n -> j < n -> ceq (number (w i j)) (number (w i j)) = true) ->
  forall T procs (stop : outcome N -> T) k, with_instance procs (Some g) stop k = k m.
Proof.
  intros H H0 Hq T procs stop k. unfold with_instance, parse_from_xml. rewrite (document_accepted _ _ _ _ H Hq). cbn [bind assert].
  destruct H as (Hl & Hs & Hd & Hr & He). subst n.
  destruct (na_from_graph_val g) as (m' & E & W & D & V); [intros i e Hi Hin; apply (Hr i e Hi Hin)|]. rewrite E. f_equal.
  apply wf_ext; [assumption|apply matrix_of_wf|rewrite D; reflexivity|]. intros i j Hi Hj. rewrite D in Hi, Hj. rewrite V by assumption.
  assert (Hm : na_val m i j = number (w i j)).
  { pose proof (na_get_val m i j (matrix_of_wf _ _) Hi Hj) as Hv. unfold m in Hv at 1. rewrite matrix_of_get in Hv by assumption. injection Hv. congruence. }
  rewrite Hm. destruct (i =? j) eqn:Eij.
  - apply Nat.eqb_eq in Eij. subst j. rewrite Hd by assumption. rewrite <- H0. apply last_cost_none.
    destruct (filter _ _) as [|e t] eqn:Ef; [reflexivity|]. exfalso.
    assert (Hin : In e (e :: t)) by (left; reflexivity). rewrite <- Ef in Hin. apply filter_In in Hin. destruct Hin as [Hin Et].
    apply Nat.eqb_eq in Et. destruct (Hr i e Hi Hin). congruence.
  - apply Nat.eqb_neq in Eij. rewrite (last_cost_some _ _ _ [] (mkEdge j (number (w i j)))); [reflexivity|]. cbn [app]. apply He; assumption.
Qed.

(** What is used about the solvers. *)
Record facts := mkFacts {
  f_exact : forall a, In a [V0; V1; V2; V3] -> exists c p, exact_solver a m = Ok (number c, p) /\ is_optimal w n c p;
  f_mst : forall env mode pick, mode <= 2 -> exists c, mst_bound env mode m = Ok (number c) /\ mst_queue_bound pick m = Ok (number c) /\ below c;
  f_tree : exists c, below c /\ one_tree_lower_bound_seq m = Ok (number c) /\ (forall t, one_tree_lower_bound_par t m = Ok (number c)) /\
    forall order t size, 1 <= size <= n -> Permutation order (seq 0 size) ->
      one_tree_lower_bound_mpi order t m size = Ok (number c :: repeat cinf (size - 1));
  f_nn : forall env mode, mode <= 1 -> exists c p, nearest_neighbour env mode m = Ok (number c, p) /\ tour_of c p;
  f_nn_mpi : forall order tree size, 1 <= size <= n -> (forall r, r < size -> Permutation (order r) (seq 0 size)) ->
    exists c p, nearest_neighbour_mpi order tree m size = Ok (repeat (number c, p) size) /\ tour_of c p;
  f_chr : forall debug env fenv mt mode, mode = SEQ_COMPUTATION \/ mode = MPI_COMPUTATION /\ 1 <= mt_size mt ->
    (debug = true -> is_metric (na_adj m) = Ok true) ->
    exists c p, christofides debug env fenv mt mode m = Ok (number c, p) /\ exists q, p = q ++ [hd 0 q] /\ tour_of c q
}.


(** [o] is what the command does, whatever the interleavings. *)
Definition only_outcome (wd : world) (cmd : command) (g : graph N) (o : outcome N) : Prop :=
  forall o', run wd cmd (Some g) o' <-> o' = o.

Definition bound_line (a : lower_bound_algorithm) (c : C N) : line N :=
  match a with OneTree => OneTreeBound c | MST | MSTQueue => MstBound c end.

(** The runs on one document, in one statement. *)
Definition ordered_runs (wd : world) (g : graph N) : Prop :=
  exists opt, (exists q, is_optimal w n opt q) /\
  (forall a, In a [V0; V1; V2; V3] -> exists p, is_optimal w n opt p /\
     only_outcome wd (ExactCmd a SingleThreaded) g (mkOut [[BestCost (number opt); BestPermutation p]] Done)) /\
  (forall a p, fitting wd n p -> exists o b, only_outcome wd (LowerBoundCmd a p) g o /\ ended o = Done /\
     lines o <> [] /\ (forall l, In l (lines o) -> l = bound_line a (number b)) /\ (b <= opt)%Z) /\
  (forall p, fitting wd n p -> exists c q,
     only_outcome wd (ApproxCmd NearestNeighbour p None) g (mkOut (repeat [NnWeight (number c); NnSolution q] (processes wd p)) Done) /\
     is_tour n q /\ tour_cost w q = c /\ (opt <= c)%Z).

Hypothesis F : facts.

Lemma optimum_exists : exists c q, is_optimal w n c q.
Proof. destruct (f_exact F V0 ltac:(cbn; auto)) as (c & p & _ & H). eauto. Qed.

Lemma optimal_same c p c' p' : is_optimal w n c p -> is_optimal w n c' p' -> c = c'.
Proof.
  intros (H1 & H2 & H3) (H1' & H2' & H3'). specialize (H3 p' H1'). specialize (H3' p H1). lia.
Qed.

Lemma map_repeat {A B} (f : A -> B) x k : map f (repeat x k) = repeat (f x) k.
Proof. induction k; cbn; congruence. Qed.

Lemma in_concat_repeat {A} (x y : A) k : In y (concat (repeat [x] k)) -> y = x.
Proof. induction k as [|k IH]; cbn; [tauto|]. intros [H|H]; [congruence|auto]. Qed.

Lemma concat_repeat_ne {A} (x : A) k : 1 <= k -> concat (repeat [x] k) <> [].
Proof. destruct k; [lia|]. discriminate. Qed.

Lemma concat_nil_map {A B} (l : list A) : concat (map (fun _ => []) l) = @nil B.
Proof. induction l; cbn; auto. Qed.

Section Document.
Variables (wd : world) (g : graph N).
Hypothesis Hdoc : forall T procs (stop : outcome N -> T) k, with_instance procs (Some g) stop k = k m.

(** the lower bound, also as the second part of a run *)
Lemma bound_runs a p initialized procs : 1 <= procs ->
  (p = MPI -> a = OneTree -> initialized = false /\ procs <= n /\ Permutation (w_order wd) (seq 0 procs)) ->
  exists b, below b /\
    ((p = MPI -> a = OneTree -> False) -> lower_bound_run wd initialized procs a p (Some g) = mkOut (repeat [bound_line a (number b)] procs) Done) /\
    (p = MPI -> a = OneTree -> lower_bound_run wd initialized procs a p (Some g) = mkOut ([OneTreeBound (number b)] :: map (fun _ => []) (repeat (@cinf N) (procs - 1))) Done).
Proof.
  intros Hp Hi. unfold lower_bound_run. rewrite Hdoc. destruct a.
  - destruct (f_tree F) as (c & Hb & E1 & E2 & E3). exists c. split; [assumption|]. destruct p.
    + rewrite E1. split; [reflexivity|discriminate].
    + rewrite E2. split; [reflexivity|discriminate].
    + destruct (Hi eq_refl eq_refl) as (-> & Hs & Hperm). rewrite E3 by (assumption || lia). split; [intros H; destruct (H eq_refl eq_refl)|reflexivity].
  - set (mode := match p with SingleThreaded => _ | MultiThreaded => _ | MPI => _ end).
    destruct (f_mst F (w_menv wd) mode (w_pick wd)) as (c & E1 & _ & Hb); [unfold mode; destruct p; repeat constructor|].
    exists c. split; [assumption|]. unfold mst_bound in E1. destruct (prim (w_menv wd) mode m) as [t| |]; [|discriminate|discriminate].
    cbn [bind] in E1. injection E1 as E1. cbn [finish]. rewrite E1. split; [reflexivity|intros _; discriminate].
  - destruct (f_mst F (w_menv wd) 0 (w_pick wd)) as (c & _ & E1 & Hb); [lia|].
    exists c. split; [assumption|]. unfold mst_queue_bound in E1. destruct (prim_with_excluded_node_priority_queue (w_pick wd) m []) as [t| |]; [|discriminate|discriminate].
    cbn [bind] in E1. injection E1 as E1. cbn [finish]. rewrite E1. split; [reflexivity|intros _; discriminate].
Qed.

Lemma nn_runs p : fitting wd n p -> exists c q, tour_of c q /\
  (match p with
   | SingleThreaded => s <- nearest_neighbour (w_nnenv wd) SEQ_COMPUTATION m ;; Ok [s]
   | MultiThreaded => s <- nearest_neighbour (w_nnenv wd) PAR_COMPUTATION m ;; Ok [s]
   | MPI => nearest_neighbour_mpi (w_nnorder wd) (w_nntree wd) m (w_size wd)
   end) = Ok (repeat (number c, q) (processes wd p)).
Proof.
  intros Hf. destruct p.
  - destruct (f_nn F (w_nnenv wd) SEQ_COMPUTATION ltac:(repeat constructor)) as (c & q & E & H). exists c, q. split; [assumption|]. rewrite E. reflexivity.
  - destruct (f_nn F (w_nnenv wd) PAR_COMPUTATION ltac:(repeat constructor)) as (c & q & E & H). exists c, q. split; [assumption|]. rewrite E. reflexivity.
  - destruct (Hf eq_refl) as (Hs & _ & Ho). destruct (f_nn_mpi F (w_nnorder wd) (w_nntree wd) (w_size wd) Hs Ho) as (c & q & E & H). eauto.
Qed.

Lemma processes_pos p : fitting wd n p -> 1 <= processes wd p.
Proof. intros H. destruct p; cbn; [lia|lia|]. destruct (H eq_refl). lia. Qed.

Lemma runs_ordered : ordered_runs wd g.
Proof.
  destruct optimum_exists as (opt & q0 & Hopt). exists opt. split; [eauto|]. split; [|split].
  - intros a Ha. destruct (f_exact F a Ha) as (c & p & E & Hc). assert (c = opt) by exact (optimal_same _ _ _ _ Hc Hopt). subst c. exists p. split; [assumption|].
    intros o'. cbn [run]. unfold exact_run. rewrite Hdoc. unfold exact_solved. rewrite E. cbn [bind].
    split; [intros (rs & -> & ->); reflexivity|]. intros ->. eexists. split; reflexivity.
  - intros a p Hf. pose proof (processes_pos p Hf) as Hp.
    destruct (bound_runs a p false (processes wd p) Hp) as (b & Hb & E1 & E2).
    { intros -> _. destruct (Hf eq_refl) as (Hs & Ho & _). split; [reflexivity|]. split; [cbn; lia|assumption]. }
    assert (Hle : (b <= opt)%Z) by (destruct Hopt as (Ht & <- & _); apply Hb; assumption).
    destruct (match p, a with MPI, OneTree => true | _, _ => false end) eqn:Ec.
    + destruct p; try discriminate. destruct a; try discriminate. specialize (E2 eq_refl eq_refl).
      eexists _, b. split; [intros o'; cbn [run]; rewrite E2; reflexivity|]. split; [reflexivity|]. unfold lines. cbn [printed concat].
      rewrite concat_nil_map. split; [discriminate|]. split; [|assumption]. intros l [<-|[]]. reflexivity.
    + assert (Hno : p = MPI -> a = OneTree -> False) by (intros -> ->; discriminate). specialize (E1 Hno).
      eexists _, b. split; [intros o'; cbn [run]; rewrite E1; reflexivity|]. split; [reflexivity|]. unfold lines. cbn [printed].
      split; [apply concat_repeat_ne; assumption|]. split; [|assumption]. intros l Hl. apply (in_concat_repeat _ _ _ Hl).
  - intros p Hf. destruct (nn_runs p Hf) as (c & q & (Ht & Hc) & E). exists c, q. split.
    + intros o'. cbn [run]. unfold approx_run. rewrite Hdoc. rewrite E. cbn [finish option_map then_bound]. rewrite map_repeat. reflexivity.
    + split; [assumption|]. split; [assumption|]. subst c. destruct Hopt as (_ & _ & H). apply H. assumption.
Qed.

(** ** approx with a lower bound *)
Definition bounded_approx : Prop :=
  (forall p lb, fitting wd n p -> (p = MPI -> lb <> OneTree) -> exists c q b,
     only_outcome wd (ApproxCmd NearestNeighbour p (Some lb)) g
       (mkOut (repeat [NnWeight (number c); NnSolution q; bound_line lb (number b)] (processes wd p)) Done) /\
     is_tour n q /\ tour_cost w q = c /\ (b <= c)%Z) /\
  ((w_debug wd = true -> is_metric (na_adj m) = Ok true) ->
   (exists c, (exists q, is_tour n q /\ tour_cost w q = c) /\
     only_outcome wd (ApproxCmd Christofides SingleThreaded None) g (mkOut [[ChristofidesWeight (number c)]] Done)) /\
   (forall lb, exists c b,
     only_outcome wd (ApproxCmd Christofides SingleThreaded (Some lb)) g
       (mkOut [[ChristofidesWeight (number c); bound_line lb (number b)]] Done) /\
     (exists q, is_tour n q /\ tour_cost w q = c) /\ (b <= c)%Z) /\
   (1 <= w_size wd -> exists c, (exists q, is_tour n q /\ tour_cost w q = c) /\
     only_outcome wd (ApproxCmd Christofides MPI None) g (mkOut ([ChristofidesWeight (number c)] :: repeat [] (w_size wd - 1)) Done))).

Lemma combine_repeat {A B} (x : A) (y : B) k : combine (repeat x k) (repeat y k) = repeat (x, y) k.
Proof. induction k; cbn; congruence. Qed.

Lemma approx_bounded : bounded_approx.
Proof.
  split.
  - intros p lb Hf Hlb. pose proof (processes_pos p Hf) as Hp. destruct (nn_runs p Hf) as (c & q & (Ht & Hc) & E).
    destruct (bound_runs lb p (match p with MPI => true | _ => false end) (processes wd p) Hp) as (b & Hb & E1 & _).
    { intros H1 H2. destruct (Hlb H1 H2). }
    exists c, q, b. split.
    + intros o'. cbn [run]. unfold approx_run. rewrite Hdoc. rewrite E. cbn [finish option_map then_bound]. rewrite E1 by (intros H1 H2; destruct (Hlb H1 H2)).
      cbn [printed ended]. rewrite map_repeat. rewrite firstn_all2, skipn_all2 by (rewrite repeat_length; lia).
      rewrite combine_repeat, map_repeat, app_nil_r. reflexivity.
    + split; [assumption|]. split; [assumption|]. subst c. apply Hb. assumption.
  - intros Hdbg. split; [|split].
    + destruct (f_chr F (w_debug wd) (w_menv wd) (w_fillenv wd) (matching_env wd) SEQ_COMPUTATION) as (c & p & E & q & _ & Hq); [left; reflexivity|assumption|].
      exists c. split; [exists q; exact Hq|]. intros o'. cbn [run]. unfold approx_run. rewrite Hdoc. rewrite E. reflexivity.
    + intros lb. destruct (f_chr F (w_debug wd) (w_menv wd) (w_fillenv wd) (matching_env wd) SEQ_COMPUTATION) as (c & p & E & q & _ & Hq); [left; reflexivity|assumption|].
      destruct (bound_runs lb SingleThreaded false 1 (Nat.le_refl 1)) as (b & Hb & E1 & _); [discriminate|]. specialize (E1 ltac:(discriminate)).
      exists c, b. split; [|split; [exists q; exact Hq|]].
      * intros o'. cbn [run]. unfold approx_run. rewrite Hdoc. rewrite E. cbn [finish option_map then_bound]. rewrite E1. reflexivity.
      * destruct Hq as [Ht <-]. apply Hb. assumption.
    + intros Hs. destruct (f_chr F (w_debug wd) (w_menv wd) (w_fillenv wd) (matching_env wd) MPI_COMPUTATION) as (c & p & E & q & _ & Hq); [right; split; [reflexivity|exact Hs]|assumption|].
      exists c. split; [exists q; exact Hq|]. intros o'. cbn [run]. unfold approx_run. rewrite Hdoc. rewrite E. reflexivity.
Qed.

End Document.
End Runs.

(** ** The facts, in exact arithmetic and in doubles *)
Lemma tour_range n p : is_tour n p -> Forall (fun v => v < n) p.
Proof. intros H. apply Forall_forall. intros v Hv. apply (Permutation_in _ H), in_seq in Hv. lia. Qed.

Lemma int_facts n w : 3 <= n -> symmetric w n -> nonneg w n -> facts (N := EZ) Fin n w.
Proof.
  intros Hn Hs Hnn. change (matrix_of n (fun i j => Fin (w i j) : C EZ)) with (int_matrix n w). constructor.
  - intros a Ha. destruct a; cbn [exact_solver].
    + apply C01_naive_optimal. lia.
    + apply C02_first_optimal_partial; assumption.
    + apply C03_second_optimal. lia.
    + apply C04_third_optimal; [lia|assumption].
    + exfalso. cbn in Ha. intuition discriminate.
    + exfalso. cbn in Ha. intuition discriminate.
    + exfalso. cbn in Ha. intuition discriminate.
  - intros env mode pick Hmode. apply C22_mst_below_every_tour; try assumption. lia.
  - destruct (C23_one_tree_value n w Hn Hs) as (c & E & _ & _ & Hb). exists c. split; [exact Hb|]. split; [exact E|]. split.
    + intros t. rewrite C24_par_is_seq by exact EZ_ord. exact E.
    + intros order t size Hsz Ho. destruct (C24_mpi_is_seq n w order t size Hn Hsz Ho) as (c' & E' & E2).
      change (int_matrix n w) with (matrix_of n (fun i j => Fin (w i j) : C EZ)) in E, E', E2. rewrite E in E'. injection E' as <-. exact E2.
  - destruct (C26_all_starts n w ltac:(lia)) as (c & H & _). intros env mode Hmode. destruct (H env mode Hmode) as (p & E & Ht & Hc).
    exists c, p. split; [exact E|]. split; assumption.
  - intros order tree size Hsz Ho. destruct (C27_mpi_is_seq n w order tree size (mkNnEnv (fun _ => 0) RLeaf) Hsz Ho) as (c & p & q & E & Ht & Hc & _).
    exists c, p. split; [exact E|]. split; assumption.
  - intros debug env fenv mt mode Hmode Hdbg.
    assert (Hget : forall i j, i < na_dim (int_matrix n w) -> j < na_dim (int_matrix n w) -> na_get (int_matrix n w) i j = Ok (Fin (w i j) : C EZ))
      by (intros i j Hi Hj; apply (matrix_of_get n); assumption).
    assert (H : hamiltonian_result (int_matrix n w) (christofides debug env fenv mt mode (int_matrix n w))).
    { destruct Hmode as [->|[-> Hsz]].
      - apply (C28_sequential _ EZ_ord _ _ debug env fenv mt (matrix_of_wf _ _) Hget); [reflexivity|cbn; lia|assumption].
      - apply (C28_mpi _ EZ_ord _ _ debug env fenv mt (matrix_of_wf _ _) Hget); [reflexivity|cbn; lia|assumption|assumption]. }
    destruct H as (c & p & E & Ht & _ & Hc). cbn [na_dim int_matrix matrix_of] in Ht, Hc. specialize (Hc ltac:(lia)).
    rewrite C36_circle_is_tour_cost in Hc; [|rewrite (Permutation_length Ht), seq_length; lia|apply tour_range; assumption].
    injection Hc as <-. exists (tour_cost w (0 :: p)), ((0 :: p) ++ [0]). split; [exact E|]. exists (0 :: p). split; [reflexivity|]. split; [assumption|reflexivity].
Qed.

Lemma f64_facts e n w W : (-1074 <= e <= 970)%Z -> bounded w n W -> (3 * W * (Z.of_nat n + 1) <= 2 ^ 53)%Z ->
  3 <= n -> symmetric w n -> nonneg w n -> facts (N := B64) (b64_inj e) n w.
Proof.
  intros He HW HB Hn Hs Hnn. change (matrix_of n (fun i j => b64_inj e (w i j) : C B64)) with (f64_matrix e n w).
  assert (H0 : (0 <= W)%Z) by (specialize (HW 0 0 ltac:(lia) ltac:(lia)); lia).
  assert (HB1 : (W * (Z.of_nat n + 1) <= 2 ^ 53)%Z) by nia.
  assert (HB2 : (2 * W * Z.of_nat n <= 2 ^ 53)%Z) by nia.
  constructor.
  - intros a Ha. destruct a; cbn [exact_solver].
    + apply (C01_naive_optimal_f64 e n w W); try assumption. lia.
    + apply (C02_first_optimal_f64_partial e n w W); assumption.
    + apply (C03_second_optimal_f64 e n w W); try assumption. lia.
    + apply (C04_third_optimal_f64 e n w W); try assumption. lia.
    + exfalso. cbn in Ha. intuition discriminate.
    + exfalso. cbn in Ha. intuition discriminate.
    + exfalso. cbn in Ha. intuition discriminate.
  - intros env mode pick Hmode. apply (C22_mst_below_every_tour_f64 e n w W); try assumption. lia.
  - destruct (C23_one_tree_value_f64 e n w W He HW HB2 Hn Hs) as (c & E & _ & _ & Hb). exists c. split; [exact Hb|]. split; [exact E|]. split.
    + intros t. rewrite C24_par_is_seq by exact B64_ord. exact E.
    + intros order t size Hsz Ho. destruct (C24_mpi_is_seq_f64 e n w W order t size He HW HB2 Hn Hsz Ho) as (M & E' & E2).
      change (f64_matrix e n w) with (matrix_of n (fun i j => b64_inj e (w i j) : C B64)) in E, E', E2. rewrite E in E'. injection E' as <-. exact E2.
  - intros env mode Hmode. destruct (C26_exact_f64 e n w W env mode n He HW HB1 Hmode ltac:(lia)) as (st & p & _ & _ & _ & E & Ht & _).
    exists (tour_cost w p), p. split; [exact E|]. split; [assumption|reflexivity].
  - intros order tree size Hsz Ho. destruct (C27_exact_f64 e n w W order tree size He HW HB1 Hsz Ho) as (p & E & Ht & _).
    exists (tour_cost w p), p. split; [exact E|]. split; [assumption|reflexivity].
  - intros debug env fenv mt mode Hmode Hdbg.
    assert (Hget : forall i j, i < na_dim (f64_matrix e n w) -> j < na_dim (f64_matrix e n w) -> na_get (f64_matrix e n w) i j = Ok (b64_inj e (w i j) : C B64))
      by (intros i j Hi Hj; exact (matrix_of_get n (fun i j => b64_inj e (w i j) : C B64) i j Hi Hj)).
    assert (Hfin : forall i j, i < na_dim (f64_matrix e n w) -> j < na_dim (f64_matrix e n w) -> i <> j -> clt (b64_inj e (w i j) : C B64) cinf = true).
    { intros i j Hi Hj _. pose proof (HW i j Hi Hj) as Hij. cbn in Hi, Hj. assert (Hab : (Z.abs (w i j) <= 2 ^ 53)%Z) by nia. exact (inj_lt_inf _ _ (B64_exact e He) (w i j) Hab). }
    assert (H : hamiltonian_result (f64_matrix e n w) (christofides debug env fenv mt mode (f64_matrix e n w))).
    { destruct Hmode as [->|[-> Hsz]].
      - apply (C28_sequential _ B64_ord _ _ debug env fenv mt (matrix_of_wf _ _) Hget Hfin); [cbn; lia|assumption].
      - apply (C28_mpi _ B64_ord _ _ debug env fenv mt (matrix_of_wf _ _) Hget Hfin); [cbn; lia|assumption|assumption]. }
    destruct H as (c & p & E & Ht & _ & Hc). cbn [na_dim f64_matrix matrix_of] in Ht, Hc. specialize (Hc ltac:(lia)).
    assert (Hl : length (0 :: p) = n) by (rewrite (Permutation_length Ht), seq_length; reflexivity).
    rewrite (C36_circle_f64 e n w W (0 :: p) He HW) in Hc; [|rewrite Hl; nia|lia|apply tour_range; assumption].
    injection Hc as <-. exists (tour_cost w (0 :: p)), ((0 :: p) ++ [0]). split; [exact E|]. exists (0 :: p). split; [reflexivity|]. split; [assumption|reflexivity].
Qed.

Lemma int_document g n w : document (N := EZ) Fin g n w ->
  forall T procs (stop : outcome EZ -> T) k, with_instance procs (Some g) stop k = k (int_matrix n w).
Proof. intros H T procs stop k. apply (document_matrix (N := EZ) Fin n w g H eq_refl). intros. apply Z.eqb_refl. Qed.

Lemma f64_document e g n w W : (-1074 <= e <= 970)%Z -> bounded w n W -> (W <= 2 ^ 53)%Z -> document (N := B64) (b64_inj e) g n w ->
  forall T procs (stop : outcome B64 -> T) k, with_instance procs (Some g) stop k = k (f64_matrix e n w).
Proof.
  intros He HW HB H T procs stop k. apply (document_matrix (N := B64) (b64_inj e) n w g H (inj_0 _ _ (B64_exact e He))).
  intros i j Hi Hj. pose proof (HW i j Hi Hj). pose proof (inj_eq _ _ (B64_exact e He) (w i j) (w i j) ltac:(lia) ltac:(lia)) as E. cbn in E.
  etransitivity; [exact E|]. apply Z.eqb_refl.
Qed.

(** ** C42.  On every document with nonnegative distances: V0 to V3 print the optimal cost and an
    optimal tour, the lower bounds (with every kind of parallelism) are not above it, and what
    nearest neighbour prints is a tour and not below it. *)
Theorem C42_ordered : forall wd g n w, document (N := EZ) Fin g n w -> 3 <= n -> nonneg w n -> ordered_runs (N := EZ) Fin n w wd g.
Proof.
  intros wd g n w Hd Hn Hnn. apply runs_ordered; [apply int_facts; [assumption|apply Hd|assumption]|apply int_document; assumption].
Qed.
Print Assumptions C42_ordered.

Theorem C42_ordered_f64 : forall wd e g n w W, (-1074 <= e <= 970)%Z -> bounded w n W -> (3 * W * (Z.of_nat n + 1) <= 2 ^ 53)%Z ->
  document (N := B64) (b64_inj e) g n w -> 3 <= n -> nonneg w n -> ordered_runs (N := B64) (b64_inj e) n w wd g.
Proof.
  intros wd e g n w W He HW HB Hd Hn Hnn. apply runs_ordered; [apply (f64_facts e n w W); try assumption; apply Hd|].
  apply (f64_document e g n w W); try assumption. specialize (HW 0 0 ltac:(lia) ltac:(lia)). nia.
Qed.
Print Assumptions C42_ordered_f64.

(** The approximations with option --lower-bound: the bound printed below the tour is not above
    its cost.  Christofides with threads is missing (it may hang, C28), and so is the 1-tree
    bound with MPI (it panics, [C45_bound_after_mpi_refuted]). *)
Theorem C42_approx_with_bound : forall wd g n w, document (N := EZ) Fin g n w -> 3 <= n -> nonneg w n ->
  bounded_approx (N := EZ) Fin n w wd g.
Proof.
  intros wd g n w Hd Hn Hnn. apply approx_bounded; [apply int_facts; [assumption|apply Hd|assumption]|apply int_document; assumption].
Qed.
Print Assumptions C42_approx_with_bound.

Theorem C42_approx_with_bound_f64 : forall wd e g n w W, (-1074 <= e <= 970)%Z -> bounded w n W -> (3 * W * (Z.of_nat n + 1) <= 2 ^ 53)%Z ->
  document (N := B64) (b64_inj e) g n w -> 3 <= n -> nonneg w n -> bounded_approx (N := B64) (b64_inj e) n w wd g.
Proof.
  intros wd e g n w W He HW HB Hd Hn Hnn. apply approx_bounded; [apply (f64_facts e n w W); try assumption; apply Hd|].
  apply (f64_document e g n w W); try assumption. specialize (HW 0 0 ltac:(lia) ltac:(lia)). nia.
Qed.
Print Assumptions C42_approx_with_bound_f64.

(** the document written from a table of distances *)
Definition table_row (n : nat) (w : nat -> nat -> Z) (i : nat) : list (edge EZ) :=
  map (fun j => mkEdge j (Fin (w i j) : C EZ)) (filter (fun j => negb (j =? i)) (seq 0 n)).
Definition table_graph (n : nat) (w : nat -> nat -> Z) : graph EZ := map (table_row n w) (seq 0 n).

Lemma nth_map_seq {A} (f : nat -> list A) n i : i < n -> nth i (map f (seq 0 n)) [] = f i.
Proof.
  intros Hi. rewrite (nth_indep _ [] (f 0)) by (rewrite map_length, seq_length; assumption). rewrite map_nth, seq_nth by assumption. reflexivity.
Qed.

Lemma table_document n (w : nat -> nat -> Z) : symmetric w n -> (forall i, i < n -> w i i = 0%Z) ->
  document (N := EZ) Fin (table_graph n w) n w.
Proof.
  intros Hs Hd. split; [unfold table_graph; rewrite map_length, seq_length; reflexivity|]. split; [assumption|]. split; [assumption|].
  assert (Hnth : forall i, i < n -> nth i (table_graph n w) [] = table_row n w i) by (intros i Hi; apply (nth_map_seq (table_row n w) n i Hi)).
  split.
  - intros i e Hi He. rewrite Hnth in He by assumption. apply in_map_iff in He. destruct He as (j & <- & Hj). cbn [e_to].
    apply filter_In in Hj. destruct Hj as [Hj Hij]. apply in_seq in Hj. apply negb_true_iff, Nat.eqb_neq in Hij. lia.
  - intros i j Hi Hj Hij. rewrite Hnth by assumption. unfold table_row.
    assert (G : forall a k, filter (fun e => e_to e =? j) (map (fun j => mkEdge j (Fin (w i j) : C EZ)) (filter (fun j => negb (j =? i)) (seq a k))) =
      if (a <=? j) && (j <? a + k) then [mkEdge j (Fin (w i j) : C EZ)] else []).
    { intros a k. revert a. induction k as [|k IH]; intros a.
      - cbn [seq filter map]. destruct (a <=? j) eqn:E1, (j <? a + 0) eqn:E2; cbn [andb]; try reflexivity. exfalso. apply Nat.leb_le in E1. apply Nat.ltb_lt in E2. lia.
      - cbn [seq filter]. destruct (a =? i) eqn:Ei; cbn [negb map filter e_to].
        + apply Nat.eqb_eq in Ei. subst a. rewrite IH. replace (S i + k) with (i + S k) by lia.
          destruct (S i <=? j) eqn:E1, (i <=? j) eqn:E2; try reflexivity; apply Nat.leb_le in E2 || apply Nat.leb_le in E1; apply Nat.leb_gt in E1 || apply Nat.leb_gt in E2; lia.
        + destruct (a =? j) eqn:Ej.
          * apply Nat.eqb_eq in Ej. subst a. rewrite IH. replace (S j <=? j) with false by (symmetry; apply Nat.leb_gt; lia).
            rewrite Nat.leb_refl. replace (j <? j + S k) with true by (symmetry; apply Nat.ltb_lt; lia). reflexivity.
          * apply Nat.eqb_neq in Ej. rewrite IH. replace (S a + k) with (a + S k) by lia.
            destruct (S a <=? j) eqn:E1, (a <=? j) eqn:E2; try reflexivity; apply Nat.leb_le in E2 || apply Nat.leb_le in E1; apply Nat.leb_gt in E1 || apply Nat.leb_gt in E2; lia. }
    rewrite G. replace (0 <=? j) with true by reflexivity. replace (j <? 0 + n) with true by (symmetry; apply Nat.ltb_lt; lia). reflexivity.
Qed.

Example C42_applies : document (N := EZ) Fin (table_graph 4 ex_sym) 4 ex_sym /\ nonneg ex_sym 4 /\
  forall wd, only_outcome wd (ExactCmd V1 SingleThreaded) (table_graph 4 ex_sym) (mkOut [[BestCost (Fin 10%Z : C EZ); BestPermutation [0;1;3;2]]] Done).
Proof.
  assert (Hd : document (N := EZ) Fin (table_graph 4 ex_sym) 4 ex_sym).
  { apply table_document; [concrete|]. intros i Hi. do 4 (destruct i as [|i]; [reflexivity|]). lia. }
  split; [assumption|]. split; [concrete|]. intros wd o'. cbn [run]. unfold exact_run. rewrite (int_document _ _ _ Hd).
  unfold exact_solved. cbn [exact_solver]. rewrite (proj1 (proj2 C02_applies)). cbn [bind].
  split; [intros (rs & -> & ->); reflexivity|]. intros ->. eexists. split; reflexivity.
Qed.

(** ** C45: the command line.  Full statement: for every combination of flags, the algorithm
    named by the flags runs and its result is printed.  It fails for some combinations. *)
Definition procs_of (wd : world) (cmd : command) : nat :=
  match cmd with ExactCmd _ p | ApproxCmd _ p _ | LowerBoundCmd _ p => processes wd p end.

(** Unreadable input: an error, and nothing is printed. *)
Theorem C45_unreadable : forall (N : Num) wd cmd (o : outcome N),
  run wd cmd None o <-> o = mkOut (repeat [] (procs_of wd cmd)) Failed.
Proof. intros N wd [a p|a p lb|a p] o; cbn; reflexivity. Qed.
Print Assumptions C45_unreadable.

(** A graph that is not complete and undirected: a panic, and nothing is printed. *)
Theorem C45_not_accepted : forall (N : Num) wd cmd (g : graph N) o, loop_free g -> ~ complete_undirected g ->
  (run wd cmd (Some g) o <-> o = mkOut (repeat [] (procs_of wd cmd)) Panicked).
Proof.
  intros N wd cmd g o Hl Hc. pose proof (proj2 (C41_error_or_panic N) g Hl) as [_ Hp]. specialize (Hp Hc).
  assert (H : forall T procs (stop : outcome N -> T) k, with_instance procs (Some g) stop k = stop (mkOut (repeat [] procs) Panicked)).
  { intros. unfold with_instance. rewrite Hp. reflexivity. }
  destruct cmd as [a p|a p lb|a p]; cbn [run procs_of].
  - unfold exact_run. rewrite H. reflexivity.
  - unfold approx_run. rewrite H. reflexivity.
  - unfold lower_bound_run. rewrite H. reflexivity.
Qed.
Print Assumptions C45_not_accepted.

(** One thread: V4 and V6 print a tour and its cost, V5 one of at most twice the optimal cost
    (V0 to V3: C42). *)
Theorem C45_single_partial : forall wd g n w, document (N := EZ) Fin g n w -> 1 <= n ->
  (forall a, In a [V4; V5; V6] -> exists c p, is_tour n p /\ tour_cost w p = c /\
     only_outcome wd (ExactCmd a SingleThreaded) g (mkOut [[BestCost (Fin c : C EZ); BestPermutation p]] Done)) /\
  (nonneg w n -> exists c p, is_tour n p /\ tour_cost w p = c /\ (forall q, is_tour n q -> (c <= 2 * tour_cost w q)%Z) /\
     only_outcome wd (ExactCmd V5 SingleThreaded) g (mkOut [[BestCost (Fin c : C EZ); BestPermutation p]] Done)).
Proof.
  intros wd g n w Hd Hn.
  assert (R : forall a c p, exact_solver a (int_matrix n w) = Ok (Fin c : C EZ, p) ->
    only_outcome wd (ExactCmd a SingleThreaded) g (mkOut [[BestCost (Fin c : C EZ); BestPermutation p]] Done)).
  { intros a c p E o'. cbn [run]. unfold exact_run. rewrite (int_document _ _ _ Hd). unfold exact_solved. rewrite E. cbn [bind].
    split; [intros (rs & -> & ->); reflexivity|]. intros ->. eexists. split; reflexivity. }
  destruct (C09_genuine_tours n w Hn) as (_ & _ & H4 & H5 & H6). split.
  - intros a [<-|[<-|[<-|[]]]]; [destruct H4 as (c & p & E & Ht & Hc)|destruct H5 as (c & p & E & Ht & Hc)|destruct H6 as (c & p & E & Ht & Hc)];
      exists c, p; (split; [assumption|]); (split; [assumption|]); apply R; exact E.
  - intros Hnn. destruct (C07_fifth_factor_two n w Hn ltac:(apply Hd) Hnn) as (c & p & E & Ht & Hc & Hq).
    exists c, p. repeat (split; [assumption|]). apply R. exact E.
Qed.
Print Assumptions C45_single_partial.

Lemma exact_outcomes wd g n w a p o : document (N := EZ) Fin g n w ->
  (run wd (ExactCmd a p) (Some g) o <-> exists rs, exact_solved wd a p (int_matrix n w) rs /\
     o = finish (processes wd p) rs (fun sols => mkOut (map (fun s => [BestCost (fst s); BestPermutation (snd s)]) sols) Done)).
Proof. intros Hd. cbn [run]. unfold exact_run. rewrite (int_document _ _ _ Hd). reflexivity. Qed.

(** Threads: a tour of at most twice the optimal cost, whatever the interleaving. *)
Theorem C45_threads_partial : forall wd g n w a, document (N := EZ) Fin g n w -> 3 <= n -> nonneg w n -> 1 <= w_threads wd ->
  (exists o, run wd (ExactCmd a MultiThreaded) (Some g) o) /\
  forall o, run wd (ExactCmd a MultiThreaded) (Some g) o ->
    exists c p, o = mkOut [[BestCost (Fin c : C EZ); BestPermutation p]] Done /\
      is_tour n p /\ tour_cost w p = c /\ forall q, is_tour n q -> (c <= 2 * tour_cost w q)%Z.
Proof.
  intros wd g n w a Hd Hn Hnn Ht. destruct (C14_threaded_factor_two n w (w_threads wd) Hn Ht ltac:(apply Hd) Hnn) as [(s & Hs) Hall].
  split.
  - eexists. apply (exact_outcomes _ _ _ _ _ _ _ Hd). exists (Ok [s]). split; [left; eauto|reflexivity].
  - intros o Ho. apply (exact_outcomes _ _ _ _ _ _ _ Hd) in Ho. destruct Ho as (rs & Hrs & ->). destruct Hrs as [(s' & Hs' & ->)|[Hp ->]].
    + destruct (Hall s' Hs') as (c & p & -> & H). exists c, p. split; [reflexivity|exact H].
    + exfalso. unfold threaded_result in Hs. destruct (na_dim (int_matrix n w) <=? w_threads wd); [congruence|].
      destruct Hs as (c0 & c & E & _). congruence.
Qed.
Print Assumptions C45_threads_partial.

(** ... but the algorithm is ignored ... *)
Theorem C45_threads_ignore_algorithm_refuted : forall (N : Num) wd doc a b (o : outcome N),
  run wd (ExactCmd a MultiThreaded) doc o <-> run wd (ExactCmd b MultiThreaded) doc o.
Proof. intros. reflexivity. Qed.
Print Assumptions C45_threads_ignore_algorithm_refuted.

(** ... so that [exact v0 -p multi-threaded] may print a cost above the optimum that
    [exact v0 -p single-threaded] prints. *)
Theorem C45_threads_not_v0_refuted : exists g, forall wd, 7 <= w_threads wd -> exists c p c' p',
  (c' < c)%Z /\
  only_outcome wd (ExactCmd V0 MultiThreaded) g (mkOut [[BestCost (Fin c : C EZ); BestPermutation p]] Done) /\
  only_outcome wd (ExactCmd V0 SingleThreaded) g (mkOut [[BestCost (Fin c' : C EZ); BestPermutation p']] Done).
Proof.
  assert (Hd : document (N := EZ) Fin (table_graph 7 ex_v5) 7 ex_v5).
  { apply table_document; [concrete|]. intros i Hi. do 7 (destruct i as [|i]; [reflexivity|]). lia. }
  assert (E5 : fifth_improved_solver (int_matrix 7 ex_v5) = Ok (Fin 8%Z : C EZ, [0;1;2;3;4;5;6])) by (vm_compute; reflexivity).
  destruct (C01_naive_optimal 7 ex_v5 ltac:(lia)) as (c' & p' & E0 & _ & Hc' & Hmin).
  exists (table_graph 7 ex_v5). intros wd Hw. exists 8%Z, [0;1;2;3;4;5;6], c', p'. split; [|split].
  - assert (Ht : is_tour 7 [0;2;1;3;4;5;6]) by concrete. specialize (Hmin _ Ht). assert (Hv : tour_cost ex_v5 [0;2;1;3;4;5;6] = 7%Z) by (vm_compute; reflexivity). lia.
  - intros o. rewrite (exact_outcomes _ _ _ _ _ _ _ Hd). unfold exact_solved, threaded_result.
    replace (na_dim (int_matrix 7 ex_v5) <=? w_threads wd) with true by (symmetry; apply Nat.leb_le; exact Hw).
    rewrite E5. split.
    + intros (rs & [(s & E & ->)|[E _]] & ->); [|discriminate]. injection E as <-. reflexivity.
    + intros ->. eexists. split; [left; eexists; split; reflexivity|reflexivity].
  - intros o. rewrite (exact_outcomes _ _ _ _ _ _ _ Hd). unfold exact_solved. cbn [exact_solver]. rewrite E0. cbn [bind].
    split; [intros (rs & -> & ->); reflexivity|]. intros ->. eexists. split; reflexivity.
Qed.
Print Assumptions C45_threads_not_v0_refuted.

(** MPI, V0: a tour of at most twice the optimal cost on every process, if there are at most as
    many workers as cities. *)
Theorem C45_mpi_v0_partial : forall wd g n w, document (N := EZ) Fin g n w -> 3 <= n -> nonneg w n -> 2 <= w_size wd <= n + 1 ->
  (exists o, run wd (ExactCmd V0 MPI) (Some g) o) /\
  forall o, run wd (ExactCmd V0 MPI) (Some g) o ->
    exists c p, o = mkOut (repeat [BestCost (Fin c : C EZ); BestPermutation p] (w_size wd)) Done /\
      is_tour n p /\ tour_cost w p = c /\ forall q, is_tour n q -> (c <= 2 * tour_cost w q)%Z.
Proof.
  intros wd g n w Hd Hn Hnn Hs. destruct (C16_static_factor_two n w (w_size wd) Hn Hs ltac:(apply Hd) Hnn) as [(s & Hex) Hall].
  split.
  - eexists. apply (exact_outcomes _ _ _ _ _ _ _ Hd). exists s. split; [left; exact Hex|reflexivity].
  - intros o Ho. apply (exact_outcomes _ _ _ _ _ _ _ Hd) in Ho. destruct Ho as (rs & [Hrs|Hrs] & ->).
    + destruct (Hall rs Hrs) as (c & p & -> & H). exists c, p. split; [|exact H]. cbn [finish processes]. rewrite map_repeat. reflexivity.
    + exfalso. destruct Hrs as (todo & c & Et & Hc & Hend).
      assert (Hm : nonneg_matrix (int_matrix n w)) by (apply int_nonneg; assumption).
      assert (Hsz : w_size wd - 1 < na_dim (int_matrix n w) ^ 3) by (cbn [na_dim int_matrix matrix_of]; cbn; nia).
      destruct Hend as [[Hcr _]|(_ & Hnd & Hst & _)].
      * destruct Hcr as (i & p & rest & local & gl & Hi & Est & Ep).
        destruct (C15_no_worker_panics EZ EZ_ord EZ_pos (int_matrix n w) 3 (w_size wd - 1) todo c i p rest local gl) as (x & Ex);
          try assumption; try (cbn; lia); try apply matrix_of_wf. congruence.
      * destruct (C15_no_deadlock EZ EZ_ord EZ_pos (int_matrix n w) 3 (w_size wd - 1)) as (todo' & Et' & Hp);
          try assumption; try (cbn; lia); try apply matrix_of_wf. rewrite Et in Et'. injection Et' as <-.
        destruct (Hp c Hc); contradiction.
Qed.
Print Assumptions C45_mpi_v0_partial.

(** MPI, V0, exactly: if the number of workers leaves nobody without a prefix, every process
    prints the same tour, of at most twice the least cost; otherwise every run panics. *)
Theorem C45_mpi_v0_exactly : forall wd g n w, document (N := EZ) Fin g n w -> 3 <= n -> nonneg w n -> 2 <= w_size wd ->
  (exists o, run wd (ExactCmd V0 MPI) (Some g) o) /\
  forall o, run wd (ExactCmd V0 MPI) (Some g) o ->
    (enough_prefixes n (w_size wd - 1) ->
      exists c p, o = mkOut (repeat [BestCost (Fin c : C EZ); BestPermutation p] (w_size wd)) Done /\ is_tour n p /\ tour_cost w p = c /\
        forall q, is_tour n q -> (c <= 2 * tour_cost w q)%Z) /\
    (~ enough_prefixes n (w_size wd - 1) -> o = mkOut (repeat [] (w_size wd)) Panicked).
Proof.
  intros wd g n w Hd Hn Hnn Hs. destruct (C16_exactly n w (w_size wd) Hn Hs ltac:(apply Hd) Hnn) as [(s & Hex) Hall].
  split.
  - eexists. apply (exact_outcomes _ _ _ _ _ _ _ Hd). exists s. split; [left; exact Hex|reflexivity].
  - intros o Ho. apply (exact_outcomes _ _ _ _ _ _ _ Hd) in Ho. destruct Ho as (rs & [Hrs|Hrs] & ->).
    + destruct (Hall rs Hrs) as [H1 H2]. split.
      * intros He. destruct (H1 He) as (c & p & -> & Hp & Hc & Hq). exists c, p. split; [|auto]. cbn [finish processes]. rewrite map_repeat. reflexivity.
      * intros He. rewrite (H2 He). reflexivity.
    + exfalso. destruct Hrs as (todo & c & Et & Hc & Hend).
      assert (Hm : nonneg_matrix (int_matrix n w)) by (apply int_nonneg; assumption).
      assert (Hsz : 1 <= w_size wd - 1 < na_dim (int_matrix n w) ^ 3).
      { split; [lia|]. destruct (le_lt_dec (na_dim (int_matrix n w) ^ 3) (w_size wd - 1)) as [Hbig|]; [|assumption]. exfalso.
        revert Et. unfold static_todo. destruct (w_size wd - 1) as [|k] eqn:Ek; [lia|].
        cbn [seq mapM]. rewrite chunk_prefixes_panics by (left; assumption). cbn [bind]. discriminate. }
      destruct Hend as [[Hcr _]|(_ & Hnd & Hst & _)].
      * destruct Hcr as (i & p & rest & local & gl & Hi & Est & Ep).
        destruct (C15_no_worker_panics EZ EZ_ord EZ_pos (int_matrix n w) 3 (w_size wd - 1) todo c i p rest local gl) as (x & Ex);
          try assumption; try (cbn; lia); try apply matrix_of_wf; try apply Hsz. congruence.
      * destruct (C15_no_deadlock EZ EZ_ord EZ_pos (int_matrix n w) 3 (w_size wd - 1)) as (todo' & Et' & Hp);
          try assumption; try (cbn; lia); try apply matrix_of_wf; try apply Hsz. rewrite Et in Et'. injection Et' as <-.
        destruct (Hp c Hc); contradiction.
Qed.
Print Assumptions C45_mpi_v0_exactly.

(** MPI, V1: the same with any number of workers, or a panic at the end (when a worker came too
    late to get a prefix, C17). *)
Theorem C45_mpi_v1_partial : forall wd g n w, document (N := EZ) Fin g n w -> 4 <= n -> nonneg w n -> 2 <= w_size wd ->
  (exists o, run wd (ExactCmd V1 MPI) (Some g) o) /\
  forall o, run wd (ExactCmd V1 MPI) (Some g) o ->
    o = mkOut (repeat [] (w_size wd)) Panicked \/
    exists c p, o = mkOut (repeat [BestCost (Fin c : C EZ); BestPermutation p] (w_size wd)) Done /\
      is_tour n p /\ tour_cost w p = c /\ forall q, is_tour n q -> (c <= 2 * tour_cost w q)%Z.
Proof.
  intros wd g n w Hd Hn Hnn Hs.
  assert (Hm : nonneg_matrix (int_matrix n w)) by (apply int_nonneg; assumption).
  split.
  - destruct (dynamic_ok EZ_ord EZ_pos (int_matrix n w) Hn (matrix_of_wf _ _) Hm) as (L & H1 & H2 & H3 & H4 & H5).
    destruct (dynamic_finishes EZ_ord (w_size wd - 1) n (mpi_work (int_matrix n w)) L H1 H4 (sound n) (sound_init EZ_ord _) (sound_nonneg (int_matrix n w)) H5 dinit (steps_refl _ _))
      as (c & Hc & Hdone).
    eexists. apply (exact_outcomes _ _ _ _ _ _ _ Hd). eexists. split; [left; exists c; split; [exact Hc|split; [exact Hdone|reflexivity]]|reflexivity].
  - intros o Ho. apply (exact_outcomes _ _ _ _ _ _ _ Hd) in Ho. destruct Ho as (rs & [Hrs|Hrs] & ->).
    + destruct Hrs as (c & Hc & Hdone & ->).
      destruct (C17_dynamic_factor_two n w (w_size wd) Hn Hs ltac:(apply Hd) Hnn c Hc Hdone) as (cost & i & p & Hi & Ew & El & Ht & Hcost & Hq & [E|E]).
      * left. cbn [na_dim int_matrix matrix_of]. rewrite E. reflexivity.
      * right. exists cost, p. cbn [na_dim int_matrix matrix_of]. rewrite E. cbn [finish]. rewrite map_repeat. auto.
    + exfalso. destruct Hrs as (c & Hc & Hend). destruct Hend as [[Hcr _]|(_ & Hnd & Hst & _)].
      * destruct Hcr as (i & h & local & p & gl & Hi & Est & Ep).
        destruct (C17_no_worker_panics EZ EZ_ord EZ_pos (int_matrix n w) (w_size wd - 1) c i h local p gl) as (x & Ex);
          try assumption; try apply matrix_of_wf. congruence.
      * destruct (C17_no_deadlock EZ EZ_ord EZ_pos (int_matrix n w) (w_size wd - 1) Hn (matrix_of_wf _ _) Hm c Hc); contradiction.
Qed.
Print Assumptions C45_mpi_v1_partial.

(** MPI, V1, exactly: with one worker it always ends well, with more it may panic, with more than
    the n (n-2)^2 - 1 prefixes it always does, and with at most that many it may end well. *)
Theorem C45_mpi_v1_exactly : forall wd g n w, document (N := EZ) Fin g n w -> 4 <= n -> nonneg w n ->
  let panics o := o = mkOut (repeat [] (w_size wd)) Panicked in
  let returns o := exists c p, o = mkOut (repeat [BestCost (Fin c : C EZ); BestPermutation p] (w_size wd)) Done /\
    is_tour n p /\ tour_cost w p = c /\ forall q, is_tour n q -> (c <= 2 * tour_cost w q)%Z in
  (w_size wd = 2 -> forall o, run wd (ExactCmd V1 MPI) (Some g) o -> returns o) /\
  (3 <= w_size wd -> exists o, run wd (ExactCmd V1 MPI) (Some g) o /\ panics o) /\
  (2 <= w_size wd <= n * (n - 2) ^ 2 -> exists o, run wd (ExactCmd V1 MPI) (Some g) o /\ returns o) /\
  (n * (n - 2) ^ 2 < w_size wd -> forall o, run wd (ExactCmd V1 MPI) (Some g) o -> panics o).
Proof.
  intros wd g n w Hd Hn Hnn panics returns.
  assert (Hm : nonneg_matrix (int_matrix n w)) by (apply int_nonneg; assumption).
  assert (Hpos : 1 <= n * (n - 2) ^ 2) by (destruct n as [|[|[|k]]]; try lia; cbn [Nat.sub Nat.pow]; nia).
  assert (Hsym : symmetric w n) by apply Hd.
  split; [|split; [|split]].
  - intros E2 o Ho. destruct (C45_mpi_v1_partial wd g n w Hd Hn Hnn ltac:(lia)) as [_ Hall].
    destruct (Hall o Ho) as [Hp|Hr]; [|exact Hr]. exfalso.
    apply (exact_outcomes _ _ _ _ _ _ _ Hd) in Ho. destruct Ho as (rs & [Hrs|Hrs] & Eo).
    + rewrite E2 in Hrs. destruct (C17_one_worker_returns n w rs Hn Hsym Hnn Hrs) as (c & p & -> & _).
      rewrite Eo in Hp. cbn [finish] in Hp. discriminate.
    + destruct Hrs as (c & Hc & Hend). destruct Hend as [[Hcr _]|(_ & Hnd & Hst & _)].
      * destruct Hcr as (i & h & local & p & gl & Hi & Est & Ep).
        destruct (C17_no_worker_panics EZ EZ_ord EZ_pos (int_matrix n w) (w_size wd - 1) c i h local p gl) as (x & Ex);
          try assumption; try apply matrix_of_wf. congruence.
      * destruct (C17_no_deadlock EZ EZ_ord EZ_pos (int_matrix n w) (w_size wd - 1)) with (c := c); try assumption; try apply matrix_of_wf; contradiction.
  - intros H3. eexists. split; [|reflexivity]. apply (exact_outcomes _ _ _ _ _ _ _ Hd). exists Panic. split; [left|reflexivity].
    apply (C17_may_panic EZ EZ_ord EZ_pos (int_matrix n w) (w_size wd) Hn (matrix_of_wf _ _) Hm H3).
  - intros [H2 Hmax]. destruct (C17_may_return n w (w_size wd) Hn H2 ltac:(lia) Hnn) as (results & Hres).
    assert (Ho : run wd (ExactCmd V1 MPI) (Some g) (finish (processes wd MPI) (Ok results) (fun sols => mkOut (map (fun s => [BestCost (fst s); BestPermutation (snd s)]) sols) Done))).
    { apply (exact_outcomes _ _ _ _ _ _ _ Hd). exists (Ok results). split; [left; exact Hres|reflexivity]. }
    eexists. split; [exact Ho|]. destruct (C45_mpi_v1_partial wd g n w Hd Hn Hnn H2) as [_ Hall].
    destruct (Hall _ Ho) as [Hp|Hr]; [cbn [finish] in Hp; discriminate|exact Hr].
  - intros Hbig o Ho. apply (exact_outcomes _ _ _ _ _ _ _ Hd) in Ho. destruct Ho as (rs & [Hrs|Hrs] & ->).
    + rewrite (C17_too_many_workers_panic EZ EZ_ord EZ_pos (int_matrix n w) (w_size wd) Hn (matrix_of_wf _ _) Hm ltac:(cbn [na_dim int_matrix matrix_of]; lia) rs Hrs).
      reflexivity.
    + destruct Hrs as (c & Hc & Hend). destruct Hend as [[Hcr _]|(_ & Hnd & Hst & _)]; exfalso.
      * destruct Hcr as (i & h & local & p & gl & Hi & Est & Ep).
        destruct (C17_no_worker_panics EZ EZ_ord EZ_pos (int_matrix n w) (w_size wd - 1) c i h local p gl) as (x & Ex);
          try assumption; try apply matrix_of_wf. congruence.
      * destruct (C17_no_deadlock EZ EZ_ord EZ_pos (int_matrix n w) (w_size wd - 1)) with (c := c); try assumption; try apply matrix_of_wf; contradiction.
Qed.
Print Assumptions C45_mpi_v1_exactly.

(** Four cities with three MPI processes; and a document that is not accepted, for the way back is missing *)
Example C45_applies : document (N := EZ) Fin (table_graph 4 ex_sym) 4 ex_sym /\ nonneg ex_sym 4 /\ enough_prefixes 4 2 /\
  (forall wd, w_size wd = 3 -> exists o, run wd (ExactCmd V0 MPI) (Some (table_graph 4 ex_sym)) o) /\
  let g := [[mkEdge 1 (Fin 1%Z : C EZ)]; []] in loop_free g /\ ~ complete_undirected g.
Proof.
  destruct C42_applies as (Hd & Hn & _). split; [exact Hd|]. split; [exact Hn|]. split; [|split].
  - vm_compute. lia.
  - intros wd E. apply (C45_mpi_v0_partial wd _ 4 ex_sym Hd); [lia|exact Hn|lia].
  - split.
    + intros i e Hi. destruct i as [|[|i]]; cbn [nth In length] in *; [intros [<-|[]]; discriminate|intros []|lia].
    + intros [_ H]. destruct (H 1 0 ltac:(cbn; lia) ltac:(cbn; lia) ltac:(lia)) as (e & e' & E & _). vm_compute in E. discriminate.
Qed.

(** MPI with V2 to V6 is not implemented: a panic. *)
Theorem C45_mpi_unimplemented_refuted : forall wd g n w a, document (N := EZ) Fin g n w -> In a [V2; V3; V4; V5; V6] ->
  only_outcome wd (ExactCmd a MPI) g (mkOut (repeat [] (w_size wd)) Panicked).
Proof.
  intros wd g n w a Hd Ha o. rewrite (exact_outcomes _ _ _ _ _ _ _ Hd).
  assert (E : forall rs, exact_solved wd a MPI (int_matrix n w) rs <-> rs = Panic)
    by (intros rs; destruct a; try reflexivity; exfalso; cbn in Ha; intuition discriminate).
  split; [intros (rs & Hrs & ->); apply E in Hrs; subst rs; reflexivity|]. intros ->. exists Panic. split; [apply E; reflexivity|reflexivity].
Qed.
Print Assumptions C45_mpi_unimplemented_refuted.

(** MPI with a single process: the root waits for no one and prints infinity and zeros. *)
Theorem C45_mpi_alone_refuted : forall wd g n w a, document (N := EZ) Fin g n w -> 4 <= n -> nonneg w n -> w_size wd = 1 ->
  In a [V0; V1] ->
  only_outcome wd (ExactCmd a MPI) g (mkOut [[BestCost (PInf : C EZ); BestPermutation (repeat 0 n)]] Done).
Proof.
  intros wd g n w a Hd Hn Hnn Hs Ha o. rewrite (exact_outcomes _ _ _ _ _ _ _ Hd).
  assert (Hm : nonneg_matrix (int_matrix n w)) by (apply int_nonneg; assumption).
  set (r := Ok [(PInf : C EZ, repeat 0 n)]).
  assert (Ew : wrapup (cinf : C EZ, 0) [repeat 0 n] = r) by (unfold wrapup; cbn; rewrite Nat.eqb_refl; reflexivity).
  assert (E : exact_solved wd a MPI (int_matrix n w) r /\ forall rs, exact_solved wd a MPI (int_matrix n w) rs -> rs = r).
  { cbn in Ha. destruct Ha as [<-|[<-|[]]]; cbn [exact_solved]; rewrite Hs; split.
    - left. unfold static_result. cbn [static_todo mapM seq Nat.sub map]. unfold static_todo. cbn [mapM seq].
      eexists. split; [eapply steps_step; [apply steps_refl|]; apply S_root_barrier; lia|]. split; [split; [reflexivity|intros i Hi; lia]|symmetry; exact Ew].
    - intros rs [H|H]; [apply (C16_single_process_refuted n w rs H)|]. exfalso. destruct H as (todo & c & Et & Hc & [[(i & H) _]|(_ & Hnd & Hst & _)]); [destruct H as (p & t & l & gl & Hi & _); lia|].
      destruct (C15_no_deadlock EZ EZ_ord EZ_pos (int_matrix n w) 3 0) as (todo' & Et' & Hp); try assumption; try apply matrix_of_wf; try (cbn; nia); try (cbn; lia).
      change (1 - 1) with 0 in *. rewrite Et in Et'. injection Et' as <-. destruct (Hp c Hc); contradiction.
    - left. unfold dynamic_result. eexists. split; [eapply steps_step; [apply steps_refl|]; apply D_root_barrier; lia|]. split; [split; [reflexivity|intros i Hi; lia]|symmetry; exact Ew].
    - intros rs [H|H]; [apply (C17_single_process_refuted n w rs H)|]. exfalso. destruct H as (c & Hc & [[(i & H) _]|(_ & Hnd & Hst & _)]); [destruct H as (p & t & l & gl & Hi & _); lia|].
      destruct (C17_no_deadlock EZ EZ_ord EZ_pos (int_matrix n w) 0 Hn (matrix_of_wf _ _) Hm c Hc); contradiction. }
  destruct E as [E1 E2]. split.
  - intros (rs & Hrs & ->). rewrite (E2 rs Hrs). reflexivity.
  - intros ->. exists r. split; [assumption|reflexivity].
Qed.
Print Assumptions C45_mpi_alone_refuted.

(** approx with MPI and the 1-tree bound: the tour is printed, then every process panics since MPI
    is initialised a second time. *)
Theorem C45_bound_after_mpi_refuted : forall wd g n w, document (N := EZ) Fin g n w -> 3 <= n -> nonneg w n -> fitting wd n MPI ->
  (exists c q, is_tour n q /\ tour_cost w q = c /\
   only_outcome wd (ApproxCmd NearestNeighbour MPI (Some OneTree)) g
    (mkOut (repeat [NnWeight (Fin c : C EZ); NnSolution q] (w_size wd)) Panicked)) /\
  ((w_debug wd = true -> is_metric (na_adj (int_matrix n w)) = Ok true) ->
   exists c, only_outcome wd (ApproxCmd Christofides MPI (Some OneTree)) g
    (mkOut ([ChristofidesWeight (Fin c : C EZ)] :: repeat [] (w_size wd - 1)) Panicked)).
Proof.
  intros wd g n w Hd Hn Hnn Hf. pose proof (int_facts n w Hn ltac:(apply Hd) Hnn) as F.
  assert (Hlb : forall k, lower_bound_run wd true k OneTree MPI (Some g) = mkOut (repeat [] k) Panicked).
  { intros k. unfold lower_bound_run. rewrite (int_document _ _ _ Hd). reflexivity. }
  split.
  - destruct (nn_runs (N := EZ) Fin n w F wd MPI Hf) as (c & q & (Ht & Hc) & E). exists c, q. split; [assumption|]. split; [assumption|].
    intros o. cbn [run]. unfold approx_run. rewrite (int_document _ _ _ Hd). unfold int_matrix. rewrite E. cbn [finish option_map]. rewrite Hlb.
    cbn [then_bound processes printed ended]. rewrite map_repeat. rewrite firstn_all2, skipn_all2 by (rewrite repeat_length; lia).
    rewrite combine_repeat, map_repeat. rewrite !app_nil_r. reflexivity.
  - intros Hdbg. destruct (f_chr _ _ _ F (w_debug wd) (w_menv wd) (w_fillenv wd) (matching_env wd) MPI_COMPUTATION) as (c & p & E & _).
    { right. split; [reflexivity|]. destruct (Hf eq_refl) as (H & _). cbn. lia. }
    { assumption. }
    exists c. intros o. cbn [run]. unfold approx_run. rewrite (int_document _ _ _ Hd). unfold int_matrix. rewrite E. cbn [finish option_map]. rewrite Hlb.
    cbn [then_bound processes printed ended repeat firstn combine map skipn app fst]. reflexivity.
Qed.
Print Assumptions C45_bound_after_mpi_refuted.

(** lower-bound mst-queue ignores the kind of parallelism: no threads are used, and with MPI every
    process computes and prints the bound. *)
Theorem C45_queue_ignores_parallelism_refuted : forall (N : Num) wd doc (o : outcome N),
  (run wd (LowerBoundCmd MSTQueue MultiThreaded) doc o <-> run wd (LowerBoundCmd MSTQueue SingleThreaded) doc o) /\
  (run wd (LowerBoundCmd MSTQueue MPI) doc o <-> o = lower_bound_run wd false (w_size wd) MSTQueue SingleThreaded doc).
Proof. intros. split; reflexivity. Qed.
Print Assumptions C45_queue_ignores_parallelism_refuted.

(** ** C50: one thread, an accepted document: every command ends properly, with output. *)
Definition single_threaded (cmd : command) : Prop :=
  match cmd with ExactCmd _ p | ApproxCmd _ p _ | LowerBoundCmd _ p => p = SingleThreaded end.

Theorem C50_ends_well_partial : forall wd g n w cmd, document (N := EZ) Fin g n w -> 3 <= n -> nonneg w n -> single_threaded cmd ->
  w_debug wd = false \/ triangle w n ->
  exists o, only_outcome wd cmd g o /\ ended o = Done /\ lines o <> [].
Proof.
  intros wd g n w cmd Hd Hn Hnn Hst Hdbg.
  assert (Hmet : w_debug wd = true -> is_metric (na_adj (int_matrix n w)) = Ok true).
  { intros H. destruct Hdbg as [Hdbg|Ht]; [congruence|]. apply (proj1 (C37_decides_triangle n w ltac:(apply Hd))). assumption. }
  destruct (C42_ordered wd g n w Hd Hn Hnn) as (opt & _ & Hex & Hlb & Hnn'). destruct (C42_approx_with_bound wd g n w Hd Hn Hnn) as [Hb1 Hb2].
  specialize (Hb2 Hmet). destruct Hb2 as (Hc1 & Hc2 & _). destruct (C45_single_partial wd g n w Hd ltac:(lia)) as [Hs _].
  assert (Hfit : fitting wd n SingleThreaded) by discriminate.
  destruct cmd as [a p|a p lb|a p]; cbn in Hst; subst p.
  - destruct (in_dec (fun x y : exact_algorithm => ltac:(decide equality)) a [V0; V1; V2; V3]) as [Ha|Ha].
    + destruct (Hex a Ha) as (p & _ & H). eexists. split; [exact H|]. split; [reflexivity|discriminate].
    + assert (Ha' : In a [V4; V5; V6]) by (destruct a; cbn in *; tauto). destruct (Hs a Ha') as (c & p & _ & _ & H). eexists. split; [exact H|]. split; [reflexivity|discriminate].
  - destruct a, lb as [lb|].
    + destruct (Hb1 SingleThreaded lb Hfit ltac:(discriminate)) as (c & q & b & H & _). eexists. split; [exact H|]. split; [reflexivity|discriminate].
    + destruct (Hnn' SingleThreaded Hfit) as (c & q & H & _). eexists. split; [exact H|]. split; [reflexivity|discriminate].
    + destruct (Hc2 lb) as (c & b & H & _). eexists. split; [exact H|]. split; [reflexivity|discriminate].
    + destruct Hc1 as (c & _ & H). eexists. split; [exact H|]. split; [reflexivity|discriminate].
  - destruct (Hlb a SingleThreaded Hfit) as (o & b & H & He & Hl & _). exists o. auto.
Qed.
Print Assumptions C50_ends_well_partial.

(** Debug builds of christofides panic on distances that violate the triangle inequality, and
    small documents make the bounds and solvers panic or print infinity. *)
Theorem C50_refuted :
  (exists g n w, document (N := EZ) Fin g n w /\ 3 <= n /\ nonneg w n /\
     forall wd lb, w_debug wd = true -> only_outcome wd (ApproxCmd Christofides SingleThreaded lb) g (mkOut [[]] Panicked)) /\
  (forall wd, only_outcome wd (LowerBoundCmd OneTree SingleThreaded) (table_graph 1 (fun _ _ => 0%Z)) (mkOut [[]] Panicked)) /\
  (forall wd, only_outcome wd (ExactCmd V0 SingleThreaded) (table_graph 1 (fun _ _ => 0%Z)) (mkOut [[BestCost (PInf : C EZ); BestPermutation [0]]] Done)) /\
  (forall wd, only_outcome wd (ExactCmd V1 SingleThreaded) [] (mkOut [[] : list (line EZ)] Panicked)) /\
  (forall wd, only_outcome wd (ExactCmd V1 SingleThreaded) (table_graph 2 (table [[0; 5]; [5; 0]]%Z))
     (mkOut [[BestCost (PInf : C EZ); BestPermutation [0; 1]]] Done)) /\
  (forall wd, only_outcome wd (LowerBoundCmd OneTree SingleThreaded) (table_graph 2 (table [[0; 5]; [5; 0]]%Z))
     (mkOut [[OneTreeBound (PInf : C EZ)]] Done)).
Proof.
  assert (D1 : document (N := EZ) Fin (table_graph 1 (fun _ _ => 0%Z)) 1 (fun _ _ => 0%Z)) by (apply table_document; [intros i j _ _; reflexivity|reflexivity]).
  assert (D2 : document (N := EZ) Fin (table_graph 2 (table [[0; 5]; [5; 0]]%Z)) 2 (table [[0; 5]; [5; 0]]%Z)).
  { apply table_document; [concrete|]. intros i Hi. do 2 (destruct i as [|i]; [reflexivity|]). lia. }
  assert (D0 : document (N := EZ) Fin [] 0 (fun _ _ => 0%Z)) by (apply (table_document 0 (fun _ _ => 0%Z)); [intros i j _ _; reflexivity|reflexivity]).
  set (w3 := table [[0;1;9]; [1;0;1]; [9;1;0]]%Z).
  assert (D3 : document (N := EZ) Fin (table_graph 3 w3) 3 w3).
  { apply table_document; [unfold w3; concrete|]. intros i Hi. do 3 (destruct i as [|i]; [reflexivity|]). lia. }
  assert (R : forall wd g n w a s, document (N := EZ) Fin g n w -> exact_solver a (int_matrix n w) = s ->
    only_outcome wd (ExactCmd a SingleThreaded) g (finish 1 s (fun s => mkOut [[BestCost (fst s); BestPermutation (snd s)]] Done))).
  { intros wd g n w a s Hd E o. rewrite (exact_outcomes _ _ _ _ _ _ _ Hd). unfold exact_solved. rewrite E.
    split; [intros (rs & -> & ->); destruct s; reflexivity|]. intros ->. eexists. split; [reflexivity|]. destruct s; reflexivity. }
  split; [|split; [|split; [|split; [|split]]]].
  - exists (table_graph 3 w3), 3, w3. split; [assumption|]. split; [lia|]. split; [unfold w3; concrete|]. intros wd lb Hdbg o. cbn [run]. unfold approx_run.
    rewrite (int_document _ _ _ D3). unfold christofides, christofides_generic. rewrite Hdbg.
    assert (E : is_metric (na_adj (int_matrix 3 w3)) = Ok false) by (vm_compute; reflexivity). rewrite E. reflexivity.
  - intros wd o. cbn [run]. unfold lower_bound_run. rewrite (int_document _ _ _ D1). rewrite (proj2 C23_small). reflexivity.
  - intros wd. exact (R wd _ 1 _ V0 _ D1 (C01_single_vertex _)).
  - intros wd. exact (R wd _ 0 _ V1 _ D0 (C02_empty_panics _)).
  - intros wd. exact (R wd _ 2 _ V1 _ D2 (C02_two_vertices_refuted _)).
  - intros wd o. cbn [run]. unfold lower_bound_run. rewrite (int_document _ _ _ D2). rewrite (proj1 C23_small). reflexivity.
Qed.
Print Assumptions C50_refuted.

(** approx christofides -p multi-threaded may never end: [Endless] is what the model makes of
    exhausted fuel, and C28_parallel_refuted shows for this instance that no fuel suffices. *)
Theorem C50_christofides_threads_refuted : exists g n w wd, document (N := EZ) Fin g n w /\ 3 <= n /\ nonneg w n /\ triangle w n /\
  forall lb, only_outcome wd (ApproxCmd Christofides MultiThreaded lb) g (mkOut [[]] Endless).
Proof.
  exists (table_graph 9 ex_race), 9, ex_race,
    (mkWorld 1 2 false ex_menv (fun _ => 0) (mkNnEnv (fun _ => 0) RLeaf) (fun _ => [0]) (fun _ => RLeaf)
       (mkFillEnv [] [1; 3; 1; 3; 1; 1; 3; 3]) ex_race_mt [0] RLeaf).
  assert (D : document (N := EZ) Fin (table_graph 9 ex_race) 9 ex_race).
  { apply table_document; [concrete|]. intros i Hi. do 9 (destruct i as [|i]; [vm_compute; reflexivity|]). lia. }
  split; [assumption|]. split; [lia|]. split; [concrete|]. split; [concrete|]. intros lb o. cbn [run]. unfold approx_run.
  rewrite (int_document _ _ _ D). cbn [w_debug w_menv w_fillenv].
  match goal with |- context [christofides ?d ?e ?f ?t ?k ?m] => assert (E : christofides d e f t k m = OutOfFuel) by (vm_compute; reflexivity) end.
  rewrite E. reflexivity.
Qed.
Print Assumptions C50_christofides_threads_refuted.
