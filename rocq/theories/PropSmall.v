(** Property C50, completed: exactly when a single-threaded command ends well, for documents of
    every size, the smallest included. *)
From Coq Require Import ZArith Arith Bool List Permutation Lia.
From Verif Require Import Num Base Spec SpecFacts Data Precond Mst Par MstPar OneTree Rand Nn Matching Christofides
  Exact Cli PrimProofs ConvProofs Instances PropExact PropMst PropNn PropChristofides PropData PropCli.
Import ListNotations.

(** ** What is claimed *)
Definition finite_line (l : line EZ) : Prop :=
  match l with
  | BestCost c | ChristofidesWeight c | NnWeight c | OneTreeBound c | MstBound c => exists z, c = (Fin z : C EZ)
  | BestPermutation _ | NnSolution _ => True
  end.

(** The run ends without panic or endless loop, prints something, and prints no infinite cost. *)
Definition ends_well (o : outcome EZ) : Prop :=
  ended o = Done /\ lines o <> [] /\ forall l, In l (lines o) -> finite_line l.

(** The number of cities a command needs. *)
Definition cities_needed (cmd : command) : nat :=
  match cmd with
  | ExactCmd V0 _ => 2
  | ExactCmd V1 _ => 3
  | ExactCmd _ _ => 1
  | ApproxCmd _ _ (Some OneTree) => 3
  | ApproxCmd _ _ _ => 1
  | LowerBoundCmd OneTree _ => 3
  | LowerBoundCmd _ _ => 0
  end.

(** ** The small cases *)
Definition fin_solution (r : res (solution EZ)) : Prop := exists z p, r = Ok (Fin z, p).

Lemma exact_small n w a : n < cities_needed (ExactCmd a SingleThreaded) ->
  exact_solver a (int_matrix n w) = Panic \/ exists p, exact_solver a (int_matrix n w) = Ok (PInf : C EZ, p).
Proof.
  intros H. destruct a; cbn in H; destruct n as [|[|[|n]]]; try lia;
    first [left; reflexivity | right; eexists; reflexivity].
Qed.

Lemma exact_large n w a : symmetric w n -> nonneg w n -> cities_needed (ExactCmd a SingleThreaded) <= n -> fin_solution (exact_solver a (int_matrix n w)).
Proof.
  intros Hs Hnn H. destruct a; cbn in H; cbn [exact_solver].
  - destruct (C01_naive_optimal n w H) as (c & p & E & _). exists c, p. assumption.
  - destruct (C02_first_optimal_partial n w H Hs) as (c & p & E & _). exists c, p. assumption.
  - destruct (C03_second_optimal n w H) as (c & p & E & _). exists c, p. assumption.
  - destruct (C04_third_optimal n w H Hnn) as (c & p & E & _). exists c, p. assumption.
  - destruct (C05_fourth_tour_partial n w H) as (c & p & E & _). exists c, p. assumption.
  - destruct (C07_fifth_factor_two n w H Hs Hnn) as (c & p & E & _). exists c, p. assumption.
  - destruct (C08_sixth_tour_any_hash n w fx_hash H) as (c & p & E & _). exists c, p. unfold sixth_improved_solver. exact E.
Qed.

Lemma int_matrix_2 w : (forall i, i < 2 -> w i i = 0%Z) -> int_matrix 2 w = int_matrix 2 (table [[0%Z; w 0 1]; [w 1 0; 0%Z]]).
Proof.
  intros H. pose proof (H 0 ltac:(lia)) as H0. pose proof (H 1 ltac:(lia)) as H1. unfold int_matrix, matrix_of. cbn. rewrite H0, H1. reflexivity.
Qed.

Lemma one_tree_small n w : (forall i, i < n -> w i i = 0%Z) -> n < 3 ->
  one_tree_lower_bound_seq (int_matrix n w) = Panic \/ one_tree_lower_bound_seq (int_matrix n w) = Ok (PInf : C EZ).
Proof.
  intros Hd H. destruct n as [|[|[|n]]]; [left; reflexivity|left; reflexivity|right|lia].
  rewrite (int_matrix_2 w Hd). apply (proj1 C23_small).
Qed.

(** The lower bound alone, or after another result. *)
Lemma bound_cases wd g n w a initialized : document (N := EZ) Fin g n w -> nonneg w n ->
  (cities_needed (LowerBoundCmd a SingleThreaded) <= n ->
     exists b, lower_bound_run wd initialized 1 a SingleThreaded (Some g) = mkOut [[bound_line a (Fin b : C EZ)]] Done) /\
  (n < cities_needed (LowerBoundCmd a SingleThreaded) ->
     lower_bound_run wd initialized 1 a SingleThreaded (Some g) = mkOut [[]] Panicked \/
     lower_bound_run wd initialized 1 a SingleThreaded (Some g) = mkOut [[OneTreeBound (PInf : C EZ)]] Done).
Proof.
  intros Hd Hnn. assert (Hs : symmetric w n) by apply Hd. unfold lower_bound_run. rewrite (int_document _ _ _ Hd). split; intros H.
  - destruct a; cbn in H.
    + destruct (C23_one_tree_value n w H Hs) as (c & E & _). exists c. rewrite E. reflexivity.
    + destruct n as [|n].
      { exists 0%Z. reflexivity. }
      destruct (C22_mst_below_every_tour (S n) w (w_menv wd) 0 (w_pick wd) ltac:(lia) Hs Hnn ltac:(lia)) as (c & E & _).
      exists c. unfold mst_bound in E. change SEQ_COMPUTATION with 0. destruct (prim (w_menv wd) 0 (int_matrix (S n) w)) as [t| |]; [|discriminate|discriminate].
      cbn [bind] in E. assert (E' : undirected_edge_weight t = (Fin c : C EZ)) by congruence. cbn [finish]. rewrite E'. reflexivity.
    + destruct n as [|n].
      { exists 0%Z. reflexivity. }
      destruct (C22_mst_below_every_tour (S n) w (w_menv wd) 0 (w_pick wd) ltac:(lia) Hs Hnn ltac:(lia)) as (c & _ & E & _).
      exists c. unfold mst_queue_bound in E. destruct (prim_with_excluded_node_priority_queue (w_pick wd) (int_matrix (S n) w) []) as [t| |]; [|discriminate|discriminate].
      cbn [bind] in E. assert (E' : undirected_edge_weight t = (Fin c : C EZ)) by congruence. cbn [finish]. rewrite E'. reflexivity.
  - destruct a; cbn in H; [|lia|lia]. destruct (one_tree_small n w ltac:(apply Hd) H) as [E|E]; rewrite E; [left|right]; reflexivity.
Qed.

Lemma chr_large n w debug env fenv mt : 1 <= n -> (debug = true -> is_metric (na_adj (int_matrix n w)) = Ok true) ->
  fin_solution (christofides debug env fenv mt SEQ_COMPUTATION (int_matrix n w)).
Proof.
  intros Hn Hdbg.
  assert (Hget : forall i j, i < na_dim (int_matrix n w) -> j < na_dim (int_matrix n w) -> na_get (int_matrix n w) i j = Ok (Fin (w i j) : C EZ))
    by (intros i j Hi Hj; apply (matrix_of_get n); assumption).
  destruct (C28_sequential _ EZ_ord _ _ debug env fenv mt (matrix_of_wf _ _) Hget ltac:(reflexivity) ltac:(cbn; lia) Hdbg) as (c & p & E & Ht & Hp & Hc).
  change (is_tour n (0 :: p)) in Ht. change (2 <= n -> evaluate_circle (na_adj (int_matrix n w)) (0 :: p) = Ok c) in Hc. destruct (Nat.eq_dec n 1) as [->|Hn1].
  - pose proof (Permutation_length Ht) as Hl. cbn in Hl. destruct p; [|discriminate]. change (Ok (cadd c0 (Fin (w 0 0) : C EZ)) = Ok c) in Hp. exists (Z.add 0 (w 0 0)), [0; 0].
    assert (Ec : c = cadd c0 (Fin (w 0 0) : C EZ)) by congruence. rewrite Ec in E. exact E.
  - specialize (Hc ltac:(lia)).
    rewrite C36_circle_is_tour_cost in Hc; [|rewrite (Permutation_length Ht), seq_length; lia|apply tour_range; assumption].
    injection Hc as <-. eexists. eexists. exact E.
Qed.

(** ** The theorem *)
Definition uses_christofides (cmd : command) : Prop := exists p lb, cmd = ApproxCmd Christofides p lb.

Lemma no_lines (o : outcome EZ) e : o = mkOut [[]] e -> ~ ends_well o.
Proof. intros -> (_ & H & _). apply H. reflexivity. Qed.
Lemma infinite_line (o : outcome EZ) l : In l (lines o) -> ~ finite_line l -> ~ ends_well o.
Proof. intros Hin Hl (_ & _ & H). apply Hl, H, Hin. Qed.
Lemma not_done (o : outcome EZ) : ended o <> Done -> ~ ends_well o.
Proof. intros H (E & _). contradiction. Qed.
Lemma inf_not_finite : ~ exists z, (PInf : C EZ) = Fin z.
Proof. intros (z & H). discriminate. Qed.

(** The second part of an approximation. *)
Lemma then_bound_ends wd g n w before lb initialized : document (N := EZ) Fin g n w -> nonneg w n ->
  before <> [] -> (forall l, In l before -> finite_line l) ->
  (ends_well (then_bound [before] 1 (option_map (fun a => lower_bound_run wd initialized 1 a SingleThreaded (Some g)) lb)) <->
   (lb = Some OneTree -> 3 <= n)).
Proof.
  intros Hd Hnn Hne Hfin. destruct lb as [a|]; cbn [option_map then_bound].
  - destruct (bound_cases wd g n w a initialized Hd Hnn) as [H1 H2].
    destruct (le_lt_dec (cities_needed (LowerBoundCmd a SingleThreaded)) n) as [L|L].
    + destruct (H1 L) as (b & ->). split; [intros _ [= ->]; exact L|]. intros _.
      split; [reflexivity|]. cbn [printed firstn combine map skipn app lines concat].
      unfold lines. cbn [printed concat]. rewrite app_nil_r. split; [intros E; apply app_eq_nil in E; tauto|].
      intros l Hl. apply in_app_or in Hl. destruct Hl as [Hl|[<-|[]]]; [auto|]. destruct a; cbn; eauto.
    + assert (Ha : a = OneTree) by (destruct a; cbn in L; [reflexivity|lia|lia]). subst a. cbn in L. split; [intros H; exfalso|intros H; specialize (H eq_refl); lia].
      destruct (H2 L) as [E|E]; rewrite E in H.
      * destruct H as [H _]. discriminate.
      * destruct H as (_ & _ & H). apply inf_not_finite. apply (H (OneTreeBound (PInf : C EZ))). unfold lines. cbn [printed firstn combine map skipn app concat].
        rewrite app_nil_r. apply in_or_app. right. left. reflexivity.
  - split; [discriminate|]. intros _. split; [reflexivity|]. unfold lines. cbn [printed concat]. rewrite app_nil_r. auto.
Qed.

Theorem C50_exactly : forall wd g n w cmd, document (N := EZ) Fin g n w -> nonneg w n -> single_threaded cmd ->
  exists o, only_outcome wd cmd g o /\
    (ends_well o <-> cities_needed cmd <= n /\ (uses_christofides cmd -> w_debug wd = false \/ triangle w n)).
Proof.
  intros wd g n w cmd Hd Hnn Hst. assert (Hs : symmetric w n) by apply Hd.
  destruct cmd as [a p|a p lb|a p]; cbn in Hst; subst p.
  - exists (finish 1 (exact_solver a (int_matrix n w)) (fun s => mkOut [[BestCost (fst s); BestPermutation (snd s)]] Done)). split.
    { intros o. rewrite (exact_outcomes _ _ _ _ _ _ _ Hd). unfold exact_solved. split.
      - intros (rs & -> & ->). destruct (exact_solver a (int_matrix n w)); reflexivity.
      - intros ->. eexists. split; [reflexivity|]. destruct (exact_solver a (int_matrix n w)); reflexivity. }
    assert (Hu : ~ uses_christofides (ExactCmd a SingleThreaded)) by (intros (p & lb & H); discriminate).
    destruct (le_lt_dec (cities_needed (ExactCmd a SingleThreaded)) n) as [L|L].
    + destruct (exact_large n w a Hs Hnn L) as (z & p & ->). split; [intros _; split; [assumption|tauto]|]. intros _.
      split; [reflexivity|]. split; [discriminate|]. intros l [<-|[<-|[]]]; cbn; eauto.
    + split; [intros H; exfalso|intros [H _]; lia]. destruct (exact_small n w a L) as [E|(p & E)]; rewrite E in H.
      * destruct H as [H _]. discriminate.
      * destruct H as (_ & _ & H). apply inf_not_finite. apply (H (BestCost (PInf : C EZ))). left. reflexivity.
  - exists (approx_run wd a SingleThreaded lb (Some g)). split; [intros o; reflexivity|].
    unfold approx_run. rewrite (int_document _ _ _ Hd). cbn [processes].
    assert (Hc : cities_needed (ApproxCmd a SingleThreaded lb) <= n <-> 1 <= n /\ (lb = Some OneTree -> 3 <= n)).
    { destruct lb as [[]|]; cbn; split; try (intros H; split; [lia|intros; try discriminate; lia]); intros [H1 H2]; try lia. apply H2. reflexivity. }
    rewrite Hc. clear Hc. destruct a.
    + assert (Hu : ~ uses_christofides (ApproxCmd NearestNeighbour SingleThreaded lb)) by (intros (p & l & H); discriminate).
      destruct n as [|n'].
      { split; [intros [H _]; discriminate|]. intros [[H _] _]. lia. }
      set (n := S n') in *. destruct (C26_all_starts n w ltac:(unfold n; lia)) as (c & H & _). destruct (H (w_nnenv wd) 0 ltac:(lia)) as (q & E & _).
      change SEQ_COMPUTATION with 0. rewrite E. cbn [bind finish map fst snd].
      rewrite (then_bound_ends wd g n w _ lb false Hd Hnn); [|discriminate|intros l [<-|[<-|[]]]; cbn; eauto].
      split; [intros H1; split; [split; [unfold n; lia|assumption]|tauto]|tauto].
    + assert (Hu : uses_christofides (ApproxCmd Christofides SingleThreaded lb)) by (exists SingleThreaded, lb; reflexivity).
      destruct n as [|n'].
      { split; [|intros [[H _] _]; lia]. destruct (w_debug wd); intros [H _]; discriminate. }
      set (n := S n') in *. destruct (C37_decides_triangle n w Hs) as [Ht Hf].
      destruct (w_debug wd) eqn:Edbg.
      * destruct (C37_what_is_tested EZ (na_adj (int_matrix n w)) (fun i j => Fin (w i j))) as [[Hb|Hb] _].
        { intros i j Hi Hj. exact (matrix_of_get n (fun i j => Fin (w i j) : C EZ) i j Hi Hj). }
        -- destruct (chr_large n w true (w_menv wd) (w_fillenv wd) (matching_env wd) ltac:(unfold n; lia) ltac:(intros _; assumption)) as (z & q & E).
           rewrite E. cbn [finish fst repeat Nat.sub].
           rewrite (then_bound_ends wd g n w _ lb false Hd Hnn); [|discriminate|intros l [<-|[]]; cbn; eauto].
           split; [intros H1; split; [split; [unfold n; lia|assumption]|intros _; right; apply Ht; assumption]|tauto].
        -- split; [|intros [_ H]; destruct (H Hu) as [H1|H1]; [discriminate|]; apply Hf in Hb; contradiction].
           unfold christofides, christofides_generic. rewrite Hb. intros [H _]. discriminate.
      * destruct (chr_large n w false (w_menv wd) (w_fillenv wd) (matching_env wd) ltac:(unfold n; lia) ltac:(discriminate)) as (z & q & E).
        rewrite E. cbn [finish fst repeat Nat.sub].
        rewrite (then_bound_ends wd g n w _ lb false Hd Hnn); [|discriminate|intros l [<-|[]]; cbn; eauto].
        split; [intros H1; split; [split; [unfold n; lia|assumption]|intros _; left; reflexivity]|tauto].
  - exists (lower_bound_run wd false 1 a SingleThreaded (Some g)). split; [intros o; reflexivity|].
    assert (Hu : ~ uses_christofides (LowerBoundCmd a SingleThreaded)) by (intros (p & lb & H); discriminate).
    destruct (bound_cases wd g n w a false Hd Hnn) as [H1 H2].
    destruct (le_lt_dec (cities_needed (LowerBoundCmd a SingleThreaded)) n) as [L|L].
    + destruct (H1 L) as (b & ->). split; [intros _; split; [assumption|tauto]|]. intros _. split; [reflexivity|]. split; [discriminate|].
      intros l [<-|[]]. destruct a; cbn; eauto.
    + split; [intros H; exfalso|intros [H _]; lia]. destruct (H2 L) as [E|E]; rewrite E in H.
      * destruct H as [H _]. discriminate.
      * destruct H as (_ & _ & H). apply inf_not_finite. apply (H (OneTreeBound (PInf : C EZ))). left. reflexivity.
Qed.
Print Assumptions C50_exactly.

(** The smallest documents, with nearest neighbour in place of christofides, and a document on
    which the condition on the build matters. *)
Example C50_exactly_applies :
  document (N := EZ) Fin [] 0 (fun _ _ => 0%Z) /\
  document (N := EZ) Fin (table_graph 2 (table [[0; 5]; [5; 0]]%Z)) 2 (table [[0; 5]; [5; 0]]%Z) /\
  nonneg (table [[0; 5]; [5; 0]]%Z) 2 /\
  single_threaded (ApproxCmd NearestNeighbour SingleThreaded (Some OneTree)) /\
  document (N := EZ) Fin (table_graph 3 (table [[0;1;9]; [1;0;1]; [9;1;0]]%Z)) 3 (table [[0;1;9]; [1;0;1]; [9;1;0]]%Z) /\
  nonneg (table [[0;1;9]; [1;0;1]; [9;1;0]]%Z) 3 /\ ~ triangle (table [[0;1;9]; [1;0;1]; [9;1;0]]%Z) 3.
Proof.
  split; [apply (table_document 0 (fun _ _ => 0%Z)); [intros i j _ _; reflexivity|reflexivity]|].
  split; [apply table_document; [concrete|]; intros i Hi; do 2 (destruct i as [|i]; [reflexivity|]); lia|].
  split; [concrete|]. split; [reflexivity|].
  split; [apply table_document; [concrete|]; intros i Hi; do 3 (destruct i as [|i]; [reflexivity|]); lia|].
  split; [concrete|]. intros H. specialize (H 0 2 1 ltac:(lia) ltac:(lia) ltac:(lia)). cbn in H. lia.
Qed.
