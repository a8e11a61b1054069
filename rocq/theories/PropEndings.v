(** Property C71: for which commands, sizes of documents and numbers of threads and processes a
    run ends well, decided for every command but Christofides' algorithm with threads (C28). *)
From Coq Require Import ZArith Arith Bool List Permutation Lia.
From Verif Require Import Num NumPos Base Spec SpecFacts Data Precond Mst Par MstPar OneTree Rand Nn Matching Christofides
  Exact Threaded Mpi Cli PrimProofs ConvProofs OneTreeProofs Coverage ThreadedProofs MpiStatic MpiProofs Instances
  PropExact PropMst PropThreaded PropMpi PropNn PropChristofides PropData PropCli PropSmall.
Import ListNotations.

(** ** What is claimed *)
(** At least one thread and one process, and every reduction takes the value of every process once. *)
Definition proper (wd : world) : Prop :=
  1 <= w_threads wd /\ 1 <= w_size wd /\ Permutation (w_order wd) (seq 0 (w_size wd)) /\
  forall r, r < w_size wd -> Permutation (w_nnorder wd r) (seq 0 (w_size wd)).

(** Some run ends well; there are runs, and all end well. *)
Definition may_end_well (wd : world) (cmd : command) (g : graph EZ) : Prop := exists o, run wd cmd (Some g) o /\ ends_well o.
Definition surely_ends_well (wd : world) (cmd : command) (g : graph EZ) : Prop :=
  (exists o, run wd cmd (Some g) o) /\ forall o, run wd cmd (Some g) o -> ends_well o.

(** What a command needs to end well for sure: [n] cities with the distances [w], [w_threads]
    threads, [w_size] processes, and whether debug assertions are compiled in. *)
Definition needs (wd : world) (cmd : command) (n : nat) (w : nat -> nat -> Z) : Prop :=
  let untested := w_debug wd = false \/ triangle w n in
  match cmd with
  | ExactCmd V0 SingleThreaded => 2 <= n
  | ExactCmd V1 SingleThreaded => 3 <= n
  | ExactCmd _ SingleThreaded => 1 <= n
  | ExactCmd _ MultiThreaded => 1 <= n /\ (n = 2 -> 2 <= w_threads wd)
  | ExactCmd V0 MPI => 3 <= n /\ 2 <= w_size wd /\ enough_prefixes n (w_size wd - 1)
  | ExactCmd V1 MPI => 4 <= n /\ w_size wd = 2
  | ExactCmd _ MPI => False
  | ApproxCmd NearestNeighbour MPI lb => w_size wd <= n /\ lb <> Some OneTree
  | ApproxCmd NearestNeighbour _ lb => 1 <= n /\ (lb = Some OneTree -> 3 <= n)
  | ApproxCmd Christofides MPI lb => 2 <= n /\ lb <> Some OneTree /\ untested
  | ApproxCmd Christofides _ lb => 1 <= n /\ (lb = Some OneTree -> 3 <= n) /\ untested
  | LowerBoundCmd OneTree MPI => 3 <= n /\ w_size wd <= n
  | LowerBoundCmd OneTree _ => 3 <= n
  | LowerBoundCmd _ _ => True
  end.
(** What it needs to have a chance to end well: the same, but for the solver whose processes
    compete for the prefixes. *)
Definition chances (wd : world) (cmd : command) (n : nat) (w : nat -> nat -> Z) : Prop :=
  match cmd with
  | ExactCmd V1 MPI => 4 <= n /\ 2 <= w_size wd <= n * (n - 2) ^ 2
  | _ => needs wd cmd n w
  end.

(** ** Outcomes made of equal parts *)
Lemma well_repeat X k e : 1 <= k -> (ends_well (mkOut (repeat X k) e) <-> e = Done /\ X <> [] /\ forall l, In l X -> finite_line l).
Proof.
  intros Hk. unfold ends_well, lines. cbn [printed ended].
  assert (Hin : forall l : line EZ, In l (concat (repeat X k)) <-> In l X).
  { intros l. rewrite in_concat. split.
    - intros (x & Hx & Hl). apply repeat_spec in Hx. congruence.
    - intros Hl. exists X. split; [|assumption]. destruct k; [lia|left; reflexivity]. }
  assert (Hne : concat (repeat X k) <> [] <-> X <> []).
  { split; intros H E; apply H.
    - subst X. clear. induction k as [|k IH]; [reflexivity|exact IH].
    - destruct k; [lia|]. cbn in E. apply app_eq_nil in E. tauto. }
  rewrite Hne. setoid_rewrite Hin. reflexivity.
Qed.

Lemma well_root X k e : ends_well (mkOut (X :: repeat [] k) e) <-> e = Done /\ X <> [] /\ forall l, In l X -> finite_line l.
Proof.
  unfold ends_well, lines. cbn [printed ended concat]. replace (concat (repeat [] k)) with (@nil (line EZ)) by (clear; induction k as [|k IH]; [reflexivity|exact IH]).
  rewrite app_nil_r. reflexivity.
Qed.

Lemma then_repeat (X Y : list (line EZ)) k e : then_bound (repeat X k) k (Some (mkOut (repeat Y k) e)) = mkOut (repeat (X ++ Y) k) e.
Proof.
  unfold then_bound. cbn [printed ended]. rewrite firstn_all2, skipn_all2 by (rewrite repeat_length; lia). rewrite combine_repeat, map_repeat, app_nil_r. reflexivity.
Qed.

(** ** Lower bounds *)
Section Bounds.
Variables (wd : world) (g : graph EZ) (n : nat) (w : nat -> nat -> Z).
Hypothesis Hd : document (N := EZ) Fin g n w.
Hypothesis Hnn : nonneg w n.
Notation m := (int_matrix n w).

(** the value, which depends neither on the threads nor on the processes *)
Definition bound_value (a : lower_bound_algorithm) : res (C EZ) :=
  match a with
  | OneTree => one_tree_lower_bound_seq m
  | MST => t <- prim (w_menv wd) SEQ_COMPUTATION m ;; Ok (undirected_edge_weight t)
  | MSTQueue => t <- prim_with_excluded_node_priority_queue (w_pick wd) m [] ;; Ok (undirected_edge_weight t)
  end.

Lemma bound_form i procs a p : (p = MPI -> a <> OneTree) ->
  lower_bound_run wd i procs a p (Some g) = finish procs (bound_value a) (fun b => mkOut (repeat [bound_line a b] procs) Done).
Proof.
  intros Hp. unfold lower_bound_run. rewrite (int_document _ _ _ Hd). destruct a; cbn [bound_value bound_line].
  - destruct p; [reflexivity| |destruct (Hp eq_refl eq_refl)]. rewrite C24_par_is_seq by exact EZ_ord. reflexivity.
  - rewrite (C20_prim_modes_agree EZ EZ_ord m (w_menv wd) _ SEQ_COMPUTATION); [|apply matrix_of_wf|destruct p; repeat constructor|repeat constructor].
    destruct (prim (w_menv wd) SEQ_COMPUTATION m); reflexivity.
  - destruct (prim_with_excluded_node_priority_queue (w_pick wd) m []); reflexivity.
Qed.

Lemma bound_value_cases a :
  (cities_needed (LowerBoundCmd a SingleThreaded) <= n -> exists b, bound_value a = Ok (Fin b : C EZ)) /\
  (n < cities_needed (LowerBoundCmd a SingleThreaded) -> bound_value a = Panic \/ bound_value a = Ok (PInf : C EZ)).
Proof.
  destruct (bound_cases wd g n w a false Hd Hnn) as [H1 H2]. rewrite (bound_form false 1 a SingleThreaded) in H1, H2 by discriminate. split; intros H.
  - destruct (H1 H) as (b & E). exists b. destruct (bound_value a) as [b'| |]; cbn in E; try discriminate.
    destruct a; cbn in E; injection E as ->; reflexivity.
  - destruct (H2 H) as [E|E]; destruct (bound_value a) as [b'| |]; cbn in E; try discriminate; [left; reflexivity|].
    destruct a; cbn in E; try discriminate. injection E as ->. right. reflexivity.
Qed.

Lemma inf_bound a : ~ finite_line (bound_line a (PInf : C EZ)).
Proof. destruct a; exact inf_not_finite. Qed.
Lemma fin_bound a b : finite_line (bound_line a (Fin b : C EZ)).
Proof. destruct a; cbn; eauto. Qed.
Lemma needed_bound a : cities_needed (LowerBoundCmd a SingleThreaded) <= n <-> (a = OneTree -> 3 <= n).
Proof. destruct a; cbn; split; intros H; try discriminate; try lia; auto; intros; lia. Qed.

(** a bound alone *)
Lemma bound_alone i procs a p : 1 <= procs -> (p = MPI -> a <> OneTree) ->
  (ends_well (lower_bound_run wd i procs a p (Some g)) <-> (a = OneTree -> 3 <= n)).
Proof.
  intros Hk Hp. rewrite bound_form by assumption. rewrite <- needed_bound. destruct (bound_value_cases a) as [H1 H2].
  destruct (le_lt_dec (cities_needed (LowerBoundCmd a SingleThreaded)) n) as [L|L].
  - destruct (H1 L) as (b & ->). cbn [finish]. rewrite well_repeat by assumption. split; [intros _; assumption|]. intros _.
    split; [reflexivity|]. split; [discriminate|]. intros l [<-|[]]. apply fin_bound.
  - split; [|lia]. destruct (H2 L) as [E|E]; rewrite E; cbn [finish].
    + intros [H _]. discriminate.
    + rewrite well_repeat by assumption. intros (_ & _ & H). destruct (inf_bound a (H _ (or_introl eq_refl))).
Qed.

(** a bound after the lines [X] of every process, and after those of the first process only *)
Lemma bound_after procs X lb p i : 1 <= procs -> X <> [] -> (forall l, In l X -> finite_line l) -> (p = MPI -> i = true) ->
  (ends_well (then_bound (repeat X procs) procs (option_map (fun a => lower_bound_run wd i procs a p (Some g)) lb)) <->
   (lb = Some OneTree -> p <> MPI /\ 3 <= n)).
Proof.
  intros Hk HX Hfin Hi. destruct lb as [a|]; cbn [option_map].
  - destruct (match p, a with MPI, OneTree => true | _, _ => false end) eqn:Ec.
    + destruct p; try discriminate. destruct a; try discriminate. rewrite (Hi eq_refl).
      unfold lower_bound_run. rewrite (int_document _ _ _ Hd). rewrite then_repeat. rewrite well_repeat by assumption.
      split; [intros [H _]; discriminate|]. intros H. destruct (H eq_refl) as [H' _]. destruct (H' eq_refl).
    + assert (Hp : p = MPI -> a <> OneTree) by (intros -> ->; discriminate). rewrite bound_form by assumption.
      assert (En : (Some a = Some OneTree -> p <> MPI /\ 3 <= n) <-> cities_needed (LowerBoundCmd a SingleThreaded) <= n).
      { rewrite needed_bound. split.
        - intros H ->. apply (H eq_refl).
        - intros H [= ->]. split; [intros E; destruct (Hp E eq_refl)|auto]. }
      rewrite En. destruct (bound_value_cases a) as [H1 H2].
      destruct (le_lt_dec (cities_needed (LowerBoundCmd a SingleThreaded)) n) as [L|L].
      * destruct (H1 L) as (b & ->). cbn [finish]. rewrite then_repeat, well_repeat by assumption. split; [intros _; assumption|]. intros _.
        split; [reflexivity|]. split; [intros E; apply app_eq_nil in E; tauto|]. intros l Hl. apply in_app_or in Hl. destruct Hl as [Hl|[<-|[]]]; [auto|apply fin_bound].
      * split; [|lia]. destruct (H2 L) as [E|E]; rewrite E; cbn [finish]; rewrite then_repeat, well_repeat by assumption.
        -- intros [H _]. discriminate.
        -- intros (_ & _ & H). destruct (inf_bound a (H _ ltac:(apply in_or_app; right; left; reflexivity))).
  - cbn [then_bound]. rewrite well_repeat by assumption. split; [discriminate|]. auto.
Qed.

Lemma bound_after_root k X lb p i : X <> [] -> (forall l, In l X -> finite_line l) -> (p = MPI -> i = true) ->
  (ends_well (then_bound (X :: repeat [] k) 1 (option_map (fun a => lower_bound_run wd i 1 a p (Some g)) lb)) <->
   (lb = Some OneTree -> p <> MPI /\ 3 <= n)).
Proof.
  intros HX Hfin Hi. rewrite <- (bound_after 1 X lb p i ltac:(lia) HX Hfin Hi). cbn [repeat].
  assert (Hsplit : forall o : option (outcome EZ), (forall o', o = Some o' -> exists Y, printed o' = [Y]) ->
    exists Y e, then_bound (X :: repeat [] k) 1 o = mkOut (Y :: repeat [] k) e /\ then_bound [X] 1 o = mkOut (Y :: repeat [] 0) e).
  { intros [[pr e]|] H; [|exists X, Done; split; reflexivity]. destruct (H _ eq_refl) as (Y & E). cbn in E. subst pr. exists (X ++ Y), e. split; reflexivity. }
  destruct (Hsplit (option_map (fun a => lower_bound_run wd i 1 a p (Some g)) lb)) as (Y & e & E1 & E2).
  { intros o' E. destruct lb as [a|]; [|discriminate]. injection E as <-.
    destruct (match p, a with MPI, OneTree => true | _, _ => false end) eqn:Ec.
    - destruct p; try discriminate. destruct a; try discriminate. rewrite (Hi eq_refl).
      unfold lower_bound_run. rewrite (int_document _ _ _ Hd). eexists. reflexivity.
    - rewrite bound_form by (intros -> ->; discriminate). destruct (bound_value a); eexists; reflexivity. }
  rewrite E1, E2, !well_root. reflexivity.
Qed.

(** the 1-tree bound by several processes *)
Lemma mapM_panic {A B} (f : A -> res B) l : (forall x, In x l -> f x = Panic) -> l <> [] -> mapM f l = Panic.
Proof. intros H Hl. destruct l as [|x l]; [contradiction|]. cbn [mapM]. rewrite H by (left; reflexivity). reflexivity. Qed.

Lemma bound_mpi : proper wd ->
  (ends_well (lower_bound_run wd false (w_size wd) OneTree MPI (Some g)) <-> 3 <= n /\ w_size wd <= n).
Proof.
  intros (_ & Hs & Ho & _). unfold lower_bound_run. rewrite (int_document _ _ _ Hd).
  assert (Hsmall : n < 3 -> one_tree_lower_bound_mpi (w_order wd) (w_tree wd) m (w_size wd) = Panic \/
    exists r, one_tree_lower_bound_mpi (w_order wd) (w_tree wd) m (w_size wd) = Ok ((PInf : C EZ) :: r)).
  { intros Hlt. assert (Hne : w_order wd <> []).
    { intros E. rewrite E in Ho. apply Permutation_length in Ho. rewrite seq_length in Ho. cbn in Ho. lia. }
    destruct (Nat.eq_dec n 2) as [->|Hn2].
    - assert (Hdiag : forall i, i < 2 -> w i i = 0%Z) by apply Hd.
      assert (Hw : forall s, s < na_dim (int_matrix 2 w) -> exists x, one_tree_weight (int_matrix 2 w) s = Ok x /\ cnan x = false).
      { rewrite (int_matrix_2 w Hdiag). intros s Hs'. cbn in Hs'. exists (PInf : C EZ). split; [|reflexivity]. destruct s as [|[|s]]; [vm_compute; reflexivity|vm_compute; reflexivity|lia]. }
      destruct (le_lt_dec (w_size wd) 2) as [Hle|Hgt].
      + right. destruct (C24_mpi_maximum EZ EZ_ord (int_matrix 2 w) (w_order wd) (w_tree wd) (w_size wd) Hw ltac:(cbn; lia) Ho) as (M & M' & E & E' & _ & Hle').
        rewrite (int_matrix_2 w Hdiag) in E'. rewrite (proj1 C23_small) in E'. injection E' as <-. eexists. rewrite E. destruct M; try discriminate. reflexivity.
      + left. apply mpi_bound_too_many; [exact Hw|exact Hgt|exact Ho].
    - left. unfold one_tree_lower_bound_mpi. rewrite mapM_panic; [reflexivity| |assumption].
      intros r Hr. apply (Permutation_in _ Ho), in_seq in Hr. unfold local_lower_bound. change (na_dim m) with n.
      destruct n as [|[|n']]; [| |lia].
      + unfold stepped. cbn [Nat.sub seq filter]. reflexivity.
      + destruct r as [|r].
        * unfold stepped. cbn [Nat.sub seq filter]. rewrite Nat.mod_0_l by lia. cbn [Nat.eqb mapM]. reflexivity.
        * unfold stepped. cbn [Nat.sub seq filter]. reflexivity. }
  destruct (le_lt_dec 3 n) as [L|L].
  - destruct (le_lt_dec (w_size wd) n) as [L'|L'].
    + destruct (C24_mpi_is_seq n w (w_order wd) (w_tree wd) (w_size wd) L ltac:(lia) Ho) as (c & _ & E). rewrite E. cbn [finish].
      replace (map (fun _ => []) (repeat (PInf : C EZ) (w_size wd - 1))) with (repeat (@nil (line EZ)) (w_size wd - 1)) by (rewrite map_repeat; reflexivity).
      rewrite well_root. split; [auto|]. intros _. split; [reflexivity|]. split; [discriminate|]. intros l [<-|[]]. cbn. eauto.
    + rewrite (C24_too_many_processes n w (w_order wd) (w_tree wd) (w_size wd) L L' Ho). cbn [finish]. split; [intros [H _]; discriminate|lia].
  - split; [|lia]. destruct (Hsmall L) as [E|(r & E)]; rewrite E; cbn [finish].
    + intros [H _]. discriminate.
    + intros (_ & _ & H). destruct inf_not_finite. apply (H (OneTreeBound (PInf : C EZ))). left. reflexivity.
Qed.
End Bounds.

(** ** The exact solvers *)
Lemma sure_one wd cmd g o : only_outcome wd cmd g o -> (surely_ends_well wd cmd g <-> ends_well o) /\ (may_end_well wd cmd g <-> ends_well o).
Proof.
  intros H. split; split.
  - intros [_ Ha]. apply Ha, H. reflexivity.
  - intros Hw. split; [exists o; apply H; reflexivity|]. intros o' Ho'. apply H in Ho'. subst o'. assumption.
  - intros (o' & Ho' & Hw). apply H in Ho'. subst o'. assumption.
  - intros Hw. exists o. split; [apply H; reflexivity|assumption].
Qed.

Lemma never wd cmd g : (forall o, run wd cmd (Some g) o -> ~ ends_well o) -> ~ surely_ends_well wd cmd g /\ ~ may_end_well wd cmd g.
Proof.
  intros H. split.
  - intros [(o & Ho) Ha]. exact (H o Ho (Ha o Ho)).
  - intros (o & Ho & Hw). exact (H o Ho Hw).
Qed.

Lemma always wd cmd g : (exists o, run wd cmd (Some g) o) -> (forall o, run wd cmd (Some g) o -> ends_well o) ->
  surely_ends_well wd cmd g /\ may_end_well wd cmd g.
Proof. intros (o & Ho) Ha. split; [split; [eauto|assumption]|]. exists o. auto. Qed.

Lemma solution_well c p k : 1 <= k -> ends_well (mkOut (repeat [BestCost (Fin c : C EZ); BestPermutation p] k) Done).
Proof. intros Hk. apply well_repeat; [assumption|]. split; [reflexivity|]. split; [discriminate|]. intros l [<-|[<-|[]]]; cbn; eauto. Qed.

(** an outcome that ends well comes from solvers that return finite costs *)
Lemma well_solved wd g n w a p o : document (N := EZ) Fin g n w -> run wd (ExactCmd a p) (Some g) o -> ends_well o ->
  exists sols, exact_solved wd a p (int_matrix n w) (Ok sols) /\ sols <> [] /\ forall s, In s sols -> exists z, fst s = (Fin z : C EZ).
Proof.
  intros Hd Ho Hw. apply (exact_outcomes _ _ _ _ _ _ _ Hd) in Ho. destruct Ho as (rs & Hs & ->). destruct rs as [sols| |]; cbn [finish] in Hw.
  - exists sols. split; [assumption|]. destruct Hw as (_ & Hne & Hf). unfold lines in *. cbn [printed] in *. split.
    + intros ->. apply Hne. reflexivity.
    + intros s Hin. apply (Hf (BestCost (fst s))). apply in_concat. eexists. split; [apply in_map_iff; exists s; split; [reflexivity|assumption]|left; reflexivity].
  - destruct Hw as [H _]. discriminate.
  - destruct Hw as [H _]. discriminate.
Qed.

Section Solvers.
Variables (wd : world) (g : graph EZ) (n : nat) (w : nat -> nat -> Z).
Hypothesis Hd : document (N := EZ) Fin g n w.
Hypothesis Hnn : nonneg w n.
Hypothesis Hwd : proper wd.
Notation m := (int_matrix n w).

Lemma Hs : symmetric w n. Proof. apply Hd. Qed.

Lemma threads_end a :
  (surely_ends_well wd (ExactCmd a MultiThreaded) g <-> 1 <= n /\ (n = 2 -> 2 <= w_threads wd)) /\
  (may_end_well wd (ExactCmd a MultiThreaded) g <-> 1 <= n /\ (n = 2 -> 2 <= w_threads wd)).
Proof.
  destruct Hwd as (Ht & _). destruct (le_lt_dec 3 n) as [L|L].
  { destruct (C45_threads_partial wd g n w a Hd L Hnn Ht) as [He Ha].
    destruct (always wd (ExactCmd a MultiThreaded) g He) as [H1 H2].
    { intros o Ho. destruct (Ha o Ho) as (c & p & -> & _). apply (solution_well c p 1). lia. }
    split; (split; [intros _; split; lia|intros _; assumption]). }
  assert (Hrun : forall o, run wd (ExactCmd a MultiThreaded) (Some g) o <->
    exists rs, ((exists s, threaded_result m 3 (w_threads wd) s /\ rs = Ok [s]) \/
      (if n <=? w_threads wd then fifth_improved_solver m = Panic else tinit m 3 (w_threads wd) = Panic) /\ rs = Panic) /\
      o = finish 1 rs (fun sols => mkOut (map (fun s => [BestCost (fst s); BestPermutation (snd s)]) sols) Done)).
  { intros o. exact (exact_outcomes wd g n w a MultiThreaded o Hd). }
  unfold threaded_result in Hrun. change (na_dim m) with n in Hrun.
  destruct (Nat.eq_dec n 0) as [E0|N0].
  { destruct (never wd (ExactCmd a MultiThreaded) g) as [H1 H2].
    { intros o Ho. apply Hrun in Ho. destruct Ho as (rs & Hrs & ->). replace (n <=? w_threads wd) with true in Hrs by (symmetry; apply Nat.leb_le; lia).
      destruct (exact_small n w V5 ltac:(cbn; lia)) as [E|(p & E)]; cbn [exact_solver] in E; rewrite E in Hrs; destruct Hrs as [(s & Es & ->)|[Es ->]]; try discriminate.
      - intros [H _]. discriminate.
      - injection Es as <-. intros (_ & _ & H). apply inf_not_finite. apply (H (BestCost (PInf : C EZ))). left. reflexivity. }
    split; (split; [intros H; contradiction|lia]). }
  destruct (le_lt_dec n (w_threads wd)) as [Lt|Lt].
  { destruct (exact_large n w V5 Hs Hnn ltac:(cbn; lia)) as (z & p & E). cbn [exact_solver] in E.
    replace (n <=? w_threads wd) with true in Hrun by (symmetry; apply Nat.leb_le; lia). rewrite E in Hrun.
    assert (Ho : only_outcome wd (ExactCmd a MultiThreaded) g (mkOut (repeat [BestCost (Fin z : C EZ); BestPermutation p] 1) Done)).
    { intros o. rewrite Hrun. split.
      - intros (rs & [(s & Es & ->)|[Es ->]] & ->); [|discriminate]. injection Es as <-. reflexivity.
      - intros ->. eexists. split; [left; eexists; split; reflexivity|reflexivity]. }
    destruct (sure_one _ _ _ _ Ho) as [H1 H2]. rewrite H1, H2. pose proof (solution_well z p 1 ltac:(lia)). split; (split; [intros _; split; lia|intros _; assumption]). }
  assert (E2 : n = 2) by lia. assert (E1 : w_threads wd = 1) by lia. rewrite E1 in Hrun. clear L N0 Lt.
  destruct (never wd (ExactCmd a MultiThreaded) g) as [H1 H2].
  { intros o Ho. apply Hrun in Ho. destruct Ho as (rs & Hrs & ->). rewrite E2 in Hrs. cbn [Nat.leb] in Hrs.
    assert (Et : tinit (int_matrix 2 w) 3 1 = Ok ((PInf : C EZ, []), [[]])) by (vm_compute; reflexivity). rewrite Et in Hrs.
    destruct Hrs as [(s & (c0 & c & Ec & Hst & _ & ->) & ->)|[Es ->]]; [|discriminate]. injection Ec as <-.
    assert (Hc : forall c0 c1, tsteps (int_matrix 2 w) c0 c1 -> c0 = ((PInf : C EZ, []), [[]]) -> c1 = c0).
    { intros c0 c1 H Ec0. induction H as [c1|c1 c' c'' _ IH Hstep]; [reflexivity|]. specialize (IH Ec0). rewrite IH, Ec0 in Hstep. exfalso.
      inversion Hstep as [gl b p r af res Hw Hg Hr]. match goal with H : _ ++ _ :: _ = [[]] |- _ => rename H into Ha end. destruct b as [|x [|y b]]; discriminate Ha. }
    rewrite (Hc _ _ Hst eq_refl). cbn [fst finish map]. intros (_ & _ & H). apply inf_not_finite. apply (H (BestCost (PInf : C EZ))). left. reflexivity. }
  split; (split; [intros H; contradiction|intros [_ H]; specialize (H E2); lia]).
Qed.

(** the solver with a fixed share of the prefixes *)
Lemma static_small sols : n < 3 -> 2 <= w_size wd -> ~ static_result m 3 (w_size wd) (Ok sols).
Proof.
  intros Hn Hsz Hr. destruct (le_lt_dec (n ^ 3) (w_size wd - 1)) as [Hbig|Hlt].
  { pose proof (C16_too_many_workers_panic EZ m 3 (w_size wd) (Ok sols) Hsz Hbig Hr). discriminate. }
  destruct n as [|n0] eqn:En; [cbn in Hlt; lia|]. rewrite <- En in *. clear n0 En. assert (H1 : 1 <= n) by (destruct n; [cbn in Hlt; lia|lia]).
  destruct (static_todo_Ok m H1 3 (w_size wd - 1) Hlt) as (todo & Et & _ & Hch). unfold static_result in Hr. rewrite Et in Hr. destruct Hr as (c & Hc & Hdn & Er).
  assert (E0 : nth 0 todo [] = []).
  { destruct (nth 0 todo []) as [|p l] eqn:E; [reflexivity|exfalso].
    destruct (todo_ok m H1 3 (w_size wd - 1) Hlt todo Et 0 p ltac:(lia) ltac:(rewrite E; left; reflexivity)) as (Hnd & Hr & Hl).
    assert (Hincl : incl p (seq 0 n)) by (intros x Hx; rewrite Forall_forall in Hr; specialize (Hr x Hx); apply in_seq; cbn in Hr; lia).
    pose proof (NoDup_incl_length Hnd Hincl) as Hle. rewrite seq_length in Hle. lia. }
  pose proof (idle_worker m (w_size wd - 1) todo c 0 E0 Hc) as Hidle.
  destruct (C15_least_reported_wins EZ EZ_ord EZ_pos m 3 (w_size wd - 1) todo c H1 (matrix_of_wf _ _) (int_nonneg n w Hnn) ltac:(cbn [na_dim m int_matrix matrix_of]; lia) Et Hc Hdn)
    as (_ & _ & [[H _]|(j & _ & _ & H)]); [congruence|].
  destruct (H 0 ltac:(lia)) as (H2 & _). rewrite Hidle in H2. apply (tour_length n) in H2. cbn in H2. lia.
Qed.

Lemma static_end :
  (surely_ends_well wd (ExactCmd V0 MPI) g <-> 3 <= n /\ 2 <= w_size wd /\ enough_prefixes n (w_size wd - 1)) /\
  (may_end_well wd (ExactCmd V0 MPI) g <-> 3 <= n /\ 2 <= w_size wd /\ enough_prefixes n (w_size wd - 1)).
Proof.
  pose proof Hwd as (_ & Hsz & _).
  assert (Hnot : ~ (3 <= n /\ 2 <= w_size wd) -> forall o, run wd (ExactCmd V0 MPI) (Some g) o -> ~ ends_well o).
  { intros Hno o Ho Hw. destruct (well_solved _ _ _ _ _ _ _ Hd Ho Hw) as (sols & Hsol & Hne & Hfin). cbn [exact_solved] in Hsol.
    destruct Hsol as [Hsol|(todo & c & _ & _ & [[_ H]|(_ & _ & _ & H)])]; [|discriminate|discriminate].
    destruct (Nat.eq_dec (w_size wd) 1) as [E1|N1].
    - rewrite E1 in Hsol. apply C16_single_process_refuted in Hsol. injection Hsol as ->. destruct (Hfin _ (or_introl eq_refl)) as (z & Hz). discriminate.
    - apply (static_small sols); [lia|lia|assumption]. }
  destruct (le_lt_dec 3 n) as [L|L]; [destruct (le_lt_dec 2 (w_size wd)) as [L2|L2]|].
  - destruct (C45_mpi_v0_exactly wd g n w Hd L Hnn L2) as [He Ha].
    assert (Hdec : enough_prefixes n (w_size wd - 1) \/ ~ enough_prefixes n (w_size wd - 1)) by (unfold enough_prefixes; lia). destruct Hdec as [Hy|Hno].
    + destruct (always _ _ _ He) as [H1 H2].
      { intros o Ho. destruct (proj1 (Ha o Ho) Hy) as (c & p & -> & _). apply solution_well. lia. }
      split; (split; [intros _; auto|intros _; assumption]).
    + destruct (never wd (ExactCmd V0 MPI) g) as [H1 H2].
      { intros o Ho. rewrite (proj2 (Ha o Ho) Hno). intros [H _]. discriminate. }
      split; (split; [intros H; contradiction|tauto]).
  - destruct (never _ _ _ (Hnot ltac:(lia))) as [H1 H2]. split; (split; [intros H; contradiction|lia]).
  - destruct (never _ _ _ (Hnot ltac:(lia))) as [H1 H2]. split; (split; [intros H; contradiction|lia]).
Qed.

(** the solver whose processes compete: the first prefix is [1; 2; 3], whatever the number of
    cities *)
Lemma first_prefix_panics g0 : n < 4 -> mpi_work m [1; 2; 3] g0 = Panic.
Proof. intros Hn. destruct n as [|[|[|[|n']]]]; try lia; vm_compute; reflexivity. Qed.

Definition before_first (c : dconfig EZ) : Prop :=
  d_current c = Some [1; 2; 3] /\ d_waiting c = 0 /\ d_barrier c = false /\
  forall i, (d_worker c i = DStart \/ exists l, d_worker c i = DWait [] l) /\ d_down c i = [] /\ forall msg, In msg (d_up c i) -> snd msg = S i.
Definition stuck_at (i : nat) (c : dconfig EZ) : Prop :=
  (exists h l g0, d_worker c i = DWork h l [1; 2; 3] g0) \/
  ((forall h l, d_worker c i <> DBar h l) /\ exists g0 rest, d_down c i = (g0, [1; 2; 3]) :: rest).

Lemma dynamic_stuck workers c : n < 4 -> 1 <= workers -> steps (dstep workers n (mpi_work m)) dinit c ->
  before_first c \/ exists i, i < workers /\ stuck_at i c.
Proof.
  intros Hn Hw H. remember (@dinit EZ) as c0 eqn:E0. induction H as [c|c c' c'' _ IH Hst].
  { subst c. left. repeat split; auto. intros msg []. }
  specialize (IH E0). clear c E0. destruct IH as [(Hcur & Hwait & Hbar & Hall)|(i & Hi & Hi')].
  - inversion Hst as [w0 f cur b st up down i Hlt Est|w0 f cur b st up down i h l g0 p rest Hlt Est Edown Hz|w0 f cur b st up down i h l g0 p rest Hlt Est Edown Hz
      |w0 f cur b st up down i h l p g0 r Hlt Est Ew|w0 f st up down i x rk rest p cur' Hf Hlt Eup Enext|w0 f st up down i x rk rest Hf Hlt Eup|w0 f cur st up down Hf];
      subst; cbn [d_current d_waiting d_barrier d_worker d_down d_up] in *; try (destruct (Hall i) as (_ & Hdn & _); congruence); try discriminate; try lia.
    + left. split; [assumption|]. split; [assumption|]. split; [assumption|]. intros j. destruct (Hall j) as (H1 & H2 & H3). cbn [d_worker d_up d_down]. unfold fupd. destruct (Nat.eqb_spec j i) as [->|Nj].
      * split; [right; eexists; reflexivity|]. split; [assumption|]. intros msg Hin. apply in_app_or in Hin. destruct Hin as [Hin|[<-|[]]]; [auto|reflexivity].
      * auto.
    + destruct (Hall i) as ([E|(l' & E)] & _); congruence.
    + injection Hcur as ->. right. destruct (Hall i) as (Hsti & Hdi & Hup). rewrite Eup in Hup. specialize (Hup _ (or_introl eq_refl)). cbn in Hup. subst rk.
      exists i. split; [assumption|]. right. cbn [d_worker d_down]. split; [intros h l E; destruct Hsti as [E'|(l' & E')]; congruence|].
      replace (S i - 1) with i by lia. unfold fupd. rewrite Nat.eqb_refl, Hdi. eexists. eexists. reflexivity.
  - right. exists i. split; [assumption|]. destruct Hi' as [(h & l & g0 & E)|(Hnb & g0 & rest & E)].
    + left. inversion Hst; subst; cbn [d_worker] in *; unfold fupd; try (destruct (Nat.eqb_spec i i0) as [->|Ni]; [|eauto]; try congruence); try eauto.
      assert (p = [1; 2; 3]) by congruence. subst p. match goal with H : mpi_work _ _ _ = Ok _ |- _ => rewrite first_prefix_panics in H by assumption; discriminate H end.
    + inversion Hst as [w0 f cur b st up down i' Hlt Est|w0 f cur b st up down i' h l g1 p rest' Hlt Est Edown Hz|w0 f cur b st up down i' h l g1 p rest' Hlt Est Edown Hz
        |w0 f cur b st up down i' h l p g1 r Hlt Est Ew|w0 f st up down i' x rk rest' p cur' Hf Hlt Eup Enext|w0 f st up down i' x rk rest' Hf Hlt Eup|w0 f cur st up down Hf];
        subst; cbn [d_worker d_down] in *; unfold stuck_at; cbn [d_worker d_down]; unfold fupd.
      * right. split; [intros h l; destruct (Nat.eqb_spec i i'); [discriminate|apply Hnb]|eauto].
      * destruct (Nat.eqb_spec i i') as [->|Ni]; [|right; split; [assumption|eauto]]. left. rewrite E in Edown. injection Edown as <- <- <-. eauto.
      * destruct (Nat.eqb_spec i i') as [->|Ni]; [|right; split; [assumption|eauto]]. rewrite E in Edown. injection Edown as <- <- <-. discriminate.
      * right. split; [intros h' l'; destruct (Nat.eqb_spec i i'); [discriminate|apply Hnb]|eauto].
      * right. split; [assumption|]. destruct (Nat.eqb_spec i (rk - 1)) as [->|Ni]; [rewrite E; eexists; eexists; reflexivity|eauto].
      * right. split; [assumption|]. destruct (Nat.eqb_spec i (rk - 1)) as [->|Ni]; [rewrite E; eexists; eexists; reflexivity|eauto].
      * right. split; [assumption|eauto].
Qed.

Lemma dynamic_small sols : n < 4 -> 2 <= w_size wd -> ~ dynamic_result m (w_size wd) (Ok sols).
Proof.
  intros Hn Hsz (c & Hc & (Hb & Hall) & _). change (na_dim m) with n in Hc.
  destruct (dynamic_stuck (w_size wd - 1) c Hn ltac:(lia) Hc) as [(_ & _ & H & _)|(i & Hi & H)]; [congruence|].
  destruct (Hall i Hi) as (h & l & E). destruct H as [(h' & l' & g0 & E')|[Hnb _]]; [congruence|]. exact (Hnb h l E).
Qed.

Lemma dynamic_end :
  (surely_ends_well wd (ExactCmd V1 MPI) g <-> 4 <= n /\ w_size wd = 2) /\
  (may_end_well wd (ExactCmd V1 MPI) g <-> 4 <= n /\ 2 <= w_size wd <= n * (n - 2) ^ 2).
Proof.
  pose proof Hwd as (_ & Hsz & _).
  assert (Hnot : ~ (4 <= n /\ 2 <= w_size wd) -> forall o, run wd (ExactCmd V1 MPI) (Some g) o -> ~ ends_well o).
  { intros Hno o Ho Hw. destruct (well_solved _ _ _ _ _ _ _ Hd Ho Hw) as (sols & Hsol & Hne & Hfin). cbn [exact_solved] in Hsol.
    destruct Hsol as [Hsol|(c & _ & [[_ H]|(_ & _ & _ & H)])]; [|discriminate|discriminate].
    destruct (Nat.eq_dec (w_size wd) 1) as [E1|N1].
    - rewrite E1 in Hsol. apply C17_single_process_refuted in Hsol. injection Hsol as ->. destruct (Hfin _ (or_introl eq_refl)) as (z & Hz). discriminate.
    - apply (dynamic_small sols); [lia|lia|assumption]. }
  destruct (le_lt_dec 4 n) as [L|L]; [destruct (le_lt_dec 2 (w_size wd)) as [L2|L2]|].
  - destruct (C45_mpi_v1_exactly wd g n w Hd L Hnn) as (H1 & H2 & H3 & H4). destruct (C45_mpi_v1_partial wd g n w Hd L Hnn L2) as [He _].
    assert (Hret : forall o, (exists c p, o = mkOut (repeat [BestCost (Fin c : C EZ); BestPermutation p] (w_size wd)) Done /\
      is_tour n p /\ tour_cost w p = c /\ forall q, is_tour n q -> (c <= 2 * tour_cost w q)%Z) -> ends_well o).
    { intros o (c & p & -> & _). apply solution_well. lia. }
    split; split.
    + intros [_ Ha]. split; [assumption|]. destruct (Nat.eq_dec (w_size wd) 2) as [|N2]; [assumption|exfalso].
      destruct (H2 ltac:(lia)) as (o & Ho & Hp). destruct (Ha o Ho) as [H _]. rewrite Hp in H. discriminate.
    + intros [_ E2]. split; [exact He|]. intros o Ho. apply Hret, H1; assumption.
    + intros (o & Ho & Hw). split; [assumption|]. split; [assumption|]. destruct (le_lt_dec (w_size wd) (n * (n - 2) ^ 2)) as [|Lg]; [assumption|exfalso].
      specialize (H4 Lg o Ho). cbn in H4. rewrite H4 in Hw. destruct Hw as [H _]. discriminate.
    + intros [_ Hr]. destruct (H3 Hr) as (o & Ho & Hr'). exists o. split; [assumption|]. apply Hret. assumption.
  - destruct (never _ _ _ (Hnot ltac:(lia))) as [H1 H2]. split; (split; [intros H; contradiction|lia]).
  - destruct (never _ _ _ (Hnot ltac:(lia))) as [H1 H2]. split; (split; [intros H; contradiction|lia]).
Qed.

(** ** The approximations with processes *)
Lemma nn_mpi_end lb :
  ends_well (approx_run wd NearestNeighbour MPI lb (Some g)) <-> w_size wd <= n /\ lb <> Some OneTree.
Proof.
  pose proof Hwd as (_ & Hsz & _ & Ho). unfold approx_run. rewrite (int_document _ _ _ Hd). cbn [processes].
  destruct (le_lt_dec (w_size wd) n) as [L|L].
  - destruct (C27_mpi_is_seq n w (w_nnorder wd) (w_nntree wd) (w_size wd) (w_nnenv wd) ltac:(lia) Ho) as (c & p & q & E & _). rewrite E. cbn [finish]. rewrite map_repeat.
    cbn [fst snd]. rewrite (bound_after wd g n w Hd Hnn (w_size wd) _ lb MPI true Hsz); [|discriminate|intros l [<-|[<-|[]]]; cbn; eauto|reflexivity].
    split.
    + intros H. split; [assumption|]. intros E1. destruct (H E1) as [H1 _]. apply H1. reflexivity.
    + intros [_ H] E1. contradiction.
  - rewrite C27_too_many_processes by assumption. cbn [finish]. split; [intros [H _]; discriminate|lia].
Qed.

Lemma chr_mpi_end lb :
  ends_well (approx_run wd Christofides MPI lb (Some g)) <-> 2 <= n /\ lb <> Some OneTree /\ (w_debug wd = false \/ triangle w n).
Proof.
  pose proof Hwd as (_ & Hsz & _). unfold approx_run. rewrite (int_document _ _ _ Hd). cbn [processes].
  assert (Hget : forall i j, i < na_dim m -> j < na_dim m -> na_get m i j = Ok (Fin (w i j) : C EZ)) by (intros i j Hi Hj; apply (matrix_of_get n); assumption).
  destruct (C37_decides_triangle n w Hs) as [Ht Hf].
  destruct (C37_what_is_tested EZ (na_adj m) (fun i j => Fin (w i j))) as [Hb _]; [intros i j Hi Hj; exact (matrix_of_get n (fun i j => Fin (w i j) : C EZ) i j Hi Hj)|].
  destruct (le_lt_dec 2 n) as [L|L].
  - destruct (bool_dec (w_debug wd) true) as [Edbg|Edbg]; [destruct Hb as [Hb|Hb]|].
    3: apply not_true_is_false in Edbg.
    2: { split; [|intros (_ & _ & [H|H]); [congruence|apply Hf in Hb; contradiction]].
         unfold christofides, christofides_generic. rewrite Hb, Edbg. intros [H _]. discriminate. }
    all: assert (Hdbg : w_debug wd = true -> is_metric (na_adj m) = Ok true) by (intros; congruence || assumption).
    all: destruct (C28_mpi EZ EZ_ord m _ (w_debug wd) (w_menv wd) (w_fillenv wd) (matching_env wd) (matrix_of_wf _ _) Hget ltac:(reflexivity) L Hsz Hdbg) as (c & p & E & Htour & _ & Hc).
    all: change (is_tour n (0 :: p)) in Htour; change (2 <= n -> evaluate_circle (na_adj m) (0 :: p) = Ok c) in Hc; specialize (Hc L).
    all: rewrite C36_circle_is_tour_cost in Hc; [|rewrite (Permutation_length Htour), seq_length; lia|apply tour_range; assumption].
    all: injection Hc as <-; rewrite E; cbn [finish fst].
    all: rewrite (bound_after_root wd g n w Hd Hnn (w_size wd - 1) _ lb MPI true); [|discriminate|intros l [<-|[]]; cbn; eauto|reflexivity].
    all: split; [intros H; split; [assumption|]; split; [intros E1; destruct (H E1) as [H1 _]; apply H1; reflexivity|]|intros (_ & H & _) E1; contradiction].
    + right. apply Ht. assumption.
    + left. assumption.
  - split; [|lia]. destruct (Nat.eq_dec n 1) as [E1|N1].
    + rewrite (C28_mpi_single_vertex_panics EZ EZ_ord m); [|apply matrix_of_wf|exact E1]. intros [H _]. discriminate.
    + assert (E0 : n = 0) by lia. rewrite E0. destruct (w_debug wd); intros [H _]; discriminate.
Qed.
End Solvers.

Lemma nn_threads_is_single wd lb g n w : document (N := EZ) Fin g n w ->
  approx_run wd NearestNeighbour MultiThreaded lb (Some g) = approx_run wd NearestNeighbour SingleThreaded lb (Some g).
Proof.
  intros Hd. unfold approx_run. rewrite !(int_document _ _ _ Hd). cbn [processes].
  assert (E : nearest_neighbour (w_nnenv wd) PAR_COMPUTATION (int_matrix n w) = nearest_neighbour (w_nnenv wd) SEQ_COMPUTATION (int_matrix n w)).
  { unfold nearest_neighbour. apply C26_par_is_seq. exact EZ_ord. }
  rewrite E. destruct lb as [a|]; [|reflexivity]. cbn [option_map].
  rewrite (bound_form wd g n w Hd false 1 a MultiThreaded), (bound_form wd g n w Hd false 1 a SingleThreaded) by discriminate. reflexivity.
Qed.

(** ** C71 *)
Theorem C71_endings : forall wd g n w cmd, document (N := EZ) Fin g n w -> nonneg w n -> proper wd ->
  (forall lb, cmd <> ApproxCmd Christofides MultiThreaded lb) ->
  (surely_ends_well wd cmd g <-> needs wd cmd n w) /\ (may_end_well wd cmd g <-> chances wd cmd n w).
Proof.
  intros wd g n w cmd Hd Hnn Hwd Hchr.
  assert (Hdet : forall o P, only_outcome wd cmd g o -> chances wd cmd n w = needs wd cmd n w -> (ends_well o <-> P) -> needs wd cmd n w = P ->
    (surely_ends_well wd cmd g <-> needs wd cmd n w) /\ (may_end_well wd cmd g <-> chances wd cmd n w)).
  { intros o P Ho Ec Hw En. destruct (sure_one _ _ _ _ Ho) as [H1 H2]. rewrite H1, H2, Ec, En. tauto. }
  assert (Hsingle : single_threaded cmd -> (surely_ends_well wd cmd g <-> needs wd cmd n w) /\ (may_end_well wd cmd g <-> chances wd cmd n w)).
  { intros Hst. destruct (C50_exactly wd g n w cmd Hd Hnn Hst) as (o & Ho & Hw). destruct (sure_one _ _ _ _ Ho) as [H1 H2]. rewrite H1, H2, Hw.
    assert (En : cities_needed cmd <= n /\ (uses_christofides cmd -> w_debug wd = false \/ triangle w n) <-> needs wd cmd n w).
    { clear Ho Hw H1 H2 Hdet. destruct cmd as [[] p|a p lb|[] p]; cbn in Hst; subst p; cbn [cities_needed needs];
        try (split; [intros [H _]; first [exact H|exact I]|intros H; split; [first [exact H|lia]|intros (p' & lb' & E); discriminate]]).
      assert (Hlb : cities_needed (ApproxCmd a SingleThreaded lb) <= n <-> 1 <= n /\ (lb = Some OneTree -> 3 <= n)).
      { destruct lb as [[]|]; cbn; split; try (intros H; split; [lia|intros; try discriminate; lia]); intros [H1 H2]; try lia. apply H2. reflexivity. }
      cbn [cities_needed] in Hlb. rewrite Hlb. destruct a; cbn.
      - split; [intros [H _]; exact H|]. intros H. split; [exact H|]. intros (p' & lb' & E). discriminate.
      - split.
        + intros [[H1 H2] H3]. split; [assumption|]. split; [assumption|]. apply H3. eexists. eexists. reflexivity.
        + intros (H1 & H2 & H3). split; [split; assumption|]. intros _. assumption. }
    replace (chances wd cmd n w) with (needs wd cmd n w) by (destruct cmd as [[] p|a p lb|a p]; cbn in Hst; subst; reflexivity).
    tauto. }
  destruct cmd as [a p|a p lb|a p].
  - destruct p; [apply Hsingle; reflexivity| |].
    + destruct (threads_end wd g n w Hd Hnn Hwd a) as [H1 H2]. rewrite H1, H2. destruct a; split; reflexivity.
    + destruct a.
      1: exact (static_end wd g n w Hd Hnn Hwd).
      1: exact (dynamic_end wd g n w Hd Hnn Hwd).
      all: match goal with |- context [ExactCmd ?a MPI] =>
        destruct (sure_one _ _ _ _ (C45_mpi_unimplemented_refuted wd g n w a Hd ltac:(cbn; tauto))) as [H1 H2] end;
        rewrite H1, H2; cbn [needs chances]; split; (split; [intros [H _]; discriminate|intros []]).
  - destruct p; [apply Hsingle; reflexivity| |].
    + destruct a; [|destruct (Hchr lb eq_refl)].
      assert (Ho : only_outcome wd (ApproxCmd NearestNeighbour MultiThreaded lb) g (approx_run wd NearestNeighbour SingleThreaded lb (Some g))).
      { intros o. cbn [run]. rewrite (nn_threads_is_single wd lb g n w Hd). reflexivity. }
      destruct (C50_exactly wd g n w (ApproxCmd NearestNeighbour SingleThreaded lb) Hd Hnn eq_refl) as (o & Ho' & Hw).
      assert (E : approx_run wd NearestNeighbour SingleThreaded lb (Some g) = o) by (apply Ho'; reflexivity). rewrite E in Ho.
      destruct (sure_one _ _ _ _ Ho) as [H1 H2]. rewrite H1, H2, Hw. cbn [needs chances].
      assert (En : cities_needed (ApproxCmd NearestNeighbour SingleThreaded lb) <= n /\
        (uses_christofides (ApproxCmd NearestNeighbour SingleThreaded lb) -> w_debug wd = false \/ triangle w n) <-> 1 <= n /\ (lb = Some OneTree -> 3 <= n)).
      { split.
        - intros [H _]. destruct lb as [[]|]; cbn in H; split; try lia; intros; try discriminate; lia.
        - intros [H3 H4]. split; [destruct lb as [[]|]; cbn; try lia; apply H4; reflexivity|]. intros (p' & lb' & E'). discriminate. }
      rewrite En. split; reflexivity.
    + destruct a.
      * apply (Hdet _ _ (fun o => iff_refl _) eq_refl (nn_mpi_end wd g n w Hd Hnn Hwd lb) eq_refl).
      * apply (Hdet _ _ (fun o => iff_refl _) eq_refl (chr_mpi_end wd g n w Hd Hnn Hwd lb) eq_refl).
  - destruct p; [apply Hsingle; reflexivity| |].
    + assert (Hb := bound_alone wd g n w Hd Hnn false 1 a MultiThreaded ltac:(lia) ltac:(discriminate)).
      destruct (sure_one wd (LowerBoundCmd a MultiThreaded) g _ (fun o => iff_refl _)) as [H1 H2]. rewrite H1, H2. cbn [run processes]. rewrite Hb.
      destruct a; cbn [needs chances]; split; (split; [auto|intros; auto; discriminate]).
    + destruct a.
      * apply (Hdet _ _ (fun o => iff_refl _) eq_refl (bound_mpi wd g n w Hd Hnn Hwd) eq_refl).
      * pose proof Hwd as (_ & Hsz & _). assert (Hb := bound_alone wd g n w Hd Hnn false (w_size wd) MST MPI Hsz ltac:(discriminate)).
        destruct (sure_one wd (LowerBoundCmd MST MPI) g _ (fun o => iff_refl _)) as [H1 H2]. rewrite H1, H2. cbn [run processes]. rewrite Hb.
        split; (split; [intros; exact I|intros _; discriminate]).
      * pose proof Hwd as (_ & Hsz & _). assert (Hb := bound_alone wd g n w Hd Hnn false (w_size wd) MSTQueue MPI Hsz ltac:(discriminate)).
        destruct (sure_one wd (LowerBoundCmd MSTQueue MPI) g _ (fun o => iff_refl _)) as [H1 H2]. rewrite H1, H2. cbn [run processes]. rewrite Hb.
        split; (split; [intros; exact I|intros _; discriminate]).
Qed.
Print Assumptions C71_endings.

(** Three processes and four cities: the commands fall in all three classes. *)
Definition ex_proper (size : nat) : world :=
  mkWorld size 2 true ex_menv (fun _ => 0) (mkNnEnv (fun _ => 0) RLeaf) (fun _ => seq 0 size) (fun _ => RLeaf) (mkFillEnv [] []) ex_race_mt (seq 0 size) RLeaf.
Example C71_applies :
  proper (ex_proper 3) /\ document (N := EZ) Fin (table_graph 4 ex_sym) 4 ex_sym /\ nonneg ex_sym 4 /\
  surely_ends_well (ex_proper 3) (ExactCmd V0 MPI) (table_graph 4 ex_sym) /\
  may_end_well (ex_proper 3) (ExactCmd V1 MPI) (table_graph 4 ex_sym) /\
  ~ surely_ends_well (ex_proper 3) (ExactCmd V1 MPI) (table_graph 4 ex_sym) /\
  ~ may_end_well (ex_proper 3) (ExactCmd V2 MPI) (table_graph 4 ex_sym) /\
  ~ may_end_well (ex_proper 3) (ApproxCmd NearestNeighbour MPI (Some OneTree)) (table_graph 4 ex_sym).
Proof.
  assert (Hp : proper (ex_proper 3)) by (split; [cbn; lia|]; split; [cbn; lia|]; split; [apply Permutation_refl|]; intros; apply Permutation_refl).
  assert (Hd : document (N := EZ) Fin (table_graph 4 ex_sym) 4 ex_sym).
  { apply table_document; [concrete|]. intros i Hi. do 4 (destruct i as [|i]; [reflexivity|]). lia. }
  assert (Hnn : nonneg ex_sym 4) by concrete.
  split; [assumption|]. split; [assumption|]. split; [assumption|].
  assert (H : forall cmd, (forall lb, cmd <> ApproxCmd Christofides MultiThreaded lb) ->
    (surely_ends_well (ex_proper 3) cmd (table_graph 4 ex_sym) <-> needs (ex_proper 3) cmd 4 ex_sym) /\
    (may_end_well (ex_proper 3) cmd (table_graph 4 ex_sym) <-> chances (ex_proper 3) cmd 4 ex_sym)) by (intros; apply C71_endings; assumption).
  split; [apply (H (ExactCmd V0 MPI)); [discriminate|]; cbn; unfold enough_prefixes; cbn; lia|].
  split; [apply (H (ExactCmd V1 MPI)); [discriminate|]; cbn; lia|].
  split; [intros Hc; apply (H (ExactCmd V1 MPI)) in Hc; [cbn in Hc; lia|discriminate]|].
  split; intros Hc; apply H in Hc; try discriminate; cbn in Hc; tauto.
Qed.
