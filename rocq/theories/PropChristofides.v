(** C28-C34 and C47: Christofides' algorithm and its matching. *)
From Coq Require Import ZArith Arith Bool List Permutation Lia Reals Lra.
From Flocq Require Import Core.
From Verif Require Import Num NumB64 F64Facts Base Spec SpecFacts Data Mst Par Mem Rand MstPar Matching Christofides Greedy PrimProofs Dfs
  PermProofs MstParProofs MstFacts MetricProofs MatchingProofs MatchingExact EulerProofs FillProofs ChristofidesProofs
  ChristofidesExact Instances.
Import ListNotations.
Local Open Scope nat_scope.

Lemma distinct_of_not_repeated M : ~ repeated_pair M -> distinct_pairs M.
Proof.
  intros H. assert (Hlt : forall a b, a < b -> b < length M -> forall i j, joins (nth a M (0, 0)) i j = true -> joins (nth b M (0, 0)) i j = true -> False).
  { intros a b Hab Hb i j H1 H2. apply H.
    destruct (nth_split M (0, 0) (Nat.lt_trans _ _ _ Hab Hb)) as (A & R & EA & LA).
    set (e := nth a M (0, 0)) in *.
    assert (Eb : nth b M (0, 0) = nth (b - S a) R (0, 0)).
    { rewrite EA, app_nth2 by lia. replace (b - length A) with (S (b - S a)) by lia. reflexivity. }
    assert (Hr : b - S a < length R) by (rewrite EA, app_length in Hb; cbn in Hb; lia).
    destruct (nth_split R (0, 0) Hr) as (B & D & ER & _). rewrite <- Eb in ER.
    exists A, e, B, (nth b M (0, 0)), D. split; [rewrite EA at 1; rewrite ER at 1; reflexivity|].
    apply joins_spec in H1, H2. destruct H1 as [->| ->], H2 as [->| ->]; cbn; auto. }
  intros a b Ha Hb Hab i j Hj. destruct (joins (nth b M (0, 0)) i j) eqn:E; [|reflexivity]. exfalso.
  destruct (Nat.lt_trichotomy a b) as [Hl|[He|Hl]]; [eapply Hlt; eauto|contradiction|eapply (Hlt b a); eauto].
Qed.

(** ** C28: a Hamiltonian cycle *)
(** What a successful run returns: the closed tour from vertex 0 and the sum of its costs in
    the order of the tour. *)
Definition hamiltonian_result {N : Num} (m : namatrix N) (r : res (solution N)) : Prop :=
  exists c p, r = Ok (c, (0 :: p) ++ [0]) /\ is_tour (na_dim m) (0 :: p) /\
    evaluate_path (na_adj m) ((0 :: p) ++ [0]) = Ok c /\
    (2 <= na_dim m -> evaluate_circle (na_adj m) (0 :: p) = Ok c).

Lemma christofides_runs {N : Num} (O : NumOrd N) (m : namatrix N) debug env fenv mt mode : na_wf m ->
  (forall i j, i < na_dim m -> j < na_dim m -> i <> j -> clt (na_val m i j) cinf = true) -> 1 <= na_dim m -> mode <= 2 ->
  (debug = true -> is_metric (na_adj m) = Ok true) ->
  (mode = MPI_COMPUTATION -> 2 <= na_dim m /\ 1 <= mt_size mt) ->
  (mode = PAR_COMPUTATION -> forall mst M, prim env mode m = Ok mst -> compute_approx_matching mt mode mst m = Ok M -> ~ repeated_pair M) ->
  hamiltonian_result m (christofides debug env fenv mt mode m).
Proof.
  intros Hwf Hfin Hn Hmode Hdbg Hmpi Hpar.
  destruct (prim_tree m O Hwf Hfin Hn env mode Hmode) as (mst & T & Ep & Hl & HT & Hadj).
  assert (HV : forall v, In v (odd_vertices mst) -> v < na_dim m) by (intros v Hv; apply (odd_vertices_spec m mst Hl) in Hv; tauto).
  destruct (approx_spec m Hwf (odd_vertices mst) HV O mt mode (length (odd_vertices mst) * length (odd_vertices mst))) as (M & EM & HM & _).
  { assumption. }
  { intros H. destruct (Hmpi H). split; [|assumption]. apply (odd_vertices_two m T (na_val m) mst); assumption. }
  fold (compute_approx_matching mt mode mst m) in EM.
  destruct (generic_spec m Hwf Hn debug env fenv mode (compute_approx_matching mt mode) mst T M) as (c & p & Ec & Ht & He & _); try assumption.
  - intros a b Hin. unfold all_ok in HM. rewrite Forall_forall in HM. apply (HM (a, b) Hin).
  - intros H. apply distinct_of_not_repeated. apply (Hpar H mst M); assumption.
  - exists c, p. split; [exact Ec|]. split; [assumption|]. split; [assumption|].
    intros H2. apply circle_is_path; [rewrite (tour_length _ _ Ht); assumption|exact He].
Qed.

(** Sequential mode, in every arithmetic, for every outcome [mt] of the random numbers, in
    debug builds (where the input must pass is_metric) and in release builds. *)
Theorem C28_sequential : forall (N : Num) (O : NumOrd N) (m : namatrix N) (cost : nat -> nat -> C N) debug env fenv mt,
  na_wf m -> (forall i j, i < na_dim m -> j < na_dim m -> na_get m i j = Ok (cost i j)) ->
  (forall i j, i < na_dim m -> j < na_dim m -> i <> j -> clt (cost i j) cinf = true) -> 1 <= na_dim m ->
  (debug = true -> is_metric (na_adj m) = Ok true) ->
  hamiltonian_result m (christofides debug env fenv mt SEQ_COMPUTATION m).
Proof.
  intros N O m cost debug env fenv mt Hwf Hget Hfin Hn Hd. apply (christofides_runs O); try assumption; try discriminate; [|unfold SEQ_COMPUTATION; lia].
  intros i j Hi Hj Hij. specialize (Hget i j Hi Hj). rewrite na_get_val in Hget by assumption. injection Hget as ->. auto.
Qed.
Print Assumptions C28_sequential.

(** MPI mode with any number of processes, for two vertices or more *)
Theorem C28_mpi : forall (N : Num) (O : NumOrd N) (m : namatrix N) (cost : nat -> nat -> C N) debug env fenv mt,
  na_wf m -> (forall i j, i < na_dim m -> j < na_dim m -> na_get m i j = Ok (cost i j)) ->
  (forall i j, i < na_dim m -> j < na_dim m -> i <> j -> clt (cost i j) cinf = true) -> 2 <= na_dim m -> 1 <= mt_size mt ->
  (debug = true -> is_metric (na_adj m) = Ok true) ->
  hamiltonian_result m (christofides debug env fenv mt MPI_COMPUTATION m).
Proof.
  intros N O m cost debug env fenv mt Hwf Hget Hfin Hn Hs Hd. apply (christofides_runs O); try assumption; try discriminate; try lia; [|auto].
  intros i j Hi Hj Hij. specialize (Hget i j Hi Hj). rewrite na_get_val in Hget by assumption. injection Hget as ->. auto.
Qed.
Print Assumptions C28_mpi.

(** With a single vertex the matching is empty, and the MPI version indexes its first edge. *)
Theorem C28_mpi_single_vertex_panics : forall (N : Num) (O : NumOrd N) (m : namatrix N) debug env fenv mt,
  na_wf m -> na_dim m = 1 -> christofides debug env fenv mt MPI_COMPUTATION m = Panic.
Proof.
  intros N O m debug env fenv mt Hwf H1.
  assert (Hfin : forall i j, i < na_dim m -> j < na_dim m -> i <> j -> clt (na_val m i j) cinf = true) by (intros; lia).
  destruct (prim_tree m O Hwf Hfin ltac:(lia) env MPI_COMPUTATION ltac:(unfold MPI_COMPUTATION; lia)) as (mst & T & Ep & Hl & HT & Hadj).
  assert (EV : odd_vertices mst = []).
  { destruct HT as (_ & _ & H3). rewrite seq_length, H1 in H3. destruct T; [|discriminate].
    destruct (odd_vertices mst) as [|v l] eqn:EV; [reflexivity|]. exfalso.
    assert (Hin : In v (odd_vertices mst)) by (rewrite EV; left; reflexivity). apply (odd_vertices_spec m mst Hl) in Hin. destruct Hin as [Hv [k Hk]].
    rewrite Hadj in Hk by assumption. cbn in Hk. lia. }
  unfold christofides, christofides_generic.
  assert (EM : compute_approx_matching mt MPI_COMPUTATION mst m = Panic).
  { unfold compute_approx_matching. rewrite EV. reflexivity. }
  destruct (is_metric_iff (na_adj m) (na_val m)) as [[b Eb] _].
  { intros i j Hi Hj. apply na_get_val; assumption. }
  destruct debug; [rewrite Eb; destruct b|]; cbn [bind assert]; try reflexivity; rewrite Ep; cbn [bind]; rewrite EM; reflexivity.
Qed.
Print Assumptions C28_mpi_single_vertex_panics.

(** Parallel mode: for every schedule, if no pair of vertices is matched twice.  (Missing: the
    case of a pair matched twice, where the claim is false, see below.) *)
Theorem C28_parallel_partial : forall (N : Num) (O : NumOrd N) (m : namatrix N) (cost : nat -> nat -> C N) debug env fenv mt,
  na_wf m -> (forall i j, i < na_dim m -> j < na_dim m -> na_get m i j = Ok (cost i j)) ->
  (forall i j, i < na_dim m -> j < na_dim m -> i <> j -> clt (cost i j) cinf = true) -> 1 <= na_dim m ->
  (debug = true -> is_metric (na_adj m) = Ok true) ->
  (forall mst M, prim env PAR_COMPUTATION m = Ok mst -> compute_approx_matching mt PAR_COMPUTATION mst m = Ok M -> ~ repeated_pair M) ->
  hamiltonian_result m (christofides debug env fenv mt PAR_COMPUTATION m).
Proof.
  intros N O m cost debug env fenv mt Hwf Hget Hfin Hn Hd Hrep. apply (christofides_runs O); try assumption; try discriminate; auto.
  intros i j Hi Hj Hij. specialize (Hget i j Hi Hj). rewrite na_get_val in Hget by assumption. injection Hget as ->. auto.
Qed.
Print Assumptions C28_parallel_partial.

(** Nine vertices around vertex 0.  The improvement matches 3 and 7 twice; the two parallel
    increments of that cell are not atomic, and when one is lost the counts of the two
    directions differ and the search for an Eulerian cycle never ends, however long it runs. *)
Definition ex_race : nat -> nat -> Z := table [
  [0;5;5;5;5;5;5;5;5]; [5;0;9;8;7;7;6;9;8]; [5;9;0;6;7;7;6;8;9]; [5;8;6;0;8;9;10;8;9]; [5;7;7;8;0;10;6;6;9];
  [5;7;7;9;10;0;10;9;6]; [5;6;6;10;6;10;0;9;8]; [5;9;8;8;6;9;9;0;9]; [5;8;9;9;9;6;8;9;0]]%Z.
Definition ex_race_mt : mtenv := mkMtEnv (fun i => i) (fun _ t i => if (t =? 1) && (i =? 2) then 1 else i) (fun _ => []) 1.
Definition ex_menv : menv := mkEnv (fun _ => []) (fun _ => RLeaf).

Lemma find_cycle_more {N : Num} : forall K v (g : multigraph N) d c r, find_cycle_loop K v g d c = r -> r <> OutOfFuel ->
  forall K', K <= K' -> find_cycle_loop K' v g d c = r.
Proof.
  induction K as [|K IH]; intros v g d c r E Hr K' HK; [cbn in E; congruence|]. destruct K' as [|K']; [lia|]. cbn [find_cycle_loop] in *.
  destruct (mg_row g v); cbn [bind] in *; try assumption. destruct (first_neighbour _); [|assumption].
  destruct (take_one g v n); cbn [bind] in *; try assumption. destruct (take_one a0 n v); cbn [bind] in *; try assumption.
  destruct (dec_degree d v); cbn [bind] in *; try assumption. destruct (dec_degree a2 n); cbn [bind] in *; try assumption.
  apply (IH n a1 a3 (c ++ [n]) r E Hr). lia.
Qed.
Lemma euler_never {N : Num} K (g : multigraph N) d cycle idx v c g' d' :
  find_unfinished d 0 cycle = Ok (Some (idx, v)) -> find_cycle K v g d = Ok (c, g', d') ->
  (forall fuel cfuel, euler_loop fuel cfuel g' d' (firstn (idx + 1) cycle ++ tl c ++ skipn (idx + 1) cycle) = OutOfFuel) ->
  forall fuel cfuel, euler_loop fuel cfuel g d cycle = OutOfFuel.
Proof.
  intros Eu Ec Hrest fuel cfuel. destruct fuel as [|fuel]; [reflexivity|]. cbn [euler_loop]. rewrite Eu. cbn [bind].
  assert (H : find_cycle cfuel v g d = OutOfFuel \/ find_cycle cfuel v g d = Ok (c, g', d')).
  { unfold find_cycle in *. destruct (find_cycle_loop cfuel v g d [v]) as [r| |] eqn:E; [right|right|left; reflexivity].
    - destruct (Nat.le_ge_cases cfuel K) as [Hle|Hle].
      + rewrite (find_cycle_more cfuel v g d [v] (Ok r) E ltac:(discriminate) K Hle) in Ec. assumption.
      + rewrite (find_cycle_more K v g d [v] _ Ec ltac:(discriminate) cfuel Hle) in E. congruence.
    - destruct (Nat.le_ge_cases cfuel K) as [Hle|Hle].
      + rewrite (find_cycle_more cfuel v g d [v] Panic E ltac:(discriminate) K Hle) in Ec. discriminate.
      + rewrite (find_cycle_more K v g d [v] _ Ec ltac:(discriminate) cfuel Hle) in E. congruence. }
  destruct H as [-> | ->]; [reflexivity|]. cbn [bind]. apply Hrest.
Qed.
Lemma euler_stuck {N : Num} (g : multigraph N) d cycle idx v :
  find_unfinished d 0 cycle = Ok (Some (idx, v)) -> find_cycle 1 v g d = Ok ([v], g, d) ->
  forall fuel cfuel, euler_loop fuel cfuel g d cycle = OutOfFuel.
Proof.
  intros Eu Ec. induction fuel as [|fuel IH]; intros cfuel; [reflexivity|]. cbn [euler_loop]. rewrite Eu. cbn [bind].
  destruct cfuel as [|cfuel]; [reflexivity|]. unfold find_cycle in *.
  rewrite (find_cycle_more 1 v g d [v] _ Ec ltac:(discriminate) (S cfuel) ltac:(lia)). cbn [bind tl app]. rewrite firstn_skipn. apply IH.
Qed.

Definition result {A} (d : A) (r : res A) : A := match r with Ok x => x | _ => d end.
Definition race_mst : graph EZ := Eval vm_compute in result [] (prim ex_menv PAR_COMPUTATION (int_matrix 9 ex_race)).
Definition race_M := Eval vm_compute in result [] (compute_approx_matching ex_race_mt PAR_COMPUTATION race_mst (int_matrix 9 ex_race)).
Definition race_g := Eval vm_compute in
  result (mkMG 0 []) (fill_multigraph (mkFillEnv [] [1; 3; 1; 3; 1; 1; 3; 3]) PAR_COMPUTATION (int_matrix 9 ex_race) race_mst race_M).
Definition race_degree := Eval vm_compute in result [] (column_degrees race_g).
Definition race_1 := Eval vm_compute in result ([], mkMG 0 [], []) (find_cycle 100 0 race_g race_degree).
Definition race_2 := Eval vm_compute in result ([], mkMG 0 [], []) (find_cycle 100 0 (snd (fst race_1)) (snd race_1)).

Theorem C28_parallel_refuted : exists n w env mt sched mst M g degree, 1 <= n /\ symmetric w n /\ triangle w n /\ nonneg w n /\
  is_metric (na_adj (int_matrix n w)) = Ok true /\
  prim env PAR_COMPUTATION (int_matrix n w) = Ok mst /\ compute_approx_matching mt PAR_COMPUTATION mst (int_matrix n w) = Ok M /\
  fill_multigraph (mkFillEnv [] sched) PAR_COMPUTATION (int_matrix n w) mst M = Ok g /\ column_degrees g = Ok degree /\
  (forall fuel cycle_fuel, euler_loop fuel cycle_fuel g degree [0] = OutOfFuel) /\
  forall debug, christofides debug env (mkFillEnv [] sched) mt PAR_COMPUTATION (int_matrix n w) = OutOfFuel.
Proof.
  exists 9, ex_race, ex_menv, ex_race_mt, [1; 3; 1; 3; 1; 1; 3; 3], race_mst, race_M, race_g, race_degree.
  split; [lia|]. split; [concrete|]. split; [concrete|]. split; [concrete|]. split; [vm_compute; reflexivity|].
  split; [vm_compute; reflexivity|]. split; [vm_compute; reflexivity|]. split; [vm_compute; reflexivity|]. split; [vm_compute; reflexivity|].
  split; [|intros []; vm_compute; reflexivity].
  apply (euler_never 100 race_g race_degree [0] 0 0 (fst (fst race_1)) (snd (fst race_1)) (snd race_1)); [vm_compute; reflexivity..|].
  apply (euler_never 100 _ _ _ 0 0 (fst (fst race_2)) (snd (fst race_2)) (snd race_2)); [vm_compute; reflexivity..|].
  match goal with |- forall fuel cfuel, euler_loop fuel cfuel ?g ?d ?c = _ => apply (euler_stuck g d c 8 3) end; vm_compute; reflexivity.
Qed.
Print Assumptions C28_parallel_refuted.

(** the same run with the increments one after the other *)
Example C28_parallel_other_schedule : exists c p,
  christofides true ex_menv (mkFillEnv [] []) ex_race_mt PAR_COMPUTATION (int_matrix 9 ex_race) = Ok (c, p).
Proof. eexists. eexists. vm_compute. reflexivity. Qed.

(** ** C29: the Eulerian walk *)
(** [G i j] is the number of edges between [i] and [j] in the multigraph [g]. *)
Theorem C29_eulerian : forall (N : Num) (g : multigraph N) (G : nat -> nat -> nat),
  length (mg_cells g) = mg_dim g * mg_dim g -> 1 <= mg_dim g ->
  (forall i j, i < mg_dim g -> j < mg_dim g -> exists x, mg_cell g i j = Ok (x, G i j)) ->
  (forall i j, i < mg_dim g -> j < mg_dim g -> G i j = G j i) -> (forall i, i < mg_dim g -> Nat.Even (G i i)) ->
  connected (mg_dim g) G -> (forall v, v < mg_dim g -> Nat.Even (degree (mg_dim g) G v)) ->
  exists p, eulerian_cycle g = Ok p /\ p <> [] /\ hd 0 p = 0 /\ last p 0 = 0 /\ (forall v, In v p <-> v < mg_dim g) /\
    forall i j, i < mg_dim g -> j < mg_dim g -> traversals p i j = G i j.
Proof.
  intros N g G Hwf Hn HG Hs Hd Hc He.
  assert (EG : forall i j, i < mg_dim g -> j < mg_dim g -> cnt g i j = G i j).
  { intros i j Hi Hj. destruct (HG i j Hi Hj) as [x E]. rewrite mg_cell_Ok in E by assumption. unfold cnt. injection E as ->. reflexivity. }
  assert (Hreach : forall v, reached (mg_dim g) G v -> v < mg_dim g /\ reached (mg_dim g) (cnt g) v).
  { intros v H. induction H as [|u v H [IH1 IH2] Hv Huv]; [split; [lia|constructor]|]. split; [assumption|].
    apply (reached_step _ _ u); try assumption. rewrite EG by assumption. assumption. }
  destruct (eulerian_cycle_spec g Hwf Hn) as (p & Ep & Hh & Hne & Hin & Hev).
  - intros i j Hi Hj. rewrite !EG by assumption. auto.
  - intros i Hi. rewrite EG by assumption. auto.
  - intros v Hv. apply Hreach. auto.
  - destruct Hev as [Hl Htr].
    { intros v Hv. unfold degree. rewrite (list_sum_ext (cnt g v) (G v)); [apply He; assumption|]. intros j Hj. apply in_seq in Hj. apply EG; lia. }
    exists p. split; [assumption|]. split; [assumption|]. split; [assumption|]. split; [assumption|]. split; [assumption|].
    intros i j Hi Hj. rewrite Htr, EG by assumption. reflexivity.
Qed.
Print Assumptions C29_eulerian.

(** Without the parity condition the walk still starts at 0 and reaches every vertex. *)
Theorem C29_walk_reaches_all : forall (N : Num) (g : multigraph N) (G : nat -> nat -> nat),
  length (mg_cells g) = mg_dim g * mg_dim g -> 1 <= mg_dim g ->
  (forall i j, i < mg_dim g -> j < mg_dim g -> exists x, mg_cell g i j = Ok (x, G i j)) ->
  (forall i j, i < mg_dim g -> j < mg_dim g -> G i j = G j i) -> (forall i, i < mg_dim g -> Nat.Even (G i i)) ->
  connected (mg_dim g) G ->
  exists p, eulerian_cycle g = Ok p /\ p <> [] /\ hd 0 p = 0 /\ (forall v, In v p <-> v < mg_dim g).
Proof.
  intros N g G Hwf Hn HG Hs Hd Hc.
  assert (EG : forall i j, i < mg_dim g -> j < mg_dim g -> cnt g i j = G i j).
  { intros i j Hi Hj. destruct (HG i j Hi Hj) as [x E]. rewrite mg_cell_Ok in E by assumption. unfold cnt. injection E as ->. reflexivity. }
  assert (Hreach : forall v, reached (mg_dim g) G v -> v < mg_dim g /\ reached (mg_dim g) (cnt g) v).
  { intros v H. induction H as [|u v H [IH1 IH2] Hv Huv]; [split; [lia|constructor]|]. split; [assumption|].
    apply (reached_step _ _ u); try assumption. rewrite EG by assumption. assumption. }
  destruct (eulerian_cycle_spec g Hwf Hn) as (p & Ep & Hh & Hne & Hin & _).
  - intros i j Hi Hj. rewrite !EG by assumption. auto.
  - intros i Hi. rewrite EG by assumption. auto.
  - intros v Hv. apply Hreach. auto.
  - exists p. auto.
Qed.
Print Assumptions C29_walk_reaches_all.

(** Two triangles sharing vertex 2, one edge of them doubled twice. *)
Definition ex_euler (i j : nat) : nat := copies [(0, 1); (1, 2); (2, 0); (2, 3); (3, 4); (4, 2); (3, 4); (3, 4)] i j.
Definition ex_euler_g : multigraph EZ := mkMG 5 (map (fun k => (Fin 1%Z : C EZ, ex_euler (k mod 5) (k / 5))) (seq 0 25)).
Example C29_applies : (forall i j, i < 5 -> j < 5 -> exists x, mg_cell ex_euler_g i j = Ok (x, ex_euler i j)) /\
  (forall i j, i < 5 -> j < 5 -> ex_euler i j = ex_euler j i) /\ (forall i, i < 5 -> Nat.Even (ex_euler i i)) /\
  connected 5 ex_euler /\ (forall v, v < 5 -> Nat.Even (degree 5 ex_euler v)) /\
  exists p, eulerian_cycle ex_euler_g = Ok p /\ length p = 9.
Proof.
  assert (H5 : forall i, i < 5 -> i = 0 \/ i = 1 \/ i = 2 \/ i = 3 \/ i = 4) by (intros; lia).
  split. { intros i j Hi Hj. exists (Fin 1%Z : C EZ). apply H5 in Hi. apply H5 in Hj. intuition subst; vm_compute; reflexivity. }
  split. { intros i j Hi Hj. apply H5 in Hi. apply H5 in Hj. intuition subst; vm_compute; reflexivity. }
  split. { intros i Hi. apply H5 in Hi. exists 0. intuition subst; vm_compute; reflexivity. }
  split.
  { assert (R2 : reached 5 ex_euler 2) by (apply (reached_step _ _ 0); [constructor|lia|vm_compute; discriminate]).
    intros v Hv. apply H5 in Hv. intuition subst.
    - constructor.
    - apply (reached_step _ _ 2); [assumption|lia|vm_compute; discriminate].
    - assumption.
    - apply (reached_step _ _ 2); [assumption|lia|vm_compute; discriminate].
    - apply (reached_step _ _ 2); [assumption|lia|vm_compute; discriminate]. }
  split. { intros v Hv. apply H5 in Hv. apply Nat.even_spec. intuition subst; vm_compute; reflexivity. }
  eexists. split; vm_compute; reflexivity.
Qed.

(** ** C30: the matching *)
(** For every arithmetic, mode and random outcome: a list of half as many pairs, all of whose
    vertices are listed.  (Missing: that every vertex occurs once, which is false.) *)
Theorem C30_listed_partial : forall (N : Num) (O : NumOrd N) (m : namatrix N) V mt mode tries,
  na_wf m -> (forall v, In v V -> v < na_dim m) -> Nat.Even (length V) -> mode <= 2 ->
  (mode = MPI_COMPUTATION -> V <> [] /\ 1 <= mt_size mt) ->
  exists M, approx_min_cost_matching mt mode m V tries = Ok M /\ 2 * length M = length V /\ incl (endpoints M) V.
Proof.
  intros N O m V mt mode tries Hwf HV He Hmode Hmpi.
  destruct (approx_spec m Hwf V HV O mt mode tries Hmode) as (M & EM & _ & HI).
  { intros H. destruct (Hmpi H) as [Hne Hs]. split; [|assumption]. destruct He as [k Hk]. destruct V; [congruence|]. cbn in *. lia. }
  exists M. split; [assumption|].
  pose proof (chunks2_length (shuffle (mt_first mt) V)) as [Hc Hr]. pose proof (Permutation_length (shuffle_perm (mt_first mt) V)) as Hs.
  split.
  - rewrite (HI _ (length_inv m (length (chunks2 (shuffle (mt_first mt) V)))) eq_refl). destruct He as [k Hk]. lia.
  - apply (HI _ (listed_inv m V)). intros x Hx. apply endpoints_chunks_incl in Hx. apply (Permutation_in _ (shuffle_perm (mt_first mt) V)). assumption.
Qed.
Print Assumptions C30_listed_partial.

(** It is perfect when no four listed vertices have three pairings of three different costs;
    costs may be rounded.  (Missing: the other instances.) *)
Theorem C30_perfect_partial : forall (N : Num) (O : NumOrd N) (m : namatrix N) (cost : nat -> nat -> C N) V mt mode tries,
  na_wf m -> (forall i j, i < na_dim m -> j < na_dim m -> na_get m i j = Ok (cost i j)) ->
  (forall v, In v V -> v < na_dim m) -> NoDup V -> Nat.Even (length V) -> mode <= 2 ->
  (mode = MPI_COMPUTATION -> V <> [] /\ 1 <= mt_size mt) ->
  (forall a b c d, In a V -> In b V -> In c V -> In d V -> NoDup [a; b; c; d] ->
     ~ (clt (cadd (cost a c) (cost b d)) (cadd (cost a b) (cost c d)) = true /\
        clt (cadd (cost a d) (cost b c)) (cadd (cost a c) (cost b d)) = true)) ->
  exists M, approx_min_cost_matching mt mode m V tries = Ok M /\ perfect_matching V M.
Proof.
  intros N O m cost V mt mode tries Hwf Hget HV Hnd He Hmode Hmpi Hns.
  destruct (approx_spec m Hwf V HV O mt mode tries Hmode) as (M & EM & _ & HI).
  { intros H. destruct (Hmpi H) as [Hne Hs]. split; [|assumption]. destruct He as [k Hk]. destruct V; [congruence|]. cbn in *. lia. }
  exists M. split; [assumption|]. apply (HI (perfect_matching V)); [|apply first_perfect; assumption]. apply perfect_inv; [assumption|].
  assert (Hval : forall i j, i < na_dim m -> j < na_dim m -> na_val m i j = cost i j).
  { intros i j Hi Hj. specialize (Hget i j Hi Hj). rewrite na_get_val in Hget by assumption. congruence. }
  intros a b c d Ha Hb Hc Hd Hn4. rewrite !Hval by auto. specialize (Hns a b c d Ha Hb Hc Hd Hn4).
  destruct (clt _ _) eqn:E1; [|reflexivity]. destruct (clt (cadd (cost a d) _) _) eqn:E2; [|reflexivity]. exfalso. apply Hns. split; (reflexivity || assumption).
Qed.
Print Assumptions C30_perfect_partial.

(** A metric instance on four vertices: 0 and 1, and 2 and 3 are paired at first. *)
Definition ex_slip : nat -> nat -> Z := table [[0;30;105;10]; [30;0;110;20]; [105;110;0;100]; [10;20;100;0]]%Z.
Definition ex_slip_mt : mtenv := mkMtEnv (fun i => i) (fun _ _ i => i) (fun _ => []) 1.

Theorem C30_refuted : exists n w V mt, symmetric w n /\ triangle w n /\ (forall v, In v V -> v < n) /\ NoDup V /\ Nat.Even (length V) /\
  forall mode, mode <= 2 ->
    exists M, approx_min_cost_matching mt mode (int_matrix n w) V (length V * length V) = Ok M /\ ~ perfect_matching V M.
Proof.
  exists 4, ex_slip, [0; 1; 2; 3], ex_slip_mt. split; [concrete|]. split; [concrete|].
  split; [cbn; lia|]. split; [repeat constructor; cbn; lia|]. split; [exists 2; reflexivity|].
  intros mode Hm. exists [(0, 1); (2, 2)]. split.
  - destruct mode as [|[|[|]]]; [..|lia]; vm_compute; reflexivity.
  - intros H. unfold perfect_matching in H. pose proof (Permutation_in 3 (Permutation_sym H) ltac:(cbn; tauto)) as H3. cbn in H3. lia.
Qed.
Print Assumptions C30_refuted.

(** the condition holds for points on a line *)
Definition ex_line (i j : nat) : Z := Z.abs (Z.of_nat i - Z.of_nat j).
Example C30_applies : (forall a b c d, In a [0; 1; 3; 4] -> In b [0; 1; 3; 4] -> In c [0; 1; 3; 4] -> In d [0; 1; 3; 4] -> NoDup [a; b; c; d] ->
     ~ ((ex_line a c + ex_line b d < ex_line a b + ex_line c d)%Z /\ (ex_line a d + ex_line b c < ex_line a c + ex_line b d)%Z)) /\
  approx_min_cost_matching (mkMtEnv (fun _ => 1) (fun _ _ i => i) (fun _ => []) 1) SEQ_COMPUTATION (int_matrix 5 ex_line) [0; 1; 3; 4] 16 = Ok [(0, 1); (3, 4)].
Proof.
  split; [|vm_compute; reflexivity]. intros a b c d _ _ _ _ _. unfold ex_line. lia.
Qed.

(** ** C31: the cost of the matching *)
(** One step on four different vertices, in exact arithmetic: the cheapest of the three
    pairings, unless the three pairings cost less and less; then the result is not a pairing.
    (Missing: the claim for that case, where it is false.) *)
Theorem C31_step_partial : forall n w a b c d, (forall x, In x [a; b; c; d] -> x < n) -> NoDup [a; b; c; d] ->
  exists e f, optimize_two_matching (int_matrix n w) (a, b) (c, d) = Ok (e, f) /\
    (~ (w a d + w b c < w a c + w b d < w a b + w c d)%Z ->
       Permutation (endpoints [e; f]) [a; b; c; d] /\
       edges_cost w [e; f] = Z.min (w a b + w c d) (Z.min (w a c + w b d) (w a d + w b c))) /\
    ((w a d + w b c < w a c + w b d < w a b + w c d)%Z -> (e, f) = ((a, c), (b, c))).
Proof.
  intros n w a b c d Hr Hnd. destruct (bound_exists w n) as (W & HW & W0).
  pose proof (opt2_value (EZ_exact (2 * W)) (int_matrix n w) (matrix_of_wf n _) w W (emb_represents (EZ_exact (2 * W)) n w) HW ltac:(lia) a b c d Hr Hnd) as Ev.
  exists (fst (opt2 (int_matrix n w) (a, b) (c, d))), (snd (opt2 (int_matrix n w) (a, b) (c, d))).
  split; [|split].
  - rewrite <- surjective_pairing. apply optimize_Ok; [apply matrix_of_wf|split; apply Hr; cbn; tauto..].
  - intros Hns. exact (opt2_cost (EZ_exact (2 * W)) (int_matrix n w) (matrix_of_wf n _) w W (emb_represents (EZ_exact (2 * W)) n w) HW ltac:(lia) a b c d Hr Hnd Hns).
  - intros [H1 H2]. rewrite <- surjective_pairing, Ev. apply Z.ltb_lt in H1, H2. rewrite H1, H2. reflexivity.
Qed.
Print Assumptions C31_step_partial.

(** The whole computation, when no four listed vertices lead into that case: every mode and
    random outcome ends with a perfect matching that costs no more than the first one.
    (Missing: the other instances.) *)
Theorem C31_cost_partial : forall n w V draws M tries,
  (forall v, In v V -> v < n) -> NoDup V -> perfect_matching V M ->
  (forall a b c d, In a V -> In b V -> In c V -> In d V -> NoDup [a; b; c; d] -> ~ (w a d + w b c < w a c + w b d < w a b + w c d)%Z) ->
  exists M', improve_matching draws (int_matrix n w) M tries = Ok M' /\ perfect_matching V M' /\ (edges_cost w M' <= edges_cost w M)%Z.
Proof.
  intros n w V draws M tries HV Hnd HM Hns. destruct (bound_exists w n) as (W & HW & W0).
  assert (Hok : all_ok (int_matrix n w) M).
  { apply Forall_forall. intros [a b] Hin. assert (H : forall x, In x [a; b] -> x < n).
    - intros x Hx. apply HV. apply (Permutation_in _ HM). apply in_flat_map. exists (a, b). auto.
    - split; apply H; cbn; auto. }
  destruct (improve_matching_spec (int_matrix n w) (matrix_of_wf n _) draws M tries Hok) as (M' & E & _ & HI).
  exists M'. split; [assumption|].
  apply (HI _ (cost_inv (EZ_exact (2 * W)) (int_matrix n w) (matrix_of_wf n _) w W (emb_represents (EZ_exact (2 * W)) n w) HW ltac:(lia) V HV Hnd Hns (edges_cost w M))).
  split; [assumption|lia].
Qed.
Print Assumptions C31_cost_partial.

Theorem C31_cost_f64_partial : forall e n w W V draws M tries, (-1074 <= e <= 970)%Z -> bounded w n W -> (2 * W <= 2 ^ 53)%Z ->
  (forall v, In v V -> v < n) -> NoDup V -> perfect_matching V M ->
  (forall a b c d, In a V -> In b V -> In c V -> In d V -> NoDup [a; b; c; d] -> ~ (w a d + w b c < w a c + w b d < w a b + w c d)%Z) ->
  exists M', improve_matching draws (f64_matrix e n w) M tries = Ok M' /\ perfect_matching V M' /\ (edges_cost w M' <= edges_cost w M)%Z.
Proof.
  intros e n w W V draws M tries He HW HB HV Hnd HM Hns.
  assert (Hok : all_ok (f64_matrix e n w) M).
  { apply Forall_forall. intros [a b] Hin. assert (H : forall x, In x [a; b] -> x < n).
    - intros x Hx. apply HV. apply (Permutation_in _ HM). apply in_flat_map. exists (a, b). auto.
    - split; apply H; cbn; auto. }
  destruct (improve_matching_spec (f64_matrix e n w) (matrix_of_wf n _) draws M tries Hok) as (M' & E & _ & HI).
  exists M'. split; [assumption|].
  apply (HI _ (cost_inv (B64_exact e He) (f64_matrix e n w) (matrix_of_wf n _) w W (emb_represents (B64_exact e He) n w) HW HB V HV Hnd Hns (edges_cost w M))).
  split; [assumption|lia].
Qed.
Print Assumptions C31_cost_f64_partial.

Theorem C31_refuted : exists n w V M draws, symmetric w n /\ triangle w n /\ perfect_matching V M /\ (forall v, In v V -> v < n) /\ NoDup V /\
  exists M', improve_matching draws (int_matrix n w) M 1 = Ok M' /\ (edges_cost w M < edges_cost w M')%Z.
Proof.
  exists 4, ex_slip, [0; 1; 2; 3], [(0, 1); (2, 3)], (fun _ i => i). split; [concrete|]. split; [concrete|].
  split; [apply Permutation_refl|]. split; [cbn; lia|]. split; [repeat constructor; cbn; lia|].
  exists [(0, 2); (1, 2)]. split; [vm_compute; reflexivity|]. vm_compute. reflexivity.
Qed.
Print Assumptions C31_refuted.

(** A matching of points on a line, which one step makes cheaper *)
Example C31_applies : perfect_matching [0; 1; 3; 4] [(0, 3); (1, 4)] /\
  (forall a b c d, In a [0; 1; 3; 4] -> In b [0; 1; 3; 4] -> In c [0; 1; 3; 4] -> In d [0; 1; 3; 4] -> NoDup [a; b; c; d] ->
     ~ (ex_line a d + ex_line b c < ex_line a c + ex_line b d < ex_line a b + ex_line c d)%Z) /\
  improve_matching (fun _ i => i) (int_matrix 5 ex_line) [(0, 3); (1, 4)] 1 = Ok [(0, 1); (3, 4)] /\
  Z.lt (edges_cost ex_line [(0, 1); (3, 4)]) (edges_cost ex_line [(0, 3); (1, 4)]).
Proof.
  split; [cbn; apply perm_skip, perm_swap|]. split; [intros a b c d _ _ _ _ _; unfold ex_line; lia|]. split; vm_compute; reflexivity.
Qed.

(** ** C32: three halves of the optimum *)
(** The algorithm with any procedure [comp] that returns a perfect matching of least cost of
    the vertices of odd degree in the tree it is given, in every mode. *)
Definition odd_in {N : Num} (mst : graph N) : list nat := filter (fun v => Nat.odd (length (nth v mst []))) (seq 0 (length mst)).

Lemma ratio_general {N B} (E : Exact N B) (O : NumOrd N) (m : namatrix N) w W debug env fenv mode comp :
  na_wf m -> 1 <= na_dim m -> represents E (na_adj m) w -> bounded w (na_dim m) W -> (2 * W * (Z.of_nat (na_dim m) + 1) <= B)%Z ->
  mode <= 2 -> symmetric w (na_dim m) -> triangle w (na_dim m) -> (debug = true -> is_metric (na_adj m) = Ok true) ->
  (forall mst, prim env mode m = Ok mst -> exists M, comp mst m = Ok M /\ perfect_matching (odd_in mst) M /\
     forall M', perfect_matching (odd_in mst) M' -> (edges_cost w M <= edges_cost w M')%Z) ->
  exists p, christofides_generic debug env fenv mode m comp = Ok (inj E (tour_cost w (0 :: p)), (0 :: p) ++ [0]) /\
    is_tour (na_dim m) (0 :: p) /\ forall q, is_tour (na_dim m) q -> (2 * tour_cost w (0%nat :: p) <= 3 * tour_cost w q)%Z.
Proof.
  intros Hwf Hn Hrep HW HB Hmode Hs Ht Hd Hcomp.
  destruct (prim_least E O m Hwf Hn w W Hrep HW HB env mode Hmode) as (mst & T & Ep & Hl & HT & Hadj & Hmin).
  destruct (Hcomp mst Ep) as (M & EM & HM & HMmin). unfold odd_in in HM, HMmin. rewrite <- odd_vertices_filter in HM, HMmin.
  destruct (christofides_cost E m Hwf Hn w W Hrep HW HB debug env fenv mode comp mst T M Hmode Hs Ht Hd Ep Hl HT Hadj EM HM) as (p & E1 & E2 & E3).
  exists p. split; [assumption|]. split; [assumption|].
  exact (christofides_ratio E m Hn w debug env fenv mode comp mst T M p Hmode Hs Ht Ep Hl HT (Hmin Hs) Hadj HMmin E1 E2 E3).
Qed.

Lemma metric_EZ n w : triangle w n -> is_metric (na_adj (int_matrix n w)) = Ok true.
Proof.
  intros Ht. apply (is_metric_iff (na_adj (int_matrix n w)) (fun i j => Fin (w i j) : C EZ)).
  - intros i j Hi Hj. exact (matrix_of_get n (fun i j => Fin (w i j) : C EZ) i j Hi Hj).
  - intros i j k Hi Hj Hk. change (a_dim (na_adj (int_matrix n w))) with n in *. cbn. apply Z.ltb_ge. specialize (Ht i j k ltac:(lia) Hj Hk). lia.
Qed.

Lemma metric_B64 e n w W : (-1074 <= e <= 970)%Z -> bounded w n W -> (W <= 2 ^ 53)%Z -> triangle w n -> is_metric (na_adj (f64_matrix e n w)) = Ok true.
Proof.
  intros He HW HB Ht. apply (is_metric_iff (na_adj (f64_matrix e n w)) (fun i j => b64_inj e (w i j) : C B64)).
  - intros i j Hi Hj. exact (matrix_of_get n (fun i j => b64_inj e (w i j) : C B64) i j Hi Hj).
  - intros i j k Hi Hj Hk. change (a_dim (na_adj (f64_matrix e n w))) with n in *.
    assert (Hin : forall a b, a < n -> b < n -> fin (b64_inj e (w a b)) /\ r64 (b64_inj e (w a b)) = val e (w a b)).
    { intros a b Ha Hb. specialize (HW a b Ha Hb). destruct (inj_correct e He (w a b) ltac:(lia)) as (A & B & _). auto. }
    destruct (Hin i k ltac:(lia) Hk) as [F1 V1]. destruct (Hin k j Hk Hj) as [F2 V2]. destruct (Hin i j ltac:(lia) Hj) as [F3 V3].
    apply test_passes; try assumption. rewrite V1, V2, V3. unfold val, F2R. cbn [Fnum Fexp]. specialize (Ht i j k ltac:(lia) Hj Hk). apply IZR_le in Ht. rewrite plus_IZR in Ht.
    rewrite <- Rmult_plus_distr_r. apply Rmult_le_compat_r; [apply bpow_ge_0|exact Ht].
Qed.

Theorem C32_three_halves : forall n w debug env fenv mode comp, 1 <= n -> mode <= 2 -> symmetric w n -> triangle w n ->
  (forall mst, prim env mode (int_matrix n w) = Ok mst -> exists M, comp mst (int_matrix n w) = Ok M /\ perfect_matching (odd_in mst) M /\
     forall M', perfect_matching (odd_in mst) M' -> (edges_cost w M <= edges_cost w M')%Z) ->
  exists p, christofides_generic debug env fenv mode (int_matrix n w) comp = Ok (Fin (tour_cost w (0 :: p)), (0 :: p) ++ [0]) /\
    is_tour n (0 :: p) /\ forall q, is_tour n q -> (2 * tour_cost w (0%nat :: p) <= 3 * tour_cost w q)%Z.
Proof.
  intros n w debug env fenv mode comp Hn Hmode Hs Ht Hc. destruct (EZ_bound 2 w n ltac:(lia)) as (W & B & HW & H0 & HB).
  exact (ratio_general (EZ_exact B) EZ_ord (int_matrix n w) w W debug env fenv mode comp (matrix_of_wf n _) Hn (emb_represents (EZ_exact B) n w) HW HB
    Hmode Hs Ht (fun _ => metric_EZ n w Ht) Hc).
Qed.
Print Assumptions C32_three_halves.

Theorem C32_three_halves_f64 : forall e n w W debug env fenv mode comp, (-1074 <= e <= 970)%Z -> 1 <= n -> mode <= 2 ->
  bounded w n W -> (2 * W * (Z.of_nat n + 1) <= 2 ^ 53)%Z -> symmetric w n -> triangle w n ->
  (forall mst, prim env mode (f64_matrix e n w) = Ok mst -> exists M, comp mst (f64_matrix e n w) = Ok M /\ perfect_matching (odd_in mst) M /\
     forall M', perfect_matching (odd_in mst) M' -> (edges_cost w M <= edges_cost w M')%Z) ->
  exists p, christofides_generic debug env fenv mode (f64_matrix e n w) comp = Ok (b64_inj e (tour_cost w (0 :: p)), (0 :: p) ++ [0]) /\
    is_tour n (0 :: p) /\ forall q, is_tour n q -> (2 * tour_cost w (0%nat :: p) <= 3 * tour_cost w q)%Z.
Proof.
  intros e n w W debug env fenv mode comp He Hn Hmode HW HB Hs Ht Hc.
  assert (Hd : debug = true -> is_metric (na_adj (f64_matrix e n w)) = Ok true) by (intros _; apply (metric_B64 e n w W); try assumption; specialize (HW 0 0 ltac:(lia) ltac:(lia)); nia).
  exact (ratio_general (B64_exact e He) B64_ord (f64_matrix e n w) w W debug env fenv mode comp (matrix_of_wf n _) Hn (emb_represents (B64_exact e He) n w) HW HB
    Hmode Hs Ht Hd Hc).
Qed.
Print Assumptions C32_three_halves_f64.

(** For any perfect matching of the odd vertices, least or not: no more than a minimum
    spanning tree and the matching together. *)
Theorem C32_tree_and_matching : forall n w debug env fenv mode comp, 2 <= n -> mode <= 2 -> symmetric w n -> triangle w n ->
  (forall mst, prim env mode (int_matrix n w) = Ok mst -> exists M, comp mst (int_matrix n w) = Ok M /\ perfect_matching (odd_in mst) M) ->
  exists mst M p, prim env mode (int_matrix n w) = Ok mst /\ comp mst (int_matrix n w) = Ok M /\
    christofides_generic debug env fenv mode (int_matrix n w) comp = Ok (Fin (tour_cost w (0 :: p)), (0 :: p) ++ [0]) /\
    is_tour n (0 :: p) /\ forall T, spanning_tree (seq 0 n) T -> (forall T', spanning_tree (seq 0 n) T' -> (edges_cost w T <= edges_cost w T')%Z) ->
    (tour_cost w (0%nat :: p) <= edges_cost w T + edges_cost w M)%Z.
Proof.
  intros n w debug env fenv mode comp Hn Hmode Hs Ht Hc. destruct (EZ_bound 2 w n ltac:(lia)) as (W & B & HW & H0 & HB).
  set (m := int_matrix n w) in *. assert (Hn1 : 1 <= na_dim m) by (cbn; lia).
  pose proof (emb_represents (EZ_exact B) n w) as Hrep.
  destruct (prim_least (EZ_exact B) EZ_ord m (matrix_of_wf n _) Hn1 w W Hrep HW HB env mode Hmode) as (mst & T & Ep & Hl & HT & Hadj & Hmin).
  destruct (Hc mst Ep) as (M & EM & HM). unfold odd_in in HM. rewrite <- odd_vertices_filter in HM.
  destruct (christofides_cost (EZ_exact B) m (matrix_of_wf n _) Hn1 w W Hrep HW HB debug env fenv mode comp mst T M Hmode Hs Ht (fun _ => metric_EZ n w Ht) Ep Hl HT Hadj EM HM) as (p & E1 & E2 & E3).
  exists mst, M, p. split; [assumption|]. split; [assumption|]. split; [exact E1|]. split; [exact E2|].
  intros T' HT' Hmin'. specialize (E3 Hn). specialize (Hmin Hs T' HT'). lia.
Qed.
Print Assumptions C32_tree_and_matching.

(** The matching of the code is a least one when the graph has two odd vertices. *)
Definition ex_metric : nat -> nat -> Z := table [[0;2;3;4]; [2;0;2;3]; [3;2;0;2]; [4;3;2;0]]%Z.
Example C32_applies : symmetric ex_metric 4 /\ triangle ex_metric 4 /\
  (forall mst, prim ex_menv SEQ_COMPUTATION (int_matrix 4 ex_metric) = Ok mst ->
     exists M, compute_approx_matching ex_slip_mt SEQ_COMPUTATION mst (int_matrix 4 ex_metric) = Ok M /\ perfect_matching (odd_in mst) M /\
     forall M', perfect_matching (odd_in mst) M' -> (edges_cost ex_metric M <= edges_cost ex_metric M')%Z) /\
  christofides true ex_menv (mkFillEnv [] []) ex_slip_mt SEQ_COMPUTATION (int_matrix 4 ex_metric) = Ok (Fin 10%Z : C EZ, [0; 1; 2; 3; 0]).
Proof.
  split; [concrete|]. split; [concrete|]. split; [|vm_compute; reflexivity].
  assert (E : exists mst, prim ex_menv SEQ_COMPUTATION (int_matrix 4 ex_metric) = Ok mst /\ odd_in mst = [0; 3] /\
     compute_approx_matching ex_slip_mt SEQ_COMPUTATION mst (int_matrix 4 ex_metric) = Ok [(0, 3)]).
  { eexists. split; [vm_compute; reflexivity|]. split; vm_compute; reflexivity. }
  destruct E as (mst & E1 & E2 & E3). intros mst' E'. assert (mst' = mst) as -> by congruence.
  exists [(0, 3)]. split; [assumption|]. rewrite E2. split; [apply Permutation_refl|].
  intros M' HM'. unfold perfect_matching in HM'. pose proof (Permutation_length HM') as Hlen. rewrite endpoints_length in Hlen. cbn in Hlen.
  destruct M' as [|[a b] [|]]; cbn in Hlen; try lia. cbn in HM'. apply Permutation_sym, Permutation_length_2_inv in HM'.
  destruct HM' as [H|H]; injection H as -> ->; vm_compute; discriminate.
Qed.

(** ** C33: the parallel construction of the multigraph *)
(** [mst] are the adjacency lists of the tree [T], with any costs on its edges. *)
Theorem C33_parallel_multigraph : forall (N : Num) (m : namatrix N) T (cost : nat -> nat -> C N) (mst : graph N) M env,
  na_wf m -> spanning_tree (seq 0 (na_dim m)) T -> length mst = na_dim m ->
  (forall v, v < na_dim m -> nth v mst [] = map (fun x => mkEdge (fst x) (cost (fst (snd x)) (snd (snd x)))) (incident T v)) ->
  (forall a b, In (a, b) M -> a < na_dim m /\ b < na_dim m) -> ~ repeated_pair M ->
  exists g, fill_multigraph env PAR_COMPUTATION m mst M = Ok g /\ fill_multigraph env SEQ_COMPUTATION m mst M = Ok g /\
    fill_multigraph env MPI_COMPUTATION m mst M = Ok g /\ mg_dim g = na_dim m /\
    forall i j, i < na_dim m -> j < na_dim m -> exists x, mg_cell g i j = Ok (x, copies (T ++ M) i j).
Proof.
  intros N m T cost mst M env Hwf HT Hl Hadj HM Hrep.
  destruct (fill_modes m Hwf T cost mst HT Hl Hadj M HM env PAR_COMPUTATION ltac:(unfold PAR_COMPUTATION; lia) (fun _ => distinct_of_not_repeated M Hrep))
    as (g & E1 & E2 & Hd & Hw & Hc).
  exists g. split; [assumption|]. split; [assumption|]. split; [exact E2|]. split; [assumption|].
  intros i j Hi Hj. rewrite <- Hd in Hi, Hj. rewrite mg_cell_Ok by assumption. rewrite Hd in Hi, Hj.
  exists (fst (cell g i j)). rewrite <- Hc by assumption. unfold cnt. rewrite <- surjective_pairing. reflexivity.
Qed.
Print Assumptions C33_parallel_multigraph.

(** a matching that touches each vertex at most once repeats no pair *)
Theorem C33_matching_repeats_no_pair : forall M, NoDup (endpoints M) -> ~ repeated_pair M.
Proof.
  intros M Hnd (A & e & B & f & D & -> & Hf). unfold endpoints in Hnd. rewrite flat_map_app in Hnd.
  change (flat_map (fun e0 => [fst e0; snd e0]) (e :: B ++ f :: D)) with (fst e :: snd e :: endpoints (B ++ f :: D)) in Hnd.
  assert (Hnd' : NoDup (fst e :: snd e :: endpoints (B ++ f :: D))).
  { clear Hf. induction (flat_map (fun e0 => [fst e0; snd e0]) A) as [|x l IH]; [exact Hnd|]. inversion Hnd; auto. }
  inversion Hnd' as [|? ? Hno _]; subst. apply Hno. right.
  unfold endpoints. rewrite flat_map_app. apply in_or_app. right. destruct Hf as [->| ->]; cbn; auto.
Qed.
Print Assumptions C33_matching_repeats_no_pair.

(** With a repeated pair an increment can be lost. *)
Theorem C33_repeated_pair_races : exists n w (mst : graph EZ) M sched1 sched2 g1 g2 x1 x2,
  fill_multigraph (mkFillEnv [] sched1) PAR_COMPUTATION (int_matrix n w) mst M = Ok g1 /\
  fill_multigraph (mkFillEnv [] sched2) PAR_COMPUTATION (int_matrix n w) mst M = Ok g2 /\
  mg_cell g1 0 1 = Ok (x1, 3) /\ mg_cell g2 0 1 = Ok (x2, 2).
Proof.
  exists 2, (fun _ _ => 1%Z), [[mkEdge 1 (Fin 1%Z : C EZ)]; [mkEdge 0 (Fin 1%Z : C EZ)]], [(0, 1); (0, 1)], [0; 0; 0; 0; 0; 0; 0; 0], [0; 1; 0; 1; 0; 1; 0; 1].
  do 4 eexists. split; [vm_compute; reflexivity|]. split; [vm_compute; reflexivity|]. split; vm_compute; reflexivity.
Qed.
Print Assumptions C33_repeated_pair_races.

(** Two schedules of a run with the tree 0-1, 1-2, 1-3 and a matching of its odd vertices. *)
Example C33_applies : spanning_tree (seq 0 4) [(0, 1); (1, 2); (1, 3)] /\ ~ repeated_pair [(0, 1); (3, 2)] /\
  let mst := map (map (fun to => mkEdge to (Fin 1%Z : C EZ))) [[1]; [0; 2; 3]; [1]; [1]] in
  (forall v, v < 4 -> nth v mst [] = map (fun x => mkEdge (fst x) (Fin 1%Z : C EZ)) (incident [(0, 1); (1, 2); (1, 3)] v)) /\
  exists g, fill_multigraph (mkFillEnv [2; 0; 1] [1; 0; 0; 1]) PAR_COMPUTATION (int_matrix 4 (fun _ _ => 1%Z)) mst [(0, 1); (3, 2)] = Ok g /\
    fill_multigraph (mkFillEnv [] []) PAR_COMPUTATION (int_matrix 4 (fun _ _ => 1%Z)) mst [(0, 1); (3, 2)] = Ok g /\
    mg_cell g 1 0 = Ok (Fin 1%Z : C EZ, 2) /\ mg_cell g 2 3 = Ok (Fin 1%Z : C EZ, 1).
Proof.
  split.
  { assert (J : forall a, In a (seq 0 4) -> joined [(0, 1); (1, 2); (1, 3)] 1 a).
    { intros a Ha. cbn in Ha. destruct Ha as [<-|[<-|[<-|[<-|[]]]]]; [|constructor|..]; (eapply joined_step; [constructor|cbn; auto]). }
    split; [|split; [|reflexivity]].
    - intros a b H. cbn in *. intuition congruence.
    - intros a b Ha Hb. apply J in Ha, Hb. eapply joined_trans; [apply joined_sym; eassumption|assumption]. }
  split; [apply C33_matching_repeats_no_pair; repeat constructor; cbn; lia|]. cbv zeta. split.
  - intros [|[|[|[|v]]]] Hv; try lia; reflexivity.
  - eexists. split; [vm_compute; reflexivity|]. split; [vm_compute; reflexivity|]. split; vm_compute; reflexivity.
Qed.

(** ** C34: parallel and MPI improvement *)
(** Same shuffles, any schedule of the tasks: the sequential result. *)
Theorem C34_parallel_is_sequential : forall (N : Num) (m : namatrix N) draws sched M tries,
  na_wf m -> (forall a b, In (a, b) M -> a < na_dim m /\ b < na_dim m) ->
  par_improve_matching draws sched m M tries = improve_matching draws m M tries.
Proof.
  intros N m draws sched M tries Hwf HM. apply par_improve_seq; [assumption|]. apply Forall_forall. intros [a b] Hin. apply HM. assumption.
Qed.
Print Assumptions C34_parallel_is_sequential.

(** Every process ends with the matching one of them found, and no process found a cheaper one. *)
Theorem C34_mpi_cheapest : forall (N : Num) (O : NumOrd N) (m : namatrix N) draws M tries size,
  na_wf m -> (forall a b, In (a, b) M -> a < na_dim m /\ b < na_dim m) -> M <> [] -> 1 <= size ->
  exists best cost, mpi_improve_matching draws m M tries size = Ok (repeat best size) /\
    (exists r, r < size /\ improve_matching (draws r) m M tries = Ok best) /\ matching_cost m best = Ok cost /\
    forall r, r < size -> exists other cost', improve_matching (draws r) m M tries = Ok other /\ matching_cost m other = Ok cost' /\ clt cost' cost = false.
Proof.
  intros N O m draws M tries size Hwf HM Hne Hs. assert (Hok : all_ok m M) by (apply Forall_forall; intros [a b] Hin; apply HM; assumption).
  destruct (mpi_improve_spec m Hwf O draws M tries size Hok Hne Hs) as (r & Mr & cr & Hr & E1 & E2 & E3 & Hmin).
  exists Mr, cr. split; [assumption|]. split; [exists r; auto|]. split; [assumption|].
  intros r' Hr'. destruct (improve_matching_spec m Hwf (draws r') M tries Hok) as (M' & E' & Hok' & _).
  destruct (matching_cost_Ok m Hwf M' Hok') as [c' Ec']. exists M', c'. split; [assumption|]. split; [assumption|]. eapply Hmin; eassumption.
Qed.
Print Assumptions C34_mpi_cheapest.

Theorem C34_mpi_empty_panics : forall (N : Num) (m : namatrix N) draws tries size, mpi_improve_matching draws m [] tries size = Panic.
Proof. reflexivity. Qed.
Print Assumptions C34_mpi_empty_panics.

Example C34_applies : exists a b,
  improve_matching (fun _ _ => 0) (int_matrix 9 ex_race) [(1, 2); (3, 4); (5, 6); (7, 8)] 2 = Ok a /\
  improve_matching (fun t i => t) (int_matrix 9 ex_race) [(1, 2); (3, 4); (5, 6); (7, 8)] 2 = Ok b /\ a <> b /\
  mpi_improve_matching (fun r t i => r * t) (int_matrix 9 ex_race) [(1, 2); (3, 4); (5, 6); (7, 8)] 2 2 = Ok [a; a].
Proof. do 2 eexists. split; [vm_compute; reflexivity|]. split; [vm_compute; reflexivity|]. split; [discriminate|]. vm_compute. reflexivity. Qed.

(** ** C47: the guarantee with the matching of the code *)
(** A metric instance, on which the code as it is run returns a tour of 8/5 of the optimum. *)
Definition ex_ratio : nat -> nat -> Z := table [[0;1;2;1;1]; [1;0;1;1;2]; [2;1;0;2;1]; [1;1;2;0;2]; [1;2;1;2;0]]%Z.
Theorem C47_refuted : exists n w env fenv mt, symmetric w n /\ triangle w n /\ nonneg w n /\
  forall debug mode, mode <= 2 -> exists p q,
    christofides debug env fenv mt mode (int_matrix n w) = Ok (Fin (tour_cost w (0 :: p)), (0 :: p) ++ [0]) /\
    is_tour n (0 :: p) /\ is_tour n q /\ (3 * tour_cost w q < 2 * tour_cost w (0%nat :: p))%Z.
Proof.
  exists 5, ex_ratio, ex_menv, (mkFillEnv [] []), (mkMtEnv (fun i => if i =? 3 then 1 else 0) (fun _ _ i => i) (fun _ => []) 1).
  split; [concrete|]. split; [concrete|]. split; [concrete|].
  intros debug mode Hm. exists [3; 4; 1; 2], [0; 3; 1; 2; 4].
  split; [|concrete]. destruct mode as [|[|[|]]]; [..|lia]; destruct debug; vm_compute; reflexivity.
Qed.
Print Assumptions C47_refuted.

(** With two odd vertices the matching is a least one and the factor holds.  (Missing: more odd
    vertices, where it is false.) *)
Theorem C47_two_odd_partial : forall n w debug env fenv mt mode, 2 <= n -> mode <= 2 -> symmetric w n -> triangle w n -> 1 <= mt_size mt ->
  (forall mst, prim env mode (int_matrix n w) = Ok mst -> length (odd_in mst) = 2) ->
  exists p, christofides debug env fenv mt mode (int_matrix n w) = Ok (Fin (tour_cost w (0 :: p)), (0 :: p) ++ [0]) /\
    is_tour n (0 :: p) /\ forall q, is_tour n q -> (2 * tour_cost w (0%nat :: p) <= 3 * tour_cost w q)%Z.
Proof.
  intros n w debug env fenv mt mode Hn Hmode Hs Ht Hsize Hodd. apply C32_three_halves; try assumption; [lia|].
  intros mst Emst. specialize (Hodd mst Emst). unfold odd_in in *. rewrite <- odd_vertices_filter in *.
  assert (Hl : length mst = n).
  { destruct (bound_exists w n) as (W & HW & W0).
    destruct (prim_tree (int_matrix n w) EZ_ord (matrix_of_wf n _)) with (env := env) (mode := mode) as (mst' & T & E & Hl & _); [|cbn; lia|assumption|].
    - intros i j Hi Hj _. pose proof (matrix_of_get n (fun i j => Fin (w i j) : C EZ) i j Hi Hj) as Hg. unfold int_matrix. rewrite na_get_val in Hg by (apply matrix_of_wf || assumption). injection Hg as ->. reflexivity.
    - assert (mst = mst') as -> by congruence. exact Hl. }
  assert (HV : forall v, In v (odd_vertices mst) -> v < n) by (intros v Hv; apply (odd_vertices_spec (int_matrix n w) mst Hl) in Hv; tauto).
  destruct (approx_spec (int_matrix n w) (matrix_of_wf n _) (odd_vertices mst) HV EZ_ord mt mode (length (odd_vertices mst) * length (odd_vertices mst)) Hmode) as (M & EM & _ & HI).
  { intros _. lia. }
  exists M. split; [exact EM|].
  assert (HP : perfect_matching (odd_vertices mst) M).
  { apply (HI (perfect_matching (odd_vertices mst))); [|apply first_perfect; rewrite Hodd; exists 1; reflexivity].
    apply perfect_inv; [apply odd_vertices_NoDup|]. intros a b c d Ha Hb Hc Hd Hnd. exfalso.
    assert (Hle : length [a; b; c; d] <= length (odd_vertices mst)) by (apply NoDup_incl_length; [assumption|]; intros x Hx; cbn in Hx; intuition congruence).
    rewrite Hodd in Hle. cbn in Hle. lia. }
  split; [assumption|]. intros M' HP'.
  pose proof (Permutation_length HP) as L1. pose proof (Permutation_length HP') as L2. rewrite endpoints_length, Hodd in L1. rewrite endpoints_length, Hodd in L2.
  destruct M as [|[a b] [|]]; cbn in L1; try lia. destruct M' as [|[a' b'] [|]]; cbn in L2; try lia.
  unfold perfect_matching in HP, HP'. rewrite <- HP' in HP. cbn in HP. apply Permutation_length_2_inv in HP.
  assert (Hr : forall x, In x [a'; b'] -> x < n) by (intros x Hx; apply HV, (Permutation_in _ HP'); exact Hx).
  cbn [edges_cost fold_right fst snd]. destruct HP as [H|H]; injection H as <- <-; [lia|].
  match goal with |- (_ + 0 <= w ?x ?y + 0)%Z => rewrite (Hs x y) by (apply Hr; cbn; tauto) end. lia.
Qed.
Print Assumptions C47_two_odd_partial.

Example C47_applies : forall mst, prim ex_menv SEQ_COMPUTATION (int_matrix 4 ex_metric) = Ok mst -> length (odd_in mst) = 2.
Proof.
  assert (E : exists mst, prim ex_menv SEQ_COMPUTATION (int_matrix 4 ex_metric) = Ok mst /\ length (odd_in mst) = 2) by (eexists; split; vm_compute; reflexivity).
  destruct E as (mst & E1 & E2). intros mst' E'. congruence.
Qed.
