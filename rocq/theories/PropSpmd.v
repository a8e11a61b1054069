(** C57: Christofides' algorithm with MPI, process by process. *)
From Coq Require Import ZArith Arith Bool List Permutation Lia.
From Verif Require Import Num NumB64 Base Spec Data Rand Mst Par MstPar Matching Christofides Spmd MatchingMpi PrimProofs MatchingProofs FillProofs ChristofidesProofs SpmdProofs
  MatchingMpiProofs Instances PropChristofides.
Import ListNotations.

(** The first [size] processes, started as [f], end as [e] says: after [K] steps, in every order
    of the steps and with every delay of the messages; and until then there is always a process
    that can go on even if the implementation of MPI buffers nothing. *)
Definition always_ends {M A} (size K : nat) (f e : nat -> proc M A) : Prop :=
  forall n c, reach size n (start f) c -> n <= K /\
    (exists d, reach size (K - n) c d /\ forall i, i < size -> c_proc d i = e i) /\
    ((forall i, i < size -> c_proc c i = e i) \/ exists i, i < size /\ ready size c i).

(** The root and its helpers end with the same matching, that of C34. *)
Theorem C57_matching : forall (N : Num) (O : NumOrd N) (m : namatrix N) draws M tries size,
  na_wf m -> (forall a b, In (a, b) M -> a < na_dim m /\ b < na_dim m) -> M <> [] -> 1 <= size ->
  exists best, mpi_improve_matching draws m M tries size = Ok (repeat best size) /\
    always_ends size (11 * size - 4) (matching_process draws size m M tries) (fun _ => Ret best).
Proof.
  intros N O m draws M tries size Hwf HM Hne Hs. assert (Hok : all_ok m M) by (apply Forall_forall; intros [a b] Hin; apply HM; assumption).
  eexists. split; [exact (mpi_result m Hwf draws size Hs M tries Hok Hne)|].
  pose proof (processes_run m Hwf draws size Hs M tries Hok Hne) as Hrun. intros n c R.
  replace (11 * size - 4) with (5 * size + (4 * (size - 1) + (size + (size + 0)))) by lia.
  exact (srun_all size Hs _ _ _ Hrun n c R).
Qed.
Print Assumptions C57_matching.

(** Without an edge to match all processes panic. *)
Theorem C57_empty_panics : forall (N : Num) (m : namatrix N) draws tries size, 1 <= size ->
  always_ends size (3 * size) (matching_process draws size m [] tries) (fun _ => Crash).
Proof.
  intros N m draws tries size Hs n c R. apply (srun_all size Hs (3 * size) (matching_process draws size m [] tries)); [|assumption].
  set (run := matching_process draws size m [] tries). set (v1 := MNat tries : msg N). set (v2 := MNat 0 : msg N). set (v3 := MNat (na_dim m) : msg N).
  assert (E1 : exists k, run 0 = Bcast v1 k) by (eexists; reflexivity).
  assert (E2 : exists k, after v1 (run 0) = Bcast v2 k) by (eexists; reflexivity).
  assert (E3 : exists k, after v2 (after v1 (run 0)) = Bcast v3 k) by (eexists; reflexivity).
  assert (Hr : forall r, r <> 0 -> run r = matching_helper (draws r) size r).
  { intros r Hr. unfold run, matching_process. apply Nat.eqb_neq in Hr. rewrite Hr. reflexivity. }
  destruct E1 as (k1 & E1). destruct E2 as (k2 & E2). destruct E3 as (k3 & E3).
  replace (3 * size) with (size + (size + (size + 0))) by lia.
  eapply (srun_bcast size _ run (fun i => after v1 (run i)) _ v1 k1); [|exact E1|reflexivity|].
  { apply (all_bcast size run v1); [eexists; exact E1|]. intros r H0. rewrite Hr by assumption. exact Logic.I. }
  eapply (srun_bcast size _ _ (fun i => after v2 (after v1 (run i))) _ v2 k2); [|exact E2|reflexivity|].
  { apply (all_bcast size (fun i => after v1 (run i)) v2); [eexists; exact E2|]. intros r H0. rewrite Hr by assumption. exact Logic.I. }
  eapply (srun_bcast size _ _ (fun i => after v3 (after v2 (after v1 (run i)))) _ v3 k3); [|exact E3|reflexivity|].
  { apply (all_bcast size (fun i => after v2 (after v1 (run i))) v3); [eexists; exact E3|]. intros r H0. rewrite Hr by assumption. exact Logic.I. }
  constructor. intros i Hi. split; [|exact Logic.I]. destruct (Nat.eq_dec i 0) as [->|H0]; [reflexivity|].
  rewrite Hr by assumption. cbn. apply Nat.eqb_neq in H0. rewrite H0. reflexivity.
Qed.
Print Assumptions C57_empty_panics.

(** The whole command: the root ends with the solution of C28 and the others with nothing to print. *)
Theorem C57_christofides : forall (N : Num) (O : NumOrd N) (m : namatrix N) (cost : nat -> nat -> C N) debug env fenv mt,
  na_wf m -> (forall i j, i < na_dim m -> j < na_dim m -> na_get m i j = Ok (cost i j)) ->
  (forall i j, i < na_dim m -> j < na_dim m -> i <> j -> clt (cost i j) cinf = true) -> 2 <= na_dim m -> 1 <= mt_size mt ->
  (debug = true -> is_metric (na_adj m) = Ok true) ->
  exists s, christofides debug env fenv mt MPI_COMPUTATION m = Ok s /\
    always_ends (mt_size mt) (11 * mt_size mt - 4) (christofides_process debug env fenv mt m) (fun rank => Ret (if rank =? 0 then Some s else None)).
Proof.
  intros N O m cost debug env fenv mt Hwf Hget Hfin Hn Hs Hdbg.
  destruct (C28_mpi N O m cost debug env fenv mt Hwf Hget Hfin Hn Hs Hdbg) as (x & p & E & _). exists (x, (0 :: p) ++ [0]). split; [assumption|].
  assert (Hfin' : forall i j, i < na_dim m -> j < na_dim m -> i <> j -> clt (na_val m i j) cinf = true).
  { intros i j Hi Hj Hij. specialize (Hget i j Hi Hj). rewrite na_get_val in Hget by assumption. injection Hget as ->. auto. }
  destruct (prim_tree m O Hwf Hfin' ltac:(lia) env MPI_COMPUTATION ltac:(unfold MPI_COMPUTATION; lia)) as (mst & T & Ep & Hl & HT & Hadj).
  assert (Epre : (metric <- (if debug then is_metric (na_adj m) else Ok true) ;; _ <- assert metric ;; prim env MPI_COMPUTATION m) = Ok mst).
  { destruct debug; [rewrite Hdbg by reflexivity|]; cbn [bind assert]; exact Ep. }
  set (V := odd_vertices mst) in *. assert (HV : forall v, In v V -> v < na_dim m) by (intros v Hv; apply (odd_vertices_spec m mst Hl) in Hv; tauto).
  set (M := chunks2 (shuffle (mt_first mt) V)) in *. pose proof (first_ok m V HV (mt_first mt)) as Hok. fold M in Hok.
  assert (Hne : M <> []).
  { intros E0. assert (H2 : 2 <= length V) by (apply (odd_vertices_two m T (na_val m) mst); assumption).
    pose proof (chunks2_length (shuffle (mt_first mt) V)) as H. fold M in H. rewrite E0 in H. cbn [length] in H.
    rewrite (Permutation_length (shuffle_perm (mt_first mt) V)) in H. lia. }
  set (tries := length V * length V) in *.
  pose proof (mpi_result m Hwf (mt_draws mt) (mt_size mt) Hs M tries Hok Hne) as Em.
  pose proof (processes_run m Hwf (mt_draws mt) (mt_size mt) Hs M tries Hok Hne) as Hrun.
  set (best := snd (best_of m (mt_draws mt) M tries (seq 1 (mt_size mt - 1)))) in *.
  assert (Erest : (g <- fill_multigraph fenv MPI_COMPUTATION m mst best ;; euler <- eulerian_cycle g ;;
                 ham <- hamiltonian_from_eulerian_cycle (na_dim m) euler ;; cost <- windows_cost m ham ;;
                 _ <- assert (if debug then is_hamiltonian_cycle ham (na_dim m) else true) ;; Ok (cost, ham)) = Ok (x, (0 :: p) ++ [0])).
  { rewrite <- E. unfold christofides, christofides_generic.
    destruct debug; [rewrite Hdbg by reflexivity|]; cbn [bind assert]; rewrite Ep; cbn [bind]; unfold compute_approx_matching, approx_min_cost_matching;
    fold V; fold M; fold tries; unfold MPI_COMPUTATION at 2 3 4; cbn [Nat.eqb SEQ_COMPUTATION PAR_COMPUTATION MPI_COMPUTATION]; rewrite Em; cbn [bind];
    destruct (mt_size mt) as [|k]; try lia; reflexivity. }
  intros n c R. apply (srun_all (mt_size mt) Hs (11 * mt_size mt - 4) (christofides_process debug env fenv mt m)); [|assumption].
  replace (11 * mt_size mt - 4) with (5 * mt_size mt + (4 * (mt_size mt - 1) + (mt_size mt + (mt_size mt + 0)))) by lia.
  set (rest := fun (rank : nat) (M : matching) => (if rank =? 0 then
    pbind (lift (g <- fill_multigraph fenv MPI_COMPUTATION m mst M ;; euler <- eulerian_cycle g ;;
                 ham <- hamiltonian_from_eulerian_cycle (na_dim m) euler ;; cost <- windows_cost m ham ;;
                 _ <- assert (if debug then is_hamiltonian_cycle ham (na_dim m) else true) ;; Ok (cost, ham))) (fun s => Ret (Some s)) else Ret None) : mproc (N := N) (option (solution N))).
  assert (Eend : forall i, rest i best = Ret (if i =? 0 then Some (x, (0 :: p) ++ [0]) else None)).
  { intros i. unfold rest. destruct (i =? 0); [|reflexivity]. rewrite Erest. reflexivity. }
  apply (srun_ext (mt_size mt) _ (fun i => pbind (matching_process (mt_draws mt) (mt_size mt) m M tries i) (rest i))).
  - assumption.
  - pose proof (srun_pbind (mt_size mt) _ _ (fun _ => best) rest Hs Hrun) as H.
    assert (Hov : forall i, i < mt_size mt -> over (rest i best)) by (intros i Hi; rewrite Eend; exact Logic.I). specialize (H Hov).
    apply (srun_end_ext _ _ _ _ _ H). intros i _. symmetry. apply Eend.
  - intros i Hi. unfold christofides_process, matching_process, rest. destruct (Nat.eqb_spec i 0) as [->|H0]; [|reflexivity].
    rewrite Epre. reflexivity.
Qed.
Print Assumptions C57_christofides.

(** ** Non-vacuity *)
(** three processes on four vertices *)
Example C57_applies : exists s, always_ends 3 29 (christofides_process true ex_menv (mkFillEnv [] []) (mkMtEnv (fun _ => 0) (fun r t i => r + t) (fun _ => []) 3) (int_matrix 4 ex_metric))
  (fun rank => Ret (if rank =? 0 then Some (Fin 10%Z : C EZ, s) else None)).
Proof.
  set (mt := mkMtEnv (fun _ => 0) (fun r t i => r + t) (fun _ => []) 3).
  destruct (C57_christofides EZ EZ_ord (int_matrix 4 ex_metric) (fun i j => Fin (ex_metric i j)) true ex_menv (mkFillEnv [] []) mt) as (s & E & H).
  - reflexivity.
  - intros i j Hi Hj. exact (matrix_of_get 4 (fun i j => Fin (ex_metric i j) : C EZ) i j Hi Hj).
  - reflexivity.
  - cbn. lia.
  - cbn. lia.
  - intros _. vm_compute. reflexivity.
  - exists (snd s). assert (Es : (Fin 10%Z : C EZ, snd s) = s).
    { assert (E' : (s <- christofides true ex_menv (mkFillEnv [] []) mt MPI_COMPUTATION (int_matrix 4 ex_metric) ;; Ok (fst s)) = Ok (Fin 10%Z : C EZ)) by (vm_compute; reflexivity).
      rewrite E in E'. cbn [bind] in E'. injection E' as E'. destruct s as [x q]. cbn [fst snd] in *. congruence. }
    rewrite Es. exact H.
Qed.
(** four edges, three processes *)
Example C57_matching_applies : exists best, always_ends 3 29 (matching_process (fun r t i => r * t) 3 (int_matrix 9 ex_race) [(1, 2); (3, 4); (5, 6); (7, 8)] 2) (fun _ => Ret best).
Proof.
  destruct (C57_matching EZ EZ_ord (int_matrix 9 ex_race) (fun r t i => r * t) [(1, 2); (3, 4); (5, 6); (7, 8)] 2 3) as (best & _ & H).
  - reflexivity.
  - intros a b Hin. cbn in Hin. change (na_dim (int_matrix 9 ex_race)) with 9. intuition (match goal with H : (_, _) = _ |- _ => injection H as <- <- end; lia).
  - discriminate.
  - lia.
  - exists best. exact H.
Qed.
