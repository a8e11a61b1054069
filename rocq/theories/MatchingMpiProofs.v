(** The processes of the MPI matching reach the result of the model of matching.rs. *)
From Coq Require Import Arith Bool List Permutation Lia.
From Verif Require Import Num Base Data Rand Matching Spmd MatchingMpi PrimProofs MatchingProofs SpmdProofs.
Import ListNotations.

Lemma flat_length (M : matching) : length (flat M) = 2 * length M.
Proof. unfold flat. induction M as [|e M IH]; [reflexivity|]. cbn [flat_map app length]. rewrite IH. lia. Qed.
Lemma unflat_flat (M : matching) : unflat (flat M) = M.
Proof. unfold unflat, flat. induction M as [|[a b] M IH]; [reflexivity|]. cbn. rewrite IH. reflexivity. Qed.

Section Proofs.
Context {N : Num}.
Variable m : namatrix N.
Hypothesis Hwf : na_wf m.
Variable draws : nat -> nat -> nat -> nat.
Variable size : nat.
Hypothesis Hsize : 1 <= size.
Variable M : matching.
Variable tries : nat.
Hypothesis Hok : all_ok m M.
Hypothesis Hne : M <> [].

(** what process [r] finds *)
Definition found (r : nat) : C N * matching :=
  match improve_matching (draws r) m M tries with
  | Ok M' => match matching_cost m M' with Ok c => (c, M') | _ => (c0, []) end
  | _ => (c0, [])
  end.
Lemma found_Ok r : improve_matching (draws r) m M tries = Ok (snd (found r)) /\ matching_cost m (snd (found r)) = Ok (fst (found r)) /\
  length (snd (found r)) = length M.
Proof.
  unfold found. destruct (improve_matching_spec m Hwf (draws r) M tries Hok) as (M' & E & HM' & HI). rewrite E.
  destruct (matching_cost_Ok m Hwf M' HM') as (c & Ec). rewrite Ec. cbn. split; [reflexivity|]. split; [assumption|].
  apply (HI (fun X => length X = length M)); [|reflexivity]. split.
  - intros A B HP E'. rewrite <- (Permutation_length HP). assumption.
  - intros e f A. cbn. auto.
Qed.
Definition better (best other : C N * matching) : C N * matching := if clt (fst other) (fst best) then other else best.
Definition best_of (rks : list nat) : C N * matching := fold_left better (map found rks) (found 0).

(** the last part: the two broadcasts *)
Definition wrap : C N * list nat -> mproc matching := fun '(min_cost, best) =>
  pbind (bcast_cost min_cost) (fun _ => pbind (bcast_nats best) (fun best => Ret (unflat best))).
Definition flat2 (x : C N * matching) : C N * list nat := (fst x, flat (snd x)).
(** a process after the bootstrap *)
Definition worker (r : nat) : mproc matching :=
  Send 0 COST_TAG (MCost (fst (found r))) (Send 0 MATCHING_TAG (MNats (flat (snd (found r)))) (wrap (flat2 (found r)))).
Definition root (rks : list nat) (best : C N * matching) : mproc matching :=
  pbind (collect rks (flat2 best)) wrap.

Lemma first_M (A : matching) : A <> [] -> exists x, first_res A = Ok x.
Proof. destruct A; [congruence|]. intros _. eexists. reflexivity. Qed.
Lemma found_ne r : snd (found r) <> [].
Proof. intros E. pose proof (proj2 (proj2 (found_Ok r))) as H. rewrite E in H. destruct M; [congruence|discriminate]. Qed.

Notation run := (matching_process draws size m M tries).
Definition b1 : msg N := MNat tries.
Definition b2 : msg N := MNat (length M).
Definition b3 : msg N := MNat (na_dim m).
Definition b4 : msg N := MNats (flat M).
Definition b5 : msg N := MCosts (na_data m).
Definition boot (p : mproc matching) : mproc matching := after b5 (after b4 (after b3 (after b2 (after b1 p)))).


Lemma root_1 : exists k, run 0 = Bcast b1 k.
Proof. eexists. reflexivity. Qed.
Lemma root_2 : exists k, after b1 (run 0) = Bcast b2 k.
Proof. eexists. reflexivity. Qed.
Lemma root_3 : exists k, after b2 (after b1 (run 0)) = Bcast b3 k.
Proof. eexists. reflexivity. Qed.
Lemma root_4 : exists k, after b3 (after b2 (after b1 (run 0))) = Bcast b4 k.
Proof. destruct (first_M M Hne) as (x & Ex). unfold matching_process, mpi_improve_matching_proc, bootstrap_mpi_matching_calc, broadcast_matching. eexists. cbn -[flat]. rewrite Ex. cbn -[flat]. reflexivity. Qed.
Lemma root_5 : exists k, after b4 (after b3 (after b2 (after b1 (run 0)))) = Bcast b5 k.
Proof. destruct (first_M M Hne) as (x & Ex). eexists. unfold matching_process, mpi_improve_matching_proc, bootstrap_mpi_matching_calc, broadcast_matching. cbn -[flat]. rewrite Ex. cbn -[flat]. rewrite Nat.eqb_refl. cbn -[flat]. reflexivity. Qed.
Lemma root_6 : boot (run 0) = root (seq 1 (size - 1)) (found 0).
Proof.
  unfold boot. destruct (first_M M Hne) as (x & Ex). destruct (found_Ok 0) as (E1 & E2 & _).
  unfold matching_process, mpi_improve_matching_proc, bootstrap_mpi_matching_calc, broadcast_matching. cbn -[flat]. rewrite Ex. cbn -[flat]. rewrite Nat.eqb_refl. cbn -[flat]. rewrite Nat.eqb_refl. cbn -[flat].
  rewrite E1. cbn -[flat]. rewrite E2. cbn -[flat]. reflexivity.
Qed.

Section Other.
Variable r : nat.
Hypothesis Hr : r <> 0.
Lemma other_0 : (r =? 0) = false.
Proof. apply Nat.eqb_neq. assumption. Qed.
Lemma zeros : exists x, first_res (repeat (0, 0) (length M)) = Ok x.
Proof. apply first_M. destruct M; [congruence|discriminate]. Qed.
Lemma zeros_length : length (flat (repeat (0, 0) (length M))) = length (flat M).
Proof. rewrite !flat_length, repeat_length. reflexivity. Qed.

Lemma other_1 : at_bcast (run r).
Proof. unfold matching_process. rewrite other_0. exact I. Qed.
Lemma other_2 : at_bcast (after b1 (run r)).
Proof. unfold matching_process. rewrite other_0. exact I. Qed.
Lemma other_3 : at_bcast (after b2 (after b1 (run r))).
Proof. unfold matching_process. rewrite other_0. exact I. Qed.
Lemma other_4 : at_bcast (after b3 (after b2 (after b1 (run r)))).
Proof.
  unfold matching_process, matching_helper, bootstrap_mpi_matching_calc, broadcast_matching. rewrite other_0. destruct zeros as (x & Ex). cbn -[repeat]. rewrite Ex. exact I.
Qed.
Lemma other_5 : at_bcast (after b4 (after b3 (after b2 (after b1 (run r))))).
Proof.
  unfold matching_process, matching_helper, bootstrap_mpi_matching_calc, broadcast_matching. rewrite other_0. destruct zeros as (x & Ex). cbn -[repeat flat]. rewrite Ex. cbn -[repeat flat].
  rewrite zeros_length, Nat.eqb_refl. exact I.
Qed.
Lemma other_6 : boot (run r) = worker r.
Proof.
  unfold boot, matching_process, matching_helper, bootstrap_mpi_matching_calc, broadcast_matching. rewrite other_0. destruct zeros as (x & Ex). cbn -[repeat flat]. rewrite Ex. cbn -[repeat flat].
  rewrite zeros_length, Nat.eqb_refl. cbn -[repeat flat]. rewrite repeat_length. unfold na_wf in Hwf. rewrite Hwf, Nat.eqb_refl. cbn -[repeat flat].
  rewrite unflat_flat. unfold mpi_improve_matching_proc. rewrite other_0. replace (mkNA (na_dim m) (na_data m)) with m by (destruct m; reflexivity).
  destruct (found_Ok r) as (E1 & E2 & _). cbn [pbind]. rewrite E1. cbn [lift pbind]. rewrite E2. cbn [lift pbind negb].
  destruct (first_M (snd (found r)) (found_ne r)) as (y & Ey). rewrite Ey. reflexivity.
Qed.
End Other.

(** ** The results come in *)
Lemma best_length rks : length (snd (best_of rks)) = length M.
Proof.
  unfold best_of. assert (H : forall l b, length (snd b) = length M -> length (snd (fold_left better (map found l) b)) = length M).
  { induction l as [|r l IH]; intros b Hb; [assumption|]. cbn [map fold_left]. apply IH. unfold better. destruct (clt _ _); [apply found_Ok|assumption]. }
  apply H. apply found_Ok.
Qed.
Definition stage (k i : nat) : mproc matching :=
  if i =? 0 then root (seq (S k) (size - 1 - k)) (best_of (seq 1 k)) else if i <=? k then wrap (flat2 (found i)) else worker i.
Definition result : nat -> mproc (N := N) matching := fun _ => Ret (snd (best_of (seq 1 (size - 1)))).

Lemma wrap_run f : (forall i, i < size -> exists x, f i = wrap (flat2 x) /\ length (snd x) = length M) -> f 0 = wrap (flat2 (best_of (seq 1 (size - 1)))) ->
  srun size (size + (size + 0)) f result.
Proof.
  intros Hf H0. set (b := best_of (seq 1 (size - 1))) in *.
  apply (srun_bcast size _ f (fun i => after (MCost (fst b)) (f i)) result (MCost (fst b)) (fun v => pbind (match v with MCost x => Ret x | _ => Crash end) (fun _ => pbind (bcast_nats (flat (snd b))) (fun best => Ret (unflat best))))).
  - intros i Hi. destruct (Hf i Hi) as (x & E & _). rewrite E. exact I.
  - rewrite H0. reflexivity.
  - reflexivity.
  - apply (srun_bcast size _ _ (fun i => after (MNats (flat (snd b))) (after (MCost (fst b)) (f i))) result (MNats (flat (snd b)))
      (fun v => pbind (match v with MNats x => if length x =? length (flat (snd b)) then Ret x else Crash | _ => Crash end) (fun best => Ret (unflat best)))).
    + intros i Hi. destruct (Hf i Hi) as (x & E & _). rewrite E. exact I.
    + rewrite H0. reflexivity.
    + reflexivity.
    + constructor. intros i Hi. split; [|exact I]. destruct (Hf i Hi) as (x & E & Hl). rewrite E. cbn -[flat].
      unfold b. rewrite !flat_length, Hl, best_length, Nat.eqb_refl. cbn -[flat]. rewrite unflat_flat. reflexivity.
Qed.

Lemma stage_run j : forall k f, k + j = size - 1 -> (forall i, i < size -> f i = stage k i) -> srun size (4 * j + (size + (size + 0))) f result.
Proof.
  induction j as [|j IH]; intros k f Hk Hf.
  - cbn [Nat.mul Nat.add]. apply wrap_run.
    + intros i Hi. rewrite (Hf i Hi). unfold stage. destruct (i =? 0) eqn:E0.
      * replace (size - 1 - k) with 0 by lia. exists (best_of (seq 1 k)). split; [reflexivity|apply best_length].
      * replace (i <=? k) with true by (symmetry; apply Nat.leb_le; lia). exists (found i). split; [reflexivity|apply found_Ok].
    + rewrite (Hf 0) by lia. unfold stage. cbn [Nat.eqb]. replace (size - 1 - k) with 0 by lia. replace (size - 1) with k by lia. reflexivity.
  - assert (E0 : f 0 = root (S k :: seq (S (S k)) j) (best_of (seq 1 k))).
    { rewrite (Hf 0) by lia. unfold stage. cbn [Nat.eqb]. replace (size - 1 - k) with (S j) by lia. reflexivity. }
    assert (E1 : f (S k) = worker (S k)).
    { rewrite (Hf (S k)) by lia. unfold stage. replace (S k =? 0) with false by reflexivity. replace (S k <=? k) with false by (symmetry; apply Nat.leb_gt; lia). reflexivity. }
    replace (4 * S j + (size + (size + 0))) with (2 + (2 + (4 * j + (size + (size + 0))))) by lia.
    set (x := found (S k)) in *. set (b := best_of (seq 1 k)) in *.
    set (k1 := fun v : msg N => pbind (pbind (match v with MCost c => Ret c | _ => Crash end) (fun other_cost => pbind (recv_nats (S k) MATCHING_TAG) (fun other =>
      collect (seq (S (S k)) j) (if clt other_cost (fst (flat2 b)) then (other_cost, other) else flat2 b)))) wrap).
    set (k2 := fun v : msg N => pbind (pbind (match v with MNats l => Ret l | _ => Crash end) (fun other =>
      collect (seq (S (S k)) j) (if clt (fst x) (fst (flat2 b)) then (fst x, other) else flat2 b))) wrap).
    apply (srun_msg size _ f (fun i => if i =? 0 then k1 (MCost (fst x)) else if i =? S k then Send 0 MATCHING_TAG (MNats (flat (snd x))) (wrap (flat2 x)) else f i)
      result (S k) 0 COST_TAG (MCost (fst x)) (Send 0 MATCHING_TAG (MNats (flat (snd x))) (wrap (flat2 x))) k1); try lia.
    + rewrite E1. reflexivity.
    + rewrite E0. reflexivity.
    + reflexivity.
    + apply (srun_msg size _ _ (fun i => if i =? 0 then k2 (MNats (flat (snd x))) else if i =? S k then wrap (flat2 x) else f i)
        result (S k) 0 MATCHING_TAG (MNats (flat (snd x))) (wrap (flat2 x)) k2); try lia.
      * replace (S k =? 0) with false by reflexivity. rewrite Nat.eqb_refl. reflexivity.
      * reflexivity.
      * intros i Hi. destruct (i =? 0); [reflexivity|]. destruct (i =? S k); reflexivity.
      * apply (IH (S k)); [lia|]. intros i Hi. unfold stage. destruct (Nat.eqb_spec i 0) as [->|H0].
        -- unfold k2. cbn [pbind]. unfold root. replace (size - 1 - S k) with j by lia. f_equal. f_equal.
           replace (seq 1 (S k)) with (seq 1 k ++ [S k]) by (rewrite <- seq_S; reflexivity). unfold best_of. rewrite map_app, fold_left_app. cbn [map fold_left].
           change (fold_left better (map found (seq 1 k)) (found 0)) with b. fold x. unfold better. unfold flat2. cbn [fst]. destruct (clt (fst x) (fst b)); reflexivity.
        -- destruct (Nat.eqb_spec i (S k)) as [->|Hik].
           ++ replace (S k <=? S k) with true by (symmetry; apply Nat.leb_le; lia). reflexivity.
           ++ rewrite (Hf i Hi). unfold stage. replace (i =? 0) with false by (symmetry; apply Nat.eqb_neq; assumption).
              destruct (Nat.leb_spec i k), (Nat.leb_spec i (S k)); try lia; reflexivity.
Qed.

Lemma all_bcast (f : nat -> mproc (N := N) matching) v : (exists k, f 0 = Bcast v k) -> (forall r, r <> 0 -> at_bcast (f r)) -> forall i, i < size -> at_bcast (f i).
Proof. intros (k & E) H i Hi. destruct (Nat.eq_dec i 0) as [->|Hr]; [rewrite E; exact I|auto]. Qed.

Theorem processes_run : srun size (5 * size + (4 * (size - 1) + (size + (size + 0)))) run result.
Proof.
  replace (5 * size + (4 * (size - 1) + (size + (size + 0)))) with (size + (size + (size + (size + (size + (4 * (size - 1) + (size + (size + 0)))))))) by lia.
  destruct root_1 as (k1 & E1). destruct root_2 as (k2 & E2). destruct root_3 as (k3 & E3). destruct root_4 as (k4 & E4). destruct root_5 as (k5 & E5).
  eapply (srun_bcast size _ run (fun i => after b1 (run i)) result b1 k1); [|exact E1|reflexivity|].
  { apply (all_bcast _ b1); [eexists; exact E1|apply other_1]. }
  eapply (srun_bcast size _ _ (fun i => after b2 (after b1 (run i))) result b2 k2); [|exact E2|reflexivity|].
  { apply (all_bcast (fun i => after b1 (run i)) b2); [eexists; exact E2|apply other_2]. }
  eapply (srun_bcast size _ _ (fun i => after b3 (after b2 (after b1 (run i)))) result b3 k3); [|exact E3|reflexivity|].
  { apply (all_bcast (fun i => after b2 (after b1 (run i))) b3); [eexists; exact E3|apply other_3]. }
  eapply (srun_bcast size _ _ (fun i => after b4 (after b3 (after b2 (after b1 (run i))))) result b4 k4); [|exact E4|reflexivity|].
  { apply (all_bcast (fun i => after b3 (after b2 (after b1 (run i)))) b4); [eexists; exact E4|apply other_4]. }
  eapply (srun_bcast size _ _ (fun i => boot (run i)) result b5 k5); [|exact E5|reflexivity|].
  { apply (all_bcast (fun i => after b4 (after b3 (after b2 (after b1 (run i))))) b5); [eexists; exact E5|apply other_5]. }
  apply (stage_run (size - 1) 0); [lia|]. intros i Hi. unfold stage. destruct (Nat.eqb_spec i 0) as [->|H0].
  - rewrite root_6. rewrite Nat.sub_0_r. reflexivity.
  - rewrite other_6 by assumption. replace (i <=? 0) with false by (symmetry; apply Nat.leb_gt; lia). reflexivity.
Qed.

(** the result is that of the function of Matching.v *)
Lemma mpi_result : mpi_improve_matching draws m M tries size = Ok (repeat (snd (best_of (seq 1 (size - 1)))) size).
Proof.
  unfold mpi_improve_matching. replace (length M =? 0) with false by (destruct M; [congruence|reflexivity]).
  rewrite (mapM_Ok _ found).
  2: { intros r _. destruct (found_Ok r) as (E1 & E2 & _). rewrite E1. cbn [bind]. rewrite E2. cbn [bind]. destruct (found r); reflexivity. }
  cbn [bind]. destruct size as [|n] eqn:Es; [lia|]. cbn [seq map first_res bind tl]. replace (S n - 1) with n by lia. reflexivity.
Qed.
End Proofs.
