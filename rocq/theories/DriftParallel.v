(** The threaded and the MPI exact solvers on arbitrary doubles: what they find. *)
From Coq Require Import ZArith NArith Arith Bool List Permutation Lia.
From Flocq Require Import IEEE754.Binary IEEE754.Bits.
From Verif Require Import Num NumB64 NumPos Base Spec SpecFacts Data Mst Exact Threaded Mpi Dfs Greedy PrimProofs MstFacts ExactProofs
  PermProofs DigitsProofs SearchProofs Coverage CoverageAll ThreadedProofs MpiStatic MpiDynamic MpiProofs MpiChunks MpiExact Units RoundProofs DriftProofs DriftSolvers.
Import ListNotations.

Section Parallel.
Variable m : namatrix B64.
Variable w : nat -> nat -> Z.
Variable W : Z.
Hypothesis Hv : f64_values m w.
Let n := na_dim m.
Hypothesis Hn : 3 <= n.
Hypothesis Hsz : sized w n W.
Let Hwf : na_wf m. Proof. exact (proj1 Hv). Qed.
Let g := na_adj m.
Let M := ((Z.of_nat n + 1) * W)%Z.
Let Hn1 : 1 <= n. Proof. lia. Qed.

Let Hval : forall i j, i < a_dim g -> j < a_dim g -> exists x, a_get g i j = Ok x /\ holds x (w i j).
Proof. intros i j Hi Hj. apply Hv; assumption. Qed.
Let HW0 : (0 <= W)%Z. Proof. exact (W0 g w W Hn1 Hsz). Qed.
Let HM0 : (0 <= M)%Z. Proof. unfold M. nia. Qed.

(** the cost of a prefix, evaluated before the search starts *)
Lemma eval_near p : NoDup p -> Forall (fun i => i < n) p ->
  exists x, evaluate_path g p = Ok x /\ near (budget g (length p) * M) x (path_cost w p).
Proof.
  intros Hnd Hr. unfold evaluate_path.
  pose proof (in_range_length p n Hnd Hr) as Hle.
  match goal with |- context [foldM ?f _ _] =>
    destruct (foldM_inv f (fun pre acc => near (Z.of_nat (length pre) * M) acc (path_cost w (firstn (S (length pre)) p)))
      (seq 0 (length p - 1)) c0) as (s & Es & Hs) end.
  - exists 0%Z. split; [apply holds_0|]. destruct p; cbn; lia.
  - intros pre i post acc Eseq Hacc.
    assert (Hlen : i = length pre /\ length pre < length p - 1).
    { pose proof (f_equal (@length nat) Eseq) as El. rewrite seq_length, app_length in El. cbn in El.
      pose proof (f_equal (fun l => nth (length pre) l 0) Eseq) as Ei. cbv beta in Ei.
      rewrite app_nth2, Nat.sub_diag in Ei by lia. rewrite seq_nth in Ei by lia. cbn in Ei. lia. }
    destruct Hlen as [-> Hlen].
    rewrite (nth_res_nth p (length pre) 0), (nth_res_nth p (length pre + 1) 0) by lia. cbn [bind].
    rewrite Forall_forall in Hr.
    assert (R1 : nth (length pre) p 0 < n) by (apply Hr, nth_In; lia).
    assert (R2 : nth (length pre + 1) p 0 < n) by (apply Hr, nth_In; lia).
    destruct (Hval _ _ R1 R2) as (x & Ex & Hx). rewrite Ex. cbn [bind].
    eexists. split; [reflexivity|].
    rewrite app_length. cbn [length]. rewrite Nat.add_1_r in *.
    replace (Z.of_nat (S (length pre)) * M)%Z with ((Z.of_nat (length pre) + 1) * M)%Z by lia.
    assert (Hpr : (0 <= path_cost w (firstn (S (S (length pre))) p) <= Z.of_nat n * W)%Z).
    { apply (path_range g w W Hn1 Hsz); [|rewrite firstn_length; change (a_dim g) with n; lia].
      apply Forall_forall. intros i Hi. apply Hr. rewrite <- (firstn_skipn (S (S (length pre))) p). apply in_or_app. left. assumption. }
    rewrite (path_cost_firstn w p (length pre)) in * by lia.
    apply (near_add g w W Hn1 Hsz (Z.of_nat (length pre)) acc _ x _); [assumption|assumption|change (a_dim g) with n; nia|exact Hpr].
  - rewrite seq_length in Hs. destruct (Nat.leb_spec (length p) 1) as [Hl|Hl].
    + exists c0. split; [reflexivity|]. pose proof (budget_le g W Hn1 (length p) Hle) as [Hb _].
      apply near_holds; [apply Z.mul_nonneg_nonneg; assumption|]. destruct p as [|a [|]]; cbn in Hl; try lia; exact holds_0.
    + exists s. split; [exact Es|]. replace (S (length p - 1)) with (length p) in Hs by lia. rewrite firstn_all in Hs.
      eapply near_weaken; [|exact Hs]. apply Z.mul_le_mono_nonneg_r; [assumption|].
      unfold budget. destruct (Nat.eqb_spec (length p) 0); [lia|]. change (a_dim g) with n. nia.
Qed.

(** ** One prefix *)
Let twice := twice m w W.
Let good (s : solution B64) : Prop := sound_result g w W s /\ @cle B64 c0 (fst s) = true.

Let Hnnm : nn_matrix m.
Proof.
  intros i j x Hx. assert (Hij : i < n /\ j < n).
  { unfold na_get in Hx. fold n in Hx. destruct (Nat.ltb_spec i n), (Nat.ltb_spec j n); cbn in Hx; try discriminate. auto. }
  destruct Hij as [Hi Hj]. destruct (Hval i j Hi Hj) as (y & Ey & Hy). change (na_get m i j = Ok y) in Ey.
  assert (y = x) by congruence. subst y.
  right. rewrite (holds_le _ _ _ _ holds_0 Hy). apply Z.leb_le. apply Hsz; assumption.
Qed.

Lemma good_init : good (cinf, []).
Proof. split; [left; reflexivity|reflexivity]. Qed.
Lemma good_nonneg s : good s -> @cle B64 c0 (fst s) = true.
Proof. intros [_ H]. exact H. Qed.
Lemma good_Q c : Q good c -> c = cinf \/ exists z, holds c z.
Proof. intros (s & [[->|(_ & t & Ht & _)] _] & ->); [left; reflexivity|right; eauto]. Qed.

Lemma mpi_work_drift p gl : NoDup p -> Forall (fun i => i < n) p -> Q good gl ->
  exists s, mpi_work m p gl = Ok s /\ good s /\
    forall q, is_tour n q -> extends p q -> (exists t, holds (fst s) t /\ twice t q) \/ (exists z, holds gl z /\ twice z q).
Proof.
  intros Hnd Hr Hg. destruct (eval_near p Hnd Hr) as (c & Ec & Hc).
  destruct (mpi_drift m w W Hv Hn1 Hsz gl p c (good_Q gl Hg) Hnd Hr Hc) as (s & Es & Hs & Hall).
  assert (E : mpi_work m p gl = Ok s) by (unfold mpi_work; fold g; rewrite Ec; cbn [bind]; exact Es).
  exists s. split; [exact E|]. split; [|exact Hall]. split; [exact Hs|].
  destruct (mpi_work_sound B64_ord B64_pos m p gl Hn1 Hwf Hnnm Hnd Hr) as (r & Er & Hrs). rewrite E in Er. injection Er as ->. apply Hrs.
Qed.

Lemma thread_work_drift p : NoDup p -> Forall (fun i => i < n) p ->
  exists s, thread_work m p = Ok s /\ sound_result g w W s /\
    forall q, is_tour n q -> extends p q -> exists t, holds (fst s) t /\ twice t q.
Proof.
  intros Hnd Hr. destruct (eval_near p Hnd Hr) as (c & Ec & Hc).
  destruct (mpi_drift m w W Hv Hn1 Hsz cinf p c ltac:(left; reflexivity) Hnd Hr Hc) as (s & Es & Hs & Hall).
  exists s. split; [unfold thread_work; fold g; rewrite Ec; cbn [bind]; rewrite (fifth_mpi B64_ord); exact Es|].
  split; [exact Hs|]. intros q Hq Hx. destruct (Hall q Hq Hx) as [H|(z & Hz & _)]; [exact H|]. destruct (inf_not_holds z Hz).
Qed.

(** a result below a finite number is a tour *)
Lemma below_genuine s (x : C B64) t : sound_result g w W s -> holds x t -> @cle B64 (fst s) x = true ->
  genuine g w W s /\ exists z, holds (fst s) z /\ (z <= t)%Z.
Proof.
  intros [->|Hs] Hx Hle.
  - exfalso. cbn [fst] in Hle. destruct Hx as [Fx _]. destruct x; try discriminate Fx; discriminate Hle.
  - split; [assumption|]. destruct Hs as (_ & z & Hz & _). exists z. split; [assumption|].
    rewrite (holds_le _ _ z t Hz Hx) in Hle. lia.
Qed.

(** ** Threads *)
Lemma threaded_drift k c0 c : 1 <= k <= n -> tinit m 3 k = Ok c0 -> tsteps m c0 c -> tdone c ->
  is_tour n (snd (fst c)) /\ near (drift n W) (fst (fst c)) (tour_cost w (snd (fst c))) /\
  (symmetric w n -> forall q, is_tour n q -> (tour_cost w (snd (fst c)) * 2 ^ 53 <= 2 * tour_cost w q * 2 ^ 53 + 2 * drift n W)%Z).
Proof.
  intros Hk Hc0 Hrun Hd.
  assert (Hkn : k < na_dim m ^ 3) by (fold n; rewrite pow3; nia).
  destruct (run_result B64_ord m Hn1 Hwf 3 k (proj1 Hk) Hkn c0 Hc0 c Hrun Hd) as (_ & Hfrom & Hle).
  destruct (tinit_Ok m Hn1 3 k (proj1 Hk) Hkn) as (c1 & Ec1 & _ & Hchunks & Hpend).
  rewrite Hc0 in Ec1. injection Ec1 as <-.
  assert (Hcov : forall q, is_tour n q -> exists p s t, In p (pending c0) /\ thread_work m p = Ok s /\ holds (fst s) t /\ twice t q).
  { intros q Hq. destruct (coverage n Hn k Hk q Hq) as (i & p & x & y & Hi & Eq & Hrot & (l & Hl & Hin) & Hlen & r & Er).
    assert (Hp : In p (pending c0)).
    { unfold pending. apply in_concat. exists l. split; [|assumption].
      assert (Hii : In i (seq 0 k)) by (apply in_seq; lia). clear - Hchunks Hii Hl. fold n in Hchunks.
      induction Hchunks as [|j l' js ls Hj HF IH]; [destruct Hii|].
      destruct Hii as [->|Hii]; [left; congruence|right; auto]. }
    destruct (Hpend p Hp) as (H1 & H2 & _).
    destruct (thread_work_drift p H1 H2) as (s & Hs & _ & Hg).
    destruct (Hg (y ++ x) Hrot) as (t & Ht & Htw); [exists r; assumption|].
    exists p, s, t. split; [assumption|]. split; [assumption|]. split; [assumption|].
    subst q. intros Hsym. rewrite (tour_cost_rot w x y). apply Htw. assumption. }
  assert (Hs : sound_result g w W (fst c)).
  { destruct Hfrom as [->|(p & Hp & Hw)]; [left; reflexivity|]. destruct (Hpend p Hp) as (H1 & H2 & _).
    destruct (thread_work_drift p H1 H2) as (s & Es & Hs & _). rewrite Hw in Es. injection Es as ->. exact Hs. }
  destruct (Hcov (seq 0 n) (Permutation_refl _)) as (p0 & s0 & t0 & Hp0 & Hw0 & Ht0 & _).
  destruct (below_genuine _ _ _ Hs Ht0 (Hle p0 s0 Hp0 Hw0)) as [Hg _].
  destruct (genuine_near m w W Hn1 Hsz _ Hg) as [H1 H2]. split; [exact H1|]. split; [exact H2|]. intros Hsym q Hq.
  destruct (Hcov q Hq) as (p1 & s1 & t1 & Hp1 & Hw1 & Ht1 & Htw).
  destruct (below_genuine _ _ _ Hs Ht1 (Hle p1 s1 Hp1 Hw1)) as [_ (z & Hz & Hzt)].
  apply (twice_result m w W Hn1 Hsz (fst c) z Hg Hz Hsym q Hq). apply (twice_le m w W Hn1 z t1 q Hzt Htw).
Qed.

(** the comparison with any tour, for a winner below the result and the bound of a prefix *)
Lemma winner_drift s pre gl r q x y rest : sound_result g w W s -> NoDup pre -> Forall (fun i => i < n) pre ->
  q = x ++ y -> is_tour n (y ++ x) -> y ++ x = pre ++ rest ->
  mpi_work m pre gl = Ok r -> Q good gl -> @cle B64 (fst s) gl = true -> @cle B64 (fst s) (fst r) = true ->
  genuine g w W s /\ exists z, holds (fst s) z /\ twice z q.
Proof.
  intros Hs Hnd Hr -> Hrot Hpre Hw Hg Hpg Hpr.
  destruct (mpi_work_drift pre gl Hnd Hr Hg) as (s' & Es & _ & Hs'). rewrite Hw in Es. injection Es as <-.
  assert (G : forall (u : C B64) t, holds u t -> twice t (y ++ x) -> @cle B64 (fst s) u = true -> genuine g w W s /\ exists z, holds (fst s) z /\ twice z (x ++ y)).
  { intros u t Ht Htw Hle. destruct (below_genuine s u t Hs Ht Hle) as [H1 (z & Hz & Hzt)]. split; [assumption|]. exists z.
    split; [assumption|]. apply (twice_le m w W Hn1 z t _ Hzt). intros Hsym. rewrite (tour_cost_rot w x y). apply Htw. assumption. }
  destruct (Hs' (y ++ x) Hrot ltac:(exists rest; assumption)) as [(t & Ht & Htw)|(t & Ht & Htw)].
  - exact (G (fst r) t Ht Htw Hpr).
  - exact (G gl t Ht Htw Hpg).
Qed.

(** ** MPI, static distribution *)
Section Static.
Variable workers : nat.
Hypothesis Hw : 1 <= workers.
Hypothesis Hbusy : busy n workers.
Variable todo : list (list (list nat)).
Hypothesis Htodo : static_todo m 3 workers = Ok todo.

Let chunk : forall i, i < workers -> chunk_prefixes 3 n workers i = Ok (nth i todo []) /\
  forall p, In p (nth i todo []) -> NoDup p /\ Forall (fun x => x < n) p /\ length p = 3.
Proof.
  intros i Hi. destruct (static_todo_Ok m Hn1 3 workers (busy_lt n workers Hbusy Hw)) as (t & Et & _ & H).
  rewrite Htodo in Et. injection Et as <-. apply H. assumption.
Qed.

Lemma static_work_drift i p gl : i < workers -> In p (nth i todo []) -> Q good gl -> exists r, mpi_work m p gl = Ok r /\ good r.
Proof.
  intros Hi Hp Hg. destruct (chunk i Hi) as (_ & H). destruct (H p Hp) as (H1 & H2 & _).
  destruct (mpi_work_drift p gl H1 H2 Hg) as (s & Es & Hs & _). eauto.
Qed.

Lemma static_drift c : steps (sstep workers (mpi_work m)) (sinit (fun i => nth i todo [])) c -> sdone workers c ->
  exists (x : C B64) p, wrapup (s_winner c) (static_paths n workers c) = Ok (repeat (x, p) (S workers)) /\ is_tour n p /\
    near (drift n W) x (tour_cost w p) /\
    (symmetric w n -> forall q, is_tour n q -> (tour_cost w p * 2 ^ 53 <= 2 * tour_cost w q * 2 ^ 53 + 2 * drift n W)%Z).
Proof.
  intros Hr Hd.
  destruct (static_outcome B64_ord workers (mpi_work m) (fun i => nth i todo []) good good_init good_nonneg static_work_drift c Hr Hd)
    as (H1 & H2 & H3 & H4). set (win := s_winner c) in *. cbv beta in H3, H4.
  assert (HA : forall i, i < workers -> genuine g w W (local_of (s_worker c i))).
  { intros i Hi. destruct (chunk i Hi) as (Ec & Hok). pose proof (busy_chunks n workers i _ Hn Hw Hbusy Hi Ec) as Hne.
    destruct (nth i todo []) as [|p0 rest] eqn:En; [contradiction Hne; reflexivity|].
    destruct (H4 i p0 rest Hi En) as (r & Er & Hle).
    destruct (Hok p0) as (P1 & P2 & _); [left; reflexivity|].
    destruct (mpi_work_drift p0 cinf P1 P2 (Q_init good good_init)) as (s & Es & _ & Hs). rewrite Er in Es. injection Es as <-.
    destruct (extend_tour n p0 P1 P2) as (r0 & Hr0).
    destruct (Hs (p0 ++ r0) Hr0 ltac:(exists r0; reflexivity)) as [(t & Ht & _)|(z & Hz & _)]; [|destruct (inf_not_holds z Hz)].
    apply (below_genuine _ _ t (proj1 (proj1 (H1 i Hi))) Ht Hle). }
  destruct H2 as [H2|(i & Hi & Esnd & Efst)].
  { exfalso. destruct (HA 0 ltac:(lia)) as (_ & t & Ht & _). destruct (H1 0 ltac:(lia)) as (_ & Hle). rewrite H2 in Hle. cbn [fst] in Hle.
    destruct (below_genuine (cinf, []) _ t ltac:(left; reflexivity) Ht Hle) as [(_ & z & Hz & _) _]. exact (inf_not_holds z Hz). }
  pose proof (HA i Hi) as Hg. set (loc := local_of (s_worker c i)) in *. destruct (genuine_near m w W Hn1 Hsz _ Hg) as [G1 G2].
  exists (fst loc), (snd loc). split; [|split; [exact G1|split; [exact G2|]]].
  - assert (Hlen : length (static_paths n workers c) = S workers) by (unfold static_paths; cbn [length]; rewrite map_length, seq_length; reflexivity).
    rewrite Efst, <- Hlen. apply wrapup_ok.
    + rewrite Esnd. unfold static_paths. rewrite nth_paths by assumption. reflexivity.
    + rewrite (tour_length n _ G1). unfold static_paths. intros p' [<-|Hin]; [apply repeat_length|].
      apply in_map_iff in Hin. destruct Hin as (j & <- & Hj). apply in_seq in Hj. apply (tour_length n). apply (HA j). lia.
  - intros Hsym q Hq. destruct (busy_seen n workers q Hn Hw Hbusy Hq) as (j & pre & x & y & rest & Hj & Hxy & Hrot & (l & El & Hin) & Erest).
    destruct (chunk j Hj) as (Ec & Hok). rewrite El in Ec. injection Ec as ->. destruct (Hok pre Hin) as (P1 & P2 & _).
    destruct (H3 j pre Hj Hin) as (gl & r & Er & Hgl & Hwg & Hwr). rewrite <- Efst in Hwg, Hwr.
    assert (G : forall q', is_tour n q' -> q' = x ++ y -> (tour_cost w (snd loc) * 2 ^ 53 <= 2 * tour_cost w q' * 2 ^ 53 + 2 * drift n W)%Z).
    { intros q' Hq' Eq. destruct (winner_drift loc pre gl r q' x y rest ltac:(right; exact Hg) P1 P2 Eq Hrot Erest Er Hgl Hwg Hwr) as (_ & z & Hz & Htw).
      exact (twice_result m w W Hn1 Hsz loc z Hg Hz Hsym q' Hq' Htw). }
    destruct Hxy as [Eq|Eq]; [exact (G q Hq Eq)|].
    rewrite <- (tour_cost_rev w n q Hsym (tour_Forall _ _ Hq)). exact (G (rev q) (tour_rev n q Hq) Eq).
Qed.
End Static.

(** ** MPI, dynamic distribution *)
Section Dynamic.
Hypothesis Hn4 : 4 <= n.
Variable stream : list (list nat).
Hypothesis Hstream : follows n (Some [1; 2; 3]) stream.
Hypothesis Hin : forall u, In u stream <-> key3 n u /\ number n [1; 2; 3] <= number n u.
Hypothesis Hnz : forall u, In u stream -> zeros u = false.
Variable workers : nat.
Hypothesis Hw : 1 <= workers.

Lemma dynamic_work_drift p gl : In p stream -> Q good gl -> exists r, mpi_work m p gl = Ok r /\ good r.
Proof.
  intros Hp Hg. apply Hin in Hp. destruct Hp as ((_ & H1 & H2) & _).
  destruct (mpi_work_drift p gl H2 H1 Hg) as (s & Es & Hs & _). eauto.
Qed.

Lemma dynamic_drift c : steps (dstep workers n (mpi_work m)) dinit c -> ddone workers c ->
  exists i (x : C B64) p, i < workers /\ d_winner c = (x, S i) /\ dlocal_of (d_worker c i) = (x, p) /\ is_tour n p /\
    near (drift n W) x (tour_cost w p) /\
    (symmetric w n -> forall q, is_tour n q -> (tour_cost w p * 2 ^ 53 <= 2 * tour_cost w q * 2 ^ 53 + 2 * drift n W)%Z).
Proof.
  intros Hr Hd.
  destruct (dynamic_outcome B64_ord workers n (mpi_work m) stream Hstream Hnz good good_init good_nonneg dynamic_work_drift c Hw Hr Hd)
    as (H1 & H2 & H3 & _). set (win := d_winner c) in *.
  assert (HC : forall q, is_tour n q -> exists pre x y rest, In pre stream /\ q = x ++ y /\ is_tour n (y ++ x) /\ y ++ x = pre ++ rest).
  { intros q Hq. destruct (rot_at_spec n Hn 1 ltac:(lia) q 3 Hq ltac:(lia)) as (x & b & c' & r & E1 & E2 & E3 & E4).
    exists [3; b; c'], x, (3 :: skipn (S (length x)) q), r. rewrite <- E3. split; [|split; [assumption|split; [assumption|rewrite E2; reflexivity]]].
    apply Hin. rewrite E2 in E4. split; [|apply number_three; assumption].
    pose proof (tour_NoDup _ _ E4) as Hnd. pose proof (tour_Forall _ _ E4) as HF. clear - Hnd HF.
    change (3 :: b :: c' :: r) with ([3; b; c'] ++ r) in Hnd, HF. split; [reflexivity|]. split; [apply Forall_app in HF; apply HF|].
    clear HF. inversion Hnd as [|? ? A1 A2]; subst. inversion A2 as [|? ? B1 B2]; subst. inversion B2 as [|? ? D1 D2]; subst. simpl in A1, B1.
    constructor; [simpl; intuition|]. constructor; [simpl; intuition|]. constructor; [simpl; tauto|constructor]. }
  (* whatever sound result has the announced cost *)
  assert (HW : forall s, sound_result g w W s -> fst s = fst win -> forall q, is_tour n q ->
    genuine g w W s /\ exists z, holds (fst s) z /\ twice z q).
  { intros s Hs Es q Hq. destruct (HC q Hq) as (pre & x & y & rest & Hpre & Eq & Hrot & Erest).
    destruct (H3 pre Hpre) as (gl & r & Er & Hgl & Hwg & Hwr). rewrite <- Es in Hwg, Hwr.
    apply Hin in Hpre. destruct Hpre as ((_ & P1 & P2) & _).
    exact (winner_drift s pre gl r q x y rest Hs P2 P1 Eq Hrot Erest Er Hgl Hwg Hwr). }
  destruct H2 as [H2|(i & Hi & Esnd & Efst)].
  { exfalso. destruct (HW (cinf, []) ltac:(left; reflexivity) ltac:(rewrite H2; reflexivity) (seq 0 n) (Permutation_refl _)) as [_ (z & Hz & _)].
    exact (inf_not_holds z Hz). }
  destruct (HW _ (proj1 (proj1 (H1 i Hi))) Efst (seq 0 n) (Permutation_refl _)) as [Hg _].
  set (loc := dlocal_of (d_worker c i)) in *. destruct (genuine_near m w W Hn1 Hsz _ Hg) as [G1 G2].
  exists i, (fst loc), (snd loc). split; [assumption|]. split; [rewrite (surjective_pairing win), <- Efst, Esnd; reflexivity|].
  split; [apply surjective_pairing|]. split; [exact G1|]. split; [exact G2|]. intros Hsym q Hq.
  destruct (HW loc ltac:(right; exact Hg) Efst q Hq) as [_ (z & Hz & Htw)].
  exact (twice_result m w W Hn1 Hsz loc z Hg Hz Hsym q Hq Htw).
Qed.
End Dynamic.
End Parallel.
