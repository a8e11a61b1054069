(** The MPI exact solvers in exact arithmetic. *)
From Coq Require Import ZArith Arith Bool List Permutation Lia ZifyBool.
From Verif Require Import Num NumPos Base Spec Data Mst Exact Threaded Mpi SpecFacts Dfs PrimProofs ExactProofs DigitsProofs
  SearchProofs Coverage ThreadedProofs MpiStatic MpiDynamic MpiProofs.
Import ListNotations.

(** ** The prefixes the dynamic root hands out *)
Section Stream.
Variable n : nat.
Hypothesis Hn : 1 <= n.
Definition key3 (u : list nat) : Prop := length u = 3 /\ Forall (fun d => d < n) u /\ NoDup u.

Lemma next_unique_spec : forall fuel p, length p = 3 -> Forall (fun d => d < n) p -> n ^ 3 - number n p <= fuel ->
  exists q, next_unique fuel p n = Ok q /\
    match q with
    | Some v => key3 v /\ number n p < number n v /\ forall u, key3 u -> number n p < number n u -> number n v <= number n u
    | None => forall u, key3 u -> ~ number n p < number n u
    end.
Proof.
  induction fuel as [|f IH]; intros p Hl Hd Hf.
  { pose proof (value_lt n Hn p Hd) as H. rewrite Hl in H. lia. }
  pose proof (value_lt n Hn p Hd) as Hpl. rewrite Hl in Hpl.
  cbn [next_unique]. pose proof (get_next_value_spec n Hn p Hd) as H. destruct (get_next_value p n) as [v|].
  - destruct H as (H1 & H2 & H3). destruct (is_unique v) eqn:Eu.
    + eexists. split; [reflexivity|]. apply is_unique_NoDup in Eu. split; [repeat split; [lia|assumption|assumption]|].
      split; [lia|]. intros u _ Hu. lia.
    + destruct (IH v) as (q & Eq & Hq); [lia|assumption|lia|]. exists q. split; [assumption|].
      assert (G : forall u, key3 u -> number n p < number n u -> number n v < number n u).
      { intros u (U1 & U2 & U3) Hu. destruct (Nat.eq_dec (number n u) (number n v)) as [E|]; [|lia].
        apply (number_inj n Hn) in E; [|assumption|assumption|lia]. subst u. apply is_unique_NoDup in U3. congruence. }
      destruct q as [x|].
      * destruct Hq as (Q1 & Q2 & Q3). split; [assumption|]. split; [lia|]. intros u Hu Hlt. apply Q3; auto.
      * intros u Hu Hlt. apply (Hq u Hu). auto.
  - eexists. split; [reflexivity|]. intros u (U1 & U2 & U3) Hu. pose proof (value_lt n Hn u U2) as H'. rewrite U1 in H'. rewrite Hl in H. lia.
Qed.

Lemma follows_exists : forall k p, n ^ 3 - number n p <= k -> key3 p ->
  exists L, follows n (Some p) L /\ NoDup L /\ forall u, In u L <-> key3 u /\ number n p <= number n u.
Proof.
  induction k as [|k IH]; intros p Hk Hp; pose proof Hp as (P1 & P2 & P3).
  { pose proof (value_lt n Hn p P2) as H. rewrite P1 in H. lia. }
  destruct (next_unique_spec (S (n ^ 3)) p P1 P2 ltac:(lia)) as (q & Eq & Hq). destruct q as [v|].
  - destruct Hq as (Q1 & Q2 & Q3). destruct (IH v ltac:(lia) Q1) as (L & F1 & F2 & F3).
    exists (p :: L). split; [apply (follows_some n p (Some v) L Eq F1)|]. split.
    + constructor; [|assumption]. rewrite F3. lia.
    + intros u. cbn [In]. rewrite F3. split.
      * intros [<-|[H1 H2]]; [split; [assumption|lia]|split; [assumption|lia]].
      * intros [H1 H2]. destruct (Nat.eq_dec (number n p) (number n u)) as [E|Ne].
        -- left. destruct H1 as (U1 & U2 & _). apply (number_inj n Hn); [assumption|assumption|lia|assumption].
        -- right. split; [assumption|]. apply Q3; [assumption|lia].
  - exists [p]. split; [apply (follows_some n p None [] Eq); constructor|]. split; [constructor; [intros []|constructor]|].
    intros u. cbn [In]. split.
    + intros [<-|[]]. split; [assumption|lia].
    + intros [H1 H2]. left. destruct (Nat.eq_dec (number n p) (number n u)) as [E|Ne].
      * destruct H1 as (U1 & U2 & _). apply (number_inj n Hn); [assumption|assumption|lia|assumption].
      * exfalso. apply (Hq u H1). lia.
Qed.

Lemma key3_nonzero u : key3 u -> zeros u = false.
Proof.
  intros (H1 & _ & H3). destruct u as [|a [|b [|c [|]]]]; try discriminate. unfold zeros. simpl.
  destruct (Nat.eqb_spec a 0) as [->|]; [|reflexivity]. destruct (Nat.eqb_spec b 0) as [->|]; [|reflexivity].
  exfalso. inversion H3 as [|? ? Hni _]; subst. apply Hni. left. reflexivity.
Qed.
End Stream.

Theorem dynamic_stream n : 4 <= n -> exists L, follows n (Some [1; 2; 3]) L /\ NoDup L /\
  (forall u, In u L <-> key3 n u /\ number n [1; 2; 3] <= number n u) /\ forall u, In u L -> zeros u = false.
Proof.
  intros Hn. destruct (follows_exists n ltac:(lia) (n ^ 3) [1; 2; 3] ltac:(lia)) as (L & H1 & H2 & H3).
  { split; [reflexivity|]. split; [repeat constructor; lia|]. repeat constructor; simpl; lia. }
  exists L. split; [assumption|]. split; [assumption|]. split; [assumption|].
  intros u Hu. apply H3 in Hu. apply (key3_nonzero n). apply Hu.
Qed.

Lemma number_three n b c : 4 <= n -> number n [1; 2; 3] <= number n [3; b; c].
Proof.
  intros Hn. unfold number. cbn [fold_left].
  assert (4 * n <= n * n) by (apply Nat.mul_le_mono_r; lia). rewrite !Nat.mul_add_distr_r. lia.
Qed.

(** ** Exact results *)
Section Exact.
Context {N : Num} {B : Z} (E : Exact N B) (O : NumOrd N).
Variable m : namatrix N.
Hypothesis Hwf : na_wf m.
Variables (w : nat -> nat -> Z) (W : Z).
Notation n := (na_dim m).
Hypothesis Hn : 3 <= n.
Hypothesis Hrep : represents E (na_adj m) w.
Hypothesis HW : bounded w n W.
Hypothesis HB : (3 * W * (Z.of_nat n + 1) <= B)%Z.
Hypothesis Hnn : nonneg w n.

Definition exact (s : solution N) : Prop := s = (cinf, []) \/ exists p, a_tour E m w s p.

Lemma exact_init : exact (cinf, []). Proof. left. reflexivity. Qed.
Lemma tour_nonneg p : is_tour n p -> (0 <= tour_cost w p)%Z.
Proof.
  intros Hp. pose proof (prefix_cost_le w n p []) as H. rewrite app_nil_r in H.
  pose proof (path_cost_nonneg w n p Hnn (tour_Forall n p Hp)). specialize (H Hnn (tour_Forall n p Hp)). lia.
Qed.
Lemma small p : is_tour n p -> (Z.abs (tour_cost w p) <= B)%Z.
Proof. apply (tour_small' m w W ltac:(lia) HW HB). Qed.
Lemma B_nonneg : (0 <= B)%Z.
Proof. pose proof (small (seq 0 n) (Permutation_refl _)). lia. Qed.

Lemma exact_nonneg s : exact s -> cle c0 (fst s) = true.
Proof.
  intros [->|(p & -> & Hp)]; [apply (clt_le O), (ord_0 N O)|]. cbn [fst]. rewrite (inj_0 N B E).
  pose proof B_nonneg. rewrite (inj_le N B E); [|lia|apply small; assumption]. pose proof (tour_nonneg p Hp). lia.
Qed.

Lemma exact_Q g : Q exact g -> g = cinf \/ exists G, g = inj E G /\ (Z.abs G <= B)%Z.
Proof.
  intros (s & [->|(p & -> & Hp)] & ->); [left; reflexivity|right]. exists (tour_cost w p). split; [reflexivity|]. apply small. assumption.
Qed.

Lemma mpi_work_exact p g : NoDup p -> Forall (fun i => i < n) p -> Q exact g ->
  exists s, mpi_work m p g = Ok s /\ exact s /\
    forall q, is_tour n q -> extends p q ->
      (exists p', a_tour E m w s p' /\ (symmetric w n -> nonneg w n -> (tour_cost w p' <= 2 * tour_cost w q)%Z)) \/
      (exists G, g = inj E G /\ (Z.abs G <= B)%Z /\ (symmetric w n -> nonneg w n -> (G <= 2 * tour_cost w q)%Z)).
Proof.
  intros Hnd Hr Hg. unfold mpi_work. rewrite (eval_prefix E m w W ltac:(lia) Hrep HW HB p Hnd Hr). cbn [bind].
  apply (mpi_prefix E O m Hwf w W ltac:(lia) Hrep HW HB g p Hnd Hr). apply exact_Q. assumption.
Qed.

Lemma inj_not_inf G : (Z.abs G <= B)%Z -> inj E G <> cinf.
Proof.
  intros HG Heq. pose proof (inj_eq_inf N B E G HG) as H. rewrite Heq, (ord_eq N O) in H.
  rewrite (cle_refl O cinf (cinf_nnan O)) in H. discriminate.
Qed.

(** below something finite: a tour *)
Lemma exact_below s G : exact s -> (Z.abs G <= B)%Z -> cle (fst s) (inj E G) = true -> exists p, a_tour E m w s p.
Proof. intros [->|H] HG Hle; [|assumption]. cbn [fst] in Hle. rewrite (inf_le_inj N B E) in Hle by assumption. discriminate. Qed.

(** the comparison with any tour, for a winner below the result and the bound of a prefix *)
Lemma winner_factor (p : list nat) pre g r q x y rest : is_tour n p -> NoDup pre -> Forall (fun i => i < n) pre ->
  q = x ++ y -> is_tour n (y ++ x) -> y ++ x = pre ++ rest ->
  mpi_work m pre g = Ok r -> Q exact g -> cle (inj E (tour_cost w p)) g = true -> cle (inj E (tour_cost w p)) (fst r) = true ->
  symmetric w n -> (tour_cost w p <= 2 * tour_cost w q)%Z.
Proof.
  intros Hp Hnd Hr -> Hrot Hpre Hw Hg Hpg Hpr Hsym.
  destruct (mpi_work_exact pre g Hnd Hr Hg) as (s & Es & _ & Hs). rewrite Hw in Es. injection Es as <-.
  rewrite (tour_cost_rot w x y).
  destruct (Hs (y ++ x) Hrot ltac:(exists rest; assumption)) as [(p' & (-> & Hp') & Hc)|(G & -> & HG & Hc)]; specialize (Hc Hsym Hnn).
  - cbn [fst] in Hpr. rewrite (inj_le N B E) in Hpr by (apply small; assumption). lia.
  - rewrite (inj_le N B E) in Hpg by (try apply small; assumption). lia.
Qed.

(** ** Static *)
Section Static.
Variable workers : nat.
Hypothesis Hw1 : 1 <= workers.
Hypothesis Hw3 : workers < n ^ 3.
Variable todo : list (list (list nat)).
Hypothesis Htodo : static_todo m 3 workers = Ok todo.

Lemma chunk_of i : i < workers -> chunk_prefixes 3 n workers i = Ok (nth i todo []) /\
  forall p, In p (nth i todo []) -> NoDup p /\ Forall (fun x => x < n) p /\ length p = 3.
Proof.
  intros Hi. destruct (static_todo_Ok m ltac:(lia) 3 workers Hw3) as (t & Et & _ & H).
  rewrite Htodo in Et. injection Et as <-. apply H. assumption.
Qed.

Lemma static_work_exact i p g : i < workers -> In p (nth i todo []) -> Q exact g -> exists r, mpi_work m p g = Ok r /\ exact r.
Proof.
  intros Hi Hp Hg. destruct (chunk_of i Hi) as (_ & H). destruct (H p Hp) as (H1 & H2 & _).
  destruct (mpi_work_exact p g H1 H2 Hg) as (s & Es & Hs & _). eauto.
Qed.

(** some rotation of [q] begins with a prefix that some worker examines *)
Definition covered (q : list nat) : Prop := exists j pre x y rest, j < workers /\ In pre (nth j todo []) /\
  q = x ++ y /\ is_tour n (y ++ x) /\ y ++ x = pre ++ rest.

(** if no worker is without a prefix, everyone returns the same tour *)
Theorem static_genuine c : (forall i, i < workers -> nth i todo [] <> []) ->
  steps (sstep workers (mpi_work m)) (sinit (fun i => nth i todo [])) c -> sdone workers c ->
  exists p, wrapup (s_winner c) (static_paths n workers c) = Ok (repeat (inj E (tour_cost w p), p) (S workers)) /\ is_tour n p /\
    (symmetric w n -> forall q, is_tour n q -> covered q -> (tour_cost w p <= 2 * tour_cost w q)%Z).
Proof.
  intros Hne Hr Hd.
  destruct (static_outcome O workers (mpi_work m) (fun i => nth i todo []) exact exact_init exact_nonneg static_work_exact c Hr Hd)
    as (H1 & H2 & H3 & H4). set (win := s_winner c) in *. cbv beta in H3, H4.
  (* every worker has a tour *)
  assert (HA : forall i, i < workers -> exists p, a_tour E m w (local_of (s_worker c i)) p).
  { intros i Hi. specialize (Hne i Hi). destruct (chunk_of i Hi) as (_ & Hok).
    destruct (nth i todo []) as [|p0 rest] eqn:En; [contradiction Hne; reflexivity|].
    destruct (H4 i p0 rest Hi En) as (r & Er & Hle).
    destruct (Hok p0) as (P1 & P2 & _); [left; reflexivity|].
    destruct (mpi_work_exact p0 cinf P1 P2 (Q_init exact exact_init)) as (s & Es & _ & Hs). rewrite Er in Es. injection Es as <-.
    destruct (extend_tour n p0 P1 P2) as (r0 & Hr0).
    destruct (Hs (p0 ++ r0) Hr0 ltac:(exists r0; reflexivity)) as [(p' & (-> & Hp') & _)|(G & HG & HGB & _)];
      [|exfalso; apply (inj_not_inf G HGB); auto].
    cbn [fst] in Hle. apply (exact_below _ _ (proj1 (H1 i Hi)) (small p' Hp') Hle). }
  (* the winner *)
  destruct H2 as [H2|(i & Hi & Esnd & Efst)].
  { exfalso. destruct (HA 0 ltac:(lia)) as (p & Ep & Hp). destruct (H1 0 ltac:(lia)) as (_ & Hle). rewrite H2, Ep in Hle. cbn [fst] in Hle.
    rewrite (inf_le_inj N B E) in Hle by (apply small; assumption). discriminate. }
  destruct (HA i Hi) as (p & Ep & Hp). rewrite Ep in Efst. cbn [fst] in Efst.
  exists p. split; [|split; [assumption|]].
  - assert (Hlen : length (static_paths n workers c) = S workers) by (unfold static_paths; cbn [length]; rewrite map_length, seq_length; reflexivity).
    rewrite Efst, <- Hlen. apply wrapup_ok.
    + rewrite Esnd. unfold static_paths. rewrite nth_paths by assumption. rewrite Ep. reflexivity.
    + rewrite (tour_length n p Hp). unfold static_paths. intros p' [<-|Hin]; [apply repeat_length|].
      apply in_map_iff in Hin. destruct Hin as (j & <- & Hj). apply in_seq in Hj. destruct (HA j ltac:(lia)) as (pj & -> & Hpj). apply (tour_length n). assumption.
  - intros Hsym q Hq (j & pre & x & y & rest & Hj & Hin & Eq & Hrot & Erest).
    destruct (chunk_of j Hj) as (_ & Hok). destruct (Hok pre Hin) as (P1 & P2 & _).
    destruct (H3 j pre Hj Hin) as (g & r & Er & Hg & Hwg & Hwr). rewrite <- Efst in Hwg, Hwr.
    apply (winner_factor p pre g r q x y rest); assumption.
Qed.

Theorem static_factor c : workers <= n -> steps (sstep workers (mpi_work m)) (sinit (fun i => nth i todo [])) c -> sdone workers c ->
  exists p, wrapup (s_winner c) (static_paths n workers c) = Ok (repeat (inj E (tour_cost w p), p) (S workers)) /\ is_tour n p /\
    (symmetric w n -> forall q, is_tour n q -> (tour_cost w p <= 2 * tour_cost w q)%Z).
Proof.
  intros Hw Hr Hd. destruct (static_genuine c) as (p & E1 & Hp & Hq); [|assumption|assumption|].
  { intros i Hi E0. destruct (chunk_nonempty n workers i Hn (conj Hw1 Hw) Hi) as (p & l & El & Hp).
    destruct (chunk_of i Hi) as (Ec & _). rewrite El, E0 in Ec. injection Ec as ->. destruct Hp. }
  exists p. split; [exact E1|]. split; [exact Hp|]. intros Hsym q Ht. apply (Hq Hsym q Ht).
  destruct (coverage n Hn workers (conj Hw1 Hw) q Ht) as (j & pre & x & y & Hj & Eq & Hrot & (l & El & Hin) & _ & rest & Erest).
  destruct (chunk_of j Hj) as (Ec & _). rewrite El in Ec. injection Ec as ->. exists j, pre, x, y, rest. auto.
Qed.
End Static.

(** ** Dynamic *)
Section Dynamic.
Hypothesis Hn4 : 4 <= n.
Variable stream : list (list nat).
Hypothesis Hstream : follows n (Some [1; 2; 3]) stream.
Hypothesis Hin : forall u, In u stream <-> key3 n u /\ number n [1; 2; 3] <= number n u.
Hypothesis Hnz : forall u, In u stream -> zeros u = false.
Variable workers : nat.
Hypothesis Hw : 1 <= workers.

Lemma dynamic_work_exact p g : In p stream -> Q exact g -> exists r, mpi_work m p g = Ok r /\ exact r.
Proof.
  intros Hp Hg. apply Hin in Hp. destruct Hp as ((_ & H1 & H2) & _).
  destruct (mpi_work_exact p g H2 H1 Hg) as (s & Es & Hs & _). eauto.
Qed.

Theorem dynamic_factor c : steps (dstep workers n (mpi_work m)) dinit c -> ddone workers c ->
  exists i p, i < workers /\ d_winner c = (inj E (tour_cost w p), S i) /\ dlocal_of (d_worker c i) = (inj E (tour_cost w p), p) /\ is_tour n p /\
    (symmetric w n -> forall q, is_tour n q -> (tour_cost w p <= 2 * tour_cost w q)%Z) /\
    (forall j, j < workers -> exact (dlocal_of (d_worker c j))).
Proof.
  intros Hr Hd.
  destruct (dynamic_outcome O workers n (mpi_work m) stream Hstream Hnz exact exact_init exact_nonneg dynamic_work_exact c Hw Hr Hd)
    as (H1 & H2 & H3 & _). set (win := d_winner c) in *.
  (* every tour is covered by its rotation starting at 3 *)
  assert (HC : forall q, is_tour n q -> exists pre x y rest, In pre stream /\ q = x ++ y /\ is_tour n (y ++ x) /\ y ++ x = pre ++ rest).
  { intros q Hq. destruct (rot_at_spec n Hn 1 ltac:(lia) q 3 Hq ltac:(lia)) as (x & b & c' & r & E1 & E2 & E3 & E4).
    exists [3; b; c'], x, (3 :: skipn (S (length x)) q), r. rewrite <- E3. split; [|split; [assumption|split; [assumption|rewrite E2; reflexivity]]].
    apply Hin. rewrite E2 in E4. split; [|apply number_three; assumption].
    pose proof (tour_NoDup _ _ E4) as Hnd. pose proof (tour_Forall _ _ E4) as HF. clear - Hnd HF.
    change (3 :: b :: c' :: r) with ([3; b; c'] ++ r) in Hnd, HF. split; [reflexivity|]. split; [apply Forall_app in HF; apply HF|].
    clear HF. inversion Hnd as [|? ? A1 A2]; subst. inversion A2 as [|? ? B1 B2]; subst. inversion B2 as [|? ? D1 D2]; subst. simpl in A1, B1.
    constructor; [simpl; intuition|]. constructor; [simpl; intuition|]. constructor; [simpl; tauto|constructor]. }
  destruct H2 as [H2|(i & Hi & Esnd & Efst)].
  { exfalso. destruct (HC (seq 0 n) (Permutation_refl _)) as (pre & x & y & rest & Hp & _ & Hrot & Epre).
    destruct (H3 pre Hp) as (g & r & Er & Hg & Hwg & Hwr). rewrite H2 in Hwg, Hwr. cbn [fst] in Hwg, Hwr.
    apply Hin in Hp. destruct Hp as ((_ & P1 & P2) & _).
    destruct (mpi_work_exact pre g P2 P1 Hg) as (s & Es & _ & Hs). rewrite Er in Es. injection Es as <-.
    destruct (Hs (y ++ x) Hrot ltac:(exists rest; assumption)) as [(p' & (-> & Hp') & _)|(G & -> & HGB & _)].
    - cbn [fst] in Hwr. rewrite (inf_le_inj N B E) in Hwr by (apply small; assumption). discriminate.
    - rewrite (inf_le_inj N B E) in Hwg by assumption. discriminate. }
  assert (HP : exists p, a_tour E m w (dlocal_of (d_worker c i)) p).
  { destruct (proj1 (H1 i Hi)) as [Hinf|Hp]; [|assumption]. exfalso. rewrite Hinf in Efst. cbn [fst] in Efst.
    destruct (HC (seq 0 n) (Permutation_refl _)) as (pre & x & y & rest & Hp & _ & Hrot & Epre).
    destruct (H3 pre Hp) as (g & r & Er & Hg & Hwg & Hwr). rewrite <- Efst in Hwg, Hwr.
    apply Hin in Hp. destruct Hp as ((_ & P1 & P2) & _).
    destruct (mpi_work_exact pre g P2 P1 Hg) as (s & Es & _ & Hs). rewrite Er in Es. injection Es as <-.
    destruct (Hs (y ++ x) Hrot ltac:(exists rest; assumption)) as [(p' & (-> & Hp') & _)|(G & -> & HGB & _)].
    - cbn [fst] in Hwr. rewrite (inf_le_inj N B E) in Hwr by (apply small; assumption). discriminate.
    - rewrite (inf_le_inj N B E) in Hwg by assumption. discriminate. }
  destruct HP as (p & Ep & Hp). rewrite Ep in Efst. cbn [fst] in Efst.
  exists i, p. split; [assumption|]. split; [rewrite (surjective_pairing win), <- Efst, Esnd; reflexivity|]. split; [assumption|]. split; [assumption|].
  split; [|intros j Hj; apply H1; assumption].
  intros Hsym q Hq. destruct (HC q Hq) as (pre & x & y & rest & Hpre & Eq & Hrot & Erest).
  destruct (H3 pre Hpre) as (g & r & Er & Hg & Hwg & Hwr). rewrite <- Efst in Hwg, Hwr.
  apply Hin in Hpre. destruct Hpre as ((_ & P1 & P2) & _).
  apply (winner_factor p pre g r q x y rest); assumption.
Qed.
End Dynamic.
End Exact.
