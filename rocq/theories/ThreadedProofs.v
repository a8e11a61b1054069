(** Every schedule of the threaded solver finishes, and all of them report the same cost. *)
From Coq Require Import ZArith NArith Arith Bool List Permutation Lia ZifyBool.
From Verif Require Import Num Base Spec SpecFacts Data Mst Exact Threaded Dfs Greedy PrimProofs MstFacts
  ExactProofs PermProofs DigitsProofs SearchProofs Coverage.
Import ListNotations.

(** ** The prefixes *)
Lemma chunk_prefixes_Ok k dim t i : 1 <= t -> t < dim ^ k -> i < t ->
  exists l, chunk_prefixes k dim t i = Ok l /\
    forall p, In p l -> NoDup p /\ Forall (fun x => x < dim) p /\ length p = k.
Proof.
  intros Ht Hd Hi.
  assert (H1 : 1 <= dim) by (destruct dim; [destruct k; simpl in Hd; lia|lia]).
  assert (G : forall us, forall p, In p (filter is_unique (map (fun u => convert_to_b_ary_digits u dim k) us)) ->
    NoDup p /\ Forall (fun x => x < dim) p /\ length p = k).
  { intros us p Hp. apply filter_In in Hp. destruct Hp as [Hp Hu]. apply is_unique_NoDup in Hu.
    apply in_map_iff in Hp. destruct Hp as (u & <- & _). split; [assumption|].
    split; [apply convert_ok; assumption|apply convert_length; assumption]. }
  destruct (le_lt_dec (2 * t) (dim ^ k)) as [H2|H2].
  - eexists. split; [apply chunk_prefixes_spec; assumption|]. intros p Hp. apply (G _ p Hp).
  - eexists. split; [apply chunk_prefixes_small; lia|]. intros p Hp. apply (G _ p Hp).
Qed.

Lemma chunk_prefixes_panics k dim t i : dim ^ k <= t \/ t = 0 -> chunk_prefixes k dim t i = Panic.
Proof. intros H. unfold chunk_prefixes. rewrite split_panics by assumption. reflexivity. Qed.

Lemma mapM_Forall2 {A B} (f : A -> res B) l r : mapM f l = Ok r <-> Forall2 (fun a b => f a = Ok b) l r.
Proof.
  revert r. induction l as [|a l IH]; intros r; simpl.
  - split; [intros H; injection H as <-; constructor|intros H; inversion H; reflexivity].
  - destruct (f a) as [b| |] eqn:Ef; simpl.
    + destruct (mapM f l) as [bs| |] eqn:Em; simpl.
      * split.
        -- intros H. injection H as <-. constructor; [assumption|]. apply IH. reflexivity.
        -- intros H. inversion H as [|? b' ? bs' Hb Hbs]; subst. rewrite Ef in Hb. injection Hb as ->.
           apply IH in Hbs. congruence.
      * split; [discriminate|]. intros H. inversion H as [|? b' ? bs' Hb Hbs]; subst. apply IH in Hbs. discriminate.
      * split; [discriminate|]. intros H. inversion H as [|? b' ? bs' Hb Hbs]; subst. apply IH in Hbs. discriminate.
    + split; [discriminate|]. intros H. inversion H as [|? b' ? bs' Hb Hbs]; subst. congruence.
    + split; [discriminate|]. intros H. inversion H as [|? b' ? bs' Hb Hbs]; subst. congruence.
Qed.

Lemma mapM_exists {A B} (f : A -> res B) (P : A -> B -> Prop) l :
  (forall a, In a l -> exists b, f a = Ok b /\ P a b) ->
  exists r, mapM f l = Ok r /\ Forall2 (fun a b => f a = Ok b /\ P a b) l r.
Proof.
  induction l as [|a l IH]; intros H; [exists []; split; [reflexivity|constructor]|].
  destruct (H a ltac:(left; reflexivity)) as (b & Hb & HP).
  destruct IH as (r & Hr & HF); [intros a' Ha'; apply H; right; assumption|].
  exists (b :: r). split; [simpl; rewrite Hb; simpl; rewrite Hr; reflexivity|constructor; auto].
Qed.

Section Runs.
Context {N : Num}.

(** the prefixes still to do, over all threads *)
Definition pending (c : tconfig N) : list (list nat) := concat (snd c).

Lemma Permutation_mid {A} (a b : list A) x : Permutation (a ++ x :: b) (x :: a ++ b).
Proof. symmetry. apply Permutation_middle. Qed.

Lemma tstep_pending m (c c' : tconfig N) : tstep m c c' ->
  exists p r, thread_work m p = Ok r /\ Permutation (pending c) (p :: pending c') /\ fst c' = merge (fst c) r.
Proof.
  intros H. inversion H as [g before p rest after r Hw E1 E2]; subst. exists p, r. split; [assumption|].
  split; [|reflexivity]. unfold pending. simpl. rewrite !concat_app. simpl. apply Permutation_mid.
Qed.

(** a run merges the results of the prefixes it has finished, in some order *)
Lemma tsteps_spec m (c c' : tconfig N) : tsteps m c c' ->
  exists ps rs, Forall2 (fun p r => thread_work m p = Ok r) ps rs /\
    Permutation (pending c) (ps ++ pending c') /\ fst c' = fold_left merge rs (fst c).
Proof.
  induction 1 as [c|c c' c'' H IH Hs].
  - exists [], []. split; [constructor|]. split; [apply Permutation_refl|reflexivity].
  - destruct IH as (ps & rs & HF & HP & Hg). destruct (tstep_pending _ _ _ Hs) as (p & r & Hw & HP' & Hg').
    exists (ps ++ [p]), (rs ++ [r]). split; [apply Forall2_app; [assumption|constructor; [assumption|constructor]]|].
    split.
    + rewrite HP, HP', <- app_assoc. reflexivity.
    + rewrite fold_left_app. simpl. rewrite <- Hg. assumption.
Qed.

Lemma tdone_pending (c : tconfig N) : tdone c <-> pending c = [].
Proof.
  unfold tdone, pending. induction (snd c) as [|l ls IH]; simpl; [split; [reflexivity|constructor]|].
  split.
  - intros H. inversion H; subst. apply IH. assumption.
  - intros H. apply app_eq_nil in H. destruct H as [-> H]. constructor; [reflexivity|apply IH; assumption].
Qed.

(** every step takes one prefix: the number of steps is bounded *)
Lemma tstep_measure m (c c' : tconfig N) : tstep m c c' -> length (pending c) = S (length (pending c')).
Proof. intros H. destruct (tstep_pending _ _ _ H) as (p & r & _ & HP & _). apply Permutation_length in HP. assumption. Qed.

(** progress, while every pending prefix can be worked on *)
Lemma tprogress m (c : tconfig N) : (forall p, In p (pending c) -> exists r, thread_work m p = Ok r) ->
  tdone c \/ exists c', tstep m c c'.
Proof.
  destruct c as [g todo]. unfold pending, tdone. cbn [snd]. intros H.
  assert (G : Forall (fun t => t = []) todo \/ exists b p r a, todo = b ++ (p :: r) :: a).
  { clear H. induction todo as [|[|p r] todo IH]; [left; constructor| |].
    - destruct IH as [IH|(b & p & r & a & ->)]; [left; constructor; auto|].
      right. exists ([] :: b), p, r, a. reflexivity.
    - right. exists [], p, r, todo. reflexivity. }
  destruct G as [G|(b & p & r & a & ->)]; [left; assumption|right].
  destruct (H p) as (s & Hs); [apply in_concat; exists (p :: r); split; [apply in_elt|left; reflexivity]|].
  eexists. apply (tstep_thread m g b p r a s Hs).
Qed.

(** ** Merging keeps the minimum *)
Section Ord.
Context (O : NumOrd N).
Lemma merge_min rs : forall g : solution N, cnan (fst g) = false -> Forall (fun r => cnan (fst r) = false) rs ->
  let s := fold_left merge rs g in
  In s (g :: rs) /\ cnan (fst s) = false /\ Forall (fun r => cle (fst s) (fst r) = true) (g :: rs).
Proof.
  induction rs as [|r rs IH]; intros g Hg Hr; cbn [fold_left]; cbv zeta.
  - split; [left; reflexivity|]. split; [assumption|]. constructor; [apply (cle_refl O); assumption|constructor].
  - inversion Hr as [|? ? Hr1 Hr2]; subst.
    assert (Hm : (merge g r = g \/ merge g r = r) /\ cnan (fst (merge g r)) = false /\
      cle (fst (merge g r)) (fst g) = true /\ cle (fst (merge g r)) (fst r) = true).
    { unfold merge. destruct (clt (fst r) (fst g)) eqn:Hc.
      - split; [right; reflexivity|]. split; [assumption|]. split; [apply (clt_le O); assumption|apply (cle_refl O); assumption].
      - split; [left; reflexivity|]. split; [assumption|]. split; [apply (cle_refl O); assumption|].
        apply (nclt_cle O); assumption. }
    destruct Hm as (Hm & Hmn & Hm1 & Hm2). specialize (IH (merge g r) Hmn Hr2). cbv zeta in IH.
    destruct IH as (H1 & H2 & H3). inversion H3 as [|? ? H4 H5]; subst. split.
    + destruct H1 as [H1|H1]; [|right; right; assumption]. rewrite <- H1. destruct Hm as [->| ->]; [left|right; left]; reflexivity.
    + split; [assumption|]. constructor; [apply (ord_trans N O _ _ _ H4 Hm1)|].
      constructor; [apply (ord_trans N O _ _ _ H4 Hm2)|assumption].
Qed.

(** ** One prefix *)
Lemma evaluate_path_total (m : namatrix N) : na_wf m -> forall p, Forall (fun i => i < na_dim m) p ->
  exists c, evaluate_path (na_adj m) p = Ok c.
Proof.
  intros Hwf p Hr. unfold evaluate_path. destruct (length p <=? 1) eqn:Hl; [eauto|].
  rewrite Forall_forall in Hr.
  match goal with |- exists c, foldM ?f ?l ?s = _ => destruct (foldM_inv f (fun _ _ => True) l s I) as (c & Hc & _); [|eauto] end.
  intros pre k post acc Eseq _.
  assert (Hk : In k (seq 0 (length p - 1))) by (rewrite Eseq; apply in_elt). apply in_seq in Hk.
  rewrite (nth_res_nth p k 0), (nth_res_nth p (k + 1) 0) by lia. cbn [bind na_adj a_get].
  rewrite na_get_val; [|assumption|apply Hr, nth_In; lia|apply Hr, nth_In; lia]. cbn [bind]. eauto.
Qed.

Lemma thread_work_total (m : namatrix N) p : 1 <= na_dim m -> na_wf m -> NoDup p -> Forall (fun i => i < na_dim m) p ->
  exists s, thread_work m p = Ok s /\ found (na_dim m) s.
Proof.
  intros Hn Hwf Hnd Hr. unfold thread_work. destruct (evaluate_path_total m Hwf p Hr) as (c & ->). cbn [bind].
  rewrite (fifth_mpi O). apply (mpi_struct O); assumption.
Qed.

(** ** All runs *)
Section Solver.
Variable m : namatrix N.
Hypothesis Hn : 1 <= na_dim m.
Hypothesis Hwf : na_wf m.
Variables plen t : nat.
Hypothesis Ht : 1 <= t.
Hypothesis Htn : t < na_dim m ^ plen.

Lemma tinit_Ok : exists c0, tinit m plen t = Ok c0 /\ fst c0 = (cinf, []) /\
  Forall2 (fun i l => chunk_prefixes plen (na_dim m) t i = Ok l) (seq 0 t) (snd c0) /\
  forall p, In p (pending c0) -> NoDup p /\ Forall (fun x => x < na_dim m) p /\ length p = plen.
Proof.
  unfold tinit.
  destruct (mapM_exists (chunk_prefixes plen (na_dim m) t)
    (fun _ l => forall p, In p l -> NoDup p /\ Forall (fun x => x < na_dim m) p /\ length p = plen) (seq 0 t)) as (r & Hr & HF).
  { intros i Hi. apply in_seq in Hi. apply chunk_prefixes_Ok; lia. }
  rewrite Hr. cbn [bind]. eexists. split; [reflexivity|]. split; [reflexivity|]. cbn [snd pending]. split.
  - clear Hr. induction HF as [|a b l r [H1 H2] HF IH]; constructor; assumption.
  - unfold pending. cbn [snd]. intros p Hp. apply in_concat in Hp. destruct Hp as (l & Hl & Hp).
    clear Hr. induction HF as [|a b l' r [H1 H2] HF IH]; [destruct Hl|]. destruct Hl as [->|Hl]; [apply H2; assumption|auto].
Qed.

Variable c0 : tconfig N.
Hypothesis Hc0 : tinit m plen t = Ok c0.

Lemma pending_ok p : In p (pending c0) -> NoDup p /\ Forall (fun x => x < na_dim m) p /\ length p = plen.
Proof. destruct tinit_Ok as (c & E & _ & _ & H). rewrite Hc0 in E. injection E as <-. apply H. Qed.

Lemma run_progress c : tsteps m c0 c -> tdone c \/ exists c', tstep m c c'.
Proof.
  intros H. apply tprogress. intros p Hp. destruct (tsteps_spec _ _ _ H) as (ps & rs & _ & HP & _).
  assert (Hin : In p (pending c0)) by (rewrite HP; apply in_or_app; right; assumption).
  destruct (pending_ok p Hin) as (H1 & H2 & _).
  destruct (thread_work_total m p Hn Hwf H1 H2) as (s & Hs & _). eauto.
Qed.

Lemma run_extends c : tsteps m c0 c -> exists c', tsteps m c c' /\ tdone c'.
Proof.
  remember (length (pending c)) as k eqn:Ek. revert c Ek. induction k as [|k IH]; intros c Ek H.
  - exists c. split; [apply tsteps_refl|]. apply tdone_pending. destruct (pending c); [reflexivity|discriminate].
  - destruct (run_progress c H) as [Hd|(c' & Hs)]; [apply tdone_pending in Hd; rewrite Hd in Ek; discriminate|].
    pose proof (tstep_measure _ _ _ Hs) as Hm.
    destruct (IH c') as (c'' & H1 & H2); [lia|apply (tsteps_step m c0 c c'); assumption|].
    exists c''. split; [|assumption]. clear - Hs H1.
    induction H1 as [c'|c' d d' H1 IH Hd]; [apply (tsteps_step m c c c' (tsteps_refl m c) Hs)|].
    apply (tsteps_step m c d d'); [apply IH; assumption|assumption].
Qed.

(** the final best is the initial one or the result of a prefix, and is below all of them *)
Lemma run_result c : tsteps m c0 c -> tdone c ->
  found (na_dim m) (fst c) /\
  (fst c = (cinf, []) \/ exists p, In p (pending c0) /\ thread_work m p = Ok (fst c)) /\
  (forall p r, In p (pending c0) -> thread_work m p = Ok r -> cle (fst (fst c)) (fst r) = true).
Proof.
  intros H Hd. destruct (tsteps_spec _ _ _ H) as (ps & rs & HF & HP & Hg).
  apply tdone_pending in Hd. rewrite Hd, app_nil_r in HP.
  assert (Hrs : Forall (fun r => found (na_dim m) r /\ exists p, In p (pending c0) /\ thread_work m p = Ok r) rs).
  { assert (Hps : forall p, In p ps -> In p (pending c0)) by (intros p Hp; rewrite HP; assumption).
    clear - HF Hps Hn Hwf Hc0 Ht Htn O. induction HF as [|p r ps rs Hw HF IH]; constructor.
    - assert (Hin := Hps p ltac:(left; reflexivity)).
      destruct (pending_ok p Hin) as (H1 & H2 & _). destruct (thread_work_total m p Hn Hwf H1 H2) as (s & Hs & Hf).
      rewrite Hw in Hs. injection Hs as <-. split; [assumption|eauto].
    - apply IH. intros q Hq. apply Hps. right. assumption. }
  assert (E0 : fst c0 = (cinf, [])).
  { destruct tinit_Ok as (c1 & E & E0 & _). rewrite Hc0 in E. injection E as <-. assumption. }
  rewrite E0 in Hg.
  destruct (merge_min rs (cinf, []) (cinf_nnan O)) as (H1 & H2 & H3).
  { eapply Forall_impl; [|exact Hrs]. intros r [Hf _]. apply (found_nnan O _ _ Hf). }
  rewrite <- Hg in H1, H2, H3. rewrite Forall_forall in Hrs, H3. split; [|split].
  - destruct H1 as [H1|H1]; [left; congruence|]. apply Hrs. assumption.
  - destruct H1 as [H1|H1]; [left; congruence|]. right. apply Hrs. assumption.
  - intros p r Hp Hw. apply H3. right. rewrite HP in Hp. clear - HF Hp Hw.
    induction HF as [|p' r' ps rs Hw' HF IH]; [destruct Hp|].
    destruct Hp as [->|Hp]; [left; congruence|right; auto].
Qed.

Theorem runs_agree c c' : tsteps m c0 c -> tdone c -> tsteps m c0 c' -> tdone c' ->
  ceq (fst (fst c)) (fst (fst c')) = true.
Proof.
  intros H1 D1 H2 D2. destruct (run_result c H1 D1) as (F1 & P1 & L1). destruct (run_result c' H2 D2) as (F2 & P2 & L2).
  rewrite (ord_eq N O). apply andb_true_intro.
  assert (G : forall s s' : solution N, found (na_dim m) s ->
    (s' = (cinf, []) \/ exists p, In p (pending c0) /\ thread_work m p = Ok s') ->
    (forall p r, In p (pending c0) -> thread_work m p = Ok r -> cle (fst s) (fst r) = true) -> cle (fst s) (fst s') = true).
  { intros s s' F [->|(p & Hp & Hw)] L; [|apply (L p); assumption]. apply (ord_inf N O). apply (found_nnan O _ _ F). }
  split; [apply (G (fst c) (fst c'))|apply (G (fst c') (fst c))]; assumption.
Qed.
End Solver.
End Ord.
End Runs.

(** ** Exact arithmetic: the factor two *)
Section Factor.
Context {N : Num} {B : Z} (E : Exact N B) (O : NumOrd N).
Variable m : namatrix N.
Hypothesis Hwf : na_wf m.
Variable w : nat -> nat -> Z.
Variable W : Z.
Let n := na_dim m.
Hypothesis Hn : 3 <= n.
Hypothesis Hrep : represents E (na_adj m) w.
Hypothesis HW : bounded w n W.
Hypothesis HB : (3 * W * (Z.of_nat n + 1) <= B)%Z.

Lemma thread_work_exact p : NoDup p -> Forall (fun i => i < n) p ->
  exists s, thread_work m p = Ok s /\
    (s = (cinf, []) \/ exists p', a_tour E m w s p') /\
    forall q, is_tour n q -> extends p q ->
      exists p', a_tour E m w s p' /\ (symmetric w n -> nonneg w n -> (tour_cost w p' <= 2 * tour_cost w q)%Z).
Proof.
  intros Hnd Hr. unfold thread_work.
  rewrite (eval_prefix E m w W ltac:(lia) Hrep HW HB p Hnd Hr). cbn [bind]. rewrite (fifth_mpi O).
  destruct (mpi_prefix E O m Hwf w W ltac:(lia) Hrep HW HB cinf p Hnd Hr ltac:(left; reflexivity)) as (s & Hs & H1 & H2).
  exists s. split; [exact Hs|]. split; [assumption|].
  intros q Hq He. destruct (H2 q Hq He) as [H|(G & HG & HGB & _)]; [assumption|].
  exfalso. pose proof (inj_eq_inf N B E G HGB) as H. rewrite <- HG, (ord_eq N O) in H.
  rewrite (cle_refl O cinf (cinf_nnan O)) in H. discriminate.
Qed.

Variable t : nat.
Hypothesis Ht : 1 <= t <= n.

Theorem threaded_factor c0 c : tinit m 3 t = Ok c0 -> tsteps m c0 c -> tdone c ->
  exists p, a_tour E m w (fst c) p /\
    (symmetric w n -> nonneg w n -> forall q, is_tour n q -> (tour_cost w p <= 2 * tour_cost w q)%Z).
Proof.
  intros Hc0 Hrun Hd.
  assert (Htn : t < na_dim m ^ 3) by (fold n; rewrite pow3; nia).
  destruct (run_result O m ltac:(fold n; lia) Hwf 3 t (proj1 Ht) Htn c0 Hc0 c Hrun Hd) as (_ & Hfrom & Hle).
  destruct (tinit_Ok m ltac:(fold n; lia) 3 t (proj1 Ht) Htn) as (c1 & Ec1 & _ & Hchunks & Hpend).
  rewrite Hc0 in Ec1. injection Ec1 as <-.
  (* any tour: compare with the result of the prefix of a rotation *)
  assert (Hcov : forall q, is_tour n q -> exists p p' s, In p (pending c0) /\ thread_work m p = Ok s /\ a_tour E m w s p' /\
    (symmetric w n -> nonneg w n -> (tour_cost w p' <= 2 * tour_cost w q)%Z)).
  { intros q Hq. destruct (coverage n Hn t Ht q Hq) as (i & p & x & y & Hi & Eq & Hrot & (l & Hl & Hin) & Hlen & r & Er).
    assert (Hp : In p (pending c0)).
    { unfold pending. apply in_concat. exists l. split; [|assumption].
      assert (Hii : In i (seq 0 t)) by (apply in_seq; lia). clear - Hchunks Hii Hl. fold n in Hchunks.
      induction Hchunks as [|j l' js ls Hj HF IH]; [destruct Hii|].
      destruct Hii as [->|Hii]; [left; congruence|right; auto]. }
    destruct (Hpend p Hp) as (H1 & H2 & _).
    destruct (thread_work_exact p H1 H2) as (s & Hs & _ & Hg).
    destruct (Hg (y ++ x) Hrot) as (p' & Hp' & Hc).
    { exists r. assumption. }
    exists p, p', s. split; [assumption|]. split; [assumption|]. split; [assumption|].
    subst q. rewrite (tour_cost_rot w x y). assumption. }
  destruct (Hcov (seq 0 n) (Permutation_refl _)) as (p0 & p0' & s0 & Hp0 & Hw0 & Ha0 & _).
  assert (Htour : exists p, a_tour E m w (fst c) p).
  { destruct Hfrom as [Hinf|(p & Hp & Hw)].
    - exfalso. specialize (Hle p0 s0 Hp0 Hw0). rewrite Hinf in Hle. destruct Ha0 as [-> Ha0]. cbn [fst] in Hle.
      rewrite (inf_le_inj N B E) in Hle; [discriminate|]. apply (tour_small' m w W ltac:(fold n; lia) HW HB). assumption.
    - destruct (Hpend p Hp) as (H1 & H2 & _). destruct (thread_work_exact p H1 H2) as (s & Hs & [Hs'|Hs'] & _).
      + exfalso. specialize (Hle p0 s0 Hp0 Hw0). rewrite Hw in Hs. injection Hs as Hs. rewrite Hs, Hs' in Hle. destruct Ha0 as [-> Ha0]. cbn [fst] in Hle.
        rewrite (inf_le_inj N B E) in Hle; [discriminate|]. apply (tour_small' m w W ltac:(fold n; lia) HW HB). assumption.
      + rewrite Hw in Hs. injection Hs as ->. assumption. }
  destruct Htour as (p & Hp). exists p. split; [assumption|]. intros Hsym Hnn q Hq.
  destruct (Hcov q Hq) as (p1 & p1' & s1 & Hp1 & Hw1 & Ha1 & Hc1). specialize (Hc1 Hsym Hnn).
  specialize (Hle p1 s1 Hp1 Hw1). destruct Hp as [Hp Htp]. destruct Ha1 as [-> Ha1]. rewrite Hp in Hle. cbn [fst] in Hle.
  rewrite inj_le in Hle by (apply (tour_small' m w W ltac:(fold n; lia) HW HB); assumption). lia.
Qed.
End Factor.
