(** Invariants of the static MPI solver, for every result the workers may compute. *)
From Coq Require Import ZArith Arith Bool List Permutation Lia ZifyBool.
From Verif Require Import Num Base Spec Data Mst Exact Threaded Mpi PrimProofs.
Import ListNotations.

Lemma fupd_eq {A} (f : nat -> A) i x : fupd f i x i = x.
Proof. unfold fupd. rewrite Nat.eqb_refl. reflexivity. Qed.
Lemma fupd_neq {A} (f : nat -> A) i j x : j <> i -> fupd f i x j = f j.
Proof. intros H. unfold fupd. apply Nat.eqb_neq in H. rewrite H. reflexivity. Qed.

(** counting and summing over the workers *)
Fixpoint sum (f : nat -> nat) (k : nat) : nat := match k with 0 => 0 | S k => sum f k + f k end.
Lemma sum_ext f g k : (forall i, i < k -> f i = g i) -> sum f k = sum g k.
Proof. induction k; intros H; simpl; [reflexivity|]. rewrite IHk, H by auto. reflexivity. Qed.
Lemma sum_change f g k i : i < k -> (forall j, j < k -> j <> i -> g j = f j) -> sum g k + f i = sum f k + g i.
Proof.
  induction k as [|k IH]; intros Hi H; [lia|]. simpl. destruct (Nat.eq_dec i k) as [->|Ne].
  - rewrite (sum_ext g f k) by (intros j Hj; apply H; lia). lia.
  - rewrite (H k) by lia. specialize (IH ltac:(lia) ltac:(intros j Hj; apply H; lia)). lia.
Qed.
Lemma sum_le f k : (forall i, i < k -> f i <= 1) -> sum f k <= k.
Proof. induction k; intros H; simpl; [lia|]. specialize (H k ltac:(lia)) as Hk. specialize (IHk ltac:(auto)). lia. Qed.
Lemma sum_full f k : (forall i, i < k -> f i <= 1) -> k <= sum f k -> forall i, i < k -> f i = 1.
Proof.
  induction k as [|k IH]; intros H Hs i Hi; [lia|]. simpl in Hs.
  pose proof (sum_le f k ltac:(auto)). pose proof (H k ltac:(lia)).
  destruct (Nat.eq_dec i k) as [->|Ne]; [lia|]. apply IH; auto; lia.
Qed.
Lemma sum_less f k : (forall i, i < k -> f i <= 1) -> sum f k < k -> exists i, i < k /\ f i = 0.
Proof.
  induction k as [|k IH]; intros H Hs; [lia|]. simpl in Hs. pose proof (H k ltac:(lia)).
  destruct (f k) eqn:Ef; [exists k; auto|]. destruct IH as (i & Hi & E); [auto|lia|]. exists i. auto.
Qed.

Section Static.
Context {N : Num} (O : NumOrd N).
Variable workers : nat.
Variable work : list nat -> C N -> res (solution N).
Variable todo : nat -> list (list nat).
(** what is known of the results: closed under what the workers do *)
Variable P : solution N -> Prop.
Definition Q (c : C N) : Prop := exists s, P s /\ c = fst s.
Hypothesis P_init : P (cinf, []).
Hypothesis P_nonneg : forall s, P s -> cle c0 (fst s) = true.
Hypothesis Hwork : forall i p g, i < workers -> In p (todo i) -> Q g -> exists r, work p g = Ok r /\ P r.

Lemma P_nnan s : P s -> cnan (fst s) = false.
Proof. intros H. apply (ord_nan_r N O c0). apply P_nonneg. assumption. Qed.
Lemma Q_nnan c : Q c -> cnan c = false.
Proof. intros (s & H & ->). apply P_nnan. assumption. Qed.
Lemma Q_init : Q cinf.
Proof. exists (cinf, []). auto. Qed.

Lemma merge_P l r : P l -> P r -> P (merge l r).
Proof. intros. unfold merge. destruct (clt _ _); assumption. Qed.
Lemma merge_l (l r : solution N) : P l -> P r -> cle (fst (merge l r)) (fst l) = true.
Proof.
  intros Hl Hr. unfold merge. destruct (clt _ _) eqn:E; [apply (clt_le O); assumption|]. apply (cle_refl O), P_nnan. assumption.
Qed.
Lemma merge_r (l r : solution N) : P l -> P r -> cle (fst (merge l r)) (fst r) = true.
Proof.
  intros Hl Hr. unfold merge. destruct (clt _ _) eqn:E; [apply (cle_refl O), P_nnan; assumption|].
  apply (nclt_cle O); try (apply P_nnan); assumption.
Qed.
Lemma merge_lt (l r : solution N) : merge l r = l \/ clt (fst (merge l r)) (fst l) = true.
Proof. unfold merge. destruct (clt _ _) eqn:E; [right; assumption|left; reflexivity]. Qed.

(** a bound the root sent to a worker *)
Definition gok (win : C N) (dn : list (list nat)) (g : C N) : Prop :=
  Q g /\ cle win g = true /\ (dn = [] -> g = cinf).

(** what a worker has done so far *)
Definition history (win : C N) (dn : list (list nat)) (local : solution N) : Prop :=
  (forall p, In p dn -> exists g r, work p g = Ok r /\ Q g /\ cle win g = true /\ cle (fst local) (fst r) = true) /\
  (forall p dn', dn = p :: dn' -> exists r, work p cinf = Ok r /\ cle (fst local) (fst r) = true).

Definition winv (win : C N) (i : nat) (st : wstate N) (u : list (C N * nat)) (d : list (C N)) : Prop :=
  P (local_of st) /\ exists dn td, todo i = dn ++ td /\ history win dn (local_of st) /\
  match st with
  | WRun td' local g => td' = td /\ u = [] /\ d = [] /\ cle win (fst local) = true /\ gok win dn g
  | WWait td' local => td' = td /\ dn <> [] /\
      ((u = [(fst local, S i)] /\ d = []) \/
       (u = [] /\ exists g, d = [g] /\ gok win dn g /\ cle win (fst local) = true))
  | WBar local => td = [] /\ d = [] /\ cle win (fst local) = true /\ (u = [(cneg1, S i)] \/ u = [])
  end.

Lemma gok_mono win win' dn g : cle win' win = true -> gok win dn g -> gok win' dn g.
Proof. intros H (H1 & H2 & H3). split; [assumption|]. split; [|assumption]. apply (ord_trans N O _ _ _ H H2). Qed.

Lemma history_mono win win' dn l l' : cle win' win = true -> cle (fst l') (fst l) = true -> history win dn l -> history win' dn l'.
Proof.
  intros H H' [H1 H2]. split.
  - intros p Hp. destruct (H1 p Hp) as (g & r & Hw & HQ & Hg & Hl). exists g, r. split; [assumption|]. split; [assumption|].
    split; [apply (ord_trans N O _ _ _ H Hg)|apply (ord_trans N O _ _ _ H' Hl)].
  - intros p dn' E. destruct (H2 p dn' E) as (r & Hw & Hl). exists r. split; [assumption|]. apply (ord_trans N O _ _ _ H' Hl).
Qed.

Lemma winv_mono win win' i st u d : cle win' win = true -> winv win i st u d -> winv win' i st u d.
Proof.
  intros H (HP & dn & td & E & Hh & Hs). split; [assumption|]. exists dn, td. split; [assumption|].
  split; [apply (history_mono win win' dn (local_of st)); try assumption; apply (cle_refl O), P_nnan; assumption|].
  destruct st as [td' l g|td' l|l].
  - destruct Hs as (H1 & H2 & H3 & H4 & H5). repeat split; try assumption; try apply H5; apply (ord_trans N O _ win); try assumption; apply H5.
  - destruct Hs as (H1 & H2 & H3). split; [assumption|]. split; [assumption|]. destruct H3 as [H3|(H3 & g & H4 & H5 & H6)]; [left; assumption|right].
    split; [assumption|]. exists g. split; [assumption|]. split; [apply (gok_mono win); assumption|]. apply (ord_trans N O _ win); assumption.
  - destruct Hs as (H1 & H2 & H3 & H4). repeat split; try assumption. apply (ord_trans N O _ win); assumption.
Qed.

Definition finb (st : wstate N) (u : list (C N * nat)) : nat :=
  match st, u with WBar _, [] => 1 | _, _ => 0 end.
Lemma finb_le st u : finb st u <= 1.
Proof. destruct st; simpl; try lia. destruct u; lia. Qed.

Definition winner_ok (win : C N * nat) (st : nat -> wstate N) : Prop :=
  Q (fst win) /\
  (win = (cinf, 0) \/ exists i, i < workers /\ snd win = S i /\
     (fst (local_of (st i)) = fst win \/ clt (fst (local_of (st i))) (fst win) = true)).

Definition inv (c : sconfig N) : Prop :=
  winner_ok (s_winner c) (s_worker c) /\
  (forall i, i < workers -> winv (fst (s_winner c)) i (s_worker c i) (s_up c i) (s_down c i)) /\
  s_finished c = sum (fun i => finb (s_worker c i) (s_up c i)) workers /\
  (s_barrier c = true -> workers <= s_finished c).

Lemma inv_init : inv (sinit todo).
Proof.
  split; [|split; [|split]]; simpl.
  - split; [apply Q_init|left; reflexivity].
  - intros i Hi. split; [assumption|]. exists [], (todo i). split; [reflexivity|]. split.
    + split; [intros p []|intros p dn' E; discriminate].
    + repeat split; try apply (cle_refl O); try apply (cinf_nnan O). apply Q_init.
  - clear. induction workers; simpl; [reflexivity|]. rewrite <- IHn. reflexivity.
  - discriminate.
Qed.

Lemma winner_ok_fupd win st i s : winner_ok win st ->
  (fst (local_of s) = fst (local_of (st i)) \/ clt (fst (local_of s)) (fst (local_of (st i))) = true) ->
  winner_ok win (fupd st i s).
Proof.
  intros [HQ H] Hs. split; [assumption|]. destruct H as [H|(j & Hj & E & H)]; [left; assumption|right].
  exists j. split; [assumption|]. split; [assumption|]. destruct (Nat.eq_dec j i) as [->|Ne].
  - rewrite fupd_eq. destruct H as [H|H], Hs as [Hs|Hs].
    + left. congruence.
    + right. rewrite <- H. assumption.
    + right. rewrite Hs. assumption.
    + right. apply (clt_cle_trans O _ _ _ Hs). apply (clt_le O). assumption.
  - rewrite fupd_neq by assumption. assumption.
Qed.

Lemma sum_fupd_fin st up i s u k : i < k ->
  sum (fun j => finb (fupd st i s j) (fupd up i u j)) k + finb (st i) (up i) =
  sum (fun j => finb (st j) (up j)) k + finb s u.
Proof.
  intros Hi. pose proof (sum_change (fun j => finb (st j) (up j)) (fun j => finb (fupd st i s j) (fupd up i u j)) k i Hi) as H.
  cbv beta in H. rewrite !fupd_eq in H. apply H. intros j Hj Ne. rewrite !fupd_neq by assumption. reflexivity.
Qed.

Lemma fupd_same {A} (f : nat -> A) i j : fupd f i (f i) j = f j.
Proof. unfold fupd. destruct (Nat.eqb_spec j i) as [->|]; reflexivity. Qed.

Lemma update_le win msg : Q (fst win) -> Q (fst msg) ->
  cle (fst (update_winner win msg)) (fst win) = true /\ cle (fst (update_winner win msg)) (fst msg) = true /\ Q (fst (update_winner win msg)).
Proof.
  intros H1 H2. unfold update_winner. destruct (clt (fst msg) (fst win)) eqn:E.
  - split; [apply (clt_le O); assumption|]. split; [apply (cle_refl O), Q_nnan; assumption|assumption].
  - split; [apply (cle_refl O), Q_nnan; assumption|]. split; [|assumption].
    apply (nclt_cle O); try (apply Q_nnan); assumption.
Qed.

Lemma inv_step c c' : inv c -> sstep workers work c c' -> inv c'.
Proof.
  intros (HW & Hw & Hf & Hb) Hs. inversion Hs; subst; unfold inv in *; cbn [s_winner s_finished s_barrier s_worker s_up s_down] in *.
  - (* work *)
    destruct (Hw i H) as (HP & dn & td & E & Hh & Hst). rewrite H0 in HP, Hh, Hst. cbn [local_of] in *.
    destruct Hst as (<- & Hu & Hd & Hl & HQ & Hg & Hdn).
    destruct (Hwork i p g H) as (r' & Er & Hr); [rewrite E; apply in_elt|assumption|]. rewrite H1 in Er. injection Er as <-.
    assert (Hstep : winner_ok w (fupd st i (WWait todo0 (merge local r)))).
    { apply winner_ok_fupd; [assumption|]. rewrite H0. cbn [local_of]. destruct (merge_lt local r) as [->|Hlt]; auto. }
    split; [assumption|]. split; [|split; [|assumption]].
    + intros j Hj. destruct (Nat.eq_dec j i) as [->|Ne]; [|rewrite !fupd_neq by assumption; apply Hw; assumption].
      rewrite !fupd_eq, Hu. split; [apply merge_P; assumption|]. cbn [local_of].
      exists (dn ++ [p]), todo0. split; [rewrite <- app_assoc; assumption|]. split.
      * split.
        -- intros q Hq. apply in_app_or in Hq. destruct Hq as [Hq|[<-|[]]].
           ++ apply (history_mono (fst w) (fst w) dn local (merge local r)); try assumption; [apply (cle_refl O), Q_nnan; apply HW|apply merge_l; assumption].
           ++ exists g, r. repeat split; try assumption. apply merge_r; assumption.
        -- intros q dn' Eq. destruct dn as [|q0 dn].
           ++ injection Eq as <- <-. rewrite (Hdn eq_refl) in H1. exists r. split; [assumption|]. apply merge_r; assumption.
           ++ injection Eq as -> _. destruct Hh as [_ Hh]. destruct (Hh q dn eq_refl) as (r' & Hr' & Hle).
              exists r'. split; [assumption|]. apply (ord_trans N O _ (fst local)); [apply merge_l; assumption|assumption].
      * split; [reflexivity|]. split; [destruct dn; discriminate|]. left. split; [reflexivity|assumption].
    + pose proof (sum_fupd_fin st up i (WWait todo0 (merge local r)) (up i ++ [(fst (merge local r), S i)]) workers H) as Hsum.
      rewrite H0 in Hsum. simpl in Hsum. rewrite Hf. lia.
  - (* recv *)
    destruct (Hw i H) as (HP & dn & td & E & Hh & Hst). rewrite H0 in HP, Hh, Hst. cbn [local_of] in *.
    destruct Hst as (<- & Hdn & [[_ Hd]|(Hu & g' & Hd & Hg & Hl)]); [rewrite Hd in H1; discriminate|].
    rewrite Hd in H1. injection H1 as <- <-.
    split; [apply winner_ok_fupd; [assumption|rewrite H0; left; reflexivity]|]. split; [|split; [|assumption]].
    + intros j Hj. destruct (Nat.eq_dec j i) as [->|Ne]; [|rewrite !fupd_neq by assumption; apply Hw; assumption].
      rewrite !fupd_eq. split; [assumption|]. exists dn, todo0. auto 10.
    + pose proof (sum_fupd_fin st up i (WRun todo0 local g') (up i) workers H) as Hsum.
      rewrite H0 in Hsum. simpl in Hsum. rewrite Hf.
      rewrite (sum_ext (fun j => finb (fupd st i (WRun todo0 local g') j) (up j)) (fun j => finb (fupd st i (WRun todo0 local g') j) (fupd up i (up i) j)));
        [lia|]. intros j _. rewrite fupd_same. reflexivity.
  - (* finish *)
    destruct (Hw i H) as (HP & dn & td & E & Hh & Hst). rewrite H0 in HP, Hh, Hst. cbn [local_of] in *.
    destruct Hst as (<- & Hu & Hd & Hl & Hg).
    split; [apply winner_ok_fupd; [assumption|rewrite H0; left; reflexivity]|]. split; [|split; [|assumption]].
    + intros j Hj. destruct (Nat.eq_dec j i) as [->|Ne]; [|rewrite !fupd_neq by assumption; apply Hw; assumption].
      rewrite !fupd_eq, Hu. split; [assumption|]. exists dn, []. auto 10.
    + pose proof (sum_fupd_fin st up i (WBar local) (up i ++ [(cneg1, S i)]) workers H) as Hsum.
      rewrite H0 in Hsum. simpl in Hsum. rewrite Hf. destruct (up i); simpl in *; lia.
  - (* root update *)
    destruct (Hw i H0) as (HP & dn & td & E & Hh & Hst).
    assert (HWQ : Q (fst w)) by apply HW.
    destruct (st i) as [td' l g|td' l|l] eqn:Est; cbn [local_of] in *.
    + destruct Hst as (_ & Hu & _). rewrite Hu in H1. discriminate.
    + destruct Hst as (<- & Hdn & [[Hu Hd]|(Hu & _)]); [|rewrite Hu in H1; discriminate].
      rewrite Hu in H1. injection H1 as <- <- <-. replace (S i - 1) with i by lia.
      destruct (update_le w (fst l, S i) HWQ) as (L1 & L2 & L3); [exists l; auto|]. cbn [fst] in L2.
      set (w' := update_winner w (fst l, S i)) in *.
      split; [|split; [|split]].
      * split; [assumption|]. unfold w', update_winner. destruct (clt (fst (fst l, S i)) (fst w)); [|apply HW].
        right. exists i. split; [assumption|]. split; [reflexivity|]. left. rewrite Est. reflexivity.
      * intros j Hj. destruct (Nat.eq_dec j i) as [->|Ne].
        -- rewrite !fupd_eq, Est, Hd. split; [assumption|]. exists dn, td'. split; [assumption|].
           split; [apply (history_mono (fst w) (fst w') dn l l); try assumption; apply (cle_refl O), P_nnan; assumption|].
           split; [reflexivity|]. split; [assumption|]. right. split; [reflexivity|]. exists (fst w'). split; [reflexivity|].
           split; [|assumption]. split; [assumption|]. split; [apply (cle_refl O), Q_nnan; assumption|contradiction].
        -- rewrite !fupd_neq by assumption. apply (winv_mono (fst w)); [assumption|]. apply Hw. assumption.
      * pose proof (sum_fupd_fin st up i (st i) [] workers H0) as Hsum. rewrite Est in Hsum. simpl in Hsum.
        rewrite (sum_ext (fun j => finb (st j) (fupd up i [] j)) (fun j => finb (fupd st i (WWait td' l) j) (fupd up i [] j)));
          [lia|]. intros j _. rewrite <- Est, fupd_same. reflexivity.
      * discriminate.
    + destruct Hst as (_ & _ & _ & [Hu|Hu]); rewrite Hu in H1; [|discriminate]. injection H1 as <- <- <-.
      pose proof (ord_neg1 N O) as Hn1. rewrite (ord_lt N O) in Hn1. apply andb_prop in Hn1. rewrite H2 in Hn1. destruct Hn1; discriminate.
  - (* root finish *)
    destruct (Hw i H0) as (HP & dn & td & E & Hh & Hst).
    destruct (st i) as [td' l g|td' l|l] eqn:Est; cbn [local_of] in *.
    + destruct Hst as (_ & Hu & _). rewrite Hu in H1. discriminate.
    + destruct Hst as (<- & Hdn & [[Hu Hd]|(Hu & _)]); [|rewrite Hu in H1; discriminate].
      rewrite Hu in H1. injection H1 as <- <- <-. rewrite (P_nonneg l HP) in H2. discriminate.
    + destruct Hst as (-> & Hd & Hl & [Hu|Hu]); rewrite Hu in H1; [|discriminate]. injection H1 as <- <- <-.
      split; [assumption|]. split; [|split].
      * intros j Hj. destruct (Nat.eq_dec j i) as [->|Ne]; [|rewrite fupd_neq by assumption; apply Hw; assumption].
        rewrite fupd_eq, Est. split; [assumption|]. exists dn, []. auto 10.
      * pose proof (sum_fupd_fin st up i (st i) [] workers H0) as Hsum. rewrite Est in Hsum. simpl in Hsum. rewrite Hu in Hsum.
        rewrite (sum_ext (fun j => finb (st j) (fupd up i [] j)) (fun j => finb (fupd st i (WBar l) j) (fupd up i [] j)));
          [lia|]. intros j _. rewrite <- Est, fupd_same. reflexivity.
      * discriminate.
  - (* barrier *)
    auto.
Qed.

Lemma inv_steps c : steps (sstep workers work) (sinit todo) c -> inv c.
Proof.
  intros H. remember (sinit todo) as c0 eqn:E. induction H as [c|c c' c'' H IH Hs]; [subst; apply inv_init|].
  apply (inv_step c'); auto.
Qed.

(** ** No deadlock *)
Theorem static_progress c : steps (sstep workers work) (sinit todo) c ->
  sdone workers c \/ exists c', sstep workers work c c'.
Proof.
  intros H. destruct (inv_steps c H) as (HW & Hw & Hf & Hb). destruct c as [w f b st up down].
  cbn [s_winner s_finished s_barrier s_worker s_up s_down] in *.
  destruct (le_lt_dec workers f) as [Hle|Hlt].
  - destruct b; [left|right; eexists; apply S_root_barrier; assumption].
    split; [reflexivity|]. cbn [s_worker]. intros i Hi.
    pose proof (sum_full (fun i => finb (st i) (up i)) workers ltac:(intros; apply finb_le) ltac:(lia) i Hi) as H1.
    cbv beta in H1. destruct (st i); try discriminate. eauto.
  - right. assert (b = false) as -> by (destruct b; [specialize (Hb eq_refl); lia|reflexivity]).
    destruct (sum_less (fun i => finb (st i) (up i)) workers ltac:(intros; apply finb_le) ltac:(lia)) as (i & Hi & H1).
    cbv beta in H1. destruct (Hw i Hi) as (HP & dn & td & E & Hh & Hst).
    destruct (st i) as [td' l g|td' l|l] eqn:Est; cbn [local_of] in *.
    + destruct td' as [|p td'].
      * eexists. eapply S_finish; eassumption.
      * destruct Hst as (<- & Hu & Hd & Hl & HQ & Hg). destruct (Hwork i p g Hi) as (r & Hr & _); [rewrite E; apply in_elt|assumption|].
        eexists. eapply S_work; eassumption.
    + destruct Hst as (<- & Hdn & [[Hu Hd]|(Hu & g & Hd & Hg & Hl)]).
      * eexists. eapply S_root_update; try eassumption. apply P_nonneg. assumption.
      * eexists. eapply S_recv; eassumption.
    + destruct Hst as (-> & Hd & Hl & [Hu|Hu]); [|rewrite Hu in H1; discriminate].
      eexists. eapply S_root_finish; try eassumption.
      pose proof (ord_neg1 N O) as Hn1. rewrite (ord_lt N O) in Hn1. apply andb_prop in Hn1. destruct Hn1 as [_ Hn1].
      apply negb_true_iff in Hn1. assumption.
Qed.

(** no worker panics *)
Theorem static_work_ok c i p td local g : steps (sstep workers work) (sinit todo) c -> i < workers ->
  s_worker c i = WRun (p :: td) local g -> exists r, work p g = Ok r.
Proof.
  intros H Hi Est. destruct (inv_steps c H) as (_ & Hw & _ & _). destruct (Hw i Hi) as (_ & dn & td' & E & _ & Hst).
  rewrite Est in Hst. destruct Hst as (<- & _ & _ & _ & HQ & _). destruct (Hwork i p g Hi) as (r & Hr & _); [rewrite E; apply in_elt|assumption|]. eauto.
Qed.

(** ** Termination *)
Definition weight (st : wstate N) (u : list (C N * nat)) (d : list (C N)) : nat :=
  match st with WRun td _ _ => 3 * length td + 3 | WWait td _ => 3 * length td + 3 | WBar _ => 0 end + 2 * length u + length d.
Definition measure (c : sconfig N) : nat :=
  sum (fun i => weight (s_worker c i) (s_up c i) (s_down c i)) workers + (if s_barrier c then 0 else 1).

Lemma sum_weight st up down st' up' down' i k : i < k ->
  (forall j, j <> i -> st' j = st j /\ up' j = up j /\ down' j = down j) ->
  sum (fun j => weight (st' j) (up' j) (down' j)) k + weight (st i) (up i) (down i) =
  sum (fun j => weight (st j) (up j) (down j)) k + weight (st' i) (up' i) (down' i).
Proof.
  intros Hi H. apply (sum_change (fun j => weight (st j) (up j) (down j)) (fun j => weight (st' j) (up' j) (down' j)) k i Hi).
  intros j _ Ne. destruct (H j Ne) as (-> & -> & ->). reflexivity.
Qed.

Theorem static_measure c c' : steps (sstep workers work) (sinit todo) c -> sstep workers work c c' -> measure c' < measure c.
Proof.
  intros Hr Hs. destruct (inv_steps c Hr) as (_ & Hw & _). inversion Hs; subst; unfold measure;
    cbn [s_winner s_finished s_barrier s_worker s_up s_down] in *.
  - pose proof (sum_weight st up down (fupd st i (WWait todo0 (merge local r))) (fupd up i (up i ++ [(fst (merge local r), S i)])) down i workers H) as Hm.
    rewrite !fupd_eq, H0 in Hm. unfold weight at 2 4 in Hm. rewrite app_length in Hm. simpl length in Hm.
    specialize (Hm ltac:(intros j Hj; rewrite !fupd_neq by assumption; auto)). destruct b; lia.
  - pose proof (sum_weight st up down (fupd st i (WRun todo0 local g)) up (fupd down i rest) i workers H) as Hm.
    rewrite !fupd_eq, H0, H1 in Hm. unfold weight at 2 4 in Hm. simpl length in Hm.
    specialize (Hm ltac:(intros j Hj; rewrite !fupd_neq by assumption; auto)). destruct b; lia.
  - pose proof (sum_weight st up down (fupd st i (WBar local)) (fupd up i (up i ++ [(cneg1, S i)])) down i workers H) as Hm.
    rewrite !fupd_eq, H0 in Hm. unfold weight at 2 4 in Hm. rewrite app_length in Hm. simpl length in Hm.
    specialize (Hm ltac:(intros j Hj; rewrite !fupd_neq by assumption; auto)). destruct b; lia.
  - assert (rk = S i) as ->.
    { destruct (Hw i H0) as (_ & dn & td & _ & _ & Hst). rewrite H1 in Hst. destruct (st i).
      - destruct Hst as (_ & Hu & _). discriminate.
      - destruct Hst as (_ & _ & [[Hu _]|(Hu & _)]); [|discriminate]. injection Hu as _ -> _. reflexivity.
      - destruct Hst as (_ & _ & _ & [Hu|Hu]); [|discriminate]. injection Hu as _ -> _. reflexivity. }
    replace (S i - 1) with i by lia. match type of H1 with _ = (?x, _) :: _ => rename x into cc end.
    pose proof (sum_weight st up down st (fupd up i rest) (fupd down i (down i ++ [fst (update_winner w (cc, S i))])) i workers H0) as Hm.
    rewrite !fupd_eq, H1 in Hm. unfold weight at 2 4 in Hm. rewrite app_length in Hm. simpl length in Hm.
    specialize (Hm ltac:(intros j Hj; rewrite !fupd_neq by assumption; auto)). lia.
  - pose proof (sum_weight st up down st (fupd up i rest) down i workers H0) as Hm.
    rewrite !fupd_eq, H1 in Hm. unfold weight at 2 4 in Hm. simpl length in Hm.
    specialize (Hm ltac:(intros j Hj; rewrite !fupd_neq by assumption; auto)). lia.
  - lia.
Qed.

Lemma static_finishes c : steps (sstep workers work) (sinit todo) c ->
  exists c', steps (sstep workers work) (sinit todo) c' /\ sdone workers c'.
Proof.
  intros H. remember (measure c) as k eqn:Ek. revert c Ek H. induction k as [k IH] using lt_wf_ind; intros c Ek H.
  destruct (static_progress c H) as [Hd|(c' & Hs)]; [exists c; auto|].
  pose proof (static_measure c c' H Hs) as Hm.
  apply (IH (measure c') ltac:(lia) c' eq_refl). apply (steps_step _ _ c c'); assumption.
Qed.

(** ** One message per direction at most: what is sent goes into an empty channel *)
Theorem static_channels c i : steps (sstep workers work) (sinit todo) c -> i < workers ->
  length (s_up c i) + length (s_down c i) <= 1.
Proof.
  intros H Hi. destruct (inv_steps c H) as (_ & Hw & _). destruct (Hw i Hi) as (_ & dn & td & _ & _ & Hst).
  destruct (s_worker c i).
  - destruct Hst as (_ & -> & -> & _). simpl. lia.
  - destruct Hst as (_ & _ & [[-> ->]|(-> & g & -> & _)]); simpl; lia.
  - destruct Hst as (_ & -> & _ & [->| ->]); simpl; lia.
Qed.

(** ** The outcome *)
Theorem static_outcome c : steps (sstep workers work) (sinit todo) c -> sdone workers c ->
  let winner := s_winner c in
  let local i := local_of (s_worker c i) in
  (forall i, i < workers -> P (local i) /\ cle (fst winner) (fst (local i)) = true) /\
  (winner = (cinf, 0) \/ exists i, i < workers /\ snd winner = S i /\ fst (local i) = fst winner) /\
  (forall i p, i < workers -> In p (todo i) -> exists g r, work p g = Ok r /\ Q g /\ cle (fst winner) g = true /\ cle (fst winner) (fst r) = true) /\
  (forall i p rest, i < workers -> todo i = p :: rest -> exists r, work p cinf = Ok r /\ cle (fst (local i)) (fst r) = true).
Proof.
  intros H [Hb Hd]. cbv zeta. destruct (inv_steps c H) as (HW & Hw & Hf & _).
  assert (G : forall i, i < workers -> exists l, s_worker c i = WBar l /\ P l /\ cle (fst (s_winner c)) (fst l) = true /\ history (fst (s_winner c)) (todo i) l).
  { intros i Hi. destruct (Hd i Hi) as (l & El). exists l. split; [assumption|]. destruct (Hw i Hi) as (HP & dn & td & E & Hh & Hst).
    rewrite El in *. cbn [local_of] in *. destruct Hst as (-> & _ & Hl & _). rewrite app_nil_r in E. rewrite E. auto. }
  split; [|split; [|split]].
  - intros i Hi. destruct (G i Hi) as (l & -> & HP & Hl & _). auto.
  - destruct HW as [_ [HW|(i & Hi & E & HW)]]; [left; assumption|right]. exists i. split; [assumption|]. split; [assumption|].
    destruct HW as [HW|HW]; [assumption|]. destruct (G i Hi) as (l & El & HP & Hl & _). rewrite El in *. cbn [local_of] in *.
    rewrite (ord_lt N O), Hl, andb_false_r in HW. discriminate.
  - intros i p Hi Hp. destruct (G i Hi) as (l & El & HP & Hl & Hh & _). destruct (Hh p Hp) as (g & r & Hr & HQ & Hg & Hlr).
    exists g, r. repeat split; try assumption. apply (ord_trans N O _ (fst l)); assumption.
  - intros i p rest Hi E. destruct (G i Hi) as (l & El & HP & Hl & _ & Hh). rewrite El. cbn [local_of]. apply (Hh p rest). assumption.
Qed.
End Static.
