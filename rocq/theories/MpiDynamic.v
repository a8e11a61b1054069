(** Invariants of the dynamic MPI solver, for every result the workers may compute. *)
From Coq Require Import ZArith Arith Bool List Permutation Lia ZifyBool.
From Verif Require Import Num Base Spec Data Mst Exact Threaded Mpi PrimProofs MpiStatic.
Import ListNotations.

(** the prefixes the root hands out, in order *)
Inductive follows (n : nat) : option (list nat) -> list (list nat) -> Prop :=
| follows_none : follows n None []
| follows_some : forall p q L, next_unique (S (n ^ 3)) p n = Ok q -> follows n q L -> follows n (Some p) (p :: L).

Definition zeros (p : list nat) : bool := forallb (fun x => x =? 0) p.

Section Dynamic.
Context {N : Num} (O : NumOrd N).
Variables workers n : nat.
Variable work : list nat -> C N -> res (solution N).
Variable stream : list (list nat).
Hypothesis Hstream : follows n (Some [1; 2; 3]) stream.
Hypothesis Hnz : forall p, In p stream -> zeros p = false.
Variable P : solution N -> Prop.
Notation Q := (Q P).
Hypothesis P_init : P (cinf, []).
Hypothesis P_nonneg : forall s, P s -> cle c0 (fst s) = true.
Hypothesis Hwork : forall p g, In p stream -> Q g -> exists r, work p g = Ok r /\ P r.

Notation Pn := (P_nnan O P P_nonneg).
Notation Qn := (Q_nnan O P P_nonneg).

(** finished prefixes of a worker *)
Definition dhistory (win : C N) (dn : list (list nat)) (local : solution N) : Prop :=
  forall p, In p dn -> exists g r, work p g = Ok r /\ Q g /\ cle win g = true /\ cle (fst local) (fst r) = true.

Definition dwinv (win : C N) (i : nat) (st : dstate N) (u : list (C N * nat)) (d : list (C N * list nat)) : Prop :=
  P (dlocal_of st) /\ incl (handed_of st) stream /\
  match st with
  | DStart => u = [] /\ d = []
  | DWait h l => dhistory win h l /\
      ((u = [(fst l, S i)] /\ d = []) \/
       (u = [] /\ cle win (fst l) = true /\ exists g p, d = [(g, p)] /\ Q g /\ cle win g = true /\ (In p stream \/ p = [0; 0; 0])))
  | DWork h l p g => u = [] /\ d = [] /\ cle win (fst l) = true /\ Q g /\ cle win g = true /\
      exists h', h = h' ++ [p] /\ dhistory win h' l
  | DBar h l => dhistory win h l /\ u = [] /\ d = [] /\ cle win (fst l) = true
  end.

Lemma dhistory_mono win win' dn l l' : cle win' win = true -> cle (fst l') (fst l) = true -> dhistory win dn l -> dhistory win' dn l'.
Proof.
  intros H H' H1 p Hp. destruct (H1 p Hp) as (g & r & Hw & HQ & Hg & Hl). exists g, r. split; [assumption|]. split; [assumption|].
  split; [apply (ord_trans N O _ _ _ H Hg)|apply (ord_trans N O _ _ _ H' Hl)].
Qed.

Lemma dwinv_mono win win' i st u d : cle win' win = true -> dwinv win i st u d -> dwinv win' i st u d.
Proof.
  intros H (HP & Hin & Hs). split; [assumption|]. split; [assumption|].
  assert (Hh : forall h, dhistory win h (dlocal_of st) -> dhistory win' h (dlocal_of st)).
  { intros h. apply dhistory_mono; [assumption|]. apply (cle_refl O), Pn. assumption. }
  assert (Ht : forall c, cle win c = true -> cle win' c = true) by (intros c; apply (ord_trans N O _ _ _ H)).
  destruct st as [|h l|h l p g|h l]; cbn [dlocal_of] in *.
  - assumption.
  - destruct Hs as (H1 & [H2|(H2 & H3 & g & p & H4 & H5 & H6 & H7)]); (split; [auto|]); [left; assumption|right].
    split; [assumption|]. split; [auto|]. exists g, p. auto.
  - destruct Hs as (H1 & H2 & H3 & H4 & H5 & h' & H6 & H7). repeat (split; [auto|]). exists h'. auto.
  - destruct Hs as (H1 & H2 & H3 & H4). auto 10.
Qed.

Definition dfinb (st : dstate N) (d : list (C N * list nat)) : nat :=
  match st, d with
  | DBar _ _, _ => 1
  | DWait _ _, [(_, p)] => if zeros p then 1 else 0
  | _, _ => 0
  end.
Lemma dfinb_le st d : dfinb st d <= 1.
Proof. destruct st; simpl; try lia. destruct d as [|[g p] [|? ?]]; try lia. destruct (zeros p); lia. Qed.

Definition dwinner_ok (win : C N * nat) (st : nat -> dstate N) : Prop :=
  Q (fst win) /\
  (win = (cinf, 0) \/ exists i, i < workers /\ snd win = S i /\
     (fst (dlocal_of (st i)) = fst win \/ clt (fst (dlocal_of (st i))) (fst win) = true)).

(** the prefixes a worker was given, those under way included *)
Definition given (st : dstate N) (d : list (C N * list nat)) : list (list nat) :=
  handed_of st ++ filter (fun p => negb (zeros p)) (map snd d).

Definition dinv (c : dconfig N) : Prop :=
  dwinner_ok (d_winner c) (d_worker c) /\
  (forall i, i < workers -> dwinv (fst (d_winner c)) i (d_worker c i) (d_up c i) (d_down c i)) /\
  d_waiting c = sum (fun i => dfinb (d_worker c i) (d_down c i)) workers /\
  (d_barrier c = true -> workers <= d_waiting c) /\
  (0 < d_waiting c -> d_current c = None) /\
  exists H L, stream = H ++ L /\ follows n (d_current c) L /\
    Permutation H (flat_map (fun i => given (d_worker c i) (d_down c i)) (seq 0 workers)).

Lemma flat_map_nil {A} (f : nat -> list A) l : (forall i, f i = []) -> flat_map f l = [].
Proof. intros H. induction l; simpl; [reflexivity|]. rewrite H, IHl. reflexivity. Qed.

Lemma flat_map_ext_lt {A} (f g : nat -> list A) k : (forall i, i < k -> f i = g i) -> flat_map f (seq 0 k) = flat_map g (seq 0 k).
Proof.
  intros H. assert (G : forall l, (forall i, In i l -> f i = g i) -> flat_map f l = flat_map g l).
  { induction l as [|a l IH]; intros Hl; simpl; [reflexivity|]. rewrite Hl, IH; [reflexivity| |left; reflexivity]. intros; apply Hl; right; assumption. }
  apply G. intros i Hi. apply H. apply in_seq in Hi. lia.
Qed.

Lemma flat_map_change {A} (f g : nat -> list A) k i p : i < k -> (forall j, j < k -> j <> i -> g j = f j) -> g i = f i ++ [p] ->
  Permutation (flat_map f (seq 0 k) ++ [p]) (flat_map g (seq 0 k)).
Proof.
  induction k as [|k IH]; intros Hi H E; [lia|]. rewrite !seq_S, !flat_map_app. simpl. rewrite !app_nil_r.
  destruct (Nat.eq_dec i k) as [->|Ne].
  - rewrite (flat_map_ext_lt g f k) by (intros j Hj; apply H; lia). rewrite E, app_assoc. reflexivity.
  - rewrite (H k) by lia. rewrite <- IH by (try assumption; try lia; intros; apply H; lia).
    rewrite <- !app_assoc. apply Permutation_app_head. apply Permutation_app_comm.
Qed.

Lemma dinv_init : dinv dinit.
Proof.
  unfold dinv. cbn. split; [|split; [|split; [|split; [|split]]]].
  - split; [apply (Q_init P P_init)|left; reflexivity].
  - intros i Hi. split; [assumption|]. split; [intros p []|]. auto.
  - clear. induction workers; simpl; [reflexivity|]. rewrite <- IHn. reflexivity.
  - discriminate.
  - lia.
  - exists [], stream. split; [reflexivity|]. split; [assumption|]. rewrite flat_map_nil; [constructor|reflexivity].
Qed.

Lemma dwinner_ok_fupd win st i s : dwinner_ok win st ->
  (fst (dlocal_of s) = fst (dlocal_of (st i)) \/ clt (fst (dlocal_of s)) (fst (dlocal_of (st i))) = true) ->
  dwinner_ok win (fupd st i s).
Proof.
  intros [HQ H] Hs. split; [assumption|]. destruct H as [H|(j & Hj & E & H)]; [left; assumption|right].
  exists j. split; [assumption|]. split; [assumption|]. destruct (Nat.eq_dec j i) as [->|Ne].
  - rewrite fupd_eq. destruct H as [H|H], Hs as [Hs|Hs].
    + left. congruence.
    + right. rewrite <- H. assumption.
    + right. rewrite Hs. assumption.
    + right. apply (clt_cle_trans O _ _ _ Hs). apply (clt_le O). assumption.
  - rewrite fupd_neq by assumption. assumption.
Qed.

Lemma sum_dfin st down st' down' i k : i < k -> (forall j, j <> i -> st' j = st j /\ down' j = down j) ->
  sum (fun j => dfinb (st' j) (down' j)) k + dfinb (st i) (down i) =
  sum (fun j => dfinb (st j) (down j)) k + dfinb (st' i) (down' i).
Proof.
  intros Hi H. apply (sum_change (fun j => dfinb (st j) (down j)) (fun j => dfinb (st' j) (down' j)) k i Hi).
  intros j _ Ne. destruct (H j Ne) as (-> & ->). reflexivity.
Qed.

Lemma given_same st down st' down' i k : (forall j, j <> i -> st' j = st j /\ down' j = down j) ->
  given (st' i) (down' i) = given (st i) (down i) ->
  flat_map (fun j => given (st' j) (down' j)) (seq 0 k) = flat_map (fun j => given (st j) (down j)) (seq 0 k).
Proof.
  intros H E. apply flat_map_ext_lt. intros j _. destruct (Nat.eq_dec j i) as [->|Ne]; [assumption|].
  destruct (H j Ne) as (-> & ->). reflexivity.
Qed.

Lemma dupdate_le win msg : Q (fst win) -> Q (fst msg) ->
  update_winner_nonneg win msg = update_winner win msg.
Proof. intros H1 (s & Hs & E). unfold update_winner_nonneg, update_winner. rewrite E, (P_nonneg s Hs). reflexivity. Qed.

(** what the root finds in a channel *)
Lemma dup_shape win i st u d c rk rest : dwinv win i st u d -> u = (c, rk) :: rest ->
  exists h l, st = DWait h l /\ dhistory win h l /\ P l /\ incl h stream /\ c = fst l /\ rk = S i /\ rest = [] /\ d = [].
Proof.
  intros (HP & Hin & Hst) E. destruct st as [|h l|h l p g|h l]; cbn [dlocal_of handed_of] in *.
  - destruct Hst as (Hu & _). congruence.
  - destruct Hst as (Hh & [[Hu Hd]|(Hu & _)]); [|congruence]. rewrite Hu in E. injection E as <- <- <-. exists h, l. auto 10.
  - destruct Hst as (Hu & _). congruence.
  - destruct Hst as (_ & Hu & _). congruence.
Qed.

Ltac others i := intros j Hj; rewrite ?fupd_neq by assumption; auto.

(** the root's answer [p] to the report of worker [i] *)
Lemma root_answer w st up down i h l p : dwinner_ok w st ->
  (forall i, i < workers -> dwinv (fst w) i (st i) (up i) (down i)) -> i < workers ->
  st i = DWait h l -> dhistory (fst w) h l -> P l -> incl h stream -> down i = [] -> (In p stream \/ p = [0;0;0]) ->
  let w' := update_winner_nonneg w (fst l, S i) in
  dwinner_ok w' st /\
  forall j, j < workers -> dwinv (fst w') j (st j) (fupd up i [] j) (fupd down i (down i ++ [(fst w', p)]) j).
Proof.
  intros HW Hw Hi Est Hh HP Hin Hd Hp w'.
  assert (HWQ : Q (fst w)) by apply HW.
  assert (HQl : Q (fst (fst l, S i))) by (exists l; auto).
  unfold w'. clear w'. rewrite (dupdate_le w _ HWQ HQl). set (w' := update_winner w (fst l, S i)).
  destruct (update_le O P P_nonneg w (fst l, S i) HWQ HQl) as (L1 & L2 & L3). cbn [fst] in L2. fold w' in L1, L2, L3.
  split.
  - split; [assumption|]. unfold w', update_winner. destruct (clt (fst (fst l, S i)) (fst w)); [|apply HW].
    right. exists i. split; [assumption|]. split; [reflexivity|]. left. rewrite Est. reflexivity.
  - intros j Hj. destruct (Nat.eq_dec j i) as [->|Ne].
    + rewrite !fupd_eq, Est, Hd. split; [assumption|]. split; [assumption|]. cbn [app].
      split; [apply (dhistory_mono (fst w) (fst w') h l l); try assumption; apply (cle_refl O), Pn; assumption|].
      right. split; [reflexivity|]. split; [assumption|]. exists (fst w'), p.
      split; [reflexivity|]. split; [assumption|]. split; [apply (cle_refl O), Qn; assumption|assumption].
    + rewrite !fupd_neq by assumption. apply (dwinv_mono (fst w)); [assumption|]. apply Hw. assumption.
Qed.

Lemma dinv_step c c' : dinv c -> dstep workers n work c c' -> dinv c'.
Proof.
  intros (HW & Hw & Hf & Hb & Hcur & Hst & L & EL & HL & HPm) Hs. inversion Hs; subst; unfold dinv in *;
    cbn [d_winner d_waiting d_current d_barrier d_worker d_up d_down] in *.
  - (* start *)
    destruct (Hw i H) as (HP & Hin & Hi). rewrite H0 in HP, Hin, Hi. cbn [dlocal_of] in *. destruct Hi as [Hu Hd].
    split; [apply dwinner_ok_fupd; [assumption|rewrite H0; left; reflexivity]|]. split; [|split; [|split; [assumption|split; [assumption|]]]].
    + intros j Hj. destruct (Nat.eq_dec j i) as [->|Ne]; [|rewrite !fupd_neq by assumption; apply Hw; assumption].
      rewrite !fupd_eq, Hu, Hd. split; [assumption|]. split; [intros q []|]. split; [intros q []|]. left. auto.
    + pose proof (sum_dfin st down (fupd st i (DWait [] (cinf, []))) down i workers H ltac:(others i)) as Hsum.
      rewrite fupd_eq, H0, Hd in Hsum. simpl in Hsum. lia.
    + exists Hst, L. split; [assumption|]. split; [assumption|]. rewrite HPm. apply Permutation_refl'. symmetry.
      apply (given_same st down _ down i); [others i|]. rewrite fupd_eq, H0. reflexivity.
  - (* recv *)
    destruct (Hw i H) as (HP & Hin & Hi). rewrite H0 in HP, Hin, Hi. cbn [dlocal_of handed_of] in *.
    destruct Hi as (Hh & [[_ Hd]|(Hu & Hl & g' & p' & Hd & HQ & Hg & Hp)]); [rewrite Hd in H1; discriminate|].
    rewrite Hd in H1. injection H1 as <- <- <-.
    destruct Hp as [Hp| ->]; [|discriminate].
    split; [apply dwinner_ok_fupd; [assumption|rewrite H0; left; reflexivity]|]. split; [|split; [|split; [assumption|split; [assumption|]]]].
    + intros j Hj. destruct (Nat.eq_dec j i) as [->|Ne]; [|rewrite !fupd_neq by assumption; apply Hw; assumption].
      rewrite !fupd_eq. split; [assumption|]. split; [|repeat (split; [assumption || reflexivity|]); exists h; auto].
      cbn [handed_of]. intros q Hq. apply in_app_or in Hq. destruct Hq as [Hq|[<-|[]]]; auto.
    + pose proof (sum_dfin st down (fupd st i (DWork (h ++ [p']) local p' g')) (fupd down i []) i workers H ltac:(others i)) as Hsum.
      rewrite !fupd_eq, H0, Hd in Hsum. unfold dfinb at 2 4 in Hsum. fold (zeros p') in H2. rewrite H2 in Hsum. lia.
    + exists Hst, L. split; [assumption|]. split; [assumption|]. rewrite HPm. apply Permutation_refl'. symmetry.
      apply (given_same st down _ _ i); [others i|]. rewrite !fupd_eq, H0, Hd. unfold given. cbn [handed_of map filter snd].
      fold (zeros p') in H2. rewrite H2. cbn [negb]. rewrite app_nil_r. reflexivity.
  - (* recv done *)
    destruct (Hw i H) as (HP & Hin & Hi). rewrite H0 in HP, Hin, Hi. cbn [dlocal_of handed_of] in *.
    destruct Hi as (Hh & [[_ Hd]|(Hu & Hl & g' & p' & Hd & HQ & Hg & Hp)]); [rewrite Hd in H1; discriminate|].
    rewrite Hd in H1. injection H1 as <- <- <-. fold (zeros p') in H2.
    split; [apply dwinner_ok_fupd; [assumption|rewrite H0; left; reflexivity]|]. split; [|split; [|split; [assumption|split; [assumption|]]]].
    + intros j Hj. destruct (Nat.eq_dec j i) as [->|Ne]; [|rewrite !fupd_neq by assumption; apply Hw; assumption].
      rewrite !fupd_eq. split; [assumption|]. split; [assumption|]. auto.
    + pose proof (sum_dfin st down (fupd st i (DBar h local)) (fupd down i []) i workers H ltac:(others i)) as Hsum.
      rewrite !fupd_eq, H0, Hd in Hsum. unfold dfinb at 2 4 in Hsum. rewrite H2 in Hsum. lia.
    + exists Hst, L. split; [assumption|]. split; [assumption|]. rewrite HPm. apply Permutation_refl'. symmetry.
      apply (given_same st down _ _ i); [others i|]. rewrite !fupd_eq, H0, Hd. unfold given. cbn [handed_of map filter snd].
      rewrite H2. cbn [negb]. reflexivity.
  - (* work *)
    destruct (Hw i H) as (HP & Hin & Hi). rewrite H0 in HP, Hin, Hi. cbn [dlocal_of handed_of] in *.
    destruct Hi as (Hu & Hd & Hl & HQ & Hg & h' & -> & Hh).
    assert (Hp : In p stream) by (apply Hin, in_elt).
    destruct (Hwork p g Hp HQ) as (r' & Er & Hr). rewrite H1 in Er. injection Er as <-.
    split; [apply dwinner_ok_fupd; [assumption|]|].
    { rewrite H0. cbn [dlocal_of]. destruct (merge_lt local r) as [->|Hlt]; auto. }
    split; [|split; [|split; [assumption|split; [assumption|]]]].
    + intros j Hj. destruct (Nat.eq_dec j i) as [->|Ne]; [|rewrite !fupd_neq by assumption; apply Hw; assumption].
      rewrite !fupd_eq, Hu. split; [apply merge_P; assumption|]. split; [assumption|]. split; [|left; auto].
      intros q Hq. apply in_app_or in Hq. destruct Hq as [Hq|[<-|[]]].
      * apply (dhistory_mono (fst w) (fst w) h' local (merge local r)); try assumption; [apply (cle_refl O), Qn; apply HW|apply (merge_l O P P_nonneg); assumption].
      * exists g, r. repeat (split; [assumption|]). apply (merge_r O P P_nonneg); assumption.
    + pose proof (sum_dfin st down (fupd st i (DWait (h' ++ [p]) (merge local r))) down i workers H ltac:(others i)) as Hsum.
      rewrite fupd_eq, H0, Hd in Hsum. simpl in Hsum. lia.
    + exists Hst, L. split; [assumption|]. split; [assumption|]. rewrite HPm. apply Permutation_refl'. symmetry.
      apply (given_same st down _ down i); [others i|]. rewrite fupd_eq, H0. reflexivity.
  - (* root hands out *)
    destruct (dup_shape _ _ _ _ _ _ _ _ (Hw i H0) H1) as (h & l & Est & Hh & HP & Hin & -> & -> & -> & Hd).
    replace (S i - 1) with i by lia.
    assert (Hc : exists L', L = p :: L' /\ follows n cur' L').
    { clear - HL H2. inversion HL as [|p' q L' Hq HL']; subst. rewrite H2 in Hq. injection Hq as <-. eauto. }
    destruct Hc as (L' & -> & HL').
    assert (Hp : In p stream) by (rewrite EL; apply in_elt).
    destruct (root_answer w st up down i h l p HW Hw H0 Est Hh HP Hin Hd (or_introl Hp)) as [G1 G2].
    set (w' := update_winner_nonneg w (fst l, S i)) in *.
    pose proof (sum_dfin st down st (fupd down i (down i ++ [(fst w', p)])) i workers H0 ltac:(others i)) as Hsum.
    rewrite !fupd_eq, Est, Hd in Hsum. unfold dfinb at 2 4 in Hsum. cbn [app] in Hsum. rewrite (Hnz p Hp) in Hsum. rewrite Hd in G2 |- *.
    split; [assumption|]. split; [assumption|]. split; [cbn [app] in *; lia|]. split; [discriminate|].
    split. { intros Hpos. specialize (Hcur Hpos). discriminate. }
    exists (Hst ++ [p]), L'. split; [rewrite EL, <- app_assoc; reflexivity|]. split; [assumption|].
    rewrite HPm. apply (flat_map_change _ _ workers i p H0).
    + intros j Hj Ne. rewrite fupd_neq by assumption. reflexivity.
    + rewrite fupd_eq, Est, Hd. unfold given. cbn [handed_of map filter snd app]. rewrite (Hnz p Hp). cbn [negb].
      rewrite app_nil_r. reflexivity.
  - (* root has nothing left *)
    destruct (dup_shape _ _ _ _ _ _ _ _ (Hw i H0) H1) as (h & l & Est & Hh & HP & Hin & -> & -> & -> & Hd).
    replace (S i - 1) with i by lia.
    destruct (root_answer w st up down i h l [0;0;0] HW Hw H0 Est Hh HP Hin Hd (or_intror eq_refl)) as [G1 G2].
    set (w' := update_winner_nonneg w (fst l, S i)) in *.
    pose proof (sum_dfin st down st (fupd down i (down i ++ [(fst w', [0;0;0])])) i workers H0 ltac:(others i)) as Hsum.
    rewrite !fupd_eq, Est, Hd in Hsum. unfold dfinb at 2 4 in Hsum. cbn [app zeros forallb Nat.eqb andb] in Hsum.
    rewrite Hd in G2 |- *.
    split; [assumption|]. split; [assumption|]. split; [cbn [app] in *; lia|]. split; [discriminate|]. split; [reflexivity|].
    exists Hst, L. split; [assumption|]. split; [assumption|]. rewrite HPm. apply Permutation_refl'. symmetry.
    apply (given_same st down st _ i); [others i|]. rewrite fupd_eq, Hd. reflexivity.
  - (* barrier *)
    repeat (split; [auto|]). exists Hst, L. auto.
Qed.

Lemma dinv_steps c : steps (dstep workers n work) dinit c -> dinv c.
Proof.
  intros H. remember (@dinit N) as c0 eqn:E. induction H as [c|c c' c'' H IH Hs]; [subst; apply dinv_init|].
  apply (dinv_step c'); auto.
Qed.

(** ** No deadlock *)
Lemma follows_next p L : follows n (Some p) L -> exists q, next_unique (S (n ^ 3)) p n = Ok q.
Proof. intros H. inversion H; subst. eauto. Qed.

Theorem dynamic_progress c : steps (dstep workers n work) dinit c ->
  ddone workers c \/ exists c', dstep workers n work c c'.
Proof.
  intros H. destruct (dinv_steps c H) as (HW & Hw & Hf & Hb & _ & Hst & L & EL & HL & HPm).
  destruct c as [w f cur b st up down].
  cbn [d_winner d_waiting d_current d_barrier d_worker d_up d_down] in *.
  destruct (le_lt_dec workers f) as [Hle|Hlt].
  - destruct b; [|right; eexists; apply D_root_barrier; assumption].
    assert (Hall : forall i, i < workers -> dfinb (st i) (down i) = 1).
    { apply (sum_full (fun i => dfinb (st i) (down i)) workers); [intros; apply dfinb_le|lia]. }
    destruct (Nat.eq_dec (sum (fun i => match st i with DBar _ _ => 1 | _ => 0 end) workers) workers) as [E|Ne].
    + left. split; [reflexivity|]. cbn [d_worker]. intros i Hi.
      pose proof (sum_full (fun i => match st i with DBar _ _ => 1 | _ => 0 end) workers ltac:(intros j _; cbv beta; destruct (st j); lia) ltac:(lia) i Hi) as H1.
      cbv beta in H1. destruct (st i); try discriminate. eauto.
    + right. destruct (sum_less (fun i => match st i with DBar _ _ => 1 | _ => 0 end) workers) as (i & Hi & H1).
      { intros j _. cbv beta; destruct (st j); lia. }
      { pose proof (sum_le (fun i => match st i with DBar _ _ => 1 | _ => 0 end) workers ltac:(intros j _; cbv beta; destruct (st j); lia)). lia. }
      cbv beta in H1. specialize (Hall i Hi). destruct (st i) as [|h l|h l p g|h l] eqn:Est; simpl in Hall; try discriminate.
      destruct (down i) as [|[g p] [|x y]] eqn:Ed; try discriminate.
      eexists. eapply D_recv_done; try eassumption. unfold zeros in Hall. destruct (forallb _ p); [reflexivity|discriminate].
  - right. assert (b = false) as -> by (destruct b; [specialize (Hb eq_refl); lia|reflexivity]).
    destruct (sum_less (fun i => dfinb (st i) (down i)) workers ltac:(intros; apply dfinb_le) ltac:(lia)) as (i & Hi & H1).
    cbv beta in H1. destruct (Hw i Hi) as (HP & Hin & Hsti).
    destruct (st i) as [|h l|h l p g|h l] eqn:Est; cbn [dlocal_of handed_of] in *.
    + eexists. eapply D_start; eassumption.
    + destruct Hsti as (Hh & [[Hu Hd]|(Hu & Hl & g & p & Hd & HQ & Hg & Hp)]).
      * destruct cur as [p|].
        -- destruct (follows_next p L HL) as (q & Hq). eexists. eapply D_root_work; eassumption.
        -- eexists. eapply D_root_empty; eassumption.
      * destruct (forallb (fun x => x =? 0) p) eqn:Ez; eexists; [eapply D_recv_done|eapply D_recv]; eassumption.
    + destruct Hsti as (Hu & Hd & Hl & HQ & Hg & h' & -> & Hh).
      destruct (Hwork p g ltac:(apply Hin, in_elt) HQ) as (r & Hr & _).
      eexists. eapply D_work; eassumption.
    + simpl in H1. discriminate.
Qed.

(** no worker panics *)
Theorem dynamic_work_ok c i h local p g : steps (dstep workers n work) dinit c -> i < workers ->
  d_worker c i = DWork h local p g -> exists r, work p g = Ok r.
Proof.
  intros H Hi Est. destruct (dinv_steps c H) as (_ & Hw & _). destruct (Hw i Hi) as (_ & Hin & Hst).
  rewrite Est in Hin, Hst. destruct Hst as (_ & _ & _ & HQ & _ & h' & Eh & _). cbn [handed_of] in Hin.
  destruct (Hwork p g) as (r & Hr & _); [apply Hin; rewrite Eh; apply in_elt|assumption|]. eauto.
Qed.

(** ** Termination *)
Definition dweight (st : dstate N) (u : list (C N * nat)) (d : list (C N * list nat)) : nat :=
  match st with DStart => 3 | DWait _ _ => 0 | DWork _ _ _ _ => 3 | DBar _ _ => 0 end + 2 * length u +
  sum (fun k => if zeros (snd (nth k d (cinf, []))) then 1 else 4) (length d).
Definition dmeasure (c : dconfig N) : nat :=
  sum (fun i => dweight (d_worker c i) (d_up c i) (d_down c i)) workers +
  3 * (length stream - length (flat_map (fun i => given (d_worker c i) (d_down c i)) (seq 0 workers))) +
  (if d_barrier c then 0 else 1).

Lemma sum_dweight st up down st' up' down' i k : i < k ->
  (forall j, j <> i -> st' j = st j /\ up' j = up j /\ down' j = down j) ->
  sum (fun j => dweight (st' j) (up' j) (down' j)) k + dweight (st i) (up i) (down i) =
  sum (fun j => dweight (st j) (up j) (down j)) k + dweight (st' i) (up' i) (down' i).
Proof.
  intros Hi H. apply (sum_change (fun j => dweight (st j) (up j) (down j)) (fun j => dweight (st' j) (up' j) (down' j)) k i Hi).
  intros j _ Ne. destruct (H j Ne) as (-> & -> & ->). reflexivity.
Qed.

Theorem dynamic_measure c c' : steps (dstep workers n work) dinit c -> dstep workers n work c c' -> dmeasure c' < dmeasure c.
Proof.
  intros Hr Hs. destruct (dinv_steps c Hr) as (_ & Hw & _ & _ & _ & Hst & L & EL & HL & HPm). inversion Hs; subst; unfold dmeasure;
    cbn [d_winner d_waiting d_current d_barrier d_worker d_up d_down] in *.
  - destruct (Hw i H) as (_ & _ & Hi). rewrite H0 in Hi. destruct Hi as [Hu Hd].
    pose proof (sum_dweight st up down (fupd st i (DWait [] (cinf, []))) (fupd up i (up i ++ [(cinf, S i)])) down i workers H ltac:(others i)) as Hm.
    rewrite !fupd_eq, H0, Hu, Hd in Hm. unfold dweight at 2 4 in Hm; cbn [length app sum] in Hm.
    rewrite (given_same st down (fupd st i (DWait [] (cinf, []))) down i) by (others i || (rewrite fupd_eq, H0; reflexivity)).
    rewrite Hu. cbn [app]. lia.
  - destruct (Hw i H) as (_ & _ & Hi). rewrite H0 in Hi.
    destruct Hi as (_ & [[_ Hd]|(Hu & _ & g' & p' & Hd & _)]); [rewrite Hd in H1; discriminate|].
    rewrite Hd in H1. injection H1 as <- <- <-. fold (zeros p') in H2.
    pose proof (sum_dweight st up down (fupd st i (DWork (h ++ [p']) local p' g')) up (fupd down i []) i workers H ltac:(others i)) as Hm.
    rewrite !fupd_eq, H0, Hu, Hd in Hm. unfold dweight at 2 4 in Hm; cbn [length app sum nth snd] in Hm. rewrite H2 in Hm.
    rewrite (given_same st down (fupd st i (DWork (h ++ [p']) local p' g')) (fupd down i []) i); [lia|others i|].
    rewrite !fupd_eq, H0, Hd. unfold given. cbn [handed_of map filter snd]. rewrite H2. cbn [negb]. apply app_nil_r.
  - destruct (Hw i H) as (_ & _ & Hi). rewrite H0 in Hi.
    destruct Hi as (_ & [[_ Hd]|(Hu & _ & g' & p' & Hd & _)]); [rewrite Hd in H1; discriminate|].
    rewrite Hd in H1. injection H1 as <- <- <-. fold (zeros p') in H2.
    pose proof (sum_dweight st up down (fupd st i (DBar h local)) up (fupd down i []) i workers H ltac:(others i)) as Hm.
    rewrite !fupd_eq, H0, Hu, Hd in Hm. unfold dweight at 2 4 in Hm; cbn [length app sum nth snd] in Hm. rewrite H2 in Hm.
    rewrite (given_same st down (fupd st i (DBar h local)) (fupd down i []) i); [lia|others i|].
    rewrite !fupd_eq, H0, Hd. unfold given. cbn [handed_of map filter snd]. rewrite H2. reflexivity.
  - destruct (Hw i H) as (_ & _ & Hi). rewrite H0 in Hi. destruct Hi as (Hu & Hd & _).
    pose proof (sum_dweight st up down (fupd st i (DWait h (merge local r))) (fupd up i (up i ++ [(fst (merge local r), S i)])) down i workers H ltac:(others i)) as Hm.
    rewrite !fupd_eq, H0, Hu, Hd in Hm. unfold dweight at 2 4 in Hm; cbn [length app sum] in Hm.
    rewrite (given_same st down (fupd st i (DWait h (merge local r))) down i) by (others i || (rewrite fupd_eq, H0; reflexivity)).
    rewrite Hu. cbn [app]. lia.
  - destruct (dup_shape _ _ _ _ _ _ _ _ (Hw i H0) H1) as (h & l & Est & Hh & HP & Hin & -> & -> & -> & Hd).
    replace (S i - 1) with i by lia. inversion HL as [|p' q L' Hq HL']; subst p' L.
    assert (Hp : In p stream) by (rewrite EL; apply in_elt).
    set (w' := update_winner_nonneg w (fst l, S i)) in *.
    pose proof (sum_dweight st up down st (fupd up i []) (fupd down i (down i ++ [(fst w', p)])) i workers H0 ltac:(others i)) as Hm.
    rewrite !fupd_eq, Est, H1, Hd in Hm. unfold dweight at 2 4 in Hm; cbn [length app sum nth snd] in Hm. rewrite (Hnz p Hp) in Hm.
    pose proof (flat_map_change (fun j => given (st j) (down j)) (fun j => given (st j) (fupd down i (down i ++ [(fst w', p)]) j)) workers i p H0) as Hf.
    specialize (Hf ltac:(intros j _ Ne; cbv beta; rewrite fupd_neq by assumption; reflexivity)).
    cbv beta in Hf. rewrite fupd_eq, Est, Hd in Hf. unfold given at 1 2 in Hf. cbn [handed_of map filter snd app] in Hf. rewrite (Hnz p Hp) in Hf.
    cbn [negb] in Hf. rewrite app_nil_r in Hf. specialize (Hf eq_refl). apply Permutation_length in Hf. rewrite app_length in Hf. simpl in Hf.
    apply Permutation_length in HPm. apply (f_equal (@length _)) in EL. rewrite app_length in EL. simpl in EL.
    rewrite Hd. cbn [app]. lia.
  - destruct (dup_shape _ _ _ _ _ _ _ _ (Hw i H0) H1) as (h & l & Est & Hh & HP & Hin & -> & -> & -> & Hd).
    replace (S i - 1) with i by lia.
    set (w' := update_winner_nonneg w (fst l, S i)) in *.
    pose proof (sum_dweight st up down st (fupd up i []) (fupd down i (down i ++ [(fst w', [0;0;0])])) i workers H0 ltac:(others i)) as Hm.
    rewrite !fupd_eq, Est, H1, Hd in Hm. unfold dweight at 2 4 in Hm; cbn [length app sum nth snd zeros forallb Nat.eqb andb] in Hm.
    rewrite (given_same st down st (fupd down i (down i ++ [(fst w', [0;0;0])])) i); [|others i|rewrite fupd_eq, Hd; reflexivity].
    rewrite Hd. cbn [app]. lia.
  - lia.
Qed.

Lemma dynamic_finishes c : steps (dstep workers n work) dinit c ->
  exists c', steps (dstep workers n work) dinit c' /\ ddone workers c'.
Proof.
  intros H. remember (dmeasure c) as k eqn:Ek. revert c Ek H. induction k as [k IH] using lt_wf_ind; intros c Ek H.
  destruct (dynamic_progress c H) as [Hd|(c' & Hs)]; [exists c; auto|].
  pose proof (dynamic_measure c c' H Hs) as Hm.
  apply (IH (dmeasure c') ltac:(lia) c' eq_refl). apply (steps_step _ _ c c'); assumption.
Qed.

(** every run can be completed *)
Lemma dynamic_completes c : steps (dstep workers n work) dinit c ->
  exists c', steps (dstep workers n work) c c' /\ steps (dstep workers n work) dinit c' /\ ddone workers c'.
Proof.
  intros H. remember (dmeasure c) as k eqn:Ek. revert c Ek H. induction k as [k IH] using lt_wf_ind; intros c Ek H.
  destruct (dynamic_progress c H) as [Hd|(c' & Hs)]; [exists c; split; [apply steps_refl|auto]|].
  pose proof (dynamic_measure c c' H Hs) as Hm.
  destruct (IH (dmeasure c') ltac:(lia) c' eq_refl) as (d & H1 & H2 & H3); [apply (steps_step _ _ c c'); assumption|].
  exists d. split; [|auto]. assert (G : forall x y z, steps (dstep workers n work) y z -> dstep workers n work x y -> steps (dstep workers n work) x z).
  { clear. intros x y z H. revert x. induction H as [c|c c' c'' H IH Hs]; intros x Hx; [apply (steps_step _ _ x); [apply steps_refl|assumption]|].
    apply (steps_step _ _ c'); auto. }
  apply (G c c'); assumption.
Qed.

Theorem dynamic_channels c i : steps (dstep workers n work) dinit c -> i < workers ->
  length (d_up c i) + length (d_down c i) <= 1.
Proof.
  intros H Hi. destruct (dinv_steps c H) as (_ & Hw & _). destruct (Hw i Hi) as (_ & _ & Hst).
  destruct (d_worker c i).
  - destruct Hst as (-> & ->). simpl. lia.
  - destruct Hst as (_ & [[-> ->]|(-> & _ & g & p & -> & _)]); simpl; lia.
  - destruct Hst as (-> & -> & _). simpl; lia.
  - destruct Hst as (_ & -> & -> & _). simpl; lia.
Qed.

(** ** The outcome *)
Theorem dynamic_outcome c : 1 <= workers -> steps (dstep workers n work) dinit c -> ddone workers c ->
  let winner := d_winner c in
  let local i := dlocal_of (d_worker c i) in
  (forall i, i < workers -> P (local i) /\ cle (fst winner) (fst (local i)) = true) /\
  (winner = (cinf, 0) \/ exists i, i < workers /\ snd winner = S i /\ fst (local i) = fst winner) /\
  (forall p, In p stream -> exists g r, work p g = Ok r /\ Q g /\ cle (fst winner) g = true /\ cle (fst winner) (fst r) = true) /\
  Permutation stream (flat_map (fun i => handed_of (d_worker c i)) (seq 0 workers)).
Proof.
  intros Hwk H [Hb Hd]. cbv zeta. destruct (dinv_steps c H) as (HW & Hw & Hf & Hbf & Hcur & Hst & L & EL & HL & HPm).
  assert (G : forall i, i < workers -> exists h l, d_worker c i = DBar h l /\ P l /\ cle (fst (d_winner c)) (fst l) = true /\ dhistory (fst (d_winner c)) h l /\ d_down c i = []).
  { intros i Hi. destruct (Hd i Hi) as (h & l & El). exists h, l. split; [assumption|]. destruct (Hw i Hi) as (HP & Hin & Hsti).
    rewrite El in *. cbn [dlocal_of handed_of] in *. destruct Hsti as (H1 & H2 & H3 & H4). auto. }
  specialize (Hbf Hb). rewrite (Hcur ltac:(lia)) in HL. inversion HL; subst L. rewrite app_nil_r in EL. subst Hst.
  assert (HPm' : Permutation stream (flat_map (fun i => handed_of (d_worker c i)) (seq 0 workers))).
  { rewrite HPm. apply Permutation_refl'. apply flat_map_ext_lt. intros i Hi. destruct (G i Hi) as (h & l & -> & _ & _ & _ & ->).
    unfold given. cbn. apply app_nil_r. }
  split; [|split; [|split; [|assumption]]].
  - intros i Hi. destruct (G i Hi) as (h & l & -> & HP & Hl & _). auto.
  - destruct HW as [_ [HW|(i & Hi & E & HW)]]; [left; assumption|right]. exists i. split; [assumption|]. split; [assumption|].
    destruct HW as [HW|HW]; [assumption|]. destruct (G i Hi) as (h & l & El & HP & Hl & _). rewrite El in *. cbn [dlocal_of] in *.
    rewrite (ord_lt N O), Hl, andb_false_r in HW. discriminate.
  - intros p Hp. apply (Permutation_in _ HPm') in Hp. apply in_flat_map in Hp. destruct Hp as (i & Hi & Hp). apply in_seq in Hi.
    destruct (G i ltac:(lia)) as (h & l & El & HP & Hl & Hh & _). rewrite El in Hp. cbn [handed_of] in Hp.
    destruct (Hh p Hp) as (g & r & Hr & HQ & Hg & Hlr).
    exists g, r. repeat split; try assumption. apply (ord_trans N O _ (fst l)); assumption.
Qed.
End Dynamic.
