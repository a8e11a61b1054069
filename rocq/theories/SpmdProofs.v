(** Processes that name their partners are deterministic: when they can run to the end in one
    order, with every message handed over at once, they do so in every order and with every
    amount of buffering. *)
From Coq Require Import Arith Bool List Lia.
From Verif Require Import Base Spmd.
Import ListNotations.

Section Proofs.
Context {M A : Type}.
Variable size : nat.
Hypothesis Hsize : 1 <= size.
Notation proc := (proc M A).
Notation conf := (conf M A).
Implicit Types c d : conf.

(** equal for the processes there are *)
Definition same (c d : conf) : Prop :=
  (forall i, c_proc c i = c_proc d i) /\ (forall s r t, c_chan c s r t = c_chan d s r t) /\
  (forall i, i < size -> c_bq c i = c_bq d i) /\ (forall i, c_nb c i = c_nb d i).
Lemma same_refl c : same c c.
Proof. repeat split. Qed.
Lemma same_sym c d : same c d -> same d c.
Proof. intros (H1 & H2 & H3 & H4). repeat split; intros; symmetry; auto. Qed.
Lemma same_trans c d (e : conf) : same c d -> same d e -> same c e.
Proof. intros (H1 & H2 & H3 & H4) (G1 & G2 & G3 & G4). repeat split; intros; [rewrite H1|rewrite H2|rewrite H3 by assumption|rewrite H4]; auto. Qed.

Ltac fin_same := repeat split; cbn [c_proc c_chan c_bq c_nb]; unfold set_proc, set_chan; intros;
  repeat (match goal with |- context[if ?b then _ else _] => destruct b eqn:?
     | H : context[if ?b then _ else _] |- _ => destruct b eqn:? end);
  repeat (match goal with H : _ && _ = true |- _ => apply andb_true_iff in H; destruct H end);
  repeat (match goal with H : (_ =? _) = true |- _ => apply Nat.eqb_eq in H end);
  repeat (match goal with H : (_ =? _) = false |- _ => apply Nat.eqb_neq in H end); subst; try congruence; auto.

Lemma fire_same i c d c' : i < size -> same c d -> fire i c = Some c' -> exists d', fire i d = Some d' /\ same c' d'.
Proof.
  intros Hi (H1 & H2 & H3 & H4) E. unfold fire in *. rewrite <- H1. destruct (c_proc c i) as [a| |dst tag v k|src tag k|v k]; try discriminate.
  - injection E as <-. eexists. split; [reflexivity|]. rewrite <- H2. fin_same.
  - rewrite <- H2. destruct (c_chan c src i tag); [discriminate|]. injection E as <-. eexists. split; [reflexivity|]. fin_same.
  - cbv zeta in *. destruct (i =? 0) eqn:E0.
    + injection E as <-. eexists. split; [reflexivity|]. fin_same; rewrite ?H3, ?H4 by assumption; reflexivity.
    + rewrite <- H3 by assumption. destruct (c_bq c i); [discriminate|]. injection E as <-. eexists. split; [reflexivity|]. fin_same; rewrite ?H4; reflexivity.
Qed.

Lemma reach_same n c d c' : same c d -> reach size n c c' -> exists d', reach size n d d' /\ same c' d'.
Proof.
  intros H R. revert d H. induction R as [c|n i c c1 c' Hi E R IH]; intros d H.
  - exists d. split; [constructor|assumption].
  - destruct (fire_same i c d c1 Hi H E) as (d1 & E1 & H1). destruct (IH d1 H1) as (d' & R' & H'). exists d'. split; [econstructor; eassumption|assumption].
Qed.

Lemma reach_trans n k (c d e : conf) : reach size n c d -> reach size k d e -> reach size (n + k) c e.
Proof. intros R R'. induction R; [assumption|]. cbn. econstructor; eauto. Qed.

(** ** Steps of different processes commute *)
Lemma set_proc_eq (f : nat -> proc) i p : set_proc f i p i = p.
Proof. unfold set_proc. rewrite Nat.eqb_refl. reflexivity. Qed.
Lemma set_proc_neq (f : nat -> proc) i j p : j <> i -> set_proc f i p j = f j.
Proof. intros H. unfold set_proc. apply Nat.eqb_neq in H. rewrite H. reflexivity. Qed.

(** what a step of another process leaves alone *)
Lemma fire_proc i c c' j : fire i c = Some c' -> j <> i -> c_proc c' j = c_proc c j.
Proof.
  intros E H. unfold fire in E. destruct (c_proc c i) as [a| |dst tag v k|src tag k|v k]; try discriminate.
  - injection E as <-. apply set_proc_neq. assumption.
  - destruct (c_chan c src i tag); [discriminate|]. injection E as <-. apply set_proc_neq. assumption.
  - cbv zeta in E. destruct (i =? 0); [|destruct (c_bq c i); [discriminate|]]; injection E as <-; apply set_proc_neq; assumption.
Qed.
Lemma fire_nb i c c' j : fire i c = Some c' -> j <> i -> c_nb c' j = c_nb c j.
Proof.
  intros E H. unfold fire in E. destruct (c_proc c i) as [a| |dst tag v k|src tag k|v k]; try discriminate.
  - injection E as <-. reflexivity.
  - destruct (c_chan c src i tag); [discriminate|]. injection E as <-. reflexivity.
  - cbv zeta in E. apply Nat.eqb_neq in H. destruct (i =? 0); [|destruct (c_bq c i); [discriminate|]]; injection E as <-; cbn; rewrite H; reflexivity.
Qed.
Lemma fire_nb_self i c c' : fire i c = Some c' -> c_nb c i <= c_nb c' i /\ (at_bcast (c_proc c i) -> c_nb c' i = S (c_nb c i)).
Proof.
  intros E. unfold fire in E. destruct (c_proc c i) as [a| |dst tag v k|src tag k|v k]; try discriminate.
  - injection E as <-. cbn. split; [lia|contradiction].
  - destruct (c_chan c src i tag); [discriminate|]. injection E as <-. cbn. split; [lia|contradiction].
  - cbv zeta in E. destruct (i =? 0); [|destruct (c_bq c i); [discriminate|]]; injection E as <-; cbn; rewrite Nat.eqb_refl; split; lia.
Qed.
(** a channel to [r] from [s] is only emptied by [r] and only filled by [s] *)
Lemma fire_chan i c c' s r t : fire i c = Some c' ->
  (i <> s -> i <> r -> c_chan c' s r t = c_chan c s r t) /\
  (i <> r -> exists l, c_chan c' s r t = c_chan c s r t ++ l) /\ (i <> s -> c_chan c s r t = [] -> c_chan c' s r t = []).
Proof.
  intros E. unfold fire in E. destruct (c_proc c i) as [a| |dst tag v k|src tag k|v k]; try discriminate.
  - injection E as <-. cbn. unfold set_chan. repeat split; intros.
    + fin_same.
    + destruct ((s =? i) && (r =? dst) && (t =? tag)) eqn:E; [|exists []; rewrite app_nil_r; reflexivity]. fin_same. eexists. reflexivity.
    + fin_same.
  - destruct (c_chan c src i tag) eqn:Ec; [discriminate|]. injection E as <-. cbn. unfold set_chan. repeat split; intros.
    + fin_same.
    + exists []. rewrite app_nil_r. fin_same.
    + fin_same.
  - cbv zeta in E. destruct (i =? 0); [|destruct (c_bq c i); [discriminate|]]; injection E as <-; cbn; (split; [reflexivity|split; [exists []; rewrite app_nil_r; reflexivity|auto]]).
Qed.
(** the queue of broadcasts of [r] is only filled by the root *)
Lemma fire_bq i c c' r : fire i c = Some c' ->
  (i <> r -> exists l, c_bq c' r = c_bq c r ++ l) /\ (i <> 0 -> c_bq c r = [] -> c_bq c' r = []).
Proof.
  intros E. unfold fire in E. destruct (c_proc c i) as [a| |dst tag v k|src tag k|v k]; try discriminate.
  - injection E as <-. cbn. split; [exists []; rewrite app_nil_r; reflexivity|auto].
  - destruct (c_chan c src i tag) eqn:Ec; [discriminate|]. injection E as <-. cbn. split; [exists []; rewrite app_nil_r; reflexivity|auto].
  - cbv zeta in E. destruct (Nat.eqb_spec i 0) as [->|Hi].
    + injection E as <-. cbn. split; [|congruence]. intros H. destruct (r =? 0) eqn:E0; [apply Nat.eqb_eq in E0; congruence|]. eexists. reflexivity.
    + destruct (c_bq c i) eqn:Eq; [discriminate|]. injection E as <-. cbn. split; intros.
      * exists []. rewrite app_nil_r. destruct (Nat.eqb_spec r i); [congruence|reflexivity].
      * destruct (Nat.eqb_spec r i); [subst; congruence|assumption].
Qed.

Lemma cons_app (l l' : list M) v r : l = v :: r -> exists r', l ++ l' = v :: r' /\ r' = r ++ l'.
Proof. intros ->. exists (r ++ l'). auto. Qed.

Lemma diamond i j c c1 c2 : i <> j -> fire i c = Some c1 -> fire j c = Some c2 ->
  exists d1 d2, fire j c1 = Some d1 /\ fire i c2 = Some d2 /\ same d1 d2.
Proof.
  intros Hij E1 E2. pose proof (fire_proc i c c1 j E1 ltac:(congruence)) as P1. pose proof (fire_proc j c c2 i E2 Hij) as P2.
  unfold fire in *. rewrite P1, P2. clear P1 P2.
  assert (Bij : (i =? j) = false) by (apply Nat.eqb_neq; assumption). assert (Bji : (j =? i) = false) by (apply Nat.eqb_neq; congruence).
  destruct (c_proc c i) as [a| |dst tag v k|src tag k|v k]; try discriminate;
  destruct (c_proc c j) as [a'| |dst' tag' v' k'|src' tag' k'|v' k']; try discriminate; cbv zeta in *.
  - injection E1 as <-. injection E2 as <-. cbn [c_proc c_chan c_bq c_nb]. unfold set_chan. rewrite Bij, Bji. cbn [andb].
    do 2 eexists. split; [reflexivity|]. split; [reflexivity|]. fin_same.
  - injection E1 as <-. destruct (c_chan c src' j tag') as [|x r] eqn:Ec; [discriminate|]. injection E2 as <-. cbn [c_proc c_chan c_bq c_nb]. unfold set_chan.
    destruct ((src' =? i) && (j =? dst) && (tag' =? tag)) eqn:Ek.
    + apply andb_true_iff in Ek. destruct Ek as [Ek E3]. apply andb_true_iff in Ek. destruct Ek as [E4 E5].
      apply Nat.eqb_eq in E3, E4, E5. subst. rewrite !Nat.eqb_refl. cbn [andb]. rewrite Ec. cbn [app]. do 2 eexists. split; [reflexivity|]. split; [reflexivity|]. fin_same.
    + rewrite Ec. do 2 eexists. split; [reflexivity|]. split; [reflexivity|]. fin_same; exfalso; revert Ek; rewrite !Nat.eqb_refl; discriminate.
  - injection E1 as <-. cbn [c_proc c_chan c_bq c_nb]. destruct (j =? 0) eqn:E0.
    + injection E2 as <-. do 2 eexists. split; [reflexivity|]. split; [reflexivity|]. fin_same.
    + destruct (c_bq c j) as [|x r] eqn:Eq; [discriminate|]. injection E2 as <-. do 2 eexists. split; [reflexivity|]. split; [reflexivity|]. fin_same.
  - injection E2 as <-. destruct (c_chan c src i tag) as [|x r] eqn:Ec; [discriminate|]. injection E1 as <-. cbn [c_proc c_chan c_bq c_nb]. unfold set_chan.
    destruct ((src =? j) && (i =? dst') && (tag =? tag')) eqn:Ek.
    + apply andb_true_iff in Ek. destruct Ek as [Ek E3]. apply andb_true_iff in Ek. destruct Ek as [E4 E5].
      apply Nat.eqb_eq in E3, E4, E5. subst. rewrite !Nat.eqb_refl. cbn [andb]. rewrite Ec. cbn [app]. do 2 eexists. split; [reflexivity|]. split; [reflexivity|]. fin_same.
    + rewrite Ec. do 2 eexists. split; [reflexivity|]. split; [reflexivity|]. fin_same; exfalso; revert Ek; rewrite !Nat.eqb_refl; discriminate.
  - destruct (c_chan c src i tag) as [|x r] eqn:Ec; [discriminate|]. injection E1 as <-.
    destruct (c_chan c src' j tag') as [|x' r'] eqn:Ec'; [discriminate|]. injection E2 as <-. cbn [c_proc c_chan c_bq c_nb]. unfold set_chan.
    rewrite Bij, Bji, !andb_false_r. cbn [andb]. rewrite Ec, Ec'. do 2 eexists. split; [reflexivity|]. split; [reflexivity|]. fin_same.
  - destruct (c_chan c src i tag) as [|x r] eqn:Ec; [discriminate|]. injection E1 as <-. cbn [c_proc c_chan c_bq c_nb]. destruct (j =? 0) eqn:E0.
    + injection E2 as <-. cbn [c_proc c_chan c_bq c_nb]. rewrite Ec. do 2 eexists. split; [reflexivity|]. split; [reflexivity|]. fin_same.
    + destruct (c_bq c j) as [|x' r'] eqn:Eq; [discriminate|]. injection E2 as <-. cbn [c_proc c_chan c_bq c_nb]. rewrite Ec. do 2 eexists. split; [reflexivity|]. split; [reflexivity|]. fin_same.
  - injection E2 as <-. cbn [c_proc c_chan c_bq c_nb]. destruct (i =? 0) eqn:E0.
    + injection E1 as <-. do 2 eexists. split; [reflexivity|]. split; [reflexivity|]. fin_same.
    + destruct (c_bq c i) as [|x r] eqn:Eq; [discriminate|]. injection E1 as <-. do 2 eexists. split; [reflexivity|]. split; [reflexivity|]. fin_same.
  - destruct (c_chan c src' j tag') as [|x r] eqn:Ec; [discriminate|]. injection E2 as <-. cbn [c_proc c_chan c_bq c_nb]. destruct (i =? 0) eqn:E0.
    + injection E1 as <-. cbn [c_proc c_chan c_bq c_nb]. rewrite Ec. do 2 eexists. split; [reflexivity|]. split; [reflexivity|]. fin_same.
    + destruct (c_bq c i) as [|x' r'] eqn:Eq; [discriminate|]. injection E1 as <-. cbn [c_proc c_chan c_bq c_nb]. rewrite Ec. do 2 eexists. split; [reflexivity|]. split; [reflexivity|]. fin_same.
  - destruct (i =? 0) eqn:Ei, (j =? 0) eqn:Ej.
    + apply Nat.eqb_eq in Ei, Ej. congruence.
    + injection E1 as <-. destruct (c_bq c j) as [|x' r'] eqn:Eq; [discriminate|]. injection E2 as <-. cbn [c_proc c_chan c_bq c_nb]. rewrite Ej, Eq. cbn [app].
      do 2 eexists. split; [reflexivity|]. split; [reflexivity|]. fin_same.
    + injection E2 as <-. destruct (c_bq c i) as [|x' r'] eqn:Eq; [discriminate|]. injection E1 as <-. cbn [c_proc c_chan c_bq c_nb]. rewrite Ei, Eq. cbn [app].
      do 2 eexists. split; [reflexivity|]. split; [reflexivity|]. fin_same.
    + destruct (c_bq c i) as [|x r] eqn:Eq; [discriminate|]. injection E1 as <-. destruct (c_bq c j) as [|x' r'] eqn:Eq'; [discriminate|]. injection E2 as <-.
      cbn [c_proc c_chan c_bq c_nb]. rewrite Bij, Bji, Eq, Eq'. do 2 eexists. split; [reflexivity|]. split; [reflexivity|]. fin_same.
Qed.

(** a run without a step of process [i] *)
Inductive without (i : nat) : nat -> conf -> conf -> Prop :=
| wo_refl c : without i 0 c c
| wo_step n j c c' d : j < size -> j <> i -> fire j c = Some c' -> without i n c' d -> without i (S n) c d.

(** A step that process [i] can make now is made first, or not at all. *)
Lemma commute n c d i c1 : reach size n c d -> i < size -> fire i c = Some c1 ->
  (exists k d', n = S k /\ reach size k c1 d' /\ same d d') \/ without i n c d.
Proof.
  intros R Hi. revert c1. induction R as [c|n j c c2 d Hj E R IH]; intros c1 E1.
  - right. constructor.
  - destruct (Nat.eq_dec i j) as [<-|Hij].
    + left. exists n, d. assert (c2 = c1) by congruence. subst c2. split; [reflexivity|]. split; [assumption|apply same_refl].
    + destruct (diamond i j c c1 c2 Hij E1 E) as (d1 & d2 & F1 & F2 & Hs). destruct (IH d2 F2) as [(k & d' & -> & R' & S')|W].
      * left. destruct (reach_same k d2 d1 d' (same_sym _ _ Hs) R') as (d'' & R'' & S''). exists (S k), d''. split; [reflexivity|].
        split; [apply (reach_step size k j c1 d1 d''); assumption|]. apply (same_trans _ d'); assumption.
      * right. apply (wo_step i n j c c2 d); try assumption. congruence.
Qed.

Lemma without_proc i n c d : without i n c d -> c_proc d i = c_proc c i /\ c_nb d i = c_nb c i.
Proof.
  intros W. induction W as [c|n j c c' d Hj Hij E W [IH1 IH2]]; [auto|].
  rewrite IH1, IH2. split; [apply (fire_proc j)|apply (fire_nb j)]; auto.
Qed.
Lemma without_in i n c d s t : without i n c d -> exists l, c_chan d s i t = c_chan c s i t ++ l.
Proof.
  intros W. induction W as [c|n j c c' d Hj Hij E W (l & IH)]; [exists []; rewrite app_nil_r; reflexivity|].
  destruct (proj1 (proj2 (fire_chan j c c' s i t E)) Hij) as (l' & E'). exists (l' ++ l). rewrite IH, E', app_assoc. reflexivity.
Qed.
(** a process that waits for a message of [s] waits until [s] moves *)
Lemma without_waits s n c d r t k : without s n c d -> c_proc c r = Recv s t k -> c_chan c s r t = [] ->
  c_proc d r = Recv s t k /\ c_chan d s r t = [].
Proof.
  intros W. induction W as [c|n j c c' d Hj Hij E W IH]; intros Hr Hc; [auto|].
  assert (Hjr : j <> r). { intros ->. unfold fire in E. rewrite Hr, Hc in E. discriminate. }
  apply IH; [rewrite (fire_proc j c c' r E) by congruence; assumption|]. apply (proj2 (proj2 (fire_chan j c c' s r t E))); assumption.
Qed.

(** ** Runs in which every message is handed over at once *)
Definition handed (c : conf) (s r : nat) (k p : proc) : conf :=
  mkConf (set_proc (set_proc (c_proc c) s k) r p) (c_chan c) (c_bq c) (c_nb c).
Definition after (v : M) (p : proc) : proc := match p with Bcast _ k => k v | _ => p end.
Definition told (c : conf) (v : M) : conf :=
  mkConf (fun i => if i <? size then after v (c_proc c i) else c_proc c i) (c_chan c) (c_bq c) (fun i => if i <? size then S (c_nb c i) else c_nb c i).
(** with the number of steps *)
Inductive sync : nat -> conf -> conf -> Prop :=
| sync_end c : sync 0 c c
| sync_msg n c d s r t v k k' : s < size -> r < size -> s <> r -> c_proc c s = Send r t v k -> c_proc c r = Recv s t k' ->
    sync n (handed c s r k (k' v)) d -> sync (2 + n) c d
| sync_bcast n c d v k : (forall i, i < size -> at_bcast (c_proc c i)) -> c_proc c 0 = Bcast v k -> sync n (told c v) d -> sync (size + n) c d.

(** nothing is under way *)
Definition quiet (c : conf) : Prop := (forall s r t, c_chan c s r t = []) /\ (forall i, c_bq c i = []) /\ forall i, i < size -> c_nb c i = c_nb c 0.
Definition over (p : proc) : Prop := match p with Ret _ | Crash => True | _ => False end.

Lemma still n c d : reach size n c d -> (forall i, i < size -> fire i c = None) -> n = 0 /\ d = c.
Proof. intros R H. destruct R as [c|n i c c' d Hi E R]; [auto|]. rewrite H in E by assumption. discriminate. Qed.

Definition past (b : nat) (c : conf) (j : nat) : Prop := b < c_nb c j \/ (c_nb c j = b /\ at_bcast (c_proc c j)).
Lemma past_fire b i c c' j : fire i c = Some c' -> past b c j -> past b c' j.
Proof.
  intros E H. destruct (Nat.eq_dec i j) as [->|Hij].
  - destruct (fire_nb_self j c c' E) as [H1 H2]. destruct H as [H|[H H']]; [left; lia|]. left. rewrite (H2 H'). lia.
  - unfold past. rewrite (fire_nb i c c' j E), (fire_proc i c c' j E) by congruence. assumption.
Qed.
Lemma past_reach b n c d j : reach size n c d -> past b c j -> past b d j.
Proof. intros R. induction R as [|n i c c' d Hi E R IH]; [auto|]. intros H. apply IH. apply (past_fire b i c); assumption. Qed.
Lemma without_reach i n c d : without i n c d -> reach size n c d.
Proof. intros W. induction W; [constructor|econstructor; eassumption]. Qed.
Lemma past_same b c d j : same c d -> past b c j -> past b d j.
Proof. intros (H1 & _ & _ & H4). unfold past. rewrite <- H1, <- H4. auto. Qed.

Lemma ready_same c d i : same c d -> ready size c i -> ready size d i.
Proof.
  intros (H1 & H2 & H3 & H4) H. unfold ready in *. rewrite <- H1. destruct (c_proc c i); try assumption.
  - rewrite <- H2, <- H1. assumption.
  - rewrite <- H2. assumption.
  - intros j Hj. rewrite <- !H4, <- H1. auto.
Qed.

(** the broadcast up to process [k]: those below [k] have got it *)
Definition partly (c : conf) (v : M) (k : nat) : conf :=
  mkConf (fun i => if i <? k then after v (c_proc c i) else c_proc c i) (c_chan c)
    (fun i => if i =? 0 then c_bq c i else if i <? k then c_bq c i else c_bq c i ++ [v]) (fun i => if i <? k then S (c_nb c i) else c_nb c i).

Lemma partly_root c v k : c_proc c 0 = Bcast v k -> exists c1, fire 0 c = Some c1 /\ same c1 (partly c v 1).
Proof.
  intros E. unfold fire. rewrite E. cbn. eexists. split; [reflexivity|]. repeat split; cbn; unfold set_proc; intros.
  - destruct i; cbn; [rewrite E|]; reflexivity.
  - destruct i; reflexivity.
  - destruct i; reflexivity.
Qed.
Lemma partly_next c v j : (forall i, c_bq c i = []) -> 1 <= j -> at_bcast (c_proc c j) -> exists c1, fire j (partly c v j) = Some c1 /\ same c1 (partly c v (S j)).
Proof.
  intros Q Hj Ha. unfold fire. cbn [partly c_proc c_chan c_bq c_nb]. rewrite Nat.ltb_irrefl.
  destruct (c_proc c j) as [a| |dst tag w k|src tag k|w k] eqn:E; try contradiction. cbv zeta.
  destruct (Nat.eqb_spec j 0) as [->|Hj0]; [lia|]. rewrite Q. cbn [app]. eexists. split; [reflexivity|].
  repeat split; unfold partly; cbn [c_proc c_chan c_bq c_nb]; unfold set_proc; intros.
  - destruct (Nat.eqb_spec i j) as [->|Hi].
    + replace (j <? S j) with true by (symmetry; apply Nat.ltb_lt; lia). rewrite E. reflexivity.
    + destruct (Nat.ltb_spec i j), (Nat.ltb_spec i (S j)); try lia; reflexivity.
  - destruct (Nat.eqb_spec i j) as [->|Hi].
    + destruct (Nat.eqb_spec j 0); [lia|]. replace (j <? S j) with true by (symmetry; apply Nat.ltb_lt; lia). rewrite Q. reflexivity.
    + destruct (i =? 0); [reflexivity|]. destruct (Nat.ltb_spec i j), (Nat.ltb_spec i (S j)); try lia; reflexivity.
  - destruct (Nat.eqb_spec i j) as [->|Hi].
    + replace (j <? S j) with true by (symmetry; apply Nat.ltb_lt; lia). reflexivity.
    + destruct (Nat.ltb_spec i j), (Nat.ltb_spec i (S j)); try lia; reflexivity.
Qed.

(** A broadcast that all have reached is either over for all, or not yet for some process that can go on. *)
Lemma bcast_case n c d v k0 : quiet c -> (forall i, i < size -> at_bcast (c_proc c i)) -> c_proc c 0 = Bcast v k0 -> reach size n c d ->
  (exists i, i < size /\ ready size d i) \/ exists k d', n = size + k /\ reach size k (partly c v size) d' /\ same d d'.
Proof.
  intros (Q1 & Q2 & Q3) Ha E0 R. set (b := c_nb c 0).
  assert (Hpast : forall j, j < size -> past b c j). { intros j Hj. right. split; [apply Q3; assumption|apply Ha; assumption]. }
  assert (Hready : forall i m c', i < size -> without i m c' d -> at_bcast (c_proc c' i) -> c_nb c' i = b -> ready size d i).
  { intros i m c' Hi W Hb Hn. destruct (without_proc i m c' d W) as [P1 P2]. unfold ready. rewrite P1. destruct (c_proc c' i); try contradiction.
    intros j Hj. rewrite P2, Hn. apply (past_reach b n c d j R). auto. }
  destruct (partly_root c v k0 E0) as (c1 & F1 & S1). destruct (commute n c d 0 c1 R ltac:(lia) F1) as [(k & d1 & -> & R1 & Sd)|W].
  2: { left. exists 0. split; [lia|]. apply (Hready 0 n c); [lia|assumption|apply Ha; lia|reflexivity]. }
  assert (G : forall j, 1 <= j <= size -> (exists i, i < size /\ ready size d i) \/ exists k' d', S k = j + k' /\ reach size k' (partly c v j) d' /\ same d d').
  { induction j as [|j IH]; intros Hj; [lia|]. destruct (Nat.eq_dec j 0) as [->|Hj0].
    - right. destruct (reach_same k c1 (partly c v 1) d1 S1 R1) as (d2 & R2 & S2). exists k, d2. split; [lia|]. split; [assumption|]. apply (same_trans _ d1); assumption.
    - destruct (IH ltac:(lia)) as [H|(k' & d' & Ek & R' & S')]; [left; assumption|].
      destruct (partly_next c v j Q2 ltac:(lia) ltac:(apply Ha; lia)) as (c2 & F2 & S2).
      destruct (commute k' (partly c v j) d' j c2 R' ltac:(lia) F2) as [(k2 & d2 & -> & R2 & Sd2)|W].
      + right. destruct (reach_same k2 c2 (partly c v (S j)) d2 S2 R2) as (d3 & R3 & S3). exists k2, d3. split; [lia|]. split; [assumption|].
        apply (same_trans _ d'); [assumption|]. apply (same_trans _ d2); assumption.
      + left. exists j. split; [lia|]. apply (ready_same d'); [apply same_sym; assumption|].
        destruct (without_proc j k' (partly c v j) d' W) as [P1 P2]. unfold ready. rewrite P1. cbn [partly c_proc c_nb] in P1, P2 |- *. rewrite Nat.ltb_irrefl in *.
        pose proof (Ha j ltac:(lia)) as Hb. destruct (c_proc c j); try contradiction. intros i Hi. rewrite P2, (Q3 j) by lia.
        apply (past_same b d d' i S'). apply (past_reach b (S k) c d i R). auto. }
  destruct (G size ltac:(lia)) as [H|(k' & d' & Ek & R' & S')]; [left; assumption|right]. exists k', d'. auto.
Qed.

Lemma partly_told c v : (forall i, c_bq c i = []) -> same (partly c v size) (told c v).
Proof.
  intros Q. repeat split; unfold partly, told; cbn [c_proc c_chan c_bq c_nb]; intros; try reflexivity. rewrite !Q. destruct (i =? 0); [reflexivity|].
  replace (i <? size) with true by (symmetry; apply Nat.ltb_lt; assumption). reflexivity.
Qed.

Lemma msg_case n c d s r t v k k' : quiet c -> s < size -> r < size -> s <> r -> c_proc c s = Send r t v k -> c_proc c r = Recv s t k' -> reach size n c d ->
  (exists i, i < size /\ ready size d i) \/ exists m d', n = 2 + m /\ reach size m (handed c s r k (k' v)) d' /\ same d d'.
Proof.
  intros (Q1 & Q2 & Q3) Hs Hr Hsr Es Er R.
  assert (exists c1, fire s c = Some c1 /\ c_proc c1 r = Recv s t k' /\ c_chan c1 s r t = [v]) as (c1 & F1 & P1 & C1).
  { unfold fire. rewrite Es. eexists. split; [reflexivity|]. cbn. rewrite set_proc_neq by congruence. split; [assumption|]. unfold set_chan. rewrite !Nat.eqb_refl. cbn. rewrite Q1. reflexivity. }
  destruct (commute n c d s c1 R Hs F1) as [(m & d1 & -> & R1 & S1)|W].
  - assert (exists c2, fire r c1 = Some c2) as (c2 & F2) by (unfold fire; rewrite P1, C1; eexists; reflexivity).
    destruct (commute m c1 d1 r c2 R1 Hr F2) as [(m2 & d2 & -> & R2 & S2)|W].
    + right. assert (Hh : same c2 (handed c s r k (k' v))).
      { unfold fire in F1. rewrite Es in F1. injection F1 as <-. unfold fire in F2. cbn [c_proc c_chan] in *. rewrite P1, C1 in F2. injection F2 as <-.
        repeat split; cbn; intros; try reflexivity. unfold set_chan. destruct ((s0 =? s) && (r0 =? r) && (t0 =? t)) eqn:E; [symmetry; apply Q1|reflexivity]. }
      destruct (reach_same m2 c2 _ d2 Hh R2) as (d3 & R3 & S3). exists m2, d3. split; [reflexivity|]. split; [assumption|].
      apply (same_trans _ d1); [assumption|]. apply (same_trans _ d2); assumption.
    + left. exists r. split; [assumption|]. apply (ready_same d1); [apply same_sym; assumption|].
      unfold ready. rewrite (proj1 (without_proc r m c1 d1 W)), P1. destruct (without_in r m c1 d1 s t W) as (l & E). rewrite E, C1. discriminate.
  - left. exists s. split; [assumption|]. unfold ready. rewrite (proj1 (without_proc s n c d W)), Es.
    destruct (without_waits s n c d r t k' W Er (Q1 s r t)) as [H1 H2]. split; [assumption|]. split; [assumption|]. exists k'. assumption.
Qed.

Lemma quiet_handed c s r k p : quiet c -> quiet (handed c s r k p).
Proof. intros H. exact H. Qed.
Lemma quiet_told c v : quiet c -> quiet (told c v).
Proof.
  intros (Q1 & Q2 & Q3). split; [exact Q1|]. split; [exact Q2|]. intros i Hi. unfold told. cbn [c_nb]. replace (i <? size) with true by (symmetry; apply Nat.ltb_lt; assumption).
  replace (0 <? size) with true by (symmetry; apply Nat.ltb_lt; lia). rewrite (Q3 i Hi). reflexivity.
Qed.

(** ** The only end *)
Definition final c : Prop := forall i, i < size -> fire i c = None.

Lemma without_enabled i n c d c1 : without i n c d -> fire i c = Some c1 -> exists d1, fire i d = Some d1.
Proof.
  intros W. revert c1. induction W as [c|n j c c' d Hj Hij E W IH]; intros c1 E1; [exists c1; assumption|].
  destruct (diamond i j c c1 c' ltac:(congruence) E1 E) as (d1 & d2 & F1 & F2 & _). eapply IH. eassumption.
Qed.

Lemma confluent K c d n c' : reach size K c d -> final d -> reach size n c c' -> n <= K /\ exists d', reach size (K - n) c' d' /\ same d d'.
Proof.
  intros R F R'. revert K d R F. induction R' as [c|n i c c1 c' Hi E R' IH]; intros K d R F.
  - split; [lia|]. exists d. rewrite Nat.sub_0_r. split; [assumption|apply same_refl].
  - destruct (commute K c d i c1 R Hi E) as [(k & d1 & -> & R1 & S1)|W].
    + assert (F1 : final d1).
      { intros j Hj. destruct (fire j d1) eqn:Ej; [|reflexivity]. destruct (fire_same j d1 d _ Hj (same_sym _ _ S1) Ej) as (x & Ex & _). rewrite (F j Hj) in Ex. discriminate. }
      destruct (IH k d1 R1 F1) as (Hle & d2 & R2 & S2). split; [lia|]. exists d2. split; [exact R2|]. apply (same_trans _ d1); assumption.
    + destruct (without_enabled i K c d c1 W E) as (x & Ex). rewrite (F i Hi) in Ex. discriminate.
Qed.

Lemma partly_reach c v k : quiet c -> (forall i, i < size -> at_bcast (c_proc c i)) -> c_proc c 0 = Bcast v k ->
  exists d, reach size size c d /\ same (told c v) d.
Proof.
  intros (Q1 & Q2 & Q3) Ha E0.
  assert (G : forall j, 1 <= j <= size -> exists d, reach size j c d /\ same (partly c v j) d).
  { induction j as [|j IH]; intros Hj; [lia|]. destruct (Nat.eq_dec j 0) as [->|Hj0].
    - destruct (partly_root c v k E0) as (c1 & F1 & S1). exists c1. split; [|apply same_sym; assumption]. econstructor; [|eassumption|constructor]. lia.
    - destruct (IH ltac:(lia)) as (d & R & Sp). destruct (partly_next c v j Q2 ltac:(lia) ltac:(apply Ha; lia)) as (c2 & F2 & S2).
      destruct (fire_same j _ d c2 ltac:(lia) Sp F2) as (d2 & Fd & Sd). exists d2. split.
      + replace (S j) with (j + 1) by lia. apply (reach_trans j 1 c d d2 R). econstructor; [|eassumption|constructor]. lia.
      + apply (same_trans _ c2); [apply same_sym; assumption|assumption]. }
  destruct (G size ltac:(lia)) as (d & R & S). exists d. split; [assumption|]. apply (same_trans _ (partly c v size)); [apply same_sym, partly_told; assumption|assumption].
Qed.

Lemma sync_reach K c d : sync K c d -> quiet c -> exists d', reach size K c d' /\ same d d'.
Proof.
  intros H. induction H as [c|K c d s r t v k k' Hs Hr Hsr Es Er Hy IH|K c d v k Ha E0 Hy IH]; intros Q.
  - exists c. split; [constructor|apply same_refl].
  - destruct (IH (quiet_handed c s r k (k' v) Q)) as (d1 & R1 & S1).
    assert (exists c2, reach size 2 c c2 /\ same (handed c s r k (k' v)) c2) as (c2 & R2 & S2).
    { destruct Q as (Q1 & Q2 & Q3). eexists. split.
      - econstructor; [exact Hs|unfold fire; rewrite Es; reflexivity|]. econstructor; [exact Hr| |constructor].
        unfold fire. cbn [c_proc c_chan]. rewrite set_proc_neq by congruence. rewrite Er. unfold set_chan at 1. rewrite !Nat.eqb_refl. cbn [andb]. rewrite Q1. cbn [app]. reflexivity.
      - repeat split; cbn; intros; try reflexivity. unfold set_chan. destruct ((s0 =? s) && (r0 =? r) && (t0 =? t)); [apply Q1|reflexivity]. }
    destruct (reach_same K _ c2 d1 S2 R1) as (d2 & R3 & S3). exists d2. split; [apply (reach_trans 2 K c c2 d2); assumption|apply (same_trans _ d1); assumption].
  - destruct (IH (quiet_told c v Q)) as (d1 & R1 & S1). destruct (partly_reach c v k Q Ha E0) as (c2 & R2 & S2).
    destruct (reach_same K _ c2 d1 S2 R1) as (d2 & R3 & S3). exists d2. split; [apply (reach_trans size K c c2 d2); assumption|apply (same_trans _ d1); assumption].
Qed.

Lemma sync_progress K c d : sync K c d -> quiet c -> (forall i, i < size -> over (c_proc d i)) ->
  forall n c', reach size n c c' -> same c' d \/ exists i, i < size /\ ready size c' i.
Proof.
  intros H. induction H as [c|K c d s r t v k k' Hs Hr Hsr Es Er Hy IH|K c d v k Ha E0 Hy IH]; intros Q Hov n c' R.
  - destruct (still n c c' R) as [-> ->]; [|left; apply same_refl].
    intros i Hi. specialize (Hov i Hi). unfold fire. destruct (c_proc c i); try contradiction; reflexivity.
  - destruct (msg_case n c c' s r t v k k' Q Hs Hr Hsr Es Er R) as [H|(m & d' & -> & R' & S')]; [right; assumption|].
    destruct (IH (quiet_handed c s r k (k' v) Q) Hov m d' R') as [H|(i & Hi & H)].
    + left. apply (same_trans _ d'); assumption.
    + right. exists i. split; [assumption|]. apply (ready_same d'); [apply same_sym; assumption|assumption].
  - destruct (bcast_case n c c' v k Q Ha E0 R) as [H|(m & d' & -> & R' & S')]; [right; assumption|].
    destruct (reach_same m _ (told c v) d' (partly_told c v (proj1 (proj2 Q))) R') as (d2 & R2 & S2).
    destruct (IH (quiet_told c v Q) Hov m d2 R2) as [H|(i & Hi & H)].
    + left. apply (same_trans _ d'); [assumption|]. apply (same_trans _ d2); assumption.
    + right. exists i. split; [assumption|]. apply (ready_same d2); [apply same_sym; apply (same_trans _ d'); assumption|assumption].
Qed.

Lemma start_quiet f : quiet (start f : conf).
Proof. repeat split. Qed.

(** ** Finding such a run, by what the processes still have to do *)
Inductive srun : nat -> (nat -> proc) -> (nat -> proc) -> Prop :=
| srun_end f e : (forall i, i < size -> f i = e i /\ over (e i)) -> srun 0 f e
| srun_msg n f g e s r t v k k' : s < size -> r < size -> s <> r -> f s = Send r t v k -> f r = Recv s t k' ->
    (forall i, i < size -> g i = if i =? r then k' v else if i =? s then k else f i) -> srun n g e -> srun (2 + n) f e
| srun_bcast n f g e v k : (forall i, i < size -> at_bcast (f i)) -> f 0 = Bcast v k ->
    (forall i, i < size -> g i = after v (f i)) -> srun n g e -> srun (size + n) f e.

Lemma srun_sync n f e : srun n f e -> forall c, (forall i, i < size -> c_proc c i = f i) ->
  exists d, sync n c d /\ forall i, i < size -> c_proc d i = e i /\ over (e i).
Proof.
  intros H. induction H as [f e He|n f g e s r t v k k' Hs Hr Hsr Es Er Hg H IH|n f g e v k Ha E0 Hg H IH]; intros c Hc.
  - exists c. split; [constructor|]. intros i Hi. rewrite Hc by assumption. auto.
  - destruct (IH (handed c s r k (k' v))) as (d & Hy & Hd).
    { intros i Hi. rewrite Hg by assumption. unfold handed. cbn [c_proc]. unfold set_proc. rewrite Hc by assumption. reflexivity. }
    exists d. split; [|assumption]. apply (sync_msg n c d s r t v k k'); try assumption; rewrite Hc by assumption; assumption.
  - destruct (IH (told c v)) as (d & Hy & Hd).
    { intros i Hi. rewrite Hg by assumption. unfold told. cbn [c_proc]. replace (i <? size) with true by (symmetry; apply Nat.ltb_lt; assumption). rewrite Hc by assumption. reflexivity. }
    exists d. split; [|assumption]. apply (sync_bcast n c d v k); try assumption; [|rewrite Hc by lia; assumption].
    intros i Hi. rewrite Hc by assumption. auto.
Qed.

(** From the start, when the processes can run to the end with every message handed over at
    once: they end in every order, in the same way after the same number of steps, and
    until then some process can go on without help of buffers. *)
Theorem srun_all K f e : srun K f e ->
  forall n c, reach size n (start f) c ->
    n <= K /\ (exists d, reach size (K - n) c d /\ forall i, i < size -> c_proc d i = e i) /\
    ((forall i, i < size -> c_proc c i = e i) \/ exists i, i < size /\ ready size c i).
Proof.
  intros Hs n c R. destruct (srun_sync K f e Hs (start f) ltac:(reflexivity)) as (d & Hy & Hf).
  destruct (sync_reach K (start f) d Hy (start_quiet f)) as (d1 & R1 & S1).
  assert (Ff : forall i, i < size -> c_proc d1 i = e i /\ over (e i)). { intros i Hi. rewrite <- (proj1 S1 i). apply Hf. assumption. }
  assert (F1 : final d1). { intros i Hi. destruct (Ff i Hi) as [E Ho]. unfold fire. rewrite E. destruct (e i); try contradiction; reflexivity. }
  destruct (confluent K (start f) d1 n c R1 F1 R) as (Hle & d2 & R2 & S2). split; [assumption|]. split.
  - exists d2. split; [assumption|]. intros i Hi. rewrite <- (proj1 S2 i). apply Ff. assumption.
  - destruct (sync_progress K (start f) d Hy (start_quiet f)) with (n := n) (c' := c) as [H|H]; try assumption; [|left|right; assumption].
    + intros i Hi. destruct (Hf i Hi) as [-> Ho]. assumption.
    + intros i Hi. rewrite (proj1 H i). apply Hf. assumption.
Qed.
End Proofs.

(** going on after the end *)
Lemma pbind_after {M A B} (v : M) (p : proc M A) (h : A -> proc M B) : at_bcast p -> after v (pbind p h) = pbind (after v p) h.
Proof. destruct p; try contradiction. reflexivity. Qed.
Lemma srun_pbind {M A B} size K (f : nat -> proc M A) (r : nat -> A) (h : nat -> A -> proc M B) : 1 <= size ->
  srun size K f (fun i => Ret (r i)) -> (forall i, i < size -> over (h i (r i))) ->
  srun size K (fun i => pbind (f i) (h i)) (fun i => h i (r i)).
Proof.
  intros Hsize H Hov. remember (fun i => Ret (r i)) as e eqn:Ee.
  induction H as [f e He|n f g e s d t v k k' Hs Hd Hsd Es Ed Hg H IH|n f g e v k Ha E0 Hg H IH]; subst e.
  - constructor. intros i Hi. destruct (He i Hi) as [E _]. rewrite E. cbn. auto.
  - apply (srun_msg size n _ (fun i => pbind (g i) (h i)) _ s d t v (pbind k (h s)) (fun x => pbind (k' x) (h d))); try assumption.
    + rewrite Es. reflexivity.
    + rewrite Ed. reflexivity.
    + intros i Hi. rewrite (Hg i Hi). destruct (Nat.eqb_spec i d) as [->|]; [reflexivity|]. destruct (Nat.eqb_spec i s) as [->|]; reflexivity.
    + apply IH. reflexivity.
  - apply (srun_bcast size n _ (fun i => pbind (g i) (h i)) _ v (fun x => pbind (k x) (h 0))).
    + intros i Hi. specialize (Ha i Hi). destruct (f i); try contradiction. exact I.
    + rewrite E0. reflexivity.
    + intros i Hi. rewrite (Hg i Hi). rewrite pbind_after by auto. reflexivity.
    + apply IH. reflexivity.
Qed.
Lemma srun_ext {M A} size K (f g e : nat -> proc M A) : 1 <= size -> srun size K f e -> (forall i, i < size -> g i = f i) -> srun size K g e.
Proof.
  intros Hsize H Hg. destruct H as [f e He|n f f' e s d t v k k' Hs Hd Hsd Es Ed Hf H|n f f' e v k Ha E0 Hf H].
  - constructor. intros i Hi. rewrite (Hg i Hi). auto.
  - apply (srun_msg size n g f' e s d t v k k'); try assumption; try (rewrite Hg by assumption; assumption).
    intros i Hi. rewrite (Hf i Hi), (Hg i Hi). reflexivity.
  - apply (srun_bcast size n g f' e v k); try (intros i Hi; rewrite (Hg i Hi); auto); [rewrite Hg by lia; assumption|].
    assumption.
Qed.
Lemma srun_end_ext {M A} size K (f e e' : nat -> proc M A) : srun size K f e -> (forall i, i < size -> e' i = e i) -> srun size K f e'.
Proof.
  intros H. induction H as [f e He|n f g e s d t v k k' Hs Hd Hsd Es Ed Hg H IH|n f g e v k Ha E0 Hg H IH]; intros He'.
  - constructor. intros i Hi. rewrite (He' i Hi). auto.
  - apply (srun_msg size n f g e' s d t v k k'); auto.
  - apply (srun_bcast size n f g e' v k); auto.
Qed.
