(** Parallel loops whose tasks access shared cells directly.

    Nothing here models a function of the repository: this renders
    [into_par_iter().for_each(..)] with tasks that write to a shared vector, through raw
    pointers or through disjoint views.  Each task is a list of instructions; [x += 1] is a
    load followed by a store, and other tasks may run in between. *)
From Coq Require Import Arith Bool List Lia.
From Verif Require Import Base Par.
Import ListNotations.

Section Mem.
Context {A : Type}.

Inductive instr := Store (k : nat) (x : A) | Modify (k : nat) (f : A -> A).
Definition instr_cell (i : instr) : nat := match i with Store k _ => k | Modify k _ => k end.

(** position in the program, and the new value after a load *)
Definition mem_local : Type := nat * option A.

Definition mem0 : mem_local := (0, None).

Definition mem_step (progs : list (list instr)) (i : nat) (l : mem_local) (s : list A) : res (mem_local * list A) :=
  match nth_error (nth i progs []) (fst l) with
  | None => Ok (l, s)
  | Some (Store k x) => s <- modify_res s k (fun _ => x) ;; Ok ((S (fst l), None), s)
  | Some (Modify k f) =>
    match snd l with
    | None => x <- nth_res s k ;; Ok ((fst l, Some (f x)), s)
    | Some y => s <- modify_res s k (fun _ => y) ;; Ok ((S (fst l), None), s)
    end
  end.

Definition par_mem (progs : list (list instr)) (sched : list nat) (s : list A) : res (list A) :=
  par_for (mem_step progs) mem0 (2 * length (concat progs)) (length progs) sched s.

(** the same tasks one after the other *)
Definition seq_instr (s : list A) (i : instr) : res (list A) :=
  match i with
  | Store k x => modify_res s k (fun _ => x)
  | Modify k f => modify_res s k f
  end.
Definition seq_mem (progs : list (list instr)) (s : list A) : res (list A) := foldM seq_instr (concat progs) s.

(** ** Disjoint tasks do not interfere *)
Definition cell_instr (k : nat) (x : A) (i : instr) : A :=
  if instr_cell i =? k then match i with Store _ y => y | Modify _ f => f x end else x.
Definition cell_run (k : nat) (p : list instr) (x : A) : A := fold_left (cell_instr k) p x.

Lemma cell_run_app k p q x : cell_run k (p ++ q) x = cell_run k q (cell_run k p x).
Proof. apply fold_left_app. Qed.
Lemma cell_run_other k p x : (forall i, In i p -> instr_cell i <> k) -> cell_run k p x = x.
Proof.
  revert x. induction p as [|i p IH]; intros x H; [reflexivity|]. cbn [cell_run fold_left].
  unfold cell_instr at 2. replace (instr_cell i =? k) with false by (symmetry; apply Nat.eqb_neq; apply H; left; reflexivity).
  apply IH. intros j Hj. apply H. right; assumption.
Qed.

Lemma seq_mem_cells (d : A) : forall p s, (forall i, In i p -> instr_cell i < length s) ->
  exists s', foldM seq_instr p s = Ok s' /\ length s' = length s /\ forall k, k < length s -> nth k s' d = cell_run k p (nth k s d).
Proof.
  induction p as [|i p IH]; intros s H.
  - exists s. split; [reflexivity|]. auto.
  - cbn [foldM]. assert (Hi : instr_cell i < length s) by (apply H; left; reflexivity).
    assert (E : exists s1, seq_instr s i = Ok s1 /\ length s1 = length s /\ forall k, k < length s -> nth k s1 d = cell_instr k (nth k s d) i).
    { destruct i as [k x|k f]; cbn [seq_instr instr_cell] in *; rewrite (modify_res_Ok _ _ _ d) by assumption;
        (eexists; split; [reflexivity|]; split; [apply upd_length|]; intros j Hj; unfold cell_instr; cbn [instr_cell];
         destruct (Nat.eqb_spec k j) as [->|Hk]; [rewrite nth_upd_eq by assumption; reflexivity|apply nth_upd_neq; congruence]). }
    destruct E as (s1 & E1 & L1 & C1). rewrite E1. cbn [bind].
    destruct (IH s1) as (s' & E' & L' & C'); [intros j Hj; rewrite L1; apply H; right; assumption|].
    exists s'. split; [assumption|]. split; [lia|]. intros k Hk. rewrite C' by lia. cbn [cell_run fold_left]. rewrite C1 by assumption. reflexivity.
Qed.

Section Disjoint.
Variable d : A.
Variable progs : list (list instr).
Variable s0 : list A.
Hypothesis in_range : forall i p, In p progs -> In i p -> instr_cell i < length s0.
Hypothesis disjoint : forall a b i j, a < length progs -> b < length progs -> a <> b ->
  In i (nth a progs []) -> In j (nth b progs []) -> instr_cell i <> instr_cell j.

Let K := length progs.
Let prog a := nth a progs [].

(** task [a] is at position [pc] with [l] loaded *)
Definition task_ok (s : list A) (a : nat) (l : mem_local) : Prop :=
  fst l <= length (prog a) /\
  (forall k, k < length s0 -> (exists i, In i (prog a) /\ instr_cell i = k) -> nth k s d = cell_run k (firstn (fst l) (prog a)) (nth k s0 d)) /\
  (forall y, snd l = Some y -> exists k f, nth_error (prog a) (fst l) = Some (Modify k f) /\ y = f (nth k s d)).
Definition untouched (s : list A) : Prop :=
  forall k, (forall a i, a < K -> In i (prog a) -> instr_cell i <> k) -> nth k s d = nth k s0 d.
Definition position (l : mem_local) : nat := 2 * fst l + match snd l with None => 0 | Some _ => 1 end.

Lemma firstn_snoc {X} (l : list X) n x : nth_error l n = Some x -> firstn (S n) l = firstn n l ++ [x].
Proof.
  revert n. induction l as [|a l IH]; intros [|n] H; try discriminate; cbn in *; [congruence|]. rewrite (IH n H). reflexivity.
Qed.

Lemma prog_range a i : a < K -> In i (prog a) -> instr_cell i < length s0.
Proof. intros Ha Hi. apply (in_range i (prog a)); [apply nth_In; assumption|assumption]. Qed.

Lemma write_ok s a i y : a < K -> length s = length s0 -> In i (prog a) ->
  forall b l, b < K -> b <> a -> task_ok s b l -> task_ok (upd s (instr_cell i) y) b l.
Proof.
  intros Ha Hl Hi b l Hb Hba (T1 & T2 & T3). split; [assumption|]. split.
  - intros k Hk Hex. rewrite nth_upd_neq; [auto|]. destruct Hex as (j & Hj & <-).
    apply (disjoint a b); auto.
  - intros z Hz. destruct (T3 z Hz) as (k & f & E & ->). exists k, f. split; [assumption|]. f_equal. symmetry. apply nth_upd_neq.
    apply nth_error_In in E. apply (disjoint a b i (Modify k f)); auto.
Qed.

Lemma mem_exec_inv sched : forall (ls : list mem_local) s, length ls = K -> length s = length s0 ->
  (forall a, a < K -> task_ok s a (nth a ls mem0)) -> untouched s ->
  exists (ls' : list mem_local) s', par_exec (mem_step progs) K sched (ls, s) = Ok (ls', s') /\ length ls' = K /\ length s' = length s0 /\
    (forall a, a < K -> task_ok s' a (nth a ls' mem0)) /\ untouched s' /\
    (forall a, a < K -> fst (nth a ls' mem0) = length (prog a) \/
       position (nth a ls mem0) + count_occ Nat.eq_dec sched a <= position (nth a ls' mem0)).
Proof.
  induction sched as [|e sched IH]; intros ls s Hl Hs HT HU.
  - exists ls, s. split; [reflexivity|]. repeat (split; [assumption|]). intros a Ha. right. cbn [count_occ]. lia.
  - unfold par_exec. cbn [foldM]. fold (par_exec (mem_step progs) K sched).
    destruct (nth_error ls e) as [l|] eqn:El.
    2:{ assert (He : K <= e) by (rewrite <- Hl; apply nth_error_None; assumption). cbn [bind].
        destruct (IH ls s Hl Hs HT HU) as (ls' & s' & E & H1 & H2 & H3 & H4 & H5).
        exists ls', s'. repeat (split; [assumption|]). intros a Ha. cbn [count_occ]. destruct (Nat.eq_dec e a); [lia|]. auto. }
    assert (He : e < K) by (rewrite <- Hl; apply nth_error_Some; congruence).
    assert (El' : nth e ls mem0 = l) by (apply nth_error_nth; assumption).
    pose proof (HT e He) as He_ok. rewrite El' in He_ok. pose proof He_ok as (T1 & T2 & T3).
    (* one step *)
    assert (Hstep : exists l1 s1, mem_step progs e l s = Ok (l1, s1) /\ length s1 = length s0 /\
      task_ok s1 e l1 /\ (forall b, b < K -> b <> e -> task_ok s1 b (nth b ls mem0)) /\ untouched s1 /\
      ((l1 = l /\ fst l = length (prog e)) \/ S (position l) <= position l1)).
    { unfold mem_step. fold (prog e). destruct (nth_error (prog e) (fst l)) as [[k x|k f]|] eqn:Ei.
      - (* store *)
        assert (Hin : In (Store k x) (prog e)) by (eapply nth_error_In; eassumption).
        assert (Hk : k < length s0) by (apply (prog_range e (Store k x)); assumption).
        rewrite (modify_res_Ok _ _ _ d) by lia. cbn [bind]. eexists. eexists. split; [reflexivity|].
        split; [rewrite upd_length; assumption|]. split; [|split; [|split]].
        + split; [cbn; apply (nth_error_Some (prog e) (fst l)) ; congruence|]. split; [|cbn; intros; discriminate].
          intros j Hj Hex. cbn [fst]. rewrite (firstn_snoc _ _ _ Ei), cell_run_app. cbn [cell_run fold_left]. unfold cell_instr. cbn [instr_cell].
          destruct (Nat.eqb_spec k j) as [->|Hkj]; [apply nth_upd_eq; lia|]. rewrite nth_upd_neq by congruence. apply T2; assumption.
        + intros b Hb Hbe. apply (write_ok s e (Store k x)); auto.
        + intros j Hj. rewrite nth_upd_neq; [apply HU; assumption|]. apply (Hj e (Store k x)); assumption.
        + right. unfold position. cbn [fst snd]. destruct (snd l); lia.
      - assert (Hin : In (Modify k f) (prog e)) by (eapply nth_error_In; eassumption).
        assert (Hk : k < length s0) by (apply (prog_range e (Modify k f)); assumption).
        destruct (snd l) as [y|] eqn:Esnd.
        + (* write back *)
          destruct (T3 y eq_refl) as (k' & f' & E' & ->). assert (E2 : Some (Modify k f) = Some (Modify k' f')) by (rewrite <- E', <- Ei; reflexivity). clear E'. rename E2 into E'. injection E' as <- <-.
          rewrite (modify_res_Ok _ _ _ d) by lia. cbn [bind]. eexists. eexists. split; [reflexivity|].
          split; [rewrite upd_length; assumption|]. split; [|split; [|split]].
          * split; [cbn; apply (nth_error_Some (prog e) (fst l)); congruence|]. split; [|cbn; intros; discriminate].
            intros j Hj Hex. cbn [fst]. rewrite (firstn_snoc _ _ _ Ei), cell_run_app. cbn [cell_run fold_left]. unfold cell_instr. cbn [instr_cell].
            destruct (Nat.eqb_spec k j) as [<-|Hkj].
            -- rewrite nth_upd_eq by lia. f_equal. apply T2; [assumption|]. exists (Modify k f). auto.
            -- rewrite nth_upd_neq by congruence. apply T2; assumption.
          * intros b Hb Hbe. apply (write_ok s e (Modify k f)); auto.
          * intros j Hj. rewrite nth_upd_neq; [apply HU; assumption|]. apply (Hj e (Modify k f)); assumption.
          * right. unfold position. rewrite Esnd. cbn [fst snd]. lia.
        + (* load *)
          rewrite (nth_res_nth _ _ d) by lia. cbn [bind]. eexists. eexists. split; [reflexivity|].
          split; [assumption|]. split; [|split; [|split]].
          * split; [assumption|]. split; [assumption|]. cbn [snd fst]. intros y Hy. injection Hy as <-. exists k, f. auto.
          * intros b Hb Hbe. apply HT. assumption.
          * assumption.
          * right. unfold position. rewrite Esnd. cbn [fst snd]. lia.
      - exists l, s. split; [reflexivity|]. split; [assumption|]. split; [exact He_ok|].
        split; [intros b Hb _; apply HT; assumption|]. split; [assumption|]. left. split; [reflexivity|].
        apply nth_error_None in Ei. lia. }
    destruct Hstep as (l1 & s1 & E1 & Hs1 & Ht1 & Hto & HU1 & Hpos). rewrite E1. cbn [bind].
    destruct (IH (upd ls e l1) s1) as (ls' & s' & E & H1 & H2 & H3 & H4 & H5).
    + rewrite upd_length; assumption.
    + assumption.
    + intros b Hb. destruct (Nat.eq_dec b e) as [->|Hbe]; [rewrite nth_upd_eq by lia; assumption|rewrite nth_upd_neq by congruence; auto].
    + assumption.
    + exists ls', s'. split; [exact E|]. repeat (split; [assumption|]). intros a Ha. cbn [count_occ].
      destruct (Nat.eq_dec e a) as [<-|Hea].
      * destruct (H5 e He) as [H|H]; [auto|]. rewrite nth_upd_eq in H by lia. rewrite El'.
        destruct Hpos as [[-> Hfin]|Hpos]; [|right; lia].
        left. destruct (H3 e He) as (Hle & _).
        unfold position in H. destruct (snd l), (snd (nth e ls' mem0)); lia.
      * destruct (H5 a Ha) as [H|H]; [auto|]. rewrite nth_upd_neq in H by congruence. right. lia.
Qed.

Theorem par_mem_cells sched : exists s', par_mem progs sched s0 = Ok s' /\ length s' = length s0 /\
  (forall a k, a < length progs -> k < length s0 -> (exists i, In i (nth a progs []) /\ instr_cell i = k) ->
     nth k s' d = cell_run k (nth a progs []) (nth k s0 d)) /\
  (forall k, (forall a i, a < length progs -> In i (nth a progs []) -> instr_cell i <> k) -> nth k s' d = nth k s0 d).
Proof.
  unfold par_mem, par_for. fold K.
  destruct (mem_exec_inv (sched ++ concat (repeat (seq 0 K) (2 * length (concat progs)))) (repeat mem0 K) s0) as (ls' & s' & E & H1 & H2 & H3 & H4 & H5).
  - apply repeat_length.
  - reflexivity.
  - intros a Ha. replace (nth a (repeat mem0 K) mem0) with mem0 by (clear; revert a; induction K; intros [|a]; cbn; auto).
    split; [cbn; lia|]. split; [reflexivity|cbn; intros; discriminate].
  - intros k _. reflexivity.
  - rewrite E. cbn [bind]. exists s'. split; [reflexivity|]. split; [assumption|]. split; [|exact H4].
    intros a k Ha Hk Hex. destruct (H3 a Ha) as (_ & T2 & _). rewrite T2 by assumption. fold (prog a).
    rewrite firstn_all2; [reflexivity|]. destruct (H5 a Ha) as [H|H]; [lia|].
    rewrite count_occ_app, count_rounds in H by assumption.
    assert (Hlen : length (prog a) <= length (concat progs)).
    { unfold prog. clear -Ha. unfold K in Ha. revert a Ha. induction progs as [|p ps IH]; intros a Ha; [cbn in Ha; lia|]. cbn [concat]. rewrite app_length.
      destruct a as [|a]; cbn [nth]; [lia|]. specialize (IH a ltac:(cbn in Ha; lia)). lia. }
    unfold position in H. destruct (snd (nth a ls' mem0)); lia.
Qed.

(** So the schedule does not matter. *)
Theorem par_mem_seq sched : exists s', par_mem progs sched s0 = Ok s' /\ seq_mem progs s0 = Ok s'.
Proof.
  destruct (par_mem_cells sched) as (s' & E & L & C & U).
  destruct (seq_mem_cells d (concat progs) s0) as (s2 & E2 & L2 & C2).
  { intros i Hi. apply in_concat in Hi. destruct Hi as (p & Hp & Hi). apply (in_range i p); assumption. }
  exists s'. split; [assumption|]. unfold seq_mem. rewrite E2. f_equal. apply (nth_ext _ _ d d); [lia|].
  intros k Hk. rewrite C2 by lia.
  assert (Hc : forall pre a p post, progs = pre ++ p :: post -> length pre = a ->
     (exists i, In i p /\ instr_cell i = k) -> cell_run k (concat progs) (nth k s0 d) = cell_run k p (nth k s0 d)).
  { intros pre a p post Ep Hlp (i & Hi & Hik). rewrite Ep, concat_app. cbn [concat]. rewrite !cell_run_app.
    assert (Hp : nth a progs [] = p) by (rewrite Ep, app_nth2, Hlp, Nat.sub_diag by lia; reflexivity).
    assert (Ha : a < length progs) by (rewrite Ep, app_length; cbn; lia).
    rewrite (cell_run_other k (concat pre)).
    - apply cell_run_other. intros j Hj. apply in_concat in Hj. destruct Hj as (q & Hq & Hj).
      destruct (In_nth _ _ [] Hq) as (b & Hb & Eb). rewrite <- Hik. apply (disjoint (a + S b) a); try assumption; try lia.
      + rewrite Ep, app_length. cbn. lia.
      + rewrite Ep, app_nth2 by lia. replace (a + S b - length pre) with (S b) by lia. cbn [nth]. rewrite Eb. assumption.
      + rewrite Hp. assumption.
    - intros j Hj. apply in_concat in Hj. destruct Hj as (q & Hq & Hj).
      destruct (In_nth _ _ [] Hq) as (b & Hb & Eb). rewrite <- Hik. apply (disjoint b a); try assumption; try lia.
      + rewrite Ep, app_nth1 by lia. rewrite Eb. assumption.
      + rewrite Hp. assumption. }
  destruct (existsb (fun p => existsb (fun i => instr_cell i =? k) p) progs) eqn:Ex.
  - apply existsb_exists in Ex. destruct Ex as (p & Hp & Ex). apply existsb_exists in Ex. destruct Ex as (i & Hi & Hik). apply Nat.eqb_eq in Hik.
    destruct (In_nth _ _ [] Hp) as (a & Ha & Ea). destruct (nth_split progs [] Ha) as (pre & post & Ep & Hlp).
    rewrite (Hc pre a p post); [|rewrite Ep, Ea at 1; reflexivity|assumption|exists i; auto].
    rewrite <- Ea. symmetry. apply C; [assumption|lia|]. rewrite Ea. exists i. auto.
  - rewrite cell_run_other.
    + symmetry. apply U. intros a i Ha Hi Hik. assert (H : true = false); [|discriminate]. rewrite <- Ex. symmetry.
      apply existsb_exists. exists (nth a progs []). split; [apply nth_In; assumption|]. apply existsb_exists. exists i. split; [assumption|]. apply Nat.eqb_eq. assumption.
    + intros i Hi Hik. apply in_concat in Hi. destruct Hi as (p & Hp & Hi). assert (H : true = false); [|discriminate]. rewrite <- Ex. symmetry.
      apply existsb_exists. exists p. split; [assumption|]. apply existsb_exists. exists i. split; [assumption|]. apply Nat.eqb_eq. assumption.
Qed.
End Disjoint.
End Mem.
