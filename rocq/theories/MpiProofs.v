(** The MPI exact solvers: the protocol invariants applied to what the workers compute. *)
From Coq Require Import ZArith Arith Bool List Permutation Lia ZifyBool.
From Verif Require Import Num NumPos Base Spec Data Mst Exact Threaded Mpi SpecFacts Dfs PrimProofs ExactProofs DigitsProofs
  SearchProofs Coverage ThreadedProofs MpiStatic MpiDynamic.
Import ListNotations.

Lemma Forall2_len {A B} (R : A -> B -> Prop) l l' : Forall2 R l l' -> length l = length l'.
Proof. intros H. induction H; simpl; congruence. Qed.

(** ** Costs stay nonnegative *)
Section Nonneg.
Context {N : Num} (O : NumOrd N) (PP : NumPos N).

Definition nn_matrix (m : namatrix N) : Prop := forall i j x, na_get m i j = Ok x -> nn x.

Lemma nn_0 : nn (c0 : C N).
Proof. right. rewrite (ord_refl N O). apply negb_true_iff. apply (clt_nnan_l O _ cinf). apply (ord_0 N O). Qed.

Lemma nn_inf : cle c0 (cinf : C N) = true.
Proof. apply (clt_le O). apply (ord_0 N O). Qed.

Lemma evaluate_path_nn m p c : nn_matrix m -> evaluate_path (na_adj m) p = Ok c -> nn c.
Proof.
  intros Hm. unfold evaluate_path. destruct (length p <=? 1); [intros E; injection E as <-; apply nn_0|].
  apply foldM_inv_partial; [apply nn_0|]. intros k acc acc' _ Ha E.
  apply bind_Ok in E. destruct E as (x & _ & E). apply bind_Ok in E. destruct E as (y & _ & E).
  apply bind_Ok in E. destruct E as (z & Hz & E). injection E as <-. apply (pos_add N PP); [assumption|]. apply (Hm x y z Hz).
Qed.

Lemma mpi_rec_nn m gl : nn_matrix m -> forall fuel p c r s, nn c -> cle c0 (fst r) = true ->
  mpi_rec fuel m p c r gl = Ok s -> cle c0 (fst s) = true.
Proof.
  intros Hm. induction fuel as [|f IH]; intros p c r s Hc Hr E; [discriminate|]. cbn [mpi_rec] in E.
  destruct (length p =? na_dim m).
  - unfold leaf in E. apply bind_Ok in E. destruct E as (l & _ & E). apply bind_Ok in E. destruct E as (h & _ & E).
    apply bind_Ok in E. destruct E as (e & He & E). injection E as <-. destruct (clt (cadd c e) (fst r)) eqn:El; [|assumption].
    cbn [fst]. destruct (pos_add N PP c e Hc (Hm _ _ _ He)) as [H|H]; [|assumption].
    rewrite (clt_nnan_l O _ _ El) in H. discriminate.
  - apply bind_Ok in E. destruct E as ([c' s'] & E & E'). injection E' as ->.
    assert (G : nn (fst (c', s)) /\ cle c0 (fst (snd (c', s))) = true); [|apply G].
    revert E. apply (foldM_inv_partial _ (fun st => nn (fst st) /\ cle c0 (fst (snd st)) = true)); [auto|].
    clear c r Hc Hr c' s. intros i [c r] [c1 r1] _ [Hc Hr] E. cbn [fst snd] in *.
    destruct (memb i p); [injection E as <- <-; auto|]. cbv zeta in E. destruct (length (p ++ [i]) =? 1).
    + apply bind_Ok in E. destruct E as (r' & Er & E). injection E as <- <-. split; [assumption|]. apply (IH _ _ _ _ Hc Hr Er).
    + apply bind_Ok in E. destruct E as (e & He & E). apply bind_Ok in E. destruct E as (lg & _ & E).
      apply bind_Ok in E. destruct E as (r' & Er & E). injection E as <- <-.
      assert (Hne : nn e).
      { unfold last_edge in He. apply bind_Ok in He. destruct He as (x & _ & He). apply bind_Ok in He. destruct He as (y & _ & He). apply (Hm x y e He). }
      split; [apply (pos_cancel N PP); assumption|].
      match type of Er with (if ?b then _ else _) = _ => destruct b end; [|injection Er as <-; assumption].
      apply (IH _ _ _ _ (pos_add N PP _ _ Hc Hne) Hr Er).
Qed.

(** what is known of a worker's results in any arithmetic *)
Definition sound (n : nat) (s : solution N) : Prop := found n s /\ cle c0 (fst s) = true.

Lemma sound_init n : sound n (cinf, []).
Proof. split; [left; reflexivity|apply nn_inf]. Qed.

Lemma mpi_work_sound (m : namatrix N) p g : 1 <= na_dim m -> na_wf m -> nn_matrix m ->
  NoDup p -> Forall (fun i => i < na_dim m) p -> exists r, mpi_work m p g = Ok r /\ sound (na_dim m) r.
Proof.
  intros Hn Hwf Hm Hnd Hr. unfold mpi_work. destruct (evaluate_path_total m Hwf p Hr) as (c & Ec). rewrite Ec. cbn [bind].
  destruct (mpi_struct O m g p c Hn Hwf Hnd Hr) as (s & Es & Hs). exists s. split; [assumption|]. split; [assumption|].
  apply (mpi_rec_nn m g Hm _ _ _ (cinf, []) _ (evaluate_path_nn m p c Hm Ec) nn_inf Es).
Qed.

(** ** The wrap-up *)
Lemma wrapup_agree (win : C N * nat) paths rs : wrapup win paths = Ok rs ->
  exists path, nth_error paths (snd win) = Some path /\ rs = repeat (fst win, path) (length paths).
Proof.
  unfold wrapup. intros E. apply bind_Ok in E. destruct E as (path & Hp & E). exists path.
  unfold nth_res in Hp. destruct (nth_error paths (snd win)); [|discriminate]. injection Hp as ->. split; [reflexivity|].
  destruct (forallb _ paths); [|discriminate]. injection E as <-. clear. induction paths; simpl; congruence.
Qed.

Lemma wrapup_ok (win : C N * nat) paths path : nth_error paths (snd win) = Some path ->
  (forall p, In p paths -> length p = length path) -> wrapup win paths = Ok (repeat (fst win, path) (length paths)).
Proof.
  intros Hp Hl. unfold wrapup, nth_res. rewrite Hp. cbn [bind].
  replace (forallb _ paths) with true.
  - f_equal. clear. induction paths; simpl; congruence.
  - symmetry. apply forallb_forall. intros p Hin. apply Nat.eqb_eq. auto.
Qed.

Lemma wrapup_mismatch (win : C N * nat) paths path p : nth_error paths (snd win) = Some path ->
  In p paths -> length p <> length path -> wrapup win paths = Panic.
Proof.
  intros Hp Hin Hl. unfold wrapup, nth_res. rewrite Hp. cbn [bind].
  replace (forallb _ paths) with false; [reflexivity|]. symmetry. apply not_true_iff_false. intros H.
  rewrite forallb_forall in H. apply H in Hin. apply Nat.eqb_eq in Hin. contradiction.
Qed.

Lemma nth_paths {A} (x : A) f k i : i < k -> nth_error (x :: map f (seq 0 k)) (S i) = Some (f i).
Proof.
  intros Hi. cbn [nth_error]. erewrite map_nth_error; [reflexivity|]. rewrite (nth_error_nth' _ 0) by (rewrite seq_length; lia). rewrite seq_nth by lia. reflexivity.
Qed.

(** ** Static: every arithmetic *)
Section Static.
Variable m : namatrix N.
Hypothesis Hn : 1 <= na_dim m.
Hypothesis Hwf : na_wf m.
Hypothesis Hm : nn_matrix m.
Variables plen workers : nat.
Hypothesis Hw : workers < na_dim m ^ plen.

Lemma static_todo_Ok : exists todo, static_todo m plen workers = Ok todo /\ length todo = workers /\
  forall i, i < workers -> chunk_prefixes plen (na_dim m) workers i = Ok (nth i todo []) /\
    forall p, In p (nth i todo []) -> NoDup p /\ Forall (fun x => x < na_dim m) p /\ length p = plen.
Proof.
  unfold static_todo.
  destruct (mapM_exists (chunk_prefixes plen (na_dim m) workers)
    (fun _ l => forall p, In p l -> NoDup p /\ Forall (fun x => x < na_dim m) p /\ length p = plen) (seq 0 workers)) as (r & Hr & HF).
  { intros i Hi. apply in_seq in Hi. apply chunk_prefixes_Ok; lia. }
  exists r. split; [assumption|]. split; [apply Forall2_len in HF; rewrite seq_length in HF; auto|].
  intros i Hi. clear Hr.
  assert (G : forall ks ls, Forall2 (fun a b => chunk_prefixes plen (na_dim m) workers a = Ok b /\
    forall p, In p b -> NoDup p /\ Forall (fun x => x < na_dim m) p /\ length p = plen) ks ls -> forall k, k < length ks ->
    chunk_prefixes plen (na_dim m) workers (nth k ks 0) = Ok (nth k ls []) /\
    forall p, In p (nth k ls []) -> NoDup p /\ Forall (fun x => x < na_dim m) p /\ length p = plen).
  { clear. intros ks ls HF. induction HF as [|a b ks ls H HF IH]; intros k Hk; [simpl in Hk; lia|].
    destruct k; [assumption|]. simpl in *. apply IH. lia. }
  specialize (G _ _ HF i ltac:(rewrite seq_length; lia)). rewrite seq_nth in G by assumption. exact G.
Qed.

Variable todo : list (list (list nat)).
Hypothesis Htodo : static_todo m plen workers = Ok todo.

Lemma todo_ok i p : i < workers -> In p (nth i todo []) -> NoDup p /\ Forall (fun x => x < na_dim m) p /\ length p = plen.
Proof. intros Hi Hp. destruct static_todo_Ok as (t & E & _ & H). rewrite Htodo in E. injection E as <-. apply (H i Hi). assumption. Qed.

Lemma static_work i p g : i < workers -> In p (nth i todo []) -> Q (sound (na_dim m)) g ->
  exists r, mpi_work m p g = Ok r /\ sound (na_dim m) r.
Proof. intros Hi Hp _. destruct (todo_ok i p Hi Hp) as (H1 & H2 & _). apply mpi_work_sound; assumption. Qed.

Lemma sound_nonneg s : sound (na_dim m) s -> cle c0 (fst s) = true.
Proof. intros [_ H]. assumption. Qed.

Definition reach := steps (sstep workers (mpi_work m)) (sinit (fun i => nth i todo [])).

Definition s_progress := static_progress O workers (mpi_work m) (fun i => nth i todo []) (sound (na_dim m)) (sound_init _) sound_nonneg static_work.
Definition s_measure := static_measure O workers (mpi_work m) (fun i => nth i todo []) (sound (na_dim m)) (sound_init _) sound_nonneg static_work.
Definition s_finishes := static_finishes O workers (mpi_work m) (fun i => nth i todo []) (sound (na_dim m)) (sound_init _) sound_nonneg static_work.
Definition s_channels := static_channels O workers (mpi_work m) (fun i => nth i todo []) (sound (na_dim m)) (sound_init _) sound_nonneg static_work.
Definition s_work_ok := static_work_ok O workers (mpi_work m) (fun i => nth i todo []) (sound (na_dim m)) (sound_init _) sound_nonneg static_work.
Definition s_outcome := static_outcome O workers (mpi_work m) (fun i => nth i todo []) (sound (na_dim m)) (sound_init _) sound_nonneg static_work.
End Static.

End Nonneg.

(** a descending chain of naturals ends *)
Lemma no_infinite_run {A} (R : A -> A -> Prop) (mu : A -> nat) (Reach : A -> Prop) (f : nat -> A) :
  (forall c c', Reach c -> R c c' -> Reach c' /\ mu c' < mu c) -> Reach (f 0) -> (forall k, R (f k) (f (S k))) -> False.
Proof.
  intros H H0 Hf.
  assert (G : forall k, Reach (f k) /\ mu (f k) + k <= mu (f 0)).
  { induction k as [|k [IH1 IH2]]; [split; [assumption|lia]|]. destruct (H _ _ IH1 (Hf k)). split; [assumption|lia]. }
  specialize (G (S (mu (f 0)))). lia.
Qed.

(** ** Every worker has something to do *)
Lemma third_digit n a b : 3 <= n -> a < n -> b < n -> a <> b -> exists c, c < n /\ NoDup [a; b; c].
Proof.
  intros Hn Ha Hb Hab.
  assert (H : exists c, c < 3 /\ c <> a /\ c <> b).
  { destruct (Nat.eq_dec a 0), (Nat.eq_dec b 0); try lia.
    - destruct (Nat.eq_dec b 1); [exists 2|exists 1]; lia.
    - destruct (Nat.eq_dec a 1); [exists 2|exists 1]; lia.
    - exists 0; lia. }
  destruct H as (c & Hc & H1 & H2). exists c. split; [lia|].
  constructor; [simpl; intuition lia|]. constructor; [simpl; intuition lia|]. constructor; [simpl; tauto|constructor].
Qed.

Lemma good_block n beta : 1 <= n -> exists d, (d = 0 \/ d = 1) /\ (beta + d) / n <> (beta + d) mod n.
Proof.
  intros Hn. destruct (Nat.eq_dec (beta / n) (beta mod n)) as [E|Ne]; [|exists 0; rewrite Nat.add_0_r; auto].
  exists 1. split; [auto|]. intros E1.
  pose proof (Nat.div_mod beta n ltac:(lia)) as H1. pose proof (Nat.div_mod (beta + 1) n ltac:(lia)) as H2.
  rewrite <- E in H1. rewrite <- E1 in H2.
  set (x := beta / n) in *. set (y := (beta + 1) / n) in *.
  assert (H3 : (n + 1) * y = (n + 1) * x + 1) by lia.
  assert (H4 : x < y) by nia. assert ((n + 1) * (x + 1) <= (n + 1) * y) by (apply Nat.mul_le_mono_l; lia). lia.
Qed.

Lemma window_arith n L beta d c : 4 <= n -> beta * n <= L + n -> L < beta * n -> (d = 0 \/ d = 1) -> c < n ->
  L < (beta + d) * n + c /\ (beta + d) * n + c + 1 < L + n * n.
Proof.
  intros Hn H1 H2 Hd Hc. assert (4 * n <= n * n) by (apply Nat.mul_le_mono_r; lia).
  destruct Hd as [-> | ->]; rewrite Nat.mul_add_distr_r; lia.
Qed.

Theorem chunk_nonempty n t i : 3 <= n -> 1 <= t <= n -> i < t -> exists p, examined n t i p.
Proof.
  intros Hn Ht Hi. destruct (Nat.eq_dec n 3) as [->|N3].
  { assert (Ht' : t = 1 \/ t = 2 \/ t = 3) by lia.
    assert (Hi' : i = 0 \/ i = 1 \/ i = 2) by lia.
    destruct Ht' as [->|[->| ->]], Hi' as [->|[->| ->]]; try lia; eexists; (eexists; split; [vm_compute; reflexivity|left; reflexivity]). }
  set (s := n ^ 3 / t). set (L := i * s).
  pose proof (size_big n Hn t Ht) as Hs. fold s in Hs.
  pose proof (chunk_total n Hn t Ht) as Htot. fold s in Htot. rewrite pow3 in Htot.
  assert (HL : L + s <= t * s).
  { unfold L. assert ((i + 1) * s <= t * s) by (apply Nat.mul_le_mono_r; lia). lia. }
  set (beta := L / n + 1).
  pose proof (Nat.div_mod L n ltac:(lia)) as Hdm. pose proof (Nat.mod_upper_bound L n ltac:(lia)) as Hmm.
  assert (H1 : beta * n <= L + n) by (unfold beta; lia).
  assert (H2 : L < beta * n) by (unfold beta; lia).
  destruct (good_block n beta ltac:(lia)) as (d & Hd & Hne).
  set (a := (beta + d) / n) in *. set (b := (beta + d) mod n) in *.
  assert (Hb : b < n) by (apply Nat.mod_upper_bound; lia).
  pose proof (Nat.div_mod (beta + d) n ltac:(lia)) as Hab. fold a b in Hab.
  assert (Ha : a < n).
  { destruct (window_arith n L beta d 0 ltac:(lia) H1 H2 Hd ltac:(lia)) as [_ Hu].
    apply Nat.div_lt_upper_bound; [lia|]. apply (mul_lt_inv _ _ n). lia. }
  destruct (third_digit n a b Hn Ha Hb Hne) as (c & Hc & Hnd).
  exists [a; b; c]. apply (examined_intro n Hn t Ht i a b c); try assumption.
  rewrite (number3 n Hn t Ht). fold s. fold L.
  destruct (window_arith n L beta d c ltac:(lia) H1 H2 Hd Hc) as [Hu1 Hu2].
  replace (a * n * n + b * n + c) with ((beta + d) * n + c) by (rewrite Hab, Nat.mul_add_distr_r; lia). lia.
Qed.

Lemma NoDup_app' {A} (l l' : list A) : NoDup l -> NoDup l' -> (forall x, In x l -> ~ In x l') -> NoDup (l ++ l').
Proof.
  induction l as [|a l IH]; intros H1 H2 H; [assumption|]. inversion H1; subst. simpl. constructor.
  - rewrite in_app_iff. intros [|Hi]; [contradiction|]. apply (H a); [left; reflexivity|assumption].
  - apply IH; try assumption. intros x Hx. apply H. right. assumption.
Qed.

(** a prefix of distinct vertices is the beginning of a tour *)
Lemma extend_tour n p : NoDup p -> Forall (fun i => i < n) p -> exists r, is_tour n (p ++ r).
Proof.
  intros Hnd Hr. exists (filter (fun i => negb (memb i p)) (seq 0 n)). unfold is_tour.
  apply NoDup_Permutation; [|apply seq_NoDup|].
  - apply NoDup_app'; [assumption|apply NoDup_filter, seq_NoDup|].
    intros x H1 H2. apply filter_In in H2. destruct H2 as [_ H2]. apply negb_true_iff in H2.
    apply memb_In in H1. congruence.
  - intros x. rewrite in_app_iff, filter_In, in_seq, negb_true_iff. rewrite Forall_forall in Hr.
    split; [intros [H|[H _]]; [specialize (Hr x H); lia|lia]|]. intros H. destruct (memb x p) eqn:E; [left; apply memb_In; assumption|right; auto].
Qed.
