(** Particular runs of the dynamic MPI solver (exact.rs:1095-1260), built for any number of
    vertices and workers: one worker takes everything before another one starts, and every
    worker gets one of the first prefixes before anyone reports. *)
From Coq Require Import ZArith Arith Bool List Permutation Lia ZifyBool.
From Verif Require Import Num Base Spec Data Mst Exact Threaded Mpi PrimProofs DigitsProofs MpiStatic MpiDynamic.
Import ListNotations.

Section Runs.
Context {N : Num}.
Variable n : nat.
Variable work : list nat -> C N -> res (solution N).

Lemma steps_trans {A} (R : A -> A -> Prop) x y z : steps R x y -> steps R y z -> steps R x z.
Proof. intros H1 H2. induction H2 as [c|c c' c'' H IH Hs]; [assumption|]. apply (steps_step _ _ c'); auto. Qed.

(** who has reached the barrier stays there *)
Lemma bar_stays workers i h l c c' : steps (dstep workers n work) c c' -> d_worker c i = DBar h l -> d_worker c' i = DBar h l.
Proof.
  intros H. induction H as [c|c c' c'' H IH Hs]; [auto|]. intros E. specialize (IH E).
  inversion Hs; subst; cbn [d_worker] in *; try assumption; unfold fupd; (destruct (Nat.eqb_spec i i0) as [->|]; [|assumption]); congruence.
Qed.

(** a run of one worker is the beginning of a run of more, up to the root's barrier *)
Definition unbar (c : dconfig N) : dconfig N :=
  mkD (d_winner c) (d_waiting c) (d_current c) false (d_worker c) (d_up c) (d_down c).

Lemma solo workers c : 1 <= workers -> steps (dstep 1 n work) dinit c -> steps (dstep workers n work) dinit (unbar c).
Proof.
  intros Hw H. remember (@dinit N) as c0 eqn:E0. induction H as [c|c c' c'' H IH Hs]; [rewrite E0; apply steps_refl|].
  specialize (IH E0). inversion Hs; subst; unfold unbar in *; cbn [d_winner d_waiting d_current d_barrier d_worker d_up d_down] in *;
    first [exact IH|eapply steps_step; [exact IH|]].
  - eapply D_start; (lia || assumption).
  - eapply D_recv; (lia || eassumption).
  - eapply D_recv_done; (lia || eassumption).
  - eapply D_work; (lia || eassumption).
  - eapply D_root_work; (lia || eassumption).
  - eapply D_root_empty; (lia || eassumption).
Qed.

(** in a run of one worker the others have not moved *)
Lemma solo_others c : steps (dstep 1 n work) dinit c ->
  (forall x rk, In (x, rk) (d_up c 0) -> rk = 1) /\
  forall j, 1 <= j -> d_worker c j = DStart /\ d_up c j = [] /\ d_down c j = [].
Proof.
  intros H. remember (@dinit N) as c0 eqn:E0. induction H as [c|c c' c'' H IH Hs]; [rewrite E0; cbn; split; [intros ? ? []|auto]|].
  destruct (IH E0) as [IH1 IH2]. clear IH. inversion Hs; subst; cbn [d_winner d_waiting d_current d_barrier d_worker d_up d_down] in *;
    try (assert (i = 0) by lia; subst i).
  - split.
    + intros x rk. rewrite fupd_eq, in_app_iff. intros [Hi|[Hi|[]]]; [apply (IH1 _ _ Hi)|congruence].
    + intros j Hj. rewrite !fupd_neq by lia. apply IH2. assumption.
  - split; [assumption|]. intros j Hj. rewrite !fupd_neq by lia. apply IH2. assumption.
  - split; [assumption|]. intros j Hj. rewrite !fupd_neq by lia. apply IH2. assumption.
  - split.
    + intros x rk. rewrite fupd_eq, in_app_iff. intros [Hi|[Hi|[]]]; [apply (IH1 _ _ Hi)|congruence].
    + intros j Hj. rewrite !fupd_neq by lia. apply IH2. assumption.
  - assert (rk = 1) by (match goal with U : up 0 = (?x, rk) :: _ |- _ => apply (IH1 x); rewrite U; left; reflexivity end). subst rk. cbn [Nat.sub]. split.
    + intros x rk. rewrite fupd_eq. intros Hi. apply (IH1 x). match goal with U : up 0 = _ :: _ |- _ => rewrite U end. right. assumption.
    + intros j Hj. rewrite !fupd_neq by lia. apply IH2. assumption.
  - assert (rk = 1) by (match goal with U : up 0 = (?x, rk) :: _ |- _ => apply (IH1 x); rewrite U; left; reflexivity end). subst rk. cbn [Nat.sub]. split.
    + intros x rk. rewrite fupd_eq. intros Hi. apply (IH1 x). match goal with U : up 0 = _ :: _ |- _ => rewrite U end. right. assumption.
    + intros j Hj. rewrite !fupd_neq by lia. apply IH2. assumption.
  - split; assumption.
Qed.

(** the others come when everything is gone *)
Lemma late workers c : 2 <= workers -> steps (dstep 1 n work) dinit c -> d_waiting c = 1 -> d_current c = None ->
  exists c', steps (dstep workers n work) dinit c' /\ d_worker c' 1 = DBar [] (cinf, []).
Proof.
  intros Hw H Hf Hcur. pose proof (solo workers c ltac:(lia) H) as H1. destruct (solo_others c H) as [_ H2]. destruct (H2 1 ltac:(lia)) as (Es & Eu & Ed).
  destruct c as [w f cur b st up down]. unfold unbar in H1. cbn [d_winner d_waiting d_current d_barrier d_worker d_up d_down] in *. subst f cur.
  eexists. split.
  - eapply steps_step; [eapply steps_step; [eapply steps_step; [exact H1|]|]|].
    + eapply (D_start workers n work w 1 None false st up down 1); [lia|assumption].
    + eapply (D_root_empty workers n work w 1 _ _ down 1 cinf 2 []); [lia|lia|]. rewrite fupd_eq, Eu. reflexivity.
    + eapply D_recv_done with (i := 1) (h := []) (local := (cinf, [])) (p := [0;0;0]) (rest := []); [lia|apply fupd_eq| |reflexivity].
      cbn [Nat.sub]. rewrite fupd_eq, Ed. reflexivity.
  - cbn [d_worker]. apply fupd_eq.
Qed.

(** who was given nothing has nothing *)
Lemma nothing_given workers c : steps (dstep workers n work) dinit c ->
  forall i, (handed_of (d_worker c i) = [] -> dlocal_of (d_worker c i) = (cinf, [])) /\
    match d_worker c i with DWork h _ _ _ => h <> [] | _ => True end.
Proof.
  intros H. remember (@dinit N) as c0 eqn:E0. induction H as [c|c c' c'' H IH Hs]; [rewrite E0; cbn; auto|].
  specialize (IH E0). intros j. specialize (IH j).
  inversion Hs; subst; cbn [d_worker] in *; try exact IH; unfold fupd; (destruct (Nat.eqb_spec j i) as [->|]; [|exact IH]);
    cbn [handed_of dlocal_of].
  - auto.
  - destruct h; cbn; split; [discriminate|discriminate|discriminate|discriminate].
  - rewrite H1 in IH. destruct IH as [IH _]. cbn [handed_of dlocal_of] in IH. auto.
  - rewrite H1 in IH. destruct IH as [_ IH]. split; [intros E; contradiction|exact I].
Qed.

(** everyone gets one of the first prefixes before anyone reports *)
Hypothesis inf_lt : clt (@cinf N) cinf = false.

Lemma handout workers stream : follows n (Some [1; 2; 3]) stream -> (forall p, In p stream -> zeros p = false) ->
  forall k, k <= workers -> k <= length stream -> exists c, steps (dstep workers n work) dinit c /\
    d_winner c = (cinf, 0) /\ d_waiting c = 0 /\ d_barrier c = false /\ follows n (d_current c) (skipn k stream) /\
    (forall j, j < k -> exists p h, In p stream /\ d_worker c j = DWork h (cinf, []) p cinf) /\
    (forall j, k <= j -> d_worker c j = DStart) /\ (forall j, d_up c j = [] /\ d_down c j = []).
Proof.
  intros Hstream Hnz. induction k as [|k IH]; intros Hk Hl.
  { exists dinit. cbn. split; [apply steps_refl|]. repeat (split; [reflexivity|]). split; [exact Hstream|]. split; [intros j Hj; lia|auto]. }
  destruct IH as (c & Hc & Ew & Ef & Eb & Hfol & H1 & H2 & H3); [lia|lia|].
  destruct c as [w f cur b st up down]. cbn [d_winner d_waiting d_current d_barrier d_worker d_up d_down] in *. subst w f b.
  destruct (skipn k stream) as [|p L] eqn:Esk.
  { apply (f_equal (@length _)) in Esk. rewrite skipn_length in Esk. cbn in Esk. lia. }
  assert (Hp : In p stream) by (rewrite <- (firstn_skipn k stream), Esk; apply in_or_app; right; left; reflexivity).
  assert (EL : skipn (S k) stream = L).
  { assert (Hg : forall (A : Type) j (l : list A), skipn (S j) l = skipn 1 (skipn j l)).
    { clear. induction j as [|j IH]; intros [|x l]; try reflexivity. cbn [skipn] in *. apply IH. }
    rewrite Hg, Esk. reflexivity. }
  inversion Hfol as [|p' q L' Hnext Hrest]; subst.
  destruct (H3 k) as [Eu Ed].
  eexists. split.
  - eapply steps_step; [eapply steps_step; [eapply steps_step; [exact Hc|]|]|].
    + eapply (D_start workers n work (cinf, 0) 0 (Some p) false st up down k); [lia|apply H2; lia].
    + eapply (D_root_work workers n work (cinf, 0) 0 _ _ down k cinf (S k) [] p q); [lia|lia| |assumption]. rewrite fupd_eq, Eu. reflexivity.
    + eapply D_recv with (i := k) (h := []) (local := (cinf, [])) (p := p) (g := cinf) (rest := []); [lia|apply fupd_eq| |apply Hnz; assumption].
      replace (S k - 1) with k by lia. rewrite fupd_eq, Ed. unfold update_winner_nonneg. cbn [fst app]. rewrite inf_lt, andb_false_r. reflexivity.
  - cbn [d_winner d_waiting d_current d_barrier d_worker d_up d_down]. split; [unfold update_winner_nonneg; cbn [fst]; rewrite inf_lt, andb_false_r; reflexivity|]. split; [reflexivity|]. split; [reflexivity|].
    split; [assumption|]. split; [|split].
    + intros j Hj. destruct (Nat.eq_dec j k) as [->|Ne].
      * exists p, ([] ++ [p]). rewrite fupd_eq. auto.
      * destruct (H1 j ltac:(lia)) as (p' & h' & Hp' & Ep'). exists p', h'. rewrite !fupd_neq by lia. auto.
    + intros j Hj. rewrite !fupd_neq by lia. apply H2. lia.
    + intros j. replace (S k - 1) with k by lia. unfold fupd. destruct (Nat.eqb_spec j k) as [->|]; [auto|apply H3].
Qed.

(** and then everyone ends with something *)
Hypothesis lt_trans : forall a b : C N, clt a b = true -> clt b cinf = true -> clt a cinf = true.

Definition promising (st : dstate N) : Prop :=
  (exists h p, st = DWork h (cinf, []) p cinf /\ forall r, work p cinf = Ok r -> clt (fst r) cinf = true) \/
  clt (fst (dlocal_of st)) cinf = true.

Lemma promising_steps workers c c' i : steps (dstep workers n work) c c' -> promising (d_worker c i) -> promising (d_worker c' i).
Proof.
  intros H. induction H as [c|c c' c'' H IH Hs]; [auto|]. intros Hp. specialize (IH Hp). clear Hp.
  inversion Hs; subst; cbn [d_worker] in *; try exact IH; unfold fupd; (destruct (Nat.eqb_spec i i0) as [->|]; [|exact IH]).
  - rewrite H1 in IH. destruct IH as [(h & p & E & _)|IH]; [discriminate|]. right. exact IH.
  - rewrite H1 in IH. destruct IH as [(h' & p' & E & _)|IH]; [discriminate|]. right. exact IH.
  - rewrite H1 in IH. destruct IH as [(h' & p' & E & _)|IH]; [discriminate|]. right. exact IH.
  - rewrite H1 in IH. right. cbn [dlocal_of]. unfold merge. destruct IH as [(h' & p' & E & Hr)|IH].
    + injection E as -> -> -> ->. specialize (Hr r H2). cbn [fst]. rewrite Hr. assumption.
    + cbn [dlocal_of] in IH. destruct (clt (fst r) (fst local)) eqn:El; [apply (lt_trans _ _ El IH)|assumption].
Qed.
End Runs.

(** ** How many prefixes there are *)
Definition others (n : nat) (l : list nat) : list nat := filter (fun x => negb (memb x l)) (seq 0 n).

Lemma others_In n l x : In x (others n l) <-> x < n /\ ~ In x l.
Proof.
  unfold others. rewrite filter_In, in_seq, negb_true_iff. split.
  - intros [H1 H2]. split; [lia|]. intros Hi. apply memb_In in Hi. congruence.
  - intros [H1 H2]. split; [lia|]. destruct (memb x l) eqn:E; [|reflexivity]. apply memb_In in E. contradiction.
Qed.

Lemma others_NoDup n l : NoDup (others n l).
Proof. apply NoDup_filter, seq_NoDup. Qed.

Lemma others_length n l : NoDup l -> Forall (fun x => x < n) l -> length (others n l) = n - length l.
Proof.
  intros Hnd Hf. assert (HP : Permutation (l ++ others n l) (seq 0 n)).
  { apply NoDup_Permutation; [|apply seq_NoDup|].
    - clear Hf. assert (G : forall l', (forall x, In x l' -> In x l) -> NoDup l' -> NoDup (l' ++ others n l)).
      { induction l' as [|a l' IH]; intros Hi H; [apply others_NoDup|]. inversion H; subst. cbn. constructor; [|apply IH; [intros x Hx; apply Hi; right; assumption|assumption]].
        rewrite in_app_iff. intros [Ha|Ha]; [contradiction|]. apply others_In in Ha. destruct Ha as [_ Ha]. apply Ha, Hi. left. reflexivity. }
      apply (G l); auto.
    - intros x. rewrite in_app_iff, others_In, in_seq. rewrite Forall_forall in Hf. split; [intros [H|[H _]]; [specialize (Hf x H); lia|lia]|].
      intros H. destruct (in_dec Nat.eq_dec x l); [left; assumption|right; split; [lia|assumption]]. }
  apply Permutation_length in HP. rewrite app_length, seq_length in HP. lia.
Qed.

Lemma flat_map_const {A B} (f : A -> list B) l k : (forall a, In a l -> length (f a) = k) -> length (flat_map f l) = length l * k.
Proof.
  induction l as [|a l IH]; intros H; [reflexivity|]. cbn [flat_map length]. rewrite app_length, H by (left; reflexivity).
  rewrite IH by (intros; apply H; right; assumption). lia.
Qed.

Lemma NoDup_flat_map {A B} (f : A -> list B) l : NoDup l -> (forall a, In a l -> NoDup (f a)) ->
  (forall a a' x, In a l -> In a' l -> In x (f a) -> In x (f a') -> a = a') -> NoDup (flat_map f l).
Proof.
  induction l as [|a l IH]; intros Hnd Hf Hd; [constructor|]. inversion Hnd; subst. cbn [flat_map].
  assert (G : forall l1, (forall x, In x l1 -> In x (f a)) -> NoDup l1 -> NoDup (l1 ++ flat_map f l)).
  { induction l1 as [|x l1 IH1]; intros Hi H; cbn.
    - apply IH; [assumption|intros; apply Hf; right; assumption|]. intros b b' y H1' H2' H3' H4'. apply (Hd b b' y); try assumption; right; assumption.
    - inversion H; subst. constructor; [|apply IH1; [intros y Hy; apply Hi; right; assumption|assumption]].
      rewrite in_app_iff. intros [Hx|Hx]; [contradiction|]. apply in_flat_map in Hx. destruct Hx as (b & Hb & Hx).
      assert (a = b) by (apply (Hd a b x); [left; reflexivity|right; assumption|apply Hi; left; reflexivity|assumption]). subst b. contradiction. }
  apply G; [auto|]. apply Hf. left. reflexivity.
Qed.

(** all lists of three different vertices that begin with one of [l] *)
Definition triples_from (n : nat) (l : list nat) : list (list nat) :=
  flat_map (fun a => flat_map (fun b => map (fun c => [a; b; c]) (others n [a; b])) (others n [a])) l.

Lemma in_triples_from n l u : In u (triples_from n l) <-> exists a b c, u = [a; b; c] /\ In a l /\ b < n /\ b <> a /\ c < n /\ c <> a /\ c <> b.
Proof.
  unfold triples_from. rewrite in_flat_map. split.
  - intros (a & Ha & Hu). apply in_flat_map in Hu. destruct Hu as (b & Hb & Hu). apply in_map_iff in Hu. destruct Hu as (c & <- & Hc).
    apply others_In in Hb, Hc. cbn in *. exists a, b, c. intuition.
  - intros (a & b & c & -> & Ha & Hb & Hba & Hc & Hca & Hcb). exists a. split; [assumption|]. apply in_flat_map. exists b.
    split; [apply others_In; cbn; intuition|]. apply in_map_iff. exists c. split; [reflexivity|]. apply others_In. cbn. intuition.
Qed.

Lemma triples_from_length n l : 2 <= n -> Forall (fun x => x < n) l -> length (triples_from n l) = length l * ((n - 1) * (n - 2)).
Proof.
  intros Hn Hl. rewrite Forall_forall in Hl. apply flat_map_const. intros a Ha. specialize (Hl a Ha).
  rewrite (flat_map_const _ _ (n - 2)).
  - rewrite others_length by (repeat constructor; auto). reflexivity.
  - intros b Hb. apply others_In in Hb. cbn in Hb. rewrite map_length, others_length; [reflexivity| |repeat constructor; intuition].
    constructor; [cbn; intuition|]. constructor; [cbn; tauto|constructor].
Qed.

Lemma triples_from_NoDup n l : NoDup l -> NoDup (triples_from n l).
Proof.
  intros Hl. apply NoDup_flat_map; [assumption| |].
  - intros a _. apply NoDup_flat_map; [apply others_NoDup| |].
    + intros b _. apply FinFun.Injective_map_NoDup; [|apply others_NoDup]. intros x y E. congruence.
    + intros b b' u _ _ H H'. apply in_map_iff in H, H'. destruct H as (c & <- & _), H' as (c' & E & _). congruence.
  - intros a a' u _ _ H H'. apply in_flat_map in H, H'. destruct H as (b & _ & H), H' as (b' & _ & H').
    apply in_map_iff in H, H'. destruct H as (c & <- & _), H' as (c' & E & _). congruence.
Qed.

(** those from [1;2;3] on, and those before *)
Definition before_123 (n : nat) : list (list nat) :=
  triples_from n [0] ++ map (fun c => [1; 0; c]) (others n [1; 0]) ++ [[1; 2; 0]].

Lemma number_triple n a b c : number n [a; b; c] = a * n * n + b * n + c.
Proof. unfold number. simpl. lia. Qed.

Lemma before_123_In n u : 4 <= n -> In u (before_123 n) <->
  In u (triples_from n (seq 0 n)) /\ number n u < number n [1; 2; 3].
Proof.
  intros Hn. unfold before_123. rewrite !in_app_iff, !in_triples_from, in_map_iff. rewrite (number_triple n 1 2 3). split.
  - intros [(a & b & c & -> & Ha & H)|[(c & <- & Hc)|[<-|[]]]].
    + destruct Ha as [<-|[]]. split; [exists 0, b, c; rewrite in_seq; split; [reflexivity|]; split; [lia|exact H]|].
      rewrite number_triple. destruct H as (Hb & _ & Hc & _). nia.
    + apply others_In in Hc. cbn [In] in Hc. destruct Hc as [Hc Hn2]. split.
      * exists 1, 0, c. rewrite in_seq. split; [reflexivity|]. repeat split; try lia; intros ->; tauto.
      * rewrite number_triple. nia.
    + split; [exists 1, 2, 0; rewrite in_seq; split; [reflexivity|]; lia|]. rewrite number_triple. nia.
  - intros [(a & b & c & -> & Ha & Hb & Hba & Hc & Hca & Hcb) Hlt]. rewrite number_triple in Hlt. apply in_seq in Ha.
    destruct a as [|[|a]].
    + left. exists 0, b, c. split; [reflexivity|]. split; [left; reflexivity|]. auto.
    + right. destruct b as [|[|[|b]]].
      * left. exists c. split; [reflexivity|]. apply others_In. cbn [In]. split; [assumption|]. intuition.
      * lia.
      * right. left. destruct c as [|[|[|c]]]; [reflexivity|lia|lia|]. exfalso. lia.
      * exfalso. cbn [Nat.mul] in Hlt. nia.
    + exfalso. assert (2 * n * n <= S (S a) * n * n) by nia. nia.
Qed.

Theorem prefix_count n L : 4 <= n -> NoDup L ->
  (forall u, In u L <-> (length u = 3 /\ Forall (fun d => d < n) u /\ NoDup u) /\ number n [1; 2; 3] <= number n u) ->
  length L + 1 = n * (n - 2) ^ 2.
Proof.
  intros Hn Hnd HL.
  assert (HT : forall u, In u (triples_from n (seq 0 n)) <-> length u = 3 /\ Forall (fun d => d < n) u /\ NoDup u).
  { intros u. rewrite in_triples_from. split.
    - intros (a & b & c & -> & Ha & Hb & Hba & Hc & Hca & Hcb). apply in_seq in Ha. split; [reflexivity|].
      split; [repeat constructor; lia|]. constructor; [cbn; intuition|]. constructor; [cbn; intuition|]. constructor; [cbn; tauto|constructor].
    - intros (Hl & Hf & Hd). destruct u as [|a [|b [|c [|? ?]]]]; try discriminate Hl.
      inversion Hf as [|? ? Ha Hf1]; subst. inversion Hf1 as [|? ? Hb Hf2]; subst. inversion Hf2 as [|? ? Hc _]; subst.
      inversion Hd as [|? ? D1 D2]; subst. inversion D2 as [|? ? D3 _]; subst. cbn in D1, D3.
      exists a, b, c. rewrite in_seq. split; [reflexivity|]. repeat split; try lia; intros ->; tauto. }
  assert (HB : NoDup (before_123 n)).
  { unfold before_123. apply (Permutation_NoDup (l := [[1; 2; 0]] ++ (map (fun c => [1; 0; c]) (others n [1; 0]) ++ triples_from n [0]))).
    { rewrite (Permutation_app_comm [[1; 2; 0]]), <- app_assoc, (Permutation_app_comm (map _ _)), <- app_assoc.
      apply Permutation_app_head, Permutation_app_comm. }
    cbn [app]. constructor.
    - rewrite in_app_iff, in_map_iff, in_triples_from. intros [(c & E & _)|(a & b & c & E & [<-|[]] & _)]; discriminate.
    - assert (G : forall l, NoDup l -> NoDup (map (fun c => [1; 0; c]) l ++ triples_from n [0])).
      { induction l as [|c l IH]; intros H; [apply triples_from_NoDup; repeat constructor; auto|]. inversion H; subst. cbn [map app]. constructor; [|auto].
        rewrite in_app_iff, in_map_iff, in_triples_from. intros [(c' & E & Hc')|(a & b & c' & E & [<-|[]] & _)]; [|discriminate].
        injection E as ->. contradiction. }
      apply G, others_NoDup. }
  assert (HP : Permutation (L ++ before_123 n) (triples_from n (seq 0 n))).
  { apply NoDup_Permutation; [|apply triples_from_NoDup, seq_NoDup|].
    - assert (G : forall l, NoDup l -> (forall u, In u l -> ~ In u (before_123 n)) -> NoDup (l ++ before_123 n)).
      { induction l as [|u l IH]; intros H Hx; [assumption|]. inversion H; subst. cbn. constructor.
        - rewrite in_app_iff. intros [Hi|Hi]; [contradiction|]. apply (Hx u); [left; reflexivity|assumption].
        - apply IH; [assumption|]. intros v Hv. apply Hx. right. assumption. }
      apply G; [assumption|]. intros u Hu Hb. apply HL in Hu. apply before_123_In in Hb; [|assumption]. lia.
    - intros u. rewrite in_app_iff, before_123_In, HL, HT by assumption. destruct (le_lt_dec (number n [1; 2; 3]) (number n u)); intuition lia. }
  apply Permutation_length in HP. rewrite app_length, triples_from_length in HP by (try lia; apply Forall_forall; intros x Hx; apply in_seq in Hx; lia).
  assert (Ho : length (others n [1; 0]) = n - 2).
  { rewrite others_length; [reflexivity| |repeat constructor; lia]. constructor; [cbn; intuition lia|]. constructor; [cbn; tauto|constructor]. }
  assert (H0 : length (triples_from n [0]) = (n - 1) * (n - 2)) by (rewrite triples_from_length by (try lia; repeat constructor; lia); cbn [length]; lia).
  unfold before_123 in HP. rewrite !app_length, map_length, Ho, H0 in HP.
  rewrite seq_length in HP. cbn [length] in HP.
  clear - HP Hn. destruct n as [|[|[|[|k]]]]; try lia. replace (S (S (S (S k))) - 2) with (S (S k)) in * by lia. replace (S (S (S (S k))) - 1) with (S (S (S k))) in * by lia.
  cbn [Nat.pow]. nia.
Qed.
