(** The checks on a parsed graph, and the conversions to matrices. *)
From Coq Require Import Arith Bool List Lia Permutation.
From Verif Require Import Num Base Data Precond.
Import ListNotations.

Section Precond.
Context {N : Num}.
Implicit Types g : graph N.

(** ** is_undirected *)
Lemma flag_foldM {A} (f : A -> res bool) (l : list A) :
  foldM (fun (ok : bool) x => if ok then f x else Ok false) l true = Ok true <-> forall x, In x l -> f x = Ok true.
Proof.
  assert (F : forall l, foldM (fun (ok : bool) x => if ok then f x else Ok false) l false = Ok false).
  { induction l0 as [|x l0 IH]; [reflexivity|]. cbn. exact IH. }
  induction l as [|x l IH]; cbn [foldM]; [split; [intros _ x []|reflexivity]|].
  destruct (f x) as [[]| |] eqn:E; cbn [bind].
  - rewrite IH. split; [intros H y [<-|Hy]; auto|intros H y Hy; apply H; right; assumption].
  - rewrite F. split; [discriminate|]. intros H. rewrite (H x) in E by (left; reflexivity). discriminate.
  - split; [discriminate|]. intros H. rewrite (H x) in E by (left; reflexivity). discriminate.
  - split; [discriminate|]. intros H. rewrite (H x) in E by (left; reflexivity). discriminate.
Qed.

(** no fuel here: the result is a boolean or a panic *)
Lemma flag_foldM_fuel {A} (f : A -> res bool) (l : list A) b : (forall x, In x l -> f x <> OutOfFuel) ->
  foldM (fun (ok : bool) x => if ok then f x else Ok false) l b <> OutOfFuel.
Proof.
  revert b. induction l as [|x l IH]; intros b H; [discriminate|]. cbn [foldM].
  assert (IH' : forall b, foldM (fun (ok : bool) x => if ok then f x else Ok false) l b <> OutOfFuel) by (intros; apply IH; intros y Hy; apply H; right; assumption).
  destruct b; cbn [bind]; [|apply IH'].
  specialize (H x (or_introl eq_refl)). destruct (f x); cbn [bind]; [apply IH'|discriminate|congruence].
Qed.

Lemma is_undirected_true g : is_undirected g = Ok true <->
  forall i e, i < length g -> In e (nth i g []) -> e_to e < length g /\ reverse_agrees i e (nth (e_to e) g []) = true.
Proof.
  unfold is_undirected. rewrite flag_foldM. split.
  - intros H i e Hi He. specialize (H i ltac:(apply in_seq; lia)). rewrite (nth_res_nth _ _ []) in H by assumption. cbn [bind] in H.
    rewrite (flag_foldM (fun v1e => v2 <- nth_res g (e_to v1e) ;; Ok (reverse_agrees i v1e v2))) in H.
    specialize (H e He). destruct (nth_res g (e_to e)) as [v2| |] eqn:E2; try discriminate. cbn in H.
    apply nth_res_Ok in E2. destruct E2 as [L E2]. split; [assumption|]. rewrite E2. congruence.
  - intros H i Hi. apply in_seq in Hi. rewrite (nth_res_nth _ _ []) by lia. cbn [bind].
    rewrite (flag_foldM (fun v1e => v2 <- nth_res g (e_to v1e) ;; Ok (reverse_agrees i v1e v2))).
    intros e He. destruct (H i e ltac:(lia) He) as [L E]. rewrite (nth_res_nth _ _ []) by assumption. cbn [bind]. rewrite E. reflexivity.
Qed.

Lemma is_undirected_fuel g : is_undirected g <> OutOfFuel.
Proof.
  apply (flag_foldM_fuel (fun i => v1 <- nth_res g i ;;
      foldM (fun (ok : bool) v1e =>
        if ok then v2 <- nth_res g (e_to v1e) ;; Ok (reverse_agrees i v1e v2) else Ok false) v1 true)).
  intros i _. unfold nth_res at 1. destruct (nth_error g i) as [v|]; cbn [bind]; [|discriminate].
  apply (flag_foldM_fuel (fun v1e => v2 <- nth_res g (e_to v1e) ;; Ok (reverse_agrees i v1e v2))).
  intros e _. unfold nth_res. destruct (nth_error g (e_to e)); discriminate.
Qed.

Lemma nodup_length_NoDup (l : list nat) : length l = length (nodup Nat.eq_dec l) -> NoDup l.
Proof.
  assert (Hle : forall l, length (nodup Nat.eq_dec l) <= length l).
  { induction l0 as [|a l0 IH]; cbn; [lia|]. destruct (in_dec Nat.eq_dec a l0); cbn; lia. }
  induction l as [|a l IH]; [constructor|]. cbn. destruct (in_dec Nat.eq_dec a l) as [H|H].
  - intros E. specialize (Hle l). lia.
  - cbn. intros E. constructor; [assumption|]. apply IH. lia.
Qed.

Lemma is_multi_edge_false g : is_multi_edge g = false <-> forall v, In v g -> NoDup (map e_to v).
Proof.
  unfold is_multi_edge. split.
  - intros H v Hv. apply nodup_length_NoDup.
    destruct (length (map e_to v) =? length (nodup Nat.eq_dec (map e_to v))) eqn:E; [apply Nat.eqb_eq; assumption|].
    exfalso. rewrite <- not_true_iff_false in H. apply H. apply existsb_exists. exists v. rewrite E. auto.
  - intros H. apply not_true_iff_false. intros Hx. apply existsb_exists in Hx. destruct Hx as (v & Hv & E).
    rewrite nodup_fixed_point in E by auto. rewrite Nat.eqb_refl in E. discriminate.
Qed.

Lemma is_fully_connected_true g : is_fully_connected g = true <-> forall v, In v g -> length v = length g - 1.
Proof.
  unfold is_fully_connected. rewrite forallb_forall. split; intros H v Hv; specialize (H v Hv); apply Nat.eqb_eq; assumption.
Qed.

Lemma conditions_true g : do_conditions_hold g = Ok true <->
  (forall v, In v g -> length v = length g - 1) /\ (forall v, In v g -> NoDup (map e_to v)) /\ is_undirected g = Ok true.
Proof.
  unfold do_conditions_hold. rewrite <- is_fully_connected_true, <- is_multi_edge_false.
  destruct (is_fully_connected g), (is_multi_edge g); cbn; intuition congruence.
Qed.

Lemma conditions_fuel g : do_conditions_hold g <> OutOfFuel.
Proof.
  unfold do_conditions_hold. destruct (is_fully_connected g); [|discriminate]. destruct (is_multi_edge g); cbn; [discriminate|]. apply is_undirected_fuel.
Qed.

(** ** Complete graphs *)
Definition to_edges (g : graph N) (i j : nat) : list (edge N) := filter (fun e => e_to e =? j) (nth i g []).

Lemma filter_one (l : list (edge N)) j : NoDup (map e_to l) -> In j (map e_to l) -> exists e, filter (fun e => e_to e =? j) l = [e] /\ e_to e = j.
Proof.
  induction l as [|a l IH]; cbn; intros Hnd Hin; [contradiction|]. inversion Hnd as [|? ? Hna Hnd']; subst.
  destruct (e_to a =? j) eqn:E.
  - apply Nat.eqb_eq in E. exists a. split; [|assumption]. f_equal.
    destruct (filter (fun e => e_to e =? j) l) as [|b t] eqn:Ef; [reflexivity|]. exfalso.
    assert (Hb : In b (b :: t)) by (left; reflexivity). rewrite <- Ef in Hb. apply filter_In in Hb. destruct Hb as [Hb Eb]. apply Nat.eqb_eq in Eb.
    apply Hna. rewrite E, <- Eb. apply in_map. assumption.
  - apply Nat.eqb_neq in E. destruct Hin as [Hin|Hin]; [congruence|]. auto.
Qed.

Lemma pigeon (l : list nat) n i : NoDup l -> length l = n - 1 -> (forall x, In x l -> x < n /\ x <> i) -> i < n ->
  forall j, j < n -> j <> i -> In j l.
Proof.
  intros Hnd Hl Hr Hi j Hj Hij.
  assert (Hincl : incl (i :: l) (seq 0 n)).
  { intros x [<-|Hx]; apply in_seq; [lia|]. destruct (Hr x Hx). lia. }
  assert (Hnd' : NoDup (i :: l)) by (constructor; [|assumption]; intros Hx; destruct (Hr i Hx); congruence).
  pose proof (NoDup_length_incl Hnd' (l' := seq 0 n)) as H. rewrite seq_length in H. cbn [length] in H.
  specialize (H ltac:(lia) Hincl j ltac:(apply in_seq; lia)). destruct H as [H|H]; [congruence|assumption].
Qed.

Lemma find_filter {A} (f : A -> bool) l : find f l = hd_error (filter f l).
Proof. induction l as [|a l IH]; cbn; [reflexivity|]. destruct (f a); [reflexivity|assumption]. Qed.

(** The edges lead to other vertices of the graph. *)
Definition loop_free (g : graph N) : Prop := forall i e, i < length g -> In e (nth i g []) -> e_to e <> i.

Lemma conditions_complete g : loop_free g -> do_conditions_hold g = Ok true ->
  forall i j, i < length g -> j < length g -> i <> j ->
    exists e e', to_edges g i j = [e] /\ to_edges g j i = [e'] /\ ceq (e_cost e') (e_cost e) = true.
Proof.
  intros Hloop H. apply conditions_true in H. destruct H as (H1 & H2 & H3). rewrite is_undirected_true in H3.
  assert (Hone : forall i j, i < length g -> j < length g -> i <> j -> exists e, to_edges g i j = [e] /\ e_to e = j).
  { intros i j Hi Hj Hij. apply filter_one; [apply H2, nth_In; assumption|].
    apply (pigeon _ (length g) i); auto.
    - apply H2, nth_In. assumption.
    - rewrite map_length. apply H1, nth_In. assumption.
    - intros x Hx. apply in_map_iff in Hx. destruct Hx as (e & <- & He). split; [apply (H3 i e Hi He)|apply (Hloop i e Hi He)]. }
  intros i j Hi Hj Hij. destruct (Hone i j Hi Hj Hij) as (e & E & Ej). destruct (Hone j i Hj Hi ltac:(congruence)) as (e' & E' & Ei).
  exists e, e'. split; [assumption|]. split; [assumption|].
  assert (He : In e (nth i g [])) by (assert (In e (to_edges g i j)) as Hf by (rewrite E; left; reflexivity); apply filter_In in Hf; tauto).
  destruct (H3 i e Hi He) as [_ Hr]. unfold reverse_agrees in Hr. rewrite Ej, find_filter in Hr.
  change (filter (fun v2e => e_to v2e =? i) (nth j g [])) with (to_edges g j i) in Hr. rewrite E' in Hr. exact Hr.
Qed.

Lemma edges_in_range_length (l : list (edge N)) n i : i < n -> (forall e, In e l -> e_to e < n /\ e_to e <> i) ->
  (forall j, j < n -> j <> i -> exists e, filter (fun e => e_to e =? j) l = [e]) -> NoDup (map e_to l) /\ length l = n - 1.
Proof.
  intros Hi Hr Hone.
  assert (Hnd : NoDup (map e_to l)).
  { assert (Hc : forall j, length (filter (fun e => e_to e =? j) l) <= 1).
    { intros j. destruct (filter (fun e => e_to e =? j) l) as [|e t] eqn:E; [cbn; lia|].
      assert (He : In e (filter (fun e => e_to e =? j) l)) by (rewrite E; left; reflexivity). apply filter_In in He. destruct He as [He Ej]. apply Nat.eqb_eq in Ej.
      destruct (Hr e He) as [L L']. subst j. destruct (Hone (e_to e) L L') as (e2 & E2). rewrite E2 in E. rewrite <- E. cbn. lia. }
    clear -Hc. induction l as [|a l IH]; [constructor|]. cbn. constructor.
    - intros Hin. apply in_map_iff in Hin. destruct Hin as (b & Eb & Hb). specialize (Hc (e_to a)). cbn in Hc. rewrite Nat.eqb_refl in Hc. cbn in Hc.
      assert (Hf : In b (filter (fun e => e_to e =? e_to a) l)) by (apply filter_In; split; [assumption|apply Nat.eqb_eq; assumption]).
      destruct (filter (fun e => e_to e =? e_to a) l); [contradiction|cbn in Hc; lia].
    - apply IH. intros j. specialize (Hc j). cbn in Hc. destruct (e_to a =? j); cbn in Hc; lia. }
  split; [assumption|]. rewrite <- (map_length e_to).
  assert (Hp : Permutation (i :: map e_to l) (seq 0 n)).
  { apply NoDup_Permutation; [|apply seq_NoDup|].
    - constructor; [|assumption]. intros H. apply in_map_iff in H. destruct H as (e & E & He). destruct (Hr e He). congruence.
    - intros x. rewrite in_seq. split.
      + intros [<-|H]; [lia|]. apply in_map_iff in H. destruct H as (e & <- & He). destruct (Hr e He). lia.
      + intros H. destruct (Nat.eq_dec i x) as [->|Hx]; [left; reflexivity|right].
        destruct (Hone x ltac:(lia) ltac:(congruence)) as (e & E). assert (He : In e (filter (fun e => e_to e =? x) l)) by (rewrite E; left; reflexivity).
        apply filter_In in He. destruct He as [He Ex]. apply Nat.eqb_eq in Ex. subst x. apply in_map. assumption. }
  apply Permutation_length in Hp. cbn [length] in Hp. rewrite seq_length in Hp. lia.
Qed.

Lemma complete_conditions g : (forall i e, i < length g -> In e (nth i g []) -> e_to e < length g /\ e_to e <> i) ->
  (forall i j, i < length g -> j < length g -> i <> j ->
    exists e e', to_edges g i j = [e] /\ to_edges g j i = [e'] /\ ceq (e_cost e') (e_cost e) = true) ->
  do_conditions_hold g = Ok true.
Proof.
  intros Hr Hone. apply conditions_true.
  assert (Hrow : forall i, i < length g -> NoDup (map e_to (nth i g [])) /\ length (nth i g []) = length g - 1).
  { intros i Hi. apply (edges_in_range_length _ _ i Hi); [intros e He; apply Hr; assumption|].
    intros j Hj Hij. destruct (Hone i j Hi Hj ltac:(congruence)) as (e & _ & E & _). exists e. exact E. }
  split; [|split].
  - intros v Hv. destruct (In_nth g v [] Hv) as (i & Hi & <-). apply Hrow. assumption.
  - intros v Hv. destruct (In_nth g v [] Hv) as (i & Hi & <-). apply Hrow. assumption.
  - apply is_undirected_true. intros i e Hi He. destruct (Hr i e Hi He) as [L L']. split; [assumption|].
    unfold reverse_agrees. rewrite find_filter. change (filter (fun v2e => e_to v2e =? i) (nth (e_to e) g [])) with (to_edges g (e_to e) i).
    destruct (Hone i (e_to e) Hi L ltac:(congruence)) as (e1 & e2 & E1 & E2 & E3). rewrite E2. cbn.
    assert (Hin : In e (to_edges g i (e_to e))) by (apply filter_In; split; [assumption|apply Nat.eqb_refl]). rewrite E1 in Hin. destruct Hin as [<-|[]]. exact E3.
Qed.

End Precond.
