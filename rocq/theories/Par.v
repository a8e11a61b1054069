(** Rayon's parallel iterators: reductions and parallel loops.

    Nothing here models a function of the repository; these are the Gallina renderings of
    [reduce_with] (and [min_by], [max_by], [min_by_key], which rayon defines by it) and of
    [into_par_iter().for_each(..)] with tasks that access shared memory.  The schedule of a
    loop and the way a reduction is split are arguments, over which the theorems quantify. *)
From Coq Require Import Arith Bool List Lia.
From Verif Require Import Base.
Import ListNotations.

(** ** Reductions *)

(** How rayon splits a sequence: not at all (one thread folds it from left to right), or
    after [k] elements.  The order of the elements is kept, so all that varies is the
    association of the operator. *)
Inductive rtree := RLeaf | RNode (k : nat) (l r : rtree).

Definition opt_op {A} (op : A -> A -> A) (x y : option A) : option A :=
  match x, y with
  | Some a, Some b => Some (op a b)
  | Some a, None => Some a
  | None, y => y
  end.

Definition seq_reduce {A} (op : A -> A -> A) (l : list A) : option A :=
  match l with [] => None | x :: t => Some (fold_left op t x) end.

(** [items] turns a slice of the underlying sequence into the items it yields (the [map] and
    [filter_map] adaptors). *)
Fixpoint par_reduce {X A} (op : A -> A -> A) (items : list X -> list A) (t : rtree) (l : list X) : option A :=
  match t with
  | RLeaf => seq_reduce op (items l)
  | RNode k t1 t2 => opt_op op (par_reduce op items t1 (firstn k l)) (par_reduce op items t2 (skipn k l))
  end.

Section Reduce.
Context {A : Type} (op : A -> A -> A).
Hypothesis op_assoc : forall a b c, op a (op b c) = op (op a b) c.

Lemma fold_op_assoc : forall l a b, fold_left op l (op a b) = op a (fold_left op l b).
Proof. induction l as [|c l IH]; intros a b; simpl; [reflexivity|]. rewrite <- op_assoc. apply IH. Qed.

Lemma seq_reduce_app l1 l2 : seq_reduce op (l1 ++ l2) = opt_op op (seq_reduce op l1) (seq_reduce op l2).
Proof.
  destruct l1 as [|a l1]; [destruct l2; reflexivity|]. simpl. rewrite fold_left_app.
  destruct l2 as [|b l2]; [reflexivity|]. simpl. f_equal. apply fold_op_assoc.
Qed.

(** With an associative operator the reduction tree does not matter. *)
Lemma par_reduce_seq {X} (items : list X -> list A) :
  (forall l1 l2, items (l1 ++ l2) = items l1 ++ items l2) ->
  forall t l, par_reduce op items t l = seq_reduce op (items l).
Proof.
  intros Hi. induction t as [|k t1 IH1 t2 IH2]; intros l; [reflexivity|]. simpl.
  rewrite IH1, IH2, <- seq_reduce_app, <- Hi, firstn_skipn. reflexivity.
Qed.
End Reduce.

(** ** Parallel loops *)

Section Loop.
Context {S L : Type}.
(** One atomic step of task [i] in its local state.  [rounds] steps finish every task; a
    step of a finished task does nothing. *)
Variable step : nat -> L -> S -> res (L * S).
Variable init : L.
Variable rounds : nat.

(** the steps of the tasks below [k] named by the schedule, in its order *)
Definition par_exec (k : nat) (sched : list nat) (st : list L * S) : res (list L * S) :=
  foldM (fun '(ls, s) i =>
           match nth_error ls i with
           | Some l => '(l', s') <- step i l s ;; Ok (upd ls i l', s')
           | None => Ok (ls, s)
           end) sched st.

(** [for_each] returns when all [k] tasks are finished: after the schedule every task gets
    the steps it may still need. *)
Definition par_for (k : nat) (sched : list nat) (s : S) : res S :=
  '(_, s') <- par_exec k (sched ++ concat (repeat (seq 0 k) rounds)) (repeat init k, s) ;; Ok s'.
End Loop.

(** *** Tasks that own one cell of a vector *)
Section Owned.
Context {A L : Type} (d : A).
Variable step : nat -> L -> list A -> res (L * list A).
Variable init : L.
Variable f : nat -> L -> A -> L * A.
Variable P : list A -> Prop.
Variable k : nat.
Hypothesis P_upd : forall s i x, P s -> P (upd s i x).
Hypothesis P_len : forall s, P s -> k <= length s.
Hypothesis step_cell : forall i l s, i < k -> P s ->
  step i l s = Ok (fst (f i l (nth i s d)), upd s i (snd (f i l (nth i s d)))).

Fixpoint iter (n : nat) (i : nat) (x : L * A) : L * A :=
  match n with O => x | S n => iter n i (f i (fst x) (snd x)) end.

Lemma par_exec_cells : forall sched ls s, length ls = k -> P s ->
  exists ls' s', par_exec step k sched (ls, s) = Ok (ls', s') /\ length ls' = k /\ P s' /\ length s' = length s /\
    (forall i, i < k -> (nth i ls' init, nth i s' d) = iter (count_occ Nat.eq_dec sched i) i (nth i ls init, nth i s d)) /\
    (forall i, k <= i -> nth i s' d = nth i s d).
Proof.
  induction sched as [|e sched IH]; intros ls s Hl HP.
  - exists ls, s. split; [reflexivity|]. auto.
  - unfold par_exec. cbn [foldM]. fold (par_exec step k sched).
    destruct (nth_error ls e) as [l|] eqn:El.
    + assert (He : e < k) by (rewrite <- Hl; apply nth_error_Some; congruence).
      assert (El' : nth e ls init = l) by (apply nth_error_nth; assumption).
      rewrite step_cell by assumption. cbn [bind].
      destruct (IH (upd ls e (fst (f e l (nth e s d)))) (upd s e (snd (f e l (nth e s d)))))
        as (ls' & s' & E & Hl' & HP' & Hls & H1 & H2); [rewrite upd_length; assumption|auto|].
      exists ls', s'. split; [exact E|]. split; [assumption|]. split; [assumption|].
      rewrite upd_length in Hls. split; [assumption|]. split.
      * intros i Hi. rewrite H1 by assumption. cbn [count_occ]. destruct (Nat.eq_dec e i) as [->|Hne].
        -- rewrite !nth_upd_eq by (try lia; specialize (P_len s HP); lia). cbn [iter fst snd]. rewrite El', <- surjective_pairing. reflexivity.
        -- rewrite !nth_upd_neq by congruence. reflexivity.
      * intros i Hi. rewrite H2 by assumption. apply nth_upd_neq. lia.
    + assert (He : k <= e) by (rewrite <- Hl; apply nth_error_None; assumption). cbn [bind].
      destruct (IH ls s Hl HP) as (ls' & s' & E & Hl' & HP' & Hls & H1 & H2).
      exists ls', s'. split; [exact E|]. split; [assumption|]. split; [assumption|]. split; [assumption|]. split; [|assumption].
      intros i Hi. rewrite H1 by assumption. cbn [count_occ]. destruct (Nat.eq_dec e i); [lia|reflexivity].
Qed.

Variable rounds : nat.
Variable g : nat -> A -> A.
Hypothesis finishes : forall n i x, i < k -> rounds <= n -> snd (iter n i (init, x)) = g i x.

Lemma count_rounds i r : i < k -> count_occ Nat.eq_dec (concat (repeat (seq 0 k) r)) i = r.
Proof.
  intros Hi. induction r as [|r IH]; [reflexivity|]. cbn [repeat concat]. rewrite count_occ_app, IH.
  assert (H : count_occ Nat.eq_dec (seq 0 k) i = 1); [|lia].
  apply NoDup_count_occ'; [apply seq_NoDup|apply in_seq; lia].
Qed.

(** Whatever the schedule, the loop applies [g i] to cell [i] for all [i < k]. *)
Lemma par_for_cells sched s : P s ->
  exists s', par_for step init rounds k sched s = Ok s' /\ length s' = length s /\
    (forall i, i < k -> nth i s' d = g i (nth i s d)) /\ (forall i, k <= i -> nth i s' d = nth i s d).
Proof.
  intros HP. unfold par_for.
  destruct (par_exec_cells (sched ++ concat (repeat (seq 0 k) rounds)) (repeat init k) s (repeat_length _ _) HP)
    as (ls' & s' & -> & _ & _ & Hl & H1 & H2).
  cbn [bind]. exists s'. split; [reflexivity|]. split; [assumption|]. split; [|assumption].
  intros i Hi. specialize (H1 i Hi). apply (f_equal snd) in H1. cbn [snd] in H1. rewrite H1.
  assert (Hr : nth i (repeat init k) init = init) by (clear; revert i; induction k; intros [|i]; simpl; auto).
  rewrite Hr. apply finishes; [assumption|]. rewrite count_occ_app, count_rounds by assumption. lia.
Qed.
End Owned.

(** Two kinds of tasks that agree on all states that occur *)
Lemma par_exec_ext {L S : Type} (step step' : nat -> L -> S -> res (L * S)) (I : list L -> S -> Prop) k :
  (forall ls s i l, I ls s -> nth_error ls i = Some l -> step i l s = step' i l s) ->
  (forall ls s i l l' s', I ls s -> nth_error ls i = Some l -> step' i l s = Ok (l', s') -> I (upd ls i l') s') ->
  forall sched ls s, I ls s -> par_exec step k sched (ls, s) = par_exec step' k sched (ls, s).
Proof.
  intros Hst Hinv sched. induction sched as [|e sched IH]; intros ls s HI; [reflexivity|].
  unfold par_exec. cbn [foldM]. fold (par_exec step k sched) (par_exec step' k sched).
  destruct (nth_error ls e) as [l|] eqn:El; [|apply IH; assumption].
  rewrite (Hst ls s e l HI El). destruct (step' e l s) as [[l' s']| |] eqn:Es; cbn [bind]; [|reflexivity..].
  apply IH. apply (Hinv ls s e l); assumption.
Qed.
Lemma par_for_ext {L S : Type} (step step' : nat -> L -> S -> res (L * S)) (I : list L -> S -> Prop) init rounds k :
  (forall ls s i l, I ls s -> nth_error ls i = Some l -> step i l s = step' i l s) ->
  (forall ls s i l l' s', I ls s -> nth_error ls i = Some l -> step' i l s = Ok (l', s') -> I (upd ls i l') s') ->
  forall sched s, I (repeat init k) s -> par_for step init rounds k sched s = par_for step' init rounds k sched s.
Proof. intros Hst Hinv sched s HI. unfold par_for. rewrite (par_exec_ext step step' I k Hst Hinv) by assumption. reflexivity. Qed.
