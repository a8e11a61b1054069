(** Outcomes, loops and list helpers shared by the model files.

    Nothing here models a particular piece of the repository; these are the Gallina
    renderings of Rust's panics, [for] loops over ranges, indexing and assignment. *)
From Coq Require Import Arith Bool List Lia.
Import ListNotations.

(** Outcome of a Rust function: a value, a panic, or (model only) exhausted fuel. *)
Inductive res (A : Type) := Ok (a : A) | Panic | OutOfFuel.
Arguments Ok {A} _.
Arguments Panic {A}.
Arguments OutOfFuel {A}.

Definition bind {A B} (x : res A) (f : A -> res B) : res B :=
  match x with Ok a => f a | Panic => Panic | OutOfFuel => OutOfFuel end.

Declare Scope res_scope.
Delimit Scope res_scope with res.
Notation "x <- e ;; k" := (bind e (fun x => k))
  (at level 61, e at next level, right associativity) : res_scope.
Notation "' p <- e ;; k" := (bind e (fun p => k))
  (at level 61, p pattern, e at next level, right associativity) : res_scope.
Open Scope res_scope.

(** [for x in l { s = f(s, x) }] *)
Fixpoint foldM {A S} (f : S -> A -> res S) (l : list A) (s : S) : res S :=
  match l with
  | [] => Ok s
  | x :: t => bind (f s x) (foldM f t)
  end.

(** [l.map(f).collect()] *)
Fixpoint mapM {A B} (f : A -> res B) (l : list A) : res (list B) :=
  match l with
  | [] => Ok []
  | x :: t => y <- f x ;; ys <- mapM f t ;; Ok (y :: ys)
  end.

(** [l[i]] *)
Definition nth_res {A} (l : list A) (i : nat) : res A :=
  match nth_error l i with Some x => Ok x | None => Panic end.

(** [l[i] = x], out of range indices leave the list alone *)
Fixpoint upd {A} (l : list A) (i : nat) (x : A) : list A :=
  match l, i with
  | [], _ => []
  | _ :: t, O => x :: t
  | a :: t, S j => a :: upd t j x
  end.

(** [l[i] = f(l[i])] with bounds check *)
Definition modify_res {A} (l : list A) (i : nat) (f : A -> A) : res (list A) :=
  match nth_error l i with Some x => Ok (upd l i (f x)) | None => Panic end.

(** [l.contains(&x)] on naturals *)
Definition memb (x : nat) (l : list nat) : bool := existsb (Nat.eqb x) l.

(** [assert!(b)] *)
Definition assert (b : bool) : res unit := if b then Ok tt else Panic.

(** [l.first().unwrap()], [l.last().unwrap()] *)
Definition first_res {A} (l : list A) : res A :=
  match l with x :: _ => Ok x | [] => Panic end.
Definition last_res {A} (l : list A) : res A :=
  match rev l with x :: _ => Ok x | [] => Panic end.

(** ** Lemmas *)

Lemma memb_In x l : memb x l = true <-> In x l.
Proof.
  unfold memb. rewrite existsb_exists. split.
  - intros (y & H & E). apply Nat.eqb_eq in E. subst; assumption.
  - intros H. exists x. split; [assumption|apply Nat.eqb_refl].
Qed.

Lemma memb_nIn x l : memb x l = false <-> ~ In x l.
Proof.
  destruct (memb x l) eqn:E.
  - apply memb_In in E. split; [discriminate|tauto].
  - split; [|reflexivity]. intros _ H. apply memb_In in H. congruence.
Qed.

Lemma bind_Ok {A B} (e : res A) (f : A -> res B) b :
  bind e f = Ok b -> exists a, e = Ok a /\ f a = Ok b.
Proof. destruct e; simpl; intros; try discriminate. eauto. Qed.

Lemma foldM_app {A S} (f : S -> A -> res S) l1 l2 s :
  foldM f (l1 ++ l2) s = bind (foldM f l1 s) (foldM f l2).
Proof.
  revert s; induction l1; intros s; simpl; [reflexivity|].
  destruct (f s a); simpl; auto.
Qed.

Lemma foldM_ext {A S} (f g : S -> A -> res S) l s :
  (forall s x, In x l -> f s x = g s x) -> foldM f l s = foldM g l s.
Proof.
  revert s; induction l; intros s H; simpl; [reflexivity|].
  rewrite H by (left; reflexivity). destruct (g s a); simpl; auto.
  apply IHl. intros; apply H; right; assumption.
Qed.

(** Invariant rule for loops. *)
Lemma foldM_inv {A S} (f : S -> A -> res S) (P : list A -> S -> Prop) l s :
  P [] s ->
  (forall pre x post s, l = pre ++ x :: post -> P pre s ->
     exists s', f s x = Ok s' /\ P (pre ++ [x]) s') ->
  exists s', foldM f l s = Ok s' /\ P l s'.
Proof.
  intros H0 Hs.
  assert (G : forall post pre s, l = pre ++ post -> P pre s ->
    exists s', foldM f post s = Ok s' /\ P l s').
  { induction post as [|x post IH]; intros pre s1 El HP.
    - rewrite app_nil_r in El; subst. exists s1; auto.
    - destruct (Hs pre x post s1 El HP) as (s2 & E & HP2). simpl. rewrite E. simpl.
      apply (IH (pre ++ [x])); [rewrite <- app_assoc; exact El|assumption]. }
  apply (G l []); [reflexivity|assumption].
Qed.

Lemma foldM_inv' {A S} (f : S -> A -> res S) (P : S -> Prop) l s :
  P s -> (forall x s, In x l -> P s -> exists s', f s x = Ok s' /\ P s') ->
  exists s', foldM f l s = Ok s' /\ P s'.
Proof.
  intros H0 Hs. apply (foldM_inv f (fun _ => P)); [assumption|].
  intros pre x post s1 El HP. apply Hs; [|assumption]. rewrite El. apply in_elt.
Qed.

(** Partial-correctness version: what holds if the loop ends normally. *)
Lemma foldM_inv_partial {A S} (f : S -> A -> res S) (P : S -> Prop) l s s' :
  P s -> (forall x s s', In x l -> P s -> f s x = Ok s' -> P s') ->
  foldM f l s = Ok s' -> P s'.
Proof.
  revert s; induction l; simpl; intros s H0 Hs E.
  - injection E as <-; assumption.
  - apply bind_Ok in E. destruct E as (s1 & E1 & E2).
    apply (IHl s1); [| |exact E2].
    + apply (Hs a s); auto.
    + intros x s2 s3 Hx. apply Hs. right; assumption.
Qed.

Lemma mapM_Ok {A B} (f : A -> res B) (g : A -> B) l :
  (forall x, In x l -> f x = Ok (g x)) -> mapM f l = Ok (map g l).
Proof.
  induction l; simpl; intros H; [reflexivity|].
  rewrite H by auto. simpl. rewrite IHl by auto. reflexivity.
Qed.

Lemma upd_length {A} (l : list A) i x : length (upd l i x) = length l.
Proof. revert i; induction l; destruct i; simpl; auto. Qed.

Lemma nth_upd_eq {A} (l : list A) i x d : i < length l -> nth i (upd l i x) d = x.
Proof. revert i; induction l; destruct i; simpl; intros; try lia; auto. apply IHl; lia. Qed.

Lemma nth_upd_neq {A} (l : list A) i j x d : i <> j -> nth j (upd l i x) d = nth j l d.
Proof. revert i j; induction l; destruct i, j; simpl; intros; try lia; auto. Qed.

Lemma nth_res_nth {A} (l : list A) i d : i < length l -> nth_res l i = Ok (nth i l d).
Proof. intros H. unfold nth_res. rewrite (nth_error_nth' l d H). reflexivity. Qed.

Lemma nth_res_Ok {A} (l : list A) i a : nth_res l i = Ok a -> i < length l /\ forall d, nth i l d = a.
Proof.
  unfold nth_res. destruct (nth_error l i) eqn:E; [|discriminate]. intros H. injection H as <-.
  split; [apply nth_error_Some; congruence|]. intros d. apply nth_error_nth; assumption.
Qed.

Lemma modify_res_Ok {A} (l : list A) i f d : i < length l -> modify_res l i f = Ok (upd l i (f (nth i l d))).
Proof. intros H. unfold modify_res. rewrite (nth_error_nth' l d H). reflexivity. Qed.

Lemma last_res_last {A} (l : list A) d : l <> [] -> last_res l = Ok (last l d).
Proof.
  intros H. destruct (exists_last H) as (l' & x & ->). unfold last_res. rewrite rev_unit.
  rewrite last_last. reflexivity.
Qed.

Lemma last_res_app {A} (l : list A) x : last_res (l ++ [x]) = Ok x.
Proof. unfold last_res. rewrite rev_unit. reflexivity. Qed.

Lemma first_res_hd {A} (l : list A) d : l <> [] -> first_res l = Ok (hd d l).
Proof. destruct l; simpl; congruence. Qed.
