(** Prim's greedy edge choice, independent of the program: any run that always takes a
    cheapest edge ([le]-least) leaving the visited set yields a spanning tree of least weight.
    (Part of the proofs.) *)
From Coq Require Import ZArith List Permutation Lia Arith Bool.
From Verif Require Import Spec SpecFacts.
Import ListNotations.
Local Open Scope Z_scope.

(** [greedy le S R E]: starting from the visited set [S], the vertices [R] are attached one by
    one; [E] lists the edges (old vertex, new vertex) in the order of choice. *)
Inductive greedy (le : nat * nat -> nat * nat -> Prop) : list nat -> list nat -> list (nat * nat) -> Prop :=
| greedy_done : forall S, greedy le S [] []
| greedy_step : forall S R R' u v E,
    In u S -> Permutation R (v :: R') ->
    (forall a b, In a S -> In b R -> le (u, v) (a, b)) ->
    greedy le (v :: S) R' E ->
    greedy le S R ((u, v) :: E).

Lemma joined_trans E a b c : joined E a b -> joined E b c -> joined E a c.
Proof.
  intros H1 H2. induction H2 as [|x y z H2 IH He]; [assumption|].
  eapply joined_step; [apply IH; assumption|eassumption].
Qed.

Lemma joined_edge E a b : In (a, b) E -> joined E a b.
Proof. intros H. eapply joined_step; [apply joined_refl|left; assumption]. Qed.

Lemma joined_sym E a b : joined E a b -> joined E b a.
Proof.
  induction 1 as [|x y z H IH He]; [apply joined_refl|].
  eapply joined_trans; [|exact IH]. eapply joined_step; [apply joined_refl|].
  destruct He; [right|left]; assumption.
Qed.

Lemma joined_incl E E' a b : incl E E' -> joined E a b -> joined E' a b.
Proof.
  intros Hi. induction 1 as [|x y z H IH He]; [apply joined_refl|].
  eapply joined_step; [exact IH|]. destruct He; [left|right]; apply Hi; assumption.
Qed.

Lemma edges_cost_app w E1 E2 : edges_cost w (E1 ++ E2) = edges_cost w E1 + edges_cost w E2.
Proof. induction E1 as [|e E1 IH]; simpl; [reflexivity|]. rewrite IH. lia. Qed.

Lemma greedy_length le S R E : greedy le S R E -> length E = length R.
Proof.
  induction 1 as [|S R R' u v E Hu HP Hmin H IH]; [reflexivity|].
  simpl. rewrite IH. apply Permutation_length in HP. simpl in HP. congruence.
Qed.

Lemma greedy_edges le S R E : greedy le S R E ->
  forall a b, In (a, b) E -> (In a S \/ In a R) /\ In b R.
Proof.
  induction 1 as [|S R R' u v E Hu HP Hmin H IH]; intros a b Hin; [destruct Hin|].
  destruct Hin as [E1|Hin].
  - injection E1 as <- <-. split; [left; assumption|].
    apply (Permutation_in _ (Permutation_sym HP)). left; reflexivity.
  - destruct (IH a b Hin) as [[[->|Ha]|Ha] Hb].
    + split; [right|]; apply (Permutation_in _ (Permutation_sym HP)); [left; reflexivity|right; assumption].
    + split; [left; assumption|]. apply (Permutation_in _ (Permutation_sym HP)). right; assumption.
    + split; [right|]; apply (Permutation_in _ (Permutation_sym HP)); right; assumption.
Qed.

Lemma greedy_joined le S R E : greedy le S R E ->
  forall r, In r R -> exists s, In s S /\ joined E s r.
Proof.
  induction 1 as [|S R R' u v E Hu HP Hmin H IH]; intros r Hr; [destruct Hr|].
  apply (Permutation_in _ HP) in Hr.
  assert (Hv : joined ((u, v) :: E) u v) by (apply joined_edge; left; reflexivity).
  destruct Hr as [<-|Hr]; [exists u; auto|].
  destruct (IH r Hr) as (s & [<-|Hs] & Hj).
  - exists u. split; [assumption|]. apply (joined_trans _ _ v); [assumption|].
    apply (joined_incl E); [apply incl_tl, incl_refl|assumption].
  - exists s. split; [assumption|]. apply (joined_incl E); [apply incl_tl, incl_refl|assumption].
Qed.

(** A greedy run from one vertex is a spanning tree. *)
Lemma greedy_spanning le s R E : greedy le [s] R E -> spanning_tree (s :: R) E.
Proof.
  intros H. split; [|split].
  - intros a b Hin. destruct (greedy_edges _ _ _ _ H a b Hin) as [[[->|[]]|Ha] Hb].
    + split; [left; reflexivity|right; assumption].
    + split; right; assumption.
  - assert (Hs : forall a, In a (s :: R) -> joined E s a).
    { intros a [->|Ha]; [apply joined_refl|].
      destruct (greedy_joined _ _ _ _ H a Ha) as (s' & [<-|[]] & Hj). assumption. }
    intros a b Ha Hb. apply (joined_trans _ _ s); [apply joined_sym|]; auto.
  - simpl. rewrite (greedy_length _ _ _ _ H). reflexivity.
Qed.

Definition inb (x : nat) (l : list nat) : bool := existsb (Nat.eqb x) l.
Lemma inb_In x l : inb x l = true <-> In x l.
Proof.
  unfold inb. rewrite existsb_exists. split.
  - intros (y & H & E). apply Nat.eqb_eq in E. subst; assumption.
  - intros H. exists x. split; [assumption|apply Nat.eqb_refl].
Qed.

(** Leaving [R]: the first edge of a walk that crosses from [R] to [S]. *)
Lemma crossing T S R v x :
  (forall a b, In (a, b) T -> (In a S \/ In a R) /\ (In b S \/ In b R)) ->
  In v R -> joined T v x ->
  (In x R /\ joined (filter (fun e => inb (fst e) R && inb (snd e) R) T) v x) \/
  (exists a b, In a S /\ In b R /\ (In (a, b) T \/ In (b, a) T) /\
     joined (filter (fun e => inb (fst e) R && inb (snd e) R) T) v b).
Proof.
  intros HT Hv. induction 1 as [|v x y H IH He].
  - left. split; [assumption|apply joined_refl].
  - destruct (IH Hv) as [[Hx Hj]|Hr]; [|right; assumption].
    assert (Hy : In y S \/ In y R).
    { destruct He as [He|He]; apply HT in He; tauto. }
    destruct (inb y R) eqn:EyR.
    + apply inb_In in EyR. left. split; [assumption|]. eapply joined_step; [exact Hj|].
      destruct He as [He|He]; [left|right]; apply filter_In; split; try assumption; simpl;
        apply andb_true_intro; split; apply inb_In; assumption.
    + right. exists y, x. split.
      * destruct Hy as [Hy|Hy]; [assumption|]. apply inb_In in Hy. congruence.
      * split; [assumption|]. split; [tauto|assumption].
Qed.

(** Minimality.  [T] is any set of edges that connects every vertex of [R] to [S]; it has
    either exactly as many edges as needed or no negative edge. *)
Lemma greedy_min w (le : nat * nat -> nat * nat -> Prop) S R E :
  (forall a b c d, (In a S \/ In a R) -> In b R -> (In c S \/ In c R) -> In d R ->
     a <> b -> c <> d -> le (a, b) (c, d) -> w a b <= w c d) ->
  greedy le S R E ->
  forall T,
  (forall a, In a S -> In a R -> False) ->
  NoDup R ->
  (forall a b, (In a S \/ In a R) -> (In b S \/ In b R) -> w a b = w b a) ->
  (forall a b, In (a, b) T -> (In a S \/ In a R) /\ (In b S \/ In b R)) ->
  (forall r, In r R -> exists s, In s S /\ joined T r s) ->
  (length T = length R \/ forall a b, In (a, b) T -> 0 <= w a b) ->
  edges_cost w E <= edges_cost w T.
Proof.
  intros Hw0 H0. revert Hw0.
  induction H0 as [S|S R R' u v E Hu HP Hmin0 H IH]; intros Hw T Hdis Hnd Hsym HT Hcon Hlen.
  - simpl. destruct Hlen as [Hl|Hp].
    + destruct T; [simpl; lia|discriminate].
    + clear -Hp. induction T as [|[a b] T IHT]; [simpl; lia|]. simpl.
      specialize (IHT (fun a b Hab => Hp a b (or_intror Hab))).
      pose proof (Hp a b (or_introl eq_refl)). lia.
  - assert (HvR : In v R) by (apply (Permutation_in _ (Permutation_sym HP)); left; reflexivity).
    assert (Hmin : forall a b, In a S -> In b R -> w u v <= w a b) by (intros a b Ha Hb; apply Hw; auto; intros ->; eauto).
    destruct (Hcon v HvR) as (s & Hs & Hj).
    destruct (crossing T S R v s HT HvR Hj) as [[HsR _]|(a & b & Ha & Hb & He & Hvb)].
    { exfalso. eauto. }
    (* the crossing edge, as stored *)
    assert (Hex : exists x y, In (x, y) T /\ w u v <= w x y /\
              ((x = a /\ y = b) \/ (x = b /\ y = a))).
    { destruct He as [He|He]; [exists a, b|exists b, a]; (split; [assumption|split; [|tauto]]).
      - apply Hmin; assumption.
      - rewrite (Hsym b a) by tauto. apply Hmin; assumption. }
    destruct Hex as (x & y & Hxy & Hle & Hxyab).
    apply in_split in Hxy. destruct Hxy as (T1 & T2 & ET).
    set (T' := T1 ++ T2).
    assert (HT'T : incl T' T).
    { intros e Hin. rewrite ET. apply in_app_or in Hin. apply in_or_app. simpl. tauto. }
    assert (HTT' : forall e, In e T -> e = (x, y) \/ In e T').
    { intros e Hin. rewrite ET in Hin. apply in_app_or in Hin. unfold T'.
      destruct Hin as [Hin|[<-|Hin]]; [right; apply in_or_app; tauto|left; reflexivity|right; apply in_or_app; tauto]. }
    assert (Hvb' : joined T' v b).
    { apply (joined_incl (filter (fun e => inb (fst e) R && inb (snd e) R) T)); [|assumption].
      intros [p q] Hin. apply filter_In in Hin. destruct Hin as [Hin Hf].
      apply andb_prop in Hf. simpl in Hf. destruct Hf as [Hf1 Hf2].
      apply inb_In in Hf1, Hf2. destruct (HTT' _ Hin) as [Eq|]; [|assumption].
      injection Eq as -> ->. exfalso. destruct Hxyab as [[-> ->]|[-> ->]]; eauto. }
    assert (Hcost : edges_cost w T = w x y + edges_cost w T').
    { rewrite ET. unfold T'. rewrite !edges_cost_app. simpl. lia. }
    assert (HRR' : forall r, In r R <-> r = v \/ In r R').
    { intros r. split; intros Hr.
      - apply (Permutation_in _ HP) in Hr. destruct Hr; [left; congruence|right; assumption].
      - apply (Permutation_in _ (Permutation_sym HP)). destruct Hr; [left; congruence|right; assumption]. }
    assert (Hnd' : NoDup (v :: R')) by (apply (Permutation_NoDup HP); assumption).
    inversion Hnd' as [|? ? HvR' HndR']; subst.
    assert (IHc : edges_cost w E <= edges_cost w T').
    { apply IH.
      - intros c d c' d' H1 H2 H3 H4. apply Hw; simpl in *; rewrite ?HRR'; intuition.
      - intros c [<-|Hc] HcR; [contradiction|]. apply (Hdis c); [assumption|apply HRR'; right; assumption].
      - assumption.
      - intros c d Hc Hd. apply Hsym; simpl in *; rewrite HRR'; intuition.
      - intros c d Hin. apply HT'T in Hin. apply HT in Hin. rewrite !HRR' in Hin. simpl. intuition.
      - intros r Hr. assert (HrR : In r R) by (apply HRR'; right; assumption).
        destruct (Hcon r HrR) as (s' & Hs' & Hj').
        assert (Hcl : joined T' r s' \/ exists z, In z (v :: S) /\ joined T' r z).
        { clear -Hj' HTT' Hxyab Ha Hvb'.
          induction Hj' as [|r p q Hj IHj Hedge]; [left; apply joined_refl|].
          destruct IHj as [IHj|?]; [|right; assumption].
          assert (Hcase : (In (p, q) T' \/ In (q, p) T') \/ p = a \/ p = b).
          { destruct Hedge as [Hedge|Hedge]; destruct (HTT' _ Hedge) as [Eq|Hin]; try tauto;
              injection Eq as -> ->; right; destruct Hxyab as [[? ?]|[? ?]]; subst; tauto. }
          destruct Hcase as [Hin|[->| ->]].
          - left. eapply joined_step; eauto.
          - right. exists a. split; [right; assumption|assumption].
          - right. exists v. split; [left; reflexivity|]. apply (joined_trans _ _ b); [assumption|].
            apply joined_sym; assumption. }
        destruct Hcl as [Hcl|(z & Hz & Hcl)]; [exists s'; split; [right; assumption|assumption]|exists z; auto].
      - destruct Hlen as [Hl|Hp].
        + left. apply Permutation_length in HP. simpl in HP.
          assert (length (T1 ++ (x, y) :: T2) = Datatypes.S (length T')) by (unfold T'; rewrite !app_length; simpl; lia).
          lia.
        + right. intros c d Hin. apply Hp. apply HT'T. assumption. }
    simpl. lia.
Qed.

Lemma greedy_perm_S le S S' R E : Permutation S S' -> greedy le S R E -> greedy le S' R E.
Proof.
  intros HP H. revert S' HP. induction H as [S|S R R' u v E Hu HR Hmin H IH]; intros S' HP.
  - constructor.
  - econstructor; eauto.
    + apply (Permutation_in _ HP); assumption.
    + intros a b Ha Hb. apply Hmin; [|assumption]. apply (Permutation_in _ (Permutation_sym HP)); assumption.
Qed.

(** The tree of a greedy run weighs no more than any spanning tree. *)
Lemma greedy_min_spanning w (le : nat * nat -> nat * nat -> Prop) s R E V T :
  (forall a b c d, In a V -> In b V -> In c V -> In d V ->
     a <> b -> c <> d -> le (a, b) (c, d) -> w a b <= w c d) ->
  greedy le [s] R E -> Permutation V (s :: R) -> NoDup V ->
  (forall a b, In a V -> In b V -> w a b = w b a) ->
  spanning_tree V T -> edges_cost w E <= edges_cost w T.
Proof.
  intros Hle H HP Hnd Hsym (HT1 & HT2 & HT3).
  assert (Hnd' : NoDup (s :: R)) by (apply (Permutation_NoDup HP); assumption).
  inversion Hnd' as [|? ? Hs HR]; subst.
  assert (HV : forall a, In a V <-> In a [s] \/ In a R).
  { intros a. split; intros Ha.
    - apply (Permutation_in _ HP) in Ha. simpl in *. tauto.
    - apply (Permutation_in _ (Permutation_sym HP)). simpl in *. tauto. }
  apply (greedy_min w le [s] R E); [|exact H|..].
  - intros a b c d Ha Hb Hc Hd. apply Hle; apply HV; auto.
  - intros a [<-|[]]; assumption.
  - assumption.
  - intros a b Ha Hb. apply Hsym; apply HV; assumption.
  - intros a b Hin. apply HT1 in Hin. rewrite !HV in Hin. assumption.
  - intros r Hr. exists s. split; [left; reflexivity|]. apply HT2; apply HV; simpl; auto.
  - left. apply Permutation_length in HP. simpl in HP. lia.
Qed.
