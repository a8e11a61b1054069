(** One generic depth-first search of which all recursive solvers are instances, and what
    is true of it.  This file belongs to the proofs, not to the model. *)
From Coq Require Import ZArith Arith Bool List Permutation Lia.
From Verif Require Import Num Base Spec SpecFacts Data Mst Exact.
Import ListNotations.

(** The matrix [g] holds the integer costs [w], embedded by [E].  The diagonal is looked at
    only for the instance with a single vertex. *)
Definition represents {N B} (E : Exact N B) (g : adj N) (w : nat -> nat -> Z) : Prop :=
  forall i j, i < a_dim g -> j < a_dim g -> (i = j -> a_dim g = 1) ->
    a_get g i j = Ok (inj E (w i j)).

Section Dfs.
Context {N : Num}.
Variable St : Type.
Variable get : St -> solution N.
Variable put : St -> solution N -> St.
Variable keep : St -> list nat -> C N -> res (bool * St).
Variable g : adj N.

Definition step (rec : list nat -> C N -> St -> res St) (prefix : list nat)
           (s : C N * St) (i : nat) : res (C N * St) :=
  let '(cost, st) := s in
  if memb i prefix then Ok (cost, st)
  else
    let prefix := prefix ++ [i] in
    if length prefix =? 1 then
      st <- rec prefix cost st ;; Ok (cost, st)
    else
      e <- last_edge g prefix ;;
      let cost := cadd cost e in
      '(b, st) <- keep st prefix cost ;;
      st <- (if b : bool then rec prefix cost st else Ok st) ;;
      Ok (csub cost e, st).

Fixpoint dfs (fuel : nat) (prefix : list nat) (cost : C N) (st : St) : res St :=
  match fuel with
  | O => OutOfFuel
  | S f =>
    if length prefix =? a_dim g then
      r <- leaf g prefix cost (get st) ;; Ok (put st r)
    else
      s <- foldM (step (dfs f) prefix) (seq 0 (a_dim g)) (cost, st) ;; Ok (snd s)
  end.

Definition extends (p q : list nat) : Prop := exists r, q = p ++ r.

Lemma extends_refl p : extends p p. Proof. exists []. symmetry; apply app_nil_r. Qed.

Lemma NoDup_snoc (p : list nat) i : NoDup p -> ~ In i p -> NoDup (p ++ [i]).
Proof.
  intros H1 H2. apply (Permutation_NoDup (l := i :: p)).
  - change (i :: p) with ([i] ++ p). apply Permutation_app_comm.
  - constructor; assumption.
Qed.

Lemma in_range_length (p : list nat) n : NoDup p -> Forall (fun i => i < n) p -> length p <= n.
Proof.
  intros H1 H2. rewrite <- (seq_length n 0). apply NoDup_incl_length; [assumption|].
  intros i Hi. rewrite Forall_forall in H2. apply in_seq. specialize (H2 i Hi). lia.
Qed.

(** *** Structure: whatever the arithmetic, no panic, and the path is empty or a tour *)

Section Struct.
Variable I : St -> Prop.
Let n := a_dim g.
Hypothesis Hget : forall i j, i < n -> j < n -> exists c, a_get g i j = Ok c.
Hypothesis Hput : forall st q c, I st -> is_tour n q ->
  I (put st (if clt c (fst (get st)) then (c, q) else get st)).
Hypothesis Hkeep : forall st p c, I st -> NoDup p -> Forall (fun i => i < n) p -> 2 <= length p ->
  exists b st', keep st p c = Ok (b, st') /\ I st'.

Lemma dfs_struct : forall fuel prefix cost st,
  1 <= n -> n - length prefix < fuel -> NoDup prefix -> Forall (fun i => i < n) prefix ->
  I st -> exists st', dfs fuel prefix cost st = Ok st' /\ I st'.
Proof.
  induction fuel as [|f IH]; intros prefix cost st Hn Hf Hnd Hr HI; [lia|].
  simpl. fold n. pose proof (in_range_length prefix n Hnd Hr) as Hle.
  destruct (Nat.eqb_spec (length prefix) n) as [El|Nl].
  - assert (Hne : prefix <> []) by (intros ->; simpl in El; lia).
    unfold leaf. rewrite (last_res_last prefix 0 Hne), (first_res_hd prefix 0 Hne). simpl.
    rewrite Forall_forall in Hr.
    destruct (Hget (last prefix 0%nat) (hd 0%nat prefix)) as [c Hc].
    + apply Hr, last_In; assumption.
    + apply Hr. destruct prefix; [congruence|left; reflexivity].
    + rewrite Hc. simpl. eexists. split; [reflexivity|].
      apply Hput; [assumption|]. apply tour_intro; try assumption. apply Forall_forall; assumption.
  - destruct (foldM_inv' (step (dfs f) prefix) (fun s => I (snd s)) (seq 0 n) (cost, st)) as (s & E & HIs).
    + assumption.
    + intros i [c st1] Hi HI1. simpl in HI1. apply in_seq in Hi. unfold step.
      destruct (memb i prefix) eqn:Em; [exists (c, st1); auto|].
      apply memb_nIn in Em.
      assert (Hnd' : NoDup (prefix ++ [i])) by (apply NoDup_snoc; assumption).
      assert (Hr' : Forall (fun i => i < n) (prefix ++ [i])) by
        (apply Forall_app; split; [assumption|constructor; [lia|constructor]]).
      assert (Hl' : length (prefix ++ [i]) = S (length prefix)) by (rewrite app_length; simpl; lia).
      destruct (Nat.eqb_spec (length (prefix ++ [i])) 1) as [E1|N1].
      * destruct (IH (prefix ++ [i]) c st1) as (st2 & E2 & HI2); try assumption; try lia.
        rewrite E2. simpl. exists (c, st2). auto.
      * unfold last_edge.
        rewrite (nth_res_nth _ _ 0) by lia. simpl bind.
        rewrite (nth_res_nth _ _ 0) by lia. simpl bind.
        pose proof (proj1 (Forall_forall _ _) Hr') as Hr2.
        destruct (Hget (nth (length (prefix ++ [i]) - 2) (prefix ++ [i]) 0)
                       (nth (length (prefix ++ [i]) - 2 + 1) (prefix ++ [i]) 0)) as [e He].
        { apply Hr2, nth_In; lia. }
        { apply Hr2, nth_In; lia. }
        rewrite He. simpl bind.
        destruct (Hkeep st1 (prefix ++ [i]) (cadd c e) HI1 Hnd' Hr') as (b & st2 & Ek & HI2); [lia|].
        rewrite Ek. simpl bind. destruct b.
        -- destruct (IH (prefix ++ [i]) (cadd c e) st2) as (st3 & E3 & HI3); try assumption; try lia.
           rewrite E3. simpl. eexists; split; [reflexivity|assumption].
        -- simpl. eexists; split; [reflexivity|assumption].
    + rewrite E. simpl. exists (snd s). auto.
Qed.
End Struct.

(** *** Exact arithmetic: every tour extending the prefix is accounted for *)

Section Good.
Context {B : Z} (E : Exact N B).
Variable w : nat -> nat -> Z.
Variable W : Z.
Let n := a_dim g.
Hypothesis Hrep : represents E g w.
Hypothesis HW : bounded w n W.
Hypothesis HB : (W * (Z.of_nat n + 1) <= B)%Z.
Variable I : St -> Prop.
Variable good : St -> list nat -> Prop.
Hypothesis Hleaf : forall st q, I st -> is_tour n q ->
  let c := inj E (tour_cost w q) in
  let st' := put st (if clt c (fst (get st)) then (c, q) else get st) in
  I st' /\ good st' q /\ (forall q', good st q' -> good st' q').
Hypothesis Hkeep : forall st p, I st -> NoDup p -> Forall (fun i => i < n) p -> 2 <= length p ->
  exists b st', keep st p (inj E (path_cost w p)) = Ok (b, st') /\ I st' /\
    (forall q', good st q' -> good st' q') /\
    (b = false -> forall q, is_tour n q -> extends p q -> good st' q).

Lemma dfs_good : forall fuel prefix st,
  1 <= n -> n - length prefix < fuel -> NoDup prefix -> Forall (fun i => i < n) prefix -> I st ->
  exists st', dfs fuel prefix (inj E (path_cost w prefix)) st = Ok st' /\ I st' /\
    (forall q', good st q' -> good st' q') /\
    (forall q, is_tour n q -> extends prefix q -> good st' q).
Proof.
  induction fuel as [|f IH]; intros prefix st Hn Hf Hnd Hr HI; [lia|].
  simpl. fold n. pose proof (in_range_length prefix n Hnd Hr) as Hle.
  assert (HW0 : (0 <= W)%Z) by (pose proof (HW 0 0 ltac:(lia) ltac:(lia)); lia).
  assert (Hpb : forall p, Forall (fun i => i < n) p -> length p <= n ->
            (Z.abs (path_cost w p) <= B)%Z).
  { intros p Hp Hl. pose proof (path_cost_bound w n p W HW Hp HW0). nia. }
  destruct (Nat.eqb_spec (length prefix) n) as [El|Nl].
  - assert (Hne : prefix <> []) by (intros ->; simpl in El; lia).
    assert (Ht : is_tour n prefix) by (apply tour_intro; assumption).
    unfold leaf. rewrite (last_res_last prefix 0 Hne), (first_res_hd prefix 0 Hne). simpl.
    rewrite Forall_forall in Hr.
    assert (Hl1 : last prefix 0 < n) by (apply Hr, last_In; assumption).
    assert (Hl2 : hd 0 prefix < n) by (apply Hr; destruct prefix; [congruence|left; reflexivity]).
    rewrite (Hrep _ _ Hl1 Hl2).
    + simpl. rewrite inj_add.
      * assert (Etc : (path_cost w prefix + w (last prefix 0%nat) (hd 0%nat prefix))%Z = tour_cost w prefix).
        { destruct prefix as [|a p]; [congruence|]. unfold tour_cost. simpl hd.
          rewrite (last_default (a :: p) 0%nat a) by discriminate. reflexivity. }
        rewrite Etc. destruct (Hleaf st prefix HI Ht) as (H1 & H2 & H3).
        eexists. split; [reflexivity|]. split; [assumption|]. split; [assumption|].
        intros q Hq [r ->].
        assert (r = []) as ->.
        { apply tour_length in Hq. rewrite app_length in Hq. destruct r; [reflexivity|simpl in Hq; lia]. }
        rewrite app_nil_r. assumption.
      * apply Hpb; [apply Forall_forall; assumption|lia].
      * pose proof (HW _ _ Hl1 Hl2). nia.
      * assert (Etc : (path_cost w prefix + w (last prefix 0%nat) (hd 0%nat prefix))%Z = path_cost w (prefix ++ [hd 0 prefix])).
        { rewrite (path_cost_snoc w prefix _ 0) by assumption. reflexivity. }
        rewrite Etc.
        assert (Hp2 : Forall (fun i => i < n) (prefix ++ [hd 0 prefix])).
        { apply Forall_app; split; [apply Forall_forall; assumption|constructor; [assumption|constructor]]. }
        pose proof (path_cost_bound w n _ W HW Hp2 HW0) as Hb. rewrite app_length in Hb. simpl in Hb. nia.
    + fold n. intros Heq. destruct prefix as [|a [|b p]]; [congruence|simpl in El; lia|].
      exfalso. simpl hd in Heq. inversion Hnd as [|? ? Hni _]; subst. apply Hni.
      rewrite <- Heq. change (last (a :: b :: p) 0) with (last (b :: p) 0). apply last_In. discriminate.
  - destruct (foldM_inv (step (dfs f) prefix)
       (fun pre s => fst s = inj E (path_cost w prefix) /\ I (snd s) /\
          (forall q', good st q' -> good (snd s) q') /\
          (forall i q, In i pre -> is_tour n q -> extends (prefix ++ [i]) q -> good (snd s) q))
       (seq 0 n) (inj E (path_cost w prefix), st)) as (s & Es & Hs1 & Hs2 & Hs3 & Hs4).
    + split; [reflexivity|]. split; [assumption|]. split; [auto|]. intros i q [].
    + intros pre i post [c st1] Eseq (Hc & HI1 & Hm1 & Hg1). simpl in Hc, HI1, Hm1, Hg1. subst c.
      assert (Hi : In i (seq 0 n)) by (rewrite Eseq; apply in_elt).
      apply in_seq in Hi. unfold step.
      destruct (memb i prefix) eqn:Em.
      { exists (inj E (path_cost w prefix), st1). split; [reflexivity|]. simpl.
        split; [reflexivity|]. split; [assumption|]. split; [assumption|].
        intros i' q Hin Hq Hex. apply in_app_or in Hin. destruct Hin as [Hin|[<-|[]]]; [eauto|].
        exfalso. apply memb_In in Em. destruct Hex as [r ->]. apply tour_NoDup in Hq.
        rewrite <- app_assoc in Hq. simpl in Hq. apply NoDup_remove_2 in Hq. apply Hq.
        apply in_or_app. left; assumption. }
      apply memb_nIn in Em.
      assert (Hnd' : NoDup (prefix ++ [i])) by (apply NoDup_snoc; assumption).
      assert (Hr' : Forall (fun i => i < n) (prefix ++ [i])) by
        (apply Forall_app; split; [assumption|constructor; [lia|constructor]]).
      assert (Hl' : length (prefix ++ [i]) = S (length prefix)) by (rewrite app_length; simpl; lia).
      destruct (Nat.eqb_spec (length (prefix ++ [i])) 1) as [E1|N1].
      * assert (prefix = []) by (destruct prefix; [reflexivity|simpl in E1; rewrite app_length in E1; simpl in E1; lia]).
        subst prefix. simpl app in *.
        destruct (IH [i] st1) as (st2 & E2 & HI2 & Hm2 & Hg2); try assumption; try (simpl; lia).
        change (path_cost w []) with (path_cost w [i]). rewrite E2. simpl.
        eexists. split; [reflexivity|]. simpl. split; [reflexivity|]. split; [assumption|].
        split; [auto|]. intros i' q Hin Hq Hex. apply in_app_or in Hin.
        destruct Hin as [Hin|[<-|[]]]; [eauto|]. apply Hg2; assumption.
      * assert (Hne : prefix <> []) by (intros ->; simpl in N1; lia).
        unfold last_edge. rewrite Hl'.
        replace (S (length prefix) - 2) with (length prefix - 1) by lia.
        assert (0 < length prefix) by (destruct prefix; [congruence|simpl; lia]).
        replace (length prefix - 1 + 1) with (length prefix) by lia.
        rewrite (nth_res_nth _ _ 0) by lia. rewrite (nth_res_nth _ _ 0) by lia. simpl bind.
        rewrite app_nth1 by lia. rewrite app_nth2 by lia. rewrite Nat.sub_diag. simpl nth.
        rewrite nth_last by assumption.
        pose proof (proj1 (Forall_forall _ _) Hr) as Hr2.
        assert (Hlt : last prefix 0 < n) by (apply Hr2, last_In; assumption).
        rewrite Hrep; [|assumption|lia|intros Heq; exfalso; apply Em; rewrite <- Heq; apply last_In; assumption].
        simpl bind.
        assert (Hb1 : (Z.abs (path_cost w prefix) <= B)%Z) by (apply Hpb; [assumption|lia]).
        assert (Hb2 : (Z.abs (w (last prefix 0%nat) i) <= B)%Z) by (pose proof (HW _ i Hlt ltac:(lia)); nia).
        assert (Hb3 : (Z.abs (path_cost w (prefix ++ [i])) <= B)%Z) by (apply Hpb; [assumption|lia]).
        pose proof (path_cost_snoc w prefix i 0 Hne) as Esn.
        rewrite inj_add by (try assumption; rewrite <- Esn; assumption).
        rewrite <- Esn.
        destruct (Hkeep st1 (prefix ++ [i]) HI1 Hnd' Hr') as (b & st2 & Ek & HI2 & Hm2 & Hg2); [lia|].
        rewrite Ek. simpl bind.
        assert (Hsub : csub (inj E (path_cost w (prefix ++ [i]))) (inj E (w (last prefix 0%nat) i)) = inj E (path_cost w prefix)).
        { rewrite inj_sub; try assumption; [f_equal; lia|]. rewrite Esn.
          replace (path_cost w prefix + w (last prefix 0%nat) i - w (last prefix 0%nat) i)%Z with (path_cost w prefix) by lia.
          assumption. }
        destruct b.
        -- destruct (IH (prefix ++ [i]) st2) as (st3 & E3 & HI3 & Hm3 & Hg3); try assumption; try lia.
           rewrite E3. simpl. eexists. split; [reflexivity|]. simpl. split; [assumption|].
           split; [assumption|]. split; [auto|]. intros i' q Hin Hq Hex. apply in_app_or in Hin.
           destruct Hin as [Hin|[<-|[]]]; [eauto|]. apply Hg3; assumption.
        -- simpl. eexists. split; [reflexivity|]. simpl. split; [assumption|].
           split; [assumption|]. split; [auto|]. intros i' q Hin Hq Hex. apply in_app_or in Hin.
           destruct Hin as [Hin|[<-|[]]]; [eauto|]. apply Hg2; auto.
    + rewrite Es. simpl. exists (snd s). split; [reflexivity|]. split; [assumption|].
      split; [assumption|]. intros q Hq [r ->].
      destruct r as [|i r].
      { exfalso. rewrite app_nil_r in Hq. apply tour_length in Hq. lia. }
      apply (Hs4 i).
      * apply in_seq. assert (In i (prefix ++ i :: r)) by apply in_elt.
        apply (tour_In _ _ _ Hq) in H. lia.
      * assumption.
      * exists r. rewrite <- app_assoc. reflexivity.
Qed.
End Good.

End Dfs.
