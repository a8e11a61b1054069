(** Costs of the matching improvement on represented integer costs.  (Proofs.) *)
From Coq Require Import ZArith Arith Bool List Permutation Lia.
From Verif Require Import Num Base Spec SpecFacts Data Par Rand MstPar Matching Greedy PrimProofs Dfs MstFacts MatchingProofs.
Import ListNotations.
Local Open Scope Z_scope.

Lemma edges_cost_perm w A B : Permutation A B -> edges_cost w A = edges_cost w B.
Proof. unfold edges_cost. induction 1; cbn [fold_right]; lia. Qed.

(** pairing [a],[b] and [c],[d] costs more than [a],[c] and [b],[d], which costs more than
    [a],[d] and [b],[c] *)
Definition slip (w : nat -> nat -> Z) (a b c d : nat) : Prop := w a d + w b c < w a c + w b d < w a b + w c d.

Section Exact.
Context {N : Num} {B : Z} (E : Exact N B).
Variable m : namatrix N.
Hypothesis Hwf : na_wf m.
Let n := na_dim m.
Variable w : nat -> nat -> Z.
Variable W : Z.
Hypothesis Hrep : represents E (na_adj m) w.
Hypothesis HW : bounded w n W.
Hypothesis HB : 2 * W <= B.

Lemma sum_lt a b c d a' b' c' d' : (forall x, In x [a; b; c; d; a'; b'; c'; d'] -> (x < n)%nat) -> a <> b -> c <> d -> a' <> b' -> c' <> d' ->
  clt (cadd (na_val m a b) (na_val m c d)) (cadd (na_val m a' b') (na_val m c' d')) = (w a b + w c d <? w a' b' + w c' d').
Proof.
  intros Hr H1 H2 H3 H4.
  assert (Hb : forall x y, In x [a; b; c; d; a'; b'; c'; d'] -> In y [a; b; c; d; a'; b'; c'; d'] -> Z.abs (w x y) <= W) by (intros x y Hx Hy; apply HW; auto).
  rewrite !(rep_val E m Hwf w Hrep) by (assumption || (apply Hr; cbn; tauto)).
  pose proof (Hb a b ltac:(cbn; tauto) ltac:(cbn; tauto)). pose proof (Hb c d ltac:(cbn; tauto) ltac:(cbn; tauto)).
  pose proof (Hb a' b' ltac:(cbn; tauto) ltac:(cbn; tauto)). pose proof (Hb c' d' ltac:(cbn; tauto) ltac:(cbn; tauto)).
  rewrite !inj_add by lia. apply inj_lt; lia.
Qed.

(** the result of one step, for four different vertices *)
Lemma opt2_value a b c d : (forall x, In x [a; b; c; d] -> (x < n)%nat) -> NoDup [a; b; c; d] ->
  opt2 m (a, b) (c, d) =
    (if w a c + w b d <? w a b + w c d then
       if w a d + w b c <? w a c + w b d then ((a, c), (b, c)) else ((a, c), (b, d))
     else if w a d + w b c <? w a b + w c d then ((a, d), (b, c)) else ((a, b), (c, d))).
Proof.
  intros Hr Hnd. assert (Hd : a <> b /\ a <> c /\ a <> d /\ b <> c /\ b <> d /\ c <> d).
  { inversion Hnd as [|? ? N1 H1]; subst. inversion H1 as [|? ? N2 H2]; subst. inversion H2 as [|? ? N3 _]; subst. cbn in *. intuition congruence. }
  unfold opt2, cost0, cost1, cost2. cbn [fst snd].
  rewrite !sum_lt by (try tauto; intros x Hx; apply Hr; cbn in *; intuition congruence). reflexivity.
Qed.

Lemma opt2_cost a b c d : (forall x, In x [a; b; c; d] -> (x < n)%nat) -> NoDup [a; b; c; d] -> ~ slip w a b c d ->
  let r := [fst (opt2 m (a, b) (c, d)); snd (opt2 m (a, b) (c, d))] in
  Permutation (endpoints r) [a; b; c; d] /\
  edges_cost w r = Z.min (w a b + w c d) (Z.min (w a c + w b d) (w a d + w b c)).
Proof.
  intros Hr Hnd Hns r. unfold r. rewrite opt2_value by assumption. clear r. unfold slip in Hns.
  destruct (Z.ltb_spec (w a c + w b d) (w a b + w c d)); [destruct (Z.ltb_spec (w a d + w b c) (w a c + w b d)); [lia|]|
    destruct (Z.ltb_spec (w a d + w b c) (w a b + w c d))]; cbn [fst snd edges_cost fold_right endpoints flat_map app]; (split; [|lia]).
  - apply perm_skip, perm_swap.
  - apply perm_skip. apply perm_trans with [b; d; c]; [apply perm_swap|]. apply perm_skip, perm_swap.
  - reflexivity.
Qed.

Variable V : list nat.
Hypothesis HV : forall v, In v V -> (v < n)%nat.
Hypothesis Hnd : NoDup V.
Hypothesis Hns : forall a b c d, In a V -> In b V -> In c V -> In d V -> NoDup [a; b; c; d] -> ~ slip w a b c d.

Lemma no_slip_exact : no_slip m V.
Proof.
  intros a b c d Ha Hb Hc Hd Hn4.
  assert (Hd4 : a <> b /\ a <> c /\ a <> d /\ b <> c /\ b <> d /\ c <> d).
  { inversion Hn4 as [|? ? N1 H1]; subst. inversion H1 as [|? ? N2 H2]; subst. inversion H2 as [|? ? N3 _]; subst. cbn in *. intuition congruence. }
  rewrite !sum_lt by (try tauto; intros x Hx; apply HV; cbn in Hx; intuition congruence).
  specialize (Hns a b c d Ha Hb Hc Hd Hn4). unfold slip in Hns.
  destruct (Z.ltb_spec (w a c + w b d) (w a b + w c d)), (Z.ltb_spec (w a d + w b c) (w a c + w b d)); try reflexivity. lia.
Qed.

Lemma cost_inv K : invariant m (fun M => perfect_matching V M /\ edges_cost w M <= K).
Proof.
  pose proof (perfect_inv m V Hnd no_slip_exact) as HP. split.
  - intros M M' HM [H1 H2]. split; [exact (inv_perm _ _ HP M M' HM H1)|]. rewrite <- (edges_cost_perm w M M' HM). assumption.
  - intros e f M [H1 H2]. split; [exact (inv_step _ _ HP e f M H1)|].
    destruct (perfect_four m V e f M Hnd H1) as (V1 & V2 & V3 & V4 & Hn4). destruct e as [a b], f as [c d]. cbn [fst snd] in *.
    destruct (opt2_cost a b c d) as [_ Hc]; [intros x Hx; apply HV; cbn in Hx; intuition congruence|assumption|apply Hns; assumption|].
    cbn [edges_cost fold_right fst snd] in *. fold (edges_cost w M) in *. lia.
Qed.
End Exact.
