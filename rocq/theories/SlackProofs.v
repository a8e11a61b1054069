(** Christofides' algorithm when the triangle inequality holds up to a slack [d] only, as it
    does for rounded distances.  (Proofs; integers.) *)
From Coq Require Import ZArith Arith Bool List Permutation Lia.
From Verif Require Import Num Base Spec SpecFacts Data Mst Par Mem Rand MstPar Matching Christofides Greedy PrimProofs Dfs
  PermProofs MstParProofs MstFacts MatchingProofs EulerProofs FillProofs ChristofidesProofs ChristofidesExact.
Import ListNotations.
Local Open Scope Z_scope.

Lemma subseq_length {A} (l l' : list A) : subseq l l' -> (length l <= length l')%nat.
Proof. induction 1; cbn; lia. Qed.

(** every vertex left out costs at most [d] *)
Lemma shortcut_slack w n d l l' z : 0 <= d -> triangle_up_to w n d -> subseq l l' -> forall a, (a < n)%nat -> (z < n)%nat -> (forall v, In v l' -> (v < n)%nat) ->
  path_cost w (a :: l ++ [z]) <= path_cost w (a :: l' ++ [z]) + (Z.of_nat (length l') - Z.of_nat (length l)) * d.
Proof.
  intros Hd Ht Hsub. induction Hsub as [|x l l' Hsub IH|x l l' Hsub IH]; intros a Ha Hz Hin; [lia| |].
  - specialize (IH x (Hin x (or_introl eq_refl)) Hz (fun v Hv => Hin v (or_intror Hv))).
    change (path_cost w (a :: (x :: l') ++ [z])) with (w a x + path_cost w (x :: l' ++ [z])).
    cbn [length]. rewrite Nat2Z.inj_succ.
    destruct l as [|y l].
    + cbn [app path_cost length] in *. pose proof (Ht a z x Ha Hz (Hin x (or_introl eq_refl))). lia.
    + change (path_cost w (a :: (y :: l) ++ [z])) with (w a y + path_cost w (y :: l ++ [z])).
      change (path_cost w (x :: (y :: l) ++ [z])) with (w x y + path_cost w (y :: l ++ [z])) in IH.
      assert (Hy : (y < n)%nat) by (apply Hin; right; apply (subseq_In _ _ y Hsub); left; reflexivity).
      pose proof (Ht a y x Ha Hy (Hin x (or_introl eq_refl))). lia.
  - specialize (IH x (Hin x (or_introl eq_refl)) Hz (fun v Hv => Hin v (or_intror Hv))).
    cbn [app path_cost length] in *. lia.
Qed.

Lemma tour_filter_slack w n d f q : 0 <= d -> triangle_up_to w n d -> nonneg w n -> (forall v, In v q -> (v < n)%nat) ->
  tour_cost w (filter f q) <= tour_cost w q + (Z.of_nat (length q) - Z.of_nat (length (filter f q))) * d.
Proof.
  intros Hd Ht Hnn Hin. destruct (filter f q) as [|a t] eqn:Ef.
  - cbn [tour_cost length]. destruct q as [|b q]; [cbn; lia|]. rewrite tour_cost_closed.
    assert (0 <= path_cost w ((b :: q) ++ [b])); [|nia]. apply (path_cost_nonneg w n); [assumption|].
    apply Forall_forall. intros v Hv. apply Hin. apply in_app_or in Hv. destruct Hv as [|[->|[]]]; [assumption|left; reflexivity].
  - assert (Ha : In a q /\ f a = true) by (apply filter_In; rewrite Ef; left; reflexivity). destruct Ha as [Ha Hfa].
    destruct (in_split a q Ha) as (q1 & q2 & ->). rewrite <- Ef. clear Ef Ha.
    rewrite filter_app, (tour_cost_rot w (filter f q1)), (tour_cost_rot w q1). cbn [filter]. rewrite Hfa. cbn [app].
    rewrite <- filter_app, !tour_cost_closed. cbn [app].
    pose proof (shortcut_slack w n d (filter f (q2 ++ q1)) (q2 ++ q1) a Hd Ht (filter_subseq _ _) a) as H.
    assert (E1 : (length (q1 ++ a :: q2) = S (length (q2 ++ q1)))%nat) by (rewrite !app_length; cbn; lia).
    assert (E2 : (length (filter f q1 ++ a :: filter f q2) = S (length (filter f (q2 ++ q1))))%nat) by (rewrite filter_app, !app_length; cbn; lia).
    rewrite E1, E2, !Nat2Z.inj_succ.
    assert (H' : path_cost w (a :: filter f (q2 ++ q1) ++ [a]) <= path_cost w (a :: (q2 ++ q1) ++ [a]) + (Z.of_nat (length (q2 ++ q1)) - Z.of_nat (length (filter f (q2 ++ q1)))) * d); [|lia].
    apply H; [apply Hin, in_elt|apply Hin, in_elt|].
    intros v Hv. apply Hin. apply in_app_or in Hv. apply in_or_app. cbn. tauto.
Qed.

Lemma matching_half_slack w n d V M q : 0 <= d -> triangle_up_to w n d -> nonneg w n -> is_tour n q -> NoDup V -> (forall v, In v V -> (v < n)%nat) -> Nat.Even (length V) ->
  (forall M', perfect_matching V M' -> edges_cost w M <= edges_cost w M') ->
  2 * edges_cost w M <= tour_cost w q + (Z.of_nat n - Z.of_nat (length V)) * d.
Proof.
  intros Hd Ht Hnn Hq Hnd HV He Hmin. set (l := filter (fun v => existsb (Nat.eqb v) V) q).
  assert (HP : Permutation l V).
  { apply NoDup_Permutation; [apply NoDup_filter, (tour_NoDup n); assumption|assumption|].
    intros v. unfold l. rewrite filter_In, existsb_exists, (tour_In n q v Hq). split.
    - intros (_ & x & Hx & E). apply Nat.eqb_eq in E. congruence.
    - intros Hv. split; [auto|]. exists v. split; [assumption|apply Nat.eqb_refl]. }
  pose proof (tour_filter_slack w n d (fun v => existsb (Nat.eqb v) V) q Hd Ht Hnn (fun v Hv => proj1 (tour_In n q v Hq) Hv)) as Hfs.
  fold l in Hfs. rewrite (Permutation_length HP), (tour_length n q Hq) in Hfs.
  apply Z.le_trans with (tour_cost w l); [|exact Hfs]. clear Hfs.
  assert (Hel : Nat.Even (length l)) by (rewrite (Permutation_length HP); assumption).
  pose proof (Hmin (chunks2 l)) as H1. unfold perfect_matching in H1. rewrite endpoints_chunks in H1 by assumption. specialize (H1 HP).
  clearbody l. destruct l as [|a t].
  - change (edges_cost w (chunks2 [])) with 0 in H1. change (tour_cost w []) with 0. lia.
  - rewrite tour_cost_closed, <- alternate by assumption. cbn [tl].
    pose proof (Hmin (chunks2 (t ++ [a]))) as H2. unfold perfect_matching in H2. rewrite endpoints_chunks in H2.
    + specialize (H2 (Permutation_trans (Permutation_sym (Permutation_cons_append t a)) HP)). lia.
    + rewrite app_length. cbn [length] in *. rewrite Nat.add_1_r. assumption.
Qed.

Lemma edges_count E : edges_cost (fun _ _ => 1) E = Z.of_nat (length E).
Proof. induction E as [|e E IH]; [reflexivity|]. unfold edges_cost in *. cbn [fold_right length] in *. rewrite IH. lia. Qed.
Lemma path_count p : path_cost (fun _ _ => 1) p = Z.of_nat (length p - 1).
Proof. induction p as [|a [|b p] IH]; [reflexivity..|]. cbn [path_cost length] in *. rewrite IH. lia. Qed.

(** The shortened closed walk over the edges of a tree and a matching of [V]: it has
    [n - 1 + |V| / 2] steps, so [|V| / 2 - 1] vertices are left out. *)
Lemma walk_slack w n d T M V p q : 0 <= d -> (2 <= n)%nat -> symmetric w n -> triangle_up_to w n d -> is_tour n (0%nat :: p) ->
  spanning_tree (seq 0 n) T -> perfect_matching V M -> (forall v, In v V -> (v < n)%nat) -> (forall v, In v q -> (v < n)%nat) -> subseq p q ->
  (forall i j, (i < n)%nat -> (j < n)%nat -> traversals (0%nat :: q ++ [0%nat]) i j = copies (T ++ M) i j) ->
  2 * tour_cost w (0%nat :: p) <= 2 * (edges_cost w T + edges_cost w M) + (Z.of_nat (length V) - 2) * d.
Proof.
  intros Hd Hn Hs Ht Htour HT HM HV Hq Hsub Htr.
  assert (HTM : forall a b, In (a, b) (T ++ M) -> (a < n)%nat /\ (b < n)%nat).
  { intros a b Hin. apply in_app_or in Hin. destruct Hin as [Hin|Hin].
    - destruct HT as [HT _]. destruct (HT a b Hin) as [H1 H2]. apply in_seq in H1, H2. lia.
    - assert (forall x, In x [a; b] -> (x < n)%nat); [|split; apply H; cbn; auto].
      intros x Hx. apply HV. apply (Permutation_in _ HM). apply in_flat_map. exists (a, b). auto. }
  assert (Hw : forall v, In v (0%nat :: q ++ [0%nat]) -> (v < n)%nat).
  { intros v [<-|Hv]; [lia|]. apply in_app_or in Hv. destruct Hv as [Hv|[<-|[]]]; [auto|lia]. }
  pose proof (path_of_edges n w _ (T ++ M) Hs Hw HTM Htr) as E1.
  pose proof (path_of_edges n (fun _ _ => 1) _ (T ++ M) ltac:(intros ? ? ? ?; reflexivity) Hw HTM Htr) as E2.
  rewrite path_count, edges_count, app_length in E2. cbn [length] in E2. rewrite app_length in E2. cbn [length] in E2.
  assert (LT : (length T = n - 1)%nat) by (destruct HT as (_ & _ & H3); rewrite seq_length in H3; lia).
  assert (LM : (2 * length M = length V)%nat).
  { rewrite <- (Permutation_length HM). unfold endpoints. clear. induction M; cbn in *; lia. }
  pose proof (tour_length _ _ Htour) as Lp. cbn [length] in Lp.
  pose proof (shortcut_slack w n d p q 0%nat Hd Ht Hsub 0%nat ltac:(lia) ltac:(lia) Hq) as H.
  rewrite edges_cost_app in E1. rewrite tour_cost_closed. cbn [app].
  assert (Hlen : 2 * (Z.of_nat (length q) - Z.of_nat (length p)) = Z.of_nat (length V) - 2) by lia.
  set (k := Z.of_nat (length q) - Z.of_nat (length p)) in *. rewrite <- Hlen. lia.
Qed.

(** Together with the bounds for the tree and the matching *)
Lemma ratio_slack w n d T M V p q' : 0 <= d -> (2 <= n)%nat -> symmetric w n -> nonneg w n -> triangle_up_to w n d ->
  spanning_tree (seq 0 n) T -> (forall T', spanning_tree (seq 0 n) T' -> edges_cost w T <= edges_cost w T') ->
  NoDup V -> (forall v, In v V -> (v < n)%nat) -> Nat.Even (length V) ->
  (forall M', perfect_matching V M' -> edges_cost w M <= edges_cost w M') ->
  2 * tour_cost w (0%nat :: p) <= 2 * (edges_cost w T + edges_cost w M) + (Z.of_nat (length V) - 2) * d ->
  is_tour n q' -> 2 * tour_cost w (0%nat :: p) <= 3 * tour_cost w q' + (Z.of_nat n - 2) * d.
Proof.
  intros Hd Hn Hs Hnn Ht HT Hmin Hnd HV He HMmin Hc Hq'. pose proof (tour_length _ _ Hq') as Hl.
  assert (HT1 : edges_cost w T <= tour_cost w q').
  { assert (Hne : q' <> []) by (destruct q'; [cbn in Hl; lia|discriminate]).
    specialize (Hmin _ (path_spanning q' (seq 0 n) Hne Hq')). rewrite path_edges_cost' in Hmin.
    pose proof (prefix_cost_le w n q' [] Hnn) as Hp. rewrite app_nil_r in Hp. specialize (Hp (tour_Forall n q' Hq')). lia. }
  pose proof (matching_half_slack w n d V M q' Hd Ht Hnn Hq' Hnd HV He HMmin) as HM1. lia.
Qed.
