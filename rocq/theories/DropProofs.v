(** Tours with and without a vertex. *)
From Coq Require Import ZArith Arith Bool List Permutation Lia.
From Verif Require Import Spec SpecFacts RenameSpec RenameProofs DropSpec.
Import ListNotations.
Local Open Scope nat_scope.

Definition unskip (v j : nat) : nat := if j <? v then j else j - 1.

Lemma unskip_skip v i : unskip v (skip v i) = i.
Proof. unfold skip, unskip. destruct (i <? v) eqn:E; [rewrite E; reflexivity|]. apply Nat.ltb_ge in E. destruct (S i <? v) eqn:F; [apply Nat.ltb_lt in F; lia|lia]. Qed.
Lemma skip_unskip v j : j <> v -> skip v (unskip v j) = j.
Proof.
  intros H. unfold skip, unskip. destruct (j <? v) eqn:E; [rewrite E; reflexivity|]. apply Nat.ltb_ge in E.
  destruct (j - 1 <? v) eqn:F; [apply Nat.ltb_lt in F; lia|lia].
Qed.
Lemma skip_ne v i : skip v i <> v.
Proof. unfold skip. destruct (i <? v) eqn:E; [apply Nat.ltb_lt in E|apply Nat.ltb_ge in E]; lia. Qed.
Lemma skip_lt n v i : i < n -> skip v i < S n.
Proof. intros H. unfold skip. destruct (i <? v); lia. Qed.
Lemma unskip_lt n v j : v <= n -> j < S n -> j <> v -> unskip v j < n.
Proof. intros Hv Hj Hn. unfold unskip. destruct (j <? v) eqn:E; [apply Nat.ltb_lt in E|apply Nat.ltb_ge in E]; lia. Qed.

Lemma vertices_split n v : v <= n -> Permutation (v :: map (skip v) (seq 0 n)) (seq 0 (S n)).
Proof.
  intros Hv. apply NoDup_Permutation.
  - constructor.
    + intros H. apply in_map_iff in H. destruct H as (i & E & _). exact (skip_ne v i E).
    + apply (NoDup_map_inv (unskip v)). rewrite map_map. rewrite (map_ext _ (fun i => i)) by (intros; apply unskip_skip). rewrite map_id. apply seq_NoDup.
  - apply seq_NoDup.
  - intros x. split.
    + intros [<-|H]; [apply in_seq; lia|]. apply in_map_iff in H. destruct H as (i & <- & Hi). apply in_seq in Hi. apply in_seq. pose proof (skip_lt n v i ltac:(lia)). lia.
    + intros H. apply in_seq in H. destruct (Nat.eq_dec x v) as [->|Hx]; [left; reflexivity|]. right. apply in_map_iff. exists (unskip v x). split; [apply skip_unskip, Hx|].
      apply in_seq. pose proof (unskip_lt n v x Hv ltac:(lia) Hx). lia.
Qed.

Section Drop.
Context (n v : nat) (w : nat -> nat -> Z).
Hypothesis Hn : 1 <= n.
Hypothesis Hv : v <= n.
Hypothesis Ht : triangle w (S n).

Lemma without_tour q : tour_cost (without w v) q = tour_cost w (map (skip v) q).
Proof. exact (tour_renamed (skip v) w q). Qed.

(** a tour through all vertices becomes no dearer when [v] is passed by *)
Lemma drop_tour p : is_tour (S n) p -> exists q, is_tour n q /\ (tour_cost (without w v) q <= tour_cost w p)%Z.
Proof.
  intros Hp. assert (Hin : In v p) by (apply (Permutation_in v (Permutation_sym Hp)), in_seq; lia).
  apply in_split in Hin. destruct Hin as (l1 & l2 & ->). set (r := l2 ++ l1).
  assert (Hr : Permutation r (map (skip v) (seq 0 n))).
  { apply (Permutation_cons_inv (a := v)). apply (Permutation_trans (l' := l1 ++ v :: l2)).
    - unfold r. apply (Permutation_trans (l' := v :: l1 ++ l2)); [constructor; apply Permutation_app_comm|apply Permutation_middle].
    - apply (Permutation_trans Hp), Permutation_sym, vertices_split, Hv. }
  exists (map (unskip v) r). split.
  - unfold is_tour. apply (Permutation_trans (Permutation_map _ Hr)). rewrite map_map, (map_ext _ (fun i => i)) by (intros; apply unskip_skip). rewrite map_id. apply Permutation_refl.
  - rewrite without_tour, map_map.
    assert (Hvr : forall x, In x r -> x <> v /\ x < S n).
    { intros x Hx. apply (Permutation_in x Hr), in_map_iff in Hx. destruct Hx as (i & <- & Hi). apply in_seq in Hi. split; [apply skip_ne|apply skip_lt; lia]. }
    rewrite (map_ext_in _ (fun x => x)) by (intros x Hx; apply skip_unskip, (Hvr x Hx)). rewrite map_id.
    rewrite (tour_cost_rot w l1 (v :: l2)). change ((v :: l2) ++ l1) with (v :: r).
    destruct r as [|a r']; [apply Permutation_length in Hr; rewrite map_length, seq_length in Hr; cbn in Hr; lia|].
    unfold tour_cost. change (path_cost w (v :: a :: r')) with (w v a + path_cost w (a :: r'))%Z.
    assert (El : last (v :: a :: r') v = last (a :: r') a).
    { cbn [last]. destruct r' as [|b r']; [reflexivity|]. clear. change (last (b :: r') v = last (b :: r') a). revert b. induction r' as [|c r' IH]; intros b; [reflexivity|]. exact (IH c). }
    rewrite El. assert (Hz : last (a :: r') a < S n) by (apply Hvr, last_In; discriminate).
    pose proof (Ht (last (a :: r') a) a v Hz ltac:(apply (Hvr a); left; reflexivity) ltac:(lia)). lia.
Qed.

(** and a tour without [v] can visit it from any vertex [u] and come back *)
Lemma add_tour q u : is_tour n q -> u < S n -> u <> v -> exists p, is_tour (S n) p /\ (tour_cost w p <= tour_cost (without w v) q + w u v + w v u)%Z.
Proof.
  intros Hq Hu Hne. set (r := map (skip v) q).
  assert (Hr : Permutation r (map (skip v) (seq 0 n))) by (apply Permutation_map, Hq).
  assert (Hin : In u r). { apply (Permutation_in u (Permutation_sym Hr)), in_map_iff. exists (unskip v u). split; [apply skip_unskip, Hne|]. apply in_seq. pose proof (unskip_lt n v u Hv Hu Hne). lia. }
  apply in_split in Hin. destruct Hin as (l1 & l2 & El). set (s := l2 ++ l1 ++ [u]).
  assert (Hs : Permutation s r).
  { unfold s. rewrite El. apply (Permutation_trans (Permutation_app_comm l2 (l1 ++ [u]))). rewrite <- app_assoc. apply Permutation_refl. }
  exists (v :: s). split.
  - unfold is_tour. apply (Permutation_trans (l' := v :: map (skip v) (seq 0 n))); [constructor; apply (Permutation_trans Hs Hr)|apply vertices_split, Hv].
  - rewrite without_tour. fold r. rewrite El.
    assert (Er : tour_cost w (l1 ++ u :: l2) = tour_cost w s).
    { unfold s. replace (l1 ++ u :: l2) with ((l1 ++ [u]) ++ l2) by (rewrite <- app_assoc; reflexivity). apply tour_cost_rot. }
    rewrite Er. assert (Ls : forall d, last s d = u) by (intros d; unfold s; rewrite app_assoc; apply last_last).
    assert (Hlt : forall x, In x s -> x < S n).
    { intros x Hx. apply (Permutation_in x Hs) in Hx. apply (Permutation_in x Hr), in_map_iff in Hx. destruct Hx as (i & <- & Hi). apply in_seq in Hi. apply skip_lt; lia. }
    destruct s as [|a s']; [specialize (Ls v); cbn in Ls; congruence|].
    unfold tour_cost. change (path_cost w (v :: a :: s')) with (w v a + path_cost w (a :: s'))%Z.
    change (last (v :: a :: s') v) with (last (a :: s') v). rewrite !Ls.
    pose proof (Ht v a u ltac:(lia) ltac:(apply Hlt; left; reflexivity) Hu). lia.
Qed.

Lemma optimal_without c c' p q : is_optimal w (S n) c p -> is_optimal (without w v) n c' q ->
  (c' <= c)%Z /\ forall u, u < S n -> u <> v -> (c <= c' + w u v + w v u)%Z.
Proof.
  intros (Hp & Ep & Mp) (Hq & Eq & Mq). split.
  - destruct (drop_tour p Hp) as (q' & Hq' & L). specialize (Mq q' Hq'). lia.
  - intros u Hu Hne. destruct (add_tour q u Hq Hu Hne) as (p' & Hp' & L). specialize (Mp p' Hp'). lia.
Qed.
End Drop.

Lemma sym_without n w v : symmetric w (S n) -> symmetric (without w v) n.
Proof. intros H i j Hi Hj. apply H; apply skip_lt; assumption. Qed.
Lemma nonneg_without n w v : nonneg w (S n) -> nonneg (without w v) n.
Proof. intros H i j Hi Hj. apply H; apply skip_lt; assumption. Qed.
Lemma bounded_without n w v W : bounded w (S n) W -> bounded (without w v) n W.
Proof. intros H i j Hi Hj. apply H; apply skip_lt; assumption. Qed.
