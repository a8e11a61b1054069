(** Facts about the specification notions of Spec.v (nothing about the model). *)
From Coq Require Import ZArith List Permutation Lia.
From Verif Require Import Spec.
Import ListNotations.
Local Open Scope Z_scope.

Lemma tour_length n p : is_tour n p -> length p = n.
Proof. intros H. apply Permutation_length in H. rewrite seq_length in H. assumption. Qed.

Lemma tour_NoDup n p : is_tour n p -> NoDup p.
Proof. intros H. apply (Permutation_NoDup (Permutation_sym H)). apply seq_NoDup. Qed.

Lemma tour_In n p i : is_tour n p -> (In i p <-> (i < n)%nat).
Proof.
  intros H. split; intros Hi.
  - apply (Permutation_in _ H) in Hi. apply in_seq in Hi. lia.
  - apply (Permutation_in _ (Permutation_sym H)). apply in_seq. lia.
Qed.

Lemma tour_Forall n p : is_tour n p -> Forall (fun i => (i < n)%nat) p.
Proof. intros H. apply Forall_forall. intros i Hi. apply (tour_In n p); assumption. Qed.

Lemma tour_intro n p : NoDup p -> Forall (fun i => (i < n)%nat) p -> length p = n -> is_tour n p.
Proof.
  intros H1 H2 H3. apply NoDup_Permutation_bis; try assumption.
  - rewrite seq_length. lia.
  - intros i Hi. rewrite Forall_forall in H2. specialize (H2 i Hi). apply in_seq. lia.
Qed.

Lemma tour_seq n : is_tour n (seq 0 n).
Proof. apply Permutation_refl. Qed.

Lemma tour_nonempty n p : is_tour n p -> (1 <= n)%nat -> p <> [].
Proof. intros H Hn E. apply tour_length in H. subst p. simpl in H. lia. Qed.

Lemma last_default {A} (p : list A) d d' : p <> [] -> last p d = last p d'.
Proof.
  intros H. destruct (exists_last H) as (p' & y & ->). rewrite !last_last. reflexivity.
Qed.

Lemma nth_last {A} (p : list A) d : p <> [] -> nth (length p - 1) p d = last p d.
Proof.
  intros H. destruct (exists_last H) as (p' & y & ->). rewrite last_last, app_length. simpl.
  rewrite app_nth2 by lia. replace (length p' + 1 - 1 - length p')%nat with 0%nat by lia. reflexivity.
Qed.

Section Costs.
Variable w : nat -> nat -> Z.

Lemma path_cost_app a p q : path_cost w (p ++ a :: q) = path_cost w (p ++ [a]) + path_cost w (a :: q).
Proof.
  induction p as [|x p IH].
  - simpl app. destruct q; simpl; lia.
  - destruct p as [|y p].
    + simpl app. destruct q; simpl; lia.
    + change (path_cost w ((x :: y :: p) ++ a :: q)) with (w x y + path_cost w ((y :: p) ++ a :: q)).
      change (path_cost w ((x :: y :: p) ++ [a])) with (w x y + path_cost w ((y :: p) ++ [a])).
      rewrite IH. lia.
Qed.

Lemma path_cost_snoc p x d : p <> [] -> path_cost w (p ++ [x]) = path_cost w p + w (last p d) x.
Proof.
  intros H. destruct (exists_last H) as (p' & y & ->).
  rewrite last_last, <- app_assoc. change ([y] ++ [x]) with (y :: [x]).
  rewrite path_cost_app. simpl. lia.
Qed.

Lemma tour_cost_closed a t : tour_cost w (a :: t) = path_cost w ((a :: t) ++ [a]).
Proof.
  unfold tour_cost. rewrite (path_cost_snoc (a :: t) a a) by discriminate. reflexivity.
Qed.

Lemma tour_cost_rot p q : tour_cost w (p ++ q) = tour_cost w (q ++ p).
Proof.
  destruct p as [|a p]; [rewrite app_nil_r; reflexivity|].
  destruct q as [|b q]; [rewrite app_nil_r; reflexivity|].
  assert (E1 : tour_cost w ((a :: p) ++ b :: q) = path_cost w ((a :: p) ++ b :: (q ++ [a]))).
  { simpl app. rewrite tour_cost_closed. simpl app. rewrite <- app_assoc. reflexivity. }
  assert (E2 : tour_cost w ((b :: q) ++ a :: p) = path_cost w ((b :: q) ++ a :: (p ++ [b]))).
  { simpl app. rewrite tour_cost_closed. simpl app. rewrite <- app_assoc. reflexivity. }
  rewrite E1, E2, (path_cost_app b), (path_cost_app a). simpl app. lia.
Qed.

Lemma path_cost_rev n p : symmetric w n -> Forall (fun i => (i < n)%nat) p ->
  path_cost w (rev p) = path_cost w p.
Proof.
  intros Hs. induction p as [|a [|b p] IH]; intros H; [reflexivity..|].
  change (rev (a :: b :: p)) with ((rev p ++ [b]) ++ [a]).
  rewrite <- app_assoc. simpl app. rewrite path_cost_app.
  change (rev p ++ [b]) with (rev (b :: p)). rewrite IH by (inversion H; assumption).
  inversion H as [|? ? Ha H']; subst. inversion H' as [|? ? Hb _]; subst.
  change (path_cost w (a :: b :: p)) with (w a b + path_cost w (b :: p)).
  change (path_cost w [b; a]) with (w b a + 0). rewrite (Hs a b) by assumption. lia.
Qed.

Lemma tour_cost_rev n p : symmetric w n -> Forall (fun i => (i < n)%nat) p ->
  tour_cost w (rev p) = tour_cost w p.
Proof.
  intros Hs H. destruct p as [|a p]; [reflexivity|].
  simpl rev. rewrite tour_cost_rot. simpl app. rewrite !tour_cost_closed.
  rewrite <- (path_cost_rev n ((a :: rev p) ++ [a]) Hs).
  - rewrite rev_app_distr. simpl. rewrite rev_involutive. reflexivity.
  - inversion H; subst. constructor; [assumption|]. apply Forall_app. split.
    + apply Forall_rev; assumption.
    + constructor; [assumption|constructor].
Qed.

Lemma path_cost_bound n p W : bounded w n W -> Forall (fun i => (i < n)%nat) p -> 0 <= W ->
  Z.abs (path_cost w p) <= W * Z.of_nat (length p).
Proof.
  intros Hb. induction p as [|a [|b p] IH]; intros H HW; [simpl; lia..|].
  inversion H as [|? ? Ha H']; subst. inversion H' as [|? ? Hb' _]; subst.
  change (path_cost w (a :: b :: p)) with (w a b + path_cost w (b :: p)).
  specialize (IH H' HW). pose proof (Hb a b Ha Hb'). simpl length in *. lia.
Qed.

Lemma path_cost_nonneg n p : nonneg w n -> Forall (fun i => (i < n)%nat) p -> 0 <= path_cost w p.
Proof.
  intros Hb. induction p as [|a [|b p] IH]; intros H; [simpl; lia..|].
  inversion H as [|? ? Ha H']; subst. inversion H' as [|? ? Hb' _]; subst.
  change (path_cost w (a :: b :: p)) with (w a b + path_cost w (b :: p)).
  specialize (IH H'). pose proof (Hb a b Ha Hb'). lia.
Qed.

Lemma last_In {A} (p : list A) d : p <> [] -> In (last p d) p.
Proof.
  intros H. destruct (exists_last H) as (p' & y & ->). rewrite last_last.
  apply in_or_app. right; left; reflexivity.
Qed.

Lemma tour_cost_bound n p W : bounded w n W -> Forall (fun i => (i < n)%nat) p -> 0 <= W ->
  Z.abs (tour_cost w p) <= W * (Z.of_nat (length p) + 1).
Proof.
  intros Hb H HW. destruct p as [|a p]; [simpl; lia|].
  rewrite tour_cost_closed.
  assert (Z.abs (path_cost w ((a :: p) ++ [a])) <= W * Z.of_nat (length ((a :: p) ++ [a]))).
  { apply (path_cost_bound n); try assumption. apply Forall_app. split; [assumption|].
    inversion H; subst. constructor; [assumption|constructor]. }
  rewrite app_length in H0. simpl length in *. lia.
Qed.

(** Prefixes of a tour cost no more than the tour (nonnegative costs). *)
Lemma prefix_cost_le n p r : nonneg w n -> Forall (fun i => (i < n)%nat) (p ++ r) ->
  path_cost w p <= tour_cost w (p ++ r).
Proof.
  intros Hn H. destruct p as [|a p].
  - simpl app in *. simpl path_cost. destruct r as [|b r]; [simpl; lia|].
    rewrite tour_cost_closed. apply (path_cost_nonneg n); [assumption|].
    apply Forall_app; split; [assumption|]. inversion H; subst. constructor; [assumption|constructor].
  - simpl app. rewrite tour_cost_closed. simpl app. rewrite <- app_assoc.
    assert (Hc : Forall (fun i => (i < n)%nat) ((a :: p) ++ r ++ [a])).
    { rewrite app_assoc. apply Forall_app; split; [assumption|].
      inversion H; subst. constructor; [assumption|constructor]. }
    clear H. revert Hc. generalize (r ++ [a]). clear r. intros r Hc.
    assert (Ha : a :: p <> []) by discriminate.
    destruct (exists_last Ha) as (p' & y & E). rewrite E in *.
    change (path_cost w (a :: p ++ r)) with (path_cost w ((a :: p) ++ r)). rewrite E.
    rewrite <- app_assoc in *. simpl app in *. rewrite (path_cost_app y p' r).
    pose proof (path_cost_nonneg n (y :: r) Hn). apply Forall_app in Hc. destruct Hc as [_ Hc].
    specialize (H Hc). lia.
Qed.

End Costs.
