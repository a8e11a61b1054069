(** What [is_metric] computes.  (Proofs.) *)
From Coq Require Import ZArith Arith Bool List Lia.
From Verif Require Import Num Base Spec Data.
Import ListNotations.

Lemma foldM_forallb {A} (f : A -> bool) (step : bool -> A -> res bool) l ok :
  (forall ok x, In x l -> step ok x = Ok (ok && f x)) -> foldM step l ok = Ok (ok && forallb f l).
Proof.
  revert ok. induction l as [|x l IH]; intros ok H; cbn [foldM forallb]; [rewrite andb_true_r; reflexivity|].
  rewrite H by (left; reflexivity). cbn [bind]. rewrite IH by (intros; apply H; right; assumption). rewrite andb_assoc. reflexivity.
Qed.

Section Metric.
Context {N : Num}.
Variable a : adj N.
Variable v : nat -> nat -> C N.
Hypothesis Hget : forall i j, i < a_dim a -> j < a_dim a -> a_get a i j = Ok (v i j).

Definition no_shortcut (i j k : nat) : bool := negb (clt (cadd (cadd (v i k) (v k j)) ceps) (v i j)).

Lemma is_metric_value : is_metric a =
  Ok (forallb (fun i => forallb (fun j => forallb (no_shortcut i j) (seq 0 (a_dim a))) (seq i (a_dim a - i))) (seq 0 (a_dim a))).
Proof.
  unfold is_metric. rewrite (foldM_forallb (fun i => forallb (fun j => forallb (no_shortcut i j) (seq 0 (a_dim a))) (seq i (a_dim a - i)))); [reflexivity|].
  intros ok i Hi. apply in_seq in Hi. apply foldM_forallb. intros ok2 j Hj. apply in_seq in Hj.
  destruct ok2; [|reflexivity]. rewrite Hget by lia. cbn [bind]. apply foldM_forallb. intros ok3 k Hk. apply in_seq in Hk.
  destruct ok3; [|reflexivity]. rewrite !Hget by lia. reflexivity.
Qed.

Lemma is_metric_iff : (exists b, is_metric a = Ok b) /\
  (is_metric a = Ok true <-> forall i j k, i <= j -> j < a_dim a -> k < a_dim a -> clt (cadd (cadd (v i k) (v k j)) ceps) (v i j) = false).
Proof.
  rewrite is_metric_value. split; [eexists; reflexivity|]. split.
  - intros H i j k Hi Hj Hk. injection H as H. rewrite forallb_forall in H. specialize (H i ltac:(apply in_seq; lia)).
    rewrite forallb_forall in H. specialize (H j ltac:(apply in_seq; lia)). rewrite forallb_forall in H. specialize (H k ltac:(apply in_seq; lia)).
    apply negb_true_iff. exact H.
  - intros H. f_equal. apply forallb_forall. intros i Hi. apply forallb_forall. intros j Hj. apply forallb_forall. intros k Hk. apply in_seq in Hi, Hj, Hk.
    apply negb_true_iff. apply H; lia.
Qed.
End Metric.
