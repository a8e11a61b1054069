(** The tours of an instance with every way turned round. *)
From Coq Require Import ZArith Arith List Permutation Lia.
From Verif Require Import Spec SpecFacts ReverseSpec.
Import ListNotations.
Local Open Scope Z_scope.

Lemma path_reversed w p : path_cost (reversed w) (rev p) = path_cost w p.
Proof.
  induction p as [|a [|b p] IH]; [reflexivity..|].
  change (rev (a :: b :: p)) with ((rev p ++ [b]) ++ [a]). rewrite <- app_assoc. cbn [app]. rewrite path_cost_app.
  change (rev p ++ [b]) with (rev (b :: p)). rewrite IH.
  change (path_cost w (a :: b :: p)) with (w a b + path_cost w (b :: p)). change (path_cost (reversed w) [b; a]) with (w a b + 0). lia.
Qed.

Lemma tour_reversed w p : tour_cost (reversed w) (rev p) = tour_cost w p.
Proof.
  destruct p as [|a p]; [reflexivity|]. cbn [rev]. rewrite tour_cost_rot. cbn [app]. rewrite !tour_cost_closed, <- (path_reversed w).
  rewrite rev_app_distr. reflexivity.
Qed.

Lemma is_tour_rev n p : is_tour n p -> is_tour n (rev p).
Proof. intros H. unfold is_tour. rewrite <- H. symmetry. apply Permutation_rev. Qed.

Lemma optimal_reversed w n c p : is_optimal w n c p -> is_optimal (reversed w) n c (rev p).
Proof.
  intros (T & E & L). split; [apply is_tour_rev, T|]. split; [rewrite tour_reversed; exact E|]. intros q Hq.
  rewrite <- (rev_involutive q), tour_reversed. apply L, is_tour_rev, Hq.
Qed.

Lemma bounded_reversed w n W : bounded w n W -> bounded (reversed w) n W.
Proof. intros H i j Hi Hj. apply H; assumption. Qed.
Lemma nonneg_reversed w n : nonneg w n -> nonneg (reversed w) n.
Proof. intros H i j Hi Hj. apply H; assumption. Qed.
Lemma triangle_reversed w n : triangle w n -> triangle (reversed w) n.
Proof. intros H i j k Hi Hj Hk. unfold reversed. specialize (H j i k Hj Hi Hk). lia. Qed.
