(** Random shuffles.

    Nothing here models a function of the repository: this is [shuffle] of the crate rand 0.8
    (seq/mod.rs, [for i in (1..len).rev() { self.swap(i, gen_index(rng, i + 1)) }]).  The
    numbers drawn are an argument, over which the theorems quantify: the draw for position
    [i] is [draws i] reduced below [i + 1]. *)
From Coq Require Import Arith Bool List Lia Permutation.
From Verif Require Import Base.
Import ListNotations.

(** [l.swap(i, j)]; both indices are in range where it is used *)
Definition swap {A} (l : list A) (i j : nat) : list A :=
  match nth_error l i, nth_error l j with
  | Some x, Some y => upd (upd l i y) j x
  | _, _ => l
  end.

Definition shuffle {A} (draws : nat -> nat) (l : list A) : list A :=
  fold_left (fun l i => swap l i (draws i mod (i + 1))) (rev (seq 1 (length l - 1))) l.

Lemma upd_split {A} (l : list A) i x y : nth_error l i = Some x ->
  exists l1 l2, l = l1 ++ x :: l2 /\ length l1 = i /\ upd l i y = l1 ++ y :: l2.
Proof.
  revert i. induction l as [|a l IH]; intros i H; [destruct i; discriminate|]. destruct i as [|i].
  - injection H as <-. exists [], l. auto.
  - destruct (IH i H) as (l1 & l2 & -> & <- & E). exists (a :: l1), l2. cbn. rewrite E. auto.
Qed.

Lemma upd_app {A} (a b : list A) u x : upd (a ++ u :: b) (length a) x = a ++ x :: b.
Proof. induction a; cbn; [reflexivity|]. rewrite IHa. reflexivity. Qed.

Lemma swap_perm {A} (l : list A) i j : Permutation (swap l i j) l.
Proof.
  unfold swap. destruct (nth_error l i) as [x|] eqn:Ei; [|reflexivity].
  destruct (nth_error l j) as [y|] eqn:Ej; [|reflexivity].
  destruct (upd_split l i x y Ei) as (l1 & l2 & -> & Hl & ->).
  destruct (Nat.lt_trichotomy j (length l1)) as [H|[H|H]].
  - rewrite nth_error_app1 in Ej by lia.
    destruct (upd_split l1 j y x Ej) as (a & b & -> & Hb & _).
    rewrite <- !app_assoc. cbn [app]. subst j. rewrite upd_app. apply Permutation_app_head.
    etransitivity; [apply Permutation_sym, (Permutation_middle (x :: b) l2 y)|]. cbn [app].
    apply perm_skip. apply Permutation_middle.
  - subst j i. rewrite nth_error_app2, Nat.sub_diag in Ej by lia. injection Ej as ->.
    rewrite upd_app. reflexivity.
  - rewrite nth_error_app2 in Ej by lia. destruct (j - length l1) as [|k] eqn:Ek; [lia|]. cbn in Ej.
    destruct (upd_split l2 k y x Ej) as (a & b & -> & Hb & _).
    assert (G : upd (l1 ++ y :: a ++ y :: b) j x = l1 ++ y :: a ++ x :: b).
    { replace (l1 ++ y :: a ++ y :: b) with ((l1 ++ y :: a) ++ y :: b) by (rewrite <- app_assoc; reflexivity).
      replace j with (length (l1 ++ y :: a)) by (rewrite app_length; cbn; lia).
      rewrite upd_app, <- app_assoc. reflexivity. }
    rewrite G. apply Permutation_app_head.
    etransitivity; [|apply (Permutation_middle (x :: a) b y)]. cbn [app].
    apply perm_skip. apply Permutation_sym, Permutation_middle.
Qed.

Theorem shuffle_perm {A} draws (l : list A) : Permutation (shuffle draws l) l.
Proof.
  unfold shuffle. generalize (rev (seq 1 (length l - 1))). intros is. revert l.
  induction is as [|i is IH]; intros l; [reflexivity|]. cbn [fold_left]. rewrite IH. apply swap_perm.
Qed.
