(** is_hamiltonian_cycle counts. *)
From Coq Require Import Arith Bool List Permutation Lia.
From Verif Require Import Num Base Spec SpecFacts Christofides.
Import ListNotations.

Section Scan.
Variable k : nat -> nat.
Definition scan_step : bool * bool -> nat -> bool * bool := fun '(seen_twice, ok) u =>
  if ok : bool then if k u =? 2 then (if seen_twice : bool then (true, false) else (true, true)) else (seen_twice, k u =? 1) else (seen_twice, false).

Lemma scan_dead l s : snd (fold_left scan_step l (s, false)) = false.
Proof. induction l as [|u l IH]; [reflexivity|]. exact IH. Qed.

Lemma scan_seen l : snd (fold_left scan_step l (true, true)) = true <-> forall u, In u l -> k u = 1.
Proof.
  induction l as [|u l IH]; [split; [intros _ ? []|reflexivity]|]. cbn [fold_left scan_step].
  destruct (k u =? 2) eqn:E2; [|destruct (k u =? 1) eqn:E1].
  - apply Nat.eqb_eq in E2. rewrite scan_dead. split; [discriminate|]. intros H. specialize (H u (or_introl eq_refl)). lia.
  - apply Nat.eqb_eq in E1. rewrite IH. split; [intros H x [<-|Hx]; auto|intros H x Hx; apply H; right; assumption].
  - apply Nat.eqb_neq in E1. rewrite scan_dead. split; [discriminate|]. intros H. specialize (H u (or_introl eq_refl)). lia.
Qed.

Lemma scan_fresh l : NoDup l -> (snd (fold_left scan_step l (false, true)) = true <->
  (forall u, In u l -> k u = 1) \/ (exists v, In v l /\ k v = 2 /\ forall u, In u l -> u <> v -> k u = 1)).
Proof.
  induction l as [|u l IH]; intros Hnd; [split; [intros _; left; intros ? []|reflexivity]|]. inversion Hnd as [|? ? Hni Hnd']; subst. cbn [fold_left scan_step].
  destruct (k u =? 2) eqn:E2; [|destruct (k u =? 1) eqn:E1].
  - apply Nat.eqb_eq in E2. rewrite scan_seen. split.
    + intros H. right. exists u. split; [left; reflexivity|]. split; [assumption|]. intros x [<-|Hx] Hne; [congruence|auto].
    + intros [H|(v & Hv & Ev & H)] x Hx.
      * specialize (H u (or_introl eq_refl)). lia.
      * destruct (Nat.eq_dec v u) as [->|Hne]; [apply H; [right; assumption|]; intros ->; contradiction|]. specialize (H u (or_introl eq_refl) ltac:(congruence)). lia.
  - apply Nat.eqb_eq in E1. rewrite IH by assumption. split.
    + intros [H|(v & Hv & Ev & H)]; [left; intros x [<-|Hx]; auto|]. right. exists v. split; [right; assumption|]. split; [assumption|]. intros x [<-|Hx] Hne; auto.
    + intros [H|(v & [<-|Hv] & Ev & H)]; [left; intros x Hx; apply H; right; assumption|lia|]. right. exists v. split; [assumption|]. split; [assumption|]. intros x Hx. apply H. right. assumption.
  - apply Nat.eqb_neq in E1. apply Nat.eqb_neq in E2. rewrite scan_dead. split; [discriminate|]. intros [H|(v & Hv & Ev & H)].
    + specialize (H u (or_introl eq_refl)). lia.
    + destruct (Nat.eq_dec u v) as [->|Hne]; [lia|]. specialize (H u (or_introl eq_refl) Hne). lia.
Qed.
End Scan.

Lemma count_seq n u : count_occ Nat.eq_dec (seq 0 n) u = if u <? n then 1 else 0.
Proof.
  destruct (u <? n) eqn:E.
  - apply Nat.ltb_lt in E. apply NoDup_count_occ'; [apply seq_NoDup|apply in_seq; lia].
  - apply Nat.ltb_ge in E. apply count_occ_not_In. rewrite in_seq. lia.
Qed.

Lemma is_hamiltonian_iff p n : is_hamiltonian_cycle p n = true <->
  Permutation p (seq 0 n) \/ exists v, v < n /\ Permutation p (v :: seq 0 n).
Proof.
  unfold is_hamiltonian_cycle. set (k := fun u => count_occ Nat.eq_dec p u).
  change (fold_left _ (seq 0 n) (false, true)) with (fold_left (scan_step k) (seq 0 n) (false, true)).
  destruct (forallb (fun u => u <? n) p) eqn:Ef.
  - rewrite scan_fresh by apply seq_NoDup. rewrite forallb_forall in Ef.
    assert (Hz : forall u, n <= u -> k u = 0) by (intros u Hu; apply count_occ_not_In; intros Hin; specialize (Ef u Hin); apply Nat.ltb_lt in Ef; lia).
    split; intros [H|(v & Hv & H)].
    + left. apply (Permutation_count_occ Nat.eq_dec). intros u. rewrite count_seq. fold (k u). destruct (u <? n) eqn:E.
      * apply Nat.ltb_lt in E. apply H, in_seq. lia.
      * apply Nat.ltb_ge in E. auto.
    + right. destruct H as [Ev H]. apply in_seq in Hv. exists v. split; [lia|]. apply (Permutation_count_occ Nat.eq_dec). intros u. cbn [count_occ]. rewrite count_seq. fold (k u).
      destruct (Nat.eq_dec v u) as [->|Hne].
      * rewrite Ev. replace (u <? n) with true by (symmetry; apply Nat.ltb_lt; lia). reflexivity.
      * destruct (u <? n) eqn:E; [apply Nat.ltb_lt in E; apply H; [apply in_seq; lia|congruence]|apply Nat.ltb_ge in E; auto].
    + left. intros u Hu. apply in_seq in Hu. unfold k. rewrite (proj1 (Permutation_count_occ Nat.eq_dec p _) H), count_seq.
      replace (u <? n) with true by (symmetry; apply Nat.ltb_lt; lia). reflexivity.
    + right. exists v. split; [apply in_seq; lia|]. unfold k. split.
      * rewrite (proj1 (Permutation_count_occ Nat.eq_dec p _) H). cbn [count_occ]. rewrite count_seq. destruct (Nat.eq_dec v v); [|congruence].
        replace (v <? n) with true by (symmetry; apply Nat.ltb_lt; lia). reflexivity.
      * intros u Hu Hne. apply in_seq in Hu. rewrite (proj1 (Permutation_count_occ Nat.eq_dec p _) H). cbn [count_occ]. rewrite count_seq.
        destruct (Nat.eq_dec v u); [congruence|]. replace (u <? n) with true by (symmetry; apply Nat.ltb_lt; lia). reflexivity.
  - split; [discriminate|]. intros H. rewrite <- Ef. apply forallb_forall. intros u Hu. apply Nat.ltb_lt.
    destruct H as [H|(v & Hv & H)]; apply (Permutation_in _ H) in Hu; [apply in_seq in Hu; lia|]. destruct Hu as [<-|Hu]; [assumption|]. apply in_seq in Hu. lia.
Qed.
