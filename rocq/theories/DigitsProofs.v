(** Digits and chunks: exact.rs:564-614. *)
From Coq Require Import Arith Bool List Permutation Lia.
From Verif Require Import Num Base Spec Data Mst Exact.
Import ListNotations.

Section Digits.
Variable b : nat.
Hypothesis Hb : 1 <= b.

Definition digits_ok (l : list nat) : Prop := Forall (fun d => d < b) l.

(** value of a number written least significant digit first *)
Fixpoint vrev (l : list nat) : nat := match l with [] => 0 | d :: t => d + b * vrev t end.

Lemma vrev_app l l' : vrev (l ++ l') = vrev l + b ^ length l * vrev l'.
Proof. induction l as [|d l IH]; simpl; [lia|]. rewrite IH. lia. Qed.

Lemma value_vrev l : number b l = vrev (rev l).
Proof.
  unfold number. rewrite <- fold_left_rev_right. rewrite <- (rev_involutive l) at 1.
  rewrite rev_involutive. induction (rev l) as [|d t IH]; simpl; [reflexivity|]. rewrite IH. lia.
Qed.

Lemma vrev_lt l : digits_ok l -> vrev l < b ^ length l.
Proof.
  induction l as [|d l IH]; simpl; intros H; [lia|]. inversion H; subst. specialize (IH ltac:(assumption)). nia.
Qed.

Lemma value_lt l : digits_ok l -> number b l < b ^ length l.
Proof. intros H. rewrite value_vrev, <- rev_length. apply vrev_lt. apply Forall_rev. assumption. Qed.

Lemma digits_rev_length v k : length (digits_rev v b k) = k.
Proof. revert v. induction k; simpl; intros; auto. Qed.

Lemma digits_rev_ok v k : digits_ok (digits_rev v b k).
Proof.
  revert v. induction k; simpl; intros v; constructor; [|apply IHk]. apply Nat.mod_upper_bound. lia.
Qed.

Lemma vrev_digits v k : vrev (digits_rev v b k) = v mod b ^ k.
Proof.
  revert v. induction k as [|k IH]; intros v; cbn [digits_rev vrev]; [rewrite Nat.pow_0_r, Nat.mod_1_r; reflexivity|].
  rewrite IH. rewrite Nat.pow_succ_r'. rewrite Nat.mod_mul_r by (try lia; apply Nat.pow_nonzero; lia). lia.
Qed.

Lemma digits_vrev l : digits_ok l -> digits_rev (vrev l) b (length l) = l.
Proof.
  induction l as [|d l IH]; simpl; intros H; [reflexivity|]. inversion H; subst.
  rewrite (Nat.mul_comm b), Nat.mod_add, Nat.div_add by lia. rewrite Nat.mod_small, Nat.div_small by assumption.
  simpl. rewrite IH by assumption. reflexivity.
Qed.

Lemma convert_length v k : length (convert_to_b_ary_digits v b k) = k.
Proof. unfold convert_to_b_ary_digits. rewrite rev_length. apply digits_rev_length. Qed.
Lemma convert_ok v k : digits_ok (convert_to_b_ary_digits v b k).
Proof. apply Forall_rev. apply digits_rev_ok. Qed.
Lemma number_convert v k : number b (convert_to_b_ary_digits v b k) = v mod b ^ k.
Proof. unfold convert_to_b_ary_digits. rewrite value_vrev, rev_involutive. apply vrev_digits. Qed.
Lemma convert_number l : digits_ok l -> convert_to_b_ary_digits (number b l) b (length l) = l.
Proof.
  intros H. unfold convert_to_b_ary_digits. rewrite value_vrev, <- (rev_length l).
  rewrite digits_vrev by (apply Forall_rev; assumption). apply rev_involutive.
Qed.
Lemma number_inj l l' : digits_ok l -> digits_ok l' -> length l = length l' -> number b l = number b l' -> l = l'.
Proof. intros H H' Hl E. rewrite <- (convert_number l H), <- (convert_number l' H'), E, Hl. reflexivity. Qed.

Lemma next_rev_spec l : digits_ok l ->
  let '(r, l') := next_rev b 1 l in digits_ok l' /\ length l' = length l /\
    if r : bool then vrev l' = S (vrev l) else S (vrev l) = b ^ length l.
Proof.
  induction l as [|d l IH]; intros H; [simpl; auto|]. inversion H as [|? ? Hd Hl]; subst. simpl.
  replace (d + 1) with (S d) by lia.
  destruct (Nat.eq_dec (S d) b) as [E|Ne].
  - rewrite E, Nat.div_same, Nat.mod_same by lia. simpl.
    specialize (IH Hl). destruct (next_rev b 1 l) as [r l'] eqn:En. destruct IH as (I1 & I2 & I3).
    split; [constructor; [lia|assumption]|]. split; [simpl; lia|]. destruct r; simpl; nia.
  - rewrite Nat.div_small, Nat.mod_small by lia. simpl.
    split; [constructor; [lia|assumption]|]. split; [reflexivity|]. simpl. lia.
Qed.

Theorem get_next_value_spec l : digits_ok l ->
  match get_next_value l b with
  | Some l' => digits_ok l' /\ length l' = length l /\ number b l' = S (number b l)
  | None => S (number b l) = b ^ length l
  end.
Proof.
  intros H. unfold get_next_value. pose proof (next_rev_spec (rev l) ltac:(apply Forall_rev; assumption)) as Hs.
  destruct (next_rev b 1 (rev l)) as [[|] l']; destruct Hs as (H1 & H2 & H3).
  - split; [apply Forall_rev; assumption|]. split; [rewrite rev_length, H2, rev_length; reflexivity|].
    rewrite !value_vrev, rev_involutive. assumption.
  - rewrite value_vrev, H3, rev_length. reflexivity.
Qed.

Corollary get_next_value_convert v k : S v < b ^ k ->
  get_next_value (convert_to_b_ary_digits v b k) b = Some (convert_to_b_ary_digits (S v) b k).
Proof.
  intros Hv. pose proof (get_next_value_spec (convert_to_b_ary_digits v b k) (convert_ok v k)) as H.
  rewrite number_convert, Nat.mod_small in H by lia. destruct (get_next_value _ _) as [l'|].
  - destruct H as (H1 & H2 & H3). f_equal. rewrite convert_length in H2.
    rewrite <- (convert_number l' H1), H3, H2. reflexivity.
  - rewrite convert_length in H. lia.
Qed.

Corollary get_next_value_overflow v k : S v = b ^ k ->
  get_next_value (convert_to_b_ary_digits v b k) b = None.
Proof.
  intros Hv. pose proof (get_next_value_spec (convert_to_b_ary_digits v b k) (convert_ok v k)) as H.
  rewrite number_convert, Nat.mod_small in H by lia. destruct (get_next_value _ _) as [l'|]; [|reflexivity].
  destruct H as (H1 & H2 & H3). rewrite convert_length in H2.
  pose proof (value_lt l' H1). rewrite H2 in H. lia.
Qed.
End Digits.

(** ** Chunks *)
Theorem split_spec digits b n k : 1 <= n -> n < b ^ digits ->
  split_up_b_ary_number_into_n_chunks digits b n k =
    let size := b ^ digits / n in
    Ok (convert_to_b_ary_digits (k * size) b digits, convert_to_b_ary_digits (k * size + size - 1) b digits).
Proof.
  intros Hn Ht. unfold split_up_b_ary_number_into_n_chunks.
  replace (n <? b ^ digits) with true by (symmetry; apply Nat.ltb_lt; assumption).
  replace (n =? 0) with false by (symmetry; apply Nat.eqb_neq; lia). reflexivity.
Qed.

Theorem split_panics digits b n k : b ^ digits <= n \/ n = 0 ->
  split_up_b_ary_number_into_n_chunks digits b n k = Panic.
Proof.
  intros [H| ->]; unfold split_up_b_ary_number_into_n_chunks.
  - replace (n <? b ^ digits) with false by (symmetry; apply Nat.ltb_ge; assumption). reflexivity.
  - destruct (0 <? b ^ digits); reflexivity.
Qed.

(** the key [v] lies in chunk [v / size], and in no other *)
Theorem chunk_of_key total n v : 1 <= n -> n < total -> v < total - total mod n ->
  let size := total / n in
  let k := v / size in
  k < n /\ k * size <= v <= k * size + size - 1 /\
  forall k', k' * size <= v <= k' * size + size - 1 -> k' = k.
Proof.
  intros Hn Ht Hv size k.
  assert (Hs : 1 <= size) by (apply Nat.div_le_lower_bound; lia).
  assert (Htot : total - total mod n = n * size) by (pose proof (Nat.div_mod total n ltac:(lia)); unfold size; lia).
  assert (Hk : k < n) by (apply Nat.div_lt_upper_bound; lia).
  pose proof (Nat.div_mod v size ltac:(lia)) as Hdm. fold k in Hdm.
  pose proof (Nat.mod_upper_bound v size ltac:(lia)).
  split; [assumption|]. split; [lia|]. intros k' Hk'. unfold k.
  apply (Nat.div_unique v size k' (v - k' * size)); lia.
Qed.
