(** The work splits on machine integers agree with those on natural numbers.  (Proofs.) *)
From Coq Require Import ZArith Arith Bool List Lia ZifyBool.
From Verif Require Import Num Base Exact Threaded Nn DigitsProofs Machine.
Import ListNotations.

(** a result on natural numbers, read as one on machine integers *)
Definition on_machine {A B} (f : A -> B) (r : res A) : res B :=
  match r with Ok a => Ok (f a) | Panic => Panic | OutOfFuel => OutOfFuel end.
Definition words (l : list nat) : list Z := map Z.of_nat l.

Lemma usize_ok b z : (0 <= z < 2 ^ 64)%Z -> usize b z = Ok z.
Proof. intros H. unfold usize, machine. replace ((0 <=? z) && (z <? 2 ^ 64))%Z with true by lia. reflexivity. Qed.
Lemma usize_over z : (2 ^ 64 <= z)%Z -> usize Debug z = Panic.
Proof. intros H. unfold usize, machine. replace ((0 <=? z) && (z <? 2 ^ 64))%Z with false by lia. reflexivity. Qed.
Lemma i32_ok b z : (- 2 ^ 31 <= z < 2 ^ 31)%Z -> i32 b z = Ok z.
Proof. intros H. unfold i32, machine. replace ((- 2 ^ 31 <=? z) && (z <? 2 ^ 31))%Z with true by lia. reflexivity. Qed.

Lemma square_pow (base : Z) e : (base ^ Zpos (xO e) = (base * base) ^ Zpos e)%Z.
Proof. rewrite Z.pow_mul_l. rewrite <- Z.pow_add_r by lia. f_equal. lia. Qed.
Lemma odd_pow (base : Z) e : (base ^ Zpos (xI e) = base * (base * base) ^ Zpos e)%Z.
Proof. rewrite Z.pow_mul_l, <- Z.pow_add_r by lia. rewrite <- Z.pow_succ_r by lia. f_equal. lia. Qed.

Lemma pow_grows (x : Z) e : (1 <= x)%Z -> (x <= x ^ Zpos e)%Z.
Proof.
  intros H. replace (Zpos e) with (Z.succ (Zpos e - 1)) by lia. rewrite Z.pow_succ_r by lia.
  assert (1 <= x ^ (Zpos e - 1))%Z by (assert (0 < x ^ (Zpos e - 1))%Z by (apply Z.pow_pos_nonneg; lia); lia). nia.
Qed.

Lemma pow_loop_zero b e : pow_loop b e 0 0 = Ok 0%Z.
Proof.
  induction e as [e IH|e IH|]; cbn [pow_loop]; unfold u_mul; rewrite Z.mul_0_l, (usize_ok b 0) by lia; cbn [bind]; rewrite ?(usize_ok b 0) by lia; cbn [bind]; try exact IH; reflexivity.
Qed.

Lemma pow_loop_ok b e : forall base acc, (0 <= base)%Z -> (1 <= acc)%Z -> (acc * base ^ Zpos e < 2 ^ 64)%Z ->
  pow_loop b e base acc = Ok (acc * base ^ Zpos e)%Z.
Proof.
  induction e as [e IH|e IH|]; intros base acc Hb Ha H; cbn [pow_loop].
  - rewrite (odd_pow base e) in *. destruct (Z.eq_dec base 0) as [->|Hn].
    + unfold u_mul. rewrite Z.mul_0_r, (usize_ok b 0) by lia. cbn [bind]. rewrite Z.mul_0_l, (usize_ok b 0) by lia. cbn [bind].
      rewrite pow_loop_zero. f_equal. lia.
    + pose proof (pow_grows (base * base) e ltac:(nia)) as G. set (P := ((base * base) ^ Zpos e)%Z) in *.
      assert (acc * base <= acc * (base * P))%Z by nia. assert (base * base <= acc * (base * P))%Z by nia.
      unfold u_mul. rewrite (usize_ok b (acc * base)) by nia. cbn [bind]. rewrite (usize_ok b (base * base)) by nia. cbn [bind].
      rewrite IH; [f_equal; unfold P; ring|nia|nia|unfold P in *; rewrite <- Z.mul_assoc; exact H].
  - rewrite (square_pow base e) in *. destruct (Z.eq_dec base 0) as [->|Hn].
    + unfold u_mul. cbn [Z.mul]. rewrite (usize_ok b 0) by lia. cbn [bind]. rewrite IH; [reflexivity|lia|lia|exact H].
    + pose proof (pow_grows (base * base) e ltac:(nia)) as G.
      assert (base * base < 2 ^ 64)%Z by nia.
      unfold u_mul. rewrite (usize_ok b (base * base)) by nia. cbn [bind]. apply IH; [nia|lia|exact H].
  - rewrite Z.pow_1_r in *. unfold u_mul. apply usize_ok. nia.
Qed.

Lemma pow_loop_over e : forall base acc, (0 <= base)%Z -> (0 <= acc)%Z -> (2 ^ 64 <= acc * base ^ Zpos e)%Z ->
  pow_loop Debug e base acc = Panic.
Proof.
  induction e as [e IH|e IH|]; intros base acc Hb Ha H; cbn [pow_loop].
  - rewrite (odd_pow base e) in H. unfold u_mul. destruct (Z.lt_ge_cases (acc * base) (2 ^ 64)) as [H1|H1]; [|rewrite usize_over by exact H1; reflexivity].
    rewrite (usize_ok _ (acc * base)) by nia. cbn [bind]. destruct (Z.lt_ge_cases (base * base) (2 ^ 64)) as [H2|H2]; [|rewrite usize_over by exact H2; reflexivity].
    rewrite (usize_ok _ (base * base)) by nia. cbn [bind]. apply IH; [nia|nia|]. rewrite <- Z.mul_assoc. exact H.
  - rewrite (square_pow base e) in H. unfold u_mul. destruct (Z.lt_ge_cases (base * base) (2 ^ 64)) as [H2|H2]; [|rewrite usize_over by exact H2; reflexivity].
    rewrite (usize_ok _ (base * base)) by nia. cbn [bind]. apply IH; [nia|exact Ha|exact H].
  - rewrite Z.pow_1_r in H. unfold u_mul. apply usize_over. exact H.
Qed.

Lemma u_pow_ok b base e : (0 <= base)%Z -> (0 <= e)%Z -> (base ^ e < 2 ^ 64)%Z -> u_pow b base e = Ok (base ^ e)%Z.
Proof.
  intros Hb He H. destruct e as [|e|e]; [reflexivity| |lia]. cbn [u_pow]. rewrite pow_loop_ok by lia. f_equal. lia.
Qed.
Lemma u_pow_over base e : (0 <= base)%Z -> (2 ^ 64 <= base ^ e)%Z -> u_pow Debug base e = Panic.
Proof.
  intros Hb H. destruct e as [|e|e]; cbn [u_pow].
  - change (base ^ 0)%Z with 1%Z in H. lia.
  - apply pow_loop_over; lia.
  - rewrite (Z.pow_neg_r base (Zneg e)) in H by lia. lia.
Qed.

Lemma of_nat_pow x k : Z.of_nat (x ^ k) = (Z.of_nat x ^ Z.of_nat k)%Z.
Proof.
  induction k as [|k IH]; [reflexivity|]. rewrite Nat.pow_succ_r', Nat2Z.inj_mul, IH, Nat2Z.inj_succ, Z.pow_succ_r by lia. reflexivity.
Qed.

Lemma m_digits_rev_ok basis : 1 <= basis -> forall k value,
  m_digits_rev (Z.of_nat value) (Z.of_nat basis) k = Ok (words (digits_rev value basis k)).
Proof.
  intros Hb. induction k as [|k IH]; intros value; [reflexivity|]. cbn [m_digits_rev digits_rev].
  unfold u_rem, u_div. replace (Z.of_nat basis =? 0)%Z with false by lia. cbn [bind].
  rewrite <- Nat2Z.inj_mod, <- Nat2Z.inj_div, IH. reflexivity.
Qed.
Lemma m_convert_ok basis value k : 1 <= basis ->
  m_convert_to_b_ary_digits (Z.of_nat value) (Z.of_nat basis) k = Ok (words (convert_to_b_ary_digits value basis k)).
Proof.
  intros Hb. unfold m_convert_to_b_ary_digits, convert_to_b_ary_digits, words. rewrite m_digits_rev_ok by exact Hb. cbn [bind]. unfold words.
  rewrite map_rev. reflexivity.
Qed.

Lemma m_split_ok b digits basis n k : (Z.of_nat digits < 2 ^ 32)%Z -> (Z.of_nat basis ^ Z.of_nat digits < 2 ^ 64)%Z -> k < n ->
  m_split_up_b_ary_number_into_n_chunks b digits (Z.of_nat basis) (Z.of_nat n) (Z.of_nat k) =
  on_machine (fun '(lo, hi) => (words lo, words hi)) (split_up_b_ary_number_into_n_chunks digits basis n k).
Proof.
  intros Hd Hp Hk. unfold m_split_up_b_ary_number_into_n_chunks, split_up_b_ary_number_into_n_chunks.
  rewrite Z.mod_small by lia. rewrite u_pow_ok by (try exact Hp; lia). cbn [bind]. rewrite <- of_nat_pow in *.
  set (total := basis ^ digits) in *.
  replace (Z.of_nat n <? Z.of_nat total)%Z with (n <? total) by lia. destruct (n <? total) eqn:E; [|reflexivity].
  cbn [assert bind]. replace (n =? 0) with false by lia. cbn [negb assert bind].
  assert (Hb : 1 <= basis) by (destruct basis; [unfold total in *; destruct digits; simpl in E; lia|lia]).
  unfold u_div at 1. replace (Z.of_nat n =? 0)%Z with false by lia. cbn [bind]. rewrite <- Nat2Z.inj_div.
  pose proof (Nat.div_mod total n ltac:(lia)) as Hdm. set (size := total / n) in *. set (r := total mod n) in *.
  assert (Hs : 1 <= size) by (apply Nat.div_le_lower_bound; lia).
  assert (Hv : k * size + size <= total) by nia.
  unfold u_mul. rewrite <- Nat2Z.inj_mul. rewrite usize_ok by lia. cbn [bind].
  unfold u_add. rewrite <- Nat2Z.inj_add. rewrite usize_ok by lia. cbn [bind].
  unfold u_sub. replace (Z.of_nat (k * size + size) - 1)%Z with (Z.of_nat (k * size + size - 1)) by lia. rewrite usize_ok by lia. cbn [bind].
  rewrite !m_convert_ok by exact Hb. reflexivity.
Qed.

Lemma m_next_rev_ok b basis : 1 <= basis -> (Z.of_nat basis < 2 ^ 64)%Z -> forall l carry, carry <= 1 -> Forall (fun d => d < basis) l ->
  m_next_rev b (Z.of_nat basis) (Z.of_nat carry) (words l) = on_machine (fun '(done, t) => (done, words t)) (Ok (next_rev basis carry l)).
Proof.
  intros Hb Hm. induction l as [|d t IH]; intros carry Hc Hl; [reflexivity|]. inversion Hl as [|? ? Hd Ht]; subst.
  cbn [words map m_next_rev next_rev]. unfold u_add. rewrite <- Nat2Z.inj_add, usize_ok by lia. cbn [bind].
  unfold u_div, u_rem. replace (Z.of_nat basis =? 0)%Z with false by lia. cbn [bind].
  rewrite <- Nat2Z.inj_div, <- Nat2Z.inj_mod.
  replace (Z.of_nat ((d + carry) / basis) =? 0)%Z with ((d + carry) / basis =? 0) by lia.
  destruct ((d + carry) / basis =? 0) eqn:E; [reflexivity|].
  assert (Hq : (d + carry) / basis <= 1) by (apply Nat.lt_succ_r; apply Nat.div_lt_upper_bound; lia).
  fold (words t). rewrite (IH _ Hq Ht). cbn [on_machine bind]. destruct (next_rev basis ((d + carry) / basis) t) as [done t']. reflexivity.
Qed.

Lemma m_get_next_value_ok b basis l : 1 <= basis -> (Z.of_nat basis < 2 ^ 64)%Z -> Forall (fun d => d < basis) l ->
  m_get_next_value b (words l) (Z.of_nat basis) = Ok (option_map words (get_next_value l basis)).
Proof.
  intros Hb Hm Hl. unfold m_get_next_value, get_next_value, words. rewrite <- map_rev. fold (words (rev l)).
  change 1%Z with (Z.of_nat 1). rewrite m_next_rev_ok by (try assumption; try lia; apply Forall_rev; exact Hl).
  cbn [on_machine]. destruct (next_rev basis 1 (rev l)) as [done t]. cbn [bind]. destruct done; [|reflexivity]. cbn [option_map]. unfold words. rewrite map_rev. reflexivity.
Qed.

Lemma m_list_eqb_ok x : forall y, m_list_eqb (words x) (words y) = list_eqb x y.
Proof.
  induction x as [|a x IH]; intros [|c y]; try reflexivity. cbn [words map m_list_eqb list_eqb]. fold (words x) (words y). rewrite IH.
  replace (Z.of_nat a =? Z.of_nat c)%Z with (a =? c) by lia. reflexivity.
Qed.
Lemma words_in a l : In (Z.of_nat a) (words l) <-> In a l.
Proof. unfold words. rewrite in_map_iff. split; [intros (c & E & H); assert (c = a) by lia; subst; exact H|intros H; exists a; auto]. Qed.
Lemma words_nodup l : nodup Z.eq_dec (words l) = words (nodup Nat.eq_dec l).
Proof.
  induction l as [|a l IH]; [reflexivity|]. cbn [words map nodup]. fold (words l).
  destruct (in_dec Z.eq_dec (Z.of_nat a) (words l)) as [H|H]; destruct (in_dec Nat.eq_dec a l) as [H'|H']; rewrite ?words_in in H; try contradiction; rewrite IH; reflexivity.
Qed.
Lemma m_is_unique_ok l : m_is_unique (words l) = is_unique l.
Proof. unfold m_is_unique, is_unique. rewrite words_nodup. unfold words. rewrite !map_length. reflexivity. Qed.

Lemma m_walk_ok b basis : 1 <= basis -> (Z.of_nat basis < 2 ^ 64)%Z -> forall fuel lo hi, Forall (fun d => d < basis) lo ->
  m_walk b fuel (words lo) (words hi) (Z.of_nat basis) = on_machine (map words) (walk fuel lo hi basis).
Proof.
  intros Hb Hm. induction fuel as [|f IH]; intros lo hi Hlo; [reflexivity|]. cbn [m_walk walk].
  rewrite m_get_next_value_ok by assumption. cbn [bind]. pose proof (get_next_value_spec basis Hb lo Hlo) as Hs.
  destruct (get_next_value lo basis) as [v|]; [|reflexivity]. cbn [option_map]. rewrite m_list_eqb_ok. destruct (list_eqb v hi); [reflexivity|].
  rewrite IH by apply Hs. rewrite m_is_unique_ok. destruct (walk f v hi basis) as [l| |]; try reflexivity. cbn [on_machine bind]. destruct (is_unique v); reflexivity.
Qed.

Lemma m_nn_chunk_ok b n size rank : (Z.of_nat n < 2 ^ 31)%Z -> (Z.of_nat size < 2 ^ 31)%Z -> rank < size ->
  exists lo hi, m_nn_chunk b (Z.of_nat n) (Z.of_nat size) (Z.of_nat rank) = Ok (Z.of_nat lo, Z.of_nat hi) /\ nn_chunk n size rank = seq lo (hi - lo).
Proof.
  intros Hn Hs Hr. unfold m_nn_chunk, nn_chunk. replace (Z.of_nat n <? 2 ^ 31)%Z with true by lia. cbn [bind].
  unfold i_div. replace (Z.of_nat size =? 0)%Z with false by lia. cbn [bind]. rewrite Z.quot_div_nonneg, <- Nat2Z.inj_div by lia.
  pose proof (Nat.div_mod n size ltac:(lia)) as Hdm. set (q := n / size) in *. set (r := n mod size) in *.
  assert (Hq : q * rank + q <= n) by nia.
  unfold i_mul. rewrite <- Nat2Z.inj_mul, i32_ok by lia. cbn [bind]. unfold i_add. rewrite <- Nat2Z.inj_add, i32_ok by lia. cbn [bind].
  unfold i_sub. rewrite i32_ok by lia. cbn [bind].
  replace (Z.of_nat rank =? Z.of_nat size - 1)%Z with (rank =? size - 1) by lia. destruct (rank =? size - 1).
  - unfold i_rem. replace (Z.of_nat size =? 0)%Z with false by lia. cbn [bind andb]. rewrite Z.rem_mod_nonneg, <- Nat2Z.inj_mod by lia. fold r.
    replace (Z.of_nat r =? 0)%Z with (r =? 0) by lia. destruct (r =? 0); cbn [negb]; [exists (q * rank), (q * rank + q)|exists (q * rank), n]; split; reflexivity.
  - cbn [andb]. exists (q * rank), (q * rank + q). split; reflexivity.
Qed.
