(** Every tour, read from one of its cities in one of the two directions, begins with a prefix that
    some worker examines, for every number of workers that leaves each of them a prefix
    (exact.rs:795-926: the chunks drop their two ends and the keys past the last chunk). *)
From Coq Require Import ZArith Arith Bool List Permutation Lia.
From Verif Require Import Base Spec SpecFacts Exact Threaded DigitsProofs Coverage.
Import ListNotations.

Lemma rot_rot {A} (q x y u v : list A) : q = x ++ y -> y ++ x = u ++ v -> exists x' y', q = x' ++ y' /\ v ++ u = y' ++ x'.
Proof.
  intros -> H. destruct (app_eq_app _ _ _ _ H) as (l & [[-> ->]|[-> ->]]).
  - exists (x ++ u), l. rewrite <- !app_assoc. auto.
  - exists l, (v ++ y). rewrite <- !app_assoc. auto.
Qed.

Section All.
Variables n t : nat.
Hypothesis Hn : 4 <= n.
Hypothesis Ht : 1 <= t.
Hypothesis Hbusy : t * (n + 4) <= n ^ 3.
Let s := n ^ 3 / t.

Lemma all_size : n + 4 <= s.
Proof. unfold s. apply Nat.div_le_lower_bound; lia. Qed.

Lemma all_total : t * s <= n ^ 3 < t * s + t.
Proof.
  unfold s. pose proof (Nat.div_mod (n ^ 3) t ltac:(lia)). pose proof (Nat.mod_upper_bound (n ^ 3) t ltac:(lia)). lia.
Qed.

Lemma all_square : t <= n * n.
Proof. rewrite pow3 in Hbusy. destruct (le_lt_dec t (n * n)) as [|H]; [assumption|]. exfalso. nia. Qed.

(** examined, or next to the end of a chunk *)
Definition keptb (a b c : nat) : bool :=
  let k := number n [a; b; c] in (k <? t * s) && negb (k mod s =? 0) && negb (k mod s =? s - 1).

Lemma kept a b c : a < n -> b < n -> c < n -> NoDup [a; b; c] -> keptb a b c = true ->
  exists i, i < t /\ examined n t i [a; b; c].
Proof.
  intros Ha Hb Hc Hnd Hk. unfold keptb in Hk. cbv zeta in Hk. pose proof all_size as Hs. pose proof all_total as Htot.
  set (K := number n [a; b; c]) in *. apply andb_prop in Hk. destruct Hk as [Hk H3]. apply andb_prop in Hk. destruct Hk as [H1 H2].
  apply Nat.ltb_lt in H1. apply negb_true_iff, Nat.eqb_neq in H2. apply negb_true_iff, Nat.eqb_neq in H3.
  pose proof (Nat.div_mod K s ltac:(lia)) as Hdm. pose proof (Nat.mod_upper_bound K s ltac:(lia)) as Hm.
  set (i := K / s) in *. rewrite (Nat.mul_comm s i) in Hdm.
  exists i. split; [apply (mul_lt_inv i t s); lia|].
  eexists. split; [apply chunk_prefixes_spec; [lia| |apply (mul_lt_inv i t s); lia]|].
  { rewrite pow3 in *. nia. }
  fold s. apply filter_In. split; [|apply is_unique_NoDup; assumption].
  apply in_map_iff. exists K. split.
  - apply (convert_number n ltac:(lia) [a; b; c]). repeat constructor; assumption.
  - apply in_seq. lia.
Qed.

Lemma not_kept a b c : a < n - 1 -> b < n -> c < n -> keptb a b c = false ->
  exists e q, e <= 1 /\ a * n * n + b * n + c + e = q * s.
Proof.
  intros Ha Hb Hc Hk. unfold keptb in Hk. cbv zeta in Hk. replace (number n [a; b; c]) with (a * n * n + b * n + c) in Hk by (unfold number; simpl; lia). pose proof all_size as Hs.
  pose proof all_total as Htot. pose proof all_square as Hsq. rewrite pow3 in Htot.
  set (K := a * n * n + b * n + c) in *.
  assert (HK : K < t * s).
  { pose proof (two_digits n b c Hb Hc). assert ((a + 2) * (n * n) <= n * (n * n)) by (apply Nat.mul_le_mono_r; lia). unfold K. lia. }
  apply Nat.ltb_lt in HK. rewrite HK in Hk. cbn [andb] in Hk.
  pose proof (Nat.div_mod K s ltac:(lia)) as Hdm. apply andb_false_iff in Hk. destruct Hk as [Hk|Hk]; apply negb_false_iff, Nat.eqb_eq in Hk.
  - exists 0, (K / s). split; [lia|]. lia.
  - exists 1, (S (K / s)). split; [lia|]. cbn [Nat.mul]. lia.
Qed.

(** two windows of a tour that starts in city 0 can only both be dropped when the city [n - 1] is
    one or three steps away *)
Lemma shift x1 x2 x3 : x1 < n -> x2 < n -> x3 < n -> x3 <> 0 ->
  keptb 0 x1 x2 = true \/ keptb x1 x2 x3 = true \/ x1 = n - 1 \/ x3 = n - 1.
Proof.
  intros H1 H2 H3 H30. destruct (keptb 0 x1 x2) eqn:E1; [left; reflexivity|]. destruct (keptb x1 x2 x3) eqn:E2; [right; left; reflexivity|].
  right. right. destruct (Nat.eq_dec x1 (n - 1)) as [|Hx]; [left; assumption|right].
  destruct (not_kept 0 x1 x2 ltac:(lia) H1 H2 E1) as (e1 & q1 & He1 & Q1).
  destruct (not_kept x1 x2 x3 ltac:(lia) H2 H3 E2) as (e2 & q2 & He2 & Q2).
  pose proof all_size as Hs.
  assert (Hz : (Z.of_nat x3 + Z.of_nat e2 - Z.of_nat n * Z.of_nat e1 = (Z.of_nat q2 - Z.of_nat n * Z.of_nat q1) * Z.of_nat s)%Z).
  { assert (n * (x1 * n + x2 + e1) = n * (q1 * s)) by (f_equal; lia). nia. }
  set (d := (Z.of_nat q2 - Z.of_nat n * Z.of_nat q1)%Z) in *. clearbody d s.
  assert (e1 = 0 \/ e1 = 1) as [->| ->] by lia.
  - exfalso. assert (HH : (0 < d * Z.of_nat s < Z.of_nat s)%Z) by lia. clear - HH. set (z := Z.of_nat s) in *. clearbody z. assert (d <= 0 \/ 1 <= d)%Z as [|] by lia; nia.
  - assert (HH : (- Z.of_nat s < d * Z.of_nat s <= 0)%Z) by lia.
    assert (d = 0)%Z as Hd0; [|rewrite Hd0 in Hz; lia]. clear - HH. set (z := Z.of_nat s) in *. clearbody z.
    assert (d <= -1 \/ d = 0 \/ 1 <= d)%Z as [|[|]] by lia; nia.
Qed.

(** some rotation of the tour or of its reverse begins with an examined prefix *)
Definition seen (q : list nat) : Prop := exists i p x y rest, i < t /\ (q = x ++ y \/ rev q = x ++ y) /\ is_tour n (y ++ x) /\
  examined n t i p /\ y ++ x = p ++ rest.

Lemma seen_rot q u v : u ++ v = q -> seen (v ++ u) -> seen q.
Proof.
  intros E (i & p & x & y & rest & Hi & Hxy & Ht' & He & Hr). destruct Hxy as [Hxy|Hxy].
  - destruct (rot_rot q u v x y (eq_sym E) Hxy) as (x' & y' & E' & Er).
    exists i, p, x', y', rest. rewrite <- Er. auto 8.
  - rewrite rev_app_distr in Hxy.
    destruct (rot_rot (rev q) (rev v) (rev u) x y) as (x' & y' & E' & Er); [rewrite <- E; apply rev_app_distr|assumption|].
    exists i, p, x', y', rest. rewrite <- Er. auto 8.
Qed.

Lemma tour_rot u v : is_tour n (u ++ v) -> is_tour n (v ++ u).
Proof. unfold is_tour. intros H. rewrite <- H. apply Permutation_app_comm. Qed.

Lemma tour_rev q : is_tour n q -> is_tour n (rev q).
Proof. unfold is_tour. intros H. rewrite <- H. symmetry. apply Permutation_rev. Qed.

(** a kept window at the start *)
Lemma seen_start q a b c r : q = a :: b :: c :: r -> is_tour n q -> keptb a b c = true -> seen q.
Proof.
  intros -> Hq Hk. pose proof (tour_NoDup _ _ Hq) as Hnd. pose proof (tour_Forall _ _ Hq) as Hf.
  inversion Hf as [|? ? Ha Hf1]; subst. inversion Hf1 as [|? ? Hb Hf2]; subst. inversion Hf2 as [|? ? Hc _]; subst.
  assert (Hnd3 : NoDup [a; b; c]).
  { inversion Hnd as [|? ? H1 Hnd1]; subst. inversion Hnd1 as [|? ? H2 _]; subst. cbn [In] in *.
    repeat constructor; cbn [In]; intuition. }
  destruct (kept a b c Ha Hb Hc Hnd3 Hk) as (i & Hi & He).
  exists i, [a; b; c], [], (a :: b :: c :: r), r. split; [assumption|]. split; [left; reflexivity|]. rewrite app_nil_r. auto.
Qed.

Lemma seen_rev q : is_tour n q -> seen (rev q) -> seen q.
Proof.
  intros Hq (i & p & x & y & rest & Hi & Hxy & H). exists i, p, x, y, rest. split; [assumption|]. split; [|assumption].
  rewrite rev_involutive in Hxy. tauto.
Qed.

(** from city 0, in one direction *)
Lemma one_direction m : is_tour n (0 :: m) -> seen (0 :: m) \/ nth 0 m 0 = n - 1 \/ nth 2 m 0 = n - 1.
Proof.
  intros Hq. pose proof (tour_length _ _ Hq) as Hl. pose proof (tour_NoDup _ _ Hq) as Hnd. pose proof (tour_Forall _ _ Hq) as Hf.
  destruct m as [|x1 [|x2 [|x3 r]]]; cbn [length] in Hl; try lia.
  inversion Hf as [|? ? _ Hf1]; subst. inversion Hf1 as [|? ? H1 Hf2]; subst. inversion Hf2 as [|? ? H2 Hf3]; subst. inversion Hf3 as [|? ? H3 _]; subst.
  assert (Hx3 : x3 <> 0). { inversion Hnd as [|? ? H _]; subst. cbn [In] in H. intuition. }
  destruct (shift x1 x2 x3 H1 H2 H3 Hx3) as [Hk|[Hk|[Hk|Hk]]].
  - left. apply (seen_start _ 0 x1 x2 (x3 :: r)); auto.
  - left. apply (seen_rot _ [0] (x1 :: x2 :: x3 :: r) eq_refl).
    apply (seen_start _ x1 x2 x3 (r ++ [0])); [reflexivity| |assumption]. apply tour_rot with (u := [0]). assumption.
  - right. left. assumption.
  - right. right. assumption.
Qed.

Lemma from_zero m : n <> 4 -> n <> 6 -> is_tour n (0 :: m) -> seen (0 :: m).
Proof.
  intros H4 H6 Hq. pose proof (tour_length _ _ Hq) as Hl. cbn [length] in Hl.
  assert (Hnd : NoDup m) by (pose proof (tour_NoDup _ _ Hq) as H; inversion H; assumption).
  assert (Hq' : is_tour n (0 :: rev m)).
  { apply (tour_rot (rev m) [0]). change (rev m ++ [0]) with (rev (0 :: m)). apply tour_rev. assumption. }
  destruct (one_direction m Hq) as [H|H]; [assumption|].
  destruct (one_direction (rev m) Hq') as [H'|H'].
  { apply seen_rev; [assumption|]. cbn [rev]. apply (seen_rot _ (rev m) [0] eq_refl). assumption. }
  exfalso. rewrite !rev_nth in H' by lia.
  assert (Hinj : forall i j, i < length m -> j < length m -> nth i m 0 = n - 1 -> nth j m 0 = n - 1 -> i = j).
  { intros i j Hi Hj Ei Ej. apply (NoDup_nth m 0); auto. congruence. }
  destruct H as [H|H], H' as [H'|H'];
    match type of H with nth ?i m 0 = _ => match type of H' with nth ?j m 0 = _ =>
      assert (i = j) by (apply Hinj; [lia|lia|assumption|assumption]); lia end end.
Qed.

(** all windows in both directions, for the two sizes the argument leaves open *)
Definition some_kept (q : list nat) : bool :=
  existsb (fun k => match skipn k q ++ firstn k q with a :: b :: c :: _ => keptb a b c | _ => false end) (seq 0 n).

Lemma some_kept_seen q : is_tour n q -> some_kept q = true -> seen q.
Proof.
  intros Hq H. unfold some_kept in H. apply existsb_exists in H. destruct H as (k & _ & H).
  apply (seen_rot q (firstn k q) (skipn k q)); [apply firstn_skipn|].
  destruct (skipn k q ++ firstn k q) as [|a [|b [|c r]]] eqn:E; try discriminate.
  apply (seen_start _ a b c r); [reflexivity| |assumption]. rewrite <- E. apply tour_rot. rewrite firstn_skipn. assumption.
Qed.
End All.

Definition both_ways (n t : nat) (q : list nat) : bool := if some_kept n t q then true else some_kept n t (rev q).

Definition all4 : bool := forallb (fun t => forallb (fun a => forallb (fun b => forallb (fun c =>
  if is_unique [0; a; b; c] then both_ways 4 t [0; a; b; c] else true) (seq 0 4)) (seq 0 4)) (seq 0 4)) (seq 1 8).
Definition six_e t a b c d e : bool := if is_unique [0; a; b; c; d; e] then both_ways 6 t [0; a; b; c; d; e] else true.
Definition six_d t a b c d : bool := forallb (six_e t a b c d) (seq 0 6).
Definition six_c t a b c : bool := if is_unique [0; a; b; c] then forallb (six_d t a b c) (seq 0 6) else true.
Definition six_b t a b : bool := forallb (six_c t a b) (seq 0 6).
Definition six_a t a : bool := forallb (six_b t a) (seq 0 6).
Definition six_t t : bool := forallb (six_a t) (seq 0 6).

Lemma all4_true : all4 = true. Proof. vm_compute. reflexivity. Qed.
Lemma all6_true : forallb six_t (seq 1 21) = true. Proof. vm_compute. reflexivity. Qed.

Lemma forallb_seq (f : nat -> bool) a k x : forallb f (seq a k) = true -> a <= x < a + k -> f x = true.
Proof. intros H Hx. rewrite forallb_forall in H. apply H. apply in_seq. assumption. Qed.

Lemma unique_true l : NoDup l -> is_unique l = true. Proof. apply is_unique_NoDup. Qed.

Lemma both_ways_seen n t q : 4 <= n -> 1 <= t -> t * (n + 4) <= n ^ 3 -> is_tour n q -> both_ways n t q = true -> seen n t q.
Proof.
  intros Hn Ht Hb Hq H. unfold both_ways in H. destruct (some_kept n t q) eqn:E; [clear H; rename E into H|].
  - apply (some_kept_seen n t Hn Ht Hb); assumption.
  - apply (seen_rev n t); [assumption|]. apply (some_kept_seen n t Hn Ht Hb); [apply tour_rev|]; assumption.
Qed.

Lemma NoDup_prefix {A} (l l' : list A) : NoDup (l ++ l') -> NoDup l.
Proof.
  induction l as [|x l IH]; intros H; [constructor|]. inversion H as [|? ? H1 H2]; subst. constructor; [|auto].
  intros Hin. apply H1, in_or_app. left. assumption.
Qed.

Lemma small4 t m : 1 <= t -> t * 8 <= 64 -> is_tour 4 (0 :: m) -> seen 4 t (0 :: m).
Proof.
  intros Ht Hb Hq. apply both_ways_seen; try lia; try assumption. pose proof (tour_length _ _ Hq) as Hl. pose proof (tour_NoDup _ _ Hq) as Hnd.
  pose proof (tour_Forall _ _ Hq) as Hf. destruct m as [|a [|b [|c [|]]]]; try discriminate Hl.
  rewrite !Forall_cons_iff in Hf. destruct Hf as (_ & Ha & Hb' & Hc & _).
  pose proof all4_true as H. unfold all4 in H.
  apply (forallb_seq _ _ _ t) in H; [|lia]. apply (forallb_seq _ _ _ a) in H; [|lia].
  apply (forallb_seq _ _ _ b) in H; [|lia]. apply (forallb_seq _ _ _ c) in H; [|lia].
  cbv beta in H. rewrite (unique_true _ Hnd) in H. cbv iota in H. exact H.
Qed.

Lemma all6_spec t a b c d e : 1 <= t < 22 -> a < 6 -> b < 6 -> c < 6 -> d < 6 -> e < 6 -> NoDup [0; a; b; c; d; e] ->
  both_ways 6 t [0; a; b; c; d; e] = true.
Proof.
  intros Ht Ha Hb Hc Hd He Hnd.
  pose proof (forallb_seq six_t 1 21 t all6_true ltac:(lia)) as H1.
  pose proof (forallb_seq (six_a t) 0 6 a H1 ltac:(lia)) as H2.
  pose proof (forallb_seq (six_b t a) 0 6 b H2 ltac:(lia)) as H3.
  pose proof (forallb_seq (six_c t a b) 0 6 c H3 ltac:(lia)) as H4. unfold six_c in H4.
  rewrite (unique_true [0; a; b; c]) in H4 by (apply (NoDup_prefix [0; a; b; c] [d; e]); assumption).
  pose proof (forallb_seq (six_d t a b c) 0 6 d H4 ltac:(lia)) as H5.
  pose proof (forallb_seq (six_e t a b c d) 0 6 e H5 ltac:(lia)) as H6. unfold six_e in H6.
  rewrite (unique_true _ Hnd) in H6. exact H6.
Qed.

Lemma small6 t m : 1 <= t -> t * (6 + 4) <= 6 ^ 3 -> is_tour 6 (0 :: m) -> seen 6 t (0 :: m).
Proof.
  intros Ht Hb Hq. apply (both_ways_seen 6 t _ ltac:(lia) Ht Hb Hq).
  assert (Ht' : t < 22) by (change (6 ^ 3) with 216 in Hb; lia).
  pose proof (tour_length _ _ Hq) as Hl. pose proof (tour_NoDup _ _ Hq) as Hnd.
  pose proof (tour_Forall _ _ Hq) as Hf. destruct m as [|a [|b [|c [|d [|e [|]]]]]]; try discriminate Hl.
  rewrite !Forall_cons_iff in Hf. destruct Hf as (_ & Ha & Hb' & Hc & Hd & He & _).
  apply all6_spec; auto.
Qed.

(** Every tour is seen, for every number of workers that leaves each of them a prefix. *)
Theorem coverage_all n t q : 3 <= n -> 1 <= t -> t * (n + 4) <= n ^ 3 -> is_tour n q -> seen n t q.
Proof.
  intros Hn Ht Hb Hq.
  destruct (Nat.eq_dec n 3) as [->|Hn3].
  { assert (t <= 3) by (change (3 ^ 3) with 27 in Hb; lia).
    destruct (coverage 3 Hn t (conj Ht H) q Hq) as (i & p & x & y & Hi & Eq & Hrot & He & _ & rest & Hr).
    exists i, p, x, y, rest. auto 8. }
  assert (Hin : In 0 q) by (apply (tour_In n q 0 Hq); lia). apply in_split in Hin. destruct Hin as (u & v & E).
  apply (seen_rot n t q u (0 :: v)); [auto|].
  assert (Hq' : is_tour n ((0 :: v) ++ u)) by (apply tour_rot; rewrite <- E; assumption). cbn [app] in *.
  destruct (Nat.eq_dec n 4) as [->|H4]; [apply small4; [lia|change (4 ^ 3) with 64 in Hb; lia|assumption]|].
  destruct (Nat.eq_dec n 6) as [->|H6]; [apply small6; assumption|].
  apply from_zero; try assumption; lia.
Qed.
