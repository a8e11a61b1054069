(** Which worker counts leave no worker of the static MPI solver without a prefix
    (exact.rs:664-688, 840-862): the exact condition. *)
From Coq Require Import ZArith NArith Arith Bool List Permutation Lia ZifyBool.
From Verif Require Import Num Base Spec SpecFacts Data Mst Exact Threaded Dfs DigitsProofs Coverage CoverageAll Mpi MpiProofs.
Import ListNotations.

Lemma three_distinct (a b c : nat) : a <> b -> a <> c -> b <> c -> NoDup [a; b; c].
Proof.
  intros H1 H2 H3. constructor; [simpl; intuition lia|]. constructor; [simpl; intuition lia|]. constructor; [simpl; tauto|constructor].
Qed.

Lemma distinct_three (a b c : nat) : NoDup [a; b; c] -> a <> b /\ a <> c /\ b <> c.
Proof.
  intros H. inversion H as [|? ? H1 H2]; subst. inversion H2 as [|? ? H3 _]; subst.
  repeat split; intros ->; [apply H1|apply H1|apply H3]; simpl; auto.
Qed.

(** any [n + 2] consecutive numbers from 1 to [n^3 - 2] contain one with three distinct digits *)
Lemma window n L : 3 <= n -> 1 <= L -> L + n + 3 <= n * n * n ->
  exists a b c, a < n /\ b < n /\ c < n /\ NoDup [a; b; c] /\ L <= a * n * n + b * n + c <= L + n + 1.
Proof.
  intros Hn HL Hend.
  set (q := L / n). set (r := L mod n). pose proof (Nat.div_mod L n ltac:(lia)) as HD. fold q r in HD.
  pose proof (Nat.mod_upper_bound L n ltac:(lia)) as Hr. fold r in Hr.
  set (a := q / n). set (b := q mod n). pose proof (Nat.div_mod q n ltac:(lia)) as HQ. fold a b in HQ.
  pose proof (Nat.mod_upper_bound q n ltac:(lia)) as Hb. fold b in Hb.
  clearbody r a b q.
  assert (EL : L = a * n * n + b * n + r) by nia.
  assert (Ha : a < n). { destruct (le_lt_dec n a) as [H|]; [|assumption]. assert (n * n * n <= a * n * n) by nia. lia. }
  clear HD HQ q. subst L.
  (* a third digit from r on in block (a, b), or up to r + 1 in the next block *)
  assert (Here : forall c, a <> b -> r <= c -> c < n -> c <> a -> c <> b ->
    exists x y z, x < n /\ y < n /\ z < n /\ NoDup [x; y; z] /\ a * n * n + b * n + r <= x * n * n + y * n + z <= a * n * n + b * n + r + n + 1).
  { intros c H1 H2 H3 H4 H5. exists a, b, c. repeat (split; [assumption|]). split; [apply three_distinct; auto|]. lia. }
  assert (Next : forall c, S b < n -> a <> S b -> c <= S r -> c < n -> c <> a -> c <> S b ->
    exists x y z, x < n /\ y < n /\ z < n /\ NoDup [x; y; z] /\ a * n * n + b * n + r <= x * n * n + y * n + z <= a * n * n + b * n + r + n + 1).
  { intros c H0 H1 H2 H3 H4 H5. exists a, (S b), c. repeat (split; [assumption|]). split; [apply three_distinct; auto|]. cbn [Nat.mul]. lia. }
  assert (Over : forall c, S b = n -> S a < n -> c <= S r -> c < n -> c <> S a -> c <> 0 ->
    exists x y z, x < n /\ y < n /\ z < n /\ NoDup [x; y; z] /\ a * n * n + b * n + r <= x * n * n + y * n + z <= a * n * n + b * n + r + n + 1).
  { intros c H0 H1 H2 H3 H4 H5. exists (S a), 0, c. repeat (split; [lia|]). split; [apply three_distinct; lia|].
    assert (S a * n * n = a * n * n + b * n + n) by (replace b with (n - 1) by lia; nia). lia. }
  destruct (Nat.eq_dec (S b) n) as [Eb|Nb].
  - destruct (Nat.eq_dec (S a) n) as [Ea|Na].
    + (* the last block *) exfalso. assert (n * n * n = a * n * n + b * n + n) by (replace b with (n - 1) by lia; replace a with (n - 1) by lia; nia). lia.
    + destruct (Nat.eq_dec r 0) as [->|Nr].
      * (* the whole block (a, n - 1) *)
        destruct (Nat.eq_dec a 0) as [->|Na0]; [apply (Here 1); lia|apply (Here 0); lia].
      * destruct (Nat.eq_dec (S a) 1) as [E1|N1]; [apply (Over 2); lia|apply (Over 1); lia].
  - destruct (Nat.eq_dec a (S b)) as [->|Nab].
    + (* the next block is (a, a), this one (a, a - 1) *)
      destruct (le_lt_dec n (r + 2)) as [Hr2|Hr2].
      * destruct (Nat.eq_dec (S (S b)) n) as [E2|N2].
        -- exfalso. assert (n * n * n = S b * n * n + b * n + n + n) by (replace b with (n - 2) by lia; nia). lia.
        -- apply (Here (n - 1)); lia.
      * destruct (Nat.eq_dec r b) as [->|N1]; [apply (Here (b + 2)); lia|].
        destruct (Nat.eq_dec r (S b)) as [->|N2]; [apply (Here (b + 2)); lia|apply (Here r); lia].
    + (* the next block is good *)
      destruct (Nat.eq_dec r 0) as [->|Nr].
      * destruct (Nat.eq_dec a b) as [->|Nab2].
        -- destruct (Nat.eq_dec b 0) as [->|Nb0]; [lia|]. apply (Next 0); lia.
        -- destruct (third_digit n a b Hn Ha Hb Nab2) as (c & Hc & Hnd). apply distinct_three in Hnd. apply (Here c); lia.
      * destruct (Nat.eq_dec a 0) as [->|Na0]; [|apply (Next 0); lia].
        destruct (Nat.eq_dec b 0) as [->|Nb0]; [apply (Next 2); lia|apply (Next 1); lia].
Qed.

Lemma number_3 n a b c : number n [a; b; c] = a * n * n + b * n + c.
Proof. unfold number. simpl. lia. Qed.

(** what the numbers of three distinct digits look like at the two ends *)
Lemma least_key n a b c : 3 <= n -> a < n -> b < n -> c < n -> NoDup [a; b; c] -> n + 2 <= a * n * n + b * n + c.
Proof.
  intros Hn Ha Hb Hc Hd. apply distinct_three in Hd. destruct Hd as (H1 & H2 & H3).
  destruct a as [|a]; [|assert (n * n <= S a * n * n) by nia; nia].
  destruct b as [|b]; [lia|]. destruct b as [|b]; [lia|]. nia.
Qed.

Lemma greatest_key n a b c : 3 <= n -> a < n -> b < n -> c < n -> NoDup [a; b; c] -> a * n * n + b * n + c + n + 3 <= n * n * n.
Proof.
  intros Hn Ha Hb Hc Hd. apply distinct_three in Hd. destruct Hd as (H1 & H2 & H3).
  destruct (Nat.eq_dec a (n - 1)) as [->|Na].
  - destruct (Nat.eq_dec b (n - 2)) as [->|Nb]; [|assert (b + 3 <= n) by lia; nia].
    assert (c + 3 <= n) by lia. nia.
  - assert (E1 : a + 2 <= n) by lia. assert (b * n + c < n * n) by (apply two_digits; assumption).
    assert ((a + 2) * n * n <= n * n * n) by nia. nia.
Qed.

(** worker [i]'s prefixes, in terms of the numbers they write *)
Lemma chunk_nil_iff n t i l : 3 <= n -> 1 <= t -> 2 * t <= n ^ 3 -> i < t -> chunk_prefixes 3 n t i = Ok l ->
  forall p, In p l <-> length p = 3 /\ Forall (fun d => d < n) p /\ NoDup p /\ i * (n ^ 3 / t) < number n p /\ number n p < i * (n ^ 3 / t) + n ^ 3 / t - 1.
Proof.
  intros Hn Ht H2 Hi E p. rewrite chunk_prefixes_spec in E by assumption. cbv zeta in E.
  set (s := n ^ 3 / t) in *. assert (Hs : 2 <= s) by (apply Nat.div_le_lower_bound; lia).
  assert (Hts : t * s <= n ^ 3) by (apply Nat.mul_div_le; lia).
  assert (Hin : forall u, i * s < u < i * s + s - 1 -> u < n ^ 3) by (intros u Hu; nia).
  injection E as <-. rewrite filter_In, is_unique_NoDup, in_map_iff. split.
  - intros [(u & Eu & Hu) Hnd]. apply in_seq in Hu.
    assert (Hlt : u < n ^ 3) by (apply Hin; lia).
    pose proof (number_convert n ltac:(lia) u 3) as HN. rewrite Nat.mod_small in HN by assumption. rewrite Eu in HN. rewrite HN.
    split; [rewrite <- Eu; apply convert_length|]. split; [rewrite <- Eu; apply convert_ok; lia|]. split; [assumption|lia].
  - intros (Hl & Hf & Hnd & Hlo & Hhi). split; [|assumption]. exists (number n p). split; [|apply in_seq; lia].
    rewrite <- Hl. apply convert_number; [lia|assumption].
Qed.

(** the same when the chunks have one key: worker [i] goes through the whole rest *)
Lemma chunk_small_iff n t i l : 3 <= n -> 1 <= t -> t < n ^ 3 -> n ^ 3 < 2 * t -> i < t -> chunk_prefixes 3 n t i = Ok l ->
  forall p, In p l <-> length p = 3 /\ Forall (fun d => d < n) p /\ NoDup p /\ i < number n p.
Proof.
  intros Hn Ht H1 H2 Hi E p. rewrite chunk_prefixes_small in E by assumption.
  match type of E with Ok ?x = Ok _ => assert (El : l = x) by congruence end. rewrite El, filter_In, is_unique_NoDup, in_map_iff. split.
  - intros [(u & Eu & Hu) Hnd]. apply in_seq in Hu.
    assert (Hlt : u < n ^ 3) by lia.
    pose proof (number_convert n ltac:(lia) u 3) as HN. rewrite Nat.mod_small in HN by assumption. rewrite Eu in HN. rewrite HN.
    split; [rewrite <- Eu; apply convert_length|]. split; [rewrite <- Eu; apply convert_ok; lia|]. split; [assumption|lia].
  - intros (Hl & Hf & Hnd & Hlo). split; [|assumption]. exists (number n p). split.
    + rewrite <- Hl. apply convert_number; [lia|assumption].
    + assert (number n p < n ^ length p) by (apply value_lt; [lia|assumption]). rewrite Hl in *. apply in_seq. lia.
Qed.

(** every worker has a prefix *)
Definition busy (n t : nat) : Prop := t * (n + 4) <= n ^ 3 \/ (n ^ 3 < 2 * t /\ t + n + 3 <= n ^ 3).

Lemma busy_lt n t : busy n t -> 1 <= t -> t < n ^ 3.
Proof. intros [H|H] Ht; nia. Qed.

Lemma digits3 n a b c : a < n -> b < n -> c < n -> Forall (fun d => d < n) [a; b; c].
Proof. repeat constructor; assumption. Qed.

Theorem busy_chunks n t i l : 3 <= n -> 1 <= t -> busy n t -> i < t -> chunk_prefixes 3 n t i = Ok l -> l <> [].
Proof.
  intros Hn Ht Hb Hi E.
  assert (H : exists p, In p l); [|destruct H as (p & Hp); intros ->; destruct Hp].
  destruct Hb as [Hb|[Hb1 Hb2]].
  - assert (H2 : 2 * t <= n ^ 3) by nia. pose proof (chunk_nil_iff n t i l Hn Ht H2 Hi E) as HI.
    set (s := n ^ 3 / t) in *. assert (Hs : n + 4 <= s) by (apply Nat.div_le_lower_bound; lia).
    assert (Hts : t * s <= n ^ 3) by (apply Nat.mul_div_le; lia). rewrite pow3 in Hts.
    assert (Hend : i * s + s <= n * n * n) by nia.
    destruct (window n (S (i * s)) Hn ltac:(lia) ltac:(lia)) as (a & b & c & Ha & Hb' & Hc & Hd & Hw).
    exists [a; b; c]. apply HI. rewrite number_3. split; [reflexivity|]. split; [apply digits3; assumption|]. split; [assumption|lia].
  - pose proof (chunk_small_iff n t i l Hn Ht ltac:(lia) Hb1 Hi E) as HI.
    exists [n - 1; n - 2; n - 3]. apply HI. rewrite number_3. split; [reflexivity|]. split; [apply digits3; lia|].
    split; [apply three_distinct; lia|]. rewrite pow3 in *.
    assert (n * n * n = (n - 1) * n * n + (n - 2) * n + (n - 3) + n + 3).
    { destruct n as [|[|[|k]]]; lia. }
    lia.
Qed.

Theorem idle_chunk n t : 3 <= n -> 1 <= t -> t < n ^ 3 -> ~ busy n t -> exists i, i < t /\ chunk_prefixes 3 n t i = Ok [].
Proof.
  intros Hn Ht Hlt Hb. destruct (le_lt_dec (2 * t) (n ^ 3)) as [H2|H2].
  - exists 0. split; [lia|].
    destruct (chunk_prefixes 3 n t 0) as [l| |] eqn:E; [|rewrite chunk_prefixes_spec in E by (assumption || lia); discriminate..].
    pose proof (chunk_nil_iff n t 0 l Hn Ht H2 ltac:(lia) E) as HI.
    set (s := n ^ 3 / t) in *.
    assert (Hs : s < n + 4).
    { apply Nat.div_lt_upper_bound; [lia|]. destruct (le_lt_dec (t * (n + 4)) (n ^ 3)) as [H|H]; [|assumption]. exfalso. apply Hb. left. assumption. }
    destruct l as [|p l]; [reflexivity|]. exfalso. destruct (proj1 (HI p) (or_introl eq_refl)) as (Hl & Hf & Hnd & Hlo & Hhi).
    destruct p as [|a [|b [|c [|? ?]]]]; try discriminate Hl.
    inversion Hf as [|? ? Ha Hf1]; subst. inversion Hf1 as [|? ? Hb' Hf2]; subst. inversion Hf2 as [|? ? Hc _]; subst.
    pose proof (least_key n a b c Hn Ha Hb' Hc Hnd). rewrite number_3 in Hhi. lia.
  - exists (t - 1). split; [lia|].
    destruct (chunk_prefixes 3 n t (t - 1)) as [l| |] eqn:E; [|rewrite chunk_prefixes_small in E by (assumption || lia); discriminate..].
    pose proof (chunk_small_iff n t (t - 1) l Hn Ht Hlt H2 ltac:(lia) E) as HI.
    destruct l as [|p l]; [reflexivity|]. exfalso. destruct (proj1 (HI p) (or_introl eq_refl)) as (Hl & Hf & Hnd & Hlo).
    destruct p as [|a [|b [|c [|? ?]]]]; try discriminate Hl.
    inversion Hf as [|? ? Ha Hf1]; subst. inversion Hf1 as [|? ? Hb' Hf2]; subst. inversion Hf2 as [|? ? Hc _]; subst.
    pose proof (greatest_key n a b c Hn Ha Hb' Hc Hnd) as HG. rewrite number_3 in Hlo.
    apply Hb. right. rewrite pow3 in *. lia.
Qed.

(** up to as many workers as vertices nobody is idle *)
Lemma busy_few n t : 3 <= n -> t <= n -> busy n t.
Proof.
  intros Hn Ht. left. rewrite pow3. destruct (Nat.eq_dec n 3) as [->|]; [lia|]. assert (n + 4 <= n * n) by nia. nia.
Qed.

(** with chunks of one key the first worker goes through all prefixes *)
Lemma first_sees_all n t l a b c : 3 <= n -> 1 <= t -> t < n ^ 3 -> n ^ 3 < 2 * t -> chunk_prefixes 3 n t 0 = Ok l ->
  a < n -> b < n -> c < n -> NoDup [a; b; c] -> In [a; b; c] l.
Proof.
  intros Hn Ht H1 H2 E Ha Hb Hc Hd. apply (chunk_small_iff n t 0 l Hn Ht H1 H2 ltac:(lia) E).
  split; [reflexivity|]. split; [apply digits3; assumption|]. split; [assumption|].
  pose proof (least_key n a b c Hn Ha Hb Hc Hd). rewrite number_3. lia.
Qed.

(** Whoever has enough prefixes to hand out sees every tour. *)
Theorem busy_seen n t q : 3 <= n -> 1 <= t -> busy n t -> is_tour n q -> seen n t q.
Proof.
  intros Hn Ht Hb Hq. pose proof (busy_lt n t Hb Ht) as Hlt. destruct Hb as [Hfew|[Hmany _]]; [apply coverage_all; assumption|].
  pose proof (tour_length _ _ Hq) as Hl. pose proof (tour_NoDup _ _ Hq) as Hnd. pose proof (tour_Forall _ _ Hq) as Hf.
  destruct q as [|a [|b [|d r]]]; cbn [length] in Hl; try lia. clear Hl.
  exists 0, [a; b; d], [], (a :: b :: d :: r), r. split; [lia|]. split; [left; reflexivity|]. rewrite app_nil_r. split; [assumption|]. split; [|reflexivity].
  eexists. split; [apply (chunk_prefixes_small 3 n t 0 Ht Hlt Hmany); lia|].
  inversion Hf as [|? ? Ha Hf1]; subst. inversion Hf1 as [|? ? Hb Hf2]; subst. inversion Hf2 as [|? ? Hdd _]; subst.
  apply (first_sees_all n t _ a b d Hn Ht Hlt Hmany (chunk_prefixes_small 3 n t 0 Ht Hlt Hmany ltac:(lia)) Ha Hb Hdd).
  inversion Hnd as [|? ? Ha1 Hnd1]; subst. inversion Hnd1 as [|? ? Hb1 _]; subst. cbn [In] in *.
  apply three_distinct; intros ->; tauto.
Qed.
