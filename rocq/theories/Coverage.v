(** Which prefixes the workers go through (exact.rs:664-688), and that every tour has a
    rotation starting with one of them. *)
From Coq Require Import ZArith NArith Arith Bool List Permutation Lia ZifyBool.
From Verif Require Import Num Base Spec SpecFacts Data Mst Exact Threaded Dfs DigitsProofs.
Import ListNotations.

Lemma list_eqb_eq a b : list_eqb a b = true <-> a = b.
Proof.
  revert b. induction a as [|x a IH]; intros [|y b]; simpl; try (split; congruence).
  rewrite andb_true_iff, Nat.eqb_eq, IH. split; [intros [-> ->]; reflexivity|intros H; injection H as -> ->; auto].
Qed.

Lemma nodup_length_NoDup (l : list nat) : length (nodup Nat.eq_dec l) <= length l /\
  (length l = length (nodup Nat.eq_dec l) <-> NoDup l).
Proof.
  induction l as [|x l [IH1 IH2]]; simpl; [repeat split; auto; constructor|].
  destruct (in_dec Nat.eq_dec x l) as [Hi|Hn]; simpl.
  - split; [lia|]. split; [lia|]. intros H. inversion H; contradiction.
  - split; [lia|]. split.
    + intros H. constructor; [assumption|]. apply IH2. lia.
    + intros H. inversion H. f_equal. apply IH2. assumption.
Qed.

Lemma is_unique_NoDup l : is_unique l = true <-> NoDup l.
Proof. unfold is_unique. rewrite Nat.eqb_eq. apply nodup_length_NoDup. Qed.

Section Walk.
Variables b k : nat.
Hypothesis Hb : 1 <= b.
Notation key v := (convert_to_b_ary_digits v b k).

Lemma key_inj u v : u < b ^ k -> v < b ^ k -> key u = key v -> u = v.
Proof.
  intros Hu Hv H. pose proof (number_convert b Hb u k) as H1. pose proof (number_convert b Hb v k) as H2.
  rewrite Nat.mod_small in H1, H2 by assumption. congruence.
Qed.

(** the loop goes through the keys strictly between [v] and the end, which is [M] if that
    comes later than [v], else the whole rest of the key space *)
Lemma walk_spec M : M < b ^ k -> forall fuel v, v < b ^ k -> b ^ k - v <= fuel ->
  let stop := if v <? M then M else b ^ k in
  walk fuel (key v) (key M) b = Ok (filter is_unique (map (fun u => key u) (seq (S v) (stop - S v)))).
Proof.
  intros HM. induction fuel as [|f IH]; intros v Hv Hf; [lia|]. cbn [walk].
  destruct (Nat.eq_dec (S v) (b ^ k)) as [E|Ne].
  - rewrite get_next_value_overflow by assumption.
    replace (v <? M) with false by (symmetry; apply Nat.ltb_ge; lia).
    cbv zeta. replace (b ^ k - S v) with 0 by lia. reflexivity.
  - rewrite get_next_value_convert by lia.
    destruct (list_eqb (key (S v)) (key M)) eqn:El.
    + apply list_eqb_eq in El. apply key_inj in El; [|lia|lia].
      replace (v <? M) with true by (symmetry; apply Nat.ltb_lt; lia).
      cbv zeta. replace (M - S v) with 0 by lia. reflexivity.
    + assert (Hne : S v <> M) by (intros <-; assert (list_eqb (key (S v)) (key (S v)) = true) by (apply list_eqb_eq; reflexivity); congruence).
      specialize (IH (S v) ltac:(lia) ltac:(lia)). cbv zeta in IH |- *. rewrite IH. cbn [bind].
      assert (Es : (if S v <? M then M else b ^ k) = (if v <? M then M else b ^ k)).
      { destruct (Nat.ltb_spec (S v) M), (Nat.ltb_spec v M); lia. }
      rewrite Es. set (stop := if v <? M then M else b ^ k).
      assert (Hst : S v < stop) by (unfold stop; destruct (Nat.ltb_spec v M); lia).
      replace (stop - S v) with (S (stop - S (S v))) by lia. cbn [seq map filter]. destruct (is_unique (key (S v))); reflexivity.
Qed.
End Walk.

(** worker [i] of [t]: the unique keys strictly inside its chunk *)
Theorem chunk_prefixes_spec k dim t i : 1 <= t -> 2 * t <= dim ^ k -> i < t ->
  let s := dim ^ k / t in
  chunk_prefixes k dim t i =
    Ok (filter is_unique (map (fun u => convert_to_b_ary_digits u dim k) (seq (S (i * s)) (s - 2)))).
Proof.
  intros Ht Hs Hi s. unfold chunk_prefixes.
  assert (H2 : 2 <= s) by (apply Nat.div_le_lower_bound; lia).
  assert (Hts : t * s <= dim ^ k) by (apply Nat.mul_div_le; lia).
  rewrite split_spec by lia. cbv zeta. fold s. cbn [bind].
  destruct dim as [|d].
  { destruct k; simpl in Hs; lia. }
  assert (Hmax : i * s + s - 1 < S d ^ k) by nia.
  rewrite walk_spec by (try assumption; lia). f_equal.
  replace (i * s <? i * s + s - 1) with true by (symmetry; apply Nat.ltb_lt; lia).
  replace (i * s + s - 1 - S (i * s)) with (s - 2) by lia. reflexivity.
Qed.

(** more than half as many workers as keys: chunks of one key, every worker goes through the
    whole rest of the key space *)
Theorem chunk_prefixes_small k dim t i : 1 <= t -> t < dim ^ k -> dim ^ k < 2 * t -> i < t ->
  chunk_prefixes k dim t i =
    Ok (filter is_unique (map (fun u => convert_to_b_ary_digits u dim k) (seq (S i) (dim ^ k - S i)))).
Proof.
  intros Ht H1 H2 Hi. unfold chunk_prefixes. rewrite split_spec by lia. cbv zeta.
  replace (dim ^ k / t) with 1 by (apply (Nat.div_unique _ _ 1 (dim ^ k - t)); lia).
  cbn [bind]. destruct dim as [|d].
  { destruct k; simpl in H1; lia. }
  replace (i * 1 + 1 - 1) with i by lia. replace (i * 1) with i by lia.
  rewrite walk_spec by lia. replace (i <? i) with false by (symmetry; apply Nat.ltb_ge; lia). reflexivity.
Qed.

(** ** Coverage with three digits *)
Lemma pow3 n : n ^ 3 = n * n * n. Proof. simpl. lia. Qed.

Lemma two_digits n b c : b < n -> c < n -> b * n + c < n * n.
Proof. intros Hb Hc. assert ((b + 1) * n <= n * n) by (apply Nat.mul_le_mono_r; lia). lia. Qed.

Lemma two_digits_0 n b c : 1 <= n -> b * n + c = 0 -> b = 0 /\ c = 0.
Proof. intros Hn H. destruct b; simpl in *; lia. Qed.

Lemma three_digits n a b c : a < n -> b < n -> c < n -> a <> b -> a * n * n + b * n + c + n < n * n * n.
Proof.
  intros Ha Hb Hc Hab. destruct (Nat.eq_dec a (n - 1)) as [->|Na].
  - pose proof (two_digits n (b + 1) c ltac:(lia) Hc). rewrite <- Nat.mul_assoc.
    assert (E : n * n * n = (n - 1) * (n * n) + n * n).
    { replace n with (S (n - 1)) at 1 by lia. rewrite <- Nat.mul_assoc. cbn [Nat.mul]. lia. }
    lia.
  - pose proof (two_digits n b c Hb Hc). rewrite <- Nat.mul_assoc.
    assert ((a + 2) * (n * n) <= n * (n * n)) by (apply Nat.mul_le_mono_r; lia).
    assert (n <= n * n) by (replace n with (n * 1) at 1 by lia; apply Nat.mul_le_mono_l; lia). lia.
Qed.

Lemma mul_lt_inv x y s : x * s < y * s -> x < y.
Proof. intros H. destruct (le_lt_dec y x) as [Hl|]; [|assumption]. apply (Nat.mul_le_mono_r _ _ s) in Hl. lia. Qed.

Section Three.
Variable n : nat.
Hypothesis Hn : 3 <= n.
Variable t : nat.
Hypothesis Ht : 1 <= t <= n.
Let s := n ^ 3 / t.

Lemma size_big : n * n <= s.
Proof. unfold s. rewrite pow3. apply Nat.div_le_lower_bound; nia. Qed.

Lemma chunk_total : t * s <= n ^ 3 < t * s + t.
Proof.
  unfold s. pose proof (Nat.div_mod (n ^ 3) t ltac:(lia)). pose proof (Nat.mod_upper_bound (n ^ 3) t ltac:(lia)). lia.
Qed.

Lemma square_step a a' : a < a' -> a * n * n + n * n <= a' * n * n.
Proof. intros H. assert (a * (n * n) + n * n <= a' * (n * n)) by nia. lia. Qed.

Lemma number3 a b c : number n [a; b; c] = a * n * n + b * n + c.
Proof. unfold number. simpl. lia. Qed.

(** examined by worker [i] *)
Definition examined (i : nat) (p : list nat) : Prop :=
  exists l, chunk_prefixes 3 n t i = Ok l /\ In p l.

Lemma examined_intro i a b c : i < t -> a < n -> b < n -> c < n -> NoDup [a; b; c] ->
  i * s < number n [a; b; c] < i * s + s - 1 -> examined i [a; b; c].
Proof.
  intros Hi Ha Hb Hc Hnd Hr. pose proof size_big. pose proof chunk_total.
  eexists. split; [apply chunk_prefixes_spec; try lia|].
  { rewrite pow3. nia. }
  fold s. apply filter_In. split; [|apply is_unique_NoDup; assumption].
  apply in_map_iff. exists (number n [a; b; c]). split.
  - apply (convert_number n ltac:(lia) [a; b; c]). repeat constructor; assumption.
  - apply in_seq. lia.
Qed.

(** a key of distinct digits that is dropped sits next to an inner chunk boundary *)
Lemma dropped a b c : a < n -> b < n -> c < n -> NoDup [a; b; c] ->
  (exists i, i < t /\ examined i [a; b; c]) \/
  (exists i, 1 <= i < t /\ (number n [a; b; c] = i * s \/ number n [a; b; c] + 1 = i * s)).
Proof.
  intros Ha Hb Hc Hnd. pose proof size_big as Hs. pose proof chunk_total as Htot. rewrite pow3 in Htot.
  pose proof (number3 a b c) as HK. set (K := number n [a; b; c]) in *.
  assert (Hab : a <> b) by (inversion Hnd as [|? ? Hni _]; subst; intros ->; apply Hni; left; reflexivity).
  assert (HK1 : K <> 0).
  { intros H0. assert (b * n + c = 0) as Hbc by lia. apply two_digits_0 in Hbc; [|lia].
    assert (a * n * n = 0) as Ha0 by lia. apply Nat.eq_mul_0 in Ha0. destruct Ha0 as [Ha0|]; [|lia].
    apply Nat.eq_mul_0 in Ha0. lia. }
  pose proof (three_digits n a b c Ha Hb Hc Hab) as HK2. rewrite <- HK in HK2.
  assert (Hs1 : 1 <= s). { assert (1 * 1 <= n * n) by (apply Nat.mul_le_mono; lia). lia. }
  set (i := K / s). pose proof (Nat.div_mod K s ltac:(lia)) as Hdm. fold i in Hdm.
  pose proof (Nat.mod_upper_bound K s ltac:(lia)) as Hmod. rewrite (Nat.mul_comm s i) in Hdm.
  assert (Hit : i < t) by (apply (mul_lt_inv i t s); lia).
  destruct (Nat.eq_dec K (i * s)) as [E|N1].
  - right. exists i. split; [|left; assumption]. split; [|assumption]. destruct i; [lia|lia].
  - destruct (Nat.eq_dec (K + 1) (i * s + s)) as [E|N2].
    + right. exists (S i). split; [|right; simpl; lia]. split; [lia|].
      destruct (Nat.eq_dec (S i) t) as [Et|]; [|lia]. exfalso.
      assert (t * s = i * s + s) by (rewrite <- Et; simpl; lia). lia.
    + left. exists i. split; [assumption|]. apply examined_intro; try assumption. fold K. lia.
Qed.

(** the rotation of a tour that starts at [a] *)
Definition rot_at (q : list nat) (a : nat) : list nat :=
  match find (fun '(x, y) => match y with z :: _ => z =? a | [] => false end)
             (map (fun r => (firstn r q, skipn r q)) (seq 0 (length q))) with
  | Some (x, y) => y ++ x
  | None => q
  end.

Lemma rot_at_spec q a : is_tour n q -> a < n ->
  exists x b c r, q = x ++ a :: skipn (S (length x)) q /\ rot_at q a = a :: b :: c :: r /\
    rot_at q a = (a :: skipn (S (length x)) q) ++ x /\ is_tour n (rot_at q a).
Proof.
  intros Hq Ha. unfold rot_at.
  destruct (find _ _) as [[x y]|] eqn:Ef.
  - apply find_some in Ef. destruct Ef as [Hin Hy]. apply in_map_iff in Hin. destruct Hin as (r & Er & Hr).
    injection Er as <- <-. apply in_seq in Hr. destruct (skipn r q) as [|z y'] eqn:Esk; [discriminate|].
    apply Nat.eqb_eq in Hy. subst z.
    assert (Hlen : length (firstn r q) = r) by (rewrite firstn_length; lia).
    assert (Hsp : q = firstn r q ++ a :: y') by (rewrite <- Esk; symmetry; apply firstn_skipn).
    assert (Hs2 : skipn (S r) q = y').
    { rewrite Hsp at 1. rewrite skipn_app, Hlen. rewrite skipn_all2 by lia. replace (S r - r) with 1 by lia. reflexivity. }
    assert (Hrot : is_tour n ((a :: y') ++ firstn r q)).
    { unfold is_tour in *. rewrite <- Hq. rewrite Hsp at 2. apply Permutation_app_comm. }
    pose proof (tour_length _ _ Hrot) as Hl.
    exists (firstn r q). rewrite Hlen, Hs2.
    destruct ((a :: y') ++ firstn r q) as [|a' [|b [|c rr]]] eqn:Erot; simpl in Hl; try lia.
    assert (a' = a) by (simpl in Erot; congruence). subst a'.
    exists b, c, rr. auto.
  - exfalso. assert (Hin : In a q) by (apply (tour_In n q a Hq); assumption).
    apply in_split in Hin. destruct Hin as (x & y & Exy).
    assert (Hn2 := find_none _ _ Ef (x, a :: y)). simpl in Hn2. rewrite Nat.eqb_refl in Hn2.
    assert (true = false); [|discriminate]. apply Hn2. apply in_map_iff. exists (length x). split.
    + rewrite Exy. f_equal.
      * rewrite firstn_app, Nat.sub_diag, firstn_all. simpl. apply app_nil_r.
      * rewrite skipn_app, Nat.sub_diag, skipn_all. reflexivity.
    + apply in_seq. rewrite Exy, app_length. simpl. lia.
Qed.

Theorem coverage q : is_tour n q ->
  exists i p x y, i < t /\ q = x ++ y /\ is_tour n (y ++ x) /\ examined i p /\ length p = 3 /\
    exists r, y ++ x = p ++ r.
Proof.
  intros Hq.
  assert (Hcase : (exists a, a < n /\ exists i, i < t /\ examined i (firstn 3 (rot_at q a))) \/
    (forall a, a < n -> exists i, 1 <= i < t /\
       (number n (firstn 3 (rot_at q a)) = i * s \/ number n (firstn 3 (rot_at q a)) + 1 = i * s))).
  { assert (G : forall k, k <= n -> (exists a, a < n /\ exists i, i < t /\ examined i (firstn 3 (rot_at q a))) \/
      (forall a, a < k -> exists i, 1 <= i < t /\
       (number n (firstn 3 (rot_at q a)) = i * s \/ number n (firstn 3 (rot_at q a)) + 1 = i * s))).
    { induction k as [|k IH]; intros Hk; [right; intros a Ha; lia|].
      destruct (IH ltac:(lia)) as [H|H]; [left; assumption|].
      destruct (rot_at_spec q k Hq ltac:(lia)) as (x & b & c & r & H1 & H2 & H3 & H4).
      pose proof (tour_NoDup _ _ H4) as Hnd. pose proof (tour_Forall _ _ H4) as Hr.
      rewrite H2 in Hnd, Hr. inversion Hr as [|? ? Ha Hr1]; subst. inversion Hr1 as [|? ? Hb Hr2]; subst. inversion Hr2 as [|? ? Hc _]; subst.
      assert (Hnd3 : NoDup [k; b; c]).
      { change (k :: b :: c :: r) with ([k; b; c] ++ r) in Hnd. revert Hnd. generalize [k; b; c]. clear.
        induction l as [|x l IH]; intros H; [constructor|]. inversion H; subst. constructor; [|auto].
        intros Hin. apply H2. apply in_or_app. left; assumption. }
      assert (Ef : firstn 3 (rot_at q k) = [k; b; c]) by (rewrite H2; reflexivity).
      destruct (dropped k b c Ha Hb Hc Hnd3) as [(i & Hi & He)|(i & Hi & He)].
      - left. exists k. split; [assumption|]. exists i. rewrite Ef. auto.
      - right. intros a Hak. destruct (Nat.eq_dec a k) as [->|]; [|apply H; lia].
        exists i. rewrite Ef. auto. }
    destruct (G n (Nat.le_refl n)) as [H|H]; [left|right]; assumption. }
  destruct Hcase as [(a & Ha & i & Hi & He)|Hall].
  - destruct (rot_at_spec q a Hq Ha) as (x & b & c & r & H1 & H2 & H3 & H4).
    exists i, (firstn 3 (rot_at q a)), x, (a :: skipn (S (length x)) q).
    split; [assumption|]. split; [assumption|]. rewrite <- H3. split; [assumption|]. split; [assumption|].
    split; [rewrite H2; reflexivity|]. exists (skipn 3 (rot_at q a)). symmetry. apply firstn_skipn.
  - exfalso. pose proof size_big as Hs.
    set (K a := number n (firstn 3 (rot_at q a))) in *. set (f a := (K a + 1) / s).
    assert (Hf : forall a, a < n -> 1 <= f a < t /\ (K a = f a * s \/ K a + 1 = f a * s)).
    { intros a Ha. destruct (Hall a Ha) as (i & Hi & He). assert (f a = i) as ->; [|auto]. unfold f. fold (K a) in He.
      destruct He as [He|He].
      - symmetry. apply (Nat.div_unique _ _ i 1); nia.
      - symmetry. apply (Nat.div_unique _ _ i 0); nia. }
    assert (HKa : forall a, a < n -> exists b c, b < n /\ c < n /\ a <> b /\ b <> c /\ K a = a * n * n + b * n + c).
    { intros a Ha. destruct (rot_at_spec q a Hq Ha) as (x & b & c & r & H1 & H2 & H3 & H4).
      pose proof (tour_NoDup _ _ H4) as Hnd. pose proof (tour_Forall _ _ H4) as Hr.
      rewrite H2 in Hnd, Hr. inversion Hr as [|? ? _ Hr1]; subst. inversion Hr1 as [|? ? Hb Hr2]; subst. inversion Hr2 as [|? ? Hc _]; subst.
      inversion Hnd as [|? ? Hna Hnd1]; subst. inversion Hnd1 as [|? ? Hnb _]; subst.
      exists b, c. split; [assumption|]. split; [assumption|]. split; [intros ->; apply Hna; left; reflexivity|].
      split; [intros ->; apply Hnb; left; reflexivity|]. unfold K. rewrite H2. simpl firstn. apply number3. }
    assert (Hinj : forall a a', a < n -> a' < n -> f a = f a' -> a = a').
    { intros a a' Ha Ha' E. destruct (Hf a Ha) as [_ H1]. destruct (Hf a' Ha') as [_ H2]. rewrite E in H1.
      destruct (HKa a Ha) as (b & c & Hb & Hc & Hab & Hbc & EK). destruct (HKa a' Ha') as (b' & c' & Hb' & Hc' & Hab' & Hbc' & EK').
      set (v := f a' * s) in *.
      assert (Hnear : K a = K a' \/ K a = K a' + 1 \/ K a' = K a + 1) by lia.
      pose proof (two_digits n b c Hb Hc) as Hr. pose proof (two_digits n b' c' Hb' Hc') as Hr'.
      destruct (Nat.lt_trichotomy a a') as [Hlt|[Heq|Hgt]]; [|assumption|]; exfalso.
      - assert (a * n * n + n * n <= a' * n * n) by (apply square_step; assumption).
        assert (b' * n + c' = 0) as H0 by lia. apply two_digits_0 in H0; lia.
      - assert (a' * n * n + n * n <= a * n * n) by (apply square_step; assumption).
        assert (b * n + c = 0) as H0 by lia. apply two_digits_0 in H0; lia. }
    assert (Hnd : NoDup (map f (seq 0 n))).
    { apply (NoDup_nth _ 0). intros i j Hi Hj E. rewrite map_length, seq_length in Hi, Hj.
      rewrite !(nth_indep (map f (seq 0 n)) 0 (f 0)) in E by (rewrite map_length, seq_length; assumption).
      rewrite !map_nth, !seq_nth in E by assumption. apply Hinj; assumption. }
    assert (Hincl : incl (map f (seq 0 n)) (seq 1 (t - 1))).
    { intros y Hy. apply in_map_iff in Hy. destruct Hy as (a & <- & Ha). apply in_seq in Ha.
      destruct (Hf a ltac:(lia)) as [H _]. apply in_seq. lia. }
    pose proof (NoDup_incl_length Hnd Hincl) as Hlen. rewrite map_length, !seq_length in Hlen. lia.
Qed.
End Three.
