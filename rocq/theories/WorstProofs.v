(** Proofs for C75: a family of metrics on which Christofides' algorithm as it is run is far from
    the optimum. *)
From Coq Require Import ZArith Arith Bool List Permutation FinFun Lia.
From Verif Require Import Num Base Spec SpecFacts Data Mst Par Mem Rand MstPar Matching Christofides Greedy PrimProofs Dfs
  PermProofs MstParProofs MstFacts MatchingProofs EulerProofs FillProofs ChristofidesProofs ChristofidesExact BoundsProofs.
Import ListNotations.

(** ** Edges of the Eulerian walk that stay in the tour *)
Lemma subseq_once {A} (l1 l2 : list A) a : ~ In a l1 -> ~ In a l2 -> forall p, subseq p (l1 ++ a :: l2) -> In a p ->
  exists p1 p2, p = p1 ++ a :: p2 /\ subseq p1 l1 /\ subseq p2 l2.
Proof.
  induction l1 as [|x l1 IH]; intros H1 H2 p Hs Ha; cbn [app] in Hs; inversion Hs as [|? ? ? Hs'|? ? ? Hs']; subst.
  - exfalso. apply H2. apply (subseq_In _ _ a Hs'). assumption.
  - exists [], l. split; [reflexivity|]. split; [constructor|assumption].
  - destruct (IH ltac:(intros H; apply H1; right; assumption) H2 p Hs' Ha) as (p1 & p2 & -> & Hp1 & Hp2). exists p1, p2. split; [reflexivity|]. split; [constructor; assumption|assumption].
  - destruct Ha as [->|Ha]; [exfalso; apply H1; left; reflexivity|].
    destruct (IH ltac:(intros H; apply H1; right; assumption) H2 l Hs' Ha) as (p1 & p2 & -> & Hp1 & Hp2). exists (x :: p1), p2. split; [reflexivity|]. split; [constructor; assumption|assumption].
Qed.
Lemma subseq_adjacent {A} (l1 l2 p : list A) a b : subseq p (l1 ++ a :: b :: l2) -> In a p -> In b p -> a <> b ->
  ~ In a l1 -> ~ In a l2 -> ~ In b l1 -> ~ In b l2 -> exists p1 p2, p = p1 ++ a :: b :: p2.
Proof.
  intros Hs Ha Hb Hab A1 A2 B1 B2. destruct (subseq_once l1 (b :: l2) a A1 ltac:(intros [H|H]; [congruence|contradiction]) p Hs Ha) as (p1 & p2 & -> & Hp1 & Hp2).
  apply in_app_or in Hb. destruct Hb as [Hb|[Hb|Hb]]; [exfalso; apply B1, (subseq_In _ _ b Hp1); assumption|contradiction|].
  inversion Hp2 as [|? ? ? Hs'|? ? ? Hs']; subst; [exfalso; apply B2, (subseq_In _ _ b Hs'); assumption|]. exists p1, l. reflexivity.
Qed.

Lemma traversals_split p i j : traversals p i j <> 0 -> exists l1 l2, p = l1 ++ i :: j :: l2 \/ p = l1 ++ j :: i :: l2.
Proof.
  induction p as [|a [|b p] IH]; [cbn; congruence..|]. rewrite traversals_cons. intros H.
  destruct ((a =? i) && (b =? j)) eqn:E1; [apply andb_true_iff in E1; rewrite !Nat.eqb_eq in E1; destruct E1 as [-> ->]; exists [], p; left; reflexivity|].
  destruct ((a =? j) && (b =? i)) eqn:E2; [apply andb_true_iff in E2; rewrite !Nat.eqb_eq in E2; destruct E2 as [-> ->]; exists [], p; right; reflexivity|].
  destruct (IH H) as (l1 & l2 & [E|E]); rewrite E; exists (a :: l1), l2; [left|right]; reflexivity.
Qed.
Lemma in_path_edges p1 p2 a b : In (a, b) (path_edges (p1 ++ a :: b :: p2)).
Proof. induction p1 as [|x [|y p1] IH]; [left; reflexivity|right; left; reflexivity|]. right. exact IH. Qed.

Lemma once_notin (l1 l2 : list nat) a : count_occ Nat.eq_dec (l1 ++ a :: l2) a = 1 -> ~ In a l1 /\ ~ In a l2.
Proof.
  rewrite count_occ_app. cbn [count_occ]. destruct (Nat.eq_dec a a); [|congruence]. intros H.
  split; intros Hin; apply (count_occ_In Nat.eq_dec) in Hin; lia.
Qed.

Lemma middle (q l1 l2 : list nat) a b z : a <> z -> b <> z -> z :: q ++ [z] = l1 ++ a :: b :: l2 -> exists k1 k2, q = k1 ++ a :: b :: k2.
Proof.
  intros Ha Hb E. destruct l1 as [|x l1]; [cbn in E; injection E; congruence|]. cbn [app] in E. injection E as _ E.
  destruct (list_eq_dec Nat.eq_dec l2 []) as [->|Hne].
  - change (l1 ++ [a; b]) with (l1 ++ [a] ++ [b]) in E. rewrite app_assoc in E. apply app_inj_tail in E. destruct E. congruence.
  - destruct (exists_last Hne) as (k2 & y & ->). change (l1 ++ a :: b :: k2 ++ [y]) with (l1 ++ (a :: b :: k2) ++ [y]) in E. rewrite app_assoc in E.
    apply app_inj_tail in E. destruct E as [-> _]. exists l1, k2. reflexivity.
Qed.

(** two vertices of degree two that the walk joins are neighbours in the tour *)
Lemma kept_edge p q a b : subseq p q -> In a p -> In b p -> a <> b -> a <> 0 -> b <> 0 ->
  count_occ Nat.eq_dec (0 :: q ++ [0]) a = 1 -> count_occ Nat.eq_dec (0 :: q ++ [0]) b = 1 -> traversals (0 :: q ++ [0]) a b <> 0 ->
  In (a, b) (path_edges ((0 :: p) ++ [0])) \/ In (b, a) (path_edges ((0 :: p) ++ [0])).
Proof.
  intros Hs Ha Hb Hab Ha0 Hb0 Ca Cb Ht.
  assert (Cq : forall x, x <> 0 -> count_occ Nat.eq_dec (0 :: q ++ [0]) x = 1 -> count_occ Nat.eq_dec q x = 1).
  { intros x Hx. cbn [count_occ]. destruct (Nat.eq_dec 0 x); [congruence|]. rewrite count_occ_app. cbn [count_occ]. destruct (Nat.eq_dec 0 x); [congruence|]. lia. }
  apply Cq in Ca; [|assumption]. apply Cq in Cb; [|assumption]. clear Cq.
  assert (Hmain : forall a b l1 l2, subseq p q -> In a p -> In b p -> a <> b -> a <> 0 -> b <> 0 -> count_occ Nat.eq_dec q a = 1 -> count_occ Nat.eq_dec q b = 1 ->
    0 :: q ++ [0] = l1 ++ a :: b :: l2 -> In (a, b) (path_edges ((0 :: p) ++ [0]))).
  { clear. intros a b l1 l2 Hs Ha Hb Hab Ha0 Hb0 Ca Cb E. destruct (middle q l1 l2 a b 0 Ha0 Hb0 E) as (k1 & k2 & ->).
    destruct (once_notin k1 (b :: k2) a Ca) as [A1 A2]. change (k1 ++ a :: b :: k2) with (k1 ++ [a] ++ b :: k2) in Cb. rewrite app_assoc in Cb.
    destruct (once_notin (k1 ++ [a]) k2 b Cb) as [B1 B2].
    destruct (subseq_adjacent k1 k2 p a b Hs Ha Hb Hab A1 ltac:(intros H; apply A2; right; assumption) ltac:(intros H; apply B1, in_or_app; left; assumption) B2) as (p1 & p2 & ->).
    change (0 :: p1 ++ a :: b :: p2) with ((0 :: p1) ++ a :: b :: p2). rewrite <- app_assoc. apply in_path_edges. }
  destruct (traversals_split _ _ _ Ht) as (l1 & l2 & [E|E]); [left; eapply Hmain; eauto|right; eapply Hmain; eauto].
Qed.

Lemma cost_among (w : nat -> nat -> Z) F : NoDup F -> forall E, incl F E -> (forall a b, In (a, b) E -> (0 <= w a b)%Z) -> (edges_cost w F <= edges_cost w E)%Z.
Proof.
  induction F as [|[a b] F IH]; intros Hnd E Hi Hp.
  - clear -Hp. change (edges_cost w []) with 0%Z. induction E as [|[a b] E IH]; [reflexivity|]. unfold edges_cost in *. cbn [fold_right fst snd].
    pose proof (Hp a b (or_introl eq_refl)). specialize (IH ltac:(intros; apply Hp; right; assumption)). lia.
  - inversion Hnd as [|? ? Hn Hnd']. subst. destruct (in_split (a, b) E (Hi _ (or_introl eq_refl))) as (A & B & ->).
    rewrite (edges_cost_perm w (A ++ (a, b) :: B) ((a, b) :: A ++ B)) by (apply Permutation_sym, Permutation_middle).
    assert (IHF : (edges_cost w F <= edges_cost w (A ++ B))%Z).
    { apply IH; [assumption| |].
      - intros e He. specialize (Hi e (or_intror He)). apply in_app_or in Hi. apply in_or_app. destruct Hi as [H|[H|H]]; [left; assumption|subst; contradiction|right; assumption].
      - intros x y Hxy. apply Hp. apply in_app_or in Hxy. apply in_or_app. destruct Hxy; [left|right; right]; assumption. }
    unfold edges_cost in *. cbn [fold_right fst snd]. lia.
Qed.

(** ** The distances: two stars whose centres are [L] apart; of four leaves the second one is on
    the other side *)
Section Stars.
Variables (s : nat) (L : Z).
Hypothesis HL : (2 <= L)%Z.
Definition leaf (v : nat) : bool := v <? 4 * s.
Definition ray (v : nat) : Z := if leaf v then 1%Z else 0%Z.
Definition side (v : nat) : bool := v mod 4 =? 1.
Definition stars (i j : nat) : Z := if i =? j then 0%Z else (ray i + ray j + if Bool.eqb (side i) (side j) then 0 else L)%Z.
Let n := 4 * s + 2.

Lemma ray_range v : (0 <= ray v <= 1)%Z.
Proof. unfold ray. destruct (leaf v); lia. Qed.
Lemma stars_sym i j : stars i j = stars j i.
Proof. unfold stars. rewrite Nat.eqb_sym. destruct (j =? i); [reflexivity|]. destruct (side i), (side j); cbn [Bool.eqb]; lia. Qed.
Lemma stars_diag i : stars i i = 0%Z.
Proof. unfold stars. rewrite Nat.eqb_refl. reflexivity. Qed.
Lemma stars_range i j : (0 <= stars i j <= L + 2)%Z.
Proof. unfold stars. pose proof (ray_range i). pose proof (ray_range j). destruct (i =? j), (Bool.eqb (side i) (side j)); lia. Qed.
Lemma stars_triangle i j k : (stars i j <= stars i k + stars k j)%Z.
Proof.
  unfold stars. pose proof (ray_range i). pose proof (ray_range j). pose proof (ray_range k).
  destruct (Nat.eqb_spec i k), (Nat.eqb_spec k j), (Nat.eqb_spec i j); subst; try lia; try congruence;
    repeat match goal with |- context [side ?v] => destruct (side v) end; cbn [Bool.eqb]; lia.
Qed.

Lemma side_mod v k r : v = 4 * k + r -> r < 4 -> side v = (r =? 1).
Proof. clear. intros -> Hr. unfold side. replace (4 * k + r) with (r + k * 4) by lia. rewrite Nat.mod_add, Nat.mod_small by lia. reflexivity. Qed.
Lemma centre_sides : side (4 * s) = false /\ side (4 * s + 1) = true.
Proof. split; [rewrite (side_mod _ s 0)|rewrite (side_mod _ s 1)]; (reflexivity || lia). Qed.
Lemma centre v : v < n -> leaf v = false -> v = if side v then 4 * s + 1 else 4 * s.
Proof.
  intros Hv Hl. unfold leaf in Hl. apply Nat.ltb_ge in Hl. destruct centre_sides as [H0 H1]. assert (H : v = 4 * s \/ v = 4 * s + 1) by (unfold n in Hv; lia).
  destruct H as [-> | ->]; [rewrite H0|rewrite H1]; reflexivity.
Qed.

(** edges within a side weigh at least 1, and 1 only from a leaf to its centre *)
Lemma stars_one a b : a < n -> b < n -> a <> b -> (1 <= stars a b)%Z /\ (stars a b = 1%Z -> leaf a = negb (leaf b) /\ side a = side b).
Proof.
  intros Ha Hb Hab. unfold stars. apply Nat.eqb_neq in Hab as E. rewrite E. unfold ray. pose proof (centre a Ha) as Ca. pose proof (centre b Hb) as Cb.
  destruct (side a) eqn:Sa, (side b) eqn:Sb, (leaf a) eqn:La, (leaf b) eqn:Lb; cbn [Bool.eqb negb] in *; (split; [|intros H; split; [|]]); try reflexivity; try lia;
    try (exfalso; specialize (Ca eq_refl); specialize (Cb eq_refl); lia).
Qed.

(** the tree of the two stars *)
Definition hub_of (v : nat) : nat := if side v then 4 * s + 1 else 4 * s.
Definition two_stars : list (nat * nat) := (4 * s, 4 * s + 1) :: map (fun v => (v, hub_of v)) (seq 0 (4 * s)).
Lemma hub_range v : hub_of v < n /\ leaf (hub_of v) = false /\ side (hub_of v) = side v.
Proof.
  unfold hub_of, leaf, n. destruct centre_sides as [H0 H1]. destruct (side v); (split; [lia|]); (split; [apply Nat.ltb_ge; lia|assumption]).
Qed.
Lemma two_stars_cost : edges_cost stars two_stars = (4 * Z.of_nat s + L)%Z.
Proof.
  assert (H : forall a k, a + k <= 4 * s -> edges_cost stars (map (fun v => (v, hub_of v)) (seq a k)) = Z.of_nat k).
  { intros a k. revert a. induction k as [|k IH]; intros a Hk; [reflexivity|]. cbn [seq map]. unfold edges_cost in *. cbn [fold_right fst snd]. rewrite IH by lia.
    destruct (hub_range a) as (H1 & H2 & H3). unfold stars. assert (La : leaf a = true) by (apply Nat.ltb_lt; lia). unfold ray. rewrite La, H2, H3, Bool.eqb_reflx.
    destruct (Nat.eqb_spec a (hub_of a)) as [E|]; [rewrite <- E in H2; congruence|]. lia. }
  unfold two_stars. specialize (H 0 (4 * s) ltac:(lia)). unfold edges_cost in *. cbn [fold_right fst snd]. rewrite H.
  destruct centre_sides as [H0 H1]. unfold stars, ray, leaf. rewrite H0, H1. destruct (Nat.eqb_spec (4 * s) (4 * s + 1)); [lia|].
  destruct (Nat.ltb_spec (4 * s) (4 * s)); [lia|]. destruct (Nat.ltb_spec (4 * s + 1) (4 * s)); [lia|]. cbn [Bool.eqb]. lia.
Qed.
Lemma two_stars_spanning : spanning_tree (seq 0 n) two_stars.
Proof.
  assert (Hj : forall v, v < n -> joined two_stars (4 * s) v).
  { assert (H1 : joined two_stars (4 * s) (4 * s + 1)) by (apply (joined_step _ _ (4 * s)); [constructor|left; left; reflexivity]).
    intros v Hv. destruct (leaf v) eqn:El.
    - apply (joined_step _ _ (hub_of v)); [|right; right; apply in_map_iff; exists v; split; [reflexivity|apply in_seq; apply Nat.ltb_lt in El; lia]].
      unfold hub_of. destruct (side v); [exact H1|constructor].
    - rewrite (centre v Hv El). destruct (side v); [exact H1|constructor]. }
  split; [|split].
  - intros a b [H|H]; [injection H as <- <-; rewrite !in_seq; unfold n; lia|]. apply in_map_iff in H. destruct H as (v & H & Hv). injection H as <- <-.
    apply in_seq in Hv. rewrite !in_seq. destruct (hub_range v) as [H _]. unfold n in *. lia.
  - intros a b Ha Hb. apply in_seq in Ha, Hb. apply (joined_trans _ _ (4 * s)); [apply joined_sym|]; apply Hj; lia.
  - unfold two_stars. cbn [length]. rewrite map_length, !seq_length. unfold n. lia.
Qed.

(** every tree as cheap as that is that one *)
Lemma each_one (w : nat -> nat -> Z) E : (forall a b, In (a, b) E -> (1 <= w a b)%Z) ->
  (Z.of_nat (length E) <= edges_cost w E)%Z /\ ((edges_cost w E <= Z.of_nat (length E))%Z -> forall a b, In (a, b) E -> w a b = 1%Z).
Proof.
  induction E as [|[x y] E IH]; intros H; [split; [reflexivity|intros _ a b []]|]. destruct IH as [I1 I2]; [intros; apply H; right; assumption|].
  pose proof (H x y (or_introl eq_refl)) as Hx. unfold edges_cost in *. cbn [fold_right fst snd length]. split; [lia|].
  intros Hle a b [E0|Hin]; [injection E0 as <- <-; lia|]. apply I2; [lia|assumption].
Qed.

Lemma side_count k b : length (filter (fun v => Bool.eqb (side v) b) (seq 0 (4 * k))) = if b then k else 3 * k.
Proof.
  induction k as [|k IH]; [destruct b; reflexivity|]. replace (4 * S k) with (4 * k + 4) by lia. rewrite seq_app, filter_app, app_length, IH. cbn [seq plus].
  cbn [filter]. rewrite (side_mod (4 * k) k 0), (side_mod (S (4 * k)) k 1), (side_mod (S (S (4 * k))) k 2), (side_mod (S (S (S (4 * k)))) k 3) by lia.
  destruct b; cbn [Nat.eqb Bool.eqb length]; lia.
Qed.

Lemma least_tree T : spanning_tree (seq 0 n) T -> (edges_cost stars T <= 4 * Z.of_nat s + L)%Z ->
  forall v, v < n -> count_occ Nat.eq_dec (endpoints T) v = if leaf v then 1 else S (if side v then s else 3 * s).
Proof.
  intros HT Hc. pose proof HT as (H1 & H2 & H3). destruct centre_sides as [C0 C1].
  assert (Hr : forall a b, In (a, b) T -> a < n /\ b < n /\ a <> b).
  { intros a b Hin. destruct (H1 a b Hin) as [Ha Hb]. apply in_seq in Ha, Hb. split; [lia|]. split; [lia|]. destruct (in_split _ _ Hin) as (A & D & HAD).
    intros Heq. apply (spanning_tree_simple (seq 0 n) T A (a, b) D (seq_NoDup n 0) HT HAD). cbn [fst snd]. rewrite Heq. apply joined_refl. }
  assert (Hx : exists x y R, Permutation T ((x, y) :: R) /\ side x <> side y).
  { destruct (leaves T (filter (fun v => negb (side v)) (seq 0 n)) (4 * s) (4 * s + 1)) as (x & y & Hx & Hy & Hxy).
    - apply H2; apply in_seq; unfold n; lia.
    - apply filter_In. split; [apply in_seq; unfold n; lia|rewrite C0; reflexivity].
    - rewrite filter_In, C1. cbn. intuition congruence.
    - apply filter_In in Hx. destruct Hx as [Hx Sx]. apply negb_true_iff in Sx. assert (Sy : side y = true).
      { assert (Hyn : In y (seq 0 n)) by (destruct Hxy as [H|H]; destruct (H1 _ _ H); assumption). destruct (side y) eqn:Sy; [reflexivity|]. exfalso. apply Hy. apply filter_In. rewrite Sy. auto. }
      destruct Hxy as [H|H]; destruct (in_split _ _ H) as (A & B & ->); [exists x, y|exists y, x]; exists (A ++ B); (split; [apply Permutation_sym, Permutation_middle|congruence]). }
  destruct Hx as (x & y & R & HP & Hxy).
  assert (HR : forall a b, In (a, b) R -> a < n /\ b < n /\ a <> b) by (intros a b Hin; apply Hr, (Permutation_in _ (Permutation_sym HP)); right; assumption).
  destruct (Hr x y) as (Hx & Hy & Hne); [apply (Permutation_in _ (Permutation_sym HP)); left; reflexivity|].
  assert (HlR : length R = 4 * s) by (apply Permutation_length in HP; cbn [length] in HP; rewrite seq_length in H3; unfold n in H3; lia).
  destruct (each_one stars R) as [G1 G2]; [intros a b Hin; destruct (HR a b Hin) as (? & ? & ?); apply stars_one; assumption|].
  rewrite (edges_cost_perm stars _ _ HP) in Hc. unfold edges_cost in Hc. cbn [fold_right fst snd] in Hc. fold (edges_cost stars R) in Hc. rewrite HlR in G1, G2.
  assert (Exy : stars x y = (ray x + ray y + L)%Z).
  { unfold stars. apply Nat.eqb_neq in Hne. rewrite Hne. destruct (Bool.eqb (side x) (side y)) eqn:E; [apply Bool.eqb_prop in E; congruence|reflexivity]. }
  pose proof (ray_range x). pose proof (ray_range y). assert (Lx : leaf x = false) by (unfold ray in *; destruct (leaf x); [exfalso; lia|reflexivity]).
  assert (Ly : leaf y = false) by (unfold ray in *; destruct (leaf y); [exfalso; lia|reflexivity]).
  assert (Hone : forall a b, In (a, b) R -> a < n /\ b < n /\ leaf a = negb (leaf b) /\ side a = side b).
  { intros a b Hin. destruct (HR a b Hin) as (Ha & Hb & Hab). split; [assumption|]. split; [assumption|]. apply (stars_one a b Ha Hb Hab). apply G2; [lia|assumption]. }
  assert (Hlen : length (filter leaf (endpoints R)) = 4 * s).
  { rewrite <- HlR. clear -Hone. induction R as [|[a b] R IH]; [reflexivity|]. destruct (Hone a b (or_introl eq_refl)) as (_ & _ & E & _).
    change (endpoints ((a, b) :: R)) with (a :: b :: endpoints R). cbn [filter length]. rewrite E. specialize (IH ltac:(intros; apply Hone; right; assumption)).
    destruct (leaf b); cbn [negb length]; rewrite IH; reflexivity. }
  assert (HPe : Permutation (endpoints T) (x :: y :: endpoints R)) by (apply (endpoints_perm _ _ HP)).
  assert (HPl : Permutation (seq 0 (4 * s)) (filter leaf (endpoints R))).
  { apply NoDup_Permutation_bis; [apply seq_NoDup|rewrite Hlen, seq_length; lia|]. intros v Hv. apply in_seq in Hv.
    assert (Lv : leaf v = true) by (apply Nat.ltb_lt; lia). apply filter_In. split; [|assumption].
    assert (Hin : In v (endpoints T)).
    { destruct (leaves T [v] v (4 * s)) as (a & b & Ha & _ & Hab); [apply H2; apply in_seq; unfold n; lia|left; reflexivity|intros [E|[]]; lia|].
      destruct Ha as [->|[]]. destruct Hab as [Hab|Hab]; apply in_flat_map; eexists; (split; [exact Hab|]); cbn; auto. }
    apply (Permutation_in _ HPe) in Hin. destruct Hin as [E|[E|Hin]]; [congruence|congruence|assumption]. }
  intros v Hv. rewrite (proj1 (Permutation_count_occ Nat.eq_dec _ _) HPe v). destruct (leaf v) eqn:Lv.
  - cbn [count_occ]. destruct (Nat.eq_dec x v); [congruence|]. destruct (Nat.eq_dec y v); [congruence|].
    assert (Hcf : forall l, count_occ Nat.eq_dec (filter leaf l) v = count_occ Nat.eq_dec l v).
    { clear -Lv. induction l as [|z l IH]; [reflexivity|]. cbn [filter count_occ]. destruct (leaf z) eqn:Lz; cbn [count_occ]; rewrite IH; destruct (Nat.eq_dec z v); try reflexivity. congruence. }
    rewrite <- Hcf, <- (proj1 (Permutation_count_occ Nat.eq_dec _ _) HPl v). apply NoDup_count_occ'; [apply seq_NoDup|apply in_seq; apply Nat.ltb_lt in Lv; lia].
  - assert (Hcv : forall u, u < n -> leaf u = false -> (if Nat.eq_dec u v then 1 else 0) = if Bool.eqb (side u) (side v) then 1 else 0).
    { intros u Hu Lu. destruct (Nat.eq_dec u v) as [->|Hd]; [rewrite Bool.eqb_reflx; reflexivity|]. destruct (Bool.eqb (side u) (side v)) eqn:E; [|reflexivity].
      exfalso. apply Hd. apply Bool.eqb_prop in E. rewrite (centre u Hu Lu), (centre v Hv Lv), E. reflexivity. }
    assert (HcR : count_occ Nat.eq_dec (endpoints R) v = length (filter (fun u => Bool.eqb (side u) (side v)) (filter leaf (endpoints R)))).
    { clear -Hone Hcv Lv. induction R as [|[a b] R IH]; [reflexivity|]. destruct (Hone a b (or_introl eq_refl)) as (Ha & Hb & E & Es).
      change (endpoints ((a, b) :: R)) with (a :: b :: endpoints R). cbn [filter count_occ]. rewrite E. specialize (IH ltac:(intros; apply Hone; right; assumption)).
      destruct (leaf b) eqn:Lb; cbn [negb] in *.
      - destruct (Nat.eq_dec b v); [congruence|]. specialize (Hcv a Ha E). cbn [filter]. rewrite <- Es. destruct (Bool.eqb (side a) (side v)), (Nat.eq_dec a v); cbn [length]; lia.
      - destruct (Nat.eq_dec a v); [congruence|]. specialize (Hcv b Hb Lb). cbn [filter]. rewrite Es. destruct (Bool.eqb (side b) (side v)), (Nat.eq_dec b v); cbn [length]; lia. }
    cbn [count_occ]. rewrite HcR.
    assert (Hfl : forall (f : nat -> bool) l l', Permutation l l' -> length (filter f l) = length (filter f l')).
    { clear. intros f l l' H. induction H; cbn [filter]; repeat (match goal with |- context [f ?x] => destruct (f x) end); cbn [length]; congruence. }
    rewrite <- (Hfl _ _ _ HPl), side_count. pose proof (Hcv x Hx Lx) as E1. pose proof (Hcv y Hy Ly) as E2.
    destruct (side x), (side y), (side v); cbn [Bool.eqb] in *; try congruence; destruct (Nat.eq_dec x v), (Nat.eq_dec y v); lia.
Qed.
End Stars.

(** ** Random numbers that leave everything in its place *)
Lemma upd_same {A} (l : list A) i x : nth_error l i = Some x -> upd l i x = l.
Proof. revert i. induction l as [|y l IH]; intros [|i] H; cbn in *; try discriminate; [congruence|]. rewrite (IH i H). reflexivity. Qed.
Lemma swap_same {A} (l : list A) i : swap l i i = l.
Proof. unfold swap. destruct (nth_error l i) as [x|] eqn:E; [|reflexivity]. rewrite !(upd_same l i x E). reflexivity. Qed.
Lemma shuffle_stay {A} (l : list A) : shuffle (fun i => i) l = l.
Proof.
  unfold shuffle. generalize (rev (seq 1 (length l - 1))). intros is. induction is as [|i is IH]; [reflexivity|]. cbn [fold_left].
  rewrite Nat.mod_small by lia. rewrite swap_same. exact IH.
Qed.

Definition stay (size : nat) : mtenv := mkMtEnv (fun i => i) (fun _ _ i => i) (fun _ => []) size.

Section Fixed.
Context {N : Num} (O : NumOrd N).
Variable m : namatrix N.
Hypothesis Hwf : na_wf m.

Lemma improve_matching_fixed M tries : all_ok m M -> improve m M = M -> improve_matching (fun _ i => i) m M tries = Ok M.
Proof.
  intros Hok Hf. unfold improve_matching. destruct (length M <=? 1); [reflexivity|]. generalize (seq 0 tries). intros l.
  induction l as [|t l IH]; [reflexivity|]. cbn [foldM]. rewrite shuffle_stay, improve_chunks_Ok, Hf by assumption. exact IH.
Qed.

(** if the first matching is stable, it is the answer, however the work is done *)
Lemma approx_fixed mt mode V tries : mt_first mt = (fun i => i) -> mt_draws mt = (fun _ _ i => i) -> mode <= 2 -> (mode = MPI_COMPUTATION -> 1 <= mt_size mt) ->
  2 <= length V -> (forall x, In x V -> x < na_dim m) -> improve m (chunks2 V) = chunks2 V ->
  approx_min_cost_matching mt mode m V tries = Ok (chunks2 V).
Proof.
  intros E1 E2 Hmode Hmpi Hl HV Hf. unfold approx_min_cost_matching. rewrite E1, E2, shuffle_stay.
  assert (Hok : all_ok m (chunks2 V)) by (pose proof (first_ok m V HV (fun i => i)) as H; rewrite shuffle_stay in H; exact H).
  destruct (Nat.eqb_spec mode SEQ_COMPUTATION); [apply improve_matching_fixed; assumption|].
  destruct (Nat.eqb_spec mode PAR_COMPUTATION); [rewrite par_improve_seq by assumption; apply improve_matching_fixed; assumption|].
  destruct (Nat.eqb_spec mode MPI_COMPUTATION) as [Hm|]; [|unfold SEQ_COMPUTATION, PAR_COMPUTATION, MPI_COMPUTATION in *; lia].
  destruct (mpi_improve_spec m Hwf O (fun _ _ i => i) (chunks2 V) tries (mt_size mt) Hok) as (r & Mr & cr & Hr & Er & _ & Eq & _).
  - intros E. destruct V as [|x [|y V]]; cbn in Hl; [lia|lia|discriminate].
  - auto.
  - rewrite improve_matching_fixed in Er by assumption. injection Er as <-. rewrite Eq. cbn [bind]. specialize (Hmpi Hm).
    destruct (mt_size mt) as [|k]; [lia|]. reflexivity.
Qed.
End Fixed.

(** ** The worst case *)
Section Worst.
Context {N : Num} {B : Z} (E : Exact N B) (O : NumOrd N).
Variable k : nat.
Hypothesis Hk : 1 <= k.
Let s := 2 * k.
Let L := (4 * Z.of_nat s)%Z.
Let w := stars s L.
Variable m : namatrix N.
Hypothesis Hwf : na_wf m.
Let n := na_dim m.
Hypothesis Hdim : n = 4 * s + 2.
Hypothesis Hrep : represents E (na_adj m) w.
Hypothesis HB : (2 * (L + 2) * (Z.of_nat n + 1) <= B)%Z.

Lemma worst_bounded : bounded w n (L + 2).
Proof. intros i j _ _. pose proof (stars_range s L ltac:(unfold L, s; lia) i j). unfold w. lia. Qed.

(** the costs of two pairs in a row do not depend on how they are paired *)
Lemma quad_stable j : j < s -> opt2 m (4 * j, S (4 * j)) (S (S (4 * j)), S (S (S (4 * j)))) = ((4 * j, S (4 * j)), (S (S (4 * j)), S (S (S (4 * j))))).
Proof.
  intros Hj. assert (Hw : forall a b, a < 4 -> b < 4 -> a <> b -> na_val m (4 * j + a) (4 * j + b) = inj E (2 + if Bool.eqb (a =? 1)%nat (b =? 1)%nat then 0 else L)%Z).
  { intros a b Ha Hb Hab. rewrite (rep_val E m Hwf w Hrep) by (fold n; lia). f_equal. unfold w, stars, ray, leaf. destruct (Nat.eqb_spec (4 * j + a) (4 * j + b)); [lia|].
    destruct (Nat.ltb_spec (4 * j + a) (4 * s)); [|lia]. destruct (Nat.ltb_spec (4 * j + b) (4 * s)); [|lia]. rewrite (side_mod (4 * j + a) j a), (side_mod (4 * j + b) j b) by lia.
    destruct (Bool.eqb _ _); lia. }
  assert (HBL : (2 * L + 4 <= B)%Z) by (unfold L, n in *; nia).
  unfold opt2, cost0, cost1, cost2. cbn [fst snd].
  replace (S (S (S (4 * j)))) with (4 * j + 3) by lia. replace (S (S (4 * j))) with (4 * j + 2) by lia. replace (S (4 * j)) with (4 * j + 1) by lia.
  replace (na_val m (4 * j) (4 * j + 1)) with (na_val m (4 * j + 0) (4 * j + 1)) by (f_equal; lia).
  replace (na_val m (4 * j) (4 * j + 2)) with (na_val m (4 * j + 0) (4 * j + 2)) by (f_equal; lia).
  replace (na_val m (4 * j) (4 * j + 3)) with (na_val m (4 * j + 0) (4 * j + 3)) by (f_equal; lia).
  rewrite !Hw by lia. cbn [Nat.eqb Bool.eqb]. assert (0 <= L)%Z by (unfold L; lia). rewrite !(inj_add _ _ E) by lia. rewrite !(inj_lt _ _ E) by lia.
  destruct (Z.ltb_spec (2 + 0 + (2 + L)) (2 + L + (2 + 0))); [lia|]. reflexivity.
Qed.

Lemma first_stable : improve m (chunks2 (seq 0 n)) = chunks2 (seq 0 n).
Proof.
  rewrite Hdim. assert (H : forall r j, j + r <= s -> improve m (chunks2 (seq (4 * j) (4 * r + 2))) = chunks2 (seq (4 * j) (4 * r + 2))).
  { induction r as [|r IH]; intros j Hj; [reflexivity|]. replace (4 * S r + 2) with (S (S (S (S (4 * r + 2))))) by lia. cbn [seq chunks2]. rewrite improve_cons, quad_stable by lia.
    cbn [fst snd]. do 2 f_equal. replace (S (S (S (S (4 * j))))) with (4 * S j) by lia. apply IH. lia. }
  exact (H s 0 ltac:(lia)).
Qed.

Lemma pairs_in (F : nat * nat -> Prop) : (forall e, In e (chunks2 (seq 0 n)) -> F e) -> forall j, j < s -> F (4 * j, 4 * j + 1).
Proof.
  intros HF j Hj. apply HF. rewrite Hdim. assert (H : forall r i, i <= j < i + r -> In (4 * j, 4 * j + 1) (chunks2 (seq (4 * i) (4 * r + 2)))).
  { induction r as [|r IH]; intros i Hi; [lia|]. replace (4 * S r + 2) with (S (S (S (S (4 * r + 2))))) by lia. cbn [seq chunks2].
    destruct (Nat.eq_dec i j) as [->|]; [left; f_equal; lia|]. right. right. replace (S (S (S (S (4 * i))))) with (4 * S i) by lia. apply IH. lia. }
  apply (H s 0). lia.
Qed.

Lemma odd_all (mst : graph N) T : length mst = n -> spanning_tree (seq 0 n) T -> (edges_cost w T <= 4 * Z.of_nat s + L)%Z ->
  (forall v, v < n -> nth v mst [] = map (fun x => mkEdge (fst x) (na_val m (fst (snd x)) (snd (snd x)))) (incident T v)) ->
  odd_vertices mst = seq 0 n.
Proof.
  intros Hl HT Hc Hadj. rewrite odd_vertices_filter, Hl.
  assert (H : forall l, (forall v, In v l -> v < n) -> filter (fun v => Nat.odd (length (nth v mst []))) l = l).
  { induction l as [|v l IH]; intros Hv; [reflexivity|]. cbn [filter]. rewrite Hadj, map_length, incident_length by (apply Hv; left; reflexivity).
    rewrite Hdim in HT. rewrite (least_tree s L ltac:(unfold L, s; lia) T HT Hc) by (pose proof (Hv v (or_introl eq_refl)); lia).
    replace (Nat.odd _) with true; [f_equal; apply IH; intros; apply Hv; right; assumption|].
    unfold s. destruct (leaf _ v); [reflexivity|]. rewrite Nat.odd_succ. symmetry. apply Nat.even_spec. destruct (side v); [exists k|exists (3 * k)]; lia. }
  apply H. intros v Hv. apply in_seq in Hv. lia.
Qed.

Theorem worst_tour debug env fenv mt mode : mode <= 2 -> (mode = MPI_COMPUTATION -> 1 <= mt_size mt) -> mt_first mt = (fun i => i) -> mt_draws mt = (fun _ _ i => i) ->
  (debug = true -> is_metric (na_adj m) = Ok true) ->
  exists p, christofides debug env fenv mt mode m = Ok (inj E (tour_cost w (0 :: p)), (0 :: p) ++ [0]) /\ is_tour n (0 :: p) /\
    ((Z.of_nat s - 1) * (L + 2) <= tour_cost w (0%nat :: p))%Z.
Proof.
  intros Hmode Hmpi E1 E2 Hdbg. assert (HL : (2 <= L)%Z) by (unfold L, s; lia).
  destruct (prim_least E O m Hwf ltac:(fold n; lia) w (L + 2) Hrep worst_bounded HB env mode Hmode) as (mst & T & Em & Hl & HT & Hadj & Hmin).
  fold n in Hl, HT, Hadj, Hmin.
  assert (Hc : (edges_cost w T <= 4 * Z.of_nat s + L)%Z).
  { rewrite <- (two_stars_cost s L). apply Hmin; [intros i j _ _; apply stars_sym|]. rewrite Hdim. apply two_stars_spanning. }
  pose proof (odd_all mst T Hl HT Hc Hadj) as Hodd. set (M := chunks2 (seq 0 n)).
  assert (HM : compute_approx_matching mt mode mst m = Ok M).
  { unfold compute_approx_matching. rewrite Hodd. apply (approx_fixed O m Hwf); try assumption; [rewrite seq_length; lia| |apply first_stable].
    intros x Hx. apply in_seq in Hx. fold n. lia. }
  assert (HPe : perfect_matching (seq 0 n) M).
  { pose proof (first_perfect (seq 0 n) (fun i => i)) as H. rewrite shuffle_stay in H. apply H. rewrite seq_length, Hdim. exists (2 * s + 1). lia. }
  assert (HMr : forall a b, In (a, b) M -> a < n /\ b < n).
  { intros a b Hin. assert (Hx : forall x, In x [a; b] -> x < n).
    { intros x Hx. assert (Hin' : In x (seq 0 n)) by (apply (Permutation_in _ HPe), in_flat_map; exists (a, b); auto). apply in_seq in Hin'. lia. }
    split; apply Hx; cbn; auto. }
  destruct (generic_spec m Hwf ltac:(fold n; lia) debug env fenv mode (compute_approx_matching mt mode) mst T M) as (c & p & Ec & Htour & Hcost & Hwalk); try assumption.
  - intros _. apply (perfect_distinct _ _ HPe), seq_NoDup.
  - fold n in Htour, Hwalk. destruct Hwalk as (q & Hq & Hsub & Htr); [rewrite Hodd; exact HPe|lia|].
    rewrite (closed_exact E m ltac:(fold n; lia) w (L + 2) Hrep worst_bounded HB p c Htour Hcost) in Ec.
    exists p. split; [exact Ec|]. split; [exact Htour|].
    assert (Hin : forall v, 0 < v < n -> In v p) by (intros v Hv; assert (Hv' : In v (0 :: p)) by (apply (tour_In n _ v Htour); lia); destruct Hv'; [lia|assumption]).
    assert (HTM : forall a b, In (a, b) (T ++ M) -> a < n /\ b < n).
    { intros a b H. apply in_app_or in H. destruct H as [H|H]; [|auto]. destruct HT as [HT _]. destruct (HT a b H) as [Ha Hb]. apply in_seq in Ha, Hb. lia. }
    assert (Honce : forall v, 0 < v < 4 * s -> count_occ Nat.eq_dec (0 :: q ++ [0]) v = 1).
    { intros v Hv. pose proof (walk_degree n (0 :: q ++ [0]) v ltac:(discriminate)) as Hd.
      assert (Hl0 : last (0 :: q ++ [0]) 0 = 0) by (change (0 :: q ++ [0]) with ((0 :: q) ++ [0]); apply last_last).
      rewrite Hl0 in Hd. cbn [hd] in Hd. destruct (Nat.eqb_spec 0 v) as [|Hv0]; [lia|]. unfold ind in Hd.
      assert (Hdeg : degree n (traversals (0 :: q ++ [0])) v = 2).
      { replace (degree n (traversals (0 :: q ++ [0])) v) with (degree n (copies (T ++ M)) v).
        2:{ unfold degree. f_equal. apply map_ext_in. intros j Hj. apply in_seq in Hj. symmetry. apply Htr; lia. }
        rewrite copies_degree, endpoints_app, count_occ_app by (assumption || lia).
        rewrite (proj1 (Permutation_count_occ Nat.eq_dec _ _) HPe v).
        assert (Hs1 : count_occ Nat.eq_dec (seq 0 n) v = 1) by (apply NoDup_count_occ'; [apply seq_NoDup|apply in_seq; lia]). rewrite Hs1.
        rewrite Hdim in HT. rewrite (least_tree s L HL T HT Hc) by lia. unfold leaf. destruct (Nat.ltb_spec v (4 * s)); [reflexivity|lia]. }
      rewrite Hdeg in Hd. assert (2 + 0 + 0 = 2 * count_occ Nat.eq_dec (0 :: q ++ [0]) v); [|lia]. apply Hd; [|lia].
      intros x [<-|Hx]; [lia|]. apply in_app_or in Hx. destruct Hx as [Hx|[<-|[]]]; [auto|lia]. }
    assert (Hpair : forall j, j < s -> In (4 * j, 4 * j + 1) M) by (intros j Hj; exact (pairs_in (fun e => In e M) (fun e He => He) j Hj)).
    assert (Hkept : forall j, 1 <= j < s -> In (4 * j, 4 * j + 1) (path_edges ((0 :: p) ++ [0])) \/ In (4 * j + 1, 4 * j) (path_edges ((0 :: p) ++ [0]))).
    { intros j Hj. apply (kept_edge p q); try (apply Hin; lia); try (apply Honce; lia); try lia; [assumption|].
      rewrite Htr by lia. intros H0. unfold copies in H0.
      assert (Hj' : In (4 * j, 4 * j + 1) (T ++ M)) by (apply in_or_app; right; apply Hpair; lia).
      clear -H0 Hj'. induction (T ++ M) as [|e F IH]; [destruct Hj'|]. cbn [map list_sum fold_right] in H0. destruct Hj' as [->|Hj']; [|apply IH; [|assumption]; unfold list_sum; lia].
      cbn [fst snd] in H0. rewrite !Nat.eqb_refl in H0. cbn in H0. lia. }
    set (F := map (fun j => if existsb (fun e => (fst e =? 4 * j) && (snd e =? 4 * j + 1)) (path_edges ((0 :: p) ++ [0])) then (4 * j, 4 * j + 1) else (4 * j + 1, 4 * j)) (seq 1 (s - 1))).
    assert (HF : incl F (path_edges ((0 :: p) ++ [0]))).
    { intros e He. apply in_map_iff in He. destruct He as (j & <- & Hj). apply in_seq in Hj. destruct (existsb _ _) eqn:Ex.
      - apply existsb_exists in Ex. destruct Ex as ([a b] & Hab & Ex). cbn [fst snd] in Ex. apply andb_true_iff in Ex. rewrite !Nat.eqb_eq in Ex. destruct Ex as [-> ->]. assumption.
      - destruct (Hkept j ltac:(lia)) as [H|H]; [|assumption]. exfalso. assert (existsb (fun e => (fst e =? 4 * j) && (snd e =? 4 * j + 1)) (path_edges ((0 :: p) ++ [0])) = true); [|congruence].
        apply existsb_exists. eexists. split; [exact H|]. cbn [fst snd]. rewrite !Nat.eqb_refl. reflexivity. }
    assert (HFn : NoDup F).
    { unfold F. apply FinFun.Injective_map_NoDup; [|apply seq_NoDup]. intros i j. destruct (existsb _ _), (existsb _ _); intros H; injection H; lia. }
    assert (HFc : edges_cost w F = ((Z.of_nat s - 1) * (L + 2))%Z).
    { assert (H : forall r a, 1 <= a -> a + r <= s -> forall f : nat -> bool, edges_cost w (map (fun j => if f j then (4 * j, 4 * j + 1) else (4 * j + 1, 4 * j)) (seq a r)) = (Z.of_nat r * (L + 2))%Z).
      { induction r as [|r IH]; intros a Ha Hr f; [reflexivity|]. cbn [seq map]. specialize (IH (S a) ltac:(lia) ltac:(lia) f). unfold edges_cost in *. cbn [fold_right]. rewrite IH.
        assert (Hw : w (4 * a) (4 * a + 1) = (L + 2)%Z).
        { unfold w, stars, ray, leaf. destruct (Nat.eqb_spec (4 * a) (4 * a + 1)); [lia|]. destruct (Nat.ltb_spec (4 * a) (4 * s)); [|lia]. destruct (Nat.ltb_spec (4 * a + 1) (4 * s)); [|lia].
          rewrite (side_mod (4 * a) a 0), (side_mod (4 * a + 1) a 1) by lia. cbn [Nat.eqb Bool.eqb]. lia. }
        destruct (f a); cbn [fst snd]; [rewrite Hw|unfold w; rewrite stars_sym; fold w; rewrite Hw]; lia. }
      unfold F. rewrite (H (s - 1) 1 ltac:(lia) ltac:(unfold s; lia) (fun j => existsb (fun e => (fst e =? 4 * j) && (snd e =? 4 * j + 1)) (path_edges ((0 :: p) ++ [0])))).
      f_equal. unfold s. lia. }
    rewrite tour_cost_closed, <- path_edges_cost', <- HFc. apply cost_among; [assumption|assumption|].
    intros a b _. apply (stars_range s L ltac:(lia)).
Qed.
End Worst.
