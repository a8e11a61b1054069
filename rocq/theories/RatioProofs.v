(** Ratios that hold for greedy tours and greedy estimates when the triangle inequality holds,
    possibly up to a slack [d].  (Proofs; integers.)  The argument for greedy tours is that of
    Rosenkrantz, Stearns and Lewis. *)
From Coq Require Import ZArith Arith Bool List Permutation Lia.
From Verif Require Import Num Base Spec SpecFacts Data Mst Matching Greedy PrimProofs Dfs PermProofs MstFacts MatchingProofs ChristofidesProofs ChristofidesExact SlackProofs.
Import ListNotations.
Local Open Scope Z_scope.

Lemma zsum_cons x l : zsum (x :: l) = x + zsum l.
Proof. reflexivity. Qed.
Lemma zsum_app l l' : zsum (l ++ l') = zsum l + zsum l'.
Proof. induction l; [reflexivity|]. cbn [app]. rewrite !zsum_cons, IHl. lia. Qed.
Lemma zsum_perm l l' : Permutation l l' -> zsum l = zsum l'.
Proof. induction 1; rewrite ?zsum_cons; lia. Qed.

Lemma subseq_split {A} (a : A) t l : subseq (a :: t) l -> exists x y, l = x ++ a :: y /\ subseq t y.
Proof.
  remember (a :: t) as s eqn:Es. intros H. induction H as [|x l l' H IH|x l l' H IH]; [discriminate| |].
  - destruct (IH Es) as (u & v & -> & Hs). exists (x :: u), v. auto.
  - injection Es as -> ->. exists [], l'. auto.
Qed.
Lemma subseq_app_r {A} (l l' r : list A) : subseq l l' -> subseq l (l' ++ r).
Proof. induction 1; cbn; [|apply subseq_skip; assumption|apply subseq_keep; assumption]. induction r; [constructor|apply subseq_skip; assumption]. Qed.
Lemma subseq_refl {A} (l : list A) : subseq l l.
Proof. induction l; [constructor|apply subseq_keep; assumption]. Qed.
Lemma subseq_NoDup {A} (l l' : list A) : subseq l l' -> NoDup l' -> NoDup l.
Proof.
  induction 1 as [|x l l' H IH|x l l' H IH]; intros Hn; [assumption|inversion Hn; auto|].
  inversion Hn; subst. constructor; [|auto]. intros Hx. apply (subseq_In _ _ x H) in Hx. contradiction.
Qed.

Section Ratio.
Variable w : nat -> nat -> Z.
Variable n : nat.
Variable d : Z.
Hypothesis Hd : 0 <= d.
Hypothesis Hs : symmetric w n.
Hypothesis Ht : triangle_up_to w n d.
Hypothesis Hnn : nonneg w n.

Lemma tour_nonneg q : (forall v, In v q -> (v < n)%nat) -> 0 <= tour_cost w q.
Proof.
  intros Hin. destruct q as [|b q]; [cbn; lia|]. rewrite tour_cost_closed. apply (path_cost_nonneg w n); [assumption|].
  apply Forall_forall. intros v Hv. apply Hin. apply in_app_or in Hv. destruct Hv as [|[->|[]]]; [assumption|left; reflexivity].
Qed.
Lemma path_tour q : (forall v, In v q -> (v < n)%nat) -> path_cost w q <= tour_cost w q.
Proof.
  intros Hin. destruct q as [|b q]; [cbn; lia|]. unfold tour_cost. pose proof (Hnn (last (b :: q) b) b) as H.
  specialize (H (Hin _ (last_In (b :: q) b ltac:(discriminate))) (Hin b (or_introl eq_refl))). lia.
Qed.

(** leaving out vertices of a tour *)
Lemma tour_subseq l q : (forall v, In v q -> (v < n)%nat) -> subseq l q ->
  tour_cost w l <= tour_cost w q + (Z.of_nat (length q) - Z.of_nat (length l)) * d.
Proof.
  intros Hin Hsub. pose proof (subseq_length _ _ Hsub) as Hlen. destruct l as [|a t].
  - cbn [tour_cost length] in *. pose proof (tour_nonneg q Hin). nia.
  - destruct (subseq_split a t q Hsub) as (x & y & -> & Hsub'). rewrite (tour_cost_rot w x). cbn [app]. rewrite !tour_cost_closed. cbn [app].
    pose proof (shortcut_slack w n d t (y ++ x) a Hd Ht (subseq_app_r _ _ x Hsub') a) as H.
    assert (Hlen' : length (x ++ a :: y) = S (length (y ++ x))) by (rewrite !app_length; cbn; lia). rewrite Hlen'. cbn [length]. rewrite !Nat2Z.inj_succ.
    assert (Ha : (a < n)%nat) by apply Hin, in_elt. specialize (H Ha Ha). rewrite <- app_assoc in H. cbn [app] in *.
    rewrite <- app_assoc. assert (path_cost w (a :: t ++ [a]) <= path_cost w (a :: y ++ x ++ [a]) + (Z.of_nat (length (y ++ x)) - Z.of_nat (length t)) * d); [|lia].
    apply H. intros v Hv. apply Hin. apply in_app_or in Hv. apply in_or_app. cbn. tauto.
Qed.

(** twice an edge *)
Lemma edge_in a b q : (forall v, In v q -> (v < n)%nat) -> In a q -> In b q -> a <> b -> 2 * w a b <= tour_cost w q + (Z.of_nat (length q) - 2) * d.
Proof.
  intros Hin Ia Ib Hab.
  assert (Hpair : forall x y u v z, q = u ++ x :: v ++ y :: z -> w x y + w y x <= tour_cost w q + (Z.of_nat (length q) - 2) * d).
  { intros x y u v z E. pose proof (tour_subseq [x; y] q Hin) as H. cbn [length] in H.
    change (tour_cost w [x; y]) with (w x y + 0 + w y x) in H.
    assert (Hsub : subseq [x; y] q); [|specialize (H Hsub); lia]. rewrite E. clear.
    induction u as [|c u IH]; [|cbn; apply subseq_skip; exact IH]. cbn. apply subseq_keep.
    induction v as [|c v IH]; [|cbn; apply subseq_skip; exact IH]. cbn. apply subseq_keep. induction z; [constructor|apply subseq_skip; assumption]. }
  pose proof (Hs a b (Hin a Ia) (Hin b Ib)).
  destruct (in_split a q Ia) as (u & v & E). rewrite E in Ib. apply in_app_or in Ib.
  destruct Ib as [Ib|[Ib|Ib]]; [|contradiction|].
  - destruct (in_split b u Ib) as (x & y & E'). subst u. rewrite <- app_assoc in E. cbn in E. specialize (Hpair b a x y v E). lia.
  - destruct (in_split b v Ib) as (x & y & E'). subst v. specialize (Hpair a b u x y E). lia.
Qed.
Lemma edge_half a b q : is_tour n q -> (a < n)%nat -> (b < n)%nat -> a <> b -> 2 * w a b <= tour_cost w q + (Z.of_nat n - 2) * d.
Proof.
  intros Hq Ha Hb Hab. rewrite <- (tour_length n q Hq) at 1. apply edge_in; [|apply (tour_In n q _ Hq); assumption..|assumption].
  intros v. apply (tour_In n q v Hq).
Qed.

(** no tour is longer than n/2 times another one *)
Lemma tour_half_n p q : (2 <= n)%nat -> is_tour n p -> is_tour n q -> 2 * tour_cost w p <= Z.of_nat n * (tour_cost w q + (Z.of_nat n - 2) * d).
Proof.
  intros H2 Hp Hq. pose proof (tour_length n p Hp) as Hl. pose proof (tour_NoDup n p Hp) as Hnd.
  assert (Hin : forall v, In v p -> (v < n)%nat) by (intros v; apply (tour_In n p v Hp)).
  destruct p as [|a t]; [cbn in Hl; lia|]. rewrite tour_cost_closed.
  set (K := tour_cost w q + (Z.of_nat n - 2) * d).
  assert (Hedge : forall x y, (x < n)%nat -> (y < n)%nat -> x <> y -> 2 * w x y <= K) by (intros; apply edge_half; assumption).
  assert (Hpath : forall l z, (forall v, In v (z :: l) -> (v < n)%nat) -> NoDup (z :: l) -> 2 * path_cost w (z :: l) <= Z.of_nat (length l) * K).
  { induction l as [|y l IH]; intros z Hz Hndz; [cbn; lia|]. inversion Hndz as [|? ? N1 N2]; subst.
    specialize (IH y (fun v Hv => Hz v (or_intror Hv)) N2). change (path_cost w (z :: y :: l)) with (w z y + path_cost w (y :: l)).
    assert (z <> y) by (intros ->; apply N1; left; reflexivity).
    pose proof (Hedge z y (Hz z (or_introl eq_refl)) (Hz y (or_intror (or_introl eq_refl))) ltac:(assumption)). cbn [length]. lia. }
  assert (Hlast : last (a :: t) a <> a).
  { destruct t as [|b t]; [cbn in Hl; lia|]. inversion Hnd as [|? ? N1 N2]; subst. intros E. apply N1. rewrite <- E at 1.
    change (last (a :: b :: t) a) with (last (b :: t) a). apply last_In. discriminate. }
  rewrite (path_cost_snoc w (a :: t) a a) by discriminate. specialize (Hpath t a Hin Hnd).
  pose proof (Hedge _ _ (Hin _ (last_In (a :: t) a ltac:(discriminate))) (Hin a (or_introl eq_refl)) Hlast). cbn [length] in Hl. cbn [last] in *.
  change (hd a (a :: t)) with a. nia.
Qed.

(** ** Greedy values *)
Section Greedy.
Variable l : nat -> Z.

(** of two neighbours in the list, leave out the one with the smaller value *)
Fixpoint thin (h : list nat) : list nat :=
  match h with
  | a :: b :: t => (if l a <? l b then b else a) :: thin t
  | _ => h
  end.

Lemma thin_subseq h : subseq (thin h) h.
Proof.
  induction h as [|x|x y h IH] using pair_ind; [constructor|apply subseq_refl|]. cbn [thin]. destruct (l x <? l y); [apply subseq_skip, subseq_keep|apply subseq_keep, subseq_skip]; assumption.
Qed.
Lemma thin_length h k : (length h <= 2 * k)%nat -> (length (thin h) <= k)%nat.
Proof.
  revert k. induction h as [|x|x y h IH] using pair_ind; intros k Hk; cbn [thin length] in *; [lia..|].
  specialize (IH (k - 1)%nat ltac:(lia)). lia.
Qed.
Lemma thin_nonempty h : h <> [] -> thin h <> [].
Proof. destruct h as [|x [|y h]]; intros H; [contradiction|discriminate|cbn; discriminate]. Qed.

Lemma thin_cost h : NoDup h -> (forall a b, In a h -> In b h -> a <> b -> Z.min (l a) (l b) <= w a b) ->
  zsum (map l h) <= zsum (map l (thin h)) + edges_cost w (chunks2 h).
Proof.
  induction h as [|x|x y h IH] using pair_ind; intros Hnd Hmin; [cbn; lia..|].
  inversion Hnd as [|? ? N1 N2]; subst. inversion N2 as [|? ? N3 N4]; subst.
  specialize (IH N4 (fun a b Ha Hb => Hmin a b (or_intror (or_intror Ha)) (or_intror (or_intror Hb)))).
  assert (x <> y) by (intros ->; apply N1; left; reflexivity).
  pose proof (Hmin x y (or_introl eq_refl) (or_intror (or_introl eq_refl)) ltac:(assumption)).
  cbn [thin map chunks2]. rewrite !zsum_cons. change (edges_cost w ((x, y) :: chunks2 h)) with (w x y + edges_cost w (chunks2 h)).
  destruct (Z.ltb_spec (l x) (l y)); lia.
Qed.

(** both ways to pair up the neighbours in a tour *)
Lemma pairings a t : (forall v, In v (a :: t) -> (v < n)%nat) ->
  edges_cost w (chunks2 (a :: t)) + edges_cost w (chunks2 (t ++ [a])) <= tour_cost w (a :: t).
Proof.
  intros Hin. destruct (Nat.Even_or_Odd (length (a :: t))) as [He|Ho].
  - pose proof (alternate w (a :: t) a He) as H. cbn [tl] in H. rewrite tour_cost_closed. lia.
  - assert (He : Nat.Even (length t)) by (destruct Ho as [k Hk]; exists k; cbn in Hk; lia).
    apply Z.le_trans with (path_cost w (a :: t)); [|apply path_tour; assumption].
    assert (E : chunks2 (t ++ [a]) = chunks2 t).
    { clear -He. induction t as [|x|x y t IH] using pair_ind; [reflexivity|destruct He as [k Hk]; cbn in Hk; lia|].
      cbn [app chunks2]. rewrite IH; [reflexivity|]. destruct He as [k Hk]. exists (k - 1)%nat. cbn in Hk. lia. }
    rewrite E. clear E Hin Ho. revert a. induction t as [|x|x y t IH] using pair_ind; intros a; [cbn; lia|destruct He as [k Hk]; cbn in Hk; lia|].
    specialize (IH ltac:(destruct He as [k Hk]; exists (k - 1)%nat; cbn in Hk; lia) y).
    change (chunks2 (a :: x :: y :: t)) with ((a, x) :: chunks2 (y :: t)). change (chunks2 (x :: y :: t)) with ((x, y) :: chunks2 t).
    change (path_cost w (a :: x :: y :: t)) with (w a x + (w x y + path_cost w (y :: t))). unfold edges_cost in *. cbn [fold_right fst snd]. lia.
Qed.

Lemma halving K : forall k h, (length h <= 2 ^ k)%nat -> h <> [] -> NoDup h -> (forall v, In v h -> (v < n)%nat) ->
  (forall a b, In a h -> In b h -> a <> b -> Z.min (l a) (l b) <= w a b) -> (forall v, In v h -> 2 * l v <= K) ->
  tour_cost w h + (Z.of_nat (length h) - 1) * d <= K -> 2 * zsum (map l h) <= (Z.of_nat k + 1) * K.
Proof.
  induction k as [|k IH]; intros h Hlen Hne Hnd Hin Hmin Hl HK.
  - destruct h as [|a [|b h]]; [contradiction| |cbn in Hlen; lia]. cbn [map]. rewrite zsum_cons. cbn [zsum fold_right]. specialize (Hl a (or_introl eq_refl)). lia.
  - assert (Hone : forall h', Permutation h h' -> tour_cost w h' = tour_cost w h -> 2 * edges_cost w (chunks2 h') <= K -> 2 * zsum (map l h) <= (Z.of_nat (S k) + 1) * K).
    { intros h' HP HT Hc. assert (Hin' : forall v, In v h' -> In v h) by (intros v; apply (Permutation_in v (Permutation_sym HP))).
      pose proof (Permutation_NoDup HP Hnd) as Hnd'. pose proof (Permutation_length HP) as Hl'. pose proof (thin_subseq h') as Hsub.
      assert (Hin2 : forall v, In v (thin h') -> In v h) by (intros v Hv; apply Hin', (subseq_In _ _ v Hsub Hv)).
      pose proof (thin_cost h' Hnd' (fun a b Ha Hb => Hmin a b (Hin' a Ha) (Hin' b Hb))) as Hth.
      pose proof (tour_subseq (thin h') h' (fun v Hv => Hin v (Hin' v Hv)) Hsub) as Hts.
      assert (H2 : 2 * zsum (map l (thin h')) <= (Z.of_nat k + 1) * K).
      { apply IH.
        - apply thin_length. rewrite <- Hl'. exact Hlen.
        - apply thin_nonempty. intros ->. apply Permutation_sym, Permutation_nil in HP. contradiction.
        - apply (subseq_NoDup _ _ Hsub Hnd').
        - auto.
        - auto.
        - auto.
        - rewrite HT, <- Hl' in Hts. lia. }
      rewrite (zsum_perm _ _ (Permutation_map l HP)). lia. }
    destruct h as [|a t]; [contradiction|]. pose proof (pairings a t Hin) as Hp.
    assert (HL : 1 <= Z.of_nat (length (a :: t))) by (cbn [length]; lia).
    assert (Hch : 2 * edges_cost w (chunks2 (a :: t)) <= K \/ 2 * edges_cost w (chunks2 (t ++ [a])) <= K) by nia.
    destruct Hch as [Hc|Hc]; [apply (Hone (a :: t)); auto|].
    apply (Hone (t ++ [a])); [apply Permutation_cons_append|exact (tour_cost_rot w t [a])|assumption].
Qed.

End Greedy.

(** any list of values is given by a function, when the vertices are different *)
Lemma values_of (p : list nat) : forall xs : list Z, NoDup p -> length xs = length p -> exists l, map l p = xs.
Proof.
  induction p as [|a p IH]; intros [|x xs] Hnd Hlen; try (cbn in Hlen; lia); [exists (fun _ => 0); reflexivity|].
  inversion Hnd; subst. destruct (IH xs ltac:(assumption) ltac:(cbn in Hlen; lia)) as [l El].
  exists (fun v => if (v =? a)%nat then x else l v). cbn [map]. rewrite Nat.eqb_refl. f_equal. rewrite <- El.
  apply map_ext_in. intros v Hv. destruct (Nat.eqb_spec v a) as [->|]; [contradiction|reflexivity].
Qed.

(** ** Greedy tours *)
Lemma greedy_ratio p q : (2 <= n)%nat -> is_tour n p -> greedy_tour w n p -> is_tour n q ->
  2 * tour_cost w p <= (Z.of_nat (Nat.log2_up n) + 1) * (tour_cost w q + (Z.of_nat n - 1) * d).
Proof.
  intros H2 Hp Hg Hq. pose proof (tour_length n p Hp) as Hl. pose proof (tour_NoDup n p Hp) as Hnd. pose proof (tour_length n q Hq) as Hlq.
  assert (Hin : forall v, In v p -> (v < n)%nat) by (intros v; apply (tour_In n p v Hp)).
  set (P := p ++ [hd 0%nat p]). set (xs := map (fun i => w (nth i P 0%nat) (nth (S i) P 0%nat)) (seq 0 n)).
  destruct (values_of p xs Hnd) as [l El]; [unfold xs; rewrite map_length, seq_length; congruence|].
  assert (Hval : forall i, (i < n)%nat -> l (nth i p 0%nat) = w (nth i p 0%nat) (nth (S i) P 0%nat)).
  { intros i Hi. assert (E : nth i (map l p) (l 0%nat) = nth i xs (l 0%nat)) by (rewrite El; reflexivity). rewrite map_nth in E. rewrite E.
    unfold xs. rewrite (nth_indep _ _ (w (nth 0 P 0%nat) (nth 1 P 0%nat))) by (rewrite map_length, seq_length; assumption).
    rewrite (map_nth (fun i => w (nth i P 0%nat) (nth (S i) P 0%nat)) (seq 0 n) 0%nat), seq_nth by assumption. cbn [Nat.add].
    unfold P. rewrite (app_nth1 p) by lia. reflexivity. }
  assert (Hsum : zsum (map l p) = tour_cost w p).
  { rewrite El. unfold xs. destruct p as [|a t]; [cbn in Hl; lia|]. rewrite tour_cost_closed. change (hd 0%nat (a :: t)) with a in *. fold P.
    assert (HP : length P = S n) by (unfold P; rewrite app_length; cbn [length] in *; lia). clearbody P. clear -HP. revert P HP.
    induction n as [|k IH]; intros [|x [|y P]] HP; try (cbn in HP; lia); [cbn; reflexivity|].
    cbn [seq map]. rewrite zsum_cons. change (path_cost w (x :: y :: P)) with (w x y + path_cost w (y :: P)). cbn [nth]. f_equal.
    rewrite <- (IH (y :: P)) by (cbn in *; lia). rewrite <- seq_shift, map_map. reflexivity. }
  assert (Hnext : forall i, (i < n)%nat -> nth (S i) P 0%nat <> nth i p 0%nat /\ (nth (S i) P 0%nat < n)%nat).
  { intros i Hi. unfold P. destruct (Nat.eq_dec (S i) n) as [E|E].
    - rewrite app_nth2 by lia. replace (S i - length p)%nat with 0%nat by lia. cbn [nth].
      destruct p as [|a t]; [cbn in Hl; lia|]. cbn [hd]. split; [|apply Hin; left; reflexivity].
      intros Ea. assert (H0 : nth 0 (a :: t) 0%nat = nth i (a :: t) 0%nat) by exact Ea. apply (NoDup_nth (a :: t) 0%nat) in H0; try lia; assumption.
    - rewrite app_nth1 by lia. split; [|apply Hin, nth_In; lia]. intros Ea. apply (NoDup_nth p 0%nat) in Ea; try lia; assumption. }
  rewrite <- Hsum.
  assert (Hord : forall i j, (i < j)%nat -> (j < n)%nat -> l (nth i p 0%nat) <= w (nth i p 0%nat) (nth j p 0%nat)).
  { intros i j Hij Hj. rewrite Hval by lia. unfold P. rewrite app_nth1 by lia. apply Hg; [lia|apply Hin, nth_In; lia|].
    intros Hf. destruct (In_nth _ _ 0%nat Hf) as (k & Hk & Ek). rewrite firstn_length in Hk.
    rewrite <- (firstn_skipn (S i) p) in Ek at 2. assert (Ek' : nth k p 0%nat = nth j p 0%nat).
    { rewrite <- (firstn_skipn (S i) p) at 1. rewrite app_nth1 by (rewrite firstn_length; lia). rewrite Ek. rewrite firstn_skipn. reflexivity. }
    apply (NoDup_nth p 0%nat) in Ek'; try lia; assumption. }
  assert (Hlog : (n <= 2 ^ Nat.log2_up n)%nat) by (apply Nat.log2_up_spec; lia).
  assert (HP : Permutation p q) by (rewrite Hq; exact Hp).
  rewrite (zsum_perm _ _ (Permutation_map l HP)).
  assert (Hpos : forall v, (v < n)%nat -> exists i, (i < n)%nat /\ nth i p 0%nat = v).
  { intros v Hv. apply (tour_In n p v Hp) in Hv. destruct (In_nth _ _ 0%nat Hv) as (i & Hi & E). exists i. split; [lia|assumption]. }
  apply (halving l); try assumption.
  - rewrite Hlq. exact Hlog.
  - intros ->. cbn in Hlq. lia.
  - apply (tour_NoDup n q Hq).
  - intros v. apply (tour_In n q v Hq).
  - intros a b Ha Hb Hab. apply (tour_In n q a Hq) in Ha. apply (tour_In n q b Hq) in Hb.
    destruct (Hpos a Ha) as (i & Hi & <-). destruct (Hpos b Hb) as (j & Hj & <-).
    destruct (Nat.lt_trichotomy i j) as [L|[L|L]]; [|subst; contradiction|].
    + pose proof (Hord i j L Hj). lia.
    + pose proof (Hord j i L Hi). rewrite (Hs _ _ Ha Hb). lia.
  - intros v Hv. apply (tour_In n q v Hq) in Hv. destruct (Hpos v Hv) as (i & Hi & <-). destruct (Hnext i Hi) as [N1 N2].
    rewrite Hval by assumption. pose proof (edge_half (nth i p 0%nat) (nth (S i) P 0%nat) q Hq Hv N2 (not_eq_sym N1)). lia.
  - rewrite Hlq. lia.
Qed.

End Ratio.
