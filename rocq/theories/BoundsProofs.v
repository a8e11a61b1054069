(** How good the lower bounds are: on the level of trees and tours. *)
From Coq Require Import ZArith Arith Bool List Permutation Lia.
From Verif Require Import Spec SpecFacts.
Import ListNotations.

(** A walk that leaves a set has an edge that does. *)
Lemma leaves (T : list (nat * nat)) (S : list nat) a b : joined T a b -> In a S -> ~ In b S -> exists x y, In x S /\ ~ In y S /\ (In (x, y) T \/ In (y, x) T).
Proof.
  induction 1 as [a|a b c H IH He]; intros Ha Hb; [contradiction|]. destruct (in_dec Nat.eq_dec b S) as [Hb'|Hb']; [exists b, c; auto|apply IH; assumption].
Qed.

Section Tree.
Variables (n : nat) (w : nat -> nat -> Z).
Hypothesis Hsym : symmetric w n.
Hypothesis Hnn : nonneg w n.
Hypothesis Htri : triangle w n.

(** A new vertex is visited just after its neighbour. *)
Lemma insert_after x y p : x < n -> y < n -> Forall (fun v => v < n) p -> (tour_cost w (x :: y :: p) <= tour_cost w (x :: p) + 2 * w x y)%Z.
Proof.
  intros Hx Hy Hp. pose proof (Hsym x y Hx Hy) as Es. rewrite !tour_cost_closed. destruct p as [|z p].
  - cbn [app path_cost]. pose proof (Hnn x x Hx Hx). lia.
  - inversion Hp as [|? ? Hz _]. subst. pose proof (Htri y z x Hy Hz Hx).
    change (((x :: y :: z :: p) ++ [x])) with (x :: y :: (z :: p) ++ [x]). change ((x :: z :: p) ++ [x]) with (x :: (z :: p) ++ [x]).
    change (path_cost w (x :: y :: (z :: p) ++ [x])) with (w x y + (w y z + path_cost w ((z :: p) ++ [x])))%Z.
    change (path_cost w (x :: (z :: p) ++ [x])) with (w x z + path_cost w ((z :: p) ++ [x]))%Z. lia.
Qed.

Lemma edges_cost_perm (v : nat -> nat -> Z) E E' : Permutation E E' -> edges_cost v E = edges_cost v E'.
Proof. unfold edges_cost. induction 1; cbn [fold_right]; lia. Qed.
Lemma edges_cost_app (v : nat -> nat -> Z) E E' : edges_cost v (E ++ E') = (edges_cost v E + edges_cost v E')%Z.
Proof. unfold edges_cost. induction E as [|e E IH]; cbn [fold_right app]; [reflexivity|]. rewrite IH. lia. Qed.
Lemma edges_cost_nonneg E : (forall a b, In (a, b) E -> a < n /\ b < n) -> (0 <= edges_cost w E)%Z.
Proof.
  unfold edges_cost. induction E as [|[a b] E IH]; intros H; cbn [fold_right fst snd]; [lia|]. destruct (H a b ltac:(left; reflexivity)). specialize (Hnn a b ltac:(assumption) ltac:(assumption)).
  specialize (IH ltac:(intros; apply H; right; assumption)). lia.
Qed.

(** The tour grows with the tree, edge by edge. *)
Lemma grow V E : NoDup V -> (forall v, In v V -> v < n) -> (forall a b, In (a, b) E -> In a V /\ In b V) ->
  (forall a b, In a V -> In b V -> joined E a b) -> V <> [] ->
  forall k, 1 <= k <= length V -> exists p F R, length p = k /\ NoDup p /\ incl p V /\ Permutation (F ++ R) E /\
    (forall a b, In (a, b) F -> In a p /\ In b p) /\ (S (length F) = k /\ forall a b, In (a, b) F -> a <> b) /\ (2 <= k -> (tour_cost w p <= 2 * edges_cost w F)%Z).
Proof.
  intros Nd Hr He Hj Hne. induction k as [|k IH]; intros Hk; [lia|]. destruct (Nat.eq_dec k 0) as [->|Hk0].
  - destruct V as [|v V]; [contradiction|]. exists [v], [], E. split; [reflexivity|]. split; [constructor; [intros []|constructor]|]. split; [intros x [<-|[]]; left; reflexivity|]. split; [apply Permutation_refl|]. split; [intros a b []|]. split; [split; [reflexivity|intros a b []]|lia].
  - destruct (IH ltac:(lia)) as (p & F & R & Hl & Np & Hi & HP & HF & (Hlen & Hloop) & Hc).
    assert (Hex : exists b, In b V /\ ~ In b p).
    { destruct (forallb (fun b => if in_dec Nat.eq_dec b p then true else false) V) eqn:Ef.
      - exfalso. assert (Hsub : incl V p).
        { intros b Hb. rewrite forallb_forall in Ef. specialize (Ef b Hb). destruct (in_dec Nat.eq_dec b p); [assumption|discriminate]. }
        pose proof (NoDup_incl_length Nd Hsub). lia.
      - apply not_true_iff_false in Ef. assert (Hn' : ~ forall b, In b V -> In b p).
        { intros H. apply Ef. apply forallb_forall. intros b Hb. destruct (in_dec Nat.eq_dec b p) as [_|Hx]; [reflexivity|destruct (Hx (H b Hb))]. }
        clear -Hn'. induction V as [|b V IH]; [destruct Hn'; intros b []|]. destruct (in_dec Nat.eq_dec b p) as [Hb|Hb]; [|exists b; split; [left; reflexivity|assumption]].
        destruct IH as (c & H1 & H2); [intros H; apply Hn'; intros c [<-|Hc]; auto|]. exists c. split; [right; assumption|assumption]. }
    destruct Hex as (b & Hb & Hbp). destruct p as [|a p]; [cbn in Hl; lia|].
    destruct (leaves E (a :: p) a b) as (x & y & Hx & Hy & Hxy); [apply Hj; [apply Hi; left; reflexivity|assumption]|left; reflexivity|assumption|].
    set (q := a :: p) in *.
    assert (HyV : In y V) by (destruct Hxy as [Hxy|Hxy]; apply He in Hxy; tauto).
    assert (Hxn : x < n) by (apply Hr, Hi; assumption). assert (Hyn : y < n) by (apply Hr; assumption).
    assert (Hedge : exists e, In e R /\ (e = (x, y) \/ e = (y, x))).
    { assert (Hin : exists e, In e E /\ (e = (x, y) \/ e = (y, x))) by (destruct Hxy; eauto). destruct Hin as (e & Hin & Ee). exists e. split; [|assumption].
      apply (Permutation_in _ (Permutation_sym HP)), in_app_or in Hin. destruct Hin as [Hin|Hin]; [|assumption]. exfalso. destruct Ee as [-> | ->]; apply HF in Hin; tauto. }
    destruct Hedge as (e & Hin & Ee). destruct (in_split _ _ Hin) as (R1 & R2 & ->).
    assert (Hcost : w (fst e) (snd e) = w x y) by (destruct Ee as [-> | ->]; [reflexivity|apply Hsym; assumption]).
    destruct (in_split _ _ Hx) as (p1 & p2 & Ep).
    exists (x :: y :: p2 ++ p1), (e :: F), (R1 ++ R2).
    assert (HPq : Permutation (x :: p2 ++ p1) q) by (rewrite Ep; change (x :: p2 ++ p1) with ((x :: p2) ++ p1); apply Permutation_app_comm).
    assert (Hq : Permutation (x :: y :: p2 ++ p1) (y :: q)) by (rewrite perm_swap; constructor; exact HPq).
    split; [rewrite (Permutation_length Hq); cbn [length]; lia|]. split; [apply (Permutation_NoDup (Permutation_sym Hq)); constructor; assumption|].
    split; [intros v Hv; apply (Permutation_in _ Hq) in Hv; destruct Hv as [<-|Hv]; [assumption|apply Hi; assumption]|]. split; [|split; [|split]].
    + rewrite <- HP. cbn [app]. rewrite (app_assoc F R1 (e :: R2)), (app_assoc F R1 R2). apply Permutation_middle.
    + intros c d Hcd. assert (Hsub : forall v, In v q -> In v (x :: y :: p2 ++ p1)) by (intros v Hv; apply (Permutation_in _ (Permutation_sym Hq)); right; assumption).
      destruct Hcd as [Hcd|Hcd]; [|apply HF in Hcd; destruct Hcd; auto]. subst e. destruct Ee as [Ee|Ee]; injection Ee as -> ->; split; cbn; auto.
    + split; [cbn [length]; lia|]. intros c d [Hcd|Hcd]; [|apply Hloop; assumption]. subst e. assert (Hxy0 : x <> y) by (intros E1; apply Hy; rewrite <- E1; exact Hx).
      destruct Ee as [Ee|Ee]; injection Ee as -> ->; congruence.
    + intros _. cbn [edges_cost fold_right]. fold (edges_cost w F). rewrite Hcost.
      pose proof (insert_after x y (p2 ++ p1) Hxn Hyn) as Hins.
      assert (Hall : Forall (fun v => v < n) (p2 ++ p1)) by (apply Forall_forall; intros v Hv; apply Hr, Hi, (Permutation_in _ HPq); right; assumption). specialize (Hins Hall).
      destruct (Nat.eq_dec k 1) as [->|Hk1].
      * assert (Hp0 : p2 ++ p1 = []) by (apply Permutation_length in HPq; cbn in HPq, Hl; destruct (p2 ++ p1); [reflexivity|cbn in HPq; lia]). rewrite Hp0. unfold tour_cost. cbn [last path_cost].
        rewrite (Hsym y x) by assumption.
        assert (0 <= edges_cost w F)%Z; [|lia]. apply edges_cost_nonneg. intros c d Hcd. apply HF in Hcd. destruct Hcd as [H1 H2]. split; apply Hr, Hi; assumption.
      * specialize (Hc ltac:(lia)). rewrite Ep in Hc. rewrite tour_cost_rot in Hc. change ((x :: p2) ++ p1) with (x :: p2 ++ p1) in Hc. lia.
Qed.

(** Every connected set of edges has a tour of at most twice its weight. *)
Lemma tree_tour E : 2 <= n -> (forall a b, In (a, b) E -> a < n /\ b < n) -> (forall a b, a < n -> b < n -> joined E a b) ->
  exists p, is_tour n p /\ (tour_cost w p <= 2 * edges_cost w E)%Z.
Proof.
  intros Hn He Hj. destruct (grow (seq 0 n) E) with (k := n) as (p & F & R & Hl & Np & Hi & HP & HF & (Hlen & Hloop) & Hc).
  - apply seq_NoDup.
  - intros v Hv. apply in_seq in Hv. lia.
  - intros a b Hab. destruct (He a b Hab). rewrite !in_seq. lia.
  - intros a b Ha Hb. apply in_seq in Ha, Hb. apply Hj; lia.
  - destruct n; [lia|discriminate].
  - rewrite seq_length. lia.
  - exists p. split; [apply tour_intro; [assumption| |assumption]; apply Forall_forall; intros v Hv; apply Hi, in_seq in Hv; lia|].
    specialize (Hc Hn). rewrite <- (edges_cost_perm w _ _ HP), edges_cost_app.
    assert (0 <= edges_cost w R)%Z; [|lia]. apply edges_cost_nonneg. intros a b Hab. apply He, (Permutation_in _ HP), in_or_app. right. assumption.
Qed.
End Tree.

(** A spanning tree weighs at least one for each edge, if all distances are at least one. *)
Lemma tree_at_least n w V E : symmetric w n -> nonneg w n -> triangle w n -> (forall a b, a < n -> b < n -> a <> b -> (1 <= w a b)%Z) ->
  NoDup V -> (forall v, In v V -> v < n) -> V <> [] -> spanning_tree V E -> (Z.of_nat (length V) - 1 <= edges_cost w E)%Z.
Proof.
  intros Hsym Hnn Htri H1 Nd Hr Hne (He & Hj & _).
  destruct (grow n w Hsym Hnn Htri V E Nd Hr He Hj Hne (length V)) as (p & F & R & Hl & _ & Hi & HP & HF & (Hlen & Hloop) & _); [destruct V; [contradiction|cbn; lia]|].
  rewrite <- (edges_cost_perm w _ _ HP), edges_cost_app.
  assert (HR : (0 <= edges_cost w R)%Z).
  { apply (edges_cost_nonneg n w Hnn). intros a b Hab. assert (Hin : In (a, b) E) by (apply (Permutation_in _ HP), in_or_app; right; assumption). apply He in Hin. destruct Hin; split; apply Hr; assumption. }
  assert (HFc : (Z.of_nat (length F) <= edges_cost w F)%Z); [|lia].
  assert (HFr : forall a b, In (a, b) F -> a < n /\ b < n) by (intros a b Hab; apply HF in Hab; destruct Hab; split; apply Hr, Hi; assumption).
  clear - H1 Hloop HFr. unfold edges_cost. induction F as [|[a b] F IH]; cbn [fold_right length fst snd]; [lia|].
  destruct (HFr a b ltac:(left; reflexivity)). specialize (H1 a b ltac:(assumption) ltac:(assumption) ltac:(apply Hloop; left; reflexivity)).
  specialize (IH ltac:(intros; apply Hloop; right; assumption) ltac:(intros; apply HFr; right; assumption)). lia.
Qed.

Lemma free_all n : free_vertices n [] = seq 0 n.
Proof. unfold free_vertices. induction (seq 0 n) as [|x l IH]; cbn; [reflexivity|]. f_equal. exact IH. Qed.
Lemma in_free n X v : In v (free_vertices n X) <-> v < n /\ ~ In v X.
Proof.
  unfold free_vertices. rewrite filter_In, in_seq, negb_true_iff, <- not_true_iff_false, existsb_exists. split; intros [H1 H2]; (split; [lia|]); intros H; apply H2.
  - exists v. split; [assumption|apply Nat.eqb_refl].
  - destruct H as (x & H & E). apply Nat.eqb_eq in E. subst. assumption.
Qed.

Lemma free_perm n c X : c < n -> ~ In c X -> Permutation (c :: free_vertices n (c :: X)) (free_vertices n X).
Proof.
  intros Hc HX. apply NoDup_Permutation; [constructor; [rewrite in_free; cbn; tauto|unfold free_vertices; apply NoDup_filter, seq_NoDup]|unfold free_vertices; apply NoDup_filter, seq_NoDup|].
  intros v. cbn [In]. rewrite !in_free. cbn [In]. destruct (Nat.eq_dec c v); [subst; tauto|tauto].
Qed.
Lemma free_length n s : s < n -> S (length (free_vertices n [s])) = n.
Proof. intros Hs. pose proof (Permutation_length (free_perm n s [] Hs ltac:(intros []))) as H. rewrite free_all, seq_length in H. exact H. Qed.

Lemma joined_mono (E E' : list (nat * nat)) a b : incl E E' -> joined E a b -> joined E' a b.
Proof. intros Hi. induction 1 as [|a b c H IH He]; [constructor|]. apply joined_step with b; [exact IH|]. destruct He; [left|right]; apply Hi; assumption. Qed.
Lemma joined_trans (E : list (nat * nat)) a b c : joined E a b -> joined E b c -> joined E a c.
Proof. intros H1 H2. revert H1. induction H2 as [|b c d H IH He]; intros H1; [assumption|]. apply joined_step with c; [apply IH; assumption|assumption]. Qed.
Lemma joined_sym (E : list (nat * nat)) a b : joined E a b -> joined E b a.
Proof. induction 1 as [|a b c H IH He]; [constructor|]. apply joined_trans with b; [|exact IH]. apply joined_step with c; [constructor|]. tauto. Qed.

(** A 1-tree without one of its two special edges is a spanning tree. *)
Lemma one_tree_spanning n s T a b : s < n -> spanning_tree (free_vertices n [s]) T -> a < n -> a <> s ->
  spanning_tree (free_vertices n []) (T ++ [(s, a)]) /\ edges_cost b (T ++ [(s, a)]) = (edges_cost b T + b s a)%Z.
Proof.
  intros Hs (H1 & H2 & H3) Ha Has. pose proof (free_length n s Hs) as Hl. split; [|rewrite edges_cost_app; cbn; lia]. rewrite free_all. split; [|split].
  - intros c d Hcd. rewrite !in_seq. apply in_app_or in Hcd. destruct Hcd as [Hcd|[E|[]]]; [|injection E as <- <-; lia].
    apply H1 in Hcd. destruct Hcd as [Hc Hd]. apply in_free in Hc, Hd. lia.
  - assert (Hsa : forall v, v < n -> joined (T ++ [(s, a)]) a v).
    { intros v Hv. destruct (Nat.eq_dec v s) as [->|Hvs].
      - apply joined_step with a; [constructor|]. right. apply in_or_app. right. left. reflexivity.
      - apply (joined_mono T); [intros e He; apply in_or_app; left; assumption|]. apply H2; apply in_free; cbn; intuition lia. }
    intros c d Hc Hd. apply in_seq in Hc, Hd. apply joined_trans with a; [apply joined_sym|]; apply Hsa; lia.
  - rewrite app_length, seq_length. cbn [length]. lia.
Qed.

(** Stars *)
Definition star (c : nat) (l : list nat) : list (nat * nat) := map (fun v => (c, v)) l.
Lemma star_spanning n c X : c < n -> ~ In c X -> spanning_tree (free_vertices n X) (star c (free_vertices n (c :: X))).
Proof.
  intros Hc HX. pose proof (free_perm n c X Hc HX) as HP. split; [|split].
  - intros a b Hab. apply in_map_iff in Hab. destruct Hab as (v & E & Hv). injection E as <- <-. apply in_free in Hv. rewrite !in_free. cbn in Hv. tauto.
  - assert (Hto : forall v, In v (free_vertices n X) -> joined (star c (free_vertices n (c :: X))) c v).
    { intros v Hv. apply (Permutation_in _ (Permutation_sym HP)) in Hv. destruct Hv as [<-|Hv]; [constructor|]. apply joined_step with c; [constructor|]. left. apply in_map_iff. eauto. }
    intros a b Ha Hb. apply joined_trans with c; [apply joined_sym|]; auto.
  - unfold star. rewrite map_length. exact (Permutation_length HP).
Qed.

(** ** Distances over a hub: two cities in the middle, the others one away from both *)
Definition rad (v : nat) : Z := if v <? 2 then 0%Z else 1%Z.
Definition hub (i j : nat) : Z := if i =? j then 0%Z else (rad i + rad j)%Z.
Definition rads (l : list nat) : Z := fold_right (fun v acc => (rad v + acc)%Z) 0%Z l.

Lemma rad_range v : (0 <= rad v <= 1)%Z.
Proof. unfold rad. destruct (v <? 2); lia. Qed.
Lemma hub_sym i j : hub i j = hub j i.
Proof. unfold hub. rewrite Nat.eqb_sym. destruct (j =? i); lia. Qed.
Lemma hub_diag i : hub i i = 0%Z.
Proof. unfold hub. rewrite Nat.eqb_refl. reflexivity. Qed.
Lemma hub_ne i j : i <> j -> hub i j = (rad i + rad j)%Z.
Proof. intros H. unfold hub. apply Nat.eqb_neq in H. rewrite H. reflexivity. Qed.
Lemma hub_nonneg i j : (0 <= hub i j)%Z.
Proof. unfold hub. pose proof (rad_range i). pose proof (rad_range j). destruct (i =? j); lia. Qed.
Lemma hub_triangle i j k : (hub i j <= hub i k + hub k j)%Z.
Proof.
  destruct (Nat.eq_dec i j) as [->|Hij]; [rewrite hub_diag; pose proof (hub_nonneg j k); pose proof (hub_nonneg k j); lia|].
  destruct (Nat.eq_dec i k) as [->|Hik]; [rewrite hub_diag; lia|]. destruct (Nat.eq_dec k j) as [->|Hkj]; [rewrite hub_diag; lia|].
  rewrite !hub_ne by assumption. pose proof (rad_range k). lia.
Qed.
Lemma rads_perm l l' : Permutation l l' -> rads l = rads l'.
Proof. unfold rads. induction 1; cbn [fold_right]; lia. Qed.
Lemma rads_seq n : 2 <= n -> rads (seq 0 n) = (Z.of_nat n - 2)%Z.
Proof.
  intros Hn. destruct n as [|[|n]]; [lia|lia|]. cbn [seq]. unfold rads. cbn [fold_right]. unfold rad at 1 2. cbn [Nat.ltb Nat.leb].
  assert (H : forall a, 2 <= a -> rads (seq a n) = Z.of_nat n); [|fold (rads (seq 2 n)); rewrite H; lia].
  clear Hn. unfold rads. induction n as [|n IH]; intros a Ha; cbn [seq fold_right]; [lia|]. rewrite IH by lia. unfold rad. destruct (Nat.ltb_spec a 2); lia.
Qed.

Lemma hub_path a t : NoDup (a :: t) -> path_cost hub (a :: t) = (2 * rads (a :: t) - rad a - rad (last (a :: t) a))%Z.
Proof.
  revert a. induction t as [|b t IH]; intros a Nd; [unfold rads; cbn [path_cost last fold_right]; lia|]. inversion Nd as [|? ? Ha Nd']. subst.
  change (path_cost hub (a :: b :: t)) with (hub a b + path_cost hub (b :: t))%Z. rewrite IH by assumption. rewrite hub_ne by (intros ->; apply Ha; left; reflexivity).
  change (last (a :: b :: t) a) with (last (b :: t) a). rewrite (last_default (b :: t) a b) by discriminate. unfold rads. cbn [fold_right]. lia.
Qed.
Lemma hub_tour n q : 3 <= n -> is_tour n q -> tour_cost hub q = (2 * (Z.of_nat n - 2))%Z.
Proof.
  intros Hn Hq. pose proof (tour_NoDup n q Hq) as Nd. pose proof (tour_length n q Hq) as Hl. rewrite <- (rads_seq n) by lia. rewrite <- (rads_perm _ _ Hq).
  destruct q as [|a [|b t]]; [cbn in Hl; lia|cbn in Hl; lia|]. unfold tour_cost. rewrite hub_path by assumption.
  rewrite hub_ne; [lia|]. inversion Nd as [|? ? Ha _]. subst. intros E. apply Ha. rewrite <- E at 1. change (last (a :: b :: t) a) with (last (b :: t) a). apply last_In. discriminate.
Qed.
Lemma hub_star n c X : c < 2 -> c < n -> ~ In c X -> edges_cost hub (star c (free_vertices n (c :: X))) = rads (free_vertices n X).
Proof.
  intros Hc Hcn HX. rewrite <- (rads_perm _ _ (free_perm n c X Hcn HX)). assert (Hr : rad c = 0%Z) by (unfold rad; apply Nat.ltb_lt in Hc; rewrite Hc; reflexivity).
  assert (Hne : forall v, In v (free_vertices n (c :: X)) -> v <> c) by (intros v Hv ->; apply in_free in Hv; cbn in Hv; tauto).
  unfold rads at 1. cbn [fold_right]. rewrite Hr. fold (rads (free_vertices n (c :: X))). cbn [Z.add].
  induction (free_vertices n (c :: X)) as [|v l IH]; [reflexivity|]. unfold star, edges_cost, rads in *. cbn [map fold_right fst snd].
  rewrite IH by (intros; apply Hne; right; assumption). rewrite hub_ne by (intros E; apply (Hne v); [left; reflexivity|congruence]). lia.
Qed.

(** ** Two cities on one side, three on the other: the steps within a side are to be avoided, and cannot be *)
Definition sides (inside : Z) (i j : nat) : Z := if i =? j then 0%Z else if Bool.eqb (i <? 2) (j <? 2) then inside else 1%Z.
Lemma path_cost_add (u v : nat -> nat -> Z) p : path_cost (fun i j => u i j + v i j)%Z p = (path_cost u p + path_cost v p)%Z.
Proof.
  induction p as [|a [|b t] IH]; [reflexivity|reflexivity|].
  change (path_cost (fun i j => u i j + v i j)%Z (a :: b :: t)) with (u a b + v a b + path_cost (fun i j => u i j + v i j)%Z (b :: t))%Z.
  change (path_cost u (a :: b :: t)) with (u a b + path_cost u (b :: t))%Z. change (path_cost v (a :: b :: t)) with (v a b + path_cost v (b :: t))%Z. lia.
Qed.
Lemma path_cost_scale L (u : nat -> nat -> Z) p : path_cost (fun i j => L * u i j)%Z p = (L * path_cost u p)%Z.
Proof.
  induction p as [|a [|b t] IH]; [cbn; lia|cbn; lia|].
  change (path_cost (fun i j => L * u i j)%Z (a :: b :: t)) with (L * u a b + path_cost (fun i j => L * u i j)%Z (b :: t))%Z.
  change (path_cost u (a :: b :: t)) with (u a b + path_cost u (b :: t))%Z. lia.
Qed.
Definition within (i j : nat) : Z := if i =? j then 0%Z else if Bool.eqb (i <? 2) (j <? 2) then 1%Z else 0%Z.
Lemma sides_tour L p : p <> [] -> tour_cost (sides L) p = (tour_cost (sides 0) p + L * tour_cost within p)%Z.
Proof.
  intros Hp. assert (E : forall i j, sides L i j = (sides 0 i j + L * within i j)%Z).
  { intros i j. unfold sides, within. destruct (i =? j); [lia|]. destruct (Bool.eqb _ _); lia. }
  destruct p as [|a t]; [contradiction|]. unfold tour_cost. rewrite E.
  assert (Ep : forall p, path_cost (sides L) p = path_cost (fun i j => sides 0 i j + L * within i j)%Z p).
  { induction p as [|x [|y p] IH]; [reflexivity|reflexivity|]. change (path_cost (sides L) (x :: y :: p)) with (sides L x y + path_cost (sides L) (y :: p))%Z. rewrite IH, E. reflexivity. }
  rewrite Ep, path_cost_add, path_cost_scale. lia.
Qed.

Lemma edge_below n (w : nat -> nat -> Z) E a b : nonneg w n -> (forall a b, In (a, b) E -> a < n /\ b < n) -> In (a, b) E -> (w a b <= edges_cost w E)%Z.
Proof.
  intros Hnn He Hin. destruct (in_split _ _ Hin) as (E1 & E2 & ->). rewrite edges_cost_app. change (edges_cost w ((a, b) :: E2)) with (w a b + edges_cost w E2)%Z.
  pose proof (edges_cost_nonneg n w Hnn E1 ltac:(intros; apply He, in_or_app; left; assumption)). pose proof (edges_cost_nonneg n w Hnn E2 ltac:(intros; apply He, in_or_app; right; right; assumption)). lia.
Qed.

(** the 1-trees across the sides *)
Definition across (s : nat) : list (nat * nat) :=
  match s with
  | 0 => [(1, 2); (1, 3); (1, 4)] ++ [(0, 2); (0, 3)]
  | 1 => [(0, 2); (0, 3); (0, 4)] ++ [(1, 2); (1, 3)]
  | 2 => [(0, 3); (0, 4); (1, 3)] ++ [(2, 0); (2, 1)]
  | 3 => [(0, 2); (0, 4); (1, 2)] ++ [(3, 0); (3, 1)]
  | _ => [(0, 2); (0, 3); (1, 2)] ++ [(4, 0); (4, 1)]
  end.
Lemma joined_from (T : list (nat * nat)) c V : (forall v, In v V -> joined T c v) -> forall a b, In a V -> In b V -> joined T a b.
Proof. intros H a b Ha Hb. apply joined_trans with c; [apply joined_sym|]; auto. Qed.
Lemma across_tree s : s < 5 -> one_tree_at 5 s (across s) /\ forall L, edges_cost (sides L) (across s) = 5%Z.
Proof.
  assert (G : forall T V c, (forall a b, In (a, b) T -> In a V /\ In b V) -> (forall v, In v V -> joined T c v) -> S (length T) = length V -> spanning_tree V T).
  { intros T V c H1 H2 H3. split; [assumption|]. split; [apply (joined_from T c); assumption|assumption]. }
  intros Hs. split; [|intros L; do 5 (destruct s as [|s]; [reflexivity|]); lia].
  destruct s as [|[|[|[|[|s]]]]]; [..|lia].
  all: eexists; eexists; eexists; split; [cbn [across]; reflexivity|]; split; [|lia].
  - change (free_vertices 5 [0]) with [1; 2; 3; 4]. apply G with (c := 1); [intros a b Hab; cbn in Hab; decompose [or] Hab; try contradiction; match goal with H : (_, _) = (_, _) |- _ => injection H as <- <- end; cbn; tauto| |reflexivity].
    intros v Hv. destruct Hv as [<-|Hv]; [constructor|]. apply joined_step with 1; [constructor|]. left. cbn in Hv |- *. decompose [or] Hv; subst; tauto.
  - change (free_vertices 5 [1]) with [0; 2; 3; 4]. apply G with (c := 0); [intros a b Hab; cbn in Hab; decompose [or] Hab; try contradiction; match goal with H : (_, _) = (_, _) |- _ => injection H as <- <- end; cbn; tauto| |reflexivity].
    intros v Hv. destruct Hv as [<-|Hv]; [constructor|]. apply joined_step with 0; [constructor|]. left. cbn in Hv |- *. decompose [or] Hv; subst; tauto.
  - change (free_vertices 5 [2]) with [0; 1; 3; 4]. apply G with (c := 0); [intros a b Hab; cbn in Hab; decompose [or] Hab; try contradiction; match goal with H : (_, _) = (_, _) |- _ => injection H as <- <- end; cbn; tauto| |reflexivity].
    assert (J : forall v, In v [3; 4] -> joined [(0, 3); (0, 4); (1, 3)] 0 v) by (intros v Hv; apply joined_step with 0; [constructor|]; left; cbn in Hv |- *; decompose [or] Hv; subst; tauto).
    intros v Hv. destruct Hv as [<-|[<-|Hv]]; [constructor|apply joined_step with 3; [apply J; cbn; tauto|right; cbn; tauto]|apply J; assumption].
  - change (free_vertices 5 [3]) with [0; 1; 2; 4]. apply G with (c := 0); [intros a b Hab; cbn in Hab; decompose [or] Hab; try contradiction; match goal with H : (_, _) = (_, _) |- _ => injection H as <- <- end; cbn; tauto| |reflexivity].
    assert (J : forall v, In v [2; 4] -> joined [(0, 2); (0, 4); (1, 2)] 0 v) by (intros v Hv; apply joined_step with 0; [constructor|]; left; cbn in Hv |- *; decompose [or] Hv; subst; tauto).
    intros v Hv. destruct Hv as [<-|[<-|Hv]]; [constructor|apply joined_step with 2; [apply J; cbn; tauto|right; cbn; tauto]|apply J; assumption].
  - change (free_vertices 5 [4]) with [0; 1; 2; 3]. apply G with (c := 0); [intros a b Hab; cbn in Hab; decompose [or] Hab; try contradiction; match goal with H : (_, _) = (_, _) |- _ => injection H as <- <- end; cbn; tauto| |reflexivity].
    assert (J : forall v, In v [2; 3] -> joined [(0, 2); (0, 3); (1, 2)] 0 v) by (intros v Hv; apply joined_step with 0; [constructor|]; left; cbn in Hv |- *; decompose [or] Hv; subst; tauto).
    intros v Hv. destruct Hv as [<-|[<-|Hv]]; [constructor|apply joined_step with 2; [apply J; cbn; tauto|right; cbn; tauto]|apply J; assumption].
Qed.
