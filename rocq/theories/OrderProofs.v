(** Prim and the 1-tree only compare costs: what they build is right in any arithmetic whose
    comparisons are those of the integers [w], whatever its sums are. *)
From Coq Require Import ZArith Arith Bool List Permutation Lia.
From Verif Require Import Num Base Data Mst Par MstPar OneTree Spec SpecFacts Greedy PrimProofs MstParProofs MstFacts
  OneTreeProofs Dfs.
Import ListNotations.

Section Order.
Open Scope Z_scope.
Context {N : Num} (O : NumOrd N).
Variable m : namatrix N.
Hypothesis Hwf : na_wf m.
Let n := na_dim m.
Variable w : nat -> nat -> Z.
Let cf := na_val m.
Hypothesis Hle : forall a b c d, (a < n)%nat -> (b < n)%nat -> (c < n)%nat -> (d < n)%nat -> a <> b -> c <> d ->
  cle (cf a b) (cf c d) = (w a b <=? w c d).
Hypothesis Hfin : forall a b, (a < n)%nat -> (b < n)%nat -> a <> b -> clt (cf a b) cinf = true.

Lemma order_lt a b c d : (a < n)%nat -> (b < n)%nat -> (c < n)%nat -> (d < n)%nat -> a <> b -> c <> d ->
  clt (cf a b) (cf c d) = (w a b <? w c d).
Proof.
  intros Ha Hb Hc Hd Hab Hcd. rewrite (ord_lt N O), !Hle by assumption.
  apply Bool.eq_iff_eq_true. rewrite andb_true_iff, negb_true_iff, Z.leb_le, Z.leb_gt, Z.ltb_lt. lia.
Qed.

Lemma prim_order X : Forall (fun x => (x < n)%nat) X -> (exists v, (v < n)%nat /\ ~ In v X) ->
  exists g T, prim_with_excluded_node_single_threaded m X = Ok g /\ length g = n /\
    spanning_tree (free_vertices n X) T /\ (forall a b, In (a, b) T -> a <> b) /\
    (forall v, (v < n)%nat -> nth v g [] = adjlist cf T v) /\
    (symmetric w n -> forall T', spanning_tree (free_vertices n X) T' -> edges_cost w T <= edges_cost w T').
Proof.
  intros HX Hex.
  destruct (prim_single_spec O m Hwf Hfin X HX Hex) as (g & T & start & R & Eg & Hl & Hgr & HP & Hadj).
  assert (Hsp0 : spanning_tree (start :: R) T) by (eapply greedy_spanning; eauto).
  assert (Hsp : spanning_tree (free_vertices n X) T).
  { destruct Hsp0 as (H1 & H2 & H3). split; [|split].
    - intros a b Hin. destruct (H1 a b Hin).
      split; apply (Permutation_in _ (Permutation_sym HP)); assumption.
    - intros a b Ha Hb. apply H2; apply (Permutation_in _ HP); assumption.
    - rewrite H3. symmetry. apply Permutation_length. assumption. }
  assert (Hfr : forall a, In a (free_vertices n X) -> (a < n)%nat) by (intros a Ha; apply free_In in Ha; tauto).
  assert (HTne : forall a b, In (a, b) T -> a <> b).
  { assert (Hnd : NoDup (start :: R)) by (apply (Permutation_NoDup HP), free_NoDup).
    assert (G : forall S R T, greedy (ele m) S R T -> (forall x, In x S -> In x R -> False) -> NoDup R ->
              forall a b, In (a, b) T -> a <> b).
    { clear. induction 1 as [|S R R' u v T Hu HP Hmin H IH]; intros Hd Hnd a b Hin; [destruct Hin|].
      destruct Hin as [Heq|Hin].
      - injection Heq as <- <-. intros ->. apply (Hd v Hu). apply (Permutation_in _ (Permutation_sym HP)). left; reflexivity.
      - apply (Permutation_NoDup HP) in Hnd as Hnd'. inversion Hnd' as [|? ? Hv HR']; subst.
        apply (IH); try assumption. intros x [->|Hx] HxR; [contradiction|].
        apply (Hd x Hx). apply (Permutation_in _ (Permutation_sym HP)). right; assumption. }
    inversion Hnd; subst. apply (G _ _ _ Hgr); [|assumption]. intros x [->|[]]. assumption. }
  exists g, T. split; [assumption|]. split; [assumption|]. split; [assumption|]. split; [assumption|]. split; [assumption|].
  intros Hsym T' HT'. apply (greedy_min_spanning w (ele m) start R T (free_vertices n X) T'); try assumption.
  - intros a b c d Ha Hb Hc Hd Hab Hcd Hl'. unfold ele in Hl'. cbn [fst snd] in Hl'. fold cf in Hl'. rewrite Hle in Hl' by auto. lia.
  - apply free_NoDup.
  - intros a b Ha Hb. apply Hsym; auto.
Qed.

(** the two cheapest edges at [s] among the vertices [P] *)
Definition two_least (s : nat) (P : list nat) (e1 e2 : edge N) : Prop :=
  match P with
  | [] => e1 = mkEdge s cinf /\ e2 = mkEdge s cinf
  | [a] => e1 = mkEdge a (cf s a) /\ e2 = mkEdge s cinf
  | _ => exists a b, e1 = mkEdge a (cf s a) /\ e2 = mkEdge b (cf s b) /\ a <> b /\
      In a P /\ In b P /\ w s a <= w s b /\ forall x, In x P -> x <> a -> w s b <= w s x
  end.

Lemma best_two_order_step s P e1 e2 x : (s < n)%nat -> (x < n)%nat -> (forall y, In y P -> (y < n)%nat /\ y <> s) -> ~ In x P ->
  x <> s -> two_least s P e1 e2 ->
  two_least s (P ++ [x]) (fst (best_two s (e1, e2) (x, cf s x))) (snd (best_two s (e1, e2) (x, cf s x))).
Proof.
  intros Hs Hx HP Hnin Hxs H. unfold best_two. apply Nat.eqb_neq in Hxs as Hxs'. rewrite Hxs'.
  assert (Hsx : s <> x) by congruence.
  destruct P as [|a [|b P]].
  - destruct H as [-> ->]. cbn [e_cost]. rewrite Hfin by auto. cbn. auto.
  - destruct H as [-> ->]. cbn [e_cost].
    destruct (HP a) as [Ha Has]; [left; reflexivity|].
    assert (a <> x) by (intros ->; apply Hnin; left; reflexivity).
    rewrite order_lt by auto. destruct (Z.ltb_spec (w s x) (w s a)).
    + cbn [fst snd]. exists x, a. repeat split; [congruence|cbn; auto..|lia|].
      intros y [<-|[<-|[]]] Hy; [lia|congruence].
    + rewrite Hfin by auto. cbn [fst snd]. exists a, x. repeat split; [congruence|cbn; auto..|lia|].
      intros y [<-|[<-|[]]] Hy; [congruence|lia].
  - destruct H as (u & v & -> & -> & Huv & Hu & Hv & Hl & Hmin). cbn [e_cost].
    destruct (HP u Hu) as [Hun Hus]. destruct (HP v Hv) as [Hvn Hvs].
    rewrite !order_lt by auto.
    assert (Hux : u <> x) by (intros ->; apply Hnin; assumption).
    assert (Hvx : v <> x) by (intros ->; apply Hnin; assumption).
    assert (Hin : forall y, In y ((a :: b :: P) ++ [x]) <-> In y (a :: b :: P) \/ y = x).
    { intros y. rewrite in_app_iff. cbn [In]. intuition. }
    assert (G : forall p q, p <> q -> In p ((a :: b :: P) ++ [x]) -> In q ((a :: b :: P) ++ [x]) -> w s p <= w s q ->
      (forall y, In y ((a :: b :: P) ++ [x]) -> y <> p -> w s q <= w s y) ->
      two_least s ((a :: b :: P) ++ [x]) (mkEdge p (cf s p)) (mkEdge q (cf s q))).
    { intros p q H1 H2 H3 H4 H5. exists p, q. auto 10. }
    destruct (Z.ltb_spec (w s x) (w s u)); [|destruct (Z.ltb_spec (w s x) (w s v))]; cbn [fst snd]; apply G;
      try (apply Hin; auto); try congruence; try lia; intros y Hy Hne; apply Hin in Hy; destruct Hy as [Hy|Hy].
    + destruct (Nat.eq_dec y u); [subst; lia|]. specialize (Hmin y Hy). lia.
    + congruence.
    + specialize (Hmin y Hy Hne). lia.
    + subst; lia.
    + auto.
    + subst; lia.
Qed.

Lemma best_two_order s : (s < n)%nat -> (3 <= n)%nat ->
  exists a b, fold_left (best_two s) (combine (seq 0 n) (map (na_val m s) (seq 0 n))) (mkEdge s cinf, mkEdge s cinf)
    = (mkEdge a (cf s a), mkEdge b (cf s b)) /\
    (a < n)%nat /\ (b < n)%nat /\ a <> s /\ b <> s /\ a <> b /\ w s a <= w s b /\
    forall x, (x < n)%nat -> x <> s -> x <> a -> w s b <= w s x.
Proof.
  intros Hs Hn.
  assert (G : forall k, (k <= n)%nat ->
    two_least s (filter (fun x => negb (x =? s)%nat) (seq 0 k))
      (fst (fold_left (best_two s) (map (fun j => (j, na_val m s j)) (seq 0 k)) (mkEdge s cinf, mkEdge s cinf)))
      (snd (fold_left (best_two s) (map (fun j => (j, na_val m s j)) (seq 0 k)) (mkEdge s cinf, mkEdge s cinf)))).
  { induction k as [|k IH]; intros Hk; [cbn; auto|].
    rewrite seq_S, map_app, fold_left_app, filter_app. cbn [plus map fold_left filter].
    destruct (fold_left _ (map _ (seq 0 k)) _) as [e1 e2]. cbn [fst snd] in IH. specialize (IH ltac:(lia)).
    destruct (Nat.eqb_spec k s) as [Ek|Ek].
    - subst k. unfold best_two. rewrite Nat.eqb_refl. cbn [negb fst snd]. rewrite app_nil_r. assumption.
    - cbn [negb]. apply best_two_order_step; try assumption; try lia.
      + intros y Hy. apply filter_In in Hy. destruct Hy as [Hy Hn']. apply in_seq in Hy. apply negb_true_iff, Nat.eqb_neq in Hn'. split; [lia|assumption].
      + intros Hy. apply filter_In in Hy. destruct Hy as [Hy _]. apply in_seq in Hy. lia. }
  specialize (G n ltac:(lia)).
  assert (Ec : combine (seq 0 n) (map (na_val m s) (seq 0 n)) = map (fun j => (j, na_val m s j)) (seq 0 n)).
  { clear. generalize (seq 0 n). induction l as [|x l IH]; [reflexivity|]. cbn. rewrite IH. reflexivity. }
  rewrite Ec. destruct (fold_left _ _ _) as [e1 e2]. cbn [fst snd] in G.
  set (P := filter (fun x => negb (x =? s)%nat) (seq 0 n)) in *.
  assert (HP : forall x, In x P <-> (x < n)%nat /\ x <> s).
  { intros x. unfold P. rewrite filter_In, in_seq, negb_true_iff, Nat.eqb_neq. intuition lia. }
  assert (Hlen : (2 <= length P)%nat).
  { assert (exists u v, u <> v /\ In u P /\ In v P) as (u & v & Huv & Hu & Hv).
    { destruct (Nat.eq_dec s 0) as [E0|E0]; [exists 1%nat, 2%nat|].
      - rewrite !HP. lia.
      - destruct (Nat.eq_dec s 1) as [E1|E1]; [exists 0%nat, 2%nat|exists 0%nat, 1%nat]; rewrite !HP; lia. }
    apply (NoDup_incl_length (l := [u; v]) (l' := P)).
    - constructor; [intros [|[]]; congruence|]. constructor; [intros []|constructor].
    - intros x [<-|[<-|[]]]; assumption. }
  clearbody P. destruct P as [|p1 [|p2 P]]; [cbn in Hlen; lia..|].
  destruct G as (a & b & -> & -> & Hab & Ha & Hb & Hl & Hmin).
  apply HP in Ha, Hb. exists a, b. repeat split; try tauto; try lia.
  intros x Hx Hxs Hxa. apply Hmin; [apply HP|]; auto.
Qed.

Theorem one_tree_order s : (s < n)%nat -> (3 <= n)%nat ->
  exists g F, one_tree m s = Ok g /\ one_tree_at n s F /\ length F = n /\ length g = n /\
    (forall a b, In (a, b) F -> (a < n)%nat /\ (b < n)%nat /\ a <> b) /\
    (forall v, (v < n)%nat -> nth v g [] = adjlist cf F v) /\
    (symmetric w n -> forall F', one_tree_at n s F' -> edges_cost w F <= edges_cost w F').
Proof.
  intros Hs Hn.
  destruct (prim_order [s]) as (g & T & Eg & Hl & Hsp & Hne & Hadj & Hmin).
  { constructor; [exact Hs|constructor]. }
  { exists (if Nat.eqb s 0 then 1 else 0)%nat. destruct (Nat.eqb_spec s 0); cbn; lia. }
  destruct (best_two_order s Hs Hn) as (a & b & Eb & Ha & Hb & Has & Hbs & Hab & Hl' & Hbm).
  unfold one_tree. rewrite Eg. cbn [bind]. rewrite (na_row_val m s Hwf Hs). cbn [bind]. fold n.
  rewrite map_length, seq_length, Eb. cbn [e_to e_cost].
  destruct (add_edge_adj cf g T n s a) as (g1 & E1 & Hl1 & Hadj1); try assumption; [congruence|].
  rewrite (E1 : add_undirected_edge g s a (cf s a) = Ok g1). cbn [bind].
  destruct (add_edge_adj cf g1 (T ++ [(s, a)]) n s b) as (g2 & E2 & Hl2 & Hadj2); try assumption; [congruence|].
  rewrite <- app_assoc in Hadj2. cbn [app] in Hadj2.
  exists g2, (T ++ [(s, a); (s, b)]). split; [exact E2|].
  split; [exists T, a, b; auto 10|].
  assert (HFn : forall u v, In (u, v) (T ++ [(s, a); (s, b)]) -> (u < n)%nat /\ (v < n)%nat /\ u <> v).
  { intros u v Hin. apply in_app_or in Hin. destruct Hin as [Hin|[Hin|[Hin|[]]]]; try (injection Hin as <- <-; auto).
    destruct Hsp as [Hs' _]. destruct (Hs' u v Hin) as [H1 H2]. apply free_In in H1, H2. fold n in H1, H2. split; [tauto|]. split; [tauto|]. apply Hne; assumption. }
  assert (HFl : length (T ++ [(s, a); (s, b)]) = n).
  { rewrite app_length. cbn [length]. destruct Hsp as (_ & _ & Hlen).
    assert (length (free_vertices n [s]) = n - 1)%nat; [|lia].
    assert (HPm : Permutation (s :: free_vertices n [s]) (seq 0 n)).
    { apply NoDup_Permutation; [|apply seq_NoDup|].
      - constructor; [|apply (free_NoDup m)]. intros H. apply (free_In m) in H. apply H. left; reflexivity.
      - intros x. rewrite in_seq. cbn [In]. pose proof (free_In m [s] x : In x (free_vertices n [s]) <-> (x < n)%nat /\ ~ In x [s]) as Hfx. rewrite Hfx. cbn [In].
        destruct (Nat.eq_dec s x); intuition lia. }
    apply Permutation_length in HPm. rewrite seq_length in HPm. cbn [length] in HPm. lia. }
  split; [assumption|]. split; [assumption|]. split; [assumption|]. split; [exact Hadj2|].
  intros Hsym F' (T' & a' & b' & -> & Hsp' & Ha' & Hb' & Has' & Hbs' & Hab').
  rewrite !edges_cost_app. specialize (Hmin Hsym T' Hsp'). unfold edges_cost at 2 4. cbn [fold_right fst snd].
  assert (w s a <= w s a') by (destruct (Nat.eq_dec a' a); [subst; lia|]; specialize (Hbm a' Ha' Has'); lia).
  assert (w s a <= w s b') by (destruct (Nat.eq_dec b' a); [subst; lia|]; specialize (Hbm b' Hb' Hbs'); lia).
  destruct (Nat.eq_dec a' a) as [Ea|Ea].
  + assert (w s b <= w s b') by (apply Hbm; congruence). subst. lia.
  + assert (w s b <= w s a') by (apply Hbm; congruence). lia.
Qed.

End Order.
