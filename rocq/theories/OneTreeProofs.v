(** Facts about the 1-tree bound. *)
From Coq Require Import ZArith Arith Bool List Permutation Lia.
From Verif Require Import Num Base Data Mst Par MstPar OneTree Spec SpecFacts Greedy PrimProofs MstParProofs MstFacts Dfs.
Import ListNotations.

(** ** The maximum *)
Section Max.
Context {N : Num} (O : NumOrd N).

Lemma cmp_None (x y : C N) : cpartial_cmp x y = None <-> cnan x = true \/ cnan y = true.
Proof.
  unfold cpartial_cmp. split.
  - intros H. destruct (cnan x) eqn:Ex; [auto|]. destruct (cnan y) eqn:Ey; [auto|]. exfalso.
    destruct (clt x y) eqn:E1; [discriminate|]. destruct (clt y x) eqn:E2; [discriminate|].
    apply (nclt_cle O) in E1; [|assumption..]. apply (nclt_cle O) in E2; [|assumption..].
    rewrite (ord_eq N O), E1, E2 in H. discriminate.
  - intros H. destruct (clt x y) eqn:E1.
    { pose proof (clt_nnan_l O _ _ E1). pose proof (clt_nnan_r O _ _ E1). destruct H; congruence. }
    destruct (clt y x) eqn:E2.
    { pose proof (clt_nnan_l O _ _ E2). pose proof (clt_nnan_r O _ _ E2). destruct H; congruence. }
    rewrite (ord_eq N O). destruct (cle x y) eqn:E3; [|reflexivity].
    pose proof (ord_nan_l N O _ _ E3). pose proof (ord_nan_r N O _ _ E3). destruct H; congruence.
Qed.

Lemma cmp_Gt (x y : C N) : cpartial_cmp x y = Some Gt <-> clt y x = true.
Proof.
  unfold cpartial_cmp. split.
  - destruct (clt x y); [discriminate|]. destruct (clt y x); [reflexivity|]. destruct (ceq x y); discriminate.
  - intros H. rewrite H. destruct (clt x y) eqn:E; [|reflexivity]. exfalso.
    rewrite (ord_lt N O) in H, E. apply andb_true_iff in H, E. destruct H as [H1 H2], E as [H3 H4]. rewrite H3 in H2. discriminate.
Qed.

Lemma max_step_some (x y : C N) : cnan x = false -> cnan y = false ->
  max_step (Some x) (Some y) = Some (if clt y x then x else y).
Proof.
  intros Hx Hy. unfold max_step. destruct (cpartial_cmp x y) as [[]|] eqn:E.
  - destruct (clt y x) eqn:E2; [apply cmp_Gt in E2; congruence|reflexivity].
  - destruct (clt y x) eqn:E2; [apply cmp_Gt in E2; congruence|reflexivity].
  - apply cmp_Gt in E. rewrite E. reflexivity.
  - apply cmp_None in E. destruct E; congruence.
Qed.
Lemma max_step_nan (x y : C N) : cnan x = true \/ cnan y = true -> max_step (Some x) (Some y) = None.
Proof. intros H. unfold max_step. apply cmp_None in H. rewrite H. reflexivity. Qed.

Lemma nclt_trans (x y z : C N) : cnan x = false -> cnan y = false -> cnan z = false -> clt x y = false -> clt y z = false -> clt x z = false.
Proof.
  intros Hx Hy Hz H1 H2. apply (nclt_cle O) in H1; [|assumption..]. apply (nclt_cle O) in H2; [|assumption..].
  rewrite (ord_lt N O), (ord_trans N O z y x H2 H1). apply andb_false_r.
Qed.

Lemma max_step_assoc (a b c : option (C N)) : max_step a (max_step b c) = max_step (max_step a b) c.
Proof.
  destruct a as [a|]; [|reflexivity]. destruct b as [b|]; [|reflexivity].
  destruct c as [c|]; [|destruct (max_step (Some a) (Some b)); reflexivity].
  destruct (cnan a) eqn:Ea.
  { rewrite (max_step_nan a b) by auto. destruct (max_step (Some b) (Some c)); [rewrite max_step_nan by auto|]; reflexivity. }
  destruct (cnan b) eqn:Eb.
  { rewrite !(max_step_nan) by auto. reflexivity. }
  destruct (cnan c) eqn:Ec.
  { rewrite (max_step_nan b c) by auto. destruct (max_step (Some a) (Some b)); [rewrite max_step_nan by auto|]; reflexivity. }
  rewrite (max_step_some b c), (max_step_some a b) by assumption.
  destruct (clt c b) eqn:Ecb; destruct (clt b a) eqn:Eba; rewrite !max_step_some by assumption; rewrite ?Ecb, ?Eba.
  - assert (E : clt c a = true) by (apply (clt_cle_trans O c b a Ecb), (clt_le O); assumption). rewrite E. reflexivity.
  - reflexivity.
  - reflexivity.
  - rewrite (nclt_trans c b a) by assumption. reflexivity.
Qed.

(** the maximum of values without NaN *)
Lemma seq_max (l : list (C N)) : l <> [] -> (forall x, In x l -> cnan x = false) ->
  exists M, expect_max (seq_reduce max_step (map Some l)) = Ok M /\ In M l /\ forall x, In x l -> cle x M = true.
Proof.
  destruct l as [|a l]; [congruence|]. intros _ Hn. cbn [map seq_reduce].
  assert (G : forall (l : list (C N)) (a : C N), cnan a = false -> (forall x, In x l -> cnan x = false) ->
    exists M, fold_left max_step (map Some l) (Some a) = Some M /\ (M = a \/ In M l) /\ cle a M = true /\ forall x, In x l -> cle x M = true).
  { clear - O. induction l as [|b l IH]; intros a Ha Hl.
    - exists a. cbn. split; [reflexivity|]. split; [auto|]. split; [apply (cle_refl O); assumption|]. intros x [].
    - cbn [map fold_left]. assert (Hb : cnan b = false) by (apply Hl; left; reflexivity).
      rewrite max_step_some by assumption.
      destruct (IH (if clt b a then a else b)) as (M & E & HM & H1 & H2).
      + destruct (clt b a); assumption.
      + intros x Hx. apply Hl. right; assumption.
      + exists M. split; [assumption|]. split; [destruct (clt b a); destruct HM; cbn; auto|].
        destruct (clt b a) eqn:Eb.
        * split; [assumption|]. intros x [<-|Hx]; [|auto]. apply (ord_trans N O _ a); [apply (clt_le O)|]; assumption.
        * apply (nclt_cle O) in Eb; [|assumption..]. split; [apply (ord_trans N O _ b); assumption|]. intros x [<-|Hx]; auto. }
  destruct (G l a) as (M & E & HM & H1 & H2); [apply Hn; left; reflexivity|intros x Hx; apply Hn; right; assumption|].
  exists M. rewrite E. split; [reflexivity|]. split; [destruct HM; cbn; auto|]. intros x [<-|Hx]; auto.
Qed.

(** the rayon version: the same for every reduction tree *)
Theorem one_tree_par_seq t (m : namatrix N) : one_tree_lower_bound_par t m = one_tree_lower_bound_seq m.
Proof.
  unfold one_tree_lower_bound_par, one_tree_lower_bound_seq. destruct (mapM _ _); cbn [bind]; [|reflexivity..].
  rewrite (par_reduce_seq max_step max_step_assoc) by (intros; apply map_app). reflexivity.
Qed.

(** MPI's maximum of values without NaN, in any order and association *)
Lemma opt_max_mpi (t : rtree) : forall l, (forall x : C N, In x l -> cnan x = false) -> l <> [] ->
  exists M, par_reduce mpi_max (fun l => l) t l = Some M /\ In M l /\ forall x, In x l -> cle x M = true.
Proof.
  assert (Hop : forall a b : C N, cnan a = false -> cnan b = false ->
    (mpi_max a b = a \/ mpi_max a b = b) /\ cle a (mpi_max a b) = true /\ cle b (mpi_max a b) = true).
  { intros a b Ha Hb. unfold mpi_max. destruct (clt a b) eqn:E.
    - split; [auto|]. split; [apply (clt_le O); assumption|apply (cle_refl O); assumption].
    - split; [auto|]. split; [apply (cle_refl O); assumption|]. apply (nclt_cle O); assumption. }
  induction t as [|k t1 IH1 t2 IH2]; intros l Hn Hne.
  - destruct l as [|a l]; [congruence|]. cbn [par_reduce seq_reduce]. clear Hne. revert a Hn.
    induction l as [|b l IH]; intros a Hn.
    + exists a. cbn. split; [reflexivity|]. split; [auto|]. intros x [<-|[]]. apply (cle_refl O). apply Hn; left; reflexivity.
    + cbn [fold_left]. destruct (Hop a b) as (H1 & H2 & H3); [apply Hn; left; reflexivity|apply Hn; right; left; reflexivity|].
      destruct (IH (mpi_max a b)) as (M & E & HM & Hx).
      * intros x [<-|Hx]; [destruct H1 as [->| ->]; apply Hn; cbn; auto|apply Hn; cbn; auto].
      * exists M. split; [assumption|]. split.
        -- destruct HM as [<-|HM]; [destruct H1 as [->| ->]; cbn; auto|cbn; auto].
        -- intros x [<-|[<-|Hin]].
           ++ apply (ord_trans N O _ (mpi_max a b)); [assumption|apply Hx; left; reflexivity].
           ++ apply (ord_trans N O _ (mpi_max a b)); [assumption|apply Hx; left; reflexivity].
           ++ apply Hx. right; assumption.
  - cbn [par_reduce]. rewrite <- (firstn_skipn k l) in Hn, Hne.
    assert (Hin : forall x, In x l <-> In x (firstn k l) \/ In x (skipn k l)).
    { intros x. rewrite <- in_app_iff, firstn_skipn. reflexivity. }
    destruct (firstn k l) as [|a l1] eqn:E1.
    + assert (En : par_reduce mpi_max (fun l => l) t1 (@nil (C N)) = None).
      { clear. induction t1 as [|k t1 IH1 t2 IH2]; [reflexivity|]. cbn [par_reduce]. rewrite firstn_nil, skipn_nil, IH1, IH2. reflexivity. }
      rewrite En. cbn [opt_op]. destruct (IH2 (skipn k l)) as (M & E & HM & Hx); [exact Hn|exact Hne|].
      exists M. split; [assumption|]. split; [apply Hin; auto|]. intros x Hxl. apply Hin in Hxl. destruct Hxl as [[]|]; auto.
    + rewrite <- E1 in *. destruct (IH1 (firstn k l)) as (M1 & F1 & HM1 & Hx1).
      { intros x Hx. apply Hn. apply in_or_app; auto. }
      { rewrite E1; discriminate. }
      rewrite F1. destruct (skipn k l) as [|b l2] eqn:E2.
      * assert (En : par_reduce mpi_max (fun l => l) t2 (@nil (C N)) = None).
        { clear. induction t2 as [|k t1 IH1 t2 IH2]; [reflexivity|]. cbn [par_reduce]. rewrite firstn_nil, skipn_nil, IH1, IH2. reflexivity. }
        rewrite En. cbn [opt_op]. exists M1. split; [reflexivity|]. split; [apply Hin; auto|]. intros x Hxl. apply Hin in Hxl. destruct Hxl as [|[]]; auto.
      * rewrite <- E2 in *. destruct (IH2 (skipn k l)) as (M2 & F2 & HM2 & Hx2).
        { intros x Hx. apply Hn. apply in_or_app; auto. }
        { rewrite E2; discriminate. }
        rewrite F2. cbn [opt_op]. destruct (Hop M1 M2) as (H1 & H2 & H3); [apply Hn, in_or_app; auto|apply Hn, in_or_app; auto|].
        eexists. split; [reflexivity|]. split; [destruct H1 as [->| ->]; apply Hin; auto|].
        intros x Hx. apply Hin in Hx. destruct Hx as [Hx|Hx].
        -- apply (ord_trans N O _ M1); auto.
        -- apply (ord_trans N O _ M2); auto.
Qed.
End Max.

(** the strided ranges of the processes cover all vertices *)
Lemma stepped_In rank dim size i : 1 <= size -> rank < size -> (In i (stepped rank dim size) <-> i < dim /\ i mod size = rank).
Proof.
  intros Hs Hr. unfold stepped. rewrite filter_In, in_seq, Nat.eqb_eq. split.
  - intros [H1 H2]. split; [lia|]. apply Nat.mod_divides in H2; [|lia]. destruct H2 as (q & Hq).
    replace i with (rank + q * size) by lia. rewrite Nat.mod_add by lia. apply Nat.mod_small. assumption.
  - intros [H1 H2]. pose proof (Nat.div_mod i size ltac:(lia)) as Hd. rewrite H2 in Hd.
    split; [nia|]. replace (i - rank) with (i / size * size) by nia. apply Nat.mod_mul. lia.
Qed.

(** ** The weight of one 1-tree *)
Lemma add_edge_adj {N : Num} (cf : nat -> nat -> C N) (g : graph N) T n a b :
  length g = n -> a < n -> b < n -> a <> b ->
  (forall v, v < n -> nth v g [] = adjlist cf T v) ->
  exists g', add_undirected_edge g a b (cf a b) = Ok g' /\ length g' = n /\
    (forall v, v < n -> nth v g' [] = adjlist cf (T ++ [(a, b)]) v).
Proof.
  intros Hl Ha Hb Hab Hg. unfold add_undirected_edge.
  rewrite (modify_res_Ok g a _ []) by lia. cbn [bind].
  rewrite (modify_res_Ok _ b _ []) by (rewrite upd_length; lia).
  eexists. split; [reflexivity|]. split; [rewrite !upd_length; assumption|].
  intros v Hv. rewrite adjlist_app. rewrite <- (Hg v Hv). unfold adjlist at 1, incident. cbn [flat_map fst snd app map].
  destruct (Nat.eqb_spec b v) as [E1|E1], (Nat.eqb_spec a v) as [E2|E2]; try subst; try congruence.
  - rewrite nth_upd_eq by (rewrite upd_length; lia). rewrite nth_upd_neq by lia. reflexivity.
  - rewrite nth_upd_neq by lia. rewrite nth_upd_eq by lia. reflexivity.
  - rewrite !nth_upd_neq by lia. cbn. rewrite app_nil_r. reflexivity.
Qed.

Section Exact1.
Open Scope Z_scope.
Context {N : Num} {B : Z} (E : Exact N B) (O : NumOrd N).
Variable m : namatrix N.
Hypothesis Hwf : na_wf m.
Let n := na_dim m.
Variable w : nat -> nat -> Z.
Variable W : Z.
Hypothesis Hrep : represents E (na_adj m) w.
Hypothesis HW : bounded w n W.
Hypothesis HB : 2 * W * Z.of_nat n <= B.

(** the two cheapest edges at [s] among the vertices [P] *)
Definition two_min (s : nat) (P : list nat) (e1 e2 : edge N) : Prop :=
  match P with
  | [] => e1 = mkEdge s cinf /\ e2 = mkEdge s cinf
  | [a] => e1 = mkEdge a (inj E (w s a)) /\ e2 = mkEdge s cinf
  | _ => exists a b, e1 = mkEdge a (inj E (w s a)) /\ e2 = mkEdge b (inj E (w s b)) /\ a <> b /\
      In a P /\ In b P /\ w s a <= w s b /\ forall x, In x P -> x <> a -> w s b <= w s x
  end.

Let sm := w_small m w W HW HB.

Lemma best_two_step s P e1 e2 x : (s < n)%nat -> (x < n)%nat -> (forall y, In y P -> (y < n)%nat) -> ~ In x P ->
  x <> s -> two_min s P e1 e2 ->
  two_min s (P ++ [x]) (fst (best_two s (e1, e2) (x, inj E (w s x)))) (snd (best_two s (e1, e2) (x, inj E (w s x)))).
Proof.
  intros Hs Hx HP Hnin Hxs H. unfold best_two. apply Nat.eqb_neq in Hxs as Hxs'. rewrite Hxs'.
  assert (Hsm : forall y, (y < n)%nat -> Z.abs (w s y) <= B) by (intros; apply sm; assumption).
  destruct P as [|a [|b P]].
  - destruct H as [-> ->]. cbn [e_cost]. rewrite inj_lt_inf by auto. cbn. auto.
  - destruct H as [-> ->]. cbn [e_cost].
    assert (Ha : (a < n)%nat) by (apply HP; left; reflexivity).
    assert (a <> x) by (intros ->; apply Hnin; left; reflexivity).
    rewrite inj_lt by auto. destruct (Z.ltb_spec (w s x) (w s a)).
    + cbn [fst snd]. exists x, a. repeat split; [congruence|cbn; auto..|lia|].
      intros y [<-|[<-|[]]] Hy; [lia|congruence].
    + rewrite inj_lt_inf by auto. cbn [fst snd]. exists a, x. repeat split; [congruence|cbn; auto..|lia|].
      intros y [<-|[<-|[]]] Hy; [congruence|lia].
  - destruct H as (u & v & -> & -> & Huv & Hu & Hv & Hle & Hmin). cbn [e_cost].
    rewrite !inj_lt by auto.
    assert (Hux : u <> x) by (intros ->; apply Hnin; assumption).
    assert (Hvx : v <> x) by (intros ->; apply Hnin; assumption).
    assert (Hin : forall y, In y ((a :: b :: P) ++ [x]) <-> In y (a :: b :: P) \/ y = x).
    { intros y. rewrite in_app_iff. cbn [In]. intuition. }
    assert (G : forall p q, p <> q -> In p ((a :: b :: P) ++ [x]) -> In q ((a :: b :: P) ++ [x]) -> w s p <= w s q ->
      (forall y, In y ((a :: b :: P) ++ [x]) -> y <> p -> w s q <= w s y) ->
      two_min s ((a :: b :: P) ++ [x]) (mkEdge p (inj E (w s p))) (mkEdge q (inj E (w s q)))).
    { intros p q H1 H2 H3 H4 H5. exists p, q. auto 10. }
    destruct (Z.ltb_spec (w s x) (w s u)); [|destruct (Z.ltb_spec (w s x) (w s v))]; cbn [fst snd]; apply G;
      try (apply Hin; auto); try congruence; try lia; intros y Hy Hne; apply Hin in Hy; destruct Hy as [Hy|Hy].
    + destruct (Nat.eq_dec y u); [subst; lia|]. specialize (Hmin y Hy). lia.
    + congruence.
    + specialize (Hmin y Hy Hne). lia.
    + subst; lia.
    + auto.
    + subst; lia.
Qed.

Lemma best_two_spec s : (s < n)%nat -> (3 <= n)%nat ->
  exists a b, fold_left (best_two s) (combine (seq 0 n) (map (na_val m s) (seq 0 n))) (mkEdge s cinf, mkEdge s cinf)
    = (mkEdge a (inj E (w s a)), mkEdge b (inj E (w s b))) /\
    (a < n)%nat /\ (b < n)%nat /\ a <> s /\ b <> s /\ a <> b /\ w s a <= w s b /\
    forall x, (x < n)%nat -> x <> s -> x <> a -> w s b <= w s x.
Proof.
  intros Hs Hn.
  assert (G : forall k, (k <= n)%nat ->
    two_min s (filter (fun x => negb (x =? s)%nat) (seq 0 k))
      (fst (fold_left (best_two s) (map (fun j => (j, na_val m s j)) (seq 0 k)) (mkEdge s cinf, mkEdge s cinf)))
      (snd (fold_left (best_two s) (map (fun j => (j, na_val m s j)) (seq 0 k)) (mkEdge s cinf, mkEdge s cinf)))).
  { induction k as [|k IH]; intros Hk; [cbn; auto|].
    rewrite seq_S, map_app, fold_left_app, filter_app. cbn [plus map fold_left filter].
    destruct (fold_left _ (map _ (seq 0 k)) _) as [e1 e2]. cbn [fst snd] in IH. specialize (IH ltac:(lia)).
    destruct (Nat.eqb_spec k s) as [Ek|Ek].
    - subst k. unfold best_two. rewrite Nat.eqb_refl. cbn [negb fst snd]. rewrite app_nil_r. assumption.
    - cbn [negb]. rewrite (rep_val E m Hwf w Hrep s k) by (fold n; lia). apply best_two_step; try assumption; try lia.
      + intros y Hy. apply filter_In in Hy. destruct Hy as [Hy _]. apply in_seq in Hy. lia.
      + intros Hy. apply filter_In in Hy. destruct Hy as [Hy _]. apply in_seq in Hy. lia. }
  specialize (G n ltac:(lia)).
  assert (Ec : combine (seq 0 n) (map (na_val m s) (seq 0 n)) = map (fun j => (j, na_val m s j)) (seq 0 n)).
  { clear. generalize (seq 0 n). induction l as [|x l IH]; [reflexivity|]. cbn. rewrite IH. reflexivity. }
  rewrite Ec. destruct (fold_left _ _ _) as [e1 e2]. cbn [fst snd] in G.
  set (P := filter (fun x => negb (x =? s)%nat) (seq 0 n)) in *.
  assert (HP : forall x, In x P <-> (x < n)%nat /\ x <> s).
  { intros x. unfold P. rewrite filter_In, in_seq, negb_true_iff, Nat.eqb_neq. intuition lia. }
  assert (Hlen : (2 <= length P)%nat).
  { assert (exists u v, u <> v /\ In u P /\ In v P) as (u & v & Huv & Hu & Hv).
    { destruct (Nat.eq_dec s 0) as [E0|E0]; [exists 1%nat, 2%nat|].
      - rewrite !HP. lia.
      - destruct (Nat.eq_dec s 1) as [E1|E1]; [exists 0%nat, 2%nat|exists 0%nat, 1%nat]; rewrite !HP; lia. }
    apply (NoDup_incl_length (l := [u; v]) (l' := P)).
    - constructor; [intros [|[]]; congruence|]. constructor; [intros []|constructor].
    - intros x [<-|[<-|[]]]; assumption. }
  clearbody P. destruct P as [|p1 [|p2 P]]; [cbn in Hlen; lia..|].
  destruct G as (a & b & -> & -> & Hab & Ha & Hb & Hle & Hmin).
  apply HP in Ha, Hb. exists a, b. repeat split; try tauto; try lia.
  intros x Hx Hxs Hxa. apply Hmin; [apply HP|]; auto.
Qed.

Theorem one_tree_exact s : (s < n)%nat -> (3 <= n)%nat ->
  exists g F, one_tree m s = Ok g /\ one_tree_at n s F /\ length g = n /\
    (forall v, (v < n)%nat -> nth v g [] =
       map (fun x => mkEdge (fst x) (inj E (w (fst (snd x)) (snd (snd x))))) (incident F v)) /\
    undirected_edge_weight g = inj E (edges_cost w F) /\ Z.abs (edges_cost w F) <= W * Z.of_nat n /\
    (symmetric w n -> forall F', one_tree_at n s F' -> edges_cost w F <= edges_cost w F').
Proof.
  intros Hs Hn.
  destruct (prim_exact E O m Hwf w W Hrep HW HB [s]) as (g & T & Eg & Hl & Hsp & Hadj & _ & Hmin).
  { constructor; [exact Hs|constructor]. }
  { exists (if Nat.eqb s 0 then 1 else 0)%nat. fold n. destruct (Nat.eqb_spec s 0); cbn; lia. }
  fold n in Hl, Hsp, Hadj, Hmin.
  destruct (best_two_spec s Hs Hn) as (a & b & Eb & Ha & Hb & Has & Hbs & Hab & Hle & Hbm).
  unfold one_tree. rewrite Eg. cbn [bind]. rewrite (na_row_val m s Hwf Hs). cbn [bind]. fold n.
  rewrite map_length, seq_length, Eb. cbn [e_to e_cost].
  set (cf := fun x y => inj E (w x y)).
  destruct (add_edge_adj cf g T n s a) as (g1 & E1 & Hl1 & Hadj1); try assumption; [congruence|].
  rewrite (E1 : add_undirected_edge g s a (inj E (w s a)) = Ok g1). cbn [bind].
  destruct (add_edge_adj cf g1 (T ++ [(s, a)]) n s b) as (g2 & E2 & Hl2 & Hadj2); try assumption; [congruence|].
  rewrite <- app_assoc in Hadj2. cbn [app] in Hadj2.
  exists g2, (T ++ [(s, a); (s, b)]). split; [exact E2|].
  assert (HF : one_tree_at n s (T ++ [(s, a); (s, b)])).
  { exists T, a, b. auto 10. }
  assert (HFn : forall u v, In (u, v) (T ++ [(s, a); (s, b)]) -> (u < n)%nat /\ (v < n)%nat).
  { intros u v Hin. apply in_app_or in Hin. destruct Hin as [Hin|[Hin|[Hin|[]]]]; try (injection Hin as <- <-; auto).
    destruct Hsp as [Hs' _]. destruct (Hs' u v Hin) as [H1 H2]. apply free_In in H1, H2. fold n in H1, H2. tauto. }
  assert (HFW : forall u v, In (u, v) (T ++ [(s, a); (s, b)]) -> Z.abs (w u v) <= W).
  { intros u v Hin. destruct (HFn u v Hin). apply HW; assumption. }
  assert (HFl : length (T ++ [(s, a); (s, b)]) = n).
  { rewrite app_length. cbn [length]. destruct Hsp as (_ & _ & Hlen).
    assert (length (free_vertices n [s]) = n - 1)%nat; [|lia].
    assert (HPm : Permutation (s :: free_vertices n [s]) (seq 0 n)).
    { apply NoDup_Permutation; [|apply seq_NoDup|].
      - constructor; [|apply (free_NoDup m)]. intros H. apply (free_In m) in H. apply H. left; reflexivity.
      - intros x. rewrite in_seq. cbn [In]. pose proof (free_In m [s] x : In x (free_vertices n [s]) <-> (x < n)%nat /\ ~ In x [s]) as Hfx. rewrite Hfx. cbn [In].
        destruct (Nat.eq_dec s x); intuition lia. }
    apply Permutation_length in HPm. rewrite seq_length in HPm. cbn [length] in HPm. lia. }
  split; [assumption|]. split; [assumption|]. split; [exact Hadj2|].
  assert (Habs : Z.abs (edges_cost w (T ++ [(s, a); (s, b)])) <= W * Z.of_nat n).
  { rewrite <- HFl. etransitivity; [apply edges_cost_abs|]. apply edges_cost_abs_le. assumption. }
  split; [|split; [assumption|]].
  - unfold undirected_edge_weight.
    rewrite (directed_weight E g2 w (T ++ [(s, a); (s, b)]) n W); try assumption; [|rewrite HFl; assumption].
    apply inj_half. lia.
  - intros Hsym F' (T' & a' & b' & -> & Hsp' & Ha' & Hb' & Has' & Hbs' & Hab').
    rewrite !edges_cost_app. specialize (Hmin Hsym T' Hsp'). unfold edges_cost at 2 4. cbn [fold_right fst snd].
    assert (w s a <= w s a') by (destruct (Nat.eq_dec a' a); [subst; lia|]; specialize (Hbm a' Ha' Has'); lia).
    assert (w s a <= w s b') by (destruct (Nat.eq_dec b' a); [subst; lia|]; specialize (Hbm b' Hb' Hbs'); lia).
    destruct (Nat.eq_dec a' a) as [Ea|Ea].
    + assert (w s b <= w s b') by (apply Hbm; congruence). subst. lia.
    + assert (w s b <= w s a') by (apply Hbm; congruence). lia.
Qed.

(** every tour contains a 1-tree at [s] of at most its cost; exactly its cost in fact *)
Lemma tour_one_tree s p : (s < n)%nat -> (3 <= n)%nat -> symmetric w n -> is_tour n p ->
  exists F, one_tree_at n s F /\ edges_cost w F = tour_cost w p.
Proof.
  intros Hs Hn Hsym Hp.
  assert (Hin : In s p) by (apply (tour_In n p s Hp); assumption).
  destruct (in_split _ _ Hin) as (l1 & l2 & ->).
  rewrite tour_cost_rot. cbn [app].
  assert (Hp' : is_tour n (s :: l2 ++ l1)).
  { unfold is_tour in *. rewrite <- Hp. rewrite (Permutation_app_comm l1 (s :: l2)). reflexivity. }
  set (r := l2 ++ l1) in *.
  pose proof (tour_length _ _ Hp') as Hlen. cbn [length] in Hlen.
  pose proof (tour_NoDup _ _ Hp') as Hnd. inversion Hnd as [|? ? Hnin Hndr]; subst.
  assert (Hr : r <> []) by (intros ->; cbn in Hlen; lia).
  assert (Hrn : forall x, In x r -> (x < n)%nat /\ x <> s).
  { intros x Hx. split; [apply (tour_In n _ x Hp'); right; assumption|intros ->; contradiction]. }
  assert (HP : Permutation r (free_vertices n [s])).
  { apply NoDup_Permutation; [assumption|apply (free_NoDup m)|].
    intros x. pose proof (free_In m [s] x : In x (free_vertices n [s]) <-> (x < n)%nat /\ ~ In x [s]) as Hfx. rewrite Hfx. cbn [In]. split.
    - intros Hx. destruct (Hrn x Hx). intuition.
    - intros [H1 H2]. apply (tour_In n _ x Hp') in H1. destruct H1; [tauto|assumption]. }
  destruct r as [|a r]; [congruence|].
  exists (path_edges (a :: r) ++ [(s, a); (s, last (a :: r) a)]).
  assert (Hlast : In (last (a :: r) a) (a :: r)) by (apply last_In; discriminate).
  split.
  - exists (path_edges (a :: r)), a, (last (a :: r) a). split; [reflexivity|].
    split; [apply path_spanning; [discriminate|assumption]|].
    destruct (Hrn a) as [Ha1 Ha2]; [left; reflexivity|]. destruct (Hrn _ Hlast) as [Hl1 Hl2].
    repeat split; try assumption.
    destruct r as [|b r]; [cbn in Hlen; lia|]. intros E1.
    change (last (a :: b :: r) a) with (last (b :: r) a) in E1.
    inversion Hndr as [|? ? Hna _]; subst. apply Hna. rewrite E1. apply last_In. discriminate.
  - rewrite edges_cost_app, (path_edges_cost m). unfold edges_cost. cbn [fold_right fst snd].
    rewrite tour_cost_closed. change ((s :: a :: r) ++ [s]) with (s :: ((a :: r) ++ [s])).
    change (path_cost w (s :: (a :: r) ++ [s])) with (w s a + path_cost w ((a :: r) ++ [s])).
    rewrite (path_cost_snoc w (a :: r) s a) by discriminate.
    rewrite (Hsym s (last (a :: r) a)) by (try assumption; apply Hrn; assumption). lia.
Qed.

Lemma weights_exact : (3 <= n)%nat -> forall l, (forall s, In s l -> (s < n)%nat) ->
  exists Fs, mapM (one_tree_weight m) l = Ok (map (fun F => inj E (edges_cost w F)) Fs) /\
   Forall2 (fun s F => one_tree_at n s F /\ Z.abs (edges_cost w F) <= W * Z.of_nat n /\
     (symmetric w n -> forall F', one_tree_at n s F' -> edges_cost w F <= edges_cost w F')) l Fs.
Proof.
  intros Hn. induction l as [|s l IH]; intros Hl.
  - exists []. split; [reflexivity|constructor].
  - destruct (one_tree_exact s) as (g & F & Eg & HF & _ & _ & Ew & Habs & Hmin); [apply Hl; left; reflexivity|assumption|].
    destruct IH as (Fs & Em & H2); [intros x Hx; apply Hl; right; assumption|].
    exists (F :: Fs). split; [|constructor; auto].
    cbn [mapM]. unfold one_tree_weight at 1. rewrite Eg. cbn [bind]. rewrite Em. cbn [bind map]. rewrite Ew. reflexivity.
Qed.

Lemma inj_not_nan a : Z.abs a <= B -> cnan (inj E a) = false.
Proof.
  intros Ha. destruct (cnan (inj E a)) eqn:En; [|reflexivity]. exfalso.
  pose proof (inj_lt_inf _ _ E a Ha) as H. pose proof (clt_nnan_l O _ _ H). congruence.
Qed.

Theorem one_tree_seq_exact : (3 <= n)%nat ->
  exists s F, (s < n)%nat /\ one_tree_at n s F /\
    one_tree_lower_bound_seq m = Ok (inj E (edges_cost w F)) /\
    Z.abs (edges_cost w F) <= W * Z.of_nat n /\
    (symmetric w n -> forall F', one_tree_at n s F' -> edges_cost w F <= edges_cost w F') /\
    forall s', (s' < n)%nat -> exists F', one_tree_at n s' F' /\ edges_cost w F' <= edges_cost w F /\
      (symmetric w n -> forall F'', one_tree_at n s' F'' -> edges_cost w F' <= edges_cost w F'').
Proof.
  intros Hn. destruct (weights_exact Hn (seq 0 n)) as (Fs & Em & H2).
  { intros s Hs. apply in_seq in Hs. lia. }
  assert (F1 : forall F, In F Fs -> exists s, (s < n)%nat /\ one_tree_at n s F /\ Z.abs (edges_cost w F) <= W * Z.of_nat n /\
     (symmetric w n -> forall F', one_tree_at n s F' -> edges_cost w F <= edges_cost w F')).
  { clear -H2. assert (G : forall s, In s (seq 0 n) -> (s < n)%nat) by (intros s Hs; apply in_seq in Hs; lia).
    induction H2 as [|s F l Fs H H2 IH]; [intros F []|]. intros F' [<-|HF]; [exists s; split; [apply G; left; reflexivity|assumption]|].
    apply IH; [|assumption]. intros; apply G; right; assumption. }
  assert (H0 : 0 <= W) by (pose proof (HW 0%nat 0%nat ltac:(lia) ltac:(lia)); lia).
  assert (Hsmall : forall F, In F Fs -> Z.abs (edges_cost w F) <= B).
  { intros F HF. destruct (F1 F HF) as (_ & _ & _ & Hb & _). lia. }
  assert (Hlen : length Fs = n).
  { assert (G : forall (l1 : list nat) l2 (R : nat -> list (nat * nat) -> Prop), Forall2 R l1 l2 -> length l1 = length l2)
      by (induction 1; cbn; congruence).
    rewrite <- (G _ _ _ H2), seq_length. reflexivity. }
  destruct (seq_max O (map (fun F => inj E (edges_cost w F)) Fs)) as (M & EM & HM & Hmax).
  { destruct Fs; [cbn in Hlen; lia|discriminate]. }
  { intros x Hx. apply in_map_iff in Hx. destruct Hx as (F & <- & HF). apply inj_not_nan. auto. }
  assert (F2 : forall s, In s (seq 0 n) -> exists F, In F Fs /\ one_tree_at n s F /\
     (symmetric w n -> forall F', one_tree_at n s F' -> edges_cost w F <= edges_cost w F')).
  { clear -H2. induction H2 as [|s F l Fs H H2 IH]; [intros s []|]. intros s' [<-|Hs]; [exists F; split; [left; reflexivity|tauto]|].
    destruct (IH _ Hs) as (F' & HF' & HF''). exists F'. split; [right; assumption|assumption]. }
  apply in_map_iff in HM. destruct HM as (F & <- & HF). destruct (F1 F HF) as (s & Hs & H1 & Hab & Hm).
  exists s, F. split; [assumption|]. split; [assumption|]. split; [|split; [assumption|split; [assumption|]]].
  - unfold one_tree_lower_bound_seq. fold n. rewrite Em. cbn [bind]. exact EM.
  - intros s' Hs'. destruct (F2 s') as (F' & HF' & H1' & Hm'); [apply in_seq; lia|].
    exists F'. split; [assumption|]. split; [|assumption].
    specialize (Hmax (inj E (edges_cost w F')) (in_map _ _ _ HF')). rewrite inj_le in Hmax by auto.
    apply Z.leb_le. assumption.
Qed.
End Exact1.

(** ** The MPI version *)
Section MpiBound.
Context {N : Num} (O : NumOrd N).
Variable m : namatrix N.
Let n := na_dim m.
Hypothesis Hw : forall s, s < n -> exists x, one_tree_weight m s = Ok x /\ cnan x = false.

Lemma weight_fun : exists wt : nat -> C N, forall s, s < n -> one_tree_weight m s = Ok (wt s) /\ cnan (wt s) = false.
Proof.
  exists (fun s => match one_tree_weight m s with Ok x => x | _ => c0 end).
  intros s Hs. destruct (Hw s Hs) as (x & E & Hx). rewrite E. auto.
Qed.

Theorem seq_bound_max : 1 <= n -> exists M, one_tree_lower_bound_seq m = Ok M /\
  (exists s, s < n /\ one_tree_weight m s = Ok M) /\
  forall s x, s < n -> one_tree_weight m s = Ok x -> cle x M = true.
Proof.
  intros Hn. destruct weight_fun as (wt & Hwt). unfold one_tree_lower_bound_seq. fold n.
  rewrite (mapM_Ok _ wt) by (intros s Hs; apply in_seq in Hs; apply Hwt; lia). cbn [bind].
  destruct (seq_max O (map wt (seq 0 n))) as (M & EM & HM & Hx).
  { destruct n; [lia|discriminate]. }
  { intros x Hx. apply in_map_iff in Hx. destruct Hx as (s & <- & Hs). apply in_seq in Hs. apply Hwt. lia. }
  exists M. split; [exact EM|]. split.
  - apply in_map_iff in HM. destruct HM as (s & <- & Hs). apply in_seq in Hs. exists s. split; [lia|]. apply Hwt. lia.
  - intros s x Hs Es. destruct (Hwt s Hs) as [Es' _]. assert (x = wt s) by congruence. subst x.
    apply Hx. apply in_map. apply in_seq. lia.
Qed.

Lemma local_max size rank : 1 <= size <= n -> rank < size -> exists M, local_lower_bound m size rank = Ok M /\ cnan M = false /\
  (exists s, s < n /\ one_tree_weight m s = Ok M) /\
  forall s x, s < n -> s mod size = rank -> one_tree_weight m s = Ok x -> cle x M = true.
Proof.
  intros Hsz Hr. destruct weight_fun as (wt & Hwt). unfold local_lower_bound. fold n.
  assert (Hin : forall s, In s (stepped rank n size) <-> s < n /\ s mod size = rank) by (intros; apply stepped_In; lia).
  rewrite (mapM_Ok _ wt) by (intros s Hs; apply Hin in Hs; apply Hwt; lia). cbn [bind].
  destruct (seq_max O (map wt (stepped rank n size))) as (M & EM & HM & Hx).
  { intros H. assert (H0 : In rank (stepped rank n size)) by (apply Hin; split; [lia|apply Nat.mod_small; assumption]).
    apply map_eq_nil in H. rewrite H in H0. destruct H0. }
  { intros x Hx. apply in_map_iff in Hx. destruct Hx as (s & <- & Hs). apply Hin in Hs. apply Hwt. lia. }
  exists M. apply in_map_iff in HM. destruct HM as (s & <- & Hs). apply Hin in Hs.
  split; [exact EM|]. split; [apply Hwt; lia|]. split; [exists s; split; [lia|]; apply Hwt; lia|].
  intros s' x Hs' Hm Es. destruct (Hwt s' Hs') as [Es' _]. assert (x = wt s') by congruence. subst x.
  apply Hx. apply in_map. apply Hin. auto.
Qed.

Theorem mpi_bound_max order t size : 1 <= size <= n -> Permutation order (seq 0 size) ->
  exists M, one_tree_lower_bound_mpi order t m size = Ok (M :: repeat cinf (size - 1)) /\
  (exists s, s < n /\ one_tree_weight m s = Ok M) /\
  forall s x, s < n -> one_tree_weight m s = Ok x -> cle x M = true.
Proof.
  intros Hsz HP. unfold one_tree_lower_bound_mpi.
  assert (Hord : forall r, In r order <-> r < size).
  { intros r. split; intros H.
    - apply (Permutation_in _ HP), in_seq in H. lia.
    - apply (Permutation_in _ (Permutation_sym HP)), in_seq. lia. }
  set (lf := fun r => match local_lower_bound m size r with Ok x => x | _ => c0 end).
  assert (Hlf : forall r, r < size -> local_lower_bound m size r = Ok (lf r) /\ cnan (lf r) = false /\
    (exists s, s < n /\ one_tree_weight m s = Ok (lf r)) /\
    forall s x, s < n -> s mod size = r -> one_tree_weight m s = Ok x -> cle x (lf r) = true).
  { intros r Hr. unfold lf. destruct (local_max size r Hsz Hr) as (M & E & H). rewrite E. auto. }
  rewrite (mapM_Ok _ lf) by (intros r Hr; apply Hord in Hr; apply Hlf; assumption). cbn [bind].
  destruct (opt_max_mpi O t (map lf order)) as (M & EM & HM & Hx).
  { intros x Hx. apply in_map_iff in Hx. destruct Hx as (r & <- & Hr). apply Hord in Hr. apply Hlf. assumption. }
  { intros H. apply map_eq_nil in H. subst order. apply (Hord 0). lia. }
  rewrite EM. exists M. split; [reflexivity|]. split.
  - apply in_map_iff in HM. destruct HM as (r & <- & Hr). apply Hord in Hr. apply (Hlf r Hr).
  - intros s x Hs Es. pose proof (Nat.mod_upper_bound s size ltac:(lia)) as Hr.
    destruct (Hlf _ Hr) as (_ & _ & _ & Hle). apply (ord_trans N O _ (lf (s mod size))).
    + apply (Hle s x); auto.
    + apply Hx. apply in_map. apply Hord. assumption.
Qed.

(** a process without a vertex panics *)
Lemma mpi_bound_too_many order t size : n < size -> Permutation order (seq 0 size) ->
  one_tree_lower_bound_mpi order t m size = Panic.
Proof.
  intros Hsz HP. unfold one_tree_lower_bound_mpi.
  assert (Hin : In n order) by (apply (Permutation_in _ (Permutation_sym HP)), in_seq; lia).
  assert (HL : forall r, r < size -> (exists x, local_lower_bound m size r = Ok x) \/ local_lower_bound m size r = Panic).
  { intros r Hr. destruct weight_fun as (wt & Hwt). unfold local_lower_bound. fold n.
    rewrite (mapM_Ok _ wt).
    - cbn [bind]. unfold expect_max. destruct (seq_reduce _ _) as [[x|]|]; eauto.
    - intros s Hs. unfold stepped in Hs. apply filter_In in Hs. destruct Hs as [Hs _]. apply in_seq in Hs. apply Hwt. lia. }
  assert (Hn : local_lower_bound m size n = Panic).
  { unfold local_lower_bound, stepped. fold n. rewrite Nat.sub_diag. reflexivity. }
  assert (Hlt : forall r, In r order -> r < size) by (intros r Hr; apply (Permutation_in _ HP), in_seq in Hr; lia).
  assert (E : mapM (local_lower_bound m size) order = Panic); [|rewrite E; reflexivity].
  clear HP. induction order as [|r l IH]; [destruct Hin|]. cbn [mapM].
  destruct (HL r) as [(x & Ex)|Ex]; [apply Hlt; left; reflexivity| |rewrite Ex; reflexivity].
  rewrite Ex. cbn [bind]. destruct Hin as [->|Hin]; [congruence|]. rewrite IH; [reflexivity|assumption|].
  intros; apply Hlt; right; assumption.
Qed.
End MpiBound.
