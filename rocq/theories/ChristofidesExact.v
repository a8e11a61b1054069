(** The cost of the tour of Christofides' algorithm on represented integer costs. *)
From Coq Require Import ZArith Arith Bool List Permutation Lia.
From Verif Require Import Num Base Spec SpecFacts Data Mst Par Mem Rand MstPar Matching Christofides Greedy PrimProofs Dfs
  PermProofs MstParProofs MstFacts MatchingProofs EulerProofs FillProofs ChristofidesProofs.
Import ListNotations.
Local Open Scope Z_scope.

(** ** Sums over all pairs of vertices *)
Definition dsum (n : nat) (w : nat -> nat -> Z) (G : nat -> nat -> nat) : Z :=
  zsum (map (fun i => zsum (map (fun j => Z.of_nat (G i j) * w i j) (seq 0 n))) (seq 0 n)).

Lemma zsum_ext {A} (f g : A -> Z) l : (forall x, In x l -> f x = g x) -> zsum (map f l) = zsum (map g l).
Proof. induction l; intros H; [reflexivity|]. cbn. rewrite H by (left; reflexivity). unfold zsum in *. rewrite IHl; [reflexivity|]. intros; apply H; right; assumption. Qed.
Lemma zsum_0 {A} (l : list A) : zsum (map (fun _ => 0) l) = 0.
Proof. induction l; [reflexivity|]. cbn. unfold zsum in *. lia. Qed.

Lemma dsum_ext n w F G : (forall i j, (i < n)%nat -> (j < n)%nat -> F i j = G i j) -> dsum n w F = dsum n w G.
Proof.
  intros H. unfold dsum. apply zsum_ext. intros i Hi. apply zsum_ext. intros j Hj. apply in_seq in Hi, Hj. rewrite H by lia. reflexivity.
Qed.
Lemma dsum_add n w F G : dsum n w (fun i j => (F i j + G i j)%nat) = dsum n w F + dsum n w G.
Proof.
  unfold dsum. rewrite <- zsum_map_add. apply zsum_ext. intros i _. rewrite <- zsum_map_add. apply zsum_ext. intros j _. lia.
Qed.
Lemma dsum_one n w a b : (a < n)%nat -> (b < n)%nat -> dsum n w (fun i j => if ((a =? i) && (b =? j))%nat then 1%nat else 0%nat) = w a b.
Proof.
  intros Ha Hb. unfold dsum. rewrite <- (zsum_indicator n a (w a b) Ha) at 1. apply zsum_ext. intros i _.
  destruct (Nat.eqb_spec a i) as [->|_]; cbn [andb].
  - rewrite <- (zsum_indicator n b (w i b) Hb) at 1. apply zsum_ext. intros j _. destruct (Nat.eqb_spec b j) as [->|_]; lia.
  - rewrite <- (zsum_0 (seq 0 n)). apply zsum_ext. intros; lia.
Qed.

Lemma dsum_copies n w E : symmetric w n -> (forall a b, In (a, b) E -> (a < n)%nat /\ (b < n)%nat) -> dsum n w (copies E) = 2 * edges_cost w E.
Proof.
  intros Hs. induction E as [|[a b] E IH]; intros H.
  - unfold dsum, copies. cbn [map list_sum fold_right edges_cost]. change (2 * 0) with 0. transitivity (zsum (map (fun _ : nat => 0) (seq 0 n))); [|apply zsum_0]. apply zsum_ext. intros i _.
    transitivity (zsum (map (fun _ : nat => 0) (seq 0 n))); [|apply zsum_0]. apply zsum_ext. intros; lia.
  - destruct (H a b (or_introl eq_refl)) as [Ha Hb].
    rewrite (dsum_ext n w _ (fun i j => (((if ((a =? i) && (b =? j))%nat then 1 else 0) + (if ((b =? i) && (a =? j))%nat then 1 else 0)) + copies E i j)%nat)).
    + rewrite !dsum_add, !dsum_one, IH by (auto; intros; apply H; right; assumption). cbn [edges_cost fold_right fst snd]. rewrite (Hs b a) by assumption. fold (edges_cost w E). lia.
    + intros i j _ _. unfold copies. cbn [map list_sum fold_right fst snd]. rewrite (andb_comm (a =? j)%nat). reflexivity.
Qed.

Lemma traversals_edges p i j : traversals p i j = copies (path_edges p) i j.
Proof. induction p as [|a [|b p] IH]; [reflexivity..|]. rewrite traversals_cons, IH. reflexivity. Qed.

Lemma path_edges_cost' w p : edges_cost w (path_edges p) = path_cost w p.
Proof. induction p as [|a [|b p] IH]; [reflexivity..|]. simpl in *. lia. Qed.

Lemma path_of_edges n w p E : symmetric w n -> (forall v, In v p -> (v < n)%nat) -> (forall a b, In (a, b) E -> (a < n)%nat /\ (b < n)%nat) ->
  (forall i j, (i < n)%nat -> (j < n)%nat -> traversals p i j = copies E i j) -> path_cost w p = edges_cost w E.
Proof.
  intros Hs Hp HE H. rewrite <- path_edges_cost'.
  assert (2 * edges_cost w (path_edges p) = 2 * edges_cost w E); [|lia].
  rewrite <- !(dsum_copies n w) by (assumption || (intros a b Hin; apply path_edges_In in Hin; destruct Hin; auto)).
  apply dsum_ext. intros i j Hi Hj. rewrite <- traversals_edges. auto.
Qed.

(** ** Shortcuts *)
Lemma metric_nonneg w n : symmetric w n -> triangle w n -> nonneg w n.
Proof.
  intros Hs Ht i j Hi Hj. pose proof (Ht i i j Hi Hi Hj) as H1. pose proof (Ht i i i Hi Hi Hi) as H2. rewrite (Hs j i Hj Hi) in H1. lia.
Qed.

Lemma subseq_In {A} (l l' : list A) x : subseq l l' -> In x l -> In x l'.
Proof. induction 1; intros Hx; [destruct Hx|right; auto|]. destruct Hx as [->|Hx]; [left; reflexivity|right; auto]. Qed.
Lemma filter_subseq {A} f (l : list A) : subseq (filter f l) l.
Proof. induction l as [|x l IH]; [constructor|]. cbn. destruct (f x); constructor; assumption. Qed.

Lemma shortcut w n l l' z : triangle w n -> subseq l l' -> forall a, (a < n)%nat -> (z < n)%nat -> (forall v, In v l' -> (v < n)%nat) ->
  path_cost w (a :: l ++ [z]) <= path_cost w (a :: l' ++ [z]).
Proof.
  intros Ht Hsub. induction Hsub as [|x l l' Hsub IH|x l l' Hsub IH]; intros a Ha Hz Hin; [lia| |].
  - specialize (IH x (Hin x (or_introl eq_refl)) Hz (fun v Hv => Hin v (or_intror Hv))).
    change (path_cost w (a :: (x :: l') ++ [z])) with (w a x + path_cost w (x :: l' ++ [z])).
    destruct l as [|y l].
    + cbn [app path_cost] in *. pose proof (Ht a z x Ha Hz (Hin x (or_introl eq_refl))). lia.
    + change (path_cost w (a :: (y :: l) ++ [z])) with (w a y + path_cost w (y :: l ++ [z])).
      change (path_cost w (x :: (y :: l) ++ [z])) with (w x y + path_cost w (y :: l ++ [z])) in IH.
      assert (Hy : (y < n)%nat) by (apply Hin; right; apply (subseq_In _ _ y Hsub); left; reflexivity).
      pose proof (Ht a y x Ha Hy (Hin x (or_introl eq_refl))). lia.
  - specialize (IH x (Hin x (or_introl eq_refl)) Hz (fun v Hv => Hin v (or_intror Hv))).
    cbn [app path_cost] in *. lia.
Qed.

Lemma tour_filter w n f q : triangle w n -> nonneg w n -> (forall v, In v q -> (v < n)%nat) -> tour_cost w (filter f q) <= tour_cost w q.
Proof.
  intros Ht Hnn Hin. destruct (filter f q) as [|a t] eqn:Ef.
  - cbn [tour_cost]. destruct q as [|b q]; [cbn; lia|]. rewrite tour_cost_closed. apply (path_cost_nonneg w n); [assumption|].
    apply Forall_forall. intros v Hv. apply Hin. apply in_app_or in Hv. destruct Hv as [|[->|[]]]; [assumption|left; reflexivity].
  - assert (Ha : In a q /\ f a = true) by (apply filter_In; rewrite Ef; left; reflexivity). destruct Ha as [Ha Hfa].
    destruct (in_split a q Ha) as (q1 & q2 & ->). rewrite <- Ef. clear Ef Ha.
    rewrite filter_app, (tour_cost_rot w (filter f q1)), (tour_cost_rot w q1). cbn [filter]. rewrite Hfa. cbn [app].
    rewrite <- filter_app, !tour_cost_closed. cbn [app]. apply (shortcut w n); [assumption|apply filter_subseq|..].
    + apply Hin. apply in_elt.
    + apply Hin. apply in_elt.
    + intros v Hv. apply Hin. apply in_app_or in Hv. apply in_or_app. cbn. tauto.
Qed.

(** ** Alternate edges of an even cycle *)
Lemma alternate w l z : Nat.Even (length l) ->
  edges_cost w (chunks2 l) + edges_cost w (chunks2 (tl l ++ [z])) = path_cost w (l ++ [z]).
Proof.
  induction l as [|x|x y l IH] using pair_ind; intros [k Hk]; [reflexivity|cbn in Hk; lia|].
  assert (He : Nat.Even (length l)) by (exists (k - 1)%nat; cbn in Hk; lia). specialize (IH He). clear Hk.
  cbn [tl]. change (chunks2 (x :: y :: l)) with ((x, y) :: chunks2 l).
  change (path_cost w ((x :: y :: l) ++ [z])) with (w x y + path_cost w (y :: l ++ [z])).
  destruct l as [|u l].
  - cbn in *. lia.
  - change (path_cost w (y :: (u :: l) ++ [z])) with (w y u + path_cost w ((u :: l) ++ [z])).
    change (chunks2 ((y :: u :: l) ++ [z])) with ((y, u) :: chunks2 (l ++ [z])). cbn [tl] in IH.
    unfold edges_cost in *. cbn [fold_right fst snd]. lia.
Qed.

Lemma matching_half w n V M q : triangle w n -> nonneg w n -> is_tour n q -> NoDup V -> (forall v, In v V -> (v < n)%nat) -> Nat.Even (length V) ->
  (forall M', perfect_matching V M' -> edges_cost w M <= edges_cost w M') -> 2 * edges_cost w M <= tour_cost w q.
Proof.
  intros Ht Hnn Hq Hnd HV He Hmin. set (l := filter (fun v => existsb (Nat.eqb v) V) q).
  assert (HP : Permutation l V).
  { apply NoDup_Permutation; [apply NoDup_filter, (tour_NoDup n); assumption|assumption|].
    intros v. unfold l. rewrite filter_In, existsb_exists, (tour_In n q v Hq). split.
    - intros (_ & x & Hx & E). apply Nat.eqb_eq in E. congruence.
    - intros Hv. split; [auto|]. exists v. split; [assumption|apply Nat.eqb_refl]. }
  apply Z.le_trans with (tour_cost w l); [|apply (tour_filter w n); [assumption..|]; intros v; apply (tour_In n q v Hq)].
  assert (Hel : Nat.Even (length l)) by (rewrite (Permutation_length HP); assumption).
  pose proof (Hmin (chunks2 l)) as H1. unfold perfect_matching in H1. rewrite endpoints_chunks in H1 by assumption. specialize (H1 HP).
  clearbody l. destruct l as [|a t].
  - change (edges_cost w (chunks2 [])) with 0 in H1. change (tour_cost w []) with 0. lia.
  - rewrite tour_cost_closed, <- alternate by assumption. cbn [tl].
    pose proof (Hmin (chunks2 (t ++ [a]))) as H2. unfold perfect_matching in H2. rewrite endpoints_chunks in H2.
    + specialize (H2 (Permutation_trans (Permutation_sym (Permutation_cons_append t a)) HP)). lia.
    + rewrite app_length. cbn [length] in *. rewrite Nat.add_1_r. assumption.
Qed.

Lemma odd_vertices_filter {N : Num} (mst : graph N) :
  odd_vertices mst = filter (fun v => Nat.odd (length (nth v mst []))) (seq 0 (length mst)).
Proof.
  unfold odd_vertices. rewrite (combine_seq_map mst []). induction (seq 0 (length mst)) as [|x l IH]; [reflexivity|].
  cbn [map filter]. rewrite Nat.sub_0_r.
  replace (length (nth x mst []) mod 2 =? 1)%nat with (Nat.odd (length (nth x mst []))).
  - destruct (Nat.odd _); cbn [map fst]; rewrite IH; reflexivity.
  - set (k := length (nth x mst [])). rewrite (Nat.div_mod k 2) at 1 by discriminate. rewrite Nat.add_comm, Nat.odd_add_mul_2.
    pose proof (Nat.mod_upper_bound k 2 ltac:(discriminate)). destruct (k mod 2)%nat as [|[|]]; [reflexivity..|lia].
Qed.

Lemma perfect_distinct V M : perfect_matching V M -> NoDup V -> distinct_pairs M.
Proof.
  intros HP Hnd. apply (Permutation_NoDup (Permutation_sym HP)) in Hnd. clear HP V.
  induction M as [|e M IH]; intros a b Ha Hb Hab i j Hj; [cbn in Ha; lia|].
  change (endpoints (e :: M)) with (fst e :: snd e :: endpoints M) in Hnd.
  inversion Hnd as [|? ? N1 Hnd']; subst. inversion Hnd' as [|? ? N2 Hnd2]; subst.
  assert (Hno : forall k, (k < length M)%nat -> joins (nth k M (0%nat, 0%nat)) i j = true -> joins e i j = true -> False).
  { intros k Hk H1 H2. apply joins_spec in H1. apply joins_spec in H2.
    assert (Hin : In (nth k M (0%nat, 0%nat)) M) by (apply nth_In; assumption).
    assert (Hi : In i (endpoints M)).
    { apply in_flat_map. eexists. split; [exact Hin|]. destruct H1 as [->| ->]; cbn; auto. }
    destruct H2 as [->| ->]; cbn [fst snd] in *; [apply N1; right; assumption|apply N2; assumption]. }
  destruct a as [|a], b as [|b]; [lia| | |]; cbn [nth length] in *.
  - destruct (joins (nth b M (0%nat, 0%nat)) i j) eqn:E; [|reflexivity]. exfalso. apply (Hno b); auto; lia.
  - destruct (joins e i j) eqn:E; [|reflexivity]. exfalso. apply (Hno a); auto; lia.
  - apply (IH Hnd2 a b ltac:(lia) ltac:(lia) ltac:(lia) i j Hj).
Qed.

(** ** The tour *)
Section Tour.
Context {N : Num} {B : Z} (E : Exact N B) (O : NumOrd N).
Variable m : namatrix N.
Hypothesis Hwf : na_wf m.
Let n := na_dim m.
Hypothesis Hn : (1 <= n)%nat.
Variable w : nat -> nat -> Z.
Variable W : Z.
Hypothesis Hrep : represents E (na_adj m) w.
Hypothesis HW : bounded w n W.
Hypothesis HB : 2 * W * (Z.of_nat n + 1) <= B.

Lemma W_nonneg : 0 <= W.
Proof. pose proof (HW 0%nat 0%nat Hn Hn). lia. Qed.

Lemma finite_cells a b : (a < n)%nat -> (b < n)%nat -> a <> b -> clt (na_val m a b) cinf = true.
Proof.
  intros Ha Hb Hab. rewrite (rep_val E m Hwf w Hrep) by assumption. apply inj_lt_inf. pose proof (HW a b Ha Hb). pose proof W_nonneg. nia.
Qed.

(** Prim's tree, least among all spanning trees *)
Lemma prim_least env mode : (mode <= 2)%nat -> exists mst T, prim env mode m = Ok mst /\ length mst = n /\ spanning_tree (seq 0 n) T /\
  (forall v, (v < n)%nat -> nth v mst [] = map (fun x => mkEdge (fst x) (na_val m (fst (snd x)) (snd (snd x)))) (incident T v)) /\
  (symmetric w n -> forall T', spanning_tree (seq 0 n) T' -> edges_cost w T <= edges_cost w T').
Proof.
  intros Hmode. pose proof W_nonneg as W0.
  assert (Hfree : free_vertices n [] = seq 0 n).
  { unfold free_vertices. cbn [existsb negb]. clear. induction (seq 0 n) as [|x l IH]; [reflexivity|]. cbn. rewrite IH. reflexivity. }
  destruct (prim_exact E O m Hwf w W Hrep HW) with (X := @nil nat) as (g & T & Eg & Hl & Hsp & Hadj & _ & Hmin).
  - fold n. nia.
  - constructor.
  - exists 0%nat. split; [exact Hn|intros []].
  - fold n in Hl, Hsp, Hadj, Hmin. rewrite Hfree in Hsp, Hmin. exists g, T. split.
    { unfold prim. rewrite (mt_prim O m Hwf), Eg. unfold SEQ_COMPUTATION, PAR_COMPUTATION, MPI_COMPUTATION.
      destruct mode as [|[|[|]]]; [..|lia]; reflexivity. }
    split; [assumption|]. split; [assumption|]. split; [|assumption].
    intros v Hv. rewrite Hadj by assumption. apply map_ext_in. intros [u [a b]] Hin. cbn [fst snd].
    rewrite (rep_val E m Hwf w Hrep); [reflexivity|..].
    + apply incident_In in Hin. destruct Hin as (Hin & _). destruct Hsp as [Hs _]. destruct (Hs a b Hin) as [Ha _]. apply in_seq in Ha. fold n. lia.
    + apply incident_In in Hin. destruct Hin as (Hin & _). destruct Hsp as [Hs _]. destruct (Hs a b Hin) as [_ Ha]. apply in_seq in Ha. fold n. lia.
    + apply incident_In in Hin. destruct Hin as (Hin & _). destruct (in_split _ _ Hin) as (A & D & HAD).
      intros Heq. apply (spanning_tree_simple (seq 0 n) T A (a, b) D (seq_NoDup n 0) Hsp HAD). cbn [fst snd]. rewrite Heq. apply joined_refl.
Qed.

Lemma closed_exact p c : is_tour n (0%nat :: p) -> evaluate_path (na_adj m) ((0%nat :: p) ++ [0%nat]) = Ok c -> c = inj E (tour_cost w (0%nat :: p)).
Proof.
  intros Ht Ec. pose proof W_nonneg as W0. pose proof (tour_length _ _ Ht) as Hl.
  rewrite tour_cost_closed. rewrite (evaluate_path_exact E (na_adj m) w W) in Ec; [injection Ec as <-; reflexivity|..|assumption|].
  - destruct (tour_steps E (na_adj m) w W n (0%nat :: p) eq_refl Hrep HW Ht) as [T1 T2].
    intros k Hk. rewrite app_length in Hk. cbn [length] in Hk.
    destruct (Nat.eq_dec k (length p)) as [->|Hne].
    + assert (E1 : nth (length p) ((0%nat :: p) ++ [0%nat]) 0%nat = last (0%nat :: p) 0%nat).
      { rewrite app_nth1 by (cbn; lia). rewrite <- nth_last by discriminate. f_equal. cbn. lia. }
      assert (E2 : nth (S (length p)) ((0%nat :: p) ++ [0%nat]) 0%nat = 0%nat).
      { rewrite app_nth2 by (cbn; lia). replace (S (length p) - length (0%nat :: p))%nat with 0%nat by (cbn; lia). reflexivity. }
      rewrite E1, E2.
      destruct (Nat.eq_dec n 1) as [H1|H1].
      * assert (p = []) by (destruct p; [reflexivity|cbn in Hl; lia]). subst p. cbn [last]. split; [|apply HW; exact Hn].
        apply Hrep; [exact Hn..|]. intros _. exact H1.
      * apply T2. lia.
    + rewrite !(app_nth1 (0%nat :: p)) by (cbn; lia). apply T1. cbn. lia.
  - rewrite app_length, Hl. cbn [length]. nia.
Qed.

Theorem christofides_cost debug env fenv mode comp mst T M : (mode <= 2)%nat ->
  symmetric w n -> triangle w n ->
  (debug = true -> is_metric (na_adj m) = Ok true) ->
  prim env mode m = Ok mst -> length mst = n -> spanning_tree (seq 0 n) T ->
  (forall v, (v < n)%nat -> nth v mst [] = map (fun x => mkEdge (fst x) (na_val m (fst (snd x)) (snd (snd x)))) (incident T v)) ->
  comp mst m = Ok M -> perfect_matching (odd_vertices mst) M ->
  exists p, christofides_generic debug env fenv mode m comp = Ok (inj E (tour_cost w (0%nat :: p)), (0%nat :: p) ++ [0%nat]) /\
    is_tour n (0%nat :: p) /\ ((2 <= n)%nat -> tour_cost w (0%nat :: p) <= edges_cost w T + edges_cost w M).
Proof.
  intros Hmode Hs Ht Hdbg Hprim Hlen HT Hadj Hcomp HM.
  assert (HMin : forall a b, In (a, b) M -> (a < n)%nat /\ (b < n)%nat).
  { intros a b Hin. assert (forall x, In x [a; b] -> (x < n)%nat).
    - intros x Hx. apply (odd_vertices_spec m mst Hlen). apply (Permutation_in _ HM). apply in_flat_map. exists (a, b). auto.
    - split; apply H; cbn; auto. }
  destruct (generic_spec m Hwf Hn debug env fenv mode comp mst T M) as (c & p & Ec & Htour & Hcost & Hwalk); try assumption.
  - intros _. apply (perfect_distinct _ _ HM). apply odd_vertices_NoDup.
  - exists p. rewrite (closed_exact p c Htour Hcost) in Ec. split; [assumption|]. split; [assumption|].
    intros Hn2. destruct (Hwalk HM Hn2) as (q & Hq & Hsub & Htr).
    rewrite tour_cost_closed. rewrite <- edges_cost_app. rewrite <- (path_of_edges n w (0%nat :: q ++ [0%nat]) (T ++ M) Hs).
    + cbn [app]. apply (shortcut w n); try assumption.
    + intros v [<-|Hv]; [exact Hn|]. apply in_app_or in Hv. destruct Hv as [Hv|[<-|[]]]; [auto|exact Hn].
    + intros a b Hin. apply in_app_or in Hin. destruct Hin as [Hin|Hin]; [|auto]. destruct HT as [HT _]. destruct (HT a b Hin) as [H1 H2]. apply in_seq in H1, H2. lia.
    + exact Htr.
Qed.

(** Three halves of the length of any tour, if the matching is a least one *)
Theorem christofides_ratio debug env fenv mode comp mst T M p : (mode <= 2)%nat ->
  symmetric w n -> triangle w n ->
  prim env mode m = Ok mst -> length mst = n -> spanning_tree (seq 0 n) T ->
  (forall T', spanning_tree (seq 0 n) T' -> edges_cost w T <= edges_cost w T') ->
  (forall v, (v < n)%nat -> nth v mst [] = map (fun x => mkEdge (fst x) (na_val m (fst (snd x)) (snd (snd x)))) (incident T v)) ->
  (forall M', perfect_matching (odd_vertices mst) M' -> edges_cost w M <= edges_cost w M') ->
  christofides_generic debug env fenv mode m comp = Ok (inj E (tour_cost w (0%nat :: p)), (0%nat :: p) ++ [0%nat]) ->
  is_tour n (0%nat :: p) -> ((2 <= n)%nat -> tour_cost w (0%nat :: p) <= edges_cost w T + edges_cost w M) ->
  forall q, is_tour n q -> 2 * tour_cost w (0%nat :: p) <= 3 * tour_cost w q.
Proof.
  intros Hmode Hs Ht Hprim Hlen HT Hmin Hadj HMmin Ec Htour Hcost q Hq.
  pose proof (metric_nonneg w n Hs Ht) as Hnn. pose proof (tour_length _ _ Hq) as Hlq. pose proof (tour_length _ _ Htour) as Hlp.
  destruct (Nat.eq_dec n 1) as [H1|H1].
  - assert (q = [0%nat]). { destruct q as [|x [|]]; cbn in Hlq; try lia. f_equal. pose proof (proj1 (tour_In n [x] x Hq) (or_introl eq_refl)). lia. }
    assert (p = []) by (destruct p; [reflexivity|cbn in Hlp; lia]). subst. change (tour_cost w [0%nat]) with (0 + w 0%nat 0%nat). pose proof (Hnn 0%nat 0%nat Hn Hn). lia.
  - specialize (Hcost ltac:(lia)).
    assert (HT1 : edges_cost w T <= tour_cost w q).
    { assert (Hne : q <> []) by (destruct q; [cbn in Hlq; lia|discriminate]).
      specialize (Hmin _ (path_spanning q (seq 0 n) Hne Hq)). rewrite path_edges_cost' in Hmin.
      pose proof (prefix_cost_le w n q [] Hnn) as Hp. rewrite app_nil_r in Hp. specialize (Hp (tour_Forall n q Hq)). lia. }
    assert (HM1 : 2 * edges_cost w M <= tour_cost w q).
    { apply (matching_half w n (odd_vertices mst)); try assumption.
      - apply odd_vertices_NoDup.
      - intros v Hv. apply (odd_vertices_spec m mst Hlen) in Hv. apply Hv.
      - apply (odd_vertices_even m T (na_val m) mst); assumption. }
    lia.
Qed.
End Tour.
