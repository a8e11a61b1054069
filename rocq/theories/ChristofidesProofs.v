(** Facts about src/solvers/approximate/christofides.rs, for every arithmetic. *)
From Coq Require Import ZArith Arith Bool List Permutation Lia.
From Verif Require Import Num Base Data Mst Par Mem Rand MstPar Matching Christofides Spec SpecFacts Greedy PrimProofs MstParProofs
  NnProofs EulerProofs FillProofs.
Import ListNotations.

(** ** Keeping the first occurrences *)
Fixpoint news (seen : list nat) (l : list nat) : list nat :=
  match l with
  | [] => []
  | i :: t => if memb i seen then news seen t else i :: news (i :: seen) t
  end.

Inductive subseq {A} : list A -> list A -> Prop :=
| subseq_nil : subseq [] []
| subseq_skip : forall x l l', subseq l l' -> subseq l (x :: l')
| subseq_keep : forall x l l', subseq l l' -> subseq (x :: l) (x :: l').

Lemma news_In l : forall seen x, In x (news seen l) <-> In x l /\ ~ In x seen.
Proof.
  induction l as [|i t IH]; intros seen x; [cbn; tauto|]. cbn [news]. destruct (memb i seen) eqn:E.
  - apply memb_In in E. rewrite IH. cbn. split; [tauto|]. intros [[<-|H] H']; tauto.
  - apply memb_nIn in E. cbn [In]. rewrite IH. cbn [In]. split.
    + intros [<-|[H1 H2]]; [tauto|]. tauto.
    + intros [[<-|H1] H2]; [tauto|]. destruct (Nat.eq_dec i x); [tauto|]. tauto.
Qed.
Lemma news_NoDup l : forall seen, NoDup (news seen l).
Proof.
  induction l as [|i t IH]; intros seen; [constructor|]. cbn [news]. destruct (memb i seen) eqn:E; [apply IH|].
  constructor; [|apply IH]. rewrite news_In. cbn. tauto.
Qed.
Lemma news_subseq l : forall seen, subseq (news seen l) l.
Proof. induction l as [|i t IH]; intros seen; [constructor|]. cbn [news]. destruct (memb i seen); constructor; apply IH. Qed.
Lemma news_snoc l x : forall seen, In x seen -> news seen (l ++ [x]) = news seen l.
Proof.
  induction l as [|i t IH]; intros seen H; cbn [app news].
  - apply memb_In in H. rewrite H. reflexivity.
  - destruct (memb i seen); [apply IH; assumption|]. rewrite IH by (right; assumption). reflexivity.
Qed.

Lemma keep_first_spec dim cyc : (forall v, In v cyc -> v < dim) -> keep_first dim cyc = Ok (news [] cyc).
Proof.
  intros Hr. unfold keep_first.
  assert (H : forall l seen kept visited, (forall v, In v l -> v < dim) -> length visited = dim ->
    (forall v, v < dim -> nth v visited false = memb v seen) ->
    exists visited', foldM (fun '(visited, kept) i =>
      s <- nth_res visited i ;;
      if s : bool then Ok (visited, kept)
      else visited <- modify_res visited i (fun _ => true) ;; Ok (visited, kept ++ [i])) l (visited, kept) = Ok (visited', kept ++ news seen l)).
  { induction l as [|i t IH]; intros seen kept visited Hl Hv Hm.
    - exists visited. cbn. rewrite app_nil_r. reflexivity.
    - cbn [foldM]. assert (Hi : i < dim) by (apply Hl; left; reflexivity).
      rewrite (nth_res_nth _ _ false) by lia. cbn [bind]. rewrite Hm by assumption. cbn [news]. destruct (memb i seen) eqn:E.
      + cbn [bind]. apply IH; [intros; apply Hl; right; assumption|assumption|assumption].
      + rewrite (modify_res_Ok _ _ _ false) by lia. cbn [bind].
        destruct (IH (i :: seen) (kept ++ [i]) (upd visited i true)) as (v' & Ev).
        * intros; apply Hl; right; assumption.
        * rewrite upd_length. assumption.
        * intros v Hvd. cbn [memb existsb]. destruct (Nat.eq_dec i v) as [<-|Hne].
          -- rewrite nth_upd_eq by lia. rewrite Nat.eqb_refl. reflexivity.
          -- rewrite nth_upd_neq by assumption. rewrite Hm by assumption.
             replace (v =? i) with false by (symmetry; apply Nat.eqb_neq; congruence). reflexivity.
        * exists v'. rewrite Ev, <- app_assoc. reflexivity. }
  destruct (H cyc [] [] (repeat false dim)) as (v' & Ev).
  - assumption.
  - apply repeat_length.
  - intros v Hv. apply nth_repeat_lt. assumption.
  - rewrite Ev. reflexivity.
Qed.

(** the first occurrences of a walk from 0 through all vertices are a tour *)
Lemma news_tour n q : hd 0 q = 0 -> q <> [] -> (forall v, In v q <-> v < n) ->
  is_tour n (news [] q) /\ exists p0, news [] q = 0 :: p0.
Proof.
  intros Hh Hne Hall. split.
  - unfold is_tour. apply NoDup_Permutation; [apply news_NoDup|apply seq_NoDup|]. intros x. rewrite news_In, Hall, in_seq. cbn. lia.
  - destruct q as [|a q]; [congruence|]. cbn in Hh. subst a. cbn. eexists. reflexivity.
Qed.

Lemma hamiltonian_spec n q : hd 0 q = 0 -> q <> [] -> (forall v, In v q <-> v < n) ->
  hamiltonian_from_eulerian_cycle n q = Ok (news [] q ++ [0]).
Proof.
  intros Hh Hne Hall. unfold hamiltonian_from_eulerian_cycle. rewrite keep_first_spec by (intros; apply Hall; assumption). cbn [bind].
  destruct (news_tour n q Hh Hne Hall) as [_ (p0 & ->)]. reflexivity.
Qed.

(** ** is_hamiltonian_cycle *)
Lemma is_hamiltonian_tour n p0 : is_tour n (0 :: p0) -> is_hamiltonian_cycle ((0 :: p0) ++ [0]) n = true.
Proof.
  intros Ht. pose proof (tour_NoDup _ _ Ht) as Hnd. unfold is_hamiltonian_cycle.
  replace (forallb (fun u => u <? n) ((0 :: p0) ++ [0])) with true.
  2:{ symmetry. apply forallb_forall. intros x Hx. apply Nat.ltb_lt. apply (tour_In n _ _ Ht). apply in_app_or in Hx. destruct Hx as [Hx|[<-|[]]]; [assumption|left; reflexivity]. }
  assert (Hn : 1 <= n) by (apply tour_length in Ht; cbn in Ht; lia).
  assert (Hcount : forall u, u < n -> count_occ Nat.eq_dec ((0 :: p0) ++ [0]) u = if u =? 0 then 2 else 1).
  { intros u Hu. rewrite count_occ_app. assert (H1 : count_occ Nat.eq_dec (0 :: p0) u = 1) by (apply NoDup_count_occ'; [assumption|apply (tour_In n _ _ Ht); assumption]).
    rewrite H1. cbn [count_occ]. destruct (Nat.eq_dec 0 u) as [<-|Hne]; [reflexivity|]. destruct (Nat.eqb_spec u 0); [congruence|reflexivity]. }
  destruct n as [|n]; [lia|]. cbn [seq fold_left]. rewrite (Hcount 0) by lia. rewrite !Nat.eqb_refl.
  assert (H : forall l, (forall u, In u l -> 0 < u < S n) -> fold_left (fun '(st, ok) u =>
      let k := count_occ Nat.eq_dec ((0 :: p0) ++ [0]) u in
      if ok : bool then if k =? 2 then (if st : bool then (true, false) else (true, true)) else (st, k =? 1) else (st, false)) l (true, true) = (true, true)).
  { induction l as [|u l IH]; intros Hl; [reflexivity|]. cbn [fold_left]. assert (Hu : 0 < u < S n) by (apply Hl; left; reflexivity).
    rewrite Hcount by lia. replace (u =? 0) with false by (symmetry; apply Nat.eqb_neq; lia). cbn [Nat.eqb]. apply IH. intros; apply Hl; right; assumption. }
  rewrite H; [reflexivity|]. intros u Hu. apply in_seq in Hu. lia.
Qed.

(** ** The cost *)
Section Cost.
Context {N : Num}.
Variable m : namatrix N.

Lemma mapM_app {A B} (f : A -> res B) l1 l2 : mapM f (l1 ++ l2) = (a <- mapM f l1 ;; b <- mapM f l2 ;; Ok (a ++ b)).
Proof.
  induction l1 as [|x l1 IH]; cbn [app mapM bind]; [destruct (mapM f l2); reflexivity|].
  destruct (f x); [|reflexivity..]. cbn [bind]. rewrite IH. destruct (mapM f l1); [|reflexivity..]. cbn [bind]. destruct (mapM f l2); reflexivity.
Qed.
Lemma windows2_snoc p y d : p <> [] -> windows2 (p ++ [y]) = windows2 p ++ [(last p d, y)].
Proof.
  induction p as [|a [|b t] IH]; intros H; [congruence|reflexivity|]. specialize (IH ltac:(discriminate)).
  change ((a :: b :: t) ++ [y]) with (a :: b :: t ++ [y]). change (windows2 (a :: b :: t ++ [y])) with ((a, b) :: windows2 ((b :: t) ++ [y])).
  rewrite IH. reflexivity.
Qed.

Lemma windows_cost_path l : windows_cost m l = evaluate_path (na_adj m) l.
Proof.
  induction l as [|y l IH] using rev_ind; [reflexivity|].
  destruct l as [|a l]; [reflexivity|]. rewrite (evaluate_path_snoc _ _ _ 0) by discriminate. rewrite <- IH.
  unfold windows_cost. rewrite (windows2_snoc _ y 0) by discriminate. rewrite mapM_app.
  destruct (mapM _ (windows2 (a :: l))); cbn [bind]; [|reflexivity..]. cbn [mapM fst snd na_adj a_get].
  destruct (na_get m _ y); cbn [bind]; [|reflexivity..]. unfold csum. rewrite fold_left_app. reflexivity.
Qed.

Lemma evaluate_path_total l : na_wf m -> (forall v, In v l -> v < na_dim m) -> exists c, evaluate_path (na_adj m) l = Ok c.
Proof.
  intros Hwf. induction l as [|y l IH] using rev_ind; intros Hr; [eexists; reflexivity|].
  destruct l as [|a l]; [eexists; reflexivity|]. rewrite (evaluate_path_snoc _ _ _ 0) by discriminate.
  destruct IH as (c & ->); [intros v Hv; apply Hr, in_or_app; auto|]. cbn [bind na_adj a_get]. rewrite na_get_val; [eexists; reflexivity|assumption| |].
  - apply Hr, in_or_app. left. apply last_In. discriminate.
  - apply Hr, in_or_app. right. left. reflexivity.
Qed.

Lemma circle_is_path p : 2 <= length p -> forall c, evaluate_path (na_adj m) (p ++ [hd 0 p]) = Ok c -> evaluate_circle (na_adj m) p = Ok c.
Proof.
  intros Hl c Hc. assert (Hne : p <> []) by (intros ->; cbn in Hl; lia). rewrite (evaluate_path_snoc _ _ _ 0) in Hc by assumption.
  unfold evaluate_circle. replace (length p <=? 1) with false by (symmetry; apply Nat.leb_gt; lia).
  rewrite (last_res_last p 0 Hne), (first_res_hd p 0 Hne). cbn [bind].
  destruct (evaluate_path (na_adj m) p) as [x| |]; cbn [bind] in Hc |- *; try discriminate.
  destruct (a_get (na_adj m) (last p 0) (hd 0 p)); cbn [bind] in *; congruence.
Qed.

(** ** The algorithm with a given matching *)
Hypothesis O : NumOrd N.
Hypothesis Hwf : na_wf m.
Hypothesis finite : forall i j, i < na_dim m -> j < na_dim m -> i <> j -> clt (na_val m i j) cinf = true.
Let n := na_dim m.
Hypothesis Hn : 1 <= n.

Lemma prim_tree env mode : mode <= 2 -> exists mst T, prim env mode m = Ok mst /\ length mst = n /\ spanning_tree (seq 0 n) T /\
  forall v, v < n -> nth v mst [] = map (fun x => mkEdge (fst x) (na_val m (fst (snd x)) (snd (snd x)))) (incident T v).
Proof.
  intros Hmode. destruct (prim_single_spec O m Hwf) with (X := @nil nat) as (g & T & start & R & Eg & Hl & Hgr & HP & Hadj).
  - exact finite.
  - constructor.
  - exists 0. split; [fold n; lia|intros []].
  - exists g, T. split.
    { unfold prim. rewrite (mt_prim O m Hwf), Eg. unfold SEQ_COMPUTATION, PAR_COMPUTATION, MPI_COMPUTATION.
      destruct mode as [|[|[|]]]; [..|lia]; reflexivity. }
    split; [assumption|]. split; [|exact Hadj].
    assert (HP' : Permutation (seq 0 n) (start :: R)).
    { rewrite <- HP. unfold free_vertices. fold n. clear. induction (seq 0 n) as [|x l IH]; [constructor|]. cbn [filter existsb negb]. constructor. assumption. }
    destruct (greedy_spanning _ _ _ _ Hgr) as (H1 & H2 & H3). split; [|split].
    + intros a b Hin. destruct (H1 a b Hin). split; apply (Permutation_in _ (Permutation_sym HP')); assumption.
    + intros a b Ha Hb. apply H2; apply (Permutation_in _ HP'); assumption.
    + rewrite H3. symmetry. apply Permutation_length. assumption.
Qed.

Theorem generic_spec debug env fenv mode comp mst T M : mode <= 2 ->
  (debug = true -> is_metric (na_adj m) = Ok true) ->
  prim env mode m = Ok mst -> length mst = n -> spanning_tree (seq 0 n) T ->
  (forall v, v < n -> nth v mst [] = map (fun x => mkEdge (fst x) (na_val m (fst (snd x)) (snd (snd x)))) (incident T v)) ->
  comp mst m = Ok M -> (forall a b, In (a, b) M -> a < n /\ b < n) -> (mode = PAR_COMPUTATION -> distinct_pairs M) ->
  exists c p, christofides_generic debug env fenv mode m comp = Ok (c, (0 :: p) ++ [0]) /\ is_tour n (0 :: p) /\
    evaluate_path (na_adj m) ((0 :: p) ++ [0]) = Ok c /\
    (perfect_matching (odd_vertices mst) M -> 2 <= n ->
      exists q, (forall v, In v q -> v < n) /\ subseq p q /\ forall i j, i < n -> j < n -> traversals (0 :: q ++ [0]) i j = copies (T ++ M) i j).
Proof.
  intros Hmode Hmet Eprim Hlen HT Hadj Ecomp HM Hdist.
  destruct (fill_modes m Hwf T (na_val m) mst HT Hlen Hadj M HM fenv mode Hmode Hdist) as (g & Eg & _ & Hok).
  pose proof (multigraph_sym m T M g Hok) as Hsym.
  pose proof (multigraph_diag m T M g Hok) as Hdiag.
  pose proof (tree_connected m T mst HT Hlen M Hn g Hok) as Hcon.
  pose proof (multigraph_even m T (na_val m) mst HT Hlen Hadj M HM g Hok) as Heven.
  pose proof Hok as (Hd & Hw & Hc). fold n in Hsym, Hdiag, Hcon, Heven, Hd, Hc. rewrite <- Hd in Hsym, Hdiag, Hcon, Heven.
  destruct (eulerian_cycle_spec g Hw ltac:(lia) Hsym Hdiag Hcon) as (q & Eq & Hh & Hne & Hall & Heul).
  rewrite Hd in Hall, Heul.
  destruct (news_tour n q Hh Hne Hall) as [Htour (p & Ep)].
  destruct (evaluate_path_total ((0 :: p) ++ [0]) Hwf) as (c & Ec).
  { intros v Hv. rewrite Ep in Htour. apply in_app_or in Hv. destruct Hv as [Hv|[<-|[]]]; [apply (tour_In n _ _ Htour); assumption|assumption]. }
  exists c, p. split; [|split; [|split]].
  - unfold christofides_generic. replace (if debug then is_metric (na_adj m) else Ok true) with (Ok true : res bool).
    2:{ destruct debug; [symmetry; auto|reflexivity]. }
    cbn [bind assert]. rewrite Eprim. cbn [bind]. rewrite Ecomp. cbn [bind]. rewrite Eg. cbn [bind]. rewrite Eq. cbn [bind].
    fold n. rewrite (hamiltonian_spec n q Hh Hne Hall), Ep. cbn [bind]. rewrite windows_cost_path, Ec. cbn [bind].
    rewrite Ep in Htour. rewrite (is_hamiltonian_tour n p Htour). destruct debug; reflexivity.
  - rewrite Ep in Htour. assumption.
  - assumption.
  - intros HP H2. rewrite Hd in Heven. destruct (Heul (Heven HP)) as [Hl Htrav].
    assert (Hq : exists q0, q = 0 :: q0 ++ [0]).
    { destruct q as [|a q0]; [congruence|]. cbn in Hh. subst a. destruct q0 as [|b q0].
      - exfalso. assert (In 1 [0]) by (apply Hall; lia). cbn in H. intuition discriminate.
      - exists (removelast (b :: q0)). f_equal. change (last (0 :: b :: q0) 0) with (last (b :: q0) 0) in Hl.
        pose proof (app_removelast_last 0 (l := b :: q0) ltac:(discriminate)) as H. rewrite Hl in H. exact H. }
    destruct Hq as (q0 & ->). exists q0. split; [|split].
    + intros v Hv. apply Hall. right. apply in_or_app. auto.
    + cbn [news memb existsb] in Ep. rewrite news_snoc in Ep by (left; reflexivity). injection Ep as <-. apply news_subseq.
    + intros i j Hi Hj. rewrite Htrav by assumption. apply Hc; assumption.
Qed.
End Cost.
