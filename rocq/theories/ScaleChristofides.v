(** Two runs of Christofides' algorithm on related numbers, in all three modes. *)
From Coq Require Import ZArith Arith Bool List NArith Lia.
From Verif Require Import Num Base Data Mst Exact Par Mem Rand MstPar OneTree Nn Matching Christofides ScaleProofs.
Import ListNotations.

Lemma res_rel_eq {A} (x y : res A) : res_rel eq x y <-> x = y.
Proof. destruct x, y; cbn; split; intros; try contradiction; try congruence; auto; injection H; auto. Qed.

(** A parallel loop on related states, under the same schedule *)
Lemma par_for_rel {L L' S S'} (P : L -> L' -> Prop) (T : S -> S' -> Prop) step step' i0 i0' r k sched s s' :
  (forall i l l' s s', P l l' -> T s s' -> res_rel (fun x y => P (fst x) (fst y) /\ T (snd x) (snd y)) (step i l s) (step' i l' s')) ->
  P i0 i0' -> T s s' -> res_rel T (par_for step i0 r k sched s) (par_for step' i0' r k sched s').
Proof.
  intros H H0 Hs. unfold par_for, par_exec.
  apply (bind_rel (fun x y => Forall2 P (fst x) (fst y) /\ T (snd x) (snd y))); [|intros [a b] [c d] [_ X]; exact X].
  apply foldM_rel_same; [|split; [apply F2_repeat, H0|exact Hs]].
  intros [ls a] [ls' b] i [F Hab]. cbn [fst snd] in *.
  pose proof (nth_res_rel P ls ls' i F) as K. unfold nth_res in K.
  destruct (nth_error ls i) as [l|], (nth_error ls' i) as [l'|]; cbn [res_rel] in K; try contradiction; [|split; assumption].
  apply (bind_rel (fun x y => P (fst x) (fst y) /\ T (snd x) (snd y))); [apply H; assumption|].
  intros [l1 a1] [l2 b1] [X Y]. split; cbn [fst snd] in *; [apply upd_rel; assumption|exact Y].
Qed.

Definition instr_rel {A B} (R : A -> B -> Prop) (x : @instr A) (y : @instr B) : Prop :=
  match x, y with
  | Store k a, Store j b => k = j /\ R a b
  | Modify k f, Modify j g => k = j /\ forall a b, R a b -> R (f a) (g b)
  | _, _ => False
  end.

Lemma par_mem_rel {A B} (R : A -> B -> Prop) p q sched s t : Forall2 (Forall2 (instr_rel R)) p q -> Forall2 R s t ->
  res_rel (Forall2 R) (par_mem p sched s) (par_mem q sched t).
Proof.
  intros F Hs. unfold par_mem. rewrite (F2_length _ _ _ F).
  assert (E : length (concat p) = length (concat q)).
  { clear Hs. induction F as [|a b p q Hab F IH]; [reflexivity|]. cbn [concat]. rewrite !app_length, IH, (F2_length _ _ _ Hab). reflexivity. }
  rewrite E. apply (par_for_rel (fun x y => fst x = fst y /\ opt_rel R (snd x) (snd y))); [|split; [reflexivity|exact I]|exact Hs].
  intros i [a o] [b o'] s1 t1 [Eab Ho] H1. cbn [fst snd] in *. subst b. unfold mem_step. cbn [fst snd].
  assert (G : Forall2 (instr_rel R) (nth i p []) (nth i q [])).
  { clear -F. revert i. induction F as [|x y p q Hx F IH]; intros [|i]; cbn [nth]; try constructor; try assumption. apply IH. }
  pose proof (nth_res_rel _ _ _ a G) as K. unfold nth_res in K.
  destruct (nth_error (nth i p []) a) as [x|], (nth_error (nth i q []) a) as [y|]; cbn [res_rel] in K; try contradiction; [|repeat split; assumption].
  destruct x as [c x|c f], y as [c' y|c' g]; cbn [instr_rel] in K; try contradiction; destruct K as [<- K].
  - apply (bind_rel (Forall2 R)); [apply modify_rel; auto|]. intros. repeat split; auto.
  - destruct o as [v|], o' as [w|]; cbn [opt_rel] in Ho; try contradiction.
    + apply (bind_rel (Forall2 R)); [apply modify_rel; auto|]. intros. repeat split; auto.
    + apply (bind_rel R); [apply nth_res_rel; assumption|]. intros. repeat split; cbn [fst snd opt_rel]; auto.
Qed.

Section Programs.
Context {N M : Num} (Q : C N -> C M -> Prop).
Hypothesis Q_0 : Q c0 c0.
Hypothesis Q_inf : Q cinf cinf.
Hypothesis Q_eps : Q ceps ceps.
Hypothesis Q_add : forall a b x y, Q a x -> Q b y -> Q (cadd a b) (cadd x y).
Hypothesis Q_lt : forall a b x y, Q a x -> Q b y -> clt a b = clt x y.
Hypothesis Q_eq : forall a b x y, Q a x -> Q b y -> ceq a b = ceq x y.
Context (m : namatrix N) (k : namatrix M).
Hypothesis R : na_rel Q m k.

Lemma cell_rel i j : res_rel Q (na_get m i j) (na_get k i j).
Proof. apply na_get_rel, R. Qed.

Lemma metric_rel : is_metric (na_adj m) = is_metric (na_adj k).
Proof.
  apply res_rel_eq. unfold is_metric. replace (a_dim (na_adj k)) with (a_dim (na_adj m)) by apply R.
  apply foldM_rel_same; [|reflexivity]. intros a b i ->. apply foldM_rel_same; [|reflexivity]. intros a1 b1 j ->.
  destruct b1; [|reflexivity]. apply (bind_rel Q); [apply cell_rel|]. intros d d' Hd. apply foldM_rel_same; [|reflexivity].
  intros a2 b2 l ->. destruct b2; [|reflexivity]. apply (bind_rel Q); [apply cell_rel|]. intros x x' Hx. apply (bind_rel Q); [apply cell_rel|]. intros y y' Hy.
  cbn [res_rel]. f_equal. apply Q_lt; auto.
Qed.

(** ** Matching *)

Lemma two_rel e f : optimize_two_matching m e f = optimize_two_matching k e f.
Proof.
  apply res_rel_eq. unfold optimize_two_matching. destruct e as [v0 v1], f as [v2 v3].
  apply (bind_rel Q); [apply cell_rel|]. intros x1 y1 H1. apply (bind_rel Q); [apply cell_rel|]. intros x2 y2 H2.
  apply (bind_rel Q); [apply cell_rel|]. intros x3 y3 H3. apply (bind_rel Q); [apply cell_rel|]. intros x4 y4 H4.
  apply (bind_rel Q); [apply cell_rel|]. intros x5 y5 H5. apply (bind_rel Q); [apply cell_rel|]. intros x6 y6 H6. cbn [res_rel].
  rewrite (Q_lt _ _ _ _ (Q_add _ _ _ _ H3 H4) (Q_add _ _ _ _ H1 H2)), (Q_lt _ _ _ _ (Q_add _ _ _ _ H5 H6) (Q_add _ _ _ _ H3 H4)),
    (Q_lt _ _ _ _ (Q_add _ _ _ _ H5 H6) (Q_add _ _ _ _ H1 H2)). reflexivity.
Qed.

Lemma chunks_rel : forall l n, length l <= n -> improve_chunks m l = improve_chunks k l.
Proof.
  intros l n. revert l. induction n as [|n IH]; intros [|e [|f l]] H; try reflexivity; cbn [length] in H; [lia|]. cbn [improve_chunks]. rewrite two_rel.
  destruct (optimize_two_matching k e f) as [[e' f']| |]; cbn [bind]; try reflexivity. rewrite (IH l) by lia. reflexivity.
Qed.

Lemma improve_rel draws l tries : improve_matching draws m l tries = improve_matching draws k l tries.
Proof. unfold improve_matching. destruct (length l <=? 1); [reflexivity|]. apply foldM_ext. intros s x _. apply (chunks_rel _ _ (Nat.le_refl _)). Qed.

Lemma par_improve_rel draws sched l tries : par_improve_matching draws sched m l tries = par_improve_matching draws sched k l tries.
Proof.
  unfold par_improve_matching. apply foldM_ext. intros s x _. apply res_rel_eq. apply (bind_rel eq); [|intros a b ->; reflexivity].
  apply (par_for_rel eq eq); try reflexivity. intros i t t' cs cs' <- <-.
  assert (Id : forall (z : res (ctask * list ((nat * nat) * (nat * nat)))), res_rel (fun x y => fst x = fst y /\ snd x = snd y) z z) by (intros [z| |]; cbn; auto).
  destruct t; cbn [chunk_step]; try apply Id.
  assert (E : (c <- nth_res cs i ;; '(e, f) <- optimize_two_matching m (fst c) (snd c) ;; Ok (CWrite1 e f, cs))
    = (c <- nth_res cs i ;; '(e, f) <- optimize_two_matching k (fst c) (snd c) ;; Ok (CWrite1 e f, cs))).
  { destruct (nth_res cs i); cbn [bind]; [rewrite two_rel|..]; reflexivity. }
  rewrite E. apply Id.
Qed.

Lemma matching_cost_rel l : res_rel Q (matching_cost m l) (matching_cost k l).
Proof.
  unfold matching_cost. apply (bind_rel (Forall2 Q)); [apply mapM_rel; intros; apply cell_rel|]. intros a b H. cbn [res_rel]. apply csum_rel; assumption.
Qed.

Definition local_rel (x : C N * matching) (y : C M * matching) : Prop := Q (fst x) (fst y) /\ snd x = snd y.

Lemma mpi_improve_rel draws l tries size : mpi_improve_matching draws m l tries size = mpi_improve_matching draws k l tries size.
Proof.
  apply res_rel_eq. unfold mpi_improve_matching. destruct (length l =? 0); [exact I|].
  apply (bind_rel (Forall2 local_rel)).
  - apply mapM_rel. intros r. rewrite improve_rel. apply bind_same. intros l'. apply (bind_rel Q); [apply matching_cost_rel|]. intros a b H. split; auto.
  - intros a b H. destruct H as [|x y a b Hx H]; [exact I|]. cbn [first_res bind tl res_rel]. f_equal.
    assert (K : local_rel (fold_left (fun best other => if clt (fst other) (fst best) then other else best) a x)
      (fold_left (fun best other => if clt (fst other) (fst best) then other else best) b y)).
    { apply (fold_left_rel local_rel local_rel); [|assumption..]. intros u v s t Hu Hs. rewrite (Q_lt _ _ _ _ (proj1 Hs) (proj1 Hu)). destruct (clt _ _); assumption. }
    apply K.
Qed.

Lemma odd_rel g h : graph_rel Q g h -> odd_vertices g = odd_vertices h.
Proof.
  intros F. unfold odd_vertices. pose proof (F2_indexed _ _ _ F 0) as K.
  induction K as [|[i es] [j fs] l l' [E H] K IH]; [reflexivity|]. cbn [fst snd filter] in *. subst j. rewrite (F2_length _ _ _ H).
  destruct (length fs mod 2 =? 1); cbn [map fst]; rewrite IH; reflexivity.
Qed.

Lemma approx_matching_rel env mode g h : graph_rel Q g h -> compute_approx_matching env mode g m = compute_approx_matching env mode h k.
Proof.
  intros F. unfold compute_approx_matching, approx_min_cost_matching. rewrite (odd_rel g h F). destruct (mode =? SEQ_COMPUTATION); [apply improve_rel|].
  destruct (mode =? PAR_COMPUTATION); [apply par_improve_rel|]. destruct (mode =? MPI_COMPUTATION); [|reflexivity]. rewrite mpi_improve_rel. reflexivity.
Qed.

(** ** The multigraph *)

Definition mcell_rel (x : C N * nat) (y : C M * nat) : Prop := Q (fst x) (fst y) /\ snd x = snd y.
Definition mg_rel (g : multigraph N) (h : multigraph M) : Prop := mg_dim g = mg_dim h /\ Forall2 mcell_rel (mg_cells g) (mg_cells h).

Lemma mg_cell_rel g h i j : mg_rel g h -> res_rel mcell_rel (mg_cell g i j) (mg_cell h i j).
Proof. intros [E F]. unfold mg_cell. rewrite <- E. destruct (_ && _); [|exact I]. apply nth_res_rel, F. Qed.

Lemma mg_modify_rel g h i j f f' : mg_rel g h -> (forall a b, mcell_rel a b -> mcell_rel (f a) (f' b)) -> res_rel mg_rel (mg_modify g i j f) (mg_modify h i j f').
Proof.
  intros [E F] H. unfold mg_modify. rewrite <- E. destruct (_ && _); [|exact I]. apply (bind_rel (Forall2 mcell_rel)); [apply modify_rel; assumption|].
  intros. split; [reflexivity|assumption].
Qed.

Lemma mg_base_rel : mg_rel (mg_base m) (mg_base k).
Proof. split; [apply R|]. cbn [mg_base mg_cells]. apply (F2_map Q mcell_rel); [apply R|]. intros; split; auto. Qed.

Lemma combine_rel {A B} (S : A -> B -> Prop) (l : list nat) a b : Forall2 S a b -> Forall2 (fun x y => fst x = fst y /\ S (snd x) (snd y)) (combine l a) (combine l b).
Proof. intros F. revert l. induction F; intros [|i js]; cbn [combine]; constructor; auto. Qed.

Lemma fill_rel g h t u (l : matching) : mg_rel g h -> graph_rel Q t u ->
  res_rel mg_rel (g <- fill_mst_seq g t ;; fill_matching_seq g l) (g <- fill_mst_seq h u ;; fill_matching_seq g l).
Proof.
  intros G F. apply (bind_rel mg_rel).
  - unfold fill_mst_seq. rewrite <- (proj1 G). apply (foldM_rel (fun x y => fst x = fst y /\ Forall2 (edge_rel Q) (snd x) (snd y)) mg_rel); [|apply combine_rel, F|exact G].
    intros a b [i es] [j fs] Hab [E H]. cbn [fst snd] in *. subst j. apply (foldM_rel (edge_rel Q) mg_rel); [|exact H|exact Hab].
    intros a1 b1 e f Hab1 [E H1]. rewrite E. apply mg_modify_rel; [assumption|]. intros. split; auto.
  - intros a b Hab. unfold fill_matching_seq. apply foldM_rel_same; [|exact Hab]. intros a1 b1 [i j] H1.
    assert (B : forall x y, mcell_rel x y -> mcell_rel (bump x) (bump y)) by (intros x y [X Y]; split; cbn [bump fst snd]; [exact X|congruence]).
    apply (bind_rel mg_rel); [apply mg_modify_rel; assumption|]. intros. apply mg_modify_rel; assumption.
Qed.

Lemma fill_par_rel sched1 sched2 g h t u (l : matching) : mg_rel g h -> graph_rel Q t u ->
  res_rel mg_rel (g <- fill_mst_par sched1 g t ;; fill_matching_par sched2 g l) (g <- fill_mst_par sched1 h u ;; fill_matching_par sched2 g l).
Proof.
  intros G F. apply (bind_rel mg_rel).
  - unfold fill_mst_par. rewrite <- (proj1 G). pose proof (combine_rel (Forall2 (edge_rel Q)) (seq 0 (mg_dim g)) t u F) as K.
    assert (E : forallb (fun '(_, es) => forallb (fun e => e_to e <? mg_dim g) es) (combine (seq 0 (mg_dim g)) t)
      = forallb (fun '(_, es) => forallb (fun e => e_to e <? mg_dim g) es) (combine (seq 0 (mg_dim g)) u)).
    { induction K as [|[i es] [j fs] a b [_ H] K IH]; [reflexivity|]. cbn [forallb fst snd] in *. f_equal; [|exact IH].
      clear -H. induction H as [|e f es fs He H IH]; [reflexivity|]. cbn [forallb]. rewrite IH, (proj1 He). reflexivity. }
    rewrite E. clear E. match goal with |- context [if ?b then _ else _] => destruct b end; [|exact I].
    apply (bind_rel (Forall2 mcell_rel)); [|intros; split; [reflexivity|assumption]]. apply par_mem_rel; [|apply G].
    apply (F2_map _ _ _ _ _ _ K). intros [i es] [j fs] [Ei H]. cbn [fst snd] in *. subst j. unfold column_prog. apply (F2_map _ _ _ _ _ _ H).
    intros e f [Ee He]. rewrite Ee. repeat split; auto.
  - intros a b Hab. unfold fill_matching_par. rewrite <- (proj1 Hab).
    apply (bind_rel (Forall2 mcell_rel)); [|intros; split; [reflexivity|assumption]]. apply par_mem_rel; [|apply Hab].
    apply (F2_map eq); [apply Forall2_eq|]. intros e ? <-.
    assert (B : forall x y, mcell_rel x y -> mcell_rel (bump x) (bump y)) by (intros x y [X Y]; split; cbn [bump fst snd]; [exact X|congruence]).
    repeat constructor; auto; apply B; assumption.
Qed.

(** ** Prim's algorithm on several threads *)

Definition mt_rel (x : @mdist N) (y : @mdist M) : Prop := Forall2 (entry_rel Q) (fst x) (fst y) /\ snd x = snd y.
Definition task_rel (x : @mtask N) (y : @mtask M) : Prop :=
  match x, y with TRead, TRead => True | TWrite a, TWrite b => Q a b | TDone, TDone => True | _, _ => False end.

Lemma mt_update_rel env d d' v : mt_rel d d' -> res_rel mt_rel (mt_update env d v m) (mt_update env d' v k).
Proof.
  intros [F E]. unfold mt_update. apply (bind_rel (Forall2 Q)); [apply na_row_rel, R|]. intros _ _ _. rewrite <- E. replace (na_dim k) with (na_dim m) by apply R.
  apply (bind_rel (Forall2 (entry_rel Q))); [|intros; split; cbn [fst snd]; auto].
  apply (par_for_rel task_rel); [|exact I|exact F]. intros i t t' s s' Ht Hs.
  destruct t as [|a|], t' as [|b|]; cbn [task_rel] in Ht; try contradiction; cbn [mt_step].
  - replace (na_dim k) with (na_dim m) by apply R. apply (bind_rel Q); [apply nth_res_rel, R|]. intros c c' Hc.
    apply (bind_rel (entry_rel Q)); [apply nth_res_rel, Hs|]. intros x y Hx. rewrite (Q_lt _ _ _ _ Hc (proj2 (proj1 Hx))).
    destruct (clt _ _); split; cbn [fst snd task_rel]; auto.
  - apply (bind_rel (Forall2 (entry_rel Q))); [|intros; split; cbn [fst snd task_rel]; auto]. apply modify_rel; [exact Hs|].
    intros x y Hx. split; [split; auto|apply Hx].
  - split; cbn [fst snd task_rel]; auto.
Qed.

Definition ix_rel (x : nat * (edge N * bool)) (y : nat * (edge M * bool)) : Prop := fst x = fst y /\ entry_rel Q (snd x) (snd y).

Lemma entry_reduce_rel items items' t : (forall l l', Forall2 ix_rel l l' -> Forall2 (found_rel Q) (items l) (items' l')) ->
  forall l l', Forall2 ix_rel l l' ->
  opt_rel (found_rel Q) (par_reduce min_entry items t l) (par_reduce min_entry items' t l').
Proof.
  intros H. induction t as [|c t1 IH1 t2 IH2]; intros l l' F; cbn [par_reduce].
  - pose proof (H l l' F) as K. destruct K as [|x y a b Hx K]; [exact I|]. cbn [seq_reduce opt_rel].
    apply (fold_left_rel (found_rel Q) (found_rel Q)); auto. intros; apply min_entry_rel; assumption.
  - pose proof (IH1 _ _ (F2_firstn _ _ _ c F)) as K1. pose proof (IH2 _ _ (F2_skipn _ _ _ c F)) as K2.
    destruct (par_reduce min_entry items t1 (firstn c l)), (par_reduce min_entry items' t1 (firstn c l')); cbn [opt_rel] in K1; try contradiction;
    destruct (par_reduce min_entry items t2 (skipn c l)), (par_reduce min_entry items' t2 (skipn c l')); cbn [opt_rel] in K2; try contradiction;
    cbn [opt_op opt_rel]; auto. apply min_entry_rel; assumption.
Qed.

Lemma mt_find_rel env d d' : mt_rel d d' -> res_rel (found_rel Q) (mt_find env d) (mt_find env d').
Proof.
  intros [F E]. unfold mt_find. cbn [res_rel]. rewrite <- E. pose proof (F2_indexed _ _ _ F 0) as K.
  pose proof (entry_reduce_rel (flat_map (fun '(i, (e, used)) => if used : bool then [] else [(i, e)])) (flat_map (fun '(i, (e, used)) => if used : bool then [] else [(i, e)]))
    (env_tree env (snd d))) as X.
  specialize (X ltac:(intros l l' H; induction H as [|[i [e u]] [j [f w]] l l' [Ei [He Eu]] H IH]; cbn [fst snd] in *; [constructor|]; subst; cbn [flat_map];
    destruct w; cbn [app]; [exact IH|constructor; [split; [reflexivity|exact He]|exact IH]]) _ _ K).
  destruct (par_reduce _ _ _ (combine (seq 0 (length (fst d))) (fst d))), (par_reduce _ _ _ (combine (seq 0 (length (fst d'))) (fst d')));
    cbn [opt_rel] in X; try contradiction; [exact X|]. rewrite (F2_length _ _ _ F). repeat split; auto.
Qed.

Lemma mt_loop_rel env start : forall iters d d' g h, mt_rel d d' -> graph_rel Q g h ->
  res_rel (graph_rel Q) (prim_loop (mt_ops env) m start iters d g) (prim_loop (mt_ops env) k start iters d' h).
Proof.
  induction iters as [|iters IH]; intros d d' g h Hd Hg; cbn [prim_loop]; [exact Hg|]. cbn [mt_ops fm_find fm_mark fm_update].
  apply (bind_rel (found_rel Q)); [apply mt_find_rel, Hd|]. intros [v e] [v' e'] [E He]. cbn [fst snd] in *. subst v'.
  rewrite (Q_eq _ _ _ _ (proj2 He) Q_inf). destruct (ceq _ _); [exact Hg|].
  apply (bind_rel mt_rel).
  { apply (bind_rel (Forall2 (entry_rel Q))); [|intros; split; [assumption|apply Hd]]. apply modify_rel; [apply Hd|]. intros a b [X Y]. split; [exact X|reflexivity]. }
  intros d1 d1' Hd1. apply (bind_rel (graph_rel Q)).
  - destruct (v =? start); [exact Hg|]. apply (bind_rel (graph_rel Q)).
    + apply modify_rel; [exact Hg|]. intros a b Hab. apply F2_app; [exact Hab|]. constructor; [exact He|constructor].
    + intros g1 h1 Hg1. rewrite (proj1 He). apply modify_rel; [exact Hg1|]. intros a b Hab. apply F2_app; [exact Hab|].
      constructor; [split; [reflexivity|apply He]|constructor].
  - intros g1 h1 Hg1. apply (bind_rel mt_rel); [apply mt_update_rel; assumption|]. intros. apply IH; assumption.
Qed.

Lemma prim_par_rel env X : res_rel (graph_rel Q) (prim_with_excluded_node_multi_threaded env m X) (prim_with_excluded_node_multi_threaded env k X).
Proof.
  unfold prim_with_excluded_node_multi_threaded, prim_with_excluded_node. cbn [mt_ops fm_default fm_set_cost fm_exclude]. replace (na_dim k) with (na_dim m) by apply R.
  apply bind_same. intros start. destruct (na_dim m <=? start); [constructor|]. cbn [fst snd].
  apply (bind_rel mt_rel).
  { apply (bind_rel (Forall2 (entry_rel Q))); [|intros; split; [assumption|reflexivity]].
    apply modify_rel; [apply F2_repeat; repeat split; cbn [fst snd]; auto|]. intros a b Hab. split; [split; auto|apply Hab]. }
  intros d d' Hd. apply (bind_rel mt_rel).
  { apply foldM_rel_same; [|exact Hd]. intros a b x Hab. apply (bind_rel (Forall2 (entry_rel Q))); [|intros; split; [assumption|apply Hab]].
    apply modify_rel; [apply Hab|]. intros u v [E _]. split; [exact E|reflexivity]. }
  intros d1 d1' Hd1. apply (bind_rel (graph_rel Q)); [apply mt_loop_rel; [exact Hd1|apply F2_repeat; constructor]|].
  intros g h Hg. apply removelast_rel, Hg.
Qed.

(** ** The Eulerian cycle depends on the numbers of edges only *)

Lemma mg_row_rel g h i : mg_rel g h -> mg_row g i = mg_row h i.
Proof.
  intros G. unfold mg_row. rewrite <- (proj1 G). destruct (i <? mg_dim g); [|reflexivity]. apply res_rel_eq.
  pose proof (mapM_rel eq (fun j => c <- mg_cell g i j ;; Ok (snd c)) (fun j => c <- mg_cell h i j ;; Ok (snd c)) (seq 0 (mg_dim g))) as K.
  specialize (K ltac:(intros j; apply (bind_rel mcell_rel); [apply mg_cell_rel, G|intros a b H; apply H])).
  destruct (mapM _ _), (mapM _ _); cbn [res_rel] in *; try contradiction; auto. induction K; congruence.
Qed.

Lemma take_rel g h i j : mg_rel g h -> res_rel mg_rel (take_one g i j) (take_one h i j).
Proof.
  intros G. unfold take_one. apply (bind_rel mcell_rel); [apply mg_cell_rel, G|]. intros a b [_ E]. rewrite E. destruct (snd b); [exact I|].
  apply mg_modify_rel; [exact G|]. intros x y [X _]. split; auto.
Qed.

Definition cyc_rel (x : list nat * multigraph N * list nat) (y : list nat * multigraph M * list nat) : Prop :=
  fst (fst x) = fst (fst y) /\ mg_rel (snd (fst x)) (snd (fst y)) /\ snd x = snd y.

Lemma find_cycle_rel : forall fuel v g h degree cycle, mg_rel g h -> res_rel cyc_rel (find_cycle_loop fuel v g degree cycle) (find_cycle_loop fuel v h degree cycle).
Proof.
  induction fuel as [|fuel IH]; intros v g h degree cycle G; cbn [find_cycle_loop]; [exact I|]. rewrite (mg_row_rel g h v G). apply bind_same. intros row.
  destruct (first_neighbour row) as [idx|]; [|repeat split; auto; apply G].
  apply (bind_rel mg_rel); [apply take_rel, G|]. intros g1 h1 G1. apply (bind_rel mg_rel); [apply take_rel, G1|]. intros g2 h2 G2.
  apply bind_same. intros d1. apply bind_same. intros d2. apply IH, G2.
Qed.

Lemma euler_rel : forall fuel cf g h degree cycle, mg_rel g h -> euler_loop fuel cf g degree cycle = euler_loop fuel cf h degree cycle.
Proof.
  induction fuel as [|fuel IH]; intros cf g h degree cycle G; cbn [euler_loop]; [reflexivity|]. apply res_rel_eq. apply bind_same. intros [[idx v]|]; [|reflexivity].
  apply (bind_rel cyc_rel); [apply find_cycle_rel, G|]. intros [[c1 g1] d1] [[c2 g2] d2] (E & G1 & D). cbn [fst snd] in *. subst. apply res_rel_eq, IH, G1.
Qed.

Lemma degrees_rel g h : mg_rel g h -> column_degrees g = column_degrees h.
Proof.
  intros G. unfold column_degrees. rewrite <- (proj1 G). apply res_rel_eq.
  assert (X : forall (f f' : nat -> res nat) l, (forall x, f x = f' x) -> mapM f l = mapM f' l).
  { intros f f' l H. induction l as [|x l IHl]; [reflexivity|]. cbn [mapM]. rewrite H, IHl. reflexivity. }
  apply res_rel_eq, X. intros j. rewrite (X (fun i => c <- mg_cell g i j ;; Ok (snd c)) (fun i => c <- mg_cell h i j ;; Ok (snd c))); [reflexivity|].
  intros i. apply res_rel_eq. apply (bind_rel mcell_rel); [apply mg_cell_rel, G|]. intros a b H. apply H.
Qed.

Lemma cycle_rel g h : mg_rel g h -> eulerian_cycle g = eulerian_cycle h.
Proof. intros G. unfold eulerian_cycle. rewrite (degrees_rel g h G). destruct (column_degrees h); cbn [bind]; [apply euler_rel, G|reflexivity..]. Qed.

Lemma christofides_rel debug env fenv mt mode :
  res_rel (sol_rel Q) (christofides debug env fenv mt mode m) (christofides debug env fenv mt mode k).
Proof.
  unfold christofides, christofides_generic. rewrite metric_rel. apply bind_same. intros b. apply bind_same. intros _.
  apply (bind_rel (graph_rel Q)).
  { unfold prim. destruct (mode =? SEQ_COMPUTATION); [apply prim_rel; assumption|]. destruct (mode =? PAR_COMPUTATION); [apply prim_par_rel|].
    destruct (mode =? MPI_COMPUTATION); [apply prim_rel; assumption|exact I]. }
  intros t u F. rewrite (approx_matching_rel mt mode t u F). apply bind_same. intros l.
  apply (bind_rel mg_rel).
  { unfold fill_multigraph. destruct (_ || _); [apply fill_rel; [apply mg_base_rel|exact F]|]. destruct (mode =? PAR_COMPUTATION); [|exact I]. apply fill_par_rel; [apply mg_base_rel|exact F]. }
  intros g h G. rewrite (cycle_rel g h G). apply bind_same. intros c. replace (na_dim k) with (na_dim m) by apply R. apply bind_same. intros ham.
  apply (bind_rel Q).
  { unfold windows_cost. apply (bind_rel (Forall2 Q)); [apply mapM_rel; intros; apply cell_rel|]. intros a b0 H. cbn [res_rel]. apply csum_rel; assumption. }
  intros a b0 H. apply bind_same. intros _. split; auto.
Qed.
End Programs.
