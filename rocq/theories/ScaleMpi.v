(** Two runs of the 1-tree bound, in all three modes, and of nearest neighbour over MPI, on related numbers. *)
From Coq Require Import ZArith Arith Bool List Lia.
From Verif Require Import Num Base Data Mst Exact Par MstPar OneTree Nn ScaleProofs.
Import ListNotations.

Lemma seq_red_rel {A B} (R : A -> B -> Prop) f g l l' : (forall a b x y, R a b -> R x y -> R (f a x) (g b y)) ->
  Forall2 R l l' -> opt_rel R (seq_reduce f l) (seq_reduce g l').
Proof. intros H F. destruct F as [|x y l l' Hx F]; cbn [seq_reduce]; [exact I|]. apply (fold_left_rel R R); auto. Qed.

Lemma par_red_rel {X Y A B} (P : X -> Y -> Prop) (R : A -> B -> Prop) f g h h' t : (forall a b x y, R a b -> R x y -> R (f a x) (g b y)) ->
  (forall l l', Forall2 P l l' -> Forall2 R (h l) (h' l')) ->
  forall l l', Forall2 P l l' -> opt_rel R (par_reduce f h t l) (par_reduce g h' t l').
Proof.
  intros H K. induction t as [|k t1 IH1 t2 IH2]; intros l l' F; cbn [par_reduce]; [apply seq_red_rel; auto|].
  specialize (IH1 _ _ (F2_firstn _ _ _ k F)). specialize (IH2 _ _ (F2_skipn _ _ _ k F)).
  destruct (par_reduce f h t1 _), (par_reduce g h' t1 _); cbn [opt_rel] in IH1; try contradiction;
  destruct (par_reduce f h t2 _), (par_reduce g h' t2 _); cbn [opt_rel opt_op] in *; try contradiction; auto.
Qed.

Lemma unwrap_rel {A B} (R : A -> B -> Prop) x y : opt_rel R x y -> res_rel R (unwrap x) (unwrap y).
Proof. destruct x, y; cbn; auto. Qed.

Section Bounds.
Context {N M : Num} (Q : C N -> C M -> Prop).
Hypothesis Q_inf : Q cinf cinf.
Hypothesis Q_lt : forall a b x y, Q a x -> Q b y -> clt a b = clt x y.
Hypothesis Q_eq : forall a b x y, Q a x -> Q b y -> ceq a b = ceq x y.

Lemma cmp_rel a b x y : Q a x -> Q b y -> cpartial_cmp a b = cpartial_cmp x y.
Proof. intros H K. unfold cpartial_cmp. rewrite (Q_lt _ _ _ _ H K), (Q_lt _ _ _ _ K H), (Q_eq _ _ _ _ H K). reflexivity. Qed.

Lemma max_step_rel a b x y : opt_rel Q a b -> opt_rel Q x y -> opt_rel Q (max_step a x) (max_step b y).
Proof.
  destruct a as [a|], b as [b|]; cbn [opt_rel]; try contradiction; destruct x as [x|], y as [y|]; cbn [opt_rel]; try contradiction; intros H K; try exact I.
  cbn [max_step]. rewrite (cmp_rel _ _ _ _ H K). destruct (cpartial_cmp b y) as [[]|]; cbn [opt_rel]; auto.
Qed.

Lemma expect_max_rel x y : opt_rel (opt_rel Q) x y -> res_rel Q (expect_max x) (expect_max y).
Proof. destruct x as [[]|], y as [[]|]; cbn; auto; contradiction. Qed.

Lemma somes_rel l l' : Forall2 Q l l' -> Forall2 (opt_rel Q) (map Some l) (map Some l').
Proof. induction 1; constructor; auto. Qed.

Section Weights.
Variables (m : namatrix N) (k : namatrix M).
Hypothesis H_dim : na_dim m = na_dim k.
Hypothesis H_weight : forall s, res_rel Q (one_tree_weight m s) (one_tree_weight k s).

Lemma bound_seq_rel : res_rel Q (one_tree_lower_bound_seq m) (one_tree_lower_bound_seq k).
Proof.
  unfold one_tree_lower_bound_seq. rewrite <- H_dim. apply (bind_rel (Forall2 Q)); [apply mapM_rel, H_weight|]. intros.
  apply expect_max_rel, seq_red_rel; [apply max_step_rel|apply somes_rel; assumption].
Qed.

Lemma bound_par_rel t : res_rel Q (one_tree_lower_bound_par t m) (one_tree_lower_bound_par t k).
Proof.
  unfold one_tree_lower_bound_par. rewrite <- H_dim. apply (bind_rel (Forall2 Q)); [apply mapM_rel, H_weight|]. intros.
  apply expect_max_rel. apply (par_red_rel Q); [apply max_step_rel|apply somes_rel|assumption].
Qed.

Lemma bound_mpi_rel order t size : res_rel (Forall2 Q) (one_tree_lower_bound_mpi order t m size) (one_tree_lower_bound_mpi order t k size).
Proof.
  unfold one_tree_lower_bound_mpi. apply (bind_rel (Forall2 Q)).
  - apply mapM_rel. intros r. unfold local_lower_bound. rewrite <- H_dim. apply (bind_rel (Forall2 Q)); [apply mapM_rel, H_weight|]. intros.
    apply expect_max_rel, seq_red_rel; [apply max_step_rel|apply somes_rel; assumption].
  - intros l l' F.
    assert (K : opt_rel Q (par_reduce mpi_max (fun l => l) t l) (par_reduce mpi_max (fun l => l) t l')).
    { apply (par_red_rel Q); [|auto|exact F]. intros a b x y H1 H2. unfold mpi_max. rewrite (Q_lt _ _ _ _ H1 H2). destruct (clt _ _); assumption. }
    destruct (par_reduce mpi_max _ t l), (par_reduce mpi_max _ t l'); cbn [opt_rel res_rel] in *; try contradiction; auto.
    constructor; [exact K|apply F2_repeat, Q_inf].
Qed.
End Weights.

Section Nearest.
Variables (m : namatrix N) (k : namatrix M).
Hypothesis H_dim : na_dim m = na_dim k.
Hypothesis H_single : forall i, res_rel (sol_rel Q) (single_nearest_neighbour m i) (single_nearest_neighbour k i).

Let pair_rel (x : C N * nat) (y : C M * nat) : Prop := Q (fst x) (fst y) /\ snd x = snd y.

Lemma rank_op_rel a b x y : pair_rel a b -> pair_rel x y -> pair_rel (mpi_cost_rank_op a x) (mpi_cost_rank_op b y).
Proof.
  intros H K. unfold mpi_cost_rank_op. rewrite (Q_lt _ _ _ _ (proj1 H) (proj1 K)).
  assert (T : pair_rel (if clt (fst b) (fst y) then a else x) (if clt (fst b) (fst y) then b else y)) by (destruct (clt _ _); assumption).
  rewrite (Q_eq _ _ _ _ (proj1 H) (proj1 T)), (proj2 H), (proj2 T). destruct (_ && _); assumption.
Qed.

Lemma nn_mpi_rel order tree size : res_rel (Forall2 (sol_rel Q)) (nearest_neighbour_mpi order tree m size) (nearest_neighbour_mpi order tree k size).
Proof.
  unfold nearest_neighbour_mpi. apply (bind_rel (Forall2 (sol_rel Q))).
  { apply mapM_rel. intros r. unfold nn_local. rewrite <- H_dim. apply (bind_rel (Forall2 (sol_rel Q))); [apply mapM_rel, H_single|]. intros l l' F.
    apply unwrap_rel, seq_red_rel; [|exact F]. intros a b x y H K. unfold min_solution, olt, cnan.
    rewrite (Q_eq _ _ _ _ (proj1 H) (proj1 H)), (Q_eq _ _ _ _ (proj1 K) (proj1 K)), (Q_lt _ _ _ _ (proj1 K) (proj1 H)).
    destruct (if negb _ then _ else _); assumption. }
  intros l l' F. apply (bind_rel (Forall2 pair_rel)).
  { apply mapM_rel. intros r. apply (bind_rel (Forall2 pair_rel)).
    - apply mapM_rel. intros q. pose proof (nth_res_rel _ _ _ q F) as K. unfold nth_res in K.
      destruct (nth_error l q), (nth_error l' q); cbn [res_rel unwrap] in *; try contradiction; [|exact I]. split; [apply K|reflexivity].
    - intros v v' Fv. apply unwrap_rel. apply (par_red_rel pair_rel); [apply rank_op_rel|auto|exact Fv]. }
  intros v v' Fv. apply (bind_rel pair_rel). { destruct Fv; [exact I|assumption]. }
  intros w w' Hw.
  assert (E : forallb (fun rv => snd rv =? snd w) v = forallb (fun rv => snd rv =? snd w') v').
  { rewrite (proj2 Hw). clear -Fv. induction Fv as [|x y v v' Hx F IH]; [reflexivity|]. cbn [forallb]. rewrite (proj2 Hx), IH. reflexivity. }
  rewrite E. destruct (forallb _ v'); [|exact I]. rewrite (proj2 Hw). apply (bind_rel (sol_rel Q)); [apply nth_res_rel, F|].
  intros s s' Hs. cbn [res_rel]. clear -Fv Hs. induction Fv as [|x y v v' Hx F IH]; constructor; [|exact IH]. split; [apply Hx|apply Hs].
Qed.
End Nearest.
End Bounds.
