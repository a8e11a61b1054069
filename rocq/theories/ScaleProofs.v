(** Two runs of the same program on related numbers: relational versions of the loops and of the solvers. *)
From Coq Require Import ZArith Arith Bool List NArith Lia.
From Verif Require Import Num Base Data Mst Exact Par Rand MstPar OneTree Nn.
Import ListNotations.

Section Rel.
Context {A B : Type} (R : A -> B -> Prop).
Definition res_rel (x : res A) (y : res B) : Prop :=
  match x, y with Ok a, Ok b => R a b | Panic, Panic => True | OutOfFuel, OutOfFuel => True | _, _ => False end.
End Rel.

Lemma bind_rel {A B A' B'} (R : A -> B -> Prop) (S : A' -> B' -> Prop) x y f g :
  res_rel R x y -> (forall a b, R a b -> res_rel S (f a) (g b)) -> res_rel S (bind x f) (bind y g).
Proof. destruct x, y; simpl; intros H K; try contradiction; auto. Qed.

Lemma bind_same {A A' B'} (S : A' -> B' -> Prop) (x : res A) f g :
  (forall a, res_rel S (f a) (g a)) -> res_rel S (bind x f) (bind x g).
Proof. destruct x; simpl; auto. Qed.

Lemma foldM_rel {X Y A B} (Q : X -> Y -> Prop) (R : A -> B -> Prop) f g : (forall a b x y, R a b -> Q x y -> res_rel R (f a x) (g b y)) ->
  forall l l', Forall2 Q l l' -> forall a b, R a b -> res_rel R (foldM f l a) (foldM g l' b).
Proof.
  intros H l l' F. induction F as [|x y l l' Hx F IH]; intros a b Hab; simpl; [exact Hab|].
  apply (bind_rel R); [apply H; assumption|exact IH].
Qed.

Lemma Forall2_eq {X} (l : list X) : Forall2 eq l l.
Proof. induction l; constructor; auto. Qed.

Lemma foldM_rel_same {X A B} (R : A -> B -> Prop) f g l a b : (forall a b x, R a b -> res_rel R (f a x) (g b x)) ->
  R a b -> res_rel R (foldM f l a) (foldM (A := X) g l b).
Proof. intros H. apply (foldM_rel eq); [intros; subst; apply H; assumption|apply Forall2_eq]. Qed.

Lemma mapM_rel {X A B} (R : A -> B -> Prop) f g (l : list X) : (forall x, res_rel R (f x) (g x)) -> res_rel (Forall2 R) (mapM f l) (mapM g l).
Proof.
  intros H. induction l as [|x l IH]; simpl; [constructor|].
  apply (bind_rel R); [apply H|]. intros a b Hab. apply (bind_rel (Forall2 R)); [exact IH|]. intros. constructor; assumption.
Qed.

Lemma nth_res_rel {A B} (R : A -> B -> Prop) l l' i : Forall2 R l l' -> res_rel R (nth_res l i) (nth_res l' i).
Proof. intros F. revert i. induction F; intros [|i]; simpl; auto. apply IHF. Qed.

Lemma upd_rel {A B} (R : A -> B -> Prop) l l' i x y : Forall2 R l l' -> R x y -> Forall2 R (upd l i x) (upd l' i y).
Proof. intros F H. revert i. induction F; intros [|i]; simpl; constructor; auto. Qed.

Lemma modify_rel {A B} (R : A -> B -> Prop) l l' i f g : Forall2 R l l' -> (forall a b, R a b -> R (f a) (g b)) -> res_rel (Forall2 R) (modify_res l i f) (modify_res l' i g).
Proof.
  intros F H. pose proof (nth_res_rel R l l' i F) as K. unfold modify_res, nth_res in *. destruct (nth_error l i), (nth_error l' i); simpl in *; try contradiction; auto.
  apply upd_rel; auto.
Qed.

Lemma fold_left_rel {X Y A B} (Q : X -> Y -> Prop) (R : A -> B -> Prop) f g : (forall a b x y, R a b -> Q x y -> R (f a x) (g b y)) ->
  forall l l', Forall2 Q l l' -> forall a b, R a b -> R (fold_left f l a) (fold_left g l' b).
Proof. intros H l l' F. induction F; simpl; auto. Qed.

Lemma F2_length {A B} (R : A -> B -> Prop) l l' : Forall2 R l l' -> length l = length l'.
Proof. induction 1; simpl; congruence. Qed.

Lemma F2_repeat {A B} (R : A -> B -> Prop) x y n : R x y -> Forall2 R (repeat x n) (repeat y n).
Proof. intros. induction n; simpl; constructor; auto. Qed.

Lemma F2_indexed {A B} (R : A -> B -> Prop) l l' : Forall2 R l l' -> forall s,
  Forall2 (fun x y => fst x = fst y /\ R (snd x) (snd y)) (combine (seq s (length l)) l) (combine (seq s (length l')) l').
Proof. induction 1; intros s; simpl; constructor; auto. Qed.

Lemma F2_app {A B} (R : A -> B -> Prop) l l' k k' : Forall2 R l l' -> Forall2 R k k' -> Forall2 R (l ++ k) (l' ++ k').
Proof. intros. apply Forall2_app; assumption. Qed.

Section Programs.
Context {N M : Num} (Q : C N -> C M -> Prop).
Hypothesis Q_0 : Q c0 c0.
Hypothesis Q_inf : Q cinf cinf.
Hypothesis Q_add : forall a b x y, Q a x -> Q b y -> Q (cadd a b) (cadd x y).
Hypothesis Q_sub : forall a b x y, Q a x -> Q b y -> Q (csub a b) (csub x y).
Hypothesis Q_lt : forall a b x y, Q a x -> Q b y -> clt a b = clt x y.
Hypothesis Q_le : forall a b x y, Q a x -> Q b y -> cle a b = cle x y.
Hypothesis Q_eq : forall a b x y, Q a x -> Q b y -> ceq a b = ceq x y.

Definition adj_rel (g : adj N) (h : adj M) : Prop := a_dim g = a_dim h /\ forall i j, res_rel Q (a_get g i j) (a_get h i j).
Definition na_rel (m : namatrix N) (k : namatrix M) : Prop := na_dim m = na_dim k /\ Forall2 Q (na_data m) (na_data k).
Definition sol_rel (s : solution N) (t : solution M) : Prop := Q (fst s) (fst t) /\ snd s = snd t.
Definition edge_rel (e : edge N) (f : edge M) : Prop := e_to e = e_to f /\ Q (e_cost e) (e_cost f).
Definition graph_rel : graph N -> graph M -> Prop := Forall2 (Forall2 edge_rel).

Lemma Q_olt a b x y : Q a x -> Q b y -> olt a b = olt x y.
Proof. intros H K. unfold olt, cnan. rewrite (Q_eq _ _ _ _ H H), (Q_eq _ _ _ _ K K), (Q_lt _ _ _ _ H K). reflexivity. Qed.

Lemma na_get_rel m k i j : na_rel m k -> res_rel Q (na_get m i j) (na_get k i j).
Proof. intros [E F]. unfold na_get. rewrite <- E. destruct (_ && _); simpl; [|exact I]. apply nth_res_rel. exact F. Qed.

Lemma na_adj_rel m k : na_rel m k -> adj_rel (na_adj m) (na_adj k).
Proof. intros H. split; [apply H|]. intros i j. apply na_get_rel, H. Qed.

Lemma na_row_rel m k i : na_rel m k -> res_rel (Forall2 Q) (na_row m i) (na_row k i).
Proof. intros H. unfold na_row. rewrite <- (proj1 H). destruct (i <? na_dim m); simpl; [|exact I]. apply mapM_rel. intros. apply na_get_rel, H. Qed.

(** ** Exact solvers *)

Lemma path_rel g h p : adj_rel g h -> res_rel Q (evaluate_path g p) (evaluate_path h p).
Proof.
  intros [_ G]. unfold evaluate_path. destruct (length p <=? 1); simpl; [exact Q_0|]. apply foldM_rel_same; [|exact Q_0].
  intros a b x H. apply bind_same. intros u. apply bind_same. intros v. apply (bind_rel Q); [apply G|]. intros. simpl. apply Q_add; assumption.
Qed.

Lemma circle_rel g h p : adj_rel g h -> res_rel Q (evaluate_circle g p) (evaluate_circle h p).
Proof.
  intros G. unfold evaluate_circle. destruct (length p <=? 1); simpl; [exact Q_0|]. apply bind_same. intros u. apply bind_same. intros v.
  apply (bind_rel Q); [apply G|]. intros a b H. apply (bind_rel Q); [apply path_rel, G|]. intros. simpl. apply Q_add; assumption.
Qed.

Lemma keep_rel c d p (s : solution N) t : Q c d -> sol_rel s t -> sol_rel (if clt c (fst s) then (c, p) else s) (if clt d (fst t) then (d, p) else t).
Proof. intros H [K E]. rewrite (Q_lt _ _ _ _ H K). destruct (clt d (fst t)); split; auto. Qed.

Lemma naive_rel g h : adj_rel g h -> res_rel sol_rel (naive_solver g) (naive_solver h).
Proof.
  intros G. unfold naive_solver. rewrite <- (proj1 G).
  enough (K : forall f cur s t, sol_rel s t -> res_rel sol_rel (naive_loop f g cur s) (naive_loop f h cur t)) by (apply K; split; auto).
  induction f as [|f IH]; intros cur s t H; simpl; [exact I|]. apply bind_same. intros [[] l]; [|exact H].
  apply (bind_rel Q); [apply circle_rel, G|]. intros a b Hab. apply IH, keep_rel; assumption.
Qed.

Lemma first_rel g h : adj_rel g h -> res_rel sol_rel (first_improved_solver g) (first_improved_solver h).
Proof.
  intros G. unfold first_improved_solver. rewrite <- (proj1 G).
  enough (K : forall f cur s t, sol_rel s t -> res_rel sol_rel (first_loop f g cur s) (first_loop f h cur t)) by (apply K; split; auto).
  induction f as [|f IH]; intros cur s t H; [exact I|]. cbn [first_loop]. destruct cur as [|x cur]; [exact I|]. apply bind_same. intros [[] l]; [|exact H].
  apply (bind_rel Q); [apply circle_rel, G|]. intros a b Hab. apply IH, keep_rel; assumption.
Qed.

Lemma leaf_rel g h p c d s t : adj_rel g h -> Q c d -> sol_rel s t -> res_rel sol_rel (leaf g p c s) (leaf h p d t).
Proof.
  intros G Hc H. unfold leaf. apply bind_same. intros u. apply bind_same. intros v. apply (bind_rel Q); [apply G|]. intros a b Hab.
  cbn [res_rel]. apply keep_rel; auto.
Qed.

Lemma last_edge_rel g h p : adj_rel g h -> res_rel Q (last_edge g p) (last_edge h p).
Proof. intros G. unfold last_edge. apply bind_same. intros u. apply bind_same. intros v. apply G. Qed.

Definition st_rel (a : C N * solution N) (b : C M * solution M) : Prop := Q (fst a) (fst b) /\ sol_rel (snd a) (snd b).

Lemma second_rel g h : adj_rel g h -> res_rel sol_rel (second_improved_solver g) (second_improved_solver h).
Proof.
  intros G. unfold second_improved_solver. rewrite <- (proj1 G).
  enough (K : forall f p c d s t, Q c d -> sol_rel s t -> res_rel sol_rel (second_rec f g p c s) (second_rec f h p d t)) by (apply K; try split; auto).
  induction f as [|f IH]; intros p c d s t Hc H; [exact I|]. cbn [second_rec]. rewrite <- (proj1 G).
  destruct (length p =? a_dim g); [apply leaf_rel; assumption|].
  apply (bind_rel st_rel); [|intros [] [] [_ K]; exact K]. apply foldM_rel_same; [|split; assumption].
  intros [c1 s1] [d1 t1] i [H1 H2]; cbn [fst snd] in *. destruct (memb i p); [split; assumption|].
  destruct (_ =? 1).
  - apply (bind_rel sol_rel); [apply IH; assumption|]. intros. split; assumption.
  - apply (bind_rel Q); [apply last_edge_rel, G|]. intros e e' He. apply (bind_rel sol_rel); [apply IH; auto|]. intros. split; cbn [fst snd]; auto.
Qed.

Lemma third_rel g h : adj_rel g h -> res_rel sol_rel (third_improved_solver g) (third_improved_solver h).
Proof.
  intros G. unfold third_improved_solver. rewrite <- (proj1 G).
  enough (K : forall f p c d s t, Q c d -> sol_rel s t -> res_rel sol_rel (third_rec f g p c s) (third_rec f h p d t)) by (apply K; try split; auto).
  induction f as [|f IH]; intros p c d s t Hc H; [exact I|]. cbn [third_rec]. rewrite <- (proj1 G).
  destruct (length p =? a_dim g); [apply leaf_rel; assumption|].
  apply (bind_rel st_rel); [|intros [] [] [_ K]; exact K]. apply foldM_rel_same; [|split; assumption].
  intros [c1 s1] [d1 t1] i [H1 H2]; cbn [fst snd] in *. destruct (memb i p); [split; assumption|].
  destruct (_ =? 1).
  - apply (bind_rel sol_rel); [apply IH; assumption|]. intros. split; assumption.
  - apply (bind_rel Q); [apply last_edge_rel, G|]. intros e e' He. apply (bind_rel sol_rel); [|intros; split; cbn [fst snd]; auto].
    rewrite (Q_le _ _ _ _ (Q_add _ _ _ _ H1 He) (proj1 H2)). destruct (cle _ _); [apply IH; auto|exact H2].
Qed.

Lemma nn_rel g h p n : adj_rel g h -> res_rel Q (compute_nn_of_remaining_vertices g p n) (compute_nn_of_remaining_vertices h p n).
Proof.
  intros G. apply foldM_rel_same; [|exact Q_0]. intros a b i H. destruct (memb i p); [exact H|].
  apply (bind_rel Q).
  - apply foldM_rel_same; [|exact Q_inf]. intros a' b' j H'. destruct (memb j p); [exact H'|]. apply (bind_rel Q); [apply G|]. intros x y Hx.
    cbn [res_rel]. rewrite (Q_lt _ _ _ _ Hx H'). destruct (clt _ _); assumption.
  - intros x y Hx. cbn [res_rel]. rewrite (Q_eq _ _ _ _ Hx Q_inf). destruct (negb _); auto.
Qed.

Lemma fourth_rel g h : adj_rel g h -> res_rel sol_rel (fourth_improved_solver g) (fourth_improved_solver h).
Proof.
  intros G. unfold fourth_improved_solver. rewrite <- (proj1 G).
  enough (K : forall f p c d s t, Q c d -> sol_rel s t -> res_rel sol_rel (fourth_rec f g p c s) (fourth_rec f h p d t)) by (apply K; try split; auto).
  induction f as [|f IH]; intros p c d s t Hc H; [exact I|]. cbn [fourth_rec]. rewrite <- (proj1 G).
  destruct (length p =? a_dim g); [apply leaf_rel; assumption|].
  apply (bind_rel st_rel); [|intros [] [] [_ K]; exact K]. apply foldM_rel_same; [|split; assumption].
  intros [c1 s1] [d1 t1] i [H1 H2]; cbn [fst snd] in *. destruct (memb i p); [split; assumption|].
  destruct (_ =? 1).
  - apply (bind_rel sol_rel); [apply IH; assumption|]. intros. split; assumption.
  - apply (bind_rel Q); [apply last_edge_rel, G|]. intros e e' He. apply (bind_rel Q); [apply nn_rel, G|]. intros l l' Hl.
    apply (bind_rel sol_rel); [|intros; split; cbn [fst snd]; auto].
    rewrite (Q_le _ _ _ _ (Q_add _ _ _ _ (Q_add _ _ _ _ H1 He) Hl) (proj1 H2)). destruct (cle _ _); [apply IH; auto|exact H2].
Qed.

(** ** Prim *)

Definition entry_rel (x : edge N * bool) (y : edge M * bool) : Prop := edge_rel (fst x) (fst y) /\ snd x = snd y.
Definition found_rel (x : nat * edge N) (y : nat * edge M) : Prop := fst x = fst y /\ edge_rel (snd x) (snd y).

Lemma unused_rel d d' : Forall2 entry_rel d d' -> Forall2 found_rel (unused d) (unused d').
Proof.
  intros F. unfold unused. pose proof (F2_indexed _ _ _ F 0) as K. induction K as [|[i [e u]] [j [f v]] l l' [E [H1 H2]] K IH]; cbn [flat_map]; [constructor|].
  cbn [fst snd] in *. subst. apply F2_app; [|exact IH]. destruct v; repeat constructor; cbn [fst snd]; apply H1.
Qed.

Lemma min_entry_rel a b x y : found_rel a b -> found_rel x y -> found_rel (min_entry a x) (min_entry b y).
Proof. intros H K. unfold min_entry. rewrite (Q_olt _ _ _ _ (proj2 (proj2 K)) (proj2 (proj2 H))). destruct (olt _ _); assumption. Qed.

Lemma vec_find_rel d d' : Forall2 entry_rel d d' -> res_rel found_rel (vec_find d) (vec_find d').
Proof.
  intros F. unfold vec_find. cbn [res_rel]. pose proof (unused_rel d d' F) as K. rewrite (F2_length _ _ _ F).
  destruct K as [|x y l l' Hx K]; cbn [first_min].
  - repeat split; auto.
  - apply (fold_left_rel found_rel found_rel); auto. intros; apply min_entry_rel; assumption.
Qed.

Lemma vec_update_rel d d' v m k : na_rel m k -> Forall2 entry_rel d d' -> res_rel (Forall2 entry_rel) (vec_update d v m) (vec_update d' v k).
Proof.
  intros H F. unfold vec_update. apply (bind_rel (Forall2 Q)); [apply na_row_rel, H|]. intros r r' Hr.
  apply (foldM_rel (fun x y => fst x = fst y /\ Q (snd x) (snd y)) (Forall2 entry_rel)); [|apply F2_indexed, Hr|exact F].
  intros a b [i c] [j c'] Hab [E Hc]. cbn [fst snd] in *. subst j. unfold relax. apply (bind_rel entry_rel); [apply nth_res_rel, Hab|].
  intros x y Hx. rewrite (Q_lt _ _ _ _ Hc (proj2 (proj1 Hx))). destruct (clt _ _); [|exact Hab]. cbn [res_rel]. apply upd_rel; [exact Hab|].
  repeat split; cbn [fst snd]; auto. apply Hx.
Qed.

Lemma prim_loop_rel m k start : na_rel m k -> forall iters d d' g h, Forall2 entry_rel d d' -> graph_rel g h ->
  res_rel graph_rel (prim_loop vec_ops m start iters d g) (prim_loop vec_ops k start iters d' h).
Proof.
  intros H. induction iters as [|iters IH]; intros d d' g h Hd Hg; cbn [prim_loop]; [exact Hg|].
  apply (bind_rel found_rel); [apply vec_find_rel, Hd|]. intros [v e] [v' e'] [E He]. cbn [fst snd] in *. subst v'.
  rewrite (Q_eq _ _ _ _ (proj2 He) Q_inf). destruct (ceq _ _); [exact Hg|].
  apply (bind_rel (Forall2 entry_rel)). { apply modify_rel; [exact Hd|]. intros a b [X Y]. split; [exact X|reflexivity]. }
  intros d1 d1' Hd1. apply (bind_rel graph_rel).
  - destruct (v =? start); [exact Hg|]. apply (bind_rel graph_rel).
    + apply modify_rel; [exact Hg|]. intros a b Hab. apply F2_app; [exact Hab|]. constructor; [exact He|constructor].
    + intros g1 h1 Hg1. rewrite (proj1 He). apply modify_rel; [exact Hg1|]. intros a b Hab. apply F2_app; [exact Hab|].
      constructor; [split; [reflexivity|apply He]|constructor].
  - intros g1 h1 Hg1. apply (bind_rel (Forall2 entry_rel)); [apply vec_update_rel; assumption|]. intros. apply IH; assumption.
Qed.

Lemma removelast_rel {A B} (R : A -> B -> Prop) l l' : Forall2 R l l' -> Forall2 R (removelast l) (removelast l').
Proof. induction 1 as [|x y l l' Hx F IH]; [constructor|]. cbn [removelast]. destruct F; [constructor|]. constructor; assumption. Qed.

Lemma prim_rel m k X : na_rel m k -> res_rel graph_rel (prim_with_excluded_node_single_threaded m X) (prim_with_excluded_node_single_threaded k X).
Proof.
  intros H. unfold prim_with_excluded_node_single_threaded, prim_with_excluded_node. cbn [vec_ops fm_default fm_set_cost fm_exclude]. rewrite <- (proj1 H).
  apply bind_same. intros start. destruct (na_dim m <=? start); [constructor|].
  apply (bind_rel (Forall2 entry_rel)).
  { apply modify_rel; [apply F2_repeat; repeat split; cbn [fst snd]; auto|]. intros a b Hab. split; [split; auto|apply Hab]. }
  intros d d' Hd. apply (bind_rel (Forall2 entry_rel)).
  { apply foldM_rel_same; [|exact Hd]. intros a b x Hab. apply modify_rel; [exact Hab|]. intros u v [E _]. split; [exact E|reflexivity]. }
  intros d1 d1' Hd1. apply (bind_rel graph_rel); [apply prim_loop_rel; [exact H|exact Hd1|apply F2_repeat; constructor]|].
  intros g h Hg. apply removelast_rel, Hg.
Qed.

Lemma csum_rel l l' : Forall2 Q l l' -> Q (csum l) (csum l').
Proof. intros F. unfold csum. apply (fold_left_rel Q Q); auto. Qed.

Lemma F2_map {A B A' B'} (R : A -> B -> Prop) (S : A' -> B' -> Prop) f g l l' : Forall2 R l l' -> (forall a b, R a b -> S (f a) (g b)) -> Forall2 S (map f l) (map g l').
Proof. intros F H. induction F; simpl; constructor; auto. Qed.

Lemma weight_rel g h : graph_rel g h -> Q (directed_edge_weight g) (directed_edge_weight h).
Proof.
  intros F. apply csum_rel. apply (F2_map _ Q _ _ _ _ F). intros a b Hab. apply csum_rel. apply (F2_map _ Q _ _ _ _ Hab). intros x y Hx. apply Hx.
Qed.

Lemma one_tree_rel m k s : na_rel m k -> res_rel graph_rel (one_tree m s) (one_tree k s).
Proof.
  intros H. unfold one_tree. apply (bind_rel graph_rel); [apply prim_rel, H|]. intros g h Hg. apply (bind_rel (Forall2 Q)); [apply na_row_rel, H|].
  intros r r' Hr.
  assert (K : (fun x y => edge_rel (fst x) (fst y) /\ edge_rel (snd x) (snd y))
    (fold_left (best_two s) (combine (seq 0 (length r)) r) (mkEdge s cinf, mkEdge s cinf))
    (fold_left (best_two s) (combine (seq 0 (length r')) r') (mkEdge s cinf, mkEdge s cinf))).
  { apply (fold_left_rel (fun x y => fst x = fst y /\ Q (snd x) (snd y))); [|apply F2_indexed, Hr|repeat split; auto].
    intros [e1 e2] [f1 f2] [i c] [j d] [H1 H2] [E Hc]. cbn [fst snd] in *. subst j. unfold best_two.
    destruct (i =? s); [split; assumption|]. rewrite (Q_lt _ _ _ _ Hc (proj2 H1)), (Q_lt _ _ _ _ Hc (proj2 H2)).
    destruct (clt d (e_cost f1)); [|destruct (clt d (e_cost f2))]; cbn [fst snd]; repeat split; try assumption; try apply H1; try apply H2. }
  destruct (fold_left (best_two s) (combine (seq 0 (length r)) r) _) as [e1 e2], (fold_left (best_two s) (combine (seq 0 (length r')) r') _) as [f1 f2].
  cbn [fst snd] in K. destruct K as [[E1 C1] [E2 C2]].
  assert (U : forall g h e f, graph_rel g h -> edge_rel e f -> res_rel graph_rel (add_undirected_edge g s (e_to e) (e_cost e)) (add_undirected_edge h s (e_to f) (e_cost f))).
  { intros g1 h1 e f Hg1 [Ee Ce]. unfold add_undirected_edge. rewrite Ee. apply (bind_rel graph_rel).
    - apply modify_rel; [exact Hg1|]. intros. apply F2_app; [assumption|]. repeat constructor; auto.
    - intros g2 h2 Hg2. apply modify_rel; [exact Hg2|]. intros. apply F2_app; [assumption|]. repeat constructor; auto. }
  apply (bind_rel graph_rel); [apply U; [exact Hg|split; assumption]|]. intros. apply U; [assumption|split; assumption].
Qed.

(** ** The solvers with the tree bound *)

Lemma fifth_rel m k : na_rel m k -> res_rel sol_rel (fifth_improved_solver m) (fifth_improved_solver k).
Proof.
  intros H. pose proof (na_adj_rel m k H) as G. unfold fifth_improved_solver. rewrite <- (proj1 H).
  enough (K : forall f p c d s t, Q c d -> sol_rel s t -> res_rel sol_rel (fifth_rec f m p c s) (fifth_rec f k p d t)) by (apply K; try split; auto).
  induction f as [|f IH]; intros p c d s t Hc Hs; [exact I|]. cbn [fifth_rec]. rewrite <- (proj1 H).
  destruct (length p =? na_dim m); [apply leaf_rel; assumption|].
  apply (bind_rel st_rel); [|intros [] [] [_ K]; exact K]. apply foldM_rel_same; [|split; assumption].
  intros [c1 s1] [d1 t1] i [H1 H2]; cbn [fst snd] in *. destruct (memb i p); [split; assumption|].
  destruct (_ =? 1).
  - apply (bind_rel sol_rel); [apply IH; assumption|]. intros. split; assumption.
  - apply (bind_rel Q); [apply last_edge_rel, G|]. intros e e' He. apply (bind_rel graph_rel); [apply prim_rel, H|]. intros l l' Hl. apply weight_rel in Hl.
    apply (bind_rel sol_rel); [|intros; split; cbn [fst snd]; auto].
    rewrite (Q_le _ _ _ _ (Q_add _ _ _ _ (Q_add _ _ _ _ H1 He) Hl) (proj1 H2)). destruct (cle _ _); [apply IH; auto|exact H2].
Qed.

Definition cache_rel : @cache N -> @cache M -> Prop := Forall2 (fun x y => fst x = fst y /\ Q (snd x) (snd y)).

Lemma or_insert_rel c c' x v v' : cache_rel c c' -> Q v v' ->
  Q (fst (or_insert c x v)) (fst (or_insert c' x v')) /\ cache_rel (snd (or_insert c x v)) (snd (or_insert c' x v')).
Proof.
  intros F Hv. unfold or_insert.
  assert (K : match cache_find c x, cache_find c' x with Some a, Some b => Q a b | None, None => True | _, _ => False end).
  { induction F as [|[k a] [k' b] l l' [E Hab] F IH]; cbn [cache_find]; [exact I|]. cbn [fst snd] in *. subst k'. destruct (N.eqb k x); [exact Hab|exact IH]. }
  destruct (cache_find c x), (cache_find c' x); try contradiction; cbn [fst snd]; split; auto. constructor; auto.
Qed.

Definition sc_rel (a : solution N * @cache N) (b : solution M * @cache M) : Prop := sol_rel (fst a) (fst b) /\ cache_rel (snd a) (snd b).
Definition st6_rel (a : C N * solution N * @cache N) (b : C M * solution M * @cache M) : Prop := st_rel (fst a) (fst b) /\ cache_rel (snd a) (snd b).

Lemma sixth_rel hash m k : na_rel m k -> res_rel sol_rel (sixth_improved_solver_with hash m) (sixth_improved_solver_with hash k).
Proof.
  intros H. pose proof (na_adj_rel m k H) as G. unfold sixth_improved_solver_with. rewrite <- (proj1 H).
  enough (K : forall f p c d s t z z', Q c d -> sol_rel s t -> cache_rel z z' -> res_rel sc_rel (sixth_rec hash f m p c s z) (sixth_rec hash f k p d t z')).
  { apply (bind_rel sc_rel); [apply K; try split; auto; constructor|]. intros [] [] [X _]. exact X. }
  induction f as [|f IH]; intros p c d s t z z' Hc Hs Hz; [exact I|]. cbn [sixth_rec]. rewrite <- (proj1 H).
  destruct (length p =? na_dim m). { apply (bind_rel sol_rel); [apply leaf_rel; assumption|]. intros. split; assumption. }
  apply (bind_rel st6_rel); [|intros [[? ?] ?] [[? ?] ?] [[_ K] K']; split; assumption]. apply foldM_rel_same; [|repeat split; try assumption; apply Hs].
  intros [[c1 s1] z1] [[d1 t1] z1'] i [[H1 H2] H3]; cbn [fst snd] in *. destruct (memb i p); [repeat split; try assumption; apply H2|].
  destruct (_ =? 1).
  - apply (bind_rel sc_rel); [apply IH; assumption|]. intros [] [] [X Y]. cbn [fst snd] in *. repeat split; try assumption; apply X.
  - apply (bind_rel Q); [apply last_edge_rel, G|]. intros e e' He. apply (bind_rel graph_rel); [apply prim_rel, H|]. intros l l' Hl. apply weight_rel in Hl.
    pose proof (or_insert_rel z1 z1' (hash (p ++ [i])) _ _ H3 Hl) as [L1 L2].
    destruct (or_insert z1 _ _) as [b z2], (or_insert z1' _ _) as [b' z2']. cbn [fst snd] in *.
    apply (bind_rel sc_rel).
    + rewrite (Q_le _ _ _ _ (Q_add _ _ _ _ (Q_add _ _ _ _ H1 He) L1) (proj1 H2)). destruct (cle _ _); [apply IH; auto|split; assumption].
    + intros [s3 z3] [t3 z3'] [X Y]. cbn [fst snd] in *. repeat split; cbn [fst snd]; auto; apply X.
Qed.

(** ** Nearest neighbour *)

Definition scan_rel (a : option nat * C N) (b : option nat * C M) : Prop := fst a = fst b /\ Q (snd a) (snd b).

Lemma nn_loop_rel m k : na_rel m k -> forall rounds path visited cur c d, Q c d ->
  res_rel (fun x y => fst x = fst y /\ Q (snd x) (snd y)) (nn_loop m rounds path visited cur c) (nn_loop k rounds path visited cur d).
Proof.
  intros H. induction rounds as [|r IH]; intros path visited cur c d Hc; cbn [nn_loop]; [split; auto|]. rewrite <- (proj1 H).
  apply (bind_rel scan_rel).
  - apply foldM_rel_same; [|split; auto]. intros [o a] [o' b] j [E Hab]. cbn [fst snd] in *. subst o'. unfold nn_scan. apply bind_same. intros [].
    + split; auto.
    + apply (bind_rel Q); [apply na_get_rel, H|]. intros x y Hx. cbn [snd]. rewrite (Q_lt _ _ _ _ Hx Hab). destruct (clt _ _); split; auto.
  - intros [[o|] a] [o' b] [E Hab]; cbn [fst snd] in *; subst o'; [|exact I]. apply bind_same. intros v. apply IH. auto.
Qed.

Lemma nn_single_rel m k i : na_rel m k -> res_rel sol_rel (single_nearest_neighbour m i) (single_nearest_neighbour k i).
Proof.
  intros H. unfold single_nearest_neighbour. rewrite <- (proj1 H). destruct (negb _); [exact I|]. apply bind_same. intros v.
  eapply bind_rel; [apply nn_loop_rel; [exact H|exact Q_0]|]. intros [[p u] c] [[p' u'] d] [E Hc]. cbn [fst snd] in *. injection E as -> ->.
  apply (bind_rel Q); [apply na_get_rel, H|]. intros. split; cbn [fst snd]; auto.
Qed.

Lemma min_solution_rel s t s' t' : sol_rel s t -> sol_rel s' t' -> sol_rel (min_solution s s') (min_solution t t').
Proof. intros H K. unfold min_solution. rewrite (Q_olt _ _ _ _ (proj1 K) (proj1 H)). destruct (olt _ _); assumption. Qed.

Definition opt_rel {A B} (R : A -> B -> Prop) (x : option A) (y : option B) : Prop := match x, y with Some a, Some b => R a b | None, None => True | _, _ => False end.

Lemma seq_reduce_rel l l' : Forall2 sol_rel l l' -> opt_rel sol_rel (seq_reduce min_solution l) (seq_reduce min_solution l').
Proof. intros F. destruct F as [|x y l l' Hx F]; cbn [seq_reduce]; [exact I|]. apply (fold_left_rel sol_rel sol_rel); auto. intros; apply min_solution_rel; assumption. Qed.

Lemma F2_firstn {A B} (R : A -> B -> Prop) l l' n : Forall2 R l l' -> Forall2 R (firstn n l) (firstn n l').
Proof. intros F. revert n. induction F; intros [|n]; simpl; constructor; auto. Qed.
Lemma F2_skipn {A B} (R : A -> B -> Prop) l l' n : Forall2 R l l' -> Forall2 R (skipn n l) (skipn n l').
Proof. intros F. revert n. induction F; intros [|n]; simpl; try constructor; auto. Qed.

Lemma par_reduce_rel t : forall l l', Forall2 sol_rel l l' ->
  opt_rel sol_rel (par_reduce min_solution (fun l => l) t l) (par_reduce min_solution (fun l => l) t l').
Proof.
  induction t as [|k t1 IH1 t2 IH2]; intros l l' F; cbn [par_reduce]; [apply seq_reduce_rel, F|].
  specialize (IH1 _ _ (F2_firstn _ _ _ k F)). specialize (IH2 _ _ (F2_skipn _ _ _ k F)).
  destruct (par_reduce min_solution _ t1 _), (par_reduce min_solution _ t1 _); cbn [opt_rel] in IH1; try contradiction;
  destruct (par_reduce min_solution _ t2 _), (par_reduce min_solution _ t2 _); cbn [opt_rel opt_op] in *; try contradiction; auto.
  apply min_solution_rel; assumption.
Qed.

Lemma n_nn_rel env mode m k n : na_rel m k -> res_rel sol_rel (n_nearest_neighbour env mode m n) (n_nearest_neighbour env mode k n).
Proof.
  intros H. unfold n_nearest_neighbour. rewrite <- (proj1 H). destruct (n =? 0); [exact I|]. destruct (negb _); [exact I|].
  assert (U : forall x y, opt_rel sol_rel x y -> res_rel sol_rel (unwrap x) (unwrap y)) by (intros [] [] K; cbn in *; auto).
  destruct (mode =? SEQ_COMPUTATION); [|destruct (mode =? PAR_COMPUTATION); [|exact I]];
    (apply (bind_rel (Forall2 sol_rel)); [apply mapM_rel; intros; apply nn_single_rel, H|]; intros; apply U; auto using seq_reduce_rel, par_reduce_rel).
Qed.

End Programs.
