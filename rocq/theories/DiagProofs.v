(** Which cells of the matrix the results depend on: the costs on the diagonal are left out of account. *)
From Coq Require Import Arith Bool List Lia Permutation NArith.
From Verif Require Import Num Base Data Mst Exact OneTree Par Rand MstPar Nn PrimProofs PermProofs.
Import ListNotations.

Lemma bind_same {A B} (x y : res A) (f h : A -> res B) : x = y -> (forall a, y = Ok a -> f a = h a) -> bind x f = bind y h.
Proof. intros -> H. destruct y; cbn [bind]; [apply H|..]; reflexivity. Qed.

Lemma mapM_same {A B} (f h : A -> res B) l : (forall x, In x l -> f x = h x) -> mapM f l = mapM h l.
Proof.
  induction l as [|x l IH]; intros H; [reflexivity|]. cbn [mapM]. apply bind_same; [apply H; left; reflexivity|].
  intros y _. apply bind_same; [apply IH; intros; apply H; right; assumption|]. reflexivity.
Qed.

Lemma Forall2_length {A B} (R : A -> B -> Prop) l l' : Forall2 R l l' -> length l = length l'.
Proof. induction 1; cbn [length]; congruence. Qed.

Lemma two_or_one (p : list nat) i : (length (p ++ [i]) =? 1) = false -> 2 <= length (p ++ [i]).
Proof. rewrite app_length. cbn [length]. intros H. apply Nat.eqb_neq in H. lia. Qed.

(** ** The generic solvers *)
Section Adj.
Context {N : Num}.
Variables a b : adj N.
Hypothesis Hdim : a_dim a = a_dim b.
Hypothesis Hget : forall i j, i < a_dim a -> j < a_dim a -> i <> j -> a_get a i j = a_get b i j.

Definition good (p : list nat) : Prop := NoDup p /\ forall v, In v p -> v < a_dim a.

Lemma good_perm p q : Permutation p q -> good p -> good q.
Proof.
  intros HP [H1 H2]. split; [apply (Permutation_NoDup HP H1)|]. intros v Hv. apply H2, (Permutation_in v (Permutation_sym HP)), Hv.
Qed.

Lemma good_snoc p i : good p -> ~ In i p -> i < a_dim a -> good (p ++ [i]).
Proof.
  intros Hp Hi Hlt. apply (good_perm (i :: p)); [apply Permutation_cons_append|]. destruct Hp as [H1 H2].
  split; [constructor; assumption|]. intros v [<-|Hv]; auto.
Qed.

Lemma path_same p : good p -> evaluate_path a p = evaluate_path b p.
Proof.
  intros [Hn Hr]. unfold evaluate_path. destruct (Nat.leb_spec (length p) 1) as [|Hl]; [reflexivity|].
  apply foldM_ext. intros s k Hk. apply in_seq in Hk. rewrite !(nth_res_nth _ _ 0) by lia. cbn [bind].
  rewrite Hget; [reflexivity|apply Hr, nth_In; lia..|]. intros E. apply (proj1 (NoDup_nth p 0) Hn) in E; lia.
Qed.

Lemma ends p l f : good p -> 2 <= length p -> last_res p = Ok l -> first_res p = Ok f -> a_get a l f = a_get b l f.
Proof.
  intros [Hn Hr] Hl El Ef. destruct p as [|x p]; [simpl in Hl; lia|]. cbn in Ef. injection Ef as <-.
  rewrite (last_res_last _ 0) in El by discriminate. injection El as <-.
  assert (Hin : In (last (x :: p) 0) p).
  { destruct p as [|y p]; [simpl in Hl; lia|]. change (last (x :: y :: p) 0) with (last (y :: p) 0).
    destruct (@exists_last _ (y :: p)) as (q & z & ->); [discriminate|]. rewrite last_last. apply in_app_iff. right. left. reflexivity. }
  apply Hget; [apply Hr; right; assumption|apply Hr; left; reflexivity|]. intros E. apply NoDup_cons_iff in Hn. apply (proj1 Hn). rewrite <- E. exact Hin.
Qed.

Lemma circle_same p : good p -> evaluate_circle a p = evaluate_circle b p.
Proof.
  intros Hp. unfold evaluate_circle. destruct (Nat.leb_spec (length p) 1) as [|Hl]; [reflexivity|].
  apply bind_same; [reflexivity|]. intros l El. apply bind_same; [reflexivity|]. intros f Ef.
  apply bind_same; [apply (ends p); assumption || lia|]. intros e _. rewrite path_same by assumption. reflexivity.
Qed.

Lemma naive_same fuel : forall cur best, good cur -> naive_loop fuel a cur best = naive_loop fuel b cur best.
Proof.
  induction fuel as [|k IH]; intros cur best Hc; [reflexivity|]. cbn [naive_loop].
  destruct (next_permutation_spec cur) as (more & cur' & -> & HP & _). cbn [bind]. destruct more; [|reflexivity].
  assert (Hc' := good_perm _ _ HP Hc). apply bind_same; [apply circle_same; assumption|]. intros c _. apply IH. assumption.
Qed.

Lemma first_same fuel : forall cur best, good cur -> first_loop fuel a cur best = first_loop fuel b cur best.
Proof.
  induction fuel as [|k IH]; intros cur best Hc; [reflexivity|]. cbn [first_loop]. destruct cur as [|h t]; [reflexivity|].
  destruct (next_permutation_spec t) as (more & t' & -> & HP & _). cbn [bind]. cbv zeta. destruct more; [|reflexivity].
  assert (Hc' : good (h :: t')) by (apply (good_perm (h :: t)); [constructor|]; assumption).
  apply bind_same; [apply circle_same; assumption|]. intros c _. apply IH. assumption.
Qed.

Lemma last_edge_same p : good p -> 2 <= length p -> last_edge a p = last_edge b p.
Proof.
  intros [Hn Hr] Hl. unfold last_edge. cbv zeta. rewrite !(nth_res_nth _ _ 0) by lia. cbn [bind].
  apply Hget; [apply Hr, nth_In; lia..|]. intros E. apply (proj1 (NoDup_nth p 0) Hn) in E; lia.
Qed.

Lemma nn_same p : compute_nn_of_remaining_vertices a p (a_dim a) = compute_nn_of_remaining_vertices b p (a_dim a).
Proof.
  unfold compute_nn_of_remaining_vertices. apply foldM_ext. intros s i Hi. apply in_seq in Hi. destruct (memb i p); [reflexivity|].
  apply bind_same; [|reflexivity]. apply foldM_ext. intros s' j Hj. apply in_seq in Hj. destruct (memb j p); [reflexivity|].
  rewrite Hget by lia. reflexivity.
Qed.

Hypothesis Htwo : 2 <= a_dim a.

Lemma leaf_same p c r : good p -> length p = a_dim a -> leaf a p c r = leaf b p c r.
Proof.
  intros Hp Hl. unfold leaf. apply bind_same; [reflexivity|]. intros l El. apply bind_same; [reflexivity|]. intros f Ef.
  rewrite (ends p l f) by (assumption || lia). reflexivity.
Qed.

Lemma second_same fuel : forall p c r, good p -> second_rec fuel a p c r = second_rec fuel b p c r.
Proof.
  induction fuel as [|k IH]; intros p c r Hp; [reflexivity|]. cbn [second_rec]. rewrite <- Hdim.
  destruct (Nat.eqb_spec (length p) (a_dim a)) as [Hl|_]; [apply leaf_same; assumption|].
  apply bind_same; [|reflexivity]. apply foldM_ext. intros [c' r'] i Hi. apply in_seq in Hi. destruct (memb i p) eqn:Em; [reflexivity|].
  assert (Hp' : good (p ++ [i])) by (apply good_snoc; [assumption|apply memb_nIn; assumption|lia]).
  cbv zeta. destruct (length (p ++ [i]) =? 1) eqn:E1.
  - rewrite IH by assumption. reflexivity.
  - apply bind_same; [apply last_edge_same; [assumption|apply two_or_one; assumption]|]. intros e _. rewrite IH by assumption. reflexivity.
Qed.

Lemma third_same fuel : forall p c r, good p -> third_rec fuel a p c r = third_rec fuel b p c r.
Proof.
  induction fuel as [|k IH]; intros p c r Hp; [reflexivity|]. cbn [third_rec]. rewrite <- Hdim.
  destruct (Nat.eqb_spec (length p) (a_dim a)) as [Hl|_]; [apply leaf_same; assumption|].
  apply bind_same; [|reflexivity]. apply foldM_ext. intros [c' r'] i Hi. apply in_seq in Hi. destruct (memb i p) eqn:Em; [reflexivity|].
  assert (Hp' : good (p ++ [i])) by (apply good_snoc; [assumption|apply memb_nIn; assumption|lia]).
  cbv zeta. destruct (length (p ++ [i]) =? 1) eqn:E1.
  - rewrite IH by assumption. reflexivity.
  - apply bind_same; [apply last_edge_same; [assumption|apply two_or_one; assumption]|]. intros e _. rewrite IH by assumption. reflexivity.
Qed.

Lemma fourth_same fuel : forall p c r, good p -> fourth_rec fuel a p c r = fourth_rec fuel b p c r.
Proof.
  induction fuel as [|k IH]; intros p c r Hp; [reflexivity|]. cbn [fourth_rec]. rewrite <- Hdim.
  destruct (Nat.eqb_spec (length p) (a_dim a)) as [Hl|_]; [apply leaf_same; assumption|].
  apply bind_same; [|reflexivity]. apply foldM_ext. intros [c' r'] i Hi. apply in_seq in Hi. destruct (memb i p) eqn:Em; [reflexivity|].
  assert (Hp' : good (p ++ [i])) by (apply good_snoc; [assumption|apply memb_nIn; assumption|lia]).
  cbv zeta. destruct (length (p ++ [i]) =? 1) eqn:E1.
  - rewrite IH by assumption. reflexivity.
  - apply bind_same; [apply last_edge_same; [assumption|apply two_or_one; assumption]|]. intros e _.
    rewrite nn_same. apply bind_same; [reflexivity|]. intros lb _. rewrite IH by assumption. reflexivity.
Qed.
End Adj.

(** ** Minimum spanning trees *)
Section Na.
Context {N : Num}.
Variables m m' : namatrix N.
Hypothesis Hwf : na_wf m.
Hypothesis Hwf' : na_wf m'.
Hypothesis Hdim : na_dim m = na_dim m'.
Hypothesis Hget : forall i j, i < na_dim m -> j < na_dim m -> i <> j -> na_get m i j = na_get m' i j.

Lemma val_same i j : i < na_dim m -> j < na_dim m -> i <> j -> na_val m i j = na_val m' i j.
Proof.
  intros Hi Hj Hij. assert (H := Hget i j Hi Hj Hij). rewrite !na_get_val in H by (assumption || lia). congruence.
Qed.

(** two containers that differ only in entries that are used up *)
Definition like (x y : edge N * bool) : Prop := snd x = snd y /\ (snd x = false -> x = y).

Lemma like_refl x : like x x.
Proof. split; auto. Qed.

Lemma unused_like d d' : Forall2 like d d' -> unused d = unused d'.
Proof.
  intros H. unfold unused. rewrite <- (Forall2_length _ _ _ H). generalize (length d) 0. 
  induction H as [|x y d d' Hxy H IH]; intros k s; [destruct k; reflexivity|]. destruct k as [|k]; [reflexivity|].
  cbn [seq combine flat_map]. rewrite (IH k (S s)). f_equal. destruct x as [e u], y as [e' u'], Hxy as [E1 E2]. cbn [snd] in *. subst u'.
  destruct u; [reflexivity|]. specialize (E2 eq_refl). congruence.
Qed.

Lemma find_like d d' : Forall2 like d d' -> vec_find d = vec_find d'.
Proof. intros H. unfold vec_find. rewrite (unused_like d d' H), (Forall2_length _ _ _ H). reflexivity. Qed.

Lemma mark_like d d' v : Forall2 like d d' ->
  match vec_mark d v, vec_mark d' v with
  | Ok e, Ok e' => Forall2 like e e' /\ length e = length d /\ snd (nth v e dd) = true /\ snd (nth v e' dd) = true
  | Panic, Panic => True
  | _, _ => False
  end.
Proof.
  intros H. unfold vec_mark, modify_res. revert v. induction H as [|x y d d' Hxy H IH]; intros v; [destruct v; exact I|].
  destruct v as [|v]; cbn [nth_error upd].
  - repeat split; auto. constructor; [|assumption]. split; [reflexivity|discriminate].
  - specialize (IH v). destruct (nth_error d v), (nth_error d' v); try contradiction; [|exact I].
    destruct IH as (H1 & H2 & H3 & H4). repeat split; [constructor; assumption|cbn [length]; congruence|assumption..].
Qed.

Lemma Forall2_nth_like (d d' : vdist N) : length d = length d' -> (forall t, t < length d -> like (nth t d dd) (nth t d' dd)) -> Forall2 like d d'.
Proof.
  revert d'. induction d as [|x d IH]; intros [|y d'] Hl H; try discriminate; constructor.
  - apply (H 0). simpl; lia.
  - apply IH; [simpl in Hl; lia|]. intros t Ht. apply (H (S t)). simpl; lia.
Qed.

Lemma nth_like (d d' : vdist N) t : Forall2 like d d' -> like (nth t d dd) (nth t d' dd).
Proof.
  intros H. revert t. induction H; intros [|t]; cbn [nth]; auto using like_refl.
Qed.

Lemma update_like d d' v : Forall2 like d d' -> na_dim m < length d -> snd (nth v d dd) = true ->
  match vec_update d v m, vec_update d' v m' with
  | Ok e, Ok e' => Forall2 like e e' /\ length e = length d
  | Panic, Panic => True
  | _, _ => False
  end.
Proof.
  intros H Hl Hu. assert (Hl' := Forall2_length _ _ _ H). destruct (Nat.lt_ge_cases v (na_dim m)) as [Hv|Hv].
  - destruct (vec_update_spec m Hwf d v Hv Hl) as (e & -> & L & U1 & U2).
    destruct (vec_update_spec m' Hwf' d' v ltac:(lia) ltac:(lia)) as (e' & -> & L' & U1' & U2'). split; [|assumption].
    apply Forall2_nth_like; [congruence|]. intros t Ht. assert (Hlt := nth_like d d' t H).
    destruct (Nat.lt_ge_cases t (na_dim m)) as [Htn|Htn]; [|rewrite U2, U2' by lia; assumption].
    rewrite U1, U1' by lia. unfold relax1. destruct (Nat.eq_dec t v) as [->|Hne].
    + destruct Hlt as [E _]. split; [destruct (clt _ _), (clt _ _); cbn [snd]; assumption|].
      intros Hf. exfalso. destruct (clt _ _) in Hf; cbn [snd] in Hf; congruence.
    + rewrite (val_same v t) by (assumption || congruence). destruct Hlt as [E1 E2].
      destruct (snd (nth t d dd)) eqn:Es.
      * split; [destruct (clt _ _), (clt _ _); cbn [snd]; congruence|]. intros Hf. exfalso. destruct (clt _ _) in Hf; cbn [snd] in Hf; congruence.
      * rewrite (E2 eq_refl), <- E1. apply like_refl.
  - unfold vec_update, na_row. rewrite <- Hdim. replace (v <? na_dim m) with false by (symmetry; apply Nat.ltb_ge; lia). exact I.
Qed.

Lemma prim_loop_same start k : forall d d' mst, Forall2 like d d' -> na_dim m < length d ->
  prim_loop vec_ops m start k d mst = prim_loop vec_ops m' start k d' mst.
Proof.
  induction k as [|k IH]; intros d d' mst H Hl; [reflexivity|]. cbn [prim_loop fm_find fm_mark fm_update vec_ops].
  rewrite (find_like d d' H). apply bind_same; [reflexivity|]. intros [v e] _. destruct (ceq (e_cost e) cinf); [reflexivity|].
  assert (Hm := mark_like d d' v H). destruct (vec_mark d v) as [d1| |], (vec_mark d' v) as [d1'| |]; try contradiction; [|reflexivity..].
  destruct Hm as (Hm & L1 & U & U'). cbn [bind]. apply bind_same; [reflexivity|]. intros mst' _.
  assert (Hup := update_like d1 d1' v Hm ltac:(lia) U).
  destruct (vec_update d1 v m) as [d2| |], (vec_update d1' v m') as [d2'| |]; try contradiction; [|reflexivity..].
  cbn [bind]. destruct Hup. apply IH; [assumption|lia].
Qed.

Lemma foldM_length {A} (f : list A -> nat -> res (list A)) l d d' : (forall d v e, f d v = Ok e -> length e = length d) -> foldM f l d = Ok d' -> length d' = length d.
Proof.
  intros H. revert d. induction l as [|x l IH]; intros d E; cbn [foldM] in E; [congruence|]. apply bind_Ok in E. destruct E as (e & E1 & E2).
  rewrite (IH e E2). apply (H _ _ _ E1).
Qed.

Lemma modify_length {A} (l : list A) i f l' : modify_res l i f = Ok l' -> length l' = length l.
Proof. unfold modify_res. destruct (nth_error l i); [|discriminate]. intros E. injection E as <-. apply upd_length. Qed.

Lemma like_all (d : vdist N) : Forall2 like d d.
Proof. induction d; constructor; auto using like_refl. Qed.

Lemma prim_same excluded : prim_with_excluded_node_single_threaded m excluded = prim_with_excluded_node_single_threaded m' excluded.
Proof.
  unfold prim_with_excluded_node_single_threaded, prim_with_excluded_node. cbv zeta. rewrite <- Hdim.
  apply bind_same; [reflexivity|]. intros start _. destruct (na_dim m <=? start); [reflexivity|].
  apply bind_same; [reflexivity|]. intros d1 E1. apply bind_same; [reflexivity|]. intros d2 E2.
  cbn [vec_ops fm_default fm_set_cost fm_exclude] in E1, E2. unfold vec_set_cost in E1. apply modify_length in E1. rewrite repeat_length in E1.
  apply foldM_length in E2; [|intros ? ? ?; apply modify_length].
  rewrite (prim_loop_same start (na_dim m + 1) d2 d2); [reflexivity|apply like_all|lia].
Qed.

(** ** One-trees *)
Lemma best_two_same special (row row' : list (C N)) s (acc : edge N * edge N) : (forall k, k < length row -> s + k <> special -> nth k row c0 = nth k row' c0) -> length row = length row' ->
  fold_left (best_two special) (combine (seq s (length row)) row) acc = fold_left (best_two special) (combine (seq s (length row')) row') acc.
Proof.
  revert s row' acc. induction row as [|c row IH]; intros s [|c' row'] acc H Hl; try discriminate; [reflexivity|].
  cbn [length seq combine fold_left]. rewrite (IH (S s) row').
  - f_equal. destruct acc as [x y]. unfold best_two. destruct (Nat.eqb_spec s special) as [|Hne]; [reflexivity|].
    specialize (H 0 ltac:(simpl; lia) ltac:(lia)). cbn [nth] in H. rewrite H. reflexivity.
  - intros k Hk Hs. apply (H (S k)); [simpl; lia|lia].
  - simpl in Hl. lia.
Qed.

Lemma one_tree_same s : one_tree m s = one_tree m' s.
Proof.
  unfold one_tree. rewrite prim_same. apply bind_same; [reflexivity|]. intros mst _.
  destruct (Nat.lt_ge_cases s (na_dim m)) as [Hs|Hs].
  - rewrite (na_row_val m s Hwf Hs), (na_row_val m' s Hwf' ltac:(lia)). cbn [bind].
    rewrite (best_two_same s (map (na_val m s) (seq 0 (na_dim m))) (map (na_val m' s) (seq 0 (na_dim m')))); [reflexivity| |rewrite !map_length, !seq_length; assumption].
    intros k Hk Hne. rewrite map_length, seq_length in Hk.
    rewrite (nth_indep _ c0 (na_val m s 0)), map_nth, seq_nth by (rewrite ?map_length, ?seq_length; lia).
    rewrite (nth_indep _ c0 (na_val m' s 0)), map_nth, seq_nth by (rewrite ?map_length, ?seq_length; lia).
    apply val_same; simpl; lia.
  - unfold na_row. rewrite <- Hdim. replace (s <? na_dim m) with false by (symmetry; apply Nat.ltb_ge; lia). reflexivity.
Qed.

Lemma one_tree_weight_same s : one_tree_weight m s = one_tree_weight m' s.
Proof. unfold one_tree_weight. rewrite one_tree_same. reflexivity. Qed.

(** ** Nearest neighbours *)
Lemma scan_same visited cur : cur < na_dim m -> (exists x, nth_error visited cur = Some x /\ x = true) -> forall acc node, In node (seq 0 (na_dim m)) ->
  nn_scan m visited cur acc node = nn_scan m' visited cur acc node.
Proof.
  intros Hc (x & Hx & ->) acc node Hn. apply in_seq in Hn. unfold nn_scan. destruct (Nat.eq_dec node cur) as [->|Hne].
  - unfold nth_res. rewrite Hx. reflexivity.
  - rewrite (Hget cur node) by lia. reflexivity.
Qed.

Lemma nth_error_upd_eq {A} (l : list A) i x : i < length l -> nth_error (upd l i x) i = Some x.
Proof. revert i. induction l as [|y l IH]; intros [|i] H; simpl in *; try lia; [reflexivity|]. apply IH. lia. Qed.

Lemma nth_error_upd_neq {A} (l : list A) i j x : i <> j -> nth_error (upd l i x) j = nth_error l j.
Proof. revert i j. induction l as [|y l IH]; intros [|i] [|j] H; simpl; try reflexivity; try congruence. apply IH. congruence. Qed.

Lemma scan_range visited cur l acc r : (forall v, In v l -> v < na_dim m) -> foldM (nn_scan m visited cur) l acc = Ok r ->
  (forall v, fst acc = Some v -> v < na_dim m /\ nth_error visited v = Some false) -> forall v, fst r = Some v -> v < na_dim m /\ nth_error visited v = Some false.
Proof.
  intros Hl E H. revert acc E H. induction l as [|x l IH]; intros acc E H; cbn [foldM] in E; [injection E as <-; exact H|].
  apply bind_Ok in E. destruct E as (acc' & E1 & E2). apply (IH ltac:(intros; apply Hl; right; assumption) acc' E2).
  unfold nn_scan, nth_res in E1. destruct (nth_error visited x) as [[]|] eqn:Ev; [| |discriminate]; cbn [bind] in E1.
  - injection E1 as <-. exact H.
  - apply bind_Ok in E1. destruct E1 as (c & _ & E1). destruct (clt c (snd acc)); injection E1 as <-; [|exact H].
    cbn [fst]. intros v Hv. injection Hv as <-. split; [apply Hl; left; reflexivity|assumption].
Qed.

Lemma nn_loop_same rounds : forall path visited cur d, cur < na_dim m -> (exists x, nth_error visited cur = Some x /\ x = true) ->
  nn_loop m rounds path visited cur d = nn_loop m' rounds path visited cur d.
Proof.
  induction rounds as [|k IH]; intros path visited cur d Hc Hx; [reflexivity|]. cbn [nn_loop]. rewrite <- Hdim.
  apply bind_same; [apply foldM_ext; intros; apply scan_same; assumption|]. intros [[v|] c] E; [|reflexivity].
  rewrite <- (foldM_ext _ _ _ _ (fun s x H => scan_same visited cur Hc Hx s x H)) in E.
  destruct (scan_range visited cur (seq 0 (na_dim m)) (None, cinf) _ ltac:(intros u Hu; apply in_seq in Hu; lia) E ltac:(intros u Hu; discriminate) v eq_refl) as [Hv Hf].
  apply bind_same; [reflexivity|]. intros visited' E'. apply IH; [assumption|]. unfold modify_res in E'. rewrite Hf in E'. injection E' as <-.
  exists true. split; [|reflexivity]. apply nth_error_upd_eq. apply nth_error_Some. congruence.
Qed.

(** the last node is not the start, which is visited from the beginning *)
Lemma nn_loop_end start rounds : forall path visited cur d p c x, nth_error visited start = Some true ->
  nn_loop m rounds path visited cur d = Ok (p, c, x) -> cur < na_dim m -> (cur <> start \/ 0 < rounds) -> c <> start /\ c < na_dim m.
Proof.
  induction rounds as [|k IH]; intros path visited cur d p c x Hs E Hc Hne; cbn [nn_loop] in E.
  - injection E as _ <- _. split; [|assumption]. destruct Hne; [assumption|lia].
  - apply bind_Ok in E. destruct E as ([[v|] y] & E1 & E2); [|discriminate].
    destruct (scan_range visited cur (seq 0 (na_dim m)) (None, cinf) _ ltac:(intros u Hu; apply in_seq in Hu; lia) E1 ltac:(intros u Hu; discriminate) v eq_refl) as [Hv Hf].
    apply bind_Ok in E2. destruct E2 as (visited' & E2 & E3). unfold modify_res in E2. rewrite Hf in E2. injection E2 as <-.
    assert (Hvs : v <> start) by congruence. refine (IH _ _ _ _ _ _ _ _ E3 Hv _); [rewrite nth_error_upd_neq by assumption; exact Hs|left; assumption].
Qed.

Lemma single_same s : 2 <= na_dim m -> single_nearest_neighbour m s = single_nearest_neighbour m' s.
Proof.
  intros H2. unfold single_nearest_neighbour. rewrite <- Hdim. destruct (Nat.ltb_spec s (na_dim m)) as [Hs|]; [|reflexivity]. cbn [negb].
  apply bind_same; [reflexivity|]. intros visited Ev.
  assert (Hvis : nth_error visited s = Some true).
  { rewrite (modify_res_Ok _ _ _ false) in Ev by (rewrite repeat_length; assumption). injection Ev as <-. apply nth_error_upd_eq. rewrite repeat_length. assumption. }
  apply bind_same; [apply nn_loop_same; [assumption|exists true; auto]|]. intros [[p c] x] E.
  rewrite <- nn_loop_same in E by (assumption || exists true; auto).
  destruct (nn_loop_end s _ _ _ _ _ _ _ _ Hvis E Hs ltac:(right; lia)) as [H3 H4]. rewrite (Hget c s) by assumption. reflexivity.
Qed.

(** ** The solvers with minimum spanning trees *)
Hypothesis Htwo : 2 <= na_dim m.
Let Hadj : forall i j, i < a_dim (na_adj m) -> j < a_dim (na_adj m) -> i <> j -> a_get (na_adj m) i j = a_get (na_adj m') i j := Hget.

Lemma fifth_same fuel : forall p c r, good (na_adj m) p -> fifth_rec fuel m p c r = fifth_rec fuel m' p c r.
Proof.
  induction fuel as [|k IH]; intros p c r Hp; [reflexivity|]. cbn [fifth_rec]. rewrite <- Hdim.
  destruct (Nat.eqb_spec (length p) (na_dim m)) as [Hl|_]; [apply (leaf_same (na_adj m) (na_adj m') Hdim Hadj Htwo); assumption|].
  apply bind_same; [|reflexivity]. apply foldM_ext. intros [c' r'] i Hi. apply in_seq in Hi. destruct (memb i p) eqn:Em; [reflexivity|].
  assert (Hp' : good (na_adj m) (p ++ [i])) by (apply good_snoc; [assumption|apply memb_nIn; assumption|cbn [a_dim na_adj]; lia]).
  cbv zeta. destruct (length (p ++ [i]) =? 1) eqn:E1.
  - rewrite IH by assumption. reflexivity.
  - apply bind_same; [apply (last_edge_same (na_adj m) (na_adj m') Hdim Hadj); [assumption|apply two_or_one; assumption]|]. intros e _.
    rewrite prim_same. apply bind_same; [reflexivity|]. intros lb _. rewrite IH by assumption. reflexivity.
Qed.

Lemma sixth_same hash fuel : forall p c r k, good (na_adj m) p -> sixth_rec hash fuel m p c r k = sixth_rec hash fuel m' p c r k.
Proof.
  induction fuel as [|f IH]; intros p c r k Hp; [reflexivity|]. cbn [sixth_rec]. rewrite <- Hdim.
  destruct (Nat.eqb_spec (length p) (na_dim m)) as [Hl|_]; [rewrite (leaf_same (na_adj m) (na_adj m') Hdim Hadj Htwo) by assumption; reflexivity|].
  apply bind_same; [|reflexivity]. apply foldM_ext. intros [[c' r'] k'] i Hi. apply in_seq in Hi. destruct (memb i p) eqn:Em; [reflexivity|].
  assert (Hp' : good (na_adj m) (p ++ [i])) by (apply good_snoc; [assumption|apply memb_nIn; assumption|cbn [a_dim na_adj]; lia]).
  cbv zeta. destruct (length (p ++ [i]) =? 1) eqn:E1.
  - rewrite IH by assumption. reflexivity.
  - apply bind_same; [apply (last_edge_same (na_adj m) (na_adj m') Hdim Hadj); [assumption|apply two_or_one; assumption]|]. intros e _.
    rewrite prim_same. apply bind_same; [reflexivity|]. intros lb _. destruct (or_insert _ _ _) as [x k2]. rewrite IH by assumption. reflexivity.
Qed.
End Na.
