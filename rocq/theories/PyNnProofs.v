(** Proofs about NN_approx.py. *)
From Coq Require Import ZArith Arith Bool List Permutation Lia.
From Verif Require Import Num Base Data Nn Spec SpecFacts Dfs PrimProofs NnProofs NnExact ConvProofs PyNn PyNnSpec.
Import ListNotations.

Definition choose (key : nat -> Z) (best y : nat) : nat := if (key y <? key best)%Z then y else best.

Lemma choose_spec key t : forall x, exists v, fold_left (choose key) t x = v /\ In v (x :: t) /\
  forall u, In u (x :: t) -> (key v <= key u)%Z.
Proof.
  induction t as [|y t IH]; intros x.
  - exists x. split; [reflexivity|]. split; [left; reflexivity|]. intros u [<-|[]]. lia.
  - cbn [fold_left]. destruct (IH (choose key x y)) as (v & E & Hin & Hle). exists v. split; [exact E|].
    assert (Hc : (key (choose key x y) <= key x)%Z /\ (key (choose key x y) <= key y)%Z /\ (choose key x y = x \/ choose key x y = y)).
    { unfold choose. destruct (Z.ltb_spec (key y) (key x)); auto with zarith. }
    destruct Hc as (H1 & H2 & H3). split.
    + destruct Hin as [Hin|Hin]; [|right; right; exact Hin]. destruct H3 as [H3|H3]; rewrite H3 in Hin; [left|right; left]; exact Hin.
    + intros u [<-|[<-|Hu]].
      * pose proof (Hle _ (or_introl eq_refl)). lia.
      * pose proof (Hle _ (or_introl eq_refl)). lia.
      * apply Hle. right. exact Hu.
Qed.

Lemma py_min_spec key xs : xs <> [] -> exists v, py_min key xs = Ok v /\ In v xs /\ forall u, In u xs -> (key v <= key u)%Z.
Proof.
  intros H. destruct xs as [|x t]; [congruence|]. destruct (choose_spec key t x) as (v & E & H1 & H2). exists v.
  split; [|auto]. unfold py_min. f_equal. exact E.
Qed.

(** on an increasing list it is also the smallest number *)
Lemma choose_first key t : forall x, (forall u, In u t -> x < u) -> Sorted.StronglySorted lt t ->
  forall u, In u (x :: t) -> key u = key (fold_left (choose key) t x) -> fold_left (choose key) t x <= u.
Proof.
  induction t as [|y t IH]; intros x Hx Hs u Hu E.
  - destruct Hu as [<-|[]]. cbn. lia.
  - cbn [fold_left] in *. inversion Hs as [|? ? Hs1 Hs2]; subst. rewrite Forall_forall in Hs2.
    assert (Hxy : x < y) by (apply Hx; left; reflexivity).
    assert (Ec : choose key x y = if (key y <? key x)%Z then y else x) by reflexivity. rewrite Ec in E |- *. clear Ec.
    destruct (Z.ltb_spec (key y) (key x)) as [H|H].
    + destruct Hu as [<-|Hu].
      * destruct (choose_spec key t y) as (v & Ev & _ & Hle). rewrite Ev in E. specialize (Hle y (or_introl eq_refl)). lia.
      * apply (IH y Hs2 Hs1 u Hu E).
    + destruct Hu as [<-|[<-|Hu]].
      * apply (IH x); [intros z Hz; apply Hx; right; exact Hz|exact Hs1|left; reflexivity|exact E].
      * destruct (choose_spec key t x) as (v & Ev & _ & Hle). pose proof (Hle x (or_introl eq_refl)) as H1. rewrite Ev in E.
        assert (Ex : key x = key (fold_left (choose key) t x)) by (rewrite Ev; lia).
        pose proof (IH x (fun z Hz => Hx z (or_intror Hz)) Hs1 x (or_introl eq_refl) Ex). lia.
      * apply (IH x (fun z Hz => Hx z (or_intror Hz)) Hs1 u (or_intror Hu) E).
Qed.

Lemma seq_sorted a k : Sorted.StronglySorted lt (seq a k).
Proof.
  revert a. induction k as [|k IH]; intros a; [constructor|]. cbn [seq]. constructor; [apply IH|].
  apply Forall_forall. intros x Hx. apply in_seq in Hx. lia.
Qed.
Lemma filter_sorted (f : nat -> bool) l : Sorted.StronglySorted lt l -> Sorted.StronglySorted lt (filter f l).
Proof.
  induction 1 as [|x l Hs IH Hx]; [constructor|]. cbn [filter]. destruct (f x); [|exact IH]. constructor; [exact IH|].
  rewrite Forall_forall in *. intros y Hy. apply filter_In in Hy. apply Hx. tauto.
Qed.

Lemma py_min_first key xs v : Sorted.StronglySorted lt xs -> py_min key xs = Ok v ->
  forall u, In u xs -> key u = key v -> v <= u.
Proof.
  intros Hs E u Hu Ek. destruct xs as [|x t]; [discriminate|]. unfold py_min in E. injection E as E.
  change (fold_left (choose key) t x = v) in E. rewrite <- E in *. inversion Hs as [|? ? H1 H2]; subst.
  rewrite Forall_forall in H2. apply (choose_first key t x H2 H1 u Hu Ek).
Qed.

(** ** The loop *)
Definition left_over (n : nat) (path : list nat) : list nat := filter (fun v => negb (memb v path)) (seq 0 n).

Lemma left_over_In n path v : In v (left_over n path) <-> v < n /\ ~ In v path.
Proof. unfold left_over. rewrite filter_In, in_seq, negb_true_iff, memb_nIn. intuition lia. Qed.

Lemma left_over_snoc n path v : filter (fun u => negb (u =? v)) (left_over n path) = left_over n (path ++ [v]).
Proof.
  unfold left_over. induction (seq 0 n) as [|x l IH]; [reflexivity|]. cbn [filter].
  assert (Em : memb x (path ++ [v]) = memb x path || (x =? v)).
  { unfold memb. rewrite existsb_app. cbn. rewrite orb_false_r. reflexivity. }
  rewrite Em, negb_orb. destruct (negb (memb x path)); cbn [andb filter]; [|exact IH].
  destruct (negb (x =? v)); rewrite IH; reflexivity.
Qed.

Lemma left_over_ne n path : NoDup path -> length path < n -> left_over n path <> [].
Proof.
  intros Hn Hl E. assert (Hincl : incl (seq 0 n) path).
  { intros v Hv. destruct (in_dec Nat.eq_dec v path) as [H|H]; [exact H|]. exfalso.
    assert (Hv' : In v (left_over n path)) by (apply left_over_In; apply in_seq in Hv; split; [lia|exact H]). rewrite E in Hv'. destruct Hv'. }
  apply NoDup_incl_length in Hincl; [|apply seq_NoDup]. rewrite seq_length in Hincl. lia.
Qed.

(** extending a path by one good step *)
Lemma step_extend (P : nat -> nat -> nat -> Prop) n path cur v : path <> [] -> last path 0 = cur ->
  (forall k u, S k < length path -> u < n -> ~ In u (firstn (S k) path) -> P (nth k path 0) (nth (S k) path 0) u) ->
  (forall u, u < n -> ~ In u path -> P cur v u) ->
  forall k u, S k < length (path ++ [v]) -> u < n -> ~ In u (firstn (S k) (path ++ [v])) ->
    P (nth k (path ++ [v]) 0) (nth (S k) (path ++ [v]) 0) u.
Proof.
  intros Hne Hlast Hg Hv k u Hk Hu Hnin. rewrite app_length in Hk. cbn [length] in Hk.
  destruct (Nat.eq_dec (S k) (length path)) as [Ek|Ek].
  - rewrite (app_nth1 path) by lia. rewrite Ek, nth_app_last.
    assert (El : nth k path 0 = cur) by (rewrite <- Hlast, <- (nth_last path 0 Hne); f_equal; lia).
    rewrite El. apply Hv; [assumption|]. intros Hin. apply Hnin.
    rewrite Ek, firstn_app, Nat.sub_diag, firstn_all. apply in_or_app. auto.
  - rewrite !app_nth1 by lia. apply Hg; [lia|assumption|]. intros Hin. apply Hnin.
    rewrite firstn_app. apply in_or_app. auto.
Qed.

Section PyLoop.
Variable order : list nat -> list nat.
Hypothesis Horder : forall xs, Permutation (order xs) xs.
Variable w : nat -> nat -> Z.
Variable n : nat.

(** [P]: what is known of a step *)
Lemma py_loop_spec (P : nat -> nat -> nat -> Prop) :
  (forall cur path v, py_min (w cur) (order (left_over n path)) = Ok v -> forall u, u < n -> ~ In u path -> P cur v u) ->
  forall rounds path cur, length path + rounds = n -> path <> [] -> last path 0 = cur -> NoDup path ->
  Forall (fun x => x < n) path ->
  (forall k u, S k < length path -> u < n -> ~ In u (firstn (S k) path) -> P (nth k path 0) (nth (S k) path 0) u) ->
  exists p, py_loop order w rounds path (left_over n path) cur = Ok p /\ length p = n /\ NoDup p /\ Forall (fun x => x < n) p /\
    hd 0 p = hd 0 path /\
    (forall k u, S k < length p -> u < n -> ~ In u (firstn (S k) p) -> P (nth k p 0) (nth (S k) p 0) u).
Proof.
  intros HP. induction rounds as [|r IH]; intros path cur Hlen Hne Hlast Hnd Hf Hg; cbn [py_loop].
  - exists path. repeat split; try assumption. lia.
  - destruct (py_min_spec (w cur) (order (left_over n path))) as (v & E & Hin & _).
    { intros E. apply (left_over_ne n path Hnd ltac:(lia)). apply Permutation_nil. rewrite <- E. apply Horder. }
    rewrite E. cbn [bind]. rewrite left_over_snoc.
    apply (Permutation_in v (Horder _)), left_over_In in Hin. destruct Hin as [Hv Hnv].
    destruct (IH (path ++ [v]) v) as (p & Ep & H1 & H2 & H3 & H4 & H5).
    + rewrite app_length. cbn. lia.
    + destruct path; discriminate.
    + apply last_last.
    + apply (Permutation_NoDup (Permutation_cons_append path v)). constructor; assumption.
    + apply Forall_app. auto.
    + apply (step_extend P n path cur v Hne Hlast Hg). apply (HP cur path v E).
    + exists p. split; [exact Ep|]. repeat split; try assumption. rewrite H4. destruct path; [congruence|reflexivity].
Qed.

Lemma start_left_over s : filter (fun v => negb (v =? s)) (seq 0 n) = left_over n [s].
Proof. unfold left_over. apply filter_ext. intros a. cbn [memb existsb]. rewrite orb_false_r. reflexivity. Qed.

Lemma py_cost_tour p : length p = n -> 1 <= n -> py_cost w n p = tour_cost w p.
Proof.
  intros Hl Hn. unfold py_cost, tour_cost. destruct p as [|a p]; [cbn in Hl; lia|].
  change (nth 0 (a :: p) 0) with a. f_equal.
  - rewrite <- Hl. clear. assert (G : forall q acc, fold_left Z.add (map (fun i => w (nth i q 0%nat) (nth (i + 1) q 0%nat)) (seq 0 (length q - 1))) acc = (acc + path_cost w q)%Z).
    { induction q as [|x q IH]; intros acc; [cbn; lia|]. destruct q as [|y q]; [cbn; lia|].
      cbn [length]. replace (S (S (length q)) - 1) with (S (length q)) by lia. cbn [seq map fold_left].
      rewrite <- seq_shift, map_map. specialize (IH (acc + w x y)%Z). cbn [length] in IH. replace (S (length q) - 1) with (length q) in IH by lia.
      etransitivity; [|etransitivity; [exact IH|]]; [reflexivity|]. change (path_cost w (x :: y :: q)) with (w x y + path_cost w (y :: q))%Z. lia. }
    rewrite G. lia.
  - f_equal. destruct p as [|b p] using rev_ind; [reflexivity|]. rewrite app_comm_cons, !last_last. reflexivity.
Qed.

Lemma py_nn_spec (P : nat -> nat -> nat -> Prop) s :
  (forall cur path v, py_min (w cur) (order (left_over n path)) = Ok v -> forall u, u < n -> ~ In u path -> P cur v u) ->
  s < n -> exists p, tsp_nearest_neighbour order w n s = Ok (p, tour_cost w p) /\ is_tour n p /\ hd 0 p = s /\
    (forall k u, S k < length p -> u < n -> ~ In u (firstn (S k) p) -> P (nth k p 0) (nth (S k) p 0) u).
Proof.
  intros HP Hs. unfold tsp_nearest_neighbour. rewrite (proj2 (Nat.ltb_lt s n) Hs), start_left_over.
  destruct (py_loop_spec P HP (n - 1) [s] s) as (p & E & H1 & H2 & H3 & H4 & H5).
  - cbn. lia.
  - discriminate.
  - reflexivity.
  - constructor; [intros []|constructor].
  - constructor; [assumption|constructor].
  - intros k u Hk. cbn in Hk. lia.
  - exists p. rewrite E. cbn [bind]. rewrite py_cost_tour by lia. split; [reflexivity|]. split; [apply tour_intro; assumption|]. auto.
Qed.
End PyLoop.

(** ** The same tour as in Rust *)
Section Same.
Context {N : Num} {B : Z} (E : Exact N B) (O : NumOrd N).
Variable m : namatrix N.
Hypothesis Hwf : na_wf m.
Variable w : nat -> nat -> Z.
Let n := na_dim m.
Hypothesis Hval : forall a b, a < n -> b < n -> a <> b -> na_val m a b = inj E (w a b).
Hypothesis Hb : forall a b, a < n -> b < n -> (Z.abs (w a b) <= B)%Z.

Lemma scan_some visited cur path l : length visited = n -> (forall v, v < n -> nth v visited true = memb v path) ->
  cur < n -> In cur path -> (forall x, In x l -> x < n) ->
  forall v, v < n -> ~ In v path ->
  foldM (nn_scan m visited cur) l (Some v, inj E (w cur v)) =
    Ok (Some (fold_left (choose (w cur)) (filter (fun u => negb (memb u path)) l) v),
        inj E (w cur (fold_left (choose (w cur)) (filter (fun u => negb (memb u path)) l) v))).
Proof.
  intros Hl Hvis Hc Hcp. induction l as [|x l IH]; intros Hx v Hv Hnv; [reflexivity|].
  assert (Hxn : x < n) by (apply Hx; left; reflexivity). cbn [foldM filter]. unfold nn_scan at 1.
  rewrite (nth_res_nth _ _ true) by lia. cbn [bind]. rewrite Hvis by assumption.
  assert (IH' := IH ltac:(intros; apply Hx; right; assumption)).
  destruct (memb x path) eqn:Ex; cbn [negb bind].
  - apply IH'; assumption.
  - apply memb_nIn in Ex. rewrite na_get_val by assumption. cbn [bind snd].
    rewrite Hval by (try assumption; congruence). rewrite (inj_lt N B E) by (apply Hb; assumption). cbn [fold_left].
    unfold choose at 2 4. destruct (w cur x <? w cur v)%Z; cbn [bind]; apply IH'; assumption.
Qed.

Lemma scan_none visited cur path l : length visited = n -> (forall v, v < n -> nth v visited true = memb v path) ->
  cur < n -> In cur path -> (forall x, In x l -> x < n) ->
  forall v, py_min (w cur) (filter (fun u => negb (memb u path)) l) = Ok v ->
  foldM (nn_scan m visited cur) l (None, cinf) = Ok (Some v, inj E (w cur v)).
Proof.
  intros Hl Hvis Hc Hcp. induction l as [|x l IH]; intros Hx v Hv; [discriminate|].
  assert (Hxn : x < n) by (apply Hx; left; reflexivity). cbn [foldM filter] in *. unfold nn_scan at 1.
  rewrite (nth_res_nth _ _ true) by lia. cbn [bind]. rewrite Hvis by assumption.
  assert (Hx' : forall y, In y l -> y < n) by (intros; apply Hx; right; assumption).
  destruct (memb x path) eqn:Ex; cbn [negb bind] in *.
  - apply IH; assumption.
  - apply memb_nIn in Ex. rewrite na_get_val by assumption. cbn [bind snd].
    rewrite Hval by (try assumption; congruence). rewrite (inj_lt_inf N B E) by (apply Hb; assumption). cbn [bind].
    rewrite (scan_some visited cur path) by assumption. unfold py_min in Hv. injection Hv as Hv.
    change (fold_left (choose (w cur)) (filter (fun u => negb (memb u path)) l) x = v) in Hv. rewrite Hv. reflexivity.
Qed.

Lemma loop_same : forall rounds path visited cur dist p, length path + rounds = n -> path <> [] -> last path 0 = cur ->
  NoDup path -> Forall (fun x => x < n) path -> length visited = n ->
  (forall v, v < n -> nth v visited true = memb v path) ->
  py_loop increasing w rounds path (left_over n path) cur = Ok p ->
  exists cur' dist', nn_loop m rounds path visited cur dist = Ok (p, cur', dist').
Proof.
  induction rounds as [|rounds IH]; intros path visited cur dist p Hlen Hne Hlast Hnd Hf Hl Hvis Hp; cbn [nn_loop py_loop] in *.
  - injection Hp as <-. eexists. eexists. reflexivity.
  - unfold increasing in Hp at 1. destruct (py_min (w cur) (left_over n path)) as [v| |] eqn:Ev; [|discriminate..]. cbn [bind] in Hp.
    rewrite left_over_snoc in Hp.
    assert (Hcin : In cur path) by (rewrite <- Hlast; apply last_In; assumption).
    assert (Hc : cur < n) by (rewrite Forall_forall in Hf; apply Hf; assumption).
    fold n. rewrite (scan_none visited cur path (seq 0 n) Hl Hvis Hc Hcin (fun x Hx => proj2 (proj1 (in_seq n 0 x) Hx)) v Ev).
    cbn [bind].
    assert (Hv : In v (left_over n path)).
    { destruct (py_min_spec (w cur) (left_over n path)) as (v' & E1 & H1 & _); [intros H0; rewrite H0 in Ev; discriminate|]. congruence. }
    apply left_over_In in Hv. destruct Hv as [Hv Hnv].
    rewrite (modify_res_Ok visited v _ true) by lia. cbn [bind]. apply IH; try assumption.
    + rewrite app_length. cbn. lia.
    + destruct path; discriminate.
    + apply last_last.
    + apply (Permutation_NoDup (Permutation_cons_append path v)). constructor; assumption.
    + apply Forall_app. auto.
    + rewrite upd_length. assumption.
    + intros u Hu. assert (Em : memb u (path ++ [v]) = memb u path || (u =? v)).
      { unfold memb. rewrite existsb_app. cbn. rewrite orb_false_r. reflexivity. }
      rewrite Em. destruct (Nat.eqb_spec u v) as [Eu|Eu].
      * subst u. rewrite nth_upd_eq by lia. rewrite orb_true_r. reflexivity.
      * rewrite nth_upd_neq by congruence. rewrite orb_false_r. apply Hvis. assumption.
Qed.

Lemma single_same s p c : s < n -> tsp_nearest_neighbour increasing w n s = Ok (p, c) ->
  exists d, single_nearest_neighbour m s = Ok (d, p).
Proof.
  intros Hs Hp. unfold tsp_nearest_neighbour in Hp. rewrite (proj2 (Nat.ltb_lt s n) Hs), start_left_over in Hp.
  destruct (py_loop increasing w (n - 1) [s] (left_over n [s]) s) as [q| |] eqn:Eq; [|discriminate..]. cbn [bind] in Hp. injection Hp as <- _.
  unfold single_nearest_neighbour. fold n. apply Nat.ltb_lt in Hs as Hs'. rewrite Hs'. cbn [negb].
  rewrite (modify_res_Ok _ s _ true) by (rewrite repeat_length; assumption). cbn [bind].
  destruct (loop_same (n - 1) [s] (upd (repeat false n) s true) s c0 q) as (cur & dist & En); try assumption.
  - cbn. lia.
  - discriminate.
  - reflexivity.
  - constructor; [intros []|constructor].
  - constructor; [assumption|constructor].
  - rewrite upd_length, repeat_length. reflexivity.
  - intros v Hv. cbn [memb existsb]. rewrite orb_false_r. destruct (Nat.eqb_spec v s) as [Ev|Ev].
    + subst v. rewrite nth_upd_eq by (rewrite repeat_length; assumption). reflexivity.
    + rewrite nth_upd_neq by congruence. rewrite nth_repeat_lt by assumption. reflexivity.
  - assert (Hfin : forall a b, a < n -> b < n -> a <> b -> clt (na_val m a b) cinf = true).
    { intros a b Ha Hb' Hab. rewrite Hval by assumption. apply (inj_lt_inf N B E). apply Hb; assumption. }
    destruct (single_nn_spec O m Hwf Hfin s Hs) as (d & p' & Es & _). unfold single_nearest_neighbour in Es. fold n in Es. rewrite Hs' in Es.
    cbn [negb] in Es. rewrite (modify_res_Ok _ s _ true) in Es by (rewrite repeat_length; assumption). cbn [bind] in Es.
    rewrite En in Es |- *. cbn [bind] in Es |- *. destruct (na_get m cur s); cbn [bind] in *; [|discriminate..].
    injection Es as <- <-. eexists. reflexivity.
Qed.
End Same.

(** ** The tour is the only one of its kind *)
Lemma firstn_S_nth (p : list nat) k : k < length p -> firstn (S k) p = firstn k p ++ [nth k p 0].
Proof.
  revert k. induction p as [|x p IH]; intros k Hk; [cbn in Hk; lia|]. destruct k; [reflexivity|].
  cbn [firstn nth app]. f_equal. apply IH. cbn in Hk. lia.
Qed.

Lemma not_yet n p k : is_tour n p -> S k < length p -> ~ In (nth (S k) p 0) (firstn (S k) p).
Proof.
  intros Ht Hk Hin. pose proof (tour_NoDup _ _ Ht) as Hnd. rewrite <- (firstn_skipn (S k) p) in Hnd.
  apply In_nth with (d := 0) in Hin. destruct Hin as (i & Hi & E). rewrite firstn_length in Hi.
  assert (E' : nth i p 0 = nth (S k) p 0).
  { rewrite <- E. rewrite <- (firstn_skipn (S k) p) at 1. rewrite app_nth1 by (rewrite firstn_length; lia). reflexivity. }
  rewrite firstn_skipn in Hnd. apply (NoDup_nth p 0) in E'; lia || assumption.
Qed.

Lemma first_nearest_unique w n p q : is_tour n p -> is_tour n q -> hd 0 p = hd 0 q -> first_nearest w n p -> first_nearest w n q -> p = q.
Proof.
  intros Hp Hq Hh Gp Gq. pose proof (tour_length _ _ Hp) as Lp. pose proof (tour_length _ _ Hq) as Lq.
  assert (G : forall k, k <= n -> firstn k p = firstn k q).
  { induction k as [|k IH]; intros Hk; [reflexivity|]. specialize (IH ltac:(lia)).
    rewrite !firstn_S_nth by lia. rewrite IH. f_equal. f_equal.
    destruct k as [|k]; [destruct p, q; cbn in *; try lia; assumption|].
    assert (En : nth k p 0 = nth k q 0).
    { rewrite !firstn_S_nth in IH by lia. apply app_inj_tail in IH. tauto. }
    assert (Hpn : nth (S k) p 0 < n) by (apply (tour_In _ _ _ Hp), nth_In; lia).
    assert (Hqn : nth (S k) q 0 < n) by (apply (tour_In _ _ _ Hq), nth_In; lia).
    pose proof (not_yet n p k Hp ltac:(lia)) as Np. pose proof (not_yet n q k Hq ltac:(lia)) as Nq.
    rewrite <- IH in Nq. rewrite IH in Np.
    pose proof (Gp k (nth (S k) q 0) ltac:(lia) Hqn Nq) as H1. pose proof (Gq k (nth (S k) p 0) ltac:(lia) Hpn Np) as H2.
    rewrite En in H1. destruct H1 as [H1|[H1 H1']], H2 as [H2|[H2 H2']]; lia. }
  specialize (G n ltac:(lia)). rewrite (firstn_all2 p), (firstn_all2 q) in G by lia. exact G.
Qed.

(** ** The printed graph *)
Section Printed.
Context {N : Num}.
Variable f : Z -> C N.
Variable w : nat -> nat -> Z.
Variable n : nat.

Lemma rust_code_length : length (convert_to_rust_code f w n) = n.
Proof. unfold convert_to_rust_code. rewrite map_length, seq_length. reflexivity. Qed.

Definition row_of (i : nat) : list (edge N) :=
  flat_map (fun j => if negb (i =? j) && negb (w i j =? 0)%Z then [mkEdge j (f (w i j))] else []) (seq 0 n).

Lemma rust_code_nth i : i < n -> nth i (convert_to_rust_code f w n) [] = row_of i.
Proof.
  intros Hi. unfold convert_to_rust_code. rewrite nth_indep with (d' := row_of 0) by (rewrite map_length, seq_length; assumption).
  rewrite (map_nth row_of). rewrite seq_nth by assumption. reflexivity.
Qed.

Lemma row_of_last i j old : last_cost (row_of i) j old =
  if (j <? n) && (negb (i =? j) && negb (w i j =? 0)%Z) then f (w i j) else old.
Proof.
  unfold row_of. assert (G : forall k a old, last_cost (flat_map (fun j => if negb (i =? j) && negb (w i j =? 0)%Z then [mkEdge j (f (w i j))] else []) (seq a k)) j old =
    if (a <=? j) && (j <? a + k) && (negb (i =? j) && negb (w i j =? 0)%Z) then f (w i j) else old).
  { induction k as [|k IH]; intros a o.
    - cbn [seq flat_map last_cost fold_left]. replace (a + 0) with a by lia. destruct (Nat.leb_spec a j), (Nat.ltb_spec j a); try lia; reflexivity.
    - cbn [seq flat_map]. unfold last_cost in *. rewrite fold_left_app, IH.
      destruct (Nat.eq_dec a j) as [Ea|Ea].
      + subst a. replace (S j <=? j) with false by (symmetry; apply Nat.leb_gt; lia). rewrite Nat.leb_refl.
        replace (j <? j + S k) with true by (symmetry; apply Nat.ltb_lt; lia). cbn [andb].
        destruct (negb (i =? j) && negb (w i j =? 0)%Z); cbn [fold_left e_to e_cost]; [rewrite Nat.eqb_refl|]; reflexivity.
      + assert (E1 : fold_left (fun acc e => if e_to e =? j then e_cost e else acc)
            (if negb (i =? a) && negb (w i a =? 0)%Z then [mkEdge a (f (w i a))] else []) o = o).
        { destruct (negb (i =? a) && negb (w i a =? 0)%Z); cbn [fold_left e_to e_cost]; [|reflexivity]. rewrite (proj2 (Nat.eqb_neq a j) Ea). reflexivity. }
        rewrite E1. replace (S a <=? j) with (a <=? j) by (destruct (Nat.leb_spec (S a) j), (Nat.leb_spec a j); lia || reflexivity).
        replace (S a + k) with (a + S k) by lia. reflexivity. }
  rewrite G. cbn [Nat.leb andb plus]. reflexivity.
Qed.

Lemma rust_code_matrix : exists m, na_from_graph (convert_to_rust_code f w n) = Ok m /\ na_wf m /\ na_dim m = n /\
  forall i j, i < n -> j < n -> na_val m i j = if i =? j then c0 else if (w i j =? 0)%Z then cinf else f (w i j).
Proof.
  destruct (na_from_graph_val (convert_to_rust_code f w n)) as (m & E & W & D & V).
  - intros i e Hi He. rewrite rust_code_length in *. rewrite rust_code_nth in He by assumption. apply in_flat_map in He.
    destruct He as (j & Hj & He). apply in_seq in Hj. destruct (_ && _); [|destruct He]. destruct He as [<-|[]]. cbn. lia.
  - rewrite rust_code_length in *. exists m. split; [exact E|]. split; [exact W|]. split; [exact D|]. intros i j Hi Hj.
    rewrite V, rust_code_nth, row_of_last by assumption. rewrite (proj2 (Nat.ltb_lt j n) Hj). cbn [andb].
    destruct (i =? j); cbn [negb andb]; [reflexivity|]. destruct (w i j =? 0)%Z; reflexivity.
Qed.
End Printed.
