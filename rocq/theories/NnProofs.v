(** Facts about the nearest-neighbour heuristic. *)
From Coq Require Import ZArith Arith Bool List Permutation Lia.
From Verif Require Import Num Base Data Par Rand MstPar Nn Spec SpecFacts PrimProofs MstParProofs.
Import ListNotations.

Lemma nth_app_last {A} (p : list A) x d : nth (length p) (p ++ [x]) d = x.
Proof. rewrite app_nth2, Nat.sub_diag by lia. reflexivity. Qed.

(** Appending a vertex to a path. *)
Lemma evaluate_path_snoc {N : Num} (a : adj N) p y d : p <> [] ->
  evaluate_path a (p ++ [y]) =
    (acc <- evaluate_path a p ;; cost <- a_get a (last p d) y ;; Ok (cadd acc cost)).
Proof.
  intros Hp. unfold evaluate_path. rewrite app_length. cbn [length].
  destruct (length p) as [|k] eqn:El; [destruct p; [congruence|discriminate]|].
  replace (S k + 1 <=? 1) with false by (symmetry; apply Nat.leb_gt; lia).
  replace (S k + 1 - 1) with (S k) by lia. rewrite seq_S, foldM_app. cbn [plus].
  assert (Hlast : nth_res (p ++ [y]) k = Ok (last p d)).
  { rewrite (nth_res_nth _ _ d) by (rewrite app_length; lia). rewrite app_nth1 by lia.
    rewrite <- (nth_last p d Hp). rewrite El. do 2 f_equal. lia. }
  assert (Hy : nth_res (p ++ [y]) (k + 1) = Ok y).
  { rewrite (nth_res_nth _ _ y) by (rewrite app_length; cbn; lia). replace (k + 1) with (length p) by lia. rewrite nth_app_last. reflexivity. }
  assert (E : foldM (fun (acc : C N) from => x <- nth_res (p ++ [y]) from ;; z <- nth_res (p ++ [y]) (from + 1) ;;
        cost <- a_get a x z ;; Ok (cadd acc cost)) (seq 0 k) c0 =
      foldM (fun (acc : C N) from => x <- nth_res p from ;; z <- nth_res p (from + 1) ;;
        cost <- a_get a x z ;; Ok (cadd acc cost)) (seq 0 k) c0).
  { apply foldM_ext. intros s i Hi. apply in_seq in Hi.
    rewrite !(nth_res_nth _ _ d) by (rewrite ?app_length; cbn; lia). rewrite !app_nth1 by lia. reflexivity. }
  rewrite E. clear E. cbn [foldM].
  destruct (Nat.leb_spec (S k) 1) as [Hk|Hk].
  - assert (k = 0) by lia. subst k. cbn [seq foldM bind]. rewrite Hlast, Hy. cbn [bind].
    destruct (a_get a (last p d) y); reflexivity.
  - replace (S k - 1) with k by lia. destruct (foldM _ (seq 0 k) c0); cbn [bind]; [|reflexivity..].
    rewrite Hlast, Hy. cbn [bind]. destruct (a_get a (last p d) y); reflexivity.
Qed.

Section NnProofs.
Context {N : Num} (O : NumOrd N).
Variable m : namatrix N.
Hypothesis Hwf : na_wf m.
Let n := na_dim m.
Hypothesis Hfin : forall a b, a < n -> b < n -> a <> b -> clt (na_val m a b) cinf = true.

Definition nn_greedy (p : list nat) : Prop := forall k v, S k < length p -> v < n -> ~ In v (firstn (S k) p) ->
  cle (na_val m (nth k p 0) (nth (S k) p 0)) (na_val m (nth k p 0) v) = true.

Lemma nn_scan_spec visited cur : length visited = n -> cur < n -> nth cur visited true = true ->
  (exists v, v < n /\ nth v visited true = false) ->
  exists v, foldM (nn_scan m visited cur) (seq 0 n) (None, cinf) = Ok (Some v, na_val m cur v) /\
    v < n /\ nth v visited true = false /\
    forall u, u < n -> nth u visited true = false -> cle (na_val m cur v) (na_val m cur u) = true.
Proof.
  intros Hl Hc Hcv (u0 & Hu0 & Hu0v).
  destruct (foldM_inv (nn_scan m visited cur) (fun pre (acc : option nat * C N) =>
    match fst acc with
    | None => snd acc = cinf /\ forall u, In u pre -> nth u visited true = true
    | Some v => In v pre /\ v < n /\ nth v visited true = false /\ snd acc = na_val m cur v /\
        forall u, In u pre -> nth u visited true = false -> cle (na_val m cur v) (na_val m cur u) = true
    end) (seq 0 n) (None, cinf)) as ([o c] & E & H).
  - cbn. split; [reflexivity|]. intros u [].
  - intros pre x post [o c] El HP.
    assert (Hx : x < n) by (assert (In x (seq 0 n)) as Hin by (rewrite El; apply in_elt); apply in_seq in Hin; lia).
    unfold nn_scan. rewrite (nth_res_nth _ _ true) by lia. cbn [bind].
    destruct (nth x visited true) eqn:Ev.
    + eexists. split; [reflexivity|]. cbn [fst snd] in *. destruct o as [v|].
      * destruct HP as (H1 & H2 & H3 & H4 & H5). split; [apply in_or_app; auto|]. do 3 (split; [assumption|]).
        intros u Hu Huv. apply in_app_or in Hu. destruct Hu as [Hu|[<-|[]]]; [auto|congruence].
      * destruct HP as [H1 H2]. split; [assumption|]. intros u Hu. apply in_app_or in Hu. destruct Hu as [Hu|[<-|[]]]; auto.
    + assert (Hxc : cur <> x) by (intros ->; congruence).
      rewrite na_get_val by assumption. cbn [bind fst snd].
      assert (Hnx : cnan (na_val m cur x) = false) by (apply (clt_nnan_l O _ cinf); apply Hfin; assumption).
      cbn [fst snd] in HP. destruct o as [v|].
      * destruct HP as (H1 & H2 & H3 & -> & H5).
        assert (Hcv' : cur <> v) by (intros ->; congruence).
        assert (Hnv : cnan (na_val m cur v) = false) by (apply (clt_nnan_l O _ cinf); apply Hfin; assumption).
        destruct (clt (na_val m cur x) (na_val m cur v)) eqn:Ec.
        -- eexists. split; [reflexivity|]. cbn [fst snd]. split; [apply in_or_app; cbn; auto|]. do 3 (split; [auto|]).
           intros u Hu Huv. apply in_app_or in Hu. destruct Hu as [Hu|[<-|[]]].
           ++ apply (ord_trans N O _ (na_val m cur v)); [apply (clt_le O); assumption|auto].
           ++ apply (cle_refl O). assumption.
        -- eexists. split; [reflexivity|]. cbn [fst snd]. split; [apply in_or_app; auto|]. do 3 (split; [auto|]).
           intros u Hu Huv. apply in_app_or in Hu. destruct Hu as [Hu|[<-|[]]]; [auto|]. apply (nclt_cle O); assumption.
      * destruct HP as [-> H2]. rewrite (Hfin cur x) by assumption.
        eexists. split; [reflexivity|]. cbn [fst snd]. split; [apply in_or_app; cbn; auto|]. do 3 (split; [auto|]).
        intros u Hu Huv. apply in_app_or in Hu. destruct Hu as [Hu|[<-|[]]].
        -- specialize (H2 u Hu). congruence.
        -- apply (cle_refl O). assumption.
  - destruct o as [v|]; cbn [fst snd] in H.
    + destruct H as (_ & Hv & Hvv & -> & Hmin). exists v. split; [exact E|]. split; [assumption|]. split; [assumption|].
      intros u Hu. apply Hmin. apply in_seq. lia.
    + destruct H as [_ H]. specialize (H u0 ltac:(apply in_seq; lia)). congruence.
Qed.

Lemma nn_loop_spec : forall rounds path visited cur dist, length path + rounds = n -> path <> [] -> last path 0 = cur ->
  NoDup path -> Forall (fun x => x < n) path -> length visited = n ->
  (forall v, v < n -> nth v visited true = memb v path) ->
  evaluate_path (na_adj m) path = Ok dist -> nn_greedy path ->
  exists p cur' dist', nn_loop m rounds path visited cur dist = Ok (p, cur', dist') /\
    length p = n /\ NoDup p /\ Forall (fun x => x < n) p /\ hd 0 p = hd 0 path /\ last p 0 = cur' /\
    evaluate_path (na_adj m) p = Ok dist' /\ nn_greedy p.
Proof.
  induction rounds as [|rounds IH]; intros path visited cur dist Hlen Hne Hlast Hnd Hf Hl Hvis He Hg; cbn [nn_loop].
  - exists path, cur, dist. repeat split; try assumption. lia.
  - assert (Hcin : In cur path) by (rewrite <- Hlast; apply last_In; assumption).
    assert (Hc : cur < n) by (rewrite Forall_forall in Hf; apply Hf; assumption).
    assert (Hex : exists v, v < n /\ nth v visited true = false).
    { destruct (forallb (fun v => memb v path) (seq 0 n)) eqn:Ea.
      - exfalso. assert (Hincl : incl (seq 0 n) path).
        { intros v Hv. rewrite forallb_forall in Ea. apply memb_In, Ea. assumption. }
        apply NoDup_incl_length in Hincl; [|apply seq_NoDup]. rewrite seq_length in Hincl. lia.
      - assert (exists v, In v (seq 0 n) /\ memb v path = false) as (v & Hv & Hm).
        { clear -Ea. induction (seq 0 n) as [|x l IHl]; [discriminate|]. cbn in Ea. destruct (memb x path) eqn:Ex.
          - destruct (IHl Ea) as (v & Hv & Hm). exists v. split; [right; assumption|assumption].
          - exists x. split; [left; reflexivity|assumption]. }
        apply in_seq in Hv. exists v. split; [lia|]. rewrite Hvis by lia. assumption. }
    destruct (nn_scan_spec visited cur Hl Hc) as (v & E & Hv & Hvv & Hmin); [rewrite Hvis by assumption; apply memb_In; assumption|assumption|].
    fold n. rewrite E. cbn [bind].
    assert (Hvp : ~ In v path) by (apply memb_nIn; rewrite <- Hvis; assumption).
    rewrite (modify_res_Ok visited v _ true) by lia. cbn [bind].
    destruct (IH (path ++ [v]) (upd visited v true) v (cadd dist (na_val m cur v))) as (p & cur' & dist' & E' & H).
    + rewrite app_length. cbn. lia.
    + destruct path; discriminate.
    + apply last_last.
    + apply (Permutation_NoDup (Permutation_cons_append path v)). constructor; assumption.
    + apply Forall_app. auto.
    + rewrite upd_length. assumption.
    + intros u Hu. assert (Em : memb u (path ++ [v]) = memb u path || (u =? v)).
      { unfold memb. rewrite existsb_app. cbn. rewrite orb_false_r. reflexivity. }
      rewrite Em. destruct (Nat.eqb_spec u v) as [Eu|Eu].
      * subst u. rewrite nth_upd_eq by lia. rewrite orb_true_r. reflexivity.
      * rewrite nth_upd_neq by congruence. rewrite orb_false_r. apply Hvis. assumption.
    + rewrite (evaluate_path_snoc _ _ _ 0 Hne), He. cbn [bind]. rewrite Hlast. unfold na_adj at 1. cbn [a_get].
      rewrite na_get_val by assumption. reflexivity.
    + intros k u Hk Hu Hnin. rewrite app_length in Hk. cbn [length] in Hk.
      destruct (Nat.eq_dec (S k) (length path)) as [Ek|Ek].
      * rewrite (app_nth1 path) by lia. rewrite Ek, nth_app_last.
        assert (El : nth k path 0 = cur) by (rewrite <- Hlast, <- (nth_last path 0 Hne); f_equal; lia).
        rewrite El. apply Hmin; [assumption|]. rewrite Hvis by assumption. apply memb_nIn. intros Hin. apply Hnin.
        rewrite Ek, firstn_app, Nat.sub_diag, firstn_all. apply in_or_app. auto.
      * rewrite !app_nth1 by lia. apply Hg; [lia|assumption|]. intros Hin. apply Hnin.
        rewrite firstn_app. apply in_or_app. auto.
    + exists p, cur', dist'. split; [exact E'|]. destruct H as (H1 & H2 & H3 & H4 & H). split; [assumption|]. split; [assumption|]. split; [assumption|].
      split; [|assumption]. rewrite H4. destruct path; [congruence|reflexivity].
Qed.

Theorem single_nn_spec s : s < n -> exists c p, single_nearest_neighbour m s = Ok (c, p) /\
  is_tour n p /\ hd 0 p = s /\ nn_greedy p /\
  (2 <= n -> evaluate_circle (na_adj m) p = Ok c).
Proof.
  intros Hs. unfold single_nearest_neighbour. fold n.
  apply Nat.ltb_lt in Hs as Hs'. rewrite Hs'. cbn [negb].
  rewrite (modify_res_Ok _ s _ true) by (rewrite repeat_length; assumption). cbn [bind].
  destruct (nn_loop_spec (n - 1) [s] (upd (repeat false n) s true) s c0) as (p & cur & dist & E & Hl & Hnd & Hf & Hh & Hla & He & Hg).
  - cbn. lia.
  - discriminate.
  - reflexivity.
  - constructor; [intros []|constructor].
  - constructor; [assumption|constructor].
  - rewrite upd_length, repeat_length. reflexivity.
  - intros v Hv. cbn [memb existsb]. rewrite orb_false_r. destruct (Nat.eqb_spec v s) as [Ev|Ev].
    + subst v. rewrite nth_upd_eq by (rewrite repeat_length; assumption). reflexivity.
    + rewrite nth_upd_neq by congruence. rewrite nth_repeat_lt by assumption. reflexivity.
  - reflexivity.
  - intros k v Hk. cbn in Hk. lia.
  - rewrite E. cbn [bind]. cbn [hd] in Hh.
    assert (Hpne : p <> []) by (intros ->; cbn in Hl; lia).
    assert (Hc : cur < n) by (rewrite <- Hla; rewrite Forall_forall in Hf; apply Hf, last_In; assumption).
    rewrite na_get_val by assumption. cbn [bind].
    eexists. exists p. split; [reflexivity|]. split; [apply tour_intro; assumption|]. split; [assumption|]. split; [assumption|].
    intros Hn. unfold evaluate_circle. rewrite Hl. replace (n <=? 1) with false by (symmetry; apply Nat.leb_gt; lia).
    rewrite (last_res_last p 0) by assumption. rewrite (first_res_hd p 0) by assumption. cbn [bind].
    rewrite Hla, Hh, He. unfold na_adj at 1. cbn [a_get]. rewrite na_get_val by assumption. reflexivity.
Qed.
End NnProofs.

(** ** Reductions that pick a best element *)
Section Best.
Context {A : Type} (op : A -> A -> A) (R : A -> A -> Prop) (P : A -> Prop).
Hypothesis R_refl : forall a, P a -> R a a.
Hypothesis R_trans : forall a b c, R a b -> R b c -> R a c.
Hypothesis op_pick : forall a b, P a -> P b -> (op a b = a \/ op a b = b) /\ R (op a b) a /\ R (op a b) b.

Lemma seq_reduce_best l : (forall x, In x l -> P x) -> l <> [] ->
  exists M, seq_reduce op l = Some M /\ In M l /\ forall x, In x l -> R M x.
Proof.
  intros Hn Hne. destruct l as [|a l]; [congruence|]. cbn [seq_reduce]. clear Hne. revert a Hn.
  induction l as [|b l IH]; intros a Hn.
  - exists a. cbn. split; [reflexivity|]. split; [auto|]. intros x [<-|[]]. apply R_refl. apply Hn; left; reflexivity.
  - cbn [fold_left]. destruct (op_pick a b) as (H1 & H2 & H3); [apply Hn; left; reflexivity|apply Hn; right; left; reflexivity|].
    destruct (IH (op a b)) as (M & E & HM & Hx).
    + intros x [<-|Hx]; [destruct H1 as [->| ->]; apply Hn; cbn; auto|apply Hn; cbn; auto].
    + exists M. split; [assumption|]. split.
      * destruct HM as [<-|HM]; [destruct H1 as [->| ->]; cbn; auto|cbn; auto].
      * intros x [<-|[<-|Hin]].
        -- apply (R_trans _ (op a b)); [apply Hx; left; reflexivity|assumption].
        -- apply (R_trans _ (op a b)); [apply Hx; left; reflexivity|assumption].
        -- apply Hx. right; assumption.
Qed.

Lemma par_reduce_nil t : par_reduce op (fun l => l) t [] = None.
Proof. induction t as [|k t1 IH1 t2 IH2]; [reflexivity|]. cbn [par_reduce]. rewrite firstn_nil, skipn_nil, IH1, IH2. reflexivity. Qed.

Lemma par_reduce_best t : forall l, (forall x, In x l -> P x) -> l <> [] ->
  exists M, par_reduce op (fun l => l) t l = Some M /\ In M l /\ forall x, In x l -> R M x.
Proof.
  induction t as [|k t1 IH1 t2 IH2]; intros l Hn Hne; [apply seq_reduce_best; assumption|].
  cbn [par_reduce].
  assert (Hin : forall x, In x l <-> In x (firstn k l) \/ In x (skipn k l)).
  { intros x. rewrite <- in_app_iff, firstn_skipn. reflexivity. }
  assert (Hd : firstn k l = [] \/ firstn k l <> []) by (destruct (firstn k l); [auto|right; discriminate]).
  assert (Hd' : skipn k l = [] \/ skipn k l <> []) by (destruct (skipn k l); [auto|right; discriminate]).
  destruct Hd as [E1|N1].
  - rewrite E1, par_reduce_nil. cbn [opt_op]. destruct (IH2 (skipn k l)) as (M & E & HM & Hx).
    + intros x Hx. apply Hn, Hin. auto.
    + intros E2. apply Hne. rewrite <- (firstn_skipn k l), E1, E2. reflexivity.
    + exists M. split; [assumption|]. split; [apply Hin; auto|]. intros x Hxl. apply Hin in Hxl. rewrite E1 in Hxl. destruct Hxl as [[]|]; auto.
  - destruct (IH1 (firstn k l)) as (M1 & F1 & HM1 & Hx1); [intros x Hx; apply Hn, Hin; auto|assumption|].
    rewrite F1. destruct Hd' as [E2|N2].
    + rewrite E2, par_reduce_nil. cbn [opt_op]. exists M1. split; [reflexivity|]. split; [apply Hin; auto|].
      intros x Hxl. apply Hin in Hxl. rewrite E2 in Hxl. destruct Hxl as [|[]]; auto.
    + destruct (IH2 (skipn k l)) as (M2 & F2 & HM2 & Hx2); [intros x Hx; apply Hn, Hin; auto|assumption|].
      rewrite F2. cbn [opt_op]. destruct (op_pick M1 M2) as (H1 & H2 & H3); [apply Hn, Hin; auto|apply Hn, Hin; auto|].
      eexists. split; [reflexivity|]. split; [destruct H1 as [->| ->]; apply Hin; auto|].
      intros x Hx. apply Hin in Hx. destruct Hx as [Hx|Hx].
      * apply (R_trans _ M1); auto.
      * apply (R_trans _ M2); auto.
Qed.
End Best.

(** ** The best of several starts *)
Section Starts.
Context {N : Num} (O : NumOrd N).

Lemma min_solution_assoc (a b c : solution N) : min_solution a (min_solution b c) = min_solution (min_solution a b) c.
Proof.
  unfold min_solution.
  destruct (olt (fst c) (fst b)) eqn:Ecb; destruct (olt (fst b) (fst a)) eqn:Eba.
  - rewrite Ecb. rewrite (olt_trans O _ _ _ Ecb Eba). reflexivity.
  - reflexivity.
  - rewrite Ecb. reflexivity.
  - rewrite (nolt_trans O _ _ _ Ecb Eba). reflexivity.
Qed.

Definition sol_le (a b : solution N) : Prop := olt (fst b) (fst a) = false.

Lemma min_solution_pick (a b : solution N) :
  (min_solution a b = a \/ min_solution a b = b) /\ sol_le (min_solution a b) a /\ sol_le (min_solution a b) b.
Proof.
  unfold min_solution, sol_le. destruct (olt (fst b) (fst a)) eqn:E.
  - split; [auto|]. split; [apply (olt_asym O); assumption|apply (olt_irrefl O)].
  - split; [auto|]. split; [apply (olt_irrefl O)|assumption].
Qed.
Lemma sol_le_refl a : sol_le a a.
Proof. apply (olt_irrefl O). Qed.
Lemma sol_le_trans a b c : sol_le a b -> sol_le b c -> sol_le a c.
Proof. unfold sol_le. intros H1 H2. apply (nolt_trans O _ (fst b)); assumption. Qed.

Lemma mapM_cell {A B} (f : A -> res B) : forall l r, mapM f l = Ok r ->
  (forall b, In b r -> exists a, In a l /\ f a = Ok b) /\ (forall a, In a l -> exists b, In b r /\ f a = Ok b).
Proof.
  induction l as [|x l IH]; intros r H; cbn [mapM] in H.
  - injection H as <-. split; intros ? [].
  - apply bind_Ok in H. destruct H as (y & Ey & H). apply bind_Ok in H. destruct H as (ys & Eys & H). injection H as <-.
    destruct (IH ys Eys) as [H1 H2]. split.
    + intros b [<-|Hb]; [exists x; cbn; auto|]. destruct (H1 b Hb) as (a & Ha & E). exists a. cbn; auto.
    + intros a [<-|Ha]; [exists y; cbn; auto|]. destruct (H2 a Ha) as (b & Hb & E). exists b. cbn; auto.
Qed.

Lemma mapM_total {A B} (f : A -> res B) : forall l, (forall a, In a l -> exists b, f a = Ok b) -> exists r, mapM f l = Ok r.
Proof.
  induction l as [|x l IH]; intros H; [exists []; reflexivity|].
  destruct (H x (or_introl eq_refl)) as (y & Ey). destruct IH as (ys & Eys); [intros; apply H; right; assumption|].
  exists (y :: ys). cbn. rewrite Ey. cbn. rewrite Eys. reflexivity.
Qed.

Lemma mapM_length {A B} (f : A -> res B) : forall l r, mapM f l = Ok r -> length r = length l.
Proof.
  induction l as [|x l IH]; intros r H; cbn [mapM] in H.
  - injection H as <-. reflexivity.
  - apply bind_Ok in H. destruct H as (y & Ey & H). apply bind_Ok in H. destruct H as (ys & Eys & H). injection H as <-.
    cbn. f_equal. apply IH. assumption.
Qed.

(** the reduction over the solutions of a list of starts, in any association *)
Lemma best_start (m : namatrix N) t starts : starts <> [] ->
  (forall s, In s starts -> exists x, single_nearest_neighbour m s = Ok x) ->
  exists x, (sols <- mapM (single_nearest_neighbour m) starts ;; unwrap (par_reduce min_solution (fun l => l) t sols)) = Ok x /\
    (exists s, In s starts /\ single_nearest_neighbour m s = Ok x) /\
    forall s y, In s starts -> single_nearest_neighbour m s = Ok y -> olt (fst y) (fst x) = false.
Proof.
  intros Hne Hs. destruct (mapM_total _ starts Hs) as (sols & Em). rewrite Em. cbn [bind].
  pose proof (mapM_length _ _ _ Em) as Hl. destruct (mapM_cell _ _ _ Em) as [H1 H2].
  destruct (par_reduce_best min_solution sol_le (fun _ => True) (fun a _ => sol_le_refl a) sol_le_trans (fun a b _ _ => min_solution_pick a b) t sols)
    as (x & E & Hx & Hmin); [auto|intros ->; destruct starts; [congruence|discriminate]|].
  rewrite E. exists x. split; [reflexivity|]. split.
  - destruct (H1 x Hx) as (s & Hin & Es). exists s. auto.
  - intros s y Hin Es. destruct (H2 s Hin) as (y' & Hy' & Es'). assert (y' = y) by congruence. subst y'. apply Hmin. assumption.
Qed.

Theorem n_nn_modes env (m : namatrix N) k : n_nearest_neighbour env PAR_COMPUTATION m k = n_nearest_neighbour env SEQ_COMPUTATION m k.
Proof.
  unfold n_nearest_neighbour, PAR_COMPUTATION, SEQ_COMPUTATION. cbn [Nat.eqb].
  destruct (k =? 0); [reflexivity|]. destruct (negb _); [reflexivity|].
  destruct (mapM _ _); cbn [bind]; [|reflexivity..].
  rewrite (par_reduce_seq min_solution min_solution_assoc) by reflexivity. reflexivity.
Qed.

Lemma random_starts draws n k : k <= n -> let l := n_random_numbers draws n k in
  length l = k /\ NoDup l /\ Forall (fun s => s < n) l.
Proof.
  intros Hk. cbn. unfold n_random_numbers. pose proof (shuffle_perm draws (seq 0 n)) as HP.
  split; [|split].
  - rewrite firstn_length, (Permutation_length HP), seq_length. lia.
  - assert (Hnd : NoDup (shuffle draws (seq 0 n))) by (apply (Permutation_NoDup (Permutation_sym HP)), seq_NoDup).
    rewrite <- (firstn_skipn k) in Hnd. clear -Hnd. induction (firstn k _) as [|x l IH]; [constructor|]. cbn in Hnd. inversion Hnd as [|? ? H1 H2]; subst.
    constructor; [|apply IH; assumption]. intros H. apply H1, in_or_app. auto.
  - apply Forall_forall. intros s Hs. assert (In s (shuffle draws (seq 0 n))) as Hin by (rewrite <- (firstn_skipn k); apply in_or_app; auto).
    apply (Permutation_in _ HP), in_seq in Hin. lia.
Qed.

Theorem n_nn_spec env mode (m : namatrix N) k : mode <= 1 -> 1 <= k <= na_dim m ->
  (forall s, s < na_dim m -> exists x, single_nearest_neighbour m s = Ok x) ->
  exists starts x, length starts = k /\ NoDup starts /\ Forall (fun s => s < na_dim m) starts /\
    n_nearest_neighbour env mode m k = Ok x /\
    (exists s, In s starts /\ single_nearest_neighbour m s = Ok x) /\
    forall s y, In s starts -> single_nearest_neighbour m s = Ok y -> olt (fst y) (fst x) = false.
Proof.
  intros Hm Hk Hs.
  destruct (random_starts (nn_draws env) (na_dim m) k ltac:(lia)) as (H1 & H2 & H3).
  set (starts := n_random_numbers (nn_draws env) (na_dim m) k) in *.
  assert (Hf : forall s, In s starts -> s < na_dim m) by (rewrite Forall_forall in H3; assumption).
  assert (E : n_nearest_neighbour env mode m k = n_nearest_neighbour env PAR_COMPUTATION m k).
  { destruct mode as [|[|]]; [symmetry; apply n_nn_modes|reflexivity|lia]. }
  rewrite E. unfold n_nearest_neighbour, PAR_COMPUTATION, SEQ_COMPUTATION. cbn [Nat.eqb].
  replace (k =? 0) with false by (symmetry; apply Nat.eqb_neq; lia).
  replace (k <=? na_dim m) with true by (symmetry; apply Nat.leb_le; lia). cbn [negb]. fold starts.
  destruct (best_start m (nn_tree env) starts) as (x & Ex & H4 & H5).
  - intros E0. rewrite E0 in H1. cbn in H1. lia.
  - intros s Hin. apply Hs. auto.
  - exists starts, x. auto 10.
Qed.

Lemma map_const_seq {A} (x : A) : forall k j, map (fun _ : nat => x) (seq j k) = repeat x k.
Proof. induction k as [|k IH]; intros j; [reflexivity|]. cbn. rewrite IH. reflexivity. Qed.
Lemma map_repeat_const {A B} (f : A -> B) x : forall k, map f (repeat x k) = repeat (f x) k.
Proof. induction k as [|k IH]; [reflexivity|]. cbn. rewrite IH. reflexivity. Qed.

(** ** MPI *)
Definition rank_le (a b : C N * nat) : Prop := cle (fst a) (fst b) = true /\ (cle (fst b) (fst a) = true -> snd a <= snd b).

Lemma rank_op_pick a b : cnan (fst a) = false -> cnan (fst b) = false ->
  (mpi_cost_rank_op a b = a \/ mpi_cost_rank_op a b = b) /\ rank_le (mpi_cost_rank_op a b) a /\ rank_le (mpi_cost_rank_op a b) b.
Proof.
  intros Ha Hb. unfold mpi_cost_rank_op.
  assert (Hr : forall x, cnan (fst x) = false -> rank_le x x) by (intros x Hx; split; [apply (cle_refl O); assumption|lia]).
  destruct (clt (fst a) (fst b)) eqn:E.
  - rewrite Nat.ltb_irrefl, andb_false_r. split; [auto|]. split; [auto|].
    split; [apply (clt_le O); assumption|]. intros H. rewrite (ord_lt N O) in E. rewrite H in E. rewrite andb_false_r in E. discriminate.
  - apply (nclt_cle O) in E; [|assumption..]. destruct (ceq (fst a) (fst b) && (snd a <? snd b)) eqn:E2.
    + apply andb_true_iff in E2. destruct E2 as [E2 E3]. rewrite (ord_eq N O) in E2. apply andb_true_iff in E2. apply Nat.ltb_lt in E3.
      split; [auto|]. split; [auto|]. split; [tauto|lia].
    + split; [auto|]. split; [|auto]. split; [assumption|]. intros H. rewrite (ord_eq N O), E, H in E2. cbn in E2. apply Nat.ltb_ge in E2. assumption.
Qed.

Lemma rank_le_trans a b c : rank_le a b -> rank_le b c -> rank_le a c.
Proof.
  intros [H1 H2] [H3 H4]. split; [apply (ord_trans N O _ (fst b)); assumption|].
  intros H. assert (snd a <= snd b) by (apply H2; apply (ord_trans N O _ (fst c)); assumption).
  assert (snd b <= snd c) by (apply H4; apply (ord_trans N O _ (fst a)); assumption). lia.
Qed.

Lemma rank_le_antisym a b : rank_le a b -> rank_le b a -> snd a = snd b.
Proof. intros [H1 H2] [H3 H4]. specialize (H2 H3). specialize (H4 H1). lia. Qed.

Lemma rank_op_comm (a b : C N * nat) : cnan (fst a) = false -> cnan (fst b) = false -> snd a <> snd b ->
  mpi_cost_rank_op a b = mpi_cost_rank_op b a.
Proof.
  intros Ha Hb Hr. destruct (rank_op_pick a b Ha Hb) as (H1 & H2 & H3). destruct (rank_op_pick b a Hb Ha) as (G1 & G2 & G3).
  destruct H1 as [E1|E1], G1 as [E2|E2]; rewrite E1, E2 in *; try reflexivity; exfalso; apply Hr;
    [apply rank_le_antisym|symmetry; apply rank_le_antisym]; assumption.
Qed.

Lemma rank_op_assoc (a b c : C N * nat) : cnan (fst a) = false -> cnan (fst b) = false -> cnan (fst c) = false ->
  snd a <> snd b -> snd b <> snd c -> snd a <> snd c ->
  mpi_cost_rank_op a (mpi_cost_rank_op b c) = mpi_cost_rank_op (mpi_cost_rank_op a b) c.
Proof.
  intros Ha Hb Hc Hab Hbc Hac.
  destruct (rank_op_pick b c Hb Hc) as (H1 & H2 & H3).
  destruct (rank_op_pick a b Ha Hb) as (G1 & G2 & G3).
  destruct (rank_op_pick a (mpi_cost_rank_op b c) Ha) as (K1 & K2 & K3); [destruct H1 as [->| ->]; assumption|].
  destruct (rank_op_pick (mpi_cost_rank_op a b) c) as (L1 & L2 & L3); [destruct G1 as [->| ->]; assumption|assumption|].
  set (x := mpi_cost_rank_op a (mpi_cost_rank_op b c)) in *. set (y := mpi_cost_rank_op (mpi_cost_rank_op a b) c) in *.
  assert (Hx : x = a \/ x = b \/ x = c) by (destruct K1 as [->|K1]; [auto|]; destruct H1 as [H1|H1]; rewrite K1, H1; auto).
  assert (Hy : y = a \/ y = b \/ y = c) by (destruct L1 as [L1| ->]; [|auto]; destruct G1 as [G1|G1]; rewrite L1, G1; auto).
  assert (Xb : rank_le x b) by (apply (rank_le_trans _ _ _ K3 H2)).
  assert (Xc : rank_le x c) by (apply (rank_le_trans _ _ _ K3 H3)).
  assert (Ya : rank_le y a) by (apply (rank_le_trans _ _ _ L2 G2)).
  assert (Yb : rank_le y b) by (apply (rank_le_trans _ _ _ L2 G3)).
  assert (Hs : snd x = snd y).
  { apply rank_le_antisym; [destruct Hy as [->|[->| ->]]; assumption|destruct Hx as [->|[->| ->]]; assumption]. }
  clearbody x y. clear - Hx Hy Hs Hab Hbc Hac. destruct Hx as [->|[->| ->]], Hy as [->|[->| ->]]; congruence.
Qed.

Lemma nn_chunk_spec n size : 1 <= size <= n ->
  (forall r, r < size -> nn_chunk n size r <> [] /\ forall s, In s (nn_chunk n size r) -> s < n) /\
  forall s, s < n -> exists r, r < size /\ In s (nn_chunk n size r).
Proof.
  intros Hsz. set (q := n / size).
  assert (Hd : n = size * q + n mod size) by (apply Nat.div_mod; lia).
  assert (Hmod : n mod size < size) by (apply Nat.mod_upper_bound; lia).
  assert (Hq : 1 <= q) by (apply Nat.div_le_lower_bound; lia).
  assert (Hc : forall r s, r < size -> In s (nn_chunk n size r) <-> q * r <= s < (if r =? size - 1 then n else q * r + q)).
  { intros r s Hr. unfold nn_chunk. fold q. rewrite in_seq.
    destruct (Nat.eqb_spec r (size - 1)) as [Er|Er]; cbn [andb].
    - destruct (Nat.eqb_spec (n mod size) 0) as [E0|E0]; cbn [negb].
      + assert (q * r + q = n) by nia. lia.
      + assert (q * r <= n) by nia. lia.
    - lia. }
  split.
  - intros r Hr. split.
    + intros E. assert (Hin : In (q * r) (nn_chunk n size r)).
      { apply Hc; [assumption|]. destruct (Nat.eqb_spec r (size - 1)); [nia|lia]. }
      rewrite E in Hin. destruct Hin.
    + intros s Hs. apply Hc in Hs; [|assumption]. destruct (Nat.eqb_spec r (size - 1)); [lia|]. nia.
  - intros s Hs. destruct (Nat.le_gt_cases (q * (size - 1)) s) as [H|H].
    + exists (size - 1). split; [lia|]. apply Hc; [lia|]. rewrite Nat.eqb_refl. lia.
    + exists (s / q). assert (Hsd : s = q * (s / q) + s mod q) by (apply Nat.div_mod; lia).
      pose proof (Nat.mod_upper_bound s q ltac:(lia)). assert (s / q < size - 1) by nia.
      split; [lia|]. apply Hc; [lia|]. destruct (Nat.eqb_spec (s / q) (size - 1)); lia.
Qed.

Theorem nn_mpi_spec order tree (m : namatrix N) size :
  (forall s, s < na_dim m -> exists x, single_nearest_neighbour m s = Ok x /\ cnan (fst x) = false) ->
  1 <= size <= na_dim m -> (forall r, r < size -> Permutation (order r) (seq 0 size)) ->
  exists x, nearest_neighbour_mpi order tree m size = Ok (repeat x size) /\
    (exists s, s < na_dim m /\ single_nearest_neighbour m s = Ok x) /\
    forall s y, s < na_dim m -> single_nearest_neighbour m s = Ok y -> cle (fst x) (fst y) = true.
Proof.
  intros Hsgl Hsz Hord. set (n := na_dim m) in *.
  destruct (nn_chunk_spec n size Hsz) as [Hch Hcov].
  assert (Hnn : forall s y, s < n -> single_nearest_neighbour m s = Ok y -> cnan (fst y) = false).
  { intros s y Hs Es. destruct (Hsgl s Hs) as (x & Ex & Hx). congruence. }
  assert (Hloc : forall r, r < size -> exists x, nn_local m size r = Ok x /\
     (exists s, s < n /\ single_nearest_neighbour m s = Ok x) /\
     forall s y, In s (nn_chunk n size r) -> single_nearest_neighbour m s = Ok y -> cle (fst x) (fst y) = true).
  { intros r Hr. destruct (Hch r Hr) as [Hne Hin]. unfold nn_local. fold n.
    destruct (best_start m RLeaf (nn_chunk n size r) Hne) as (x & Ex & (s & Hs & Es) & Hmin).
    { intros s Hs. destruct (Hsgl s (Hin s Hs)) as (x & Ex & _). exists x. assumption. }
    exists x. split; [exact Ex|]. split; [exists s; auto|].
    intros s' y Hs' Es'. specialize (Hmin s' y Hs' Es'). unfold olt in Hmin.
    rewrite (Hnn s x (Hin s Hs) Es), (Hnn s' y (Hin s' Hs') Es') in Hmin.
    apply (nclt_cle O); [apply (Hnn s' y); auto|apply (Hnn s x); auto|assumption]. }
  set (lf := fun r => match nn_local m size r with Ok x => x | _ => (c0, []) end).
  assert (Hlf : forall r, r < size -> nn_local m size r = Ok (lf r) /\ cnan (fst (lf r)) = false /\
     (exists s, s < n /\ single_nearest_neighbour m s = Ok (lf r)) /\
     forall s y, In s (nn_chunk n size r) -> single_nearest_neighbour m s = Ok y -> cle (fst (lf r)) (fst y) = true).
  { intros r Hr. destruct (Hloc r Hr) as (x & Ex & H1 & H2). unfold lf. rewrite Ex. split; [reflexivity|]. split; [|auto].
    destruct H1 as (s & Hs & Es). apply (Hnn s); assumption. }
  unfold nearest_neighbour_mpi. rewrite (mapM_Ok _ lf) by (intros r Hr; apply in_seq in Hr; apply Hlf; lia).
  cbn [bind]. set (locals := map lf (seq 0 size)).
  assert (Hnth : forall r, r < size -> nth_error locals r = Some (lf r)).
  { intros r Hr. unfold locals. rewrite (nth_error_nth' _ (lf 0)) by (rewrite map_length, seq_length; lia).
    rewrite map_nth, seq_nth by lia. reflexivity. }
  (* the winner *)
  destruct (par_reduce_best mpi_cost_rank_op rank_le (fun a => cnan (fst a) = false)
    (fun a Ha => conj (cle_refl O _ Ha) (fun _ => le_n _)) rank_le_trans rank_op_pick RLeaf (map (fun r => (fst (lf r), r)) (seq 0 size)))
    as (W & _ & HW & HWmin).
  { intros x Hx. apply in_map_iff in Hx. destruct Hx as (r & <- & Hr). apply in_seq in Hr. apply Hlf. lia. }
  { destruct size; [lia|discriminate]. }
  apply in_map_iff in HW. destruct HW as (rw & <- & Hrw). apply in_seq in Hrw. destruct Hrw as [_ Hrw]. cbn [plus] in Hrw.
  assert (Hrecv : forall r, r < size ->
    (vals <- mapM (fun q => unwrap match nth_error locals q with Some s => Some (fst s, q) | None => None end) (order r) ;;
      unwrap (par_reduce mpi_cost_rank_op (fun l => l) (tree r) vals)) = Ok (fst (lf rw), rw)).
  { intros r Hr. specialize (Hord r Hr).
    assert (Hin : forall q, In q (order r) <-> q < size).
    { intros q. split; intros H.
      - apply (Permutation_in _ Hord), in_seq in H. lia.
      - apply (Permutation_in _ (Permutation_sym Hord)), in_seq. lia. }
    rewrite (mapM_Ok _ (fun q => (fst (lf q), q))) by (intros q Hq; apply Hin in Hq; rewrite Hnth by assumption; reflexivity).
    cbn [bind].
    destruct (par_reduce_best mpi_cost_rank_op rank_le (fun a => cnan (fst a) = false)
      (fun a Ha => conj (cle_refl O _ Ha) (fun _ => le_n _)) rank_le_trans rank_op_pick (tree r) (map (fun r => (fst (lf r), r)) (order r)))
      as (V & EV & HV & HVmin).
    { intros x Hx. apply in_map_iff in Hx. destruct Hx as (q & <- & Hq). apply Hin in Hq. apply Hlf. assumption. }
    { intros E. apply map_eq_nil in E. assert (In 0 (order r)) as H0 by (apply Hin; lia). rewrite E in H0. destruct H0. }
    rewrite EV. cbn [unwrap]. f_equal.
    apply in_map_iff in HV. destruct HV as (rv & <- & Hrv). apply Hin in Hrv.
    destruct (HVmin (fst (lf rw), rw)) as [A1 A2]; [apply in_map_iff; exists rw; split; [reflexivity|apply Hin; assumption]|].
    destruct (HWmin (fst (lf rv), rv)) as [B1 B2]; [apply in_map_iff; exists rv; split; [reflexivity|apply in_seq; lia]|].
    cbn [fst snd] in *. specialize (A2 B1). specialize (B2 A1). assert (rv = rw) by lia. subst rv. reflexivity. }
  rewrite (mapM_Ok _ (fun _ => (fst (lf rw), rw))) by (intros r Hr; apply in_seq in Hr; apply Hrecv; lia).
  cbn [bind].
  assert (Erep : map (fun _ : nat => (fst (lf rw), rw)) (seq 0 size) = repeat (fst (lf rw), rw) size).
  { apply map_const_seq. }
  rewrite Erep. rewrite (first_res_hd _ (fst (lf rw), rw)) by (destruct size; [lia|discriminate]). cbn [bind].
  replace (hd (fst (lf rw), rw) (repeat (fst (lf rw), rw) size)) with (fst (lf rw), rw) by (destruct size; reflexivity). cbn [snd].
  replace (forallb (fun rv : C N * nat => snd rv =? rw) (repeat (fst (lf rw), rw) size)) with true.
  2:{ symmetry. apply forallb_forall. intros x Hx. apply repeat_spec in Hx. subst x. apply Nat.eqb_refl. }
  unfold nth_res. rewrite Hnth by assumption. cbn [bind].
  exists (lf rw). split; [|split].
  - rewrite map_repeat_const. cbn [fst]. rewrite <- surjective_pairing. reflexivity.
  - apply Hlf. assumption.
  - intros s y Hs Es. destruct (Hcov s Hs) as (r & Hr & Hin).
    destruct (HWmin (fst (lf r), r)) as [A1 _]; [apply in_map_iff; exists r; split; [reflexivity|apply in_seq; lia]|].
    cbn [fst] in A1. apply (ord_trans N O _ (fst (lf r))); [assumption|]. apply (Hlf r Hr) with (s := s); assumption.
Qed.

Lemma nn_mpi_too_many order tree (m : namatrix N) size : na_dim m < size -> 
  (forall s, s < na_dim m -> exists x, single_nearest_neighbour m s = Ok x) ->
  nearest_neighbour_mpi order tree m size = Panic.
Proof.
  intros Hsz Hsgl. unfold nearest_neighbour_mpi.
  assert (E : mapM (nn_local m size) (seq 0 size) = Panic); [|rewrite E; reflexivity].
  destruct size as [|size]; [lia|]. cbn [seq mapM].
  assert (E0 : nn_chunk (na_dim m) (S size) 0 = [] \/ nn_chunk (na_dim m) (S size) 0 <> []) by (destruct (nn_chunk _ _ _); [auto|right; discriminate]).
  unfold nn_chunk in E0. rewrite (Nat.div_small (na_dim m) (S size)) in E0 by lia.
  unfold nn_local at 1. unfold nn_chunk. rewrite (Nat.div_small (na_dim m) (S size)) by lia.
  destruct size as [|size].
  - cbn [Nat.eqb Nat.sub andb]. rewrite Nat.mod_1_r. cbn [Nat.eqb negb]. reflexivity.
  - cbn [Nat.eqb Nat.sub andb]. reflexivity.
Qed.
End Starts.
