(** What Prim's algorithm (Mst.v) computes.  (Proofs.) *)
From Coq Require Import ZArith Arith Bool List Permutation Lia.
From Verif Require Import Num Base Spec SpecFacts Data Mst Greedy.
Import ListNotations.

(** ** Order lemmas *)
Section Ord.
Context {N : Num} (O : NumOrd N).

Lemma clt_le (x y : C N) : clt x y = true -> cle x y = true.
Proof. rewrite (ord_lt N O). intros H. apply andb_prop in H. tauto. Qed.

Lemma clt_nnan_l (x y : C N) : clt x y = true -> cnan x = false.
Proof. intros H. apply clt_le in H. eapply ord_nan_l; eauto. Qed.

Lemma clt_nnan_r (x y : C N) : clt x y = true -> cnan y = false.
Proof. intros H. apply clt_le in H. eapply ord_nan_r; eauto. Qed.

Lemma cinf_nnan : cnan (cinf : C N) = false.
Proof. apply (clt_nnan_r c0). apply (ord_0 N O). Qed.

Lemma c0_nnan : cnan (c0 : C N) = false.
Proof. apply (clt_nnan_l _ cinf). apply (ord_0 N O). Qed.

Lemma ceq_refl (x : C N) : cnan x = false -> ceq x x = true.
Proof. unfold cnan. destruct (ceq x x); simpl; congruence. Qed.

Lemma cle_refl (x : C N) : cnan x = false -> cle x x = true.
Proof. intros H. rewrite (ord_refl N O), H. reflexivity. Qed.

Lemma nclt_cle (x y : C N) : cnan x = false -> cnan y = false -> clt x y = false -> cle y x = true.
Proof.
  intros Hx Hy H. rewrite (ord_lt N O) in H.
  destruct (ord_total N O x y Hx Hy) as [H1|H1]; [|assumption].
  rewrite H1 in H. simpl in H. destruct (cle y x); [reflexivity|discriminate].
Qed.

Lemma clt_neq (x y : C N) : clt x y = true -> ceq x y = false.
Proof.
  rewrite (ord_lt N O), (ord_eq N O). destruct (cle x y), (cle y x); simpl; congruence.
Qed.

Lemma clt_irrefl (x : C N) : clt x x = false.
Proof. rewrite (ord_lt N O). destruct (cle x x); reflexivity. Qed.

Lemma clt_cle_trans (x y z : C N) : clt x y = true -> cle y z = true -> clt x z = true.
Proof.
  rewrite !(ord_lt N O). intros H1 H2. apply andb_prop in H1. destruct H1 as [H1 H1'].
  rewrite (ord_trans N O _ _ _ H1 H2). simpl.
  destruct (cle z x) eqn:E; [|reflexivity].
  rewrite (ord_trans N O _ _ _ H2 E) in H1'. discriminate.
Qed.

Lemma cle_clt_trans (x y z : C N) : cle x y = true -> clt y z = true -> clt x z = true.
Proof.
  rewrite !(ord_lt N O). intros H1 H2. apply andb_prop in H2. destruct H2 as [H2 H2'].
  rewrite (ord_trans N O _ _ _ H1 H2). simpl.
  destruct (cle z x) eqn:E; [|reflexivity].
  rewrite (ord_trans N O _ _ _ E H1) in H2'. discriminate.
Qed.

Lemma nolt_cle (x y : C N) : cnan x = false -> cnan y = false -> olt x y = false -> cle y x = true.
Proof. intros Hx Hy. unfold olt. rewrite Hx, Hy. apply nclt_cle; assumption. Qed.

Lemma olt_cle (x y : C N) : cnan y = false -> olt x y = true -> cle x y = true.
Proof.
  unfold olt. intros Hy H. destruct (cnan x); [discriminate|]. rewrite Hy in H.
  apply clt_le; assumption.
Qed.

(** [min_by] returns an element that is least. *)
Lemma first_min_spec (l : list (nat * edge N)) :
  (forall x, In x l -> cnan (e_cost (snd x)) = false) -> l <> [] ->
  exists x, first_min l = Some x /\ In x l /\
    forall y, In y l -> cle (e_cost (snd x)) (e_cost (snd y)) = true.
Proof.
  intros Hn Hne. destruct l as [|a l]; [congruence|]. clear Hne. simpl.
  eexists. split; [reflexivity|].
  assert (G : forall (l : list (nat * edge N)) a, (forall x, In x (a :: l) -> cnan (e_cost (snd x)) = false) ->
    In (fold_left min_entry l a) (a :: l) /\
    forall y, In y (a :: l) -> cle (e_cost (snd (fold_left min_entry l a))) (e_cost (snd y)) = true).
  { clear -O. induction l as [|b l IH]; intros a Hn.
    - simpl. split; [auto|]. intros y [<-|[]]. apply cle_refl. apply Hn. left; reflexivity.
    - simpl. assert (Ha : cnan (e_cost (snd a)) = false) by (apply Hn; left; reflexivity).
      assert (Hb : cnan (e_cost (snd b)) = false) by (apply Hn; right; left; reflexivity).
      destruct (IH (min_entry a b)) as [H1 H2].
      { intros x [<-|Hx]; [|apply Hn; right; right; assumption].
        unfold min_entry. destruct (olt _ _); assumption. }
      split.
      + destruct H1 as [H1|H1]; [|right; right; assumption].
        rewrite <- H1. unfold min_entry. destruct (olt _ _); auto.
      + pose proof (H2 (min_entry a b) (or_introl eq_refl)) as Hm.
        assert (Hab : cle (e_cost (snd (min_entry a b))) (e_cost (snd a)) = true /\
                      cle (e_cost (snd (min_entry a b))) (e_cost (snd b)) = true).
        { unfold min_entry. destruct (olt (e_cost (snd b)) (e_cost (snd a))) eqn:E.
          - split; [apply olt_cle; assumption|apply cle_refl; assumption].
          - split; [apply cle_refl; assumption|apply nolt_cle; assumption]. }
        intros y [<-|[<-|Hy]].
        * apply (ord_trans N O _ _ _ Hm). tauto.
        * apply (ord_trans N O _ _ _ Hm). tauto.
        * apply H2. right; assumption. }
  apply G. assumption.
Qed.
End Ord.

(** ** Matrices *)
Section Mat.
Context {N : Num}.

Definition na_wf (m : namatrix N) : Prop := length (na_data m) = na_dim m * na_dim m.
Definition na_val (m : namatrix N) (i j : nat) : C N := nth (j * na_dim m + i) (na_data m) c0.

Lemma cell_bound n i j : i < n -> j < n -> j * n + i < n * n.
Proof. intros. nia. Qed.

Lemma na_get_val m i j : na_wf m -> i < na_dim m -> j < na_dim m -> na_get m i j = Ok (na_val m i j).
Proof.
  intros Hw Hi Hj. unfold na_get. apply Nat.ltb_lt in Hi as Hi', Hj as Hj'. rewrite Hi', Hj'. simpl.
  apply nth_res_nth. rewrite Hw. apply cell_bound; assumption.
Qed.

Lemma na_row_val m i : na_wf m -> i < na_dim m ->
  na_row m i = Ok (map (na_val m i) (seq 0 (na_dim m))).
Proof.
  intros Hw Hi. unfold na_row. apply Nat.ltb_lt in Hi as Hi'. rewrite Hi'. apply mapM_Ok. intros j Hj. apply in_seq in Hj.
  apply na_get_val; try assumption; lia.
Qed.

Definition adjlist (cf : nat -> nat -> C N) (T : list (nat * nat)) (v : nat) : list (edge N) :=
  map (fun x => mkEdge (fst x) (cf (fst (snd x)) (snd (snd x)))) (incident T v).

Lemma adjlist_app cf T1 T2 v : adjlist cf (T1 ++ T2) v = adjlist cf T1 v ++ adjlist cf T2 v.
Proof. unfold adjlist, incident. rewrite flat_map_app, map_app. reflexivity. Qed.

End Mat.

Lemma first_free_spec X : forall fuel idx k, ~ In k X -> idx <= k < idx + fuel ->
  exists s, first_free fuel X idx = Ok s /\ ~ In s X /\ idx <= s <= k.
Proof.
  induction fuel as [|f IH]; intros idx k Hk Hf; [lia|]. simpl.
  destruct (memb idx X) eqn:E.
  - apply memb_In in E. assert (idx <> k) by (intros ->; contradiction).
    destruct (IH (idx + 1) k Hk ltac:(lia)) as (s & Es & H1 & H2). exists s. split; [assumption|]. split; [assumption|lia].
  - apply memb_nIn in E. exists idx. split; [reflexivity|]. split; [assumption|lia].
Qed.

Lemma exists_free (X : list nat) : exists k, ~ In k X /\ k <= length X.
Proof.
  destruct (existsb (fun k => negb (memb k X)) (seq 0 (S (length X)))) eqn:E.
  - apply existsb_exists in E. destruct E as (k & Hk & E). exists k. apply in_seq in Hk.
    split; [|lia]. apply memb_nIn. destruct (memb k X); [discriminate|reflexivity].
  - exfalso. assert (H : incl (seq 0 (S (length X))) X).
    { intros k Hk. apply memb_In. destruct (memb k X) eqn:Em; [reflexivity|].
      assert (true = false); [|discriminate]. rewrite <- E. symmetry. apply existsb_exists.
      exists k. rewrite Em. auto. }
    apply NoDup_incl_length in H; [|apply seq_NoDup]. rewrite seq_length in H. lia.
Qed.

Lemma nth_repeat_lt {A} (x d : A) k i : i < k -> nth i (repeat x k) d = x.
Proof. revert i; induction k; intros i H; [lia|]. destruct i; simpl; [reflexivity|apply IHk; lia]. Qed.

(** ** The vector container *)
Section Vec.
Context {N : Num} (O : NumOrd N).
Variable m : namatrix N.
Hypothesis Hwf : na_wf m.
Let n := na_dim m.
Let cf := na_val m.
Hypothesis Hfin : forall a b, a < n -> b < n -> a <> b -> clt (cf a b) cinf = true.

Definition dd : edge N * bool := (mkEdge 0 c0, true).

Lemma unused_spec (d : vdist N) v e :
  In (v, e) (unused d) <-> v < length d /\ nth v d dd = (e, false).
Proof.
  unfold unused. rewrite in_flat_map. split.
  - intros ([i [e' u]] & Hin & H). destruct u; [destruct H|]. destruct H as [H|[]].
    injection H as <- <-.
    apply (In_nth _ _ (0, dd)) in Hin. destruct Hin as (k & Hk & E).
    rewrite combine_length, seq_length, Nat.min_id in Hk.
    rewrite combine_nth in E by (rewrite seq_length; reflexivity).
    rewrite seq_nth in E by assumption. injection E as <- E. simpl. auto.
  - intros [Hv E]. exists (v, (e, false)). split; [|left; reflexivity].
    rewrite <- E.
    replace (v, nth v d dd) with (nth v (combine (seq 0 (length d)) d) (0, dd)).
    + apply nth_In. rewrite combine_length, seq_length, Nat.min_id. assumption.
    + rewrite combine_nth by (rewrite seq_length; reflexivity). rewrite seq_nth by assumption. reflexivity.
Qed.

Definition relax1 (from : nat) (cost : C N) (x : edge N * bool) : edge N * bool :=
  if clt cost (e_cost (fst x)) then (mkEdge from cost, snd x) else x.

Lemma relax_fold from : forall (row : list (C N)) k (d : vdist N), k + length row <= length d ->
  exists d', foldM (fun d '(to, cost) => relax from d to cost) (combine (seq k (length row)) row) d = Ok d' /\
    length d' = length d /\
    forall t, nth t d' dd = if (k <=? t) && (t <? k + length row)
                            then relax1 from (nth (t - k) row c0) (nth t d dd) else nth t d dd.
Proof.
  induction row as [|c row IH]; intros k d Hk.
  - exists d. simpl. split; [reflexivity|]. split; [reflexivity|]. intros t.
    destruct (k <=? t) eqn:E1; [|reflexivity]. destruct (t <? k + 0) eqn:E2; [|reflexivity].
    apply Nat.leb_le in E1. apply Nat.ltb_lt in E2. lia.
  - simpl length in *. simpl seq. simpl combine. simpl foldM.
    unfold relax at 1. rewrite (nth_res_nth _ _ dd) by lia. simpl bind.
    set (d1 := if clt c (e_cost (fst (nth k d dd))) then upd d k (mkEdge from c, snd (nth k d dd)) else d).
    assert (Ed1 : (if clt c (e_cost (fst (nth k d dd)))
                   then Ok (upd d k (mkEdge from c, snd (nth k d dd))) else Ok d) = Ok d1)
      by (unfold d1; destruct (clt _ _); reflexivity).
    rewrite Ed1. simpl bind.
    assert (Hl1 : length d1 = length d) by (unfold d1; destruct (clt _ _); [apply upd_length|reflexivity]).
    assert (Hn1 : forall t, nth t d1 dd = if t =? k then relax1 from c (nth k d dd) else nth t d dd).
    { intros t. unfold d1, relax1. destruct (clt _ _).
      - destruct (Nat.eqb_spec t k) as [->|Hne]; [apply nth_upd_eq; lia|apply nth_upd_neq; lia].
      - destruct (Nat.eqb_spec t k) as [->|Hne]; reflexivity. }
    destruct (IH (S k) d1) as (d' & E & Hl & Hn); [lia|].
    exists d'. split; [exact E|]. split; [congruence|]. intros t. rewrite Hn, Hn1.
    destruct (Nat.eqb_spec t k) as [->|Hne].
    + replace (S k <=? k) with false by (symmetry; apply Nat.leb_gt; lia). simpl andb.
      rewrite Nat.leb_refl. replace (k <? k + S (length row)) with true by (symmetry; apply Nat.ltb_lt; lia).
      rewrite Nat.sub_diag. reflexivity.
    + replace (S k + length row) with (k + S (length row)) by lia.
      destruct (k <=? t) eqn:E1.
      * apply Nat.leb_le in E1. replace (S k <=? t) with true by (symmetry; apply Nat.leb_le; lia).
        destruct (t <? k + S (length row)) eqn:E2; simpl; [|reflexivity].
        replace (t - k) with (S (t - S k)) by lia. reflexivity.
      * apply Nat.leb_gt in E1. replace (S k <=? t) with false by (symmetry; apply Nat.leb_gt; lia). reflexivity.
Qed.

Lemma vec_update_spec (d : vdist N) from : from < n -> n < length d ->
  exists d', vec_update d from m = Ok d' /\ length d' = length d /\
    (forall t, t < n -> nth t d' dd = relax1 from (cf from t) (nth t d dd)) /\
    (forall t, n <= t -> nth t d' dd = nth t d dd).
Proof.
  intros Hf Hl. unfold vec_update. rewrite (na_row_val m from Hwf Hf). fold n. simpl bind.
  destruct (relax_fold from (map (na_val m from) (seq 0 n)) 0 d) as (d' & E & Hl' & Hn).
  { rewrite map_length, seq_length. lia. }
  exists d'. split; [exact E|]. split; [assumption|].
  rewrite map_length, seq_length in Hn. split; intros t Ht; rewrite Hn; simpl.
  - replace (t <? n) with true by (symmetry; apply Nat.ltb_lt; lia).
    rewrite Nat.sub_0_r. rewrite (nth_indep _ c0 (na_val m from 0)) by (rewrite map_length, seq_length; lia).
    rewrite (map_nth (na_val m from)), seq_nth by lia. reflexivity.
  - replace (t <? n) with false by (symmetry; apply Nat.ltb_ge; lia). reflexivity.
Qed.

(** The edges leaving the visited set are compared by their matrix entries. *)
Definition ele (e e' : nat * nat) : Prop := cle (cf (fst e) (snd e)) (cf (fst e') (snd e')) = true.

Record mst_inv (T : list (nat * nat)) (mst : graph N) : Prop := {
  mi_len : length mst = n + 1;
  mi_adj : forall v, v <= n -> nth v mst [] = adjlist cf T v
}.

Record inv (Sv R : list nat) (dist : vdist N) : Prop := {
  iv_nd : NoDup (Sv ++ R);
  iv_rg : Forall (fun v => v < n) (Sv ++ R);
  iv_len : length dist = n + 1;
  iv_R : forall v, In v R -> exists u, In u Sv /\ nth v dist dd = (mkEdge u (cf u v), false) /\
           forall a, In a Sv -> cle (cf u v) (cf a v) = true;
  iv_used : forall v, v < n -> ~ In v R -> snd (nth v dist dd) = true;
  iv_n : nth n dist dd = (mkEdge n cinf, false)
}.

Lemma add_edge_inv T mst u v :
  mst_inv T mst -> u < n -> v < n -> u <> v ->
  exists mst', (mst1 <- modify_res mst v (fun es => es ++ [mkEdge u (cf u v)]) ;;
                modify_res mst1 u (fun es => es ++ [mkEdge v (cf u v)])) = Ok mst' /\
    mst_inv (T ++ [(u, v)]) mst'.
Proof.
  intros [Hl Ha] Hu Hv Huv.
  rewrite (modify_res_Ok _ _ _ []) by lia. simpl bind.
  rewrite (modify_res_Ok _ _ _ []) by (rewrite upd_length; lia).
  eexists. split; [reflexivity|]. split.
  - rewrite !upd_length. assumption.
  - intros x Hx. rewrite adjlist_app. unfold adjlist at 2. simpl. unfold incident. simpl.
    destruct (Nat.eqb_spec u x) as [->|Nu].
    + rewrite nth_upd_eq by (rewrite upd_length; lia). rewrite nth_upd_neq by congruence.
      rewrite Ha by lia. destruct (Nat.eqb_spec v x); [congruence|]. reflexivity.
    + rewrite nth_upd_neq by assumption. destruct (Nat.eqb_spec v x) as [->|Nv].
      * rewrite nth_upd_eq by lia. rewrite Ha by lia. reflexivity.
      * rewrite nth_upd_neq by assumption. rewrite Ha by lia. simpl. rewrite app_nil_r. reflexivity.
Qed.

Lemma relax_keeps_flag from c x : snd (relax1 from c x) = snd x.
Proof. unfold relax1. destruct (clt _ _); reflexivity. Qed.

Lemma prim_loop_spec start : forall iters Sv R T dist mst,
  inv Sv R dist -> mst_inv T mst -> In start Sv -> length R < iters ->
  exists T' mst', prim_loop vec_ops m start iters dist mst = Ok mst' /\
    greedy ele Sv R T' /\ mst_inv (T ++ T') mst'.
Proof.
  induction iters as [|k IH]; intros Sv R T dist mst HI HM Hst Hk; [lia|].
  destruct HI as [Hnd Hrg Hlen HR Hused Hn].
  assert (HrS : forall a, In a Sv -> a < n).
  { intros a Ha. rewrite Forall_forall in Hrg. apply Hrg. apply in_or_app. left; assumption. }
  assert (HrR : forall a, In a R -> a < n).
  { intros a Ha. rewrite Forall_forall in Hrg. apply Hrg. apply in_or_app. right; assumption. }
  assert (Hdis : forall a, In a Sv -> In a R -> False).
  { intros a H1 H2. apply in_split in H2. destruct H2 as (R1 & R2 & ->).
    rewrite app_assoc in Hnd. apply NoDup_remove_2 in Hnd. apply Hnd.
    apply in_or_app. left. apply in_or_app. left. assumption. }
  simpl prim_loop. unfold vec_find.
  assert (Hunn : In (n, mkEdge n cinf) (unused dist)) by (apply unused_spec; split; [lia|assumption]).
  assert (Hnn : forall x, In x (unused dist) -> cnan (e_cost (snd x)) = false).
  { intros [v e] Hin. apply unused_spec in Hin. destruct Hin as [Hv He]. simpl.
    destruct (Nat.eq_dec v n) as [->|Hvn].
    - rewrite Hn in He. injection He as <-. simpl. apply (cinf_nnan O).
    - destruct (in_dec Nat.eq_dec v R) as [HvR|HvR].
      + destruct (HR v HvR) as (u & Hu & Hd & _). rewrite Hd in He. injection He as <-. simpl.
        apply (clt_nnan_l O _ cinf). apply Hfin; auto. intros ->. eauto.
      + assert (Hs : snd (nth v dist dd) = true) by (apply Hused; [lia|assumption]).
        rewrite He in Hs. discriminate. }
  destruct (first_min_spec O (unused dist) Hnn) as ([v e] & Efm & Hin & Hmin).
  { intros E0. rewrite E0 in Hunn. destruct Hunn. }
  rewrite Efm. simpl bind.
  apply unused_spec in Hin. destruct Hin as [Hv He].
  destruct R as [|r0 R0] eqn:ER.
  - (* nothing left: the minimum is the unconnected node *)
    assert (v = n) as ->.
    { destruct (Nat.eq_dec v n) as [->|Hvn]; [reflexivity|].
      assert (Hs : snd (nth v dist dd) = true) by (apply Hused; [lia|intros []]).
      rewrite He in Hs. discriminate. }
    rewrite Hn in He. injection He as <-. simpl.
    rewrite (ceq_refl cinf (cinf_nnan O)). exists [], mst. split; [reflexivity|].
    split; [constructor|]. rewrite app_nil_r. assumption.
  - rewrite <- ER in *. assert (Hr0 : In r0 R) by (rewrite ER; left; reflexivity). clear ER.
    (* the minimum is a remaining vertex *)
    assert (HvR : In v R).
    { destruct (in_dec Nat.eq_dec v R) as [|HvR]; [assumption|exfalso].
      destruct (Nat.eq_dec v n) as [->|Hvn].
      - rewrite Hn in He. injection He as <-.
        destruct (HR r0 Hr0) as (u & Hu & Hd & _).
        assert (Hc : cle (cinf : C N) (cf u r0) = true).
        { apply (Hmin (r0, mkEdge u (cf u r0))). apply unused_spec. split; [|assumption].
          specialize (HrR r0 Hr0). lia. }
        assert (Hf : clt (cf u r0) cinf = true) by (apply Hfin; auto; intros ->; eauto).
        rewrite (ord_lt N O), Hc in Hf. rewrite andb_false_r in Hf. discriminate.
      - assert (Hs : snd (nth v dist dd) = true) by (apply Hused; [lia|assumption]).
        rewrite He in Hs. discriminate. }
    destruct (HR v HvR) as (u & Hu & Hd & Hmu). rewrite Hd in He. injection He as <-.
    assert (Huv : u <> v) by (intros ->; eauto).
    assert (Hun : u < n) by auto. assert (Hvn : v < n) by auto.
    simpl e_cost. simpl e_to. rewrite (clt_neq O _ _ (Hfin u v Hun Hvn Huv)).
    unfold vec_mark. rewrite (modify_res_Ok _ _ _ dd) by lia. rewrite Hd. simpl bind.
    destruct (Nat.eqb_spec v start) as [->|Hvs]; [exfalso; eauto|].
    destruct (add_edge_inv T mst u v HM Hun Hvn Huv) as (mst1 & Em & HM1).
    rewrite Em. simpl bind. clear Em.
    set (d1 := upd dist v (mkEdge u (cf u v), true)).
    assert (Hl1 : length d1 = n + 1) by (unfold d1; rewrite upd_length; assumption).
    destruct (vec_update_spec d1 v Hvn) as (d2 & Eu & Hl2 & Hlow & Hhigh); [lia|].
    rewrite Eu. simpl bind.
    apply in_split in HvR as HvR'. destruct HvR' as (R1 & R2 & ER).
    assert (HP : Permutation R (v :: R1 ++ R2)).
    { rewrite ER. symmetry. apply Permutation_middle. }
    assert (HndR : NoDup R).
    { clear -Hnd. induction Sv; [assumption|]. inversion Hnd; auto. }
    assert (HvR12 : ~ In v (R1 ++ R2)).
    { apply (Permutation_NoDup HP) in HndR. inversion HndR; assumption. }
    assert (HR12 : forall x, In x (R1 ++ R2) -> In x R /\ x <> v).
    { intros x Hx. split; [|intros ->; contradiction].
      apply (Permutation_in _ (Permutation_sym HP)). right; assumption. }
    destruct (IH (v :: Sv) (R1 ++ R2) (T ++ [(u, v)]) d2 mst1) as (T' & mst' & Ep & Hg & HM').
    + assert (HPall : Permutation (Sv ++ R) ((v :: Sv) ++ (R1 ++ R2))).
      { simpl. rewrite HP. symmetry. apply Permutation_middle. }
      split.
      * apply (Permutation_NoDup HPall). assumption.
      * apply (Permutation_Forall HPall). assumption.
      * lia.
      * intros x Hx. destruct (HR12 x Hx) as [HxR Hxv].
        destruct (HR x HxR) as (ux & Hux & Hdx & Hmx).
        rewrite Hlow by auto. unfold d1. rewrite nth_upd_neq by congruence. rewrite Hdx.
        assert (Huxx : ux <> x) by (intros ->; eauto).
        assert (Hc1 : cnan (cf ux x) = false) by (apply (clt_nnan_l O _ cinf), Hfin; auto).
        assert (Hc2 : cnan (cf v x) = false) by (apply (clt_nnan_l O _ cinf), Hfin; auto).
        unfold relax1. simpl. destruct (clt (cf v x) (cf ux x)) eqn:Ec.
        -- exists v. split; [left; reflexivity|]. split; [reflexivity|].
           intros a [<-|Ha]; [apply (cle_refl O); assumption|].
           apply (ord_trans N O _ (cf ux x)); [apply (clt_le O); assumption|auto].
        -- exists ux. split; [right; assumption|]. split; [reflexivity|].
           intros a [<-|Ha]; [|auto]. apply (nclt_cle O); assumption.
      * intros x Hx HxR. rewrite Hlow by assumption. rewrite relax_keeps_flag. unfold d1.
        destruct (Nat.eq_dec x v) as [->|Hxv]; [rewrite nth_upd_eq by lia; reflexivity|].
        rewrite nth_upd_neq by congruence. apply Hused; [assumption|].
        intros Hin. apply (Permutation_in _ HP) in Hin. destruct Hin; [congruence|contradiction].
      * rewrite Hhigh by lia. unfold d1. rewrite nth_upd_neq by lia. assumption.
    + assumption.
    + right; assumption.
    + apply Permutation_length in HP. simpl in HP. lia.
    + exists ((u, v) :: T'), mst'. split; [exact Ep|]. split.
      * apply (greedy_step _ Sv R (R1 ++ R2)); try assumption.
        intros a b Ha Hb. unfold ele. simpl.
        destruct (HR b Hb) as (ub & Hub & Hdb & Hmb).
        apply (ord_trans N O _ (cf ub b)); [|auto].
        apply (Hmin (b, mkEdge ub (cf ub b))). apply unused_spec. split; [|assumption].
        specialize (HrR b Hb). lia.
      * rewrite <- app_assoc in HM'. assumption.
Qed.

Lemma mark_fold : forall X (d : vdist N), Forall (fun x => x < length d) X ->
  exists d', foldM (fun d v => vec_mark d v) X d = Ok d' /\ length d' = length d /\
    forall v, nth v d' dd = if memb v X then (fst (nth v d dd), true) else nth v d dd.
Proof.
  induction X as [|x X IH]; intros d Hx.
  - exists d. auto.
  - inversion Hx as [|? ? Hx1 Hx2]; subst. simpl foldM. unfold vec_mark at 1.
    rewrite (modify_res_Ok _ _ _ dd) by assumption. simpl bind.
    destruct (IH (upd d x (fst (nth x d dd), true))) as (d' & E & Hl & Hn).
    { eapply Forall_impl; [|exact Hx2]. intros a Ha. cbv beta in *. rewrite upd_length. exact Ha. }
    rewrite E. exists d'. split; [reflexivity|]. rewrite upd_length in Hl. split; [assumption|].
    intros v. rewrite Hn. simpl. destruct (Nat.eqb_spec v x) as [->|Hne]; simpl.
    + rewrite nth_upd_eq by assumption. destruct (memb x X); reflexivity.
    + rewrite nth_upd_neq by congruence. reflexivity.
Qed.

Lemma free_In X v : In v (free_vertices n X) <-> v < n /\ ~ In v X.
Proof.
  unfold free_vertices. rewrite filter_In, in_seq. change (existsb (Nat.eqb v) X) with (memb v X).
  rewrite <- memb_nIn. destruct (memb v X); simpl; split; intros [? ?]; split; try lia; congruence.
Qed.

Lemma free_NoDup X : NoDup (free_vertices n X).
Proof. apply NoDup_filter, seq_NoDup. Qed.

Theorem prim_single_spec X : Forall (fun x => x < n) X -> (exists v, v < n /\ ~ In v X) ->
  exists g T start R, prim_with_excluded_node_single_threaded m X = Ok g /\ length g = n /\
    greedy ele [start] R T /\ Permutation (free_vertices n X) (start :: R) /\
    (forall v, v < n -> nth v g [] = adjlist cf T v).
Proof.
  intros HX (v0 & Hv0 & HvX).
  unfold prim_with_excluded_node_single_threaded, prim_with_excluded_node. fold n.
  destruct (exists_free X) as (k & Hk1 & Hk2).
  destruct (first_free_spec X (S (length X)) 0 k Hk1 ltac:(lia)) as (start & Es & Hs1 & Hs2).
  assert (Hsn : start < n).
  { destruct (Nat.le_gt_cases v0 (length X)) as [Hle|Hgt].
    - destruct (first_free_spec X (S (length X)) 0 v0 HvX ltac:(lia)) as (s' & Es' & _ & Hs').
      rewrite Es in Es'. injection Es' as <-. lia.
    - lia. }
  rewrite Es. simpl bind.
  replace (n <=? start) with false by (symmetry; apply Nat.leb_gt; lia).
  set (d0 := repeat (mkEdge n cinf, false) (n + 1) : vdist N).
  assert (Hl0 : length d0 = n + 1) by (unfold d0; apply repeat_length).
  unfold vec_set_cost. rewrite (modify_res_Ok _ _ _ dd) by lia. simpl bind.
  set (d1 := upd d0 start (mkEdge start c0, snd (nth start d0 dd))).
  assert (Hl1 : length d1 = n + 1) by (unfold d1; rewrite upd_length; assumption).
  destruct (mark_fold X d1) as (d2 & E2 & Hl2 & Hn2).
  { eapply Forall_impl; [|exact HX]. intros a Ha. cbv beta in *. lia. }
  rewrite E2. simpl bind.
  assert (Hnth : forall v, v <= n -> nth v d2 dd =
     (if v =? start then mkEdge start c0 else mkEdge n cinf, memb v X)).
  { intros v Hv. rewrite Hn2. unfold d1. destruct (Nat.eqb_spec v start) as [->|Hne].
    - rewrite nth_upd_eq by lia. unfold d0. rewrite nth_repeat_lt by lia. simpl.
      destruct (memb start X); reflexivity.
    - rewrite nth_upd_neq by congruence. unfold d0. rewrite nth_repeat_lt by lia. simpl.
      destruct (memb v X); reflexivity. }
  replace (n + 1) with (S n) by lia. simpl prim_loop. unfold vec_find.
  assert (Hmem : memb start X = false) by (apply memb_nIn; assumption).
  assert (Hin0 : In (start, mkEdge start c0) (unused d2)).
  { apply unused_spec. split; [lia|]. rewrite Hnth by lia. rewrite Nat.eqb_refl, Hmem. reflexivity. }
  assert (Hcost : forall v e, In (v, e) (unused d2) -> e_cost e = cinf \/ (v = start /\ e = mkEdge start c0)).
  { intros v e Hin. apply unused_spec in Hin. destruct Hin as [Hv He]. rewrite Hnth in He by lia.
    injection He as He _. destruct (Nat.eqb_spec v start) as [->|]; subst e; auto. }
  destruct (first_min_spec O (unused d2)) as ([v e] & Efm & Hin & Hmin).
  { intros [v e] Hin. simpl. destruct (Hcost v e Hin) as [-> |[_ ->]]; [apply (cinf_nnan O)|apply (c0_nnan O)]. }
  { intros E0. rewrite E0 in Hin0. destruct Hin0. }
  assert (v = start /\ e = mkEdge start c0) as [-> ->].
  { destruct (Hcost v e Hin) as [Hc|Hc]; [|assumption]. exfalso.
    specialize (Hmin _ Hin0). simpl in Hmin. rewrite Hc in Hmin.
    pose proof (ord_0 N O) as H0. rewrite (ord_lt N O), Hmin, andb_false_r in H0. discriminate. }
  rewrite Efm. simpl bind. simpl e_cost. rewrite (clt_neq O _ _ (ord_0 N O)).
  unfold vec_mark. rewrite (modify_res_Ok _ _ _ dd) by lia. simpl bind. rewrite Nat.eqb_refl. simpl bind.
  set (d3 := upd d2 start (fst (nth start d2 dd), true)).
  assert (Hl3 : length d3 = n + 1) by (unfold d3; rewrite upd_length; lia).
  destruct (vec_update_spec d3 start Hsn) as (d4 & E4 & Hl4 & Hlow & Hhigh); [lia|].
  rewrite E4. simpl bind.
  set (R := filter (fun v => negb (v =? start)) (free_vertices n X)).
  assert (HRin : forall v, In v R <-> v < n /\ ~ In v X /\ v <> start).
  { intros v. unfold R. rewrite filter_In, free_In. destruct (Nat.eqb_spec v start); simpl; intuition congruence. }
  assert (HndR : NoDup R) by apply NoDup_filter, free_NoDup.
  assert (HP : Permutation (free_vertices n X) (start :: R)).
  { apply NoDup_Permutation.
    - apply free_NoDup.
    - constructor; [|assumption]. rewrite HRin. tauto.
    - intros x. rewrite free_In. simpl. rewrite HRin. destruct (Nat.eq_dec x start); [subst; intuition|intuition]. }
  destruct (prim_loop_spec start n [start] R [] d4 (repeat [] (S n))) as (T & mst & Ep & Hg & HM).
  - split.
    + simpl. constructor; [|assumption]. rewrite HRin. tauto.
    + simpl. constructor; [assumption|]. apply Forall_forall. intros x Hx. apply HRin in Hx. tauto.
    + lia.
    + intros x Hx. apply HRin in Hx. destruct Hx as (H1 & H2 & H3). exists start.
      split; [left; reflexivity|]. rewrite Hlow by assumption. unfold d3. rewrite nth_upd_neq by congruence.
      rewrite Hnth by lia. apply Nat.eqb_neq in H3 as H3'. rewrite H3'. apply memb_nIn in H2. rewrite H2.
      assert (Hf : clt (cf start x) cinf = true) by (apply Hfin; auto).
      unfold relax1. simpl. rewrite Hf. split; [reflexivity|].
      intros a [<-|[]]. apply (cle_refl O). apply (clt_nnan_l O _ cinf). assumption.
    + intros x Hx HxR. rewrite Hlow by assumption. rewrite relax_keeps_flag. unfold d3.
      destruct (Nat.eq_dec x start) as [->|Hne]; [rewrite nth_upd_eq by lia; reflexivity|].
      rewrite nth_upd_neq by congruence. rewrite Hnth by lia. simpl.
      destruct (memb x X) eqn:Em; [reflexivity|]. exfalso. apply HxR, HRin. apply memb_nIn in Em. auto.
    + rewrite Hhigh by lia. unfold d3. rewrite nth_upd_neq by lia. rewrite Hnth by lia.
      replace (n =? start) with false by (symmetry; apply Nat.eqb_neq; lia).
      replace (memb n X) with false; [reflexivity|]. symmetry. apply memb_nIn. intros Hn.
      rewrite Forall_forall in HX. specialize (HX n Hn). lia.
  - split; [rewrite repeat_length; lia|]. intros v Hv. rewrite nth_repeat_lt by lia. reflexivity.
  - left; reflexivity.
  - assert (length (start :: R) <= n).
    { rewrite <- (Permutation_length HP). unfold free_vertices. rewrite <- (seq_length n 0) at 2.
      clear. induction (seq 0 n); simpl; [lia|]. destruct (negb _); simpl; lia. }
    simpl in H. lia.
  - change (repeat [] (S n)) with ([] :: repeat [] n : graph N) in Ep.
    rewrite Ep. simpl bind. destruct HM as [Hml Hma]. simpl app in Hma.
    assert (Hne : mst <> []) by (intros ->; simpl in Hml; lia).
    pose proof (app_removelast_last [] Hne) as Emst.
    assert (Hrl : length (removelast mst) = n).
    { apply (f_equal (@length _)) in Emst. rewrite app_length in Emst. simpl in Emst. lia. }
    exists (removelast mst), T, start, R. split; [reflexivity|]. split; [assumption|]. split; [assumption|].
    split; [assumption|]. intros v Hv. rewrite <- (Hma v) by lia. rewrite Emst at 2.
    rewrite app_nth1 by lia. reflexivity.
Qed.

(** Everything excluded: the empty graph. *)
Theorem prim_single_none X : (forall v, v < n -> In v X) ->
  prim_with_excluded_node_single_threaded m X = Ok [].
Proof.
  intros HX. unfold prim_with_excluded_node_single_threaded, prim_with_excluded_node. fold n.
  destruct (exists_free X) as (k & Hk1 & Hk2).
  destruct (first_free_spec X (S (length X)) 0 k Hk1 ltac:(lia)) as (start & Es & Hs1 & Hs2).
  rewrite Es. simpl bind.
  replace (n <=? start) with true; [reflexivity|]. symmetry. apply Nat.leb_le.
  destruct (Nat.le_gt_cases n start); [assumption|]. exfalso. auto.
Qed.

End Vec.

(** ** Prim never panics, whatever the matrix holds (infinities and NaN included) *)
Section Total.
Context {N : Num} (O : NumOrd N).
Variable m : namatrix N.
Hypothesis Hwf : na_wf m.
Let n := na_dim m.

Record tinv (d : vdist N) (mst : graph N) : Prop := {
  ti_len : length d = n + 1;
  ti_to : forall v, v < length d -> e_to (fst (nth v d dd)) <= n;
  ti_n : nth n d dd = (mkEdge n cinf, false);
  ti_mst : length mst = n + 1
}.

Lemma first_min_In (l : list (nat * edge N)) x : first_min l = Some x -> In x l.
Proof.
  destruct l as [|a l]; [discriminate|]. simpl. intros H. injection H as <-.
  revert a. induction l as [|b l IH]; intros a; [left; reflexivity|]. simpl.
  destruct (IH (min_entry a b)) as [H|H]; [|right; right; assumption].
  rewrite <- H. unfold min_entry. destruct (olt _ _); auto.
Qed.

Lemma prim_loop_total start : forall iters d mst, tinv d mst ->
  exists mst', prim_loop vec_ops m start iters d mst = Ok mst' /\ length mst' = n + 1.
Proof.
  induction iters as [|k IH]; intros d mst [Hl Ht Hn Hm]; [exists mst; auto|]. simpl prim_loop.
  unfold vec_find.
  assert (Hu : In (n, mkEdge n cinf) (unused d)) by (apply unused_spec; split; [lia|assumption]).
  destruct (first_min (unused d)) as [[v e]|] eqn:Ef; [|destruct (unused d); [destruct Hu|discriminate]].
  cbn [bind]. apply first_min_In in Ef. apply unused_spec in Ef. destruct Ef as [Hv He].
  destruct (ceq (e_cost e) cinf) eqn:Ec; [exists mst; auto|].
  assert (Hvn : v < n).
  { destruct (Nat.eq_dec v n) as [->|]; [|lia]. rewrite Hn in He. injection He as <-. simpl in Ec.
    rewrite (ceq_refl cinf (cinf_nnan O)) in Ec. discriminate. }
  unfold vec_mark. rewrite (modify_res_Ok _ _ _ dd) by lia. cbn [bind].
  assert (Het : e_to e <= n) by (specialize (Ht v Hv); rewrite He in Ht; exact Ht).
  assert (Hmst : exists mst1, (if v =? start then Ok mst
              else
                mst <- modify_res mst v (fun es => es ++ [e]) ;;
                modify_res mst (e_to e) (fun es => es ++ [mkEdge v (e_cost e)])) = Ok mst1 /\ length mst1 = n + 1).
  { destruct (v =? start); [exists mst; auto|].
    rewrite (modify_res_Ok _ _ _ []) by lia. cbn [bind].
    rewrite (modify_res_Ok _ _ _ []) by (rewrite upd_length; lia).
    eexists. split; [reflexivity|]. rewrite !upd_length. assumption. }
  destruct Hmst as (mst1 & -> & Hm1). cbn [bind].
  set (d1 := upd d v (fst (nth v d dd), true)).
  assert (Hl1 : length d1 = n + 1) by (unfold d1; rewrite upd_length; assumption).
  destruct (vec_update_spec m Hwf d1 v Hvn) as (d2 & Eu & Hl2 & Hlow & Hhigh); [fold n; lia|].
  rewrite Eu. cbn [bind]. apply IH. fold n in Hlow, Hhigh. split.
  - lia.
  - intros x Hx. destruct (Nat.lt_ge_cases x n) as [Hxn|Hxn].
    + rewrite Hlow by assumption. unfold relax1. destruct (clt _ _); [simpl; lia|].
      unfold d1. destruct (Nat.eq_dec x v) as [->|Hne]; [rewrite nth_upd_eq by lia; simpl; apply Ht; lia|].
      rewrite nth_upd_neq by congruence. apply Ht. lia.
    + rewrite Hhigh by assumption. unfold d1. rewrite nth_upd_neq by lia. apply Ht. lia.
  - rewrite Hhigh by lia. unfold d1. rewrite nth_upd_neq by lia. assumption.
  - assumption.
Qed.

Theorem prim_single_total X : Forall (fun x => x < n) X ->
  exists g, prim_with_excluded_node_single_threaded m X = Ok g.
Proof.
  intros HX. unfold prim_with_excluded_node_single_threaded, prim_with_excluded_node. fold n.
  destruct (exists_free X) as (k & Hk1 & Hk2).
  destruct (first_free_spec X (S (length X)) 0 k Hk1 ltac:(lia)) as (start & Es & Hs1 & Hs2).
  rewrite Es. cbn [bind]. destruct (Nat.leb_spec n start) as [Hle|Hlt]; [exists []; reflexivity|].
  set (d0 := fm_default vec_ops (mkEdge n cinf) (n + 1)).
  assert (Ed0 : d0 = repeat (mkEdge n cinf, false) (n + 1)) by reflexivity.
  assert (Hl0 : length d0 = n + 1) by (rewrite Ed0; apply repeat_length).
  assert (Hd0 : forall v, v <= n -> nth v d0 dd = (mkEdge n cinf, false)) by (intros v Hv; rewrite Ed0; apply nth_repeat_lt; lia).
  cbn [fm_set_cost vec_ops]. unfold vec_set_cost. rewrite (modify_res_Ok _ _ _ dd) by lia. cbn [bind].
  set (d1 := upd d0 start (mkEdge start c0, snd (nth start d0 dd))).
  assert (Hl1 : length d1 = n + 1) by (unfold d1; rewrite upd_length; assumption).
  destruct (mark_fold X d1) as (d2 & E2 & Hl2 & Hn2).
  { eapply Forall_impl; [|exact HX]. intros a Ha. cbv beta in *. lia. }
  cbn [fm_exclude vec_ops]. rewrite E2. cbn [bind].
  assert (Hto : forall v, v <= n -> e_to (fst (nth v d1 dd)) <= n).
  { intros v Hv. unfold d1. destruct (Nat.eq_dec v start) as [->|Hne].
    - rewrite nth_upd_eq by lia. simpl. lia.
    - rewrite nth_upd_neq by congruence. rewrite Hd0 by assumption. simpl. lia. }
  destruct (prim_loop_total start (n + 1) d2 (repeat [] (n + 1))) as (mst & Em & _).
  - split.
    + lia.
    + intros v Hv. rewrite Hn2. destruct (memb v X); simpl; apply Hto; lia.
    + rewrite Hn2. replace (memb n X) with false.
      * unfold d1. rewrite nth_upd_neq by lia. apply Hd0. lia.
      * symmetry. apply memb_nIn. intros Hin. rewrite Forall_forall in HX. specialize (HX n Hin). lia.
    + apply repeat_length.
  - rewrite Em. simpl. eauto.
Qed.
End Total.
