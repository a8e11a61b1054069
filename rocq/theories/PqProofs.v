(** Prim with the priority queue container. *)
From Coq Require Import ZArith Arith Bool List Permutation Lia.
From Verif Require Import Num Base Data Mst Par MstPar Spec SpecFacts Greedy PrimProofs MstParProofs.
Import ListNotations.

(** ** The queue as a finite map *)
Section Queue.
Context {N : Num}.
Implicit Type q : list (nat * C N).

Lemma pq_set_keys q v c : map fst (pq_set q v c) = map fst q.
Proof.
  unfold pq_set. rewrite map_map. apply map_ext. intros [a b]. cbn [fst].
  destruct (Nat.eqb_spec a v); cbn [fst]; congruence.
Qed.

Lemma pq_get_cons a b q v : pq_get ((a, b) :: q) v = if a =? v then Some b else pq_get q v.
Proof. unfold pq_get. cbn [find fst]. destruct (a =? v); reflexivity. Qed.

Lemma pq_get_set q v c u : pq_get (pq_set q v c) u =
  if u =? v then match pq_get q v with Some _ => Some c | None => None end else pq_get q u.
Proof.
  induction q as [|[a b] q IH]; [cbn; destruct (u =? v); reflexivity|].
  unfold pq_set. cbn [map fst]. fold (pq_set q v c).
  destruct (Nat.eqb_spec a v) as [E|Ha].
  - subst a. rewrite !pq_get_cons, Nat.eqb_refl. destruct (Nat.eqb_spec u v) as [E|Hu].
    + subst u. rewrite Nat.eqb_refl. reflexivity.
    + destruct (Nat.eqb_spec v u); [congruence|]. exact IH.
  - rewrite !pq_get_cons, IH. destruct (Nat.eqb_spec a v) as [|_]; [contradiction|].
    destruct (Nat.eqb_spec u v) as [E|Hu]; [|reflexivity].
    subst u. destruct (Nat.eqb_spec a v) as [|_]; [contradiction|reflexivity].
Qed.

Lemma pq_get_filter q v u : pq_get (filter (fun x => negb (fst x =? v)) q) u = if u =? v then None else pq_get q u.
Proof.
  induction q as [|[a b] q IH]; [cbn; destruct (u =? v); reflexivity|]. cbn [filter fst].
  destruct (Nat.eqb_spec a v) as [->|Ha]; cbn [negb].
  - rewrite IH, pq_get_cons. destruct (Nat.eqb_spec u v) as [E|Hu]; [reflexivity|].
    destruct (Nat.eqb_spec v u); [congruence|reflexivity].
  - rewrite !pq_get_cons, IH. destruct (Nat.eqb_spec a u) as [E|Hu]; [subst u|reflexivity].
    destruct (Nat.eqb_spec a v); [congruence|reflexivity].
Qed.

Lemma pq_get_In q v c : pq_get q v = Some c -> In (v, c) q.
Proof.
  induction q as [|[a b] q IH]; [discriminate|]. rewrite pq_get_cons. destruct (Nat.eqb_spec a v) as [->|].
  - intros H; injection H as ->. left; reflexivity.
  - intros H. right; auto.
Qed.

Lemma pq_In_get q v c : NoDup (map fst q) -> In (v, c) q -> pq_get q v = Some c.
Proof.
  induction q as [|[a b] q IH]; intros Hnd Hin; [destruct Hin|]. cbn [map fst] in Hnd. inversion Hnd as [|? ? H1 H2]; subst.
  rewrite pq_get_cons. destruct Hin as [Heq|Hin].
  - injection Heq as -> ->. rewrite Nat.eqb_refl. reflexivity.
  - destruct (Nat.eqb_spec a v) as [->|]; [|auto]. exfalso. apply H1. apply (in_map fst) in Hin. exact Hin.
Qed.

Lemma filter_keys_NoDup q f : NoDup (map fst q) -> NoDup (map fst (filter f q)).
Proof.
  induction q as [|a q IH]; intros H; [constructor|]. cbn [map] in H. inversion H as [|? ? H1 H2]; subst. cbn [filter].
  destruct (f a); [|auto]. cbn [map]. constructor; [|auto]. intros Hin. apply H1.
  apply in_map_iff in Hin. destruct Hin as (x & E & Hx). apply filter_In in Hx. rewrite <- E. apply in_map. tauto.
Qed.

(** [peek] gives some item of least cost *)
Lemma minimum_exists (O : NumOrd N) q : q <> [] -> exists x, In x q /\ forallb (fun y => ole (snd x) (snd y)) q = true.
Proof.
  induction q as [|a q IH]; [congruence|]. intros _. destruct q as [|b q'] eqn:Eq.
  - exists a. split; [left; reflexivity|]. cbn. unfold ole. rewrite (olt_irrefl O). reflexivity.
  - rewrite <- Eq in *. destruct IH as (x & Hx & Hmin); [rewrite Eq; discriminate|].
    destruct (olt (snd a) (snd x)) eqn:E.
    + exists a. split; [left; reflexivity|]. cbn [forallb]. unfold ole at 1. rewrite (olt_irrefl O). cbn [negb andb].
      rewrite forallb_forall in *. intros y Hy. specialize (Hmin y Hy). unfold ole in *.
      destruct (olt (snd y) (snd a)) eqn:E2; [|reflexivity]. rewrite (olt_trans O _ _ _ E2 E) in Hmin. discriminate.
    + exists x. split; [right; assumption|]. cbn [forallb]. unfold ole at 1. rewrite E. exact Hmin.
Qed.

Lemma pq_peek_spec (O : NumOrd N) pick t q : q <> [] -> (forall x, In x q -> cnan (snd x) = false) ->
  exists x, pq_peek pick t q = Some x /\ In x q /\ forall y, In y q -> cle (snd x) (snd y) = true.
Proof.
  intros Hne Hnn. destruct (minimum_exists O q Hne) as (x0 & Hx0 & Hm0).
  assert (Hl : 0 < length (pq_minima q)).
  { assert (Hin : In x0 (pq_minima q)) by (apply filter_In; auto). destruct (pq_minima q); [destruct Hin|cbn; lia]. }
  unfold pq_peek. pose proof (Nat.mod_upper_bound (pick t) (length (pq_minima q)) ltac:(lia)) as Hb.
  destruct (nth_error (pq_minima q) (pick t mod length (pq_minima q))) as [x|] eqn:E; [|apply nth_error_None in E; lia].
  exists x. split; [reflexivity|]. apply nth_error_In in E. apply filter_In in E. destruct E as [Hx Hm].
  split; [assumption|]. intros y Hy. rewrite forallb_forall in Hm. specialize (Hm y Hy). unfold ole in Hm.
  apply (nolt_cle O); auto. destruct (olt (snd y) (snd x)); [discriminate|reflexivity].
Qed.
End Queue.

Section Pq.
Context {N : Num} (O : NumOrd N).
Variable m : namatrix N.
Hypothesis Hwf : na_wf m.
Let n := na_dim m.
Let cf := na_val m.
Hypothesis Hfin : forall a b, a < n -> b < n -> a <> b -> clt (cf a b) cinf = true.
Variable pick : nat -> nat.

Record pq_ok (d : pqdist N) : Prop := {
  po_nd : NoDup (map fst (pq_queue d));
  po_rg : forall v, pq_get (pq_queue d) v <> None -> v <= n;
  po_conn : length (pq_conn d) = n + 1;
  po_used : length (pq_used d) = n + 1;
  po_flag : forall v, v <= n -> (nth v (pq_used d) true = false <-> pq_get (pq_queue d) v <> None)
}.

Lemma pq_mark_spec d v : pq_ok d -> v <= n ->
  exists d', pq_mark d v = Ok d' /\ pq_ok d' /\ pq_conn d' = pq_conn d /\
    forall u, pq_get (pq_queue d') u = if u =? v then None else pq_get (pq_queue d) u.
Proof.
  intros [H1 H2 H3 H4 H5] Hv. unfold pq_mark. rewrite (modify_res_Ok _ _ _ true) by lia. cbn [bind].
  eexists. split; [reflexivity|]. cbn [pq_queue pq_conn pq_used]. split; [|split; [reflexivity|intros u; apply pq_get_filter]].
  split; cbn [pq_queue pq_conn pq_used].
  - apply filter_keys_NoDup. assumption.
  - intros u Hu. apply H2. rewrite pq_get_filter in Hu. destruct (u =? v); [congruence|assumption].
  - assumption.
  - rewrite upd_length. assumption.
  - intros u Hu. rewrite pq_get_filter. destruct (Nat.eqb_spec u v) as [->|Hne].
    + rewrite nth_upd_eq by lia. split; [discriminate|congruence].
    + rewrite nth_upd_neq by congruence. apply H5. assumption.
Qed.

Lemma pq_relax_spec d from to : pq_ok d -> to < n -> from < n -> (pq_get (pq_queue d) to <> None -> cnan (cf from to) = false /\ forall c, pq_get (pq_queue d) to = Some c -> cnan c = false) ->
  exists d', pq_relax from d to (cf from to) = Ok d' /\ pq_ok d' /\ pq_used d' = pq_used d /\
    (forall v, pq_get (pq_queue d') v = if v =? to then
        match pq_get (pq_queue d) to with Some old => Some (if clt (cf from to) old then cf from to else old) | None => None end
      else pq_get (pq_queue d) v) /\
    (forall v, nth v (pq_conn d') 0 = if (v =? to) && negb (nth to (pq_used d) true) then from else nth v (pq_conn d) 0).
Proof.
  intros [H1 H2 H3 H4 H5] Ht Hf Hnan. unfold pq_relax, nth_res.
  rewrite (nth_error_nth' _ true) by lia. cbn [bind].
  destruct (nth to (pq_used d) true) eqn:Eu.
  - exists d. split; [reflexivity|]. split; [split; assumption|]. split; [reflexivity|].
    assert (Eg : pq_get (pq_queue d) to = None).
    { destruct (pq_get (pq_queue d) to) eqn:E; [|reflexivity]. exfalso.
      assert (Hx : nth to (pq_used d) true = false) by (apply H5; [lia|congruence]). congruence. }
    split; intros v; [destruct (Nat.eqb_spec v to) as [->|]; [rewrite Eg|]; reflexivity|]. rewrite andb_false_r. reflexivity.
  - assert (Eg : pq_get (pq_queue d) to <> None) by (apply H5; [lia|assumption]). destruct (Hnan Eg) as [Hn1 Hn2].
    unfold push_increase. destruct (pq_get (pq_queue d) to) as [old|] eqn:Eo; [|congruence].
    specialize (Hn2 old eq_refl).
    assert (Eolt : olt (cf from to) old = clt (cf from to) old) by (unfold olt; rewrite Hn1, Hn2; reflexivity). rewrite Eolt.
    set (q' := if clt (cf from to) old then pq_set (pq_queue d) to (cf from to) else pq_queue d).
    assert (Eres : exists oc, (if clt (cf from to) old then (pq_set (pq_queue d) to (cf from to), Some old) else (pq_queue d, Some (cf from to))) = (q', Some oc) /\ cle (cf from to) oc = true).
    { unfold q'. destruct (clt (cf from to) old) eqn:Ec; eexists; (split; [reflexivity|]).
      - apply (clt_le O). assumption.
      - apply (cle_refl O). assumption. }
    destruct Eres as (oc & -> & ->). rewrite (modify_res_Ok _ _ _ 0) by lia. cbn [bind].
    eexists. split; [reflexivity|]. cbn [pq_queue pq_conn pq_used].
    assert (Hget : forall v, pq_get q' v = if v =? to then Some (if clt (cf from to) old then cf from to else old) else pq_get (pq_queue d) v).
    { intros v. unfold q'. destruct (clt (cf from to) old).
      - rewrite pq_get_set, Eo. reflexivity.
      - destruct (Nat.eqb_spec v to) as [->|]; [assumption|reflexivity]. }
    split; [|split; [reflexivity|split; [assumption|]]].
    + split; cbn [pq_queue pq_conn pq_used].
      * unfold q'. destruct (clt _ _); [rewrite pq_set_keys|]; assumption.
      * intros v Hv. rewrite Hget in Hv. destruct (Nat.eqb_spec v to); [lia|auto].
      * rewrite upd_length. assumption.
      * assumption.
      * intros v Hv. rewrite H5 by assumption. rewrite Hget. destruct (Nat.eqb_spec v to) as [->|]; [|tauto]. rewrite Eo. split; discriminate.
    + intros v. cbn [negb]. rewrite andb_true_r. destruct (Nat.eqb_spec v to) as [->|]; [apply nth_upd_eq; lia|apply nth_upd_neq; congruence].
Qed.

Lemma pq_update_spec d from : pq_ok d -> from < n -> pq_get (pq_queue d) from = None ->
  (forall v c, pq_get (pq_queue d) v = Some c -> cnan c = false) ->
  exists d', pq_update d from m = Ok d' /\ pq_ok d' /\
    (forall v, pq_get (pq_queue d') v = match pq_get (pq_queue d) v with
        | Some old => Some (if (v <? n) && clt (cf from v) old then cf from v else old) | None => None end) /\
    (forall v, v < n -> pq_get (pq_queue d) v <> None -> nth v (pq_conn d') 0 = from).
Proof.
  intros Hok Hf Hnone Hnan. unfold pq_update. rewrite (na_row_val m from Hwf Hf). fold n cf. cbn [bind].
  rewrite map_length, seq_length.
  destruct (foldM_inv (fun d '(to, cost) => pq_relax from d to cost)
    (fun pre d' => pq_ok d' /\ pq_used d' = pq_used d /\
      (forall v, pq_get (pq_queue d') v = match pq_get (pq_queue d) v with
        | Some old => Some (if (v <? length pre) && clt (cf from v) old then cf from v else old) | None => None end) /\
      (forall v, v < length pre -> pq_get (pq_queue d) v <> None -> nth v (pq_conn d') 0 = from))
    (combine (seq 0 n) (map (cf from) (seq 0 n))) d) as (d' & E & I1 & I2 & I3 & I4).
  - split; [assumption|]. split; [reflexivity|]. split; [|cbn; lia]. intros v. cbn. destruct (pq_get _ v); reflexivity.
  - intros pre [to cost] post s Es (I1 & I2 & I3 & I4).
    assert (Hto : to = length pre /\ to < n /\ cost = cf from to).
    { assert (Hnth : nth_error (combine (seq 0 n) (map (cf from) (seq 0 n))) (length pre) = Some (to, cost)).
      { rewrite Es. rewrite nth_error_app2 by lia. rewrite Nat.sub_diag. reflexivity. }
      assert (Hlen : length pre < n).
      { apply (f_equal (@length _)) in Es. rewrite combine_length, map_length, seq_length, app_length in Es. cbn in Es. lia. }
      apply (nth_error_nth _ _ (0, cf from 0)) in Hnth. rewrite combine_nth in Hnth by (rewrite map_length; reflexivity).
      rewrite (map_nth (cf from)), !seq_nth in Hnth by assumption. injection Hnth as <- <-. auto. }
    destruct Hto as (-> & Hlt & ->).
    destruct (pq_relax_spec s from (length pre) I1 Hlt Hf) as (s' & E' & J1 & J2 & J3 & J4).
    { intros Hg. rewrite I3 in Hg. split.
      - apply (clt_nnan_l O _ cinf). apply Hfin; try assumption. intros Heq. rewrite <- Heq, Hnone in Hg. congruence.
      - intros c. rewrite I3. destruct (pq_get (pq_queue d) (length pre)) as [old|] eqn:Eo; [|discriminate].
        rewrite Nat.ltb_irrefl. cbn [andb]. intros Hc; injection Hc as <-. apply (Hnan _ _ Eo). }
    exists s'. split; [assumption|]. split; [assumption|]. split; [congruence|]. rewrite app_length. cbn [length]. split.
    + intros v. rewrite J3. destruct (Nat.eqb_spec v (length pre)) as [->|Hne].
      * rewrite I3. destruct (pq_get (pq_queue d) (length pre)) as [old|]; [|reflexivity]. rewrite Nat.ltb_irrefl. cbn [andb].
        replace (length pre <? length pre + 1) with true by (symmetry; apply Nat.ltb_lt; lia). reflexivity.
      * rewrite I3. replace (v <? length pre + 1) with (v <? length pre); [reflexivity|].
        destruct (Nat.ltb_spec v (length pre)), (Nat.ltb_spec v (length pre + 1)); try reflexivity; lia.
    + intros v Hv Hg. rewrite J4, I2. destruct (Nat.eqb_spec v (length pre)) as [->|Hne].
      * assert (Eu : nth (length pre) (pq_used d) true = false) by (apply (po_flag d Hok); [lia|assumption]). rewrite Eu. reflexivity.
      * cbn [andb]. apply I4; [lia|assumption].
  - rewrite E. cbn [bind]. eexists. split; [reflexivity|]. cbn [pq_queue pq_conn pq_used].
    rewrite combine_length, map_length, seq_length, Nat.min_id in I3, I4. split; [|split; assumption].
    destruct I1; split; assumption.
Qed.

(** the graph made of the pairs (l, (u, v)): an edge l - v that costs what u - v costs *)
Definition adj3 (P : list (nat * (nat * nat))) (x : nat) : list (edge N) :=
  flat_map (fun p => (if snd (snd p) =? x then [mkEdge (fst p) (cf (fst (snd p)) (snd (snd p)))] else []) ++
                     (if fst p =? x then [mkEdge (snd (snd p)) (cf (fst (snd p)) (snd (snd p)))] else [])) P.

Record mst3 (P : list (nat * (nat * nat))) (mst : graph N) : Prop := {
  m3_len : length mst = n + 1;
  m3_adj : forall v, v <= n -> nth v mst [] = adj3 P v
}.

Lemma add_edge3 P mst l u v : mst3 P mst -> l < n -> v < n -> l <> v ->
  exists mst', (mst1 <- modify_res mst v (fun es => es ++ [mkEdge l (cf u v)]) ;;
                modify_res mst1 l (fun es => es ++ [mkEdge v (cf u v)])) = Ok mst' /\ mst3 (P ++ [(l, (u, v))]) mst'.
Proof.
  intros [Hl Ha] Hu Hv Huv.
  rewrite (modify_res_Ok _ _ _ []) by lia. cbn [bind].
  rewrite (modify_res_Ok _ _ _ []) by (rewrite upd_length; lia).
  eexists. split; [reflexivity|]. split; [rewrite !upd_length; assumption|].
  intros x Hx. unfold adj3. rewrite flat_map_app. fold (adj3 P x). cbn [flat_map fst snd].
  destruct (Nat.eqb_spec l x) as [->|Nu].
  - rewrite nth_upd_eq by (rewrite upd_length; lia). rewrite nth_upd_neq by congruence.
    rewrite Ha by lia. destruct (Nat.eqb_spec v x); [congruence|]. reflexivity.
  - rewrite nth_upd_neq by assumption. destruct (Nat.eqb_spec v x) as [->|Nv].
    + rewrite nth_upd_eq by lia. rewrite Ha by lia. reflexivity.
    + rewrite nth_upd_neq by assumption. rewrite Ha by lia. cbn. rewrite app_nil_r. reflexivity.
Qed.

Record pinv (Sv R : list nat) (lst : nat) (d : pqdist N) : Prop := {
  pv_nd : NoDup (Sv ++ R);
  pv_rg : Forall (fun v => v < n) (Sv ++ R);
  pv_ok : pq_ok d;
  pv_keys : forall v, v < n -> pq_get (pq_queue d) v <> None -> In v R;
  pv_R : forall v, In v R -> exists u, In u Sv /\ pq_get (pq_queue d) v = Some (cf u v) /\
           forall a, In a Sv -> cle (cf u v) (cf a v) = true;
  pv_n : pq_get (pq_queue d) n = Some cinf;
  pv_last : In lst Sv;
  pv_conn : forall v, In v R -> nth v (pq_conn d) 0 = lst
}.

Lemma pq_loop_spec start : forall iters Sv R lst P d mst,
  pinv Sv R lst d -> mst3 P mst -> In start Sv -> length R < iters ->
  exists P' mst', prim_loop (pq_ops pick) m start iters d mst = Ok mst' /\
    greedy (ele m) Sv R (map snd P') /\ mst3 (P ++ P') mst' /\ Forall (fun p => fst p < n) P'.
Proof.
  induction iters as [|k IH]; intros Sv R lst P d mst HI HM Hst Hk; [lia|].
  destruct HI as [Hnd Hrg Hok Hkeys HR Hn Hlast Hconn].
  assert (HrS : forall a, In a Sv -> a < n).
  { intros a Ha. rewrite Forall_forall in Hrg. apply Hrg. apply in_or_app. left; assumption. }
  assert (HrR : forall a, In a R -> a < n).
  { intros a Ha. rewrite Forall_forall in Hrg. apply Hrg. apply in_or_app. right; assumption. }
  assert (Hdis : forall a, In a Sv -> In a R -> False).
  { intros a H1 H2. apply in_split in H2. destruct H2 as (R1 & R2 & ->).
    rewrite app_assoc in Hnd. apply NoDup_remove_2 in Hnd. apply Hnd.
    apply in_or_app. left. apply in_or_app. left. assumption. }
  assert (Hval : forall v c, pq_get (pq_queue d) v = Some c -> (v = n /\ c = cinf) \/ In v R).
  { intros v c Hg. assert (Hv : v <= n) by (apply (po_rg d Hok); congruence).
    destruct (Nat.eq_dec v n) as [->|]; [left; split; congruence|right; apply Hkeys; [lia|congruence]]. }
  assert (Hnan : forall v c, pq_get (pq_queue d) v = Some c -> cnan c = false).
  { intros v c Hg. destruct (Hval v c Hg) as [[_ ->]|Hv]; [apply (cinf_nnan O)|].
    destruct (HR v Hv) as (u & Hu & Eu & _). rewrite Eu in Hg. injection Hg as <-.
    apply (clt_nnan_l O _ cinf). apply Hfin; auto. intros ->. eauto. }
  pose proof (pq_get_In _ _ _ Hn) as Hinn.
  destruct (pq_peek_spec O pick (pq_time d) (pq_queue d)) as ([v c] & Ep & Hin & Hmin).
  { intros E. rewrite E in Hinn. destruct Hinn. }
  { intros [v c] Hx. cbn [snd]. apply (Hnan v). apply pq_In_get; [apply Hok|assumption]. }
  pose proof (pq_In_get _ _ _ (po_nd d Hok) Hin) as Hg.
  assert (Hvn : v <= n) by (apply (po_rg d Hok); congruence).
  cbn [prim_loop pq_ops fm_find fm_mark fm_update]. unfold pq_find. rewrite Ep. unfold nth_res.
  rewrite (nth_error_nth' _ 0) by (rewrite (po_conn d Hok); lia). cbn [bind e_cost e_to].
  destruct R as [|r0 R0] eqn:ER.
  - destruct (Hval v c Hg) as [[-> ->]|[]]. rewrite (ceq_refl cinf (cinf_nnan O)).
    exists [], mst. split; [reflexivity|]. split; [constructor|]. rewrite app_nil_r. auto.
  - rewrite <- ER in *. assert (Hr0 : In r0 R) by (rewrite ER; left; reflexivity). clear ER.
    assert (HvR : In v R).
    { destruct (Hval v c Hg) as [[-> ->]|]; [exfalso|assumption].
      destruct (HR r0 Hr0) as (u & Hu & Eu & _). specialize (Hmin _ (pq_get_In _ _ _ Eu)). cbn [snd] in Hmin.
      assert (Hf : clt (cf u r0) cinf = true) by (apply Hfin; auto; intros ->; eauto).
      rewrite (ord_lt N O), Hmin, andb_false_r in Hf. discriminate. }
    destruct (HR v HvR) as (u & Hu & Eu & Hmu). rewrite Eu in Hg. injection Hg as <-.
    assert (Huv : u <> v) by (intros ->; eauto).
    assert (Hun : u < n) by auto. assert (Hvn' : v < n) by auto.
    rewrite (clt_neq O _ _ (Hfin u v Hun Hvn' Huv)).
    destruct (pq_mark_spec d v Hok Hvn) as (d1 & Em & Hok1 & Hc1 & Hg1). rewrite Em. cbn [bind].
    destruct (Nat.eqb_spec v start) as [->|Hvs]; [exfalso; eauto|].
    rewrite (Hconn v HvR).
    assert (Hlv : lst <> v) by (intros ->; eauto).
    destruct (add_edge3 P mst lst u v HM (HrS _ Hlast) Hvn' Hlv) as (mst1 & Ea & HM1). rewrite Ea. cbn [bind]. clear Ea.
    destruct (pq_update_spec d1 v Hok1 Hvn') as (d2 & E2 & Hok2 & Hg2 & Hc2).
    { rewrite Hg1, Nat.eqb_refl. reflexivity. }
    { intros x cx Hx. rewrite Hg1 in Hx. destruct (x =? v); [discriminate|]. apply (Hnan x). assumption. }
    rewrite E2. cbn [bind].
    apply in_split in HvR as HvR'. destruct HvR' as (R1 & R2 & ER).
    assert (HP : Permutation R (v :: R1 ++ R2)) by (rewrite ER; symmetry; apply Permutation_middle).
    assert (HndR : NoDup R) by (clear -Hnd; induction Sv; [assumption|]; inversion Hnd; auto).
    assert (HvR12 : ~ In v (R1 ++ R2)) by (apply (Permutation_NoDup HP) in HndR; inversion HndR; assumption).
    assert (HR12 : forall x, In x (R1 ++ R2) -> In x R /\ x <> v).
    { intros x Hx. split; [|intros ->; contradiction].
      apply (Permutation_in _ (Permutation_sym HP)). right; assumption. }
    destruct (IH (v :: Sv) (R1 ++ R2) v (P ++ [(lst, (u, v))]) d2 mst1) as (P' & mst' & El & Hgr & HM' & HF').
    + assert (HPall : Permutation (Sv ++ R) ((v :: Sv) ++ (R1 ++ R2))).
      { cbn. rewrite HP. symmetry. apply Permutation_middle. }
      split.
      * apply (Permutation_NoDup HPall). assumption.
      * apply (Permutation_Forall HPall). assumption.
      * assumption.
      * intros x Hx Hgx. rewrite Hg2, Hg1 in Hgx. destruct (Nat.eqb_spec x v) as [->|Hxv]; [congruence|].
        assert (HxR : In x R) by (apply Hkeys; [assumption|]; destruct (pq_get (pq_queue d) x); congruence).
        apply (Permutation_in _ HP) in HxR. destruct HxR; [congruence|assumption].
      * intros x Hx. destruct (HR12 x Hx) as [HxR Hxv].
        destruct (HR x HxR) as (ux & Hux & Hdx & Hmx).
        rewrite Hg2, Hg1. apply Nat.eqb_neq in Hxv as Hxv'. rewrite Hxv', Hdx.
        replace (x <? n) with true by (symmetry; apply Nat.ltb_lt; auto). cbn [andb].
        assert (Huxx : ux <> x) by (intros ->; eauto).
        assert (Hn1 : cnan (cf ux x) = false) by (apply (clt_nnan_l O _ cinf), Hfin; auto).
        assert (Hn2 : cnan (cf v x) = false) by (apply (clt_nnan_l O _ cinf), Hfin; auto).
        destruct (clt (cf v x) (cf ux x)) eqn:Ec.
        -- exists v. split; [left; reflexivity|]. split; [reflexivity|].
           intros a [<-|Ha]; [apply (cle_refl O); assumption|].
           apply (ord_trans N O _ (cf ux x)); [apply (clt_le O); assumption|auto].
        -- exists ux. split; [right; assumption|]. split; [reflexivity|].
           intros a [<-|Ha]; [|auto]. apply (nclt_cle O); assumption.
      * rewrite Hg2, Hg1. destruct (Nat.eqb_spec n v); [lia|]. rewrite Hn. rewrite Nat.ltb_irrefl. reflexivity.
      * left; reflexivity.
      * intros x Hx. destruct (HR12 x Hx) as [HxR Hxv]. apply Hc2; [auto|]. rewrite Hg1.
        apply Nat.eqb_neq in Hxv. rewrite Hxv. destruct (HR x HxR) as (ux & _ & Ex & _). congruence.
    + assumption.
    + right; assumption.
    + apply Permutation_length in HP. cbn in HP. lia.
    + exists ((lst, (u, v)) :: P'), mst'. split; [exact El|]. split; [|split].
      * cbn [map snd]. apply (greedy_step _ Sv R (R1 ++ R2)); try assumption.
        intros a b Ha Hb. unfold ele. cbn [fst snd]. fold cf.
        destruct (HR b Hb) as (ub & Hub & Hdb & Hmb).
        apply (ord_trans N O _ (cf ub b)); [|auto].
        apply (Hmin (b, cf ub b)). apply pq_get_In. assumption.
      * rewrite <- app_assoc in HM'. assumption.
      * constructor; [cbn; auto|assumption].
Qed.

Theorem prim_pq_spec X : Forall (fun x => x < n) X -> (exists v, v < n /\ ~ In v X) ->
  exists g P start R, prim_with_excluded_node_priority_queue pick m X = Ok g /\ length g = n /\
    greedy (ele m) [start] R (map snd P) /\ Permutation (free_vertices n X) (start :: R) /\
    (forall v, v < n -> nth v g [] = adj3 P v) /\ Forall (fun p => fst p < n) P.
Proof.
  intros HX (v0 & Hv0 & HvX).
  unfold prim_with_excluded_node_priority_queue, prim_with_excluded_node. fold n.
  destruct (exists_free X) as (k & Hk1 & Hk2).
  destruct (first_free_spec X (S (length X)) 0 k Hk1 ltac:(lia)) as (start & Es & Hs1 & Hs2).
  assert (Hsn : start < n).
  { destruct (Nat.le_gt_cases v0 (length X)) as [Hle|Hgt].
    - destruct (first_free_spec X (S (length X)) 0 v0 HvX ltac:(lia)) as (s' & Es' & _ & Hs').
      rewrite Es in Es'. injection Es' as <-. lia.
    - lia. }
  rewrite Es. cbn [bind].
  replace (n <=? start) with false by (symmetry; apply Nat.leb_gt; lia).
  cbn [pq_ops fm_default fm_set_cost fm_exclude].
  set (d0 := pq_default (mkEdge n cinf) (n + 1)).
  assert (Hg0 : forall v, pq_get (pq_queue d0) v = if v <=? n then Some cinf else None).
  { intros v. unfold d0, pq_default. cbn [pq_queue e_cost].
    assert (G : forall k s, pq_get (map (fun i => (i, cinf : C N)) (seq s k)) v = if (s <=? v) && (v <? s + k) then Some cinf else None).
    { clear. induction k as [|k IH]; intros s.
      - destruct (Nat.leb_spec s v), (Nat.ltb_spec v (s + 0)); try reflexivity; lia.
      - cbn [seq map]. rewrite pq_get_cons, IH. destruct (Nat.eqb_spec s v) as [->|Hne].
        + rewrite Nat.leb_refl. replace (v <? v + S k) with true by (symmetry; apply Nat.ltb_lt; lia). reflexivity.
        + destruct (Nat.leb_spec (S s) v), (Nat.leb_spec s v), (Nat.ltb_spec v (S s + k)), (Nat.ltb_spec v (s + S k)); cbn [andb]; try reflexivity; lia. }
    rewrite G. cbn [Nat.leb andb]. destruct (Nat.ltb_spec v (0 + (n + 1))), (Nat.leb_spec v n); try reflexivity; lia. }
  assert (Hok0 : pq_ok d0).
  { split.
    - unfold d0, pq_default. cbn [pq_queue]. rewrite map_map. cbn [fst]. rewrite map_id. apply seq_NoDup.
    - intros v. rewrite Hg0. destruct (Nat.leb_spec v n); [auto|congruence].
    - apply repeat_length.
    - apply repeat_length.
    - intros v Hv. rewrite Hg0. destruct (Nat.leb_spec v n); [|lia]. unfold d0, pq_default. cbn [pq_used].
      rewrite nth_repeat_lt by lia. split; [discriminate|reflexivity]. }
  unfold pq_set_cost. rewrite (modify_res_Ok _ _ _ 0) by (rewrite (po_conn d0 Hok0); lia). cbn [bind e_to e_cost].
  set (d1 := mkPQ _ _ _ _).
  assert (Hg1 : forall v, pq_get (pq_queue d1) v = if v <=? n then Some (if v =? start then c0 else cinf) else None).
  { intros v. unfold d1. cbn [pq_queue]. rewrite pq_get_set, !Hg0. destruct (Nat.eqb_spec v start) as [->|]; [|reflexivity].
    destruct (Nat.leb_spec start n); [reflexivity|lia]. }
  assert (Hok1 : pq_ok d1).
  { destruct Hok0 as [H1 H2 H3 H4 H5]. split; unfold d1; cbn [pq_queue pq_conn pq_used].
    - rewrite pq_set_keys. assumption.
    - intros v Hv. fold d1 in Hv. change (pq_set (pq_queue d0) start c0) with (pq_queue d1) in Hv. rewrite Hg1 in Hv. destruct (Nat.leb_spec v n); [assumption|congruence].
    - rewrite upd_length. assumption.
    - assumption.
    - intros v Hv. rewrite H5 by assumption. change (pq_set (pq_queue d0) start c0) with (pq_queue d1). rewrite Hg0, Hg1.
      destruct (Nat.leb_spec v n); [|lia]. split; discriminate. }
  assert (Hfold : forall X d, Forall (fun x => x < n) X -> pq_ok d -> exists d', foldM (fun d v => pq_mark d v) X d = Ok d' /\ pq_ok d' /\
      forall v, pq_get (pq_queue d') v = if memb v X then None else pq_get (pq_queue d) v).
  { clear. induction X as [|x X IH]; intros d HX Hok; [exists d; auto|]. inversion HX as [|? ? Hx HX']; subst.
    cbn [foldM]. destruct (pq_mark_spec d x Hok ltac:(lia)) as (d1 & E1 & Hok1 & _ & Hg1). rewrite E1. cbn [bind].
    destruct (IH d1 HX' Hok1) as (d' & E' & Hok' & Hg'). exists d'. split; [assumption|]. split; [assumption|].
    intros v. rewrite Hg', Hg1. cbn [memb existsb]. fold (memb v X). destruct (Nat.eqb_spec v x) as [->|]; cbn [orb]; [destruct (memb x X)|]; reflexivity. }
  destruct (Hfold X d1 HX Hok1) as (d2 & E2 & Hok2 & Hg2). rewrite E2. cbn [bind].
  replace (n + 1) with (S n) by lia. cbn [prim_loop pq_ops fm_find fm_mark fm_update]. unfold pq_find.
  assert (Hmem : memb start X = false) by (apply memb_nIn; assumption).
  assert (Hgs : pq_get (pq_queue d2) start = Some c0).
  { rewrite Hg2, Hmem, Hg1, Nat.eqb_refl. destruct (Nat.leb_spec start n); [reflexivity|lia]. }
  assert (Hval : forall v c, pq_get (pq_queue d2) v = Some c -> c = cinf \/ (v = start /\ c = c0)).
  { intros v c. rewrite Hg2, Hg1. destruct (memb v X); [discriminate|]. destruct (v <=? n); [|discriminate].
    destruct (Nat.eqb_spec v start) as [->|]; intros H; injection H as <-; auto. }
  assert (Hnan2 : forall v c, pq_get (pq_queue d2) v = Some c -> cnan c = false).
  { intros v c Hg. destruct (Hval v c Hg) as [->|[_ ->]]; [apply (cinf_nnan O)|apply (c0_nnan O)]. }
  pose proof (pq_get_In _ _ _ Hgs) as Hin0.
  destruct (pq_peek_spec O pick (pq_time d2) (pq_queue d2)) as ([v c] & Ep & Hin & Hmin).
  { intros E. rewrite E in Hin0. destruct Hin0. }
  { intros [v c] Hx. cbn [snd]. apply (Hnan2 v). apply pq_In_get; [apply Hok2|assumption]. }
  assert (v = start /\ c = c0) as [-> ->].
  { destruct (Hval v c (pq_In_get _ _ _ (po_nd d2 Hok2) Hin)) as [->|]; [exfalso|assumption].
    specialize (Hmin _ Hin0). cbn [snd] in Hmin. pose proof (ord_0 N O) as H0. rewrite (ord_lt N O), Hmin, andb_false_r in H0. discriminate. }
  rewrite Ep. unfold nth_res. rewrite (nth_error_nth' _ 0) by (rewrite (po_conn d2 Hok2); lia). cbn [bind e_cost e_to].
  rewrite (clt_neq O _ _ (ord_0 N O)).
  destruct (pq_mark_spec d2 start Hok2 ltac:(lia)) as (d3 & E3 & Hok3 & _ & Hg3). rewrite E3. cbn [bind].
  rewrite Nat.eqb_refl. cbn [bind].
  destruct (pq_update_spec d3 start Hok3 Hsn) as (d4 & E4 & Hok4 & Hg4 & Hc4).
  { rewrite Hg3, Nat.eqb_refl. reflexivity. }
  { intros x cx Hx. rewrite Hg3 in Hx. destruct (x =? start); [discriminate|]. apply (Hnan2 x). assumption. }
  rewrite E4. cbn [bind].
  set (R := filter (fun v => negb (v =? start)) (free_vertices n X)).
  pose proof (free_In m X) as HfI. fold n in HfI. pose proof (free_NoDup m X) as HfN. fold n in HfN.
  assert (HRin : forall v, In v R <-> v < n /\ ~ In v X /\ v <> start).
  { intros v. unfold R. rewrite filter_In, HfI. destruct (Nat.eqb_spec v start); cbn; intuition congruence. }
  assert (HndR : NoDup R) by (apply NoDup_filter; assumption).
  assert (HP : Permutation (free_vertices n X) (start :: R)).
  { apply NoDup_Permutation.
    - assumption.
    - constructor; [|assumption]. rewrite HRin. tauto.
    - intros x. rewrite HfI. cbn. rewrite HRin. destruct (Nat.eq_dec x start); [subst; intuition|intuition]. }
  assert (HgR : forall x, In x R -> pq_get (pq_queue d3) x = Some cinf).
  { intros x Hx. apply HRin in Hx. destruct Hx as (H1 & H2 & H3). rewrite Hg3, Hg2, Hg1.
    apply Nat.eqb_neq in H3. rewrite H3. apply memb_nIn in H2. rewrite H2. destruct (Nat.leb_spec x n); [reflexivity|lia]. }
  destruct (pq_loop_spec start n [start] R start [] d4 (repeat [] (S n))) as (P & mst & Epl & Hgr & HM & HF).
  - split.
    + cbn. constructor; [|assumption]. rewrite HRin. tauto.
    + cbn. constructor; [assumption|]. apply Forall_forall. intros x Hx. apply HRin in Hx. tauto.
    + assumption.
    + intros x Hx Hg. apply HRin. rewrite Hg4, Hg3, Hg2 in Hg. destruct (Nat.eqb_spec x start); [congruence|].
      destruct (memb x X) eqn:Em; [congruence|]. apply memb_nIn in Em. auto.
    + intros x Hx. exists start. split; [left; reflexivity|]. rewrite Hg4, (HgR x Hx). apply HRin in Hx. destruct Hx as (H1 & H2 & H3).
      assert (Hf : clt (cf start x) cinf = true) by (apply Hfin; auto). fold cf. rewrite Hf.
      replace (x <? n) with true by (symmetry; apply Nat.ltb_lt; assumption). split; [reflexivity|].
      intros a [<-|[]]. apply (cle_refl O). apply (clt_nnan_l O _ cinf). assumption.
    + rewrite Hg4, Hg3, Hg2, Hg1. replace (n =? start) with false by (symmetry; apply Nat.eqb_neq; lia).
      replace (memb n X) with false; [rewrite Nat.leb_refl, Nat.ltb_irrefl; reflexivity|]. symmetry. apply memb_nIn. intros Hn.
      rewrite Forall_forall in HX. specialize (HX n Hn). lia.
    + left; reflexivity.
    + intros x Hx. apply Hc4; [apply HRin in Hx; tauto|]. rewrite (HgR x Hx). discriminate.
  - split; [rewrite repeat_length; lia|]. intros v Hv. rewrite nth_repeat_lt by lia. reflexivity.
  - left; reflexivity.
  - assert (length (start :: R) <= n).
    { rewrite <- (Permutation_length HP). unfold free_vertices. rewrite <- (seq_length n 0) at 2.
      clear. induction (seq 0 n); simpl; [lia|]. destruct (negb _); simpl; lia. }
    cbn in H. lia.
  - match goal with |- context [bind ?x (fun mst => Ok (removelast mst))] => assert (E0 : x = Ok mst) by exact Epl; rewrite E0; clear E0 end. cbn [bind]. destruct HM as [Hml Hma]. cbn [app] in Hma.
    assert (Hne : mst <> []) by (intros ->; cbn in Hml; lia).
    pose proof (app_removelast_last [] Hne) as Emst.
    assert (Hrl : length (removelast mst) = n).
    { apply (f_equal (@length _)) in Emst. rewrite app_length in Emst. cbn in Emst. lia. }
    exists (removelast mst), P, start, R. split; [reflexivity|]. split; [assumption|]. split; [assumption|].
    split; [assumption|]. split; [|assumption]. intros v Hv. rewrite <- (Hma v) by lia. rewrite Emst at 2.
    rewrite app_nth1 by lia. reflexivity.
Qed.
End Pq.
