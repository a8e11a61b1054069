(** Proofs about the traced algorithms of Work2.v. *)
From Coq Require Import Arith Bool List Lia Permutation.
From Verif Require Import Num Base Data Par Rand MstPar Mst Nn Spec PrimProofs PermProofs Work WorkSpec WorkProofs Work2 Work2Spec.
Import ListNotations.
Local Open Scope logged_scope.

(** ** The trace can be dropped *)
Lemma snd_wmapM {A B} (f : A -> logged B) l : snd (wmapM f l) = mapM (fun x => snd (f x)) l.
Proof.
  induction l as [|x l IH]; [reflexivity|]. cbn [wmapM mapM]. rewrite snd_wbind. apply bind_ext; [reflexivity|]. intros y.
  rewrite snd_wbind. apply bind_ext; [exact IH|reflexivity].
Qed.

Lemma foldM_same {A S} (f h : S -> A -> res S) l : (forall s x, f s x = h s x) -> forall s, foldM f l s = foldM h l s.
Proof. intros H s. apply foldM_ext. intros; apply H. Qed.

Lemma mapM_same' {A B} (f h : A -> res B) l : (forall x, f x = h x) -> mapM f l = mapM h l.
Proof. intros H. induction l as [|x l IH]; [reflexivity|]. cbn [mapM]. rewrite H. apply bind_ext; [reflexivity|]. intros y. rewrite IH. reflexivity. Qed.

Section Erase.
Context {N : Num}.

Lemma erase_metric (a : adj N) : snd (wis_metric a) = is_metric a.
Proof.
  unfold wis_metric, is_metric. rewrite snd_wfoldM. apply foldM_same. intros s i. rewrite snd_wfoldM. apply foldM_same. intros ok j.
  destruct ok; [|reflexivity]. rewrite snd_wbind. apply bind_ext; [reflexivity|]. intros d. rewrite snd_wfoldM. apply foldM_same. intros ok k.
  destruct ok; [|reflexivity]. rewrite snd_wbind. apply bind_ext; [reflexivity|]. intros x. rewrite snd_wbind. apply bind_ext; reflexivity.
Qed.

Lemma erase_scan (m : namatrix N) vis cur acc v : snd (wnn_scan m vis cur acc v) = nn_scan m vis cur acc v.
Proof.
  unfold wnn_scan, nn_scan. rewrite snd_wbind. apply bind_ext; [reflexivity|]. intros b. destruct b; [reflexivity|].
  rewrite snd_wbind. apply bind_ext; [reflexivity|]. intros c. destruct (clt c (snd acc)); reflexivity.
Qed.

Lemma erase_nn_loop (m : namatrix N) r : forall path vis cur d, snd (wnn_loop m r path vis cur d) = nn_loop m r path vis cur d.
Proof.
  induction r as [|r IH]; intros path vis cur d; [reflexivity|]. cbn [wnn_loop nn_loop]. rewrite snd_wbind. apply bind_ext.
  - rewrite snd_wfoldM. apply foldM_same. intros; apply erase_scan.
  - intros [[v|] md]; [|reflexivity]. rewrite snd_wbind. apply bind_ext; [reflexivity|]. intros vis'. apply IH.
Qed.

Lemma erase_single (m : namatrix N) i : snd (wsingle_nearest_neighbour m i) = single_nearest_neighbour m i.
Proof.
  unfold wsingle_nearest_neighbour, single_nearest_neighbour. destruct (negb (i <? na_dim m)); [reflexivity|].
  rewrite snd_wbind. apply bind_ext; [reflexivity|]. intros vis. rewrite snd_wbind. apply bind_ext; [apply erase_nn_loop|].
  intros [[path cur] d]. rewrite snd_wbind. apply bind_ext; reflexivity.
Qed.

Lemma erase_nn (env : nnenv) (m : namatrix N) k : snd (wn_nearest_neighbour (nn_draws env) m k) = n_nearest_neighbour env SEQ_COMPUTATION m k.
Proof.
  unfold wn_nearest_neighbour, n_nearest_neighbour. destruct (k =? 0); [reflexivity|]. destruct (negb (k <=? na_dim m)); [reflexivity|].
  cbn [Nat.eqb SEQ_COMPUTATION]. rewrite snd_wbind. apply bind_ext; [|reflexivity]. rewrite snd_wmapM. apply mapM_same'. apply erase_single.
Qed.

Lemma erase_update (m : namatrix N) d v : na_wf m -> snd (wvec_update d v m) = vec_update d v m.
Proof.
  intros Hw. unfold wvec_update, vec_update. destruct (v <? na_dim m) eqn:E.
  - apply Nat.ltb_lt in E. rewrite na_row_val by assumption. cbn [bind]. rewrite snd_wfoldM, map_length, seq_length.
    assert (H : forall l d, (forall j, In j l -> j < na_dim m) -> foldM (fun s x => snd (wrelax m v s x)) l d =
      foldM (fun d '(to, cost) => relax v d to cost) (combine l (map (na_val m v) l)) d).
    { induction l as [|j l IH]; intros s Hl; [reflexivity|]. cbn [map combine foldM]. apply bind_ext.
      - unfold wrelax. rewrite snd_wbind. unfold wcell. cbn [snd]. rewrite na_get_val; [reflexivity|assumption|assumption|apply Hl; left; reflexivity].
      - intros s'. apply IH. intros j' Hj'. apply Hl. right. exact Hj'. }
    apply H. intros j Hj. apply in_seq in Hj. lia.
  - unfold na_row. rewrite E. reflexivity.
Qed.

Lemma erase_prim (m : namatrix N) X : na_wf m -> snd (wprim m X) = prim_with_excluded_node_single_threaded m X.
Proof.
  intros Hw. unfold wprim, prim_with_excluded_node_single_threaded, prim_with_excluded_node. rewrite snd_wbind. apply bind_ext; [reflexivity|].
  intros start. destruct (na_dim m <=? start); [reflexivity|]. rewrite snd_wbind. apply bind_ext; [reflexivity|]. intros d.
  rewrite snd_wbind. apply bind_ext; [reflexivity|]. intros d'. rewrite snd_wbind. apply bind_ext; [|reflexivity].
  generalize (repeat ([] : list (edge N)) (na_dim m + 1)) as mst. revert d'. generalize (na_dim m + 1) as k.
  induction k as [|k IH]; intros d' mst; [reflexivity|]. cbn [wprim_loop prim_loop]. rewrite snd_wbind. apply bind_ext; [reflexivity|].
  intros [v e]. destruct (ceq (e_cost e) cinf); [reflexivity|]. rewrite snd_wbind. apply bind_ext; [reflexivity|]. intros d1.
  rewrite snd_wbind. apply bind_ext; [reflexivity|]. intros mst'. rewrite snd_wbind. apply bind_ext; [apply erase_update; assumption|].
  intros d2. apply IH.
Qed.
End Erase.


(** ** The triangle check *)
Section Metric.
Context {N : Num} (a : adj N).
Hypothesis Hr : forall i j, i < a_dim a -> j < a_dim a -> exists c, a_get a i j = Ok c.

Definition fails (i j k : nat) : Prop :=
  exists d x y, a_get a i j = Ok d /\ a_get a i k = Ok x /\ a_get a k j = Ok y /\ clt (cadd (cadd x y) ceps) d = true.

(** everything was looked at, or everything up to a detour that is too short *)
Definition upto (full : list (nat * nat)) (r : logged bool) : Prop :=
  (snd r = Ok true /\ fst r = full) \/
  (snd r = Ok false /\ exists i j k t rest, i <= j < a_dim a /\ k < a_dim a /\ fails i j k /\ fst r = t ++ detour i j k /\ full = fst r ++ rest).

Lemma stop_fold {A} (f : bool -> A -> logged bool) l : (forall x, f false x = ([], Ok false)) -> wfoldM f l false = ([], Ok false).
Proof. intros H0. induction l as [|x l IH]; [reflexivity|]. cbn [wfoldM]. rewrite H0. unfold wbind. cbn [fst snd app]. rewrite IH. reflexivity. Qed.

Lemma upto_app p full r : upto full r -> upto (p ++ full) (p ++ fst r, snd r).
Proof.
  intros [[H1 H2]|(H1 & i & j & k & t & rest & Hij & Hk & Hf & Ht & Hfull)]; [left|right]; cbn [fst snd].
  - rewrite H2. auto.
  - split; [assumption|]. exists i, j, k, (p ++ t), rest. rewrite Hfull, Ht, !app_assoc. auto.
Qed.

Lemma upto_fold {A} (f : bool -> A -> logged bool) (F : A -> list (nat * nat)) l : (forall x, f false x = ([], Ok false)) ->
  (forall x, In x l -> upto (F x) (f true x)) -> upto (flat_map F l) (wfoldM f l true).
Proof.
  intros H0. induction l as [|x l IH]; intros H1; [left; split; reflexivity|].
  cbn [wfoldM flat_map]. destruct (H1 x (or_introl eq_refl)) as [[E1 E2]|(E1 & i & j & k & t & rest & Hij & Hk & Hf & Ht & Hfull)].
  - rewrite (wbind_Ok _ _ _ E1), <- E2. apply upto_app, IH. intros y Hy. apply H1. right. exact Hy.
  - rewrite (wbind_Ok _ _ _ E1), (stop_fold f l H0), app_nil_r. right. split; [reflexivity|]. exists i, j, k, t, (rest ++ flat_map F l).
    cbn [fst]. rewrite Hfull, <- app_assoc. auto.
Qed.

Lemma metric_reads : upto (triangle_cells (a_dim a)) (wis_metric a).
Proof.
  unfold wis_metric, triangle_cells. apply upto_fold.
  - intros i. apply stop_fold. reflexivity.
  - intros i Hi. apply in_seq in Hi. apply upto_fold; [reflexivity|]. intros j Hj. apply in_seq in Hj.
    destruct (Hr i j ltac:(lia) ltac:(lia)) as [d Ed]. rewrite (wbind_Ok (wget a i j) _ d Ed). cbn [fst wget].
    apply (upto_app [(i, j)]). apply upto_fold; [reflexivity|]. intros k Hk. apply in_seq in Hk.
    destruct (Hr i k ltac:(lia) ltac:(lia)) as [x Ex]. destruct (Hr k j ltac:(lia) ltac:(lia)) as [y Ey].
    rewrite (wbind_Ok (wget a i k) _ x Ex), (wbind_Ok (wget a k j) _ y Ey). unfold quiet, wget. cbn [fst snd app].
    destruct (clt (cadd (cadd x y) ceps) d) eqn:E; [right|left]; cbn [fst snd negb]; [|split; reflexivity].
    split; [reflexivity|]. exists i, j, k, [], []. split; [lia|]. split; [lia|]. split; [exists d, x, y; auto|]. split; reflexivity.
Qed.
End Metric.

Lemma flat_map_const {A B} (F : A -> list B) c l : (forall x, In x l -> length (F x) = c) -> length (flat_map F l) = length l * c.
Proof. induction l as [|x l IH]; intros H; [reflexivity|]. cbn [flat_map length]. rewrite app_length, IH, H; [lia|left; reflexivity|]. intros y Hy. apply H. right. exact Hy. Qed.

Lemma triangle_count n : 2 * length (triangle_cells n) = n * (n + 1) * (2 * n + 1).
Proof.
  unfold triangle_cells.
  assert (H : forall k, k <= n -> 2 * length (flat_map (fun i => flat_map (fun j => (i, j) :: flat_map (detour i j) (seq 0 n)) (seq i (n - i))) (seq (n - k) k)) =
    k * (k + 1) * (2 * n + 1)).
  { induction k as [|k IH]; intros Hk; [reflexivity|]. cbn [seq flat_map]. rewrite app_length.
    replace (S (n - S k)) with (n - k) by lia. rewrite (flat_map_const _ (2 * n + 1)).
    - rewrite seq_length. replace (n - (n - S k)) with (S k) by lia. rewrite Nat.mul_add_distr_l, IH by lia. nia.
    - intros j _. cbn [length]. rewrite (flat_map_const _ 2) by reflexivity. rewrite seq_length. lia. }
  specialize (H n (le_n n)). rewrite Nat.sub_diag in H. exact H.
Qed.

(** ** Nearest neighbour *)
Section Nearest.
Context {N : Num} (m : namatrix N).
Hypothesis Hw : na_wf m.

Definition sees (vis : list bool) (seen : list nat) : Prop := length vis = na_dim m /\ forall v, v < na_dim m -> nth_res vis v = Ok (memb v seen).

Lemma scan_reads vis cur seen : sees vis seen -> cur < na_dim m -> forall l acc, (forall v, In v l -> v < na_dim m) ->
  fst (wfoldM (wnn_scan m vis cur) l acc) = map (pair cur) (filter (fun v => negb (memb v seen)) l) /\
  exists o d, snd (wfoldM (wnn_scan m vis cur) l acc) = Ok (o, d) /\ (o = fst acc \/ exists v, o = Some v /\ In v l /\ memb v seen = false).
Proof.
  intros [Hl Hs] Hc. induction l as [|v l IH]; intros acc Hv.
  - split; [reflexivity|]. destruct acc as [o d]. exists o, d. split; [reflexivity|left; reflexivity].
  - cbn [wfoldM filter]. assert (Hv' : forall u, In u l -> u < na_dim m) by (intros u Hu; apply Hv; right; exact Hu).
    pose proof (Hv v (or_introl eq_refl)) as Hvn.
    assert (E : exists acc', wnn_scan m vis cur acc v = (if memb v seen then [] else [(cur, v)], Ok acc') /\ (fst acc' = fst acc \/ fst acc' = Some v /\ memb v seen = false)).
    { unfold wnn_scan. rewrite (wbind_quiet _ _ _ (Hs v Hvn)). destruct (memb v seen) eqn:Em; [exists acc; split; [reflexivity|left; reflexivity]|].
      rewrite (wbind_Ok (wcell m cur v) _ _ (na_get_val m cur v Hw Hc Hvn)). cbn [fst wcell].
      destruct (clt (na_val m cur v) (snd acc)); eexists; (split; [reflexivity|]); cbn [fst]; auto. }
    destruct E as (acc' & E & Ha). rewrite E, (wbind_Ok _ _ acc') by reflexivity. cbn [fst snd].
    destruct (IH acc' Hv') as (F & o & d & S & Ho). split.
    + rewrite F. destruct (memb v seen); reflexivity.
    + exists o, d. split; [exact S|]. destruct Ho as [->|(u & -> & Hu & Hm)].
      * destruct Ha as [->|[-> Hm]]; [left; reflexivity|right; exists v; split; [reflexivity|split; [left; reflexivity|assumption]]].
      * right. exists u. split; [reflexivity|split; [right; assumption|assumption]].
Qed.

Lemma sees_next vis seen v : sees vis seen -> v < na_dim m -> exists vis', modify_res vis v (fun _ => true) = Ok vis' /\ sees vis' (v :: seen).
Proof.
  intros [Hl Hs] Hv. rewrite (modify_res_Ok vis v _ false) by lia. eexists. split; [reflexivity|]. split; [rewrite upd_length; exact Hl|].
  intros u Hu. rewrite (nth_res_Ok _ false) by (rewrite upd_length; lia). cbn [memb existsb].
  destruct (Nat.eqb_spec u v) as [->|Hne]; [rewrite nth_upd_eq by lia; reflexivity|]. rewrite nth_upd_neq by congruence.
  specialize (Hs u Hu). rewrite (nth_res_Ok _ false) in Hs by lia. cbn [orb]. exact Hs.
Qed.

Lemma loop_cells r : forall path vis cur seen d, sees vis (cur :: seen) -> cur < na_dim m -> NoDup (cur :: seen) -> forall p c d',
  snd (wnn_loop m r path vis cur d) = Ok (p, c, d') ->
  exists suf, p = path ++ suf /\ length suf = r /\ c = last suf cur /\ fst (wnn_loop m r path vis cur d) = greedy_cells (na_dim m) seen (cur :: suf) /\
    (forall v, In v suf -> v < na_dim m) /\ NoDup (suf ++ cur :: seen).
Proof.
  induction r as [|r IH]; intros path vis cur seen d Hs Hc Hn p c d' E.
  - cbn [wnn_loop quiet snd] in E. injection E as <- <- <-. exists []. rewrite app_nil_r. repeat split; try reflexivity; [intros v []|exact Hn].
  - cbn [wnn_loop] in *. destruct (scan_reads vis cur (cur :: seen) Hs Hc (seq 0 (na_dim m)) (None, cinf)) as (F & o & md & S & Ho).
    { intros v Hv. apply in_seq in Hv. lia. }
    rewrite (wbind_Ok _ _ _ S) in *. cbn [fst snd] in E |- *.
    destruct Ho as [->|(v & -> & Hv & Hm)]; [discriminate E|]. apply in_seq in Hv.
    destruct (sees_next vis (cur :: seen) v Hs ltac:(lia)) as (vis' & Ev & Hs'). rewrite (wbind_quiet _ _ _ Ev) in *.
    destruct (IH _ _ _ _ _ Hs' ltac:(lia) (NoDup_cons _ (proj1 (memb_nIn _ _) Hm) Hn) _ _ _ E) as (suf & -> & Hlen & -> & Hf & Hin & Hnd).
    exists (v :: suf). rewrite <- app_assoc. split; [reflexivity|]. split; [cbn [length]; lia|]. split.
    { destruct suf as [|u suf]; [reflexivity|]. change (last (v :: u :: suf) cur) with (last (u :: suf) cur). clear. revert u. induction suf as [|x l IH]; intros u; [reflexivity|].
      change (last (x :: l) v = last (x :: l) cur). apply IH. }
    split; [rewrite F, Hf; reflexivity|]. split; [intros u [<-|Hu]; [lia|apply Hin; exact Hu]|].
    apply (Permutation_NoDup (l := suf ++ v :: cur :: seen)); [|exact Hnd]. symmetry. apply Permutation_cons_app. reflexivity.
Qed.

Lemma single_reads i c p : snd (wsingle_nearest_neighbour m i) = Ok (c, p) ->
  fst (wsingle_nearest_neighbour m i) = greedy_cells (na_dim m) [] p ++ [(last p i, i)] /\ hd_error p = Some i /\ Permutation (seq 0 (na_dim m)) p.
Proof.
  unfold wsingle_nearest_neighbour. destruct (i <? na_dim m) eqn:Ei; [|discriminate]. apply Nat.ltb_lt in Ei. cbn [negb].
  assert (Hs0 : sees (repeat false (na_dim m)) []).
  { split; [apply repeat_length|]. intros v Hv. rewrite (nth_res_Ok _ false) by (rewrite repeat_length; exact Hv). rewrite nth_repeat_lt by assumption. reflexivity. }
  destruct (sees_next _ _ i Hs0 Ei) as (vis & Ev & Hs). rewrite (wbind_quiet _ _ _ Ev).
  destruct (snd (wnn_loop m (na_dim m - 1) [i] vis i c0)) as [[[p' cur] d]| |] eqn:El; [|unfold wbind; rewrite El; discriminate..].
  rewrite (wbind_Ok _ _ _ El). cbn [fst snd].
  destruct (loop_cells _ _ _ _ _ _ Hs Ei (NoDup_cons i (in_nil (a:=i)) (NoDup_nil nat)) _ _ _ El) as (suf & -> & Hlen & -> & Hf & Hin & Hnd).
  assert (Hlast : last suf i < na_dim m). { destruct suf as [|x l] using rev_ind; [exact Ei|]. rewrite last_last. apply Hin, in_or_app. right. left. reflexivity. }
  rewrite (wbind_Ok (wcell m _ i) _ _ (na_get_val m _ i Hw Hlast Ei)). cbn [fst snd quiet wcell]. intros E. injection E as <- <-.
  rewrite Hf, app_nil_r. cbn [app]. split; [f_equal; f_equal; destruct suf; reflexivity|]. split; [reflexivity|].
  apply NoDup_Permutation_bis; [apply seq_NoDup|rewrite seq_length; cbn [length]; lia|].
  assert (Hp : Permutation (suf ++ [i]) (i :: suf)) by (symmetry; apply Permutation_cons_append).
  apply (Permutation_NoDup Hp) in Hnd. intros v Hv. apply in_seq in Hv.
  apply (NoDup_length_incl Hnd (l' := seq 0 (na_dim m))); [rewrite seq_length; cbn [length]; lia| |apply in_seq; lia].
  intros u [<-|Hu]; apply in_seq; [lia|specialize (Hin u Hu); lia].
Qed.
End Nearest.

Lemma greedy_count n : forall p seen, NoDup (p ++ seen) -> (forall v, In v (p ++ seen) -> v < n) -> length p + length seen = n ->
  length (greedy_cells n seen p) = pairs_of (length p).
Proof.
  induction p as [|cur p IH]; intros seen Hn Hr Hl; [reflexivity|]. destruct p as [|q p]; [reflexivity|].
  change (greedy_cells n seen (cur :: q :: p)) with (map (pair cur) (free (cur :: seen) (seq 0 n)) ++ greedy_cells n (cur :: seen) (q :: p)).
  assert (Hp : Permutation ((cur :: q :: p) ++ seen) ((q :: p) ++ cur :: seen)) by (cbn [app]; apply (Permutation_cons_app (q :: p) seen cur); reflexivity).
  assert (Hn' : NoDup ((q :: p) ++ cur :: seen)) by (apply (Permutation_NoDup Hp Hn)).
  assert (Hr' : forall v, In v ((q :: p) ++ cur :: seen) -> v < n) by (intros v Hv; apply Hr; apply (Permutation_in v (Permutation_sym Hp)); exact Hv).
  rewrite app_length, map_length, IH; [|assumption|assumption|cbn [length] in *; lia]. rewrite free_seq.
  - cbn [length pairs_of] in *. lia.
  - clear - Hn'. induction (q :: p) as [|x l IHl]; [exact Hn'|]. apply IHl. inversion Hn'; assumption.
  - intros v Hv. apply Hr', in_or_app. right. exact Hv.
Qed.

Lemma greedy_rows n : forall p seen u v, In (u, v) (greedy_cells n seen p) -> In u (removelast p) /\ ~ In v seen.
Proof.
  induction p as [|cur p IH]; intros seen u v H; [destruct H|]. destruct p as [|q p]; [destruct H|].
  change (greedy_cells n seen (cur :: q :: p)) with (map (pair cur) (free (cur :: seen) (seq 0 n)) ++ greedy_cells n (cur :: seen) (q :: p)) in H.
  change (removelast (cur :: q :: p)) with (cur :: removelast (q :: p)). apply in_app_or in H. destruct H as [H|H].
  - apply in_map_iff in H. destruct H as (v' & E & H). injection E as <- <-. split; [left; reflexivity|]. unfold free in H. apply filter_In in H.
    destruct H as [_ H]. apply negb_true_iff, memb_nIn in H. intros Hv. apply H. right. exact Hv.
  - destruct (IH _ _ _ H) as [H1 H2]. split; [right; exact H1|]. intros Hv. apply H2. right. exact Hv.
Qed.

Lemma greedy_NoDup n : forall p seen, NoDup p -> NoDup (greedy_cells n seen p).
Proof.
  induction p as [|cur p IH]; intros seen Hn; [constructor|]. destruct p as [|q p]; [constructor|].
  change (greedy_cells n seen (cur :: q :: p)) with (map (pair cur) (free (cur :: seen) (seq 0 n)) ++ greedy_cells n (cur :: seen) (q :: p)).
  inversion Hn as [|? ? Hc Hn']; subst. apply nodup_app.
  - apply FinFun.Injective_map_NoDup; [intros x y E; injection E; auto|]. apply NoDup_filter, seq_NoDup.
  - apply IH. assumption.
  - intros [u v] H1 H2. apply in_map_iff in H1. destruct H1 as (v' & E & _). injection E as <- <-. apply greedy_rows in H2. destruct H2 as [H2 _].
    apply Hc. clear - H2. revert H2. generalize (q :: p). intros l H. destruct l as [|x l]; [destruct H|]. rewrite (app_removelast_last x (l := x :: l)) by discriminate.
    apply in_or_app. left. exact H.
Qed.

(** ** Prim *)
Section PrimWork.
Context {N : Num} (O : NumOrd N) (m : namatrix N).
Hypothesis Hw : na_wf m.
Let n := na_dim m.

(** one entry per vertex and one at infinity *)
Definition shape (d : vdist N) : Prop := length d = n + 1 /\ e_cost (fst (nth n d dd)) = cinf.
Definition used (d : vdist N) (v : nat) : bool := snd (nth v d dd).
Definition look : list (nat * nat) := map (fun i => (n + 1, i)) (seq 0 (n + 1)).

Lemma inf_eq : ceq (cinf : C N) cinf = true.
Proof.
  pose proof (ord_0 N O) as H. rewrite (ord_lt N O) in H. apply andb_true_iff in H. destruct H as [H _]. apply (ord_nan_r N O) in H.
  rewrite (ord_eq N O), (ord_refl N O), H. reflexivity.
Qed.

Lemma relax_shape v d to c : shape d -> to < n -> exists d', relax v d to c = Ok d' /\ shape d' /\ forall u, used d' u = used d u.
Proof.
  intros [Hl Hi] Ht. unfold relax. rewrite (nth_res_Ok d dd) by lia. cbn [bind]. destruct (clt c (e_cost (fst (nth to d dd)))); eexists; (split; [reflexivity|]); [|split; [split; assumption|reflexivity]].
  split; [split; [rewrite upd_length; assumption|rewrite nth_upd_neq by lia; assumption]|]. intros u. unfold used.
  destruct (Nat.eq_dec to u) as [<-|Hne]; [rewrite nth_upd_eq by lia; reflexivity|rewrite nth_upd_neq by assumption; reflexivity].
Qed.

Lemma update_reads v d : shape d -> v < n -> exists d', wvec_update d v m = (row_cells n v, Ok d') /\ shape d' /\ forall u, used d' u = used d u.
Proof.
  intros Hd Hv. unfold wvec_update. apply Nat.ltb_lt in Hv as Hv'. fold n. rewrite Hv'. unfold row_cells.
  assert (Hl : forall l d, shape d -> (forall t, In t l -> t < n) -> exists d', wfoldM (wrelax m v) l d = (map (pair v) l, Ok d') /\ shape d' /\ forall u, used d' u = used d u).
  { induction l as [|t l IH]; intros s Hs Hl; [exists s; split; [reflexivity|split; [assumption|reflexivity]]|]. cbn [wfoldM map].
    destruct (relax_shape v s t (na_val m v t) Hs (Hl t (or_introl eq_refl))) as (s1 & E1 & Hs1 & Hu1).
    destruct (IH s1 Hs1 (fun u Hu => Hl u (or_intror Hu))) as (s2 & E2 & Hs2 & Hu2). exists s2. split; [|split; [assumption|]].
    - assert (E : wrelax m v s t = ([(v, t)], Ok s1)).
      { unfold wrelax. rewrite (wbind_Ok (wcell m v t) _ _ (na_get_val m v t Hw Hv (Hl t (or_introl eq_refl)))). unfold wcell, quiet. cbn [fst snd app]. rewrite E1. reflexivity. }
      rewrite E, (wbind_Ok _ _ s1) by reflexivity. rewrite E2. reflexivity.
    - intros u. rewrite Hu2. apply Hu1. }
  apply Hl; [assumption|]. intros t Ht. apply in_seq in Ht. lia.
Qed.

Lemma find_entry d : shape d -> exists v e, vec_find d = Ok (v, e) /\ (ceq (e_cost e) cinf = false -> v < n /\ used d v = false).
Proof.
  intros [Hl Hi]. unfold vec_find. destruct (first_min (unused d)) as [[v e]|] eqn:E.
  - exists v, e. split; [reflexivity|]. intros He. apply first_min_In in E. apply unused_spec in E. destruct E as [Hv En]. unfold used. rewrite En.
    split; [|reflexivity]. destruct (Nat.eq_dec v n) as [->|]; [|lia]. rewrite En in Hi. cbn [fst] in Hi. rewrite Hi, inf_eq in He. discriminate.
  - exists (length d), (mkEdge (length d) cinf). split; [reflexivity|]. cbn [e_cost]. rewrite inf_eq. discriminate.
Qed.

Lemma mark_shape d v : shape d -> v <= n -> exists d', vec_mark d v = Ok d' /\ shape d' /\ used d' v = true /\ forall u, used d u = true -> used d' u = true.
Proof.
  intros [Hl Hi] Hv. unfold vec_mark. rewrite (modify_res_Ok d v _ dd) by lia. eexists. split; [reflexivity|]. split; [|split].
  - split; [rewrite upd_length; assumption|]. destruct (Nat.eq_dec v n) as [->|Hne]; [rewrite nth_upd_eq by lia; exact Hi|rewrite nth_upd_neq by assumption; exact Hi].
  - unfold used. rewrite nth_upd_eq by lia. reflexivity.
  - intros u Hu. unfold used in *. destruct (Nat.eq_dec v u) as [<-|Hne]; [rewrite nth_upd_eq by lia; reflexivity|rewrite nth_upd_neq by assumption; exact Hu].
Qed.

Lemma prim_loop_reads start k : forall d mst, shape d ->
  exists vs tail, fst (wprim_loop m start k d mst) = flat_map (fun v => look ++ row_cells n v) vs ++ tail /\ NoDup vs /\
    (forall v, In v vs -> v < n /\ used d v = false) /\ (tail = [] \/ tail = look) /\ length vs + length tail / (n + 1) <= k.
Proof.
  induction k as [|k IH]; intros d mst Hd.
  - exists [], []. cbn [wprim_loop quiet fst flat_map app length]. rewrite Nat.div_0_l by lia. split; [reflexivity|]. split; [apply NoDup_nil|]. split; [intros u Hu; destruct Hu|]. split; [tauto|lia].
  - cbn [wprim_loop]. destruct (find_entry d Hd) as (v & e & Ef & Hv).
    assert (Hlook : fst (wvec_find (na_dim m) d) = look) by (unfold wvec_find, look; cbn [fst]; destruct Hd as [-> _]; reflexivity).
    assert (Hdiv : length look / (n + 1) = 1) by (unfold look; rewrite map_length, seq_length; apply Nat.div_same; lia).
    assert (Hstop : exists vs tail, look = flat_map (fun v => look ++ row_cells n v) vs ++ tail /\ NoDup vs /\
      (forall v, In v vs -> v < n /\ used d v = false) /\ (tail = [] \/ tail = look) /\ length vs + length tail / (n + 1) <= S k).
    { exists [], look. cbn [flat_map app length]. rewrite Hdiv. split; [reflexivity|]. split; [apply NoDup_nil|]. split; [intros u Hu; destruct Hu|]. split; [tauto|lia]. }
    rewrite (wbind_Ok (wvec_find (na_dim m) d) _ (v, e) Ef), Hlook. cbn [fst].
    destruct (ceq (e_cost e) cinf) eqn:Ee; [cbn [quiet fst]; rewrite app_nil_r; exact Hstop|].
    destruct (Hv eq_refl) as [Hvn Hvu]. destruct (mark_shape d v Hd ltac:(lia)) as (d1 & E1 & Hd1 & Hu1 & Hk1). rewrite (wbind_quiet _ _ _ E1).
    match goal with |- context [wbind (quiet ?r) _] => destruct r as [mst'| |] eqn:Em end.
    2, 3: unfold wbind, quiet; cbn [snd fst]; rewrite app_nil_r; exact Hstop.
    rewrite (wbind_quiet _ _ mst') by reflexivity. destruct (update_reads v d1 Hd1 Hvn) as (d2 & E2 & Hd2 & Hu2). rewrite E2, (wbind_Ok _ _ d2) by reflexivity. cbn [fst].
    destruct (IH d2 mst' Hd2) as (vs & tail & Hf & Hnd & Hin & Ht & Hlen). exists (v :: vs), tail.
    rewrite Hf. cbn [flat_map length]. split; [rewrite <- !app_assoc; reflexivity|]. split; [|split; [|split; [assumption|lia]]].
    + constructor; [|assumption]. intros H. destruct (Hin v H) as [_ H']. rewrite Hu2, Hu1 in H'. discriminate.
    + intros u [<-|Hu]; [auto|]. destruct (Hin u Hu) as [H1 H2]. split; [assumption|]. rewrite Hu2 in H2. destruct (used d u) eqn:E; [|reflexivity].
      rewrite (Hk1 u E) in H2. discriminate.
Qed.

Lemma marks_shape X : forall d d', shape d -> foldM (fun d v => vec_mark d v) X d = Ok d' -> shape d' /\ (forall v, In v X -> used d' v = true) /\ forall v, used d v = true -> used d' v = true.
Proof.
  induction X as [|x X IH]; intros d d' Hd E; [injection E as <-; split; [assumption|split; [intros v []|auto]]|]. cbn [foldM] in E.
  destruct (Nat.le_gt_cases x n) as [Hx|Hx].
  - destruct (mark_shape d x Hd Hx) as (d1 & E1 & Hd1 & Hu1 & Hk1). rewrite E1 in E. cbn [bind] in E. destruct (IH d1 d' Hd1 E) as (A & B & Ck).
    split; [assumption|]. split; [intros v [<-|Hv]; [apply Ck, Hu1|apply B, Hv]|intros v Hv; apply Ck, Hk1, Hv].
  - exfalso. unfold vec_mark, modify_res in E. rewrite (proj2 (nth_error_None d x)) in E by (destruct Hd; lia). discriminate.
Qed.

Lemma prim_reads X : exists vs tail, fst (wprim m X) = flat_map (fun v => look ++ row_cells n v) vs ++ tail /\ NoDup vs /\
    (forall v, In v vs -> v < n /\ ~ In v X) /\ (tail = [] \/ tail = look) /\ length vs + length tail / (n + 1) <= n + 1.
Proof.
  assert (Hno : exists vs tail, ([] : list (nat * nat)) = flat_map (fun v => look ++ row_cells n v) vs ++ tail /\ NoDup vs /\
    (forall v, In v vs -> v < n /\ ~ In v X) /\ (tail = [] \/ tail = look) /\ length vs + length tail / (n + 1) <= n + 1).
  { exists [], []. cbn [flat_map app length]. rewrite Nat.div_0_l by lia. split; [reflexivity|]. split; [apply NoDup_nil|]. split; [intros u Hu; destruct Hu|]. split; [tauto|lia]. }
  unfold wprim. fold n.
  destruct (first_free (S (length X)) X 0) as [start| |]; [|unfold wbind, quiet; cbn [snd fst]; exact Hno..].
  rewrite (wbind_quiet _ _ start) by reflexivity. destruct (n <=? start) eqn:Es; [exact Hno|]. apply Nat.leb_gt in Es.
  set (d := upd (repeat (mkEdge n (cinf : C N), false) (n + 1)) start (mkEdge start (c0 : C N), snd (nth start (repeat (mkEdge n (cinf : C N), false) (n + 1)) dd))).
  assert (E0 : vec_set_cost (repeat (mkEdge n (cinf : C N), false) (n + 1)) start (mkEdge start c0) = Ok d).
  { unfold vec_set_cost. rewrite (modify_res_Ok _ start _ dd) by (rewrite repeat_length; lia). reflexivity. }
  rewrite (wbind_quiet _ _ d E0). assert (Hd : shape d).
  { split; [unfold d; rewrite upd_length, repeat_length; reflexivity|]. unfold d. rewrite nth_upd_neq by lia. rewrite nth_repeat_lt by lia. reflexivity. }
  destruct (foldM (fun d v => vec_mark d v) X d) as [d'| |] eqn:Ed; [|unfold wbind at 1, quiet; cbn [snd fst]; exact Hno..].
  rewrite (wbind_quiet _ _ d') by reflexivity. destruct (marks_shape X d d' Hd Ed) as (Hd' & Hx & _).
  destruct (prim_loop_reads start (n + 1) d' (repeat [] (n + 1)) Hd') as (vs & tail & Hf & Hnd & Hin & Ht & Hlen). exists vs, tail.
  split; [|split; [assumption|split; [|split; assumption]]].
  - rewrite <- Hf. unfold wbind. destruct (snd (wprim_loop m start (n + 1) d' (repeat [] (n + 1)))); cbn [quiet fst]; rewrite ?app_nil_r; reflexivity.
  - intros v Hv. destruct (Hin v Hv) as [H1 H2]. split; [assumption|]. intros H. rewrite (Hx v H) in H2. discriminate.
Qed.

(** With finite costs it looks at every row that is not excluded. *)
Definition entry_cost (d : vdist N) (u : nat) : C N := e_cost (fst (nth u d dd)).
Definition settled (d : vdist N) : Prop := forall u, u <= n -> entry_cost d u = cinf \/ clt (entry_cost d u) cinf = true.

Lemma finite_lt (x y : C N) : clt x y = true -> y = cinf \/ clt y cinf = true -> clt x cinf = true.
Proof.
  intros H [->|Hy]; [assumption|]. rewrite (ord_lt N O) in *. apply andb_true_iff in H, Hy. destruct H as [H1 H2], Hy as [H3 H4].
  rewrite (ord_trans N O _ _ _ H1 H3). destruct (cle cinf x) eqn:E; [|reflexivity]. rewrite (ord_trans N O _ _ _ E H1) in H4. discriminate.
Qed.

Lemma find_finite d u v e : shape d -> settled d -> u < n -> used d u = false -> clt (entry_cost d u) cinf = true -> vec_find d = Ok (v, e) -> ceq (e_cost e) cinf = false.
Proof.
  intros [Hl Hi] Hs Hu Hn Hf E. unfold vec_find in E.
  assert (Hin : In (u, fst (nth u d dd)) (unused d)). { apply unused_spec. split; [lia|]. unfold used in Hn. rewrite <- Hn. apply surjective_pairing. }
  destruct (first_min_spec O (unused d)) as (x & Ex & _ & Hmin).
  - intros [w ew] Hw'. apply unused_spec in Hw'. destruct Hw' as [Hwl Hwe]. specialize (Hs w ltac:(lia)). unfold entry_cost in Hs. rewrite Hwe in Hs. cbn [fst snd] in *.
    assert (Hinf : cnan (cinf : C N) = false) by (pose proof (ord_0 N O) as H; rewrite (ord_lt N O) in H; apply andb_true_iff in H; exact (ord_nan_r N O _ _ (proj1 H))).
    destruct Hs as [->|Hs]; [exact Hinf|]. rewrite (ord_lt N O) in Hs. apply andb_true_iff in Hs. exact (ord_nan_l N O _ _ (proj1 Hs)).
  - intros H. rewrite H in Hin. destruct Hin.
  - rewrite Ex in E. injection E as E. subst x. specialize (Hmin _ Hin). cbn [snd] in Hmin. fold (entry_cost d u) in Hmin. rewrite (ord_eq N O).
    destruct (cle cinf (e_cost e)) eqn:E; [|apply andb_false_r]. rewrite (ord_lt N O) in Hf. rewrite (ord_trans N O _ _ _ E Hmin) in Hf. rewrite andb_false_r in Hf. discriminate.
Qed.

Lemma relax_settled v d to c d' : shape d -> settled d -> to < n -> relax v d to c = Ok d' ->
  settled d' /\ (forall u, clt (entry_cost d u) cinf = true -> clt (entry_cost d' u) cinf = true) /\ (clt c cinf = true -> clt (entry_cost d' to) cinf = true).
Proof.
  intros [Hl Hi] Hs Ht. unfold relax. rewrite (nth_res_Ok d dd) by lia. cbn [bind]. fold (entry_cost d to). destruct (clt c (entry_cost d to)) eqn:E; intros E'; injection E' as <-.
  - assert (Hc : clt c cinf = true) by (apply (finite_lt _ _ E), Hs; lia).
    assert (H : forall u, entry_cost (upd d to (mkEdge v c, snd (nth to d dd))) u = if u =? to then c else entry_cost d u).
    { intros u. unfold entry_cost. destruct (Nat.eqb_spec u to) as [->|Hne]; [rewrite nth_upd_eq by lia; reflexivity|rewrite nth_upd_neq by congruence; reflexivity]. }
    split; [|split].
    + intros u Hu. rewrite H. destruct (u =? to); [right; exact Hc|apply Hs, Hu].
    + intros u Hu. rewrite H. destruct (u =? to); [exact Hc|exact Hu].
    + intros _. rewrite H, Nat.eqb_refl. exact Hc.
  - split; [assumption|]. split; [auto|]. intros Hc. destruct (Hs to ltac:(lia)) as [Hinf|Hfin]; [rewrite Hinf in E; congruence|assumption].
Qed.

Hypothesis Hfin : forall i j, i < n -> j < n -> i <> j -> clt (na_val m i j) cinf = true.

Lemma update_settled v d d' : shape d -> settled d -> v < n -> snd (wvec_update d v m) = Ok d' ->
  settled d' /\ forall u, u < n -> u <> v -> clt (entry_cost d' u) cinf = true.
Proof.
  intros Hd Hs Hv. unfold wvec_update. apply Nat.ltb_lt in Hv as Hv'. fold n. rewrite Hv'.
  assert (Hl : forall l d, shape d -> settled d -> (forall t, In t l -> t < n) -> snd (wfoldM (wrelax m v) l d) = Ok d' ->
    settled d' /\ (forall u, clt (entry_cost d u) cinf = true -> clt (entry_cost d' u) cinf = true) /\ forall u, In u l -> u <> v -> clt (entry_cost d' u) cinf = true).
  { induction l as [|t l IH]; intros s Hsh Hse Hl E; [injection E as <-; split; [assumption|split; [auto|intros u []]]|]. cbn [wfoldM] in E.
    destruct (relax_shape v s t (na_val m v t) Hsh (Hl t (or_introl eq_refl))) as (s1 & E1 & Hs1 & Hu1).
    assert (Er : wrelax m v s t = ([(v, t)], Ok s1)).
    { unfold wrelax. rewrite (wbind_Ok (wcell m v t) _ _ (na_get_val m v t Hw Hv (Hl t (or_introl eq_refl)))). unfold wcell, quiet. cbn [fst snd app]. rewrite E1. reflexivity. }
    rewrite Er, (wbind_Ok _ _ s1) in E by reflexivity. cbn [snd] in E.
    destruct (relax_settled v s t (na_val m v t) s1 Hsh Hse (Hl t (or_introl eq_refl)) E1) as (A & B & Ct).
    destruct (IH s1 Hs1 A (fun u Hu => Hl u (or_intror Hu)) E) as (A' & B' & C').
    split; [assumption|]. split; [intros u Hu; apply B', B, Hu|]. intros u [<-|Hu] Hne; [|apply C'; assumption].
    apply B', Ct, Hfin; [assumption|apply Hl; left; reflexivity|congruence]. }
  intros E. destruct (Hl _ _ Hd Hs (fun t Ht => proj2 (proj1 (in_seq n 0 t) Ht)) E) as (A & _ & B). split; [assumption|].
  intros u Hu Hne. apply B; [apply in_seq; lia|assumption].
Qed.

Lemma filter_less (p q : nat -> bool) v l : (forall u, q u = true -> p u = true) -> p v = true -> q v = false -> In v l -> length (filter q l) < length (filter p l).
Proof.
  intros Hpq Hp Hq. assert (Hle : forall l, length (filter q l) <= length (filter p l)).
  { induction l0 as [|u l0 IH]; [reflexivity|]. cbn [filter]. destruct (q u) eqn:Eq; [rewrite (Hpq u Eq); cbn [length]; lia|]. destruct (p u); cbn [length]; lia. }
  induction l as [|u l IH]; intros H; [destruct H|]. cbn [filter]. destruct H as [->|H].
  - rewrite Hp, Hq. cbn [length]. specialize (Hle l). lia.
  - specialize (IH H). destruct (q u) eqn:Eq; [rewrite (Hpq u Eq); cbn [length]; lia|]. destruct (p u); cbn [length]; lia.
Qed.

Lemma mark_exact d v d' : vec_mark d v = Ok d' -> forall u, entry_cost d' u = entry_cost d u /\ (u <> v -> used d' u = used d u).
Proof.
  unfold vec_mark, modify_res. destruct (nth_error d v) as [x|] eqn:E; [|discriminate]. intros H. injection H as <-. intros u.
  assert (Hv : v < length d) by (apply nth_error_Some; congruence). apply (nth_error_nth d v dd) in E.
  unfold entry_cost, used. destruct (Nat.eq_dec u v) as [->|Hne]; [rewrite nth_upd_eq by assumption; rewrite E; split; [reflexivity|congruence]|].
  rewrite nth_upd_neq by congruence. split; reflexivity.
Qed.

Lemma prim_loop_all start k : forall d mst r, shape d -> settled d ->
  (forall u, u < n -> used d u = false -> exists u', u' < n /\ used d u' = false /\ clt (entry_cost d u') cinf = true) ->
  length (filter (fun u => negb (used d u)) (seq 0 n)) <= k -> snd (wprim_loop m start k d mst) = Ok r ->
  forall u, u < n -> used d u = false -> incl (row_cells n u) (fst (wprim_loop m start k d mst)).
Proof.
  induction k as [|k IH]; intros d mst r Hd Hs Hex Hk E u Hu Hn.
  - exfalso. assert (H : In u (filter (fun u => negb (used d u)) (seq 0 n))) by (apply filter_In; rewrite Hn; split; [apply in_seq; lia|reflexivity]).
    destruct (filter (fun u => negb (used d u)) (seq 0 n)); [destruct H|cbn [length] in Hk; lia].
  - cbn [wprim_loop] in *. destruct (find_entry d Hd) as (v & e & Ef & Hv). destruct (Hex u Hu Hn) as (u' & Hu' & Hn' & Hf').
    pose proof (find_finite d u' v e Hd Hs Hu' Hn' Hf' Ef) as Ee. destruct (Hv Ee) as [Hvn Hvu].
    rewrite (wbind_Ok (wvec_find (na_dim m) d) _ (v, e) Ef) in *. cbn [fst snd] in E |- *. rewrite Ee in *.
    destruct (mark_shape d v Hd ltac:(lia)) as (d1 & E1 & Hd1 & Hu1 & Hk1). pose proof (mark_exact d v d1 E1) as Hm. rewrite (wbind_quiet _ _ _ E1) in *.
    match type of E with context [wbind (quiet ?r) _] => destruct r as [mst'| |] eqn:Em end; [|discriminate E..].
    rewrite (wbind_quiet _ _ mst') in * by reflexivity. destruct (update_reads v d1 Hd1 Hvn) as (d2 & E2 & Hd2 & Hu2).
    assert (Hs1 : settled d1) by (intros w Hw'; rewrite (proj1 (Hm w)); apply Hs, Hw').
    destruct (update_settled v d1 d2 Hd1 Hs1 Hvn) as [Hs2 Hf2]; [rewrite E2; reflexivity|].
    rewrite E2, (wbind_Ok _ _ d2) in * by reflexivity. cbn [fst snd] in E |- *.
    destruct (Nat.eq_dec u v) as [->|Hne].
    + intros x Hx. apply in_or_app. right. apply in_or_app. left. exact Hx.
    + apply incl_appr, incl_appr. apply (IH d2 mst' r Hd2 Hs2); [| |assumption|assumption|rewrite Hu2, (proj2 (Hm u) Hne); assumption].
      * intros w Hw' Hwn. exists w. split; [assumption|]. split; [assumption|]. apply Hf2; [assumption|]. intros ->. rewrite Hu2, Hu1 in Hwn. discriminate.
      * apply Nat.lt_succ_r. refine (Nat.lt_le_trans _ _ _ _ Hk). apply (filter_less _ _ v); [| | |apply in_seq; lia].
        -- intros w H. rewrite Hu2 in H. destruct (used d w) eqn:Ew; [rewrite (Hk1 w Ew) in H; discriminate|reflexivity].
        -- rewrite Hvu. reflexivity.
        -- rewrite Hu2, Hu1. reflexivity.
Qed.

Lemma marks_exact X : forall d d', foldM (fun d v => vec_mark d v) X d = Ok d' -> forall u, entry_cost d' u = entry_cost d u /\ (~ In u X -> used d' u = used d u).
Proof.
  induction X as [|x X IH]; intros d d' E u; [injection E as <-; split; reflexivity|]. cbn [foldM] in E. apply bind_Ok in E. destruct E as (d1 & E1 & E).
  destruct (mark_exact d x d1 E1 u) as [A B]. destruct (IH d1 d' E u) as [A' B']. split; [congruence|]. intros H. rewrite B', B; [reflexivity| |]; intros H'; apply H; [left; congruence|right; assumption].
Qed.

Lemma prim_all X r : (exists v, v < n /\ ~ In v X) -> snd (wprim m X) = Ok r -> forall u, u < n -> ~ In u X -> incl (row_cells n u) (fst (wprim m X)).
Proof.
  intros Hex E u Hu Hx. revert E. unfold wprim. fold n. destruct (exists_free X) as (f & Hf1 & Hf2).
  assert (Hstart : exists s, first_free (S (length X)) X 0 = Ok s /\ ~ In s X /\ s <= u).
  { destruct (Nat.le_gt_cases u (length X)) as [Hle|Hgt].
    - destruct (first_free_spec X (S (length X)) 0 u Hx ltac:(lia)) as (s & Es & H1 & H2). exists s. split; [assumption|split; [assumption|lia]].
    - destruct (first_free_spec X (S (length X)) 0 f Hf1 ltac:(lia)) as (s & Es & H1 & H2). exists s. split; [assumption|split; [assumption|lia]]. }
  destruct Hstart as (start & Es & Hsx & Hsu). rewrite (wbind_quiet _ _ start Es). destruct (n <=? start) eqn:El; [apply Nat.leb_le in El; lia|]. clear El.
  set (d := upd (repeat (mkEdge n (cinf : C N), false) (n + 1)) start (mkEdge start (c0 : C N), snd (nth start (repeat (mkEdge n (cinf : C N), false) (n + 1)) dd))).
  assert (E0 : vec_set_cost (repeat (mkEdge n (cinf : C N), false) (n + 1)) start (mkEdge start c0) = Ok d).
  { unfold vec_set_cost. rewrite (modify_res_Ok _ start _ dd) by (rewrite repeat_length; lia). reflexivity. }
  rewrite (wbind_quiet _ _ d E0).
  assert (Hc : forall w, w <= n -> entry_cost d w = (if w =? start then c0 else cinf) /\ used d w = false).
  { intros w Hw'. unfold entry_cost, used, d. destruct (Nat.eqb_spec w start) as [->|Hne]; [rewrite nth_upd_eq by (rewrite repeat_length; lia)|rewrite nth_upd_neq by congruence];
    rewrite nth_repeat_lt by lia; split; reflexivity. }
  assert (Hd : shape d).
  { split; [unfold d; rewrite upd_length, repeat_length; reflexivity|]. destruct (Hc n (le_n n)) as [H _]. unfold entry_cost in H. rewrite H. destruct (Nat.eqb_spec n start); [lia|reflexivity]. }
  destruct (foldM (fun d v => vec_mark d v) X d) as [d'| |] eqn:Ed; [|discriminate..].
  rewrite (wbind_quiet _ _ d') by reflexivity. destruct (marks_shape X d d' Hd Ed) as (Hd' & _ & _). pose proof (marks_exact X d d' Ed) as Hm.
  destruct (snd (wprim_loop m start (n + 1) d' (repeat [] (n + 1)))) as [r'| |] eqn:Er; [|unfold wbind; rewrite Er; discriminate..].
  rewrite (wbind_Ok _ _ _ Er). intros _. cbn [fst quiet]. rewrite app_nil_r. apply (prim_loop_all start (n + 1) d' _ r'); try assumption.
  - intros w Hw'. rewrite (proj1 (Hm w)), (proj1 (Hc w Hw')). destruct (w =? start); [right; apply (ord_0 N O)|left; reflexivity].
  - intros _ _ _. exists start. split; [lia|]. split; [rewrite (proj2 (Hm start) Hsx); apply Hc; lia|]. rewrite (proj1 (Hm start)), (proj1 (Hc start ltac:(lia))), Nat.eqb_refl. apply (ord_0 N O).
  - pose proof (NoDup_incl_length (NoDup_filter (fun u => negb (used d' u)) (seq_NoDup n 0)) (incl_filter (fun u => negb (used d' u)) (seq 0 n))) as H. rewrite seq_length in H. lia.
  - rewrite (proj2 (Hm u) Hx). apply Hc. lia.
Qed.
End PrimWork.
