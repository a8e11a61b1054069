(** The multi-threaded Prim equals the single-threaded one; the priority queue version. *)
From Coq Require Import ZArith Arith Bool List Permutation Lia.
From Verif Require Import Num Base Data Mst Par MstPar Spec SpecFacts Greedy PrimProofs.
Import ListNotations.

Section Order.
Context {N : Num} (O : NumOrd N).
Lemma olt_trans (x y z : C N) : olt x y = true -> olt y z = true -> olt x z = true.
Proof.
  unfold olt. destruct (cnan x) eqn:Ex; [discriminate|]. destruct (cnan y) eqn:Ey; [intros _ H; discriminate|].
  destruct (cnan z) eqn:Ez; [reflexivity|]. intros H1 H2. apply (clt_cle_trans O x y z H1). apply (clt_le O). assumption.
Qed.
Lemma nolt_trans (x y z : C N) : olt x y = false -> olt y z = false -> olt x z = false.
Proof.
  unfold olt. destruct (cnan x) eqn:Ex; [reflexivity|]. destruct (cnan y) eqn:Ey; [discriminate|].
  destruct (cnan z) eqn:Ez; [discriminate|]. intros H1 H2.
  apply (nclt_cle O) in H1; [|assumption..]. apply (nclt_cle O) in H2; [|assumption..].
  rewrite (ord_lt N O). rewrite (ord_trans N O z y x H2 H1). apply andb_false_r.
Qed.
Lemma olt_irrefl (x : C N) : olt x x = false.
Proof. unfold olt. destruct (cnan x); [reflexivity|]. apply (clt_irrefl O). Qed.
Lemma olt_asym (x y : C N) : olt x y = true -> olt y x = false.
Proof.
  intros H. destruct (olt y x) eqn:E; [|reflexivity]. pose proof (olt_trans _ _ _ H E) as H'.
  rewrite olt_irrefl in H'. discriminate.
Qed.

Lemma min_entry_assoc (a b c : nat * edge N) : min_entry a (min_entry b c) = min_entry (min_entry a b) c.
Proof.
  unfold min_entry.
  destruct (olt (e_cost (snd c)) (e_cost (snd b))) eqn:Ecb; destruct (olt (e_cost (snd b)) (e_cost (snd a))) eqn:Eba.
  - rewrite Ecb. rewrite (olt_trans _ _ _ Ecb Eba). reflexivity.
  - reflexivity.
  - rewrite Ecb. reflexivity.
  - rewrite (nolt_trans _ _ _ Ecb Eba). reflexivity.
Qed.
End Order.

Section Multi.
Context {N : Num} (O : NumOrd N).
Variable m : namatrix N.
Hypothesis Hwf : na_wf m.
Let n := na_dim m.

Lemma mt_find_vec env (d : vdist N) t : mt_find env (d, t) = vec_find d.
Proof.
  unfold mt_find, vec_find. cbn [fst snd].
  rewrite (par_reduce_seq min_entry (min_entry_assoc O)) by (intros; apply flat_map_app). reflexivity.
Qed.

(** the steps of one task on its cell *)
Definition mt_cell (from : nat) (to : nat) (t : mtask) (x : edge N * bool) : mtask * (edge N * bool) :=
  match t with
  | TRead => (if clt (na_val m from to) (e_cost (fst x)) then TWrite (na_val m from to) else TDone, x)
  | TWrite cost => (TDone, (mkEdge from cost, snd x))
  | TDone => (TDone, x)
  end.

Lemma upd_same {A} (l : list A) i d : i < length l -> upd l i (nth i l d) = l.
Proof. revert i; induction l as [|a l IH]; intros [|i] H; simpl in *; try lia; f_equal; auto; apply IH; lia. Qed.

Lemma mt_step_cell from to t (d : vdist N) : from < n -> to < n -> n <= length d ->
  mt_step from m to t d = Ok (fst (mt_cell from to t (nth to d dd)), upd d to (snd (mt_cell from to t (nth to d dd)))).
Proof.
  intros Hf Ht Hd. unfold mt_step, mt_cell. destruct t as [|cost|]; cbn [fst snd].
  - assert (Hb : from + n * to < length (na_data m)).
    { rewrite Hwf. fold n. pose proof (cell_bound n from to Hf Ht). lia. }
    fold n. unfold nth_res at 1. rewrite (nth_error_nth' _ c0 Hb). cbn [bind].
    unfold nth_res. rewrite (nth_error_nth' d dd) by lia. cbn [bind].
    unfold na_val. fold n. replace (to * n + from) with (from + n * to) by lia. rewrite upd_same by lia. reflexivity.
  - rewrite (modify_res_Ok _ _ _ dd) by lia. reflexivity.
  - rewrite upd_same by lia. reflexivity.
Qed.

Lemma mt_cell_done from i x c : snd (iter (mt_cell from) c i (TDone, x)) = x.
Proof. induction c; [reflexivity|]. cbn [iter fst snd mt_cell]. assumption. Qed.

Lemma mt_finishes from c i (x : edge N * bool) : i < n -> 2 <= c ->
  snd (iter (mt_cell from) c i (TRead, x)) = relax1 from (na_val m from i) x.
Proof.
  intros Hi Hc. destruct c as [|[|c]]; [lia|lia|]. cbn [iter fst snd mt_cell]. unfold relax1.
  destruct (clt _ _); cbn [mt_cell fst snd]; apply mt_cell_done.
Qed.

Lemma mt_update_vec env (d : vdist N) t from : n < length d ->
  mt_update env (d, t) from m = (d' <- vec_update d from m ;; Ok (d', S t)).
Proof.
  intros Hl. unfold mt_update. cbn [fst snd].
  destruct (Nat.lt_ge_cases from n) as [Hf|Hf].
  - rewrite (na_row_val m from Hwf Hf). cbn [bind].
    destruct (par_for_cells dd (mt_step from m) TRead (mt_cell from) (fun s => n < length s) n) with (rounds := 2)
      (g := fun i x => relax1 from (na_val m from i) x) (sched := env_sched env t) (s := d) as (s' & E & Hs & H1 & H2).
    + intros s i x. rewrite upd_length. auto.
    + intros s Hs. lia.
    + intros i l s Hi Hs. apply mt_step_cell; lia.
    + intros c i x Hi Hc. apply mt_finishes; assumption.
    + assumption.
    + match goal with |- bind ?x _ = _ => assert (E0 : x = Ok s') by exact E; rewrite E0; clear E0 end. cbn [bind]. destruct (vec_update_spec m Hwf d from Hf Hl) as (d' & E' & Hd' & H3 & H4).
      rewrite E'. cbn [bind]. do 2 f_equal. apply (nth_ext _ _ dd dd); [lia|].
      intros i Hi. destruct (Nat.lt_ge_cases i n) as [Hin|Hin].
      * rewrite H1, H3 by assumption. reflexivity.
      * rewrite H2, H4 by assumption. reflexivity.
  - unfold vec_update, na_row. fold n. replace (from <? n) with false by (symmetry; apply Nat.ltb_ge; lia). reflexivity.
Qed.

Lemma vec_mark_length (d d' : vdist N) v : vec_mark d v = Ok d' -> length d' = length d.
Proof.
  unfold vec_mark, modify_res. destruct (nth_error d v); [|discriminate]. intros H; injection H as <-. apply upd_length.
Qed.

Lemma vec_update_length (d d' : vdist N) from : n < length d -> vec_update d from m = Ok d' -> length d' = length d.
Proof.
  intros Hl E. destruct (Nat.lt_ge_cases from n) as [Hf|Hf].
  - destruct (vec_update_spec m Hwf d from Hf Hl) as (d2 & E2 & Hl2 & _). congruence.
  - exfalso. unfold vec_update, na_row in E. fold n in E.
    replace (from <? n) with false in E by (symmetry; apply Nat.ltb_ge; lia). discriminate.
Qed.

Lemma mt_loop env start : forall iters (d : vdist N) t mst, n < length d ->
  prim_loop (mt_ops env) m start iters (d, t) mst = prim_loop vec_ops m start iters d mst.
Proof.
  induction iters as [|k IH]; intros d t mst Hl; [reflexivity|]. cbn [prim_loop mt_ops vec_ops fm_find fm_mark fm_update].
  rewrite mt_find_vec. destruct (vec_find d) as [[v e]| |]; cbn [bind]; [|reflexivity..].
  destruct (ceq (e_cost e) cinf); [reflexivity|]. cbn [fst snd].
  destruct (vec_mark d v) as [d1| |] eqn:E1; cbn [bind]; [|reflexivity..].
  apply vec_mark_length in E1.
  match goal with |- bind ?x _ = bind ?x _ => destruct x as [mst1| |]; cbn [bind]; [|reflexivity..] end.
  rewrite mt_update_vec by lia. destruct (vec_update d1 v m) as [d2| |] eqn:E2; cbn [bind]; [|reflexivity..].
  apply vec_update_length in E2; [|lia]. apply IH. lia.
Qed.

(** Whatever the interleavings and the reduction trees: the same graph. *)
Theorem mt_prim env X : prim_with_excluded_node_multi_threaded env m X = prim_with_excluded_node_single_threaded m X.
Proof.
  unfold prim_with_excluded_node_multi_threaded, prim_with_excluded_node_single_threaded, prim_with_excluded_node. fold n.
  destruct (first_free (S (length X)) X 0) as [start| |]; cbn [bind]; [|reflexivity..].
  destruct (n <=? start); [reflexivity|]. cbn [mt_ops vec_ops fm_default fm_set_cost fm_exclude fst snd].
  set (d0 := repeat (mkEdge n cinf, false) (n + 1) : vdist N).
  assert (Hl0 : n < length d0) by (unfold d0; rewrite repeat_length; lia).
  destruct (vec_set_cost d0 start (mkEdge start c0)) as [d1| |] eqn:E1; cbn [bind]; [|reflexivity..].
  assert (Hl1 : n < length d1).
  { unfold vec_set_cost, modify_res in E1. destruct (nth_error d0 start); [|discriminate]. injection E1 as <-. rewrite upd_length. assumption. }
  assert (G : forall X (d : vdist N), n < length d ->
    (foldM (fun (d : mdist) v => d' <- vec_mark (fst d) v ;; Ok (d', snd d)) X (d, 0) = (d' <- foldM (fun d v => vec_mark d v) X d ;; Ok (d', 0))) /\
    (forall d', foldM (fun d v => vec_mark d v) X d = Ok d' -> n < length d')).
  { clear. induction X as [|x X IH]; intros d Hd; [split; [reflexivity|]; cbn [foldM]; intros d' H; injection H as <-; assumption|].
    cbn [foldM fst snd]. destruct (vec_mark d x) as [d1| |] eqn:E; cbn [bind]; [|split; [reflexivity|discriminate]..].
    apply vec_mark_length in E. apply IH. lia. }
  destruct (G X d1 Hl1) as [G1 G2]. fold (mdist (N := N)) in *. rewrite G1.
  destruct (foldM (fun d v => vec_mark d v) X d1) as [d2| |] eqn:E2; cbn [bind]; [|reflexivity..].
  rewrite mt_loop by (apply G2; reflexivity). reflexivity.
Qed.
End Multi.
