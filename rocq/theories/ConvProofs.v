(** Conversions between graphs and matrices. *)
From Coq Require Import Arith Bool List Lia.
From Verif Require Import Num Base Data Precond PrecondProofs PrimProofs.
Import ListNotations.

Lemma cell_inj n i j a b : i < n -> a < n -> j * n + i = b * n + a -> i = a /\ j = b.
Proof.
  intros Hi Ha E. assert (Hj : j = b).
  { assert (E1 : (i + j * n) / n = i / n + j) by (apply Nat.div_add; lia).
    assert (E2 : (a + b * n) / n = a / n + b) by (apply Nat.div_add; lia).
    rewrite (Nat.div_small i n) in E1 by assumption. rewrite (Nat.div_small a n) in E2 by assumption. replace (i + j * n) with (a + b * n) in E1 by lia. lia. }
  subst. split; [lia|reflexivity].
Qed.

Section Conv.
Context {N : Num}.
Implicit Types (g : graph N) (m : namatrix N).

Lemma na_set_Ok m i j c : na_wf m -> i < na_dim m -> j < na_dim m ->
  exists m', na_set m i j c = Ok m' /\ na_wf m' /\ na_dim m' = na_dim m /\
    forall a b, a < na_dim m -> b < na_dim m -> na_val m' a b = if (a =? i) && (b =? j) then c else na_val m a b.
Proof.
  intros Hwf Hi Hj. unfold na_set. pose proof (cell_bound (na_dim m) i j Hi Hj) as Hb.
  replace (i <? na_dim m) with true by (symmetry; apply Nat.ltb_lt; assumption).
  replace (j <? na_dim m) with true by (symmetry; apply Nat.ltb_lt; assumption). cbn [andb].
  rewrite (modify_res_Ok _ _ _ c0) by (unfold na_wf in Hwf; lia). cbn [bind].
  eexists. split; [reflexivity|]. split; [unfold na_wf; cbn; rewrite upd_length; exact Hwf|]. split; [reflexivity|].
  intros a b Ha Hbb. unfold na_val. cbn [na_dim na_data].
  destruct ((a =? i) && (b =? j)) eqn:E.
  - apply andb_true_iff in E. destruct E as [Ea Eb]. apply Nat.eqb_eq in Ea, Eb. subst. apply nth_upd_eq. unfold na_wf in Hwf. lia.
  - apply nth_upd_neq. intros Ec. destruct (cell_inj (na_dim m) i j a b Hi Ha Ec). subst. rewrite !Nat.eqb_refl in E. discriminate.
Qed.

Lemma na_set_panic m i j c : ~ (i < na_dim m /\ j < na_dim m) -> na_set m i j c = Panic.
Proof.
  intros H. unfold na_set. destruct (i <? na_dim m) eqn:E1, (j <? na_dim m) eqn:E2; try reflexivity.
  apply Nat.ltb_lt in E1, E2. tauto.
Qed.

(** the cost of the last edge to [j], if there is one *)
Definition last_cost (es : list (edge N)) (j : nat) (old : C N) : C N :=
  fold_left (fun acc e => if e_to e =? j then e_cost e else acc) es old.

Lemma last_cost_none es j old : filter (fun e => e_to e =? j) es = [] -> last_cost es j old = old.
Proof.
  revert old. induction es as [|e es IH]; intros old H; [reflexivity|]. cbn in *. destruct (e_to e =? j); [discriminate|]. apply IH. assumption.
Qed.
Lemma last_cost_some es j old l e : filter (fun e => e_to e =? j) es = l ++ [e] -> last_cost es j old = e_cost e.
Proof.
  revert old l. induction es as [|a es IH]; intros old l H; [destruct l; discriminate|]. cbn in *. destruct (e_to a =? j).
  - destruct l as [|x l]; cbn in H; injection H as <- H.
    + apply last_cost_none. assumption.
    + eapply IH. eassumption.
  - eapply IH. eassumption.
Qed.

Lemma na_row_fold i es : forall m, na_wf m -> i < na_dim m -> (forall e, In e es -> e_to e < na_dim m) ->
  exists m', foldM (fun m e => na_set m i (e_to e) (e_cost e)) es m = Ok m' /\ na_wf m' /\ na_dim m' = na_dim m /\
    forall a b, a < na_dim m -> b < na_dim m -> na_val m' a b = if a =? i then last_cost es b (na_val m a b) else na_val m a b.
Proof.
  induction es as [|e es IH]; intros m Hwf Hi He.
  - exists m. repeat split; auto. intros a b _ _. destruct (a =? i); reflexivity.
  - cbn [foldM]. destruct (na_set_Ok m i (e_to e) (e_cost e) Hwf Hi (He e (or_introl eq_refl))) as (m1 & E1 & W1 & D1 & V1).
    rewrite E1. cbn [bind]. destruct (IH m1 W1 ltac:(lia)) as (m2 & E2 & W2 & D2 & V2).
    { intros x Hx. rewrite D1. apply He. right. assumption. }
    exists m2. split; [assumption|]. split; [assumption|]. split; [congruence|].
    intros a b Ha Hb. rewrite V2, V1 by lia. destruct (a =? i) eqn:Ea; cbn [andb]; [|reflexivity].
    cbn [last_cost fold_left]. rewrite (Nat.eqb_sym b). destruct (e_to e =? b); reflexivity.
Qed.

Lemma na_from_dim_wf n : na_wf (na_from_dim (N := N) n).
Proof. unfold na_wf, na_from_dim. cbn. rewrite map_length, seq_length. reflexivity. Qed.
Lemma na_from_dim_val n i j : i < n -> j < n -> na_val (na_from_dim (N := N) n) i j = if i =? j then c0 else cinf.
Proof.
  intros Hi Hj. unfold na_val, na_from_dim. cbn [na_dim na_data]. pose proof (cell_bound n i j Hi Hj) as Hb.
  set (f := fun k : nat => if k / n =? k mod n then (c0 : C N) else cinf).
  rewrite nth_indep with (d' := f 0) by (rewrite map_length, seq_length; assumption).
  rewrite map_nth, seq_nth by assumption. unfold f. cbn [plus].
  replace (j * n + i) with (i + j * n) by lia. rewrite Nat.div_add, Nat.mod_add by lia.
  rewrite Nat.div_small, Nat.mod_small by assumption. cbn. rewrite Nat.eqb_sym. reflexivity.
Qed.

Lemma na_from_graph_val g : (forall i e, i < length g -> In e (nth i g []) -> e_to e < length g) ->
  exists m, na_from_graph g = Ok m /\ na_wf m /\ na_dim m = length g /\
    forall i j, i < length g -> j < length g -> na_val m i j = last_cost (nth i g []) j (if i =? j then c0 else cinf).
Proof.
  intros Hr. unfold na_from_graph.
  destruct (foldM_inv (fun m i => es <- nth_res g i ;; foldM (fun m e => na_set m i (e_to e) (e_cost e)) es m)
    (fun pre m => na_wf m /\ na_dim m = length g /\ forall i j, i < length g -> j < length g ->
       na_val m i j = if memb i pre then last_cost (nth i g []) j (if i =? j then c0 else cinf) else (if i =? j then c0 else cinf))
    (seq 0 (length g)) (na_from_dim (length g))) as (m & E & W & D & V).
  - split; [apply na_from_dim_wf|]. split; [reflexivity|]. intros i j Hi Hj. cbn [memb existsb]. apply na_from_dim_val; assumption.
  - intros pre x post m El (W & D & V).
    assert (Hx : x < length g) by (assert (In x (seq 0 (length g))) as H by (rewrite El; apply in_elt); apply in_seq in H; lia).
    rewrite (nth_res_nth _ _ []) by assumption. cbn [bind].
    destruct (na_row_fold x (nth x g []) m W ltac:(lia)) as (m' & E' & W' & D' & V'); [intros e He; rewrite D; apply (Hr x); assumption|].
    exists m'. split; [assumption|]. split; [assumption|]. split; [congruence|].
    intros i j Hi Hj. rewrite V' by lia.
    assert (Hnd : NoDup (pre ++ x :: post)) by (rewrite <- El; apply seq_NoDup).
    unfold memb. rewrite existsb_app. cbn [existsb]. rewrite orb_false_r.
    destruct (i =? x) eqn:Ex.
    + apply Nat.eqb_eq in Ex. subst x. rewrite orb_true_r. rewrite V by assumption.
      replace (memb i pre) with false; [reflexivity|]. symmetry. apply memb_nIn. intros Hin.
      apply NoDup_remove_2 in Hnd. apply Hnd. apply in_or_app. left. assumption.
    + rewrite orb_false_r. apply V; assumption.
  - exists m. split; [assumption|]. split; [assumption|]. split; [assumption|]. intros i j Hi Hj. rewrite V by assumption.
    replace (memb i (seq 0 (length g))) with true; [reflexivity|]. symmetry. apply memb_In. apply in_seq. lia.
Qed.

(** a target out of range *)
Lemma row_fold_bad i es : forall m, na_wf m -> i < na_dim m -> (exists e, In e es /\ na_dim m <= e_to e) ->
  foldM (fun m e => na_set m i (e_to e) (e_cost e)) es m = Panic.
Proof.
  induction es as [|e es IH]; intros m Hwf Hi (x & Hx & Hb); [contradiction|]. cbn [foldM].
  destruct (le_lt_dec (na_dim m) (e_to e)) as [Hle|Hlt].
  - rewrite na_set_panic by lia. reflexivity.
  - destruct (na_set_Ok m i (e_to e) (e_cost e) Hwf Hi Hlt) as (m1 & E1 & W1 & D1 & _). rewrite E1. cbn [bind].
    apply IH; [assumption|lia|]. rewrite D1. destruct Hx as [<-|Hx]; [lia|]. exists x. auto.
Qed.

Lemma na_from_graph_bad g : (exists i e, i < length g /\ In e (nth i g []) /\ length g <= e_to e) -> na_from_graph g = Panic.
Proof.
  intros (i & e & Hi & He & Hb). unfold na_from_graph.
  assert (G : forall k m, na_wf m -> na_dim m = length g -> k <= i ->
    foldM (fun m i => es <- nth_res g i ;; foldM (fun m e => na_set m i (e_to e) (e_cost e)) es m) (seq k (length g - k)) m = Panic).
  { intros k. remember (i - k) as d eqn:Ed. revert k Ed. induction d as [|d IH]; intros k Ed m W D Hk.
    - assert (k = i) as -> by lia. replace (length g - i) with (S (length g - S i)) by lia. cbn [seq foldM].
      rewrite (nth_res_nth _ _ []) by assumption. cbn [bind]. rewrite row_fold_bad; [reflexivity|assumption|lia|]. exists e. split; [assumption|lia].
    - replace (length g - k) with (S (length g - S k)) by lia. cbn [seq foldM]. rewrite (nth_res_nth _ _ []) by lia. cbn [bind].
      destruct (existsb (fun e => length g <=? e_to e) (nth k g [])) eqn:Ex.
      + apply existsb_exists in Ex. destruct Ex as (x & Hx & Lx). apply Nat.leb_le in Lx. rewrite row_fold_bad; [reflexivity|assumption|lia|]. exists x. split; [assumption|lia].
      + destruct (na_row_fold k (nth k g []) m W ltac:(lia)) as (m' & E' & W' & D' & _).
        { intros x Hx. destruct (le_lt_dec (length g) (e_to x)) as [L|L]; [|lia]. exfalso. rewrite <- not_true_iff_false in Ex. apply Ex.
          apply existsb_exists. exists x. split; [assumption|]. apply Nat.leb_le. assumption. }
        rewrite E'. cbn [bind]. apply IH; [lia|assumption|congruence|lia]. }
  specialize (G 0 (na_from_dim (length g)) (na_from_dim_wf _) eq_refl ltac:(lia)). rewrite Nat.sub_0_r in G. exact G.
Qed.

(** ** VecMatrix *)
Definition vm_sq (n : nat) (m : vecmatrix N) : Prop := length m = n /\ forall i, i < n -> length (nth i m []) = n.
Definition vm_val (m : vecmatrix N) (i j : nat) : C N := nth j (nth i m []) c0.

Lemma vm_get_val n (m : vecmatrix N) i j : vm_sq n m -> i < n -> j < n -> vm_get m i j = Ok (vm_val m i j).
Proof.
  intros [H1 H2] Hi Hj. unfold vm_get. rewrite (nth_res_nth _ _ []) by lia. cbn [bind].
  rewrite (nth_res_nth _ _ c0) by (rewrite H2; assumption). reflexivity.
Qed.

Lemma vm_set_Ok n (m : vecmatrix N) i j c : vm_sq n m -> i < n -> j < n ->
  exists m' : vecmatrix N, vm_set m i j c = Ok m' /\ vm_sq n m' /\
    forall a b, a < n -> b < n -> vm_val m' a b = if (a =? i) && (b =? j) then c else vm_val m a b.
Proof.
  intros [H1 H2] Hi Hj. unfold vm_set. rewrite (nth_res_nth _ _ []) by lia. cbn [bind].
  rewrite (modify_res_Ok _ _ _ c0) by (rewrite H2; assumption). cbn [bind].
  eexists. split; [reflexivity|]. split.
  - split; [rewrite upd_length; assumption|]. intros a Ha. destruct (Nat.eq_dec i a) as [->|Hne].
    + rewrite nth_upd_eq by lia. rewrite upd_length. auto.
    + rewrite nth_upd_neq by assumption. auto.
  - intros a b Ha Hb. unfold vm_val. destruct (Nat.eq_dec i a) as [->|Hne].
    + rewrite nth_upd_eq by lia. rewrite Nat.eqb_refl. cbn [andb]. destruct (b =? j) eqn:E.
      * apply Nat.eqb_eq in E. subst. apply nth_upd_eq. rewrite H2; assumption.
      * apply Nat.eqb_neq in E. apply nth_upd_neq. congruence.
    + rewrite nth_upd_neq by assumption. replace (a =? i) with false by (symmetry; apply Nat.eqb_neq; congruence). reflexivity.
Qed.

Lemma vm_row_fold n i es : i < n -> forall m : vecmatrix N, vm_sq n m -> (forall e, In e es -> e_to e < n) ->
  exists m' : vecmatrix N, foldM (fun (m : vecmatrix N) e => m <- vm_set m i (e_to e) (e_cost e) ;; vm_set m (e_to e) i (e_cost e)) es m = Ok m' /\ vm_sq n m' /\
    forall a b, a < n -> b < n -> vm_val m' a b = if a =? i then last_cost es b (vm_val m a b) else if b =? i then last_cost es a (vm_val m a b) else vm_val m a b.
Proof.
  intros Hi. induction es as [|e es IH]; intros m Hsq He.
  - exists m. repeat split; try apply Hsq. intros a b _ _. destruct (a =? i), (b =? i); reflexivity.
  - cbn [foldM]. assert (Hj : e_to e < n) by (apply He; left; reflexivity).
    destruct (vm_set_Ok n m i (e_to e) (e_cost e) Hsq Hi Hj) as (m1 & E1 & S1 & V1).
    destruct (vm_set_Ok n m1 (e_to e) i (e_cost e) S1 Hj Hi) as (m2 & E2 & S2 & V2).
    rewrite E1. cbn [bind]. rewrite E2. cbn [bind].
    destruct (IH m2 S2) as (m3 & E3 & S3 & V3); [intros x Hx; apply He; right; assumption|].
    exists m3. split; [assumption|]. split; [assumption|].
    intros a b Ha Hb. rewrite V3, V2, V1 by assumption. cbn [last_cost fold_left]. rewrite (Nat.eqb_sym (e_to e) b), (Nat.eqb_sym (e_to e) a).
    destruct (a =? i) eqn:Ea, (b =? i) eqn:Eb; cbn [andb].
    + apply Nat.eqb_eq in Ea, Eb. subst. destruct (i =? e_to e); cbn; reflexivity.
    + rewrite andb_false_r. destruct (b =? e_to e); reflexivity.
    + rewrite andb_true_r. destruct (a =? e_to e); reflexivity.
    + rewrite !andb_false_r. reflexivity.
Qed.

Lemma vm_from_graph_val g : (forall i e, i < length g -> In e (nth i g []) -> e_to e < length g) ->
  exists m : vecmatrix N, vm_from_graph g = Ok m /\ vm_sq (length g) m /\
    forall i j, i < length g -> j < length g -> vm_val m i j = 
      if i =? j then last_cost (nth i g []) i cinf
      else last_cost (nth (Nat.max i j) g []) (Nat.min i j) (last_cost (nth (Nat.min i j) g []) (Nat.max i j) cinf).
Proof.
  intros Hr. unfold vm_from_graph. set (n := length g) in *.
  set (val := fun k i j => if i =? j then (if i <? k then last_cost (nth i g []) i cinf else cinf)
     else let lo := Nat.min i j in let hi := Nat.max i j in
     let x := if lo <? k then last_cost (nth lo g []) hi cinf else cinf in
     if hi <? k then last_cost (nth hi g []) lo x else x).
  assert (G : forall d k (m : vecmatrix N), k + d = n -> vm_sq n m -> (forall i j, i < n -> j < n -> vm_val m i j = val k i j) ->
    exists m' : vecmatrix N, foldM (fun (m : vecmatrix N) i => es <- nth_res g i ;;
       foldM (fun (m : vecmatrix N) e => m <- vm_set m i (e_to e) (e_cost e) ;; vm_set m (e_to e) i (e_cost e)) es m) (seq k d) m = Ok m' /\
       vm_sq n m' /\ forall i j, i < n -> j < n -> vm_val m' i j = val n i j).
  { induction d as [|d IH]; intros k m Hk Hsq Hv.
    - exists m. assert (k = n) as -> by lia. auto.
    - cbn [seq foldM]. rewrite (nth_res_nth _ _ []) by (fold n; lia). cbn [bind].
      destruct (vm_row_fold n k (nth k g []) ltac:(lia) m Hsq) as (m1 & E1 & S1 & V1); [intros e He; apply (Hr k); [lia|assumption]|].
      rewrite E1. cbn [bind]. apply IH; [lia|assumption|]. intros i j Hi Hj. rewrite V1, Hv by assumption. unfold val. cbv zeta.
      destruct (i =? k) eqn:Ei; [apply Nat.eqb_eq in Ei; subst i|apply Nat.eqb_neq in Ei; destruct (j =? k) eqn:Ej; [apply Nat.eqb_eq in Ej; subst j|apply Nat.eqb_neq in Ej]].
      + destruct (k =? j) eqn:Ekj.
        * apply Nat.eqb_eq in Ekj. subst j. rewrite Nat.ltb_irrefl. replace (k <? S k) with true by (symmetry; apply Nat.ltb_lt; lia). reflexivity.
        * apply Nat.eqb_neq in Ekj. destruct (Nat.lt_ge_cases k j) as [L|L].
          -- rewrite Nat.min_l, Nat.max_r by lia. rewrite Nat.ltb_irrefl.
             replace (j <? k) with false by (symmetry; apply Nat.ltb_ge; lia).
             replace (j <? S k) with false by (symmetry; apply Nat.ltb_ge; lia).
             replace (k <? S k) with true by (symmetry; apply Nat.ltb_lt; lia). reflexivity.
          -- rewrite Nat.min_r, Nat.max_l by lia. rewrite Nat.ltb_irrefl.
             replace (j <? k) with true by (symmetry; apply Nat.ltb_lt; lia).
             replace (j <? S k) with true by (symmetry; apply Nat.ltb_lt; lia).
             replace (k <? S k) with true by (symmetry; apply Nat.ltb_lt; lia). reflexivity.
      + replace (i =? k) with false by (symmetry; apply Nat.eqb_neq; assumption).
        destruct (Nat.lt_ge_cases k i) as [L|L].
        * rewrite Nat.min_r, Nat.max_l by lia. rewrite Nat.ltb_irrefl.
          replace (i <? k) with false by (symmetry; apply Nat.ltb_ge; lia).
          replace (i <? S k) with false by (symmetry; apply Nat.ltb_ge; lia).
          replace (k <? S k) with true by (symmetry; apply Nat.ltb_lt; lia). reflexivity.
        * rewrite Nat.min_l, Nat.max_r by lia. rewrite Nat.ltb_irrefl.
          replace (i <? k) with true by (symmetry; apply Nat.ltb_lt; lia).
          replace (i <? S k) with true by (symmetry; apply Nat.ltb_lt; lia).
          replace (k <? S k) with true by (symmetry; apply Nat.ltb_lt; lia). reflexivity.
      + assert (F : forall x, x <> k -> (x <? S k) = (x <? k)).
        { intros x Hx. destruct (x <? k) eqn:E; [apply Nat.ltb_lt in E; apply Nat.ltb_lt; lia|apply Nat.ltb_ge in E; apply Nat.ltb_ge; lia]. }
        rewrite !F by lia. reflexivity. }
  destruct (G n 0 (repeat (repeat cinf n) n) ltac:(lia)) as (m & E & S & V).
  - split; [apply repeat_length|]. intros i Hi. rewrite nth_indep with (d' := repeat cinf n) by (rewrite repeat_length; assumption). rewrite nth_repeat. apply repeat_length.
  - intros i j Hi Hj. unfold val, vm_val. cbv zeta. cbn [Nat.ltb Nat.leb]. rewrite nth_indep with (d' := repeat cinf n) by (rewrite repeat_length; assumption).
    rewrite nth_repeat. rewrite nth_indep with (d' := cinf) by (rewrite repeat_length; assumption). rewrite nth_repeat. destruct (i =? j); reflexivity.
  - exists m. split; [exact E|]. split; [assumption|]. intros i j Hi Hj. rewrite V by assumption. unfold val. cbv zeta.
    replace (i <? n) with true by (symmetry; apply Nat.ltb_lt; lia).
    replace (Nat.min i j <? n) with true by (symmetry; apply Nat.ltb_lt; lia).
    replace (Nat.max i j <? n) with true by (symmetry; apply Nat.ltb_lt; lia). reflexivity.
Qed.

(** ** Copying any adjacency matrix *)
Lemma na_from_adj_val (a : adj N) (v : nat -> nat -> C N) : (forall i j, i < a_dim a -> j < a_dim a -> a_get a i j = Ok (v i j)) ->
  exists m, na_from_adj a = Ok m /\ na_wf m /\ na_dim m = a_dim a /\ forall i j, i < a_dim a -> j < a_dim a -> na_val m i j = v i j.
Proof.
  intros Hv. unfold na_from_adj. set (n := a_dim a) in *.
  assert (Hrow : forall i m, i < n -> na_wf m -> na_dim m = n -> exists m', foldM (fun m j => x <- a_get a i j ;; na_set m i j x) (seq 0 n) m = Ok m' /\
     na_wf m' /\ na_dim m' = n /\ forall a b, a < n -> b < n -> na_val m' a b = if a =? i then v a b else na_val m a b).
  { intros i m Hi W D.
    destruct (foldM_inv (fun m j => x <- a_get a i j ;; na_set m i j x)
      (fun pre m' => na_wf m' /\ na_dim m' = n /\ forall a b, a < n -> b < n -> na_val m' a b = if (a =? i) && memb b pre then v a b else na_val m a b)
      (seq 0 n) m) as (m' & E & W' & D' & V').
    - split; [assumption|]. split; [assumption|]. intros a0 b _ _. cbn [memb existsb]. rewrite andb_false_r. reflexivity.
    - intros pre x post m1 El (W1 & D1 & V1).
      assert (Hx : x < n) by (assert (In x (seq 0 n)) as H by (rewrite El; apply in_elt); apply in_seq in H; lia).
      rewrite Hv by assumption. cbn [bind]. destruct (na_set_Ok m1 i x (v i x) W1 ltac:(lia) ltac:(lia)) as (m2 & E2 & W2 & D2 & V2).
      exists m2. split; [assumption|]. split; [assumption|]. split; [congruence|]. intros p q Hp Hq. rewrite V2, V1 by lia.
      unfold memb. rewrite existsb_app. cbn [existsb]. rewrite orb_false_r.
      destruct (p =? i) eqn:Ep; cbn [andb]; [|reflexivity]. apply Nat.eqb_eq in Ep. subst p.
      destruct (q =? x) eqn:Eq; [apply Nat.eqb_eq in Eq; subst q; rewrite orb_true_r; reflexivity|]. rewrite orb_false_r. reflexivity.
    - exists m'. split; [assumption|]. split; [assumption|]. split; [assumption|]. intros p q Hp Hq. rewrite V' by assumption.
      replace (memb q (seq 0 n)) with true by (symmetry; apply memb_In, in_seq; lia). rewrite andb_true_r. reflexivity. }
  destruct (foldM_inv (fun m i => foldM (fun m j => x <- a_get a i j ;; na_set m i j x) (seq 0 n) m)
      (fun pre m' => na_wf m' /\ na_dim m' = n /\ forall p q, p < n -> q < n -> In p pre -> na_val m' p q = v p q)
      (seq 0 n) (na_from_dim n)) as (m' & E & W' & D' & V').
  - split; [apply na_from_dim_wf|]. split; [reflexivity|]. intros p q _ _ [].
  - intros pre x post m1 El (W1 & D1 & V1).
    assert (Hx : x < n) by (assert (In x (seq 0 n)) as H by (rewrite El; apply in_elt); apply in_seq in H; lia).
    destruct (Hrow x m1 Hx W1 D1) as (m2 & E2 & W2 & D2 & V2). exists m2. split; [assumption|]. split; [assumption|]. split; [assumption|].
    intros p q Hp Hq Hin. rewrite V2 by assumption. destruct (p =? x) eqn:Ep; [reflexivity|]. apply Nat.eqb_neq in Ep.
    apply V1; try assumption. apply in_app_or in Hin. destruct Hin as [Hin|[Hin|[]]]; [assumption|congruence].
  - exists m'. split; [assumption|]. split; [assumption|]. split; [assumption|]. intros i j Hi Hj. apply V'; try assumption. apply in_seq. lia.
Qed.

End Conv.

(** matrices of the same entries *)
Lemma wf_ext {N} (m1 m2 : namatrix N) : na_wf m1 -> na_wf m2 -> na_dim m1 = na_dim m2 ->
  (forall i j, i < na_dim m1 -> j < na_dim m1 -> na_val m1 i j = na_val m2 i j) -> m1 = m2.
Proof.
  destruct m1 as [n d1], m2 as [n2 d2]. unfold na_wf, na_val. cbn [na_dim na_data]. intros W1 W2 <- H. f_equal.
  apply (nth_ext _ _ c0 c0); [congruence|]. intros k Hk. rewrite W1 in Hk. assert (n <> 0) by (intros ->; cbn in Hk; lia).
  specialize (H (k mod n) (k / n) ltac:(apply Nat.mod_upper_bound; assumption) ltac:(apply Nat.div_lt_upper_bound; assumption)).
  rewrite (Nat.mul_comm (k / n)), <- Nat.div_mod in H by assumption. exact H.
Qed.
