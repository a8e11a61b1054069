(** Matrices of distances. *)
From Coq Require Import Arith Bool List Lia.
From Verif Require Import Num Base Data Par Mem Points PrimProofs ConvProofs Instances.
Import ListNotations.

Lemma combine_seq_nth {A} (l : list A) d : forall k, combine (seq k (length l)) l = map (fun i => (k + i, nth i l d)) (seq 0 (length l)).
Proof.
  induction l as [|a l IH]; intros k; [reflexivity|]. cbn [length seq combine map]. rewrite Nat.add_0_r. f_equal.
  rewrite IH, <- seq_shift, map_map. apply map_ext. intros i. cbn [nth]. f_equal. lia.
Qed.
Lemma combine_longer {A} (l : list A) : forall k n, length l <= n -> combine (seq k n) l = combine (seq k (length l)) l.
Proof.
  induction l as [|a l IH]; intros k n H; [rewrite !combine_nil; reflexivity|]. destruct n as [|n]; [cbn in H; lia|]. cbn in *. f_equal. apply IH. lia.
Qed.

Section Points.
Context {N : Num} {P : Type} (dist : P -> P -> C N) (d : P).
Variable ps : list P.
Let n := length ps.
Let pt i := nth i ps d.
Let Hcomb : combine (seq 0 n) ps = map (fun i => (0 + i, nth i ps d)) (seq 0 n).
Proof. exact (combine_seq_nth ps d 0). Qed.

(** the upper triangle, row by row *)
Lemma row_points i m : i < n -> na_wf m -> na_dim m = n ->
  exists m', foldM (fun m '(j, to) =>
      let j := i + j + 1 in
      let weight := dist (pt i) to in
      m <- na_set m i j weight ;; na_set m j i weight) (combine (seq 0 n) (skipn (i + 1) ps)) m = Ok m' /\
    na_wf m' /\ na_dim m' = n /\
    forall a b, a < n -> b < n -> na_val m' a b =
      if (a =? i) && (i <? b) then dist (pt i) (pt b) else if (b =? i) && (i <? a) then dist (pt i) (pt a) else na_val m a b.
Proof.
  intros Hi W D. rewrite combine_longer by (rewrite skipn_length; fold n; lia).
  rewrite (combine_seq_nth _ d). rewrite skipn_length. fold n.
  assert (G : forall k, k <= n - (i + 1) ->
    exists m', foldM (fun m '(j, to) =>
      let j := i + j + 1 in
      let weight := dist (pt i) to in
      m <- na_set m i j weight ;; na_set m j i weight) (map (fun j => (0 + j, nth j (skipn (i + 1) ps) d)) (seq 0 k)) m = Ok m' /\
    na_wf m' /\ na_dim m' = n /\
    forall a b, a < n -> b < n -> na_val m' a b =
      if (a =? i) && (i <? b) && (b <=? i + k) then dist (pt i) (pt b) else if (b =? i) && (i <? a) && (a <=? i + k) then dist (pt i) (pt a) else na_val m a b).
  { induction k as [|k IH]; intros Hk.
    - exists m. split; [reflexivity|]. split; [assumption|]. split; [assumption|]. intros a b Ha Hb.
      destruct (Nat.leb_spec b (i + 0)), (Nat.ltb_spec i b); try lia; destruct (Nat.leb_spec a (i + 0)), (Nat.ltb_spec i a); try lia; rewrite ?andb_false_r; cbn; rewrite ?andb_false_r; reflexivity.
    - destruct (IH ltac:(lia)) as (m1 & E1 & W1 & D1 & V1). rewrite seq_S, map_app, foldM_app, E1. cbn [bind map foldM plus].
      assert (Hp : nth k (skipn (i + 1) ps) d = pt (i + k + 1)).
      { unfold pt. rewrite <- (firstn_skipn (i + 1) ps) at 2. rewrite app_nth2; rewrite firstn_length_le by (fold n; lia); [f_equal; lia|lia]. }
      rewrite Hp.
      destruct (na_set_Ok m1 i (i + k + 1) (dist (pt i) (pt (i + k + 1))) W1 ltac:(lia) ltac:(lia)) as (m2 & E2 & W2 & D2 & V2).
      destruct (na_set_Ok m2 (i + k + 1) i (dist (pt i) (pt (i + k + 1))) W2 ltac:(lia) ltac:(lia)) as (m3 & E3 & W3 & D3 & V3).
      rewrite E2. cbn [bind]. rewrite E3. cbn [bind]. exists m3. split; [reflexivity|]. split; [assumption|]. split; [congruence|].
      intros a b Ha Hb. rewrite V3, V2, V1 by lia.
      destruct (Nat.eqb_spec a i) as [->|Hai].
      + replace (i =? i + k + 1) with false by (symmetry; apply Nat.eqb_neq; lia). cbn [andb].
        destruct (Nat.eqb_spec b (i + k + 1)) as [->|Hb1].
        * replace (i <? i + k + 1) with true by (symmetry; apply Nat.ltb_lt; lia). replace (i + k + 1 <=? i + S k) with true by (symmetry; apply Nat.leb_le; lia). reflexivity.
        * rewrite Nat.ltb_irrefl, !andb_false_r. cbn [andb]. replace (b <=? i + S k) with (b <=? i + k); [reflexivity|].
          destruct (Nat.leb_spec b (i + k)); symmetry; [apply Nat.leb_le|apply Nat.leb_gt]; lia.
      + cbn [andb]. destruct (Nat.eqb_spec b i) as [->|Hbi].
        * rewrite andb_true_r. cbn [andb]. destruct (Nat.eqb_spec a (i + k + 1)) as [->|Ha1].
          -- replace (i <? i + k + 1) with true by (symmetry; apply Nat.ltb_lt; lia). replace (i + k + 1 <=? i + S k) with true by (symmetry; apply Nat.leb_le; lia). reflexivity.
          -- replace (a <=? i + S k) with (a <=? i + k); [reflexivity|].
             destruct (Nat.leb_spec a (i + k)); symmetry; [apply Nat.leb_le|apply Nat.leb_gt]; lia.
        * rewrite andb_false_r. reflexivity. }
  destruct (G (n - (i + 1)) ltac:(lia)) as (m' & E & W' & D' & V'). exists m'. split; [exact E|]. split; [assumption|]. split; [assumption|].
  intros a b Ha Hb. rewrite V' by assumption. replace (b <=? i + (n - (i + 1))) with true by (symmetry; apply Nat.leb_le; lia).
  replace (a <=? i + (n - (i + 1))) with true by (symmetry; apply Nat.leb_le; lia). rewrite !andb_true_r. reflexivity.
Qed.

Theorem from_points_val : exists m, from_points dist ps = Ok m /\ na_wf m /\ na_dim m = n /\
  forall i j, i < n -> j < n -> na_val m i j = if i =? j then c0 else dist (pt (Nat.min i j)) (pt (Nat.max i j)).
Proof.
  unfold from_points. fold n. rewrite Hcomb.
  assert (G : forall k, k <= n -> exists m, foldM (fun m '(i, from) =>
    foldM (fun m '(j, to) =>
      let j := i + j + 1 in
      let weight := dist from to in
      m <- na_set m i j weight ;; na_set m j i weight)
      (combine (seq 0 n) (skipn (i + 1) ps)) m) (map (fun i => (0 + i, nth i ps d)) (seq 0 k)) (na_from_dim n) = Ok m /\
    na_wf m /\ na_dim m = n /\ forall i j, i < n -> j < n ->
      na_val m i j = if i =? j then c0 else if Nat.min i j <? k then dist (pt (Nat.min i j)) (pt (Nat.max i j)) else cinf).
  { induction k as [|k IH]; intros Hk.
    - exists (na_from_dim n). split; [reflexivity|]. split; [apply na_from_dim_wf|]. split; [reflexivity|]. intros i j Hi Hj. rewrite na_from_dim_val by assumption.
      destruct (i =? j); reflexivity.
    - destruct (IH ltac:(lia)) as (m1 & E1 & W1 & D1 & V1). rewrite seq_S, map_app, foldM_app, E1. cbn [bind map foldM plus].
      destruct (row_points k m1 ltac:(lia) W1 D1) as (m2 & E2 & W2 & D2 & V2). cbv zeta in E2. fold (pt k). rewrite E2. cbn [bind]. exists m2. split; [reflexivity|]. split; [assumption|]. split; [assumption|].
      intros i j Hi Hj. rewrite V2, V1 by assumption.
      destruct (Nat.eqb_spec i j) as [->|Hij].
      + destruct (Nat.eqb_spec j k) as [->|Hjk]; cbn [andb]; [rewrite Nat.ltb_irrefl|]; reflexivity.
      + destruct (Nat.eqb_spec i k) as [->|Hik]; cbn [andb].
        * destruct (Nat.ltb_spec k j) as [L|L].
          -- rewrite Nat.min_l, Nat.max_r by lia. replace (k <? S k) with true by (symmetry; apply Nat.ltb_lt; lia). reflexivity.
          -- replace (j =? k) with false by (symmetry; apply Nat.eqb_neq; congruence). cbn [andb]. rewrite Nat.min_r, Nat.max_l by lia.
             replace (j <? k) with true by (symmetry; apply Nat.ltb_lt; lia). replace (j <? S k) with true by (symmetry; apply Nat.ltb_lt; lia). reflexivity.
        * destruct (Nat.eqb_spec j k) as [->|Hjk]; cbn [andb].
          -- destruct (Nat.ltb_spec k i) as [L|L].
             ++ rewrite Nat.min_r, Nat.max_l by lia. replace (k <? S k) with true by (symmetry; apply Nat.ltb_lt; lia). reflexivity.
             ++ rewrite Nat.min_l, Nat.max_r by lia.
                replace (i <? k) with true by (symmetry; apply Nat.ltb_lt; lia). replace (i <? S k) with true by (symmetry; apply Nat.ltb_lt; lia). reflexivity.
          -- replace (Nat.min i j <? S k) with (Nat.min i j <? k); [reflexivity|].
             destruct (Nat.ltb_spec (Nat.min i j) k); symmetry; [apply Nat.ltb_lt|apply Nat.ltb_ge]; lia. }
  destruct (G n ltac:(lia)) as (m & E & W & D & V). exists m. split; [exact E|]. split; [assumption|]. split; [assumption|].
  intros i j Hi Hj. rewrite V by assumption. replace (Nat.min i j <? n) with true by (symmetry; apply Nat.ltb_lt; lia). reflexivity.
Qed.

(** every column on its own, in any interleaving *)
Theorem par_from_points_val sched : exists m, par_from_points dist sched ps = Ok m /\ na_wf m /\ na_dim m = n /\
  forall i j, i < n -> j < n -> na_val m i j = dist (pt j) (pt i).
Proof.
  unfold par_from_points. fold n. rewrite Hcomb. rewrite map_map. cbn [plus].
  set (progs := map (fun x => point_task dist ps x (nth x ps d)) (seq 0 n)).
  assert (Hprog : forall j, j < n -> nth j progs [] = map (fun i => Store (j * n + i) (dist (pt j) (pt i))) (seq 0 n)).
  { intros j Hj. unfold progs. rewrite nth_indep with (d' := point_task dist ps 0 (nth 0 ps d)) by (rewrite map_length, seq_length; assumption).
    rewrite (map_nth (fun x => point_task dist ps x (nth x ps d))), seq_nth by assumption. unfold point_task. fold n. rewrite Hcomb. rewrite map_map. reflexivity. }
  assert (Hlen : length progs = n) by (unfold progs; rewrite map_length, seq_length; reflexivity).
  pose proof (na_from_dim_wf (N := N) n) as Wd. unfold na_wf in Wd. change (na_dim (na_from_dim (N := N) n)) with n in Wd.
  destruct (par_mem_cells c0 progs (na_data (na_from_dim n))) with (sched := sched) as (s & E & L & C & _).
  - intros i p Hp Hi. destruct (In_nth _ _ [] Hp) as (j & Hj & <-). rewrite Hlen in Hj. rewrite Hprog in Hi by assumption.
    apply in_map_iff in Hi. destruct Hi as (x & <- & Hx). apply in_seq in Hx. cbn [instr_cell]. rewrite Wd. apply (cell_bound n x j); lia.
  - intros a b i j Ha Hb Hab Hi Hj. rewrite Hlen in Ha, Hb. rewrite Hprog in Hi by assumption. rewrite Hprog in Hj by assumption.
    apply in_map_iff in Hi, Hj. destruct Hi as (x & <- & Hx), Hj as (y & <- & Hy). apply in_seq in Hx, Hy. cbn [instr_cell]. intros Ec.
    apply cell_inj in Ec; [|lia..]. lia.
  - rewrite E. cbn [bind]. eexists. split; [reflexivity|]. unfold na_wf, na_val. cbn [na_dim na_data]. split; [lia|]. split; [reflexivity|].
    intros i j Hi Hj. rewrite (C j (j * n + i)); [|lia|rewrite Wd; apply cell_bound; assumption|].
    + rewrite Hprog by assumption. clear C E.
      assert (Hrun : forall l x, NoDup l -> cell_run (j * n + i) (map (fun i => Store (j * n + i) (dist (pt j) (pt i))) l) x = if existsb (Nat.eqb i) l then dist (pt j) (pt i) else x).
      { induction l as [|a l IH]; intros x Hnd; [reflexivity|]. inversion Hnd as [|? ? Hni Hnd']; subst. cbn [map].
        change (cell_run (j * n + i) (map (fun i0 => Store (j * n + i0) (dist (pt j) (pt i0))) l) (cell_instr (j * n + i) x (Store (j * n + a) (dist (pt j) (pt a)))) = if existsb (Nat.eqb i) (a :: l) then dist (pt j) (pt i) else x).
        rewrite IH by assumption. unfold cell_instr. cbn [instr_cell existsb]. destruct (Nat.eqb_spec i a) as [->|Hia].
        - rewrite Nat.eqb_refl. cbn [orb]. destruct (existsb (Nat.eqb a) l); reflexivity.
        - replace (j * n + a =? j * n + i) with false by (symmetry; apply Nat.eqb_neq; lia). reflexivity. }
      rewrite Hrun by apply seq_NoDup. replace (existsb (Nat.eqb i) (seq 0 n)) with true; [reflexivity|].
      symmetry. apply existsb_exists. exists i. split; [apply in_seq; lia|apply Nat.eqb_refl].
    + rewrite Hprog by assumption. exists (Store (j * n + i) (dist (pt j) (pt i))). split; [|reflexivity]. apply in_map_iff. exists i. split; [reflexivity|]. apply in_seq. lia.
Qed.
End Points.
