(** C80: how much work the triangle check, the nearest neighbour heuristic and the algorithm of Prim do.

    mst.rs promises "Asymptotic performance: O(N^2)" for the single-threaded algorithm of Prim. *)
From Coq Require Import Arith Bool List Lia Permutation ZArith.
From Verif Require Import Num NumB64 Base Data Par Rand MstPar Mst Nn Spec PrimProofs PermProofs Work WorkSpec WorkProofs Work2 Work2Spec Work2Proofs
  Instances PropMst PropWork.
Import ListNotations.
Local Open Scope nat_scope.

(** The traced algorithms are the algorithms. *)
Theorem C80_same_program : forall (N : Num),
  (forall a : adj N, snd (wis_metric a) = is_metric a) /\
  (forall (m : namatrix N) i, snd (wsingle_nearest_neighbour m i) = single_nearest_neighbour m i) /\
  (forall env (m : namatrix N) k, snd (wn_nearest_neighbour (nn_draws env) m k) = n_nearest_neighbour env SEQ_COMPUTATION m k) /\
  (forall (m : namatrix N) X, na_wf m -> snd (wprim m X) = prim_with_excluded_node_single_threaded m X).
Proof.
  intros N. split; [exact erase_metric|]. split; [exact erase_single|]. split; [exact erase_nn|exact erase_prim].
Qed.

(** The triangle check never fails on a readable matrix.  If it says yes it has read all triples with i <= j in order,
    n(n+1)(2n+1)/2 cells. *)
Theorem C80_metric_yes : forall (N : Num) (a : adj N), readable a -> snd (wis_metric a) = Ok true ->
  fst (wis_metric a) = triangle_cells (a_dim a) /\ 2 * length (fst (wis_metric a)) = a_dim a * (a_dim a + 1) * (2 * a_dim a + 1).
Proof.
  intros N a Hr H. destruct (metric_reads a Hr) as [[_ E]|[E _]]; [|congruence]. rewrite E. split; [reflexivity|apply triangle_count].
Qed.

(** If it says no, the last thing it has read is a detour that is shorter than the direct way, and before it only what
    comes before it in that order. *)
Theorem C80_metric_no : forall (N : Num) (a : adj N), readable a -> snd (wis_metric a) <> Ok true ->
  snd (wis_metric a) = Ok false /\
  exists i j k before after, i <= j < a_dim a /\ k < a_dim a /\
    fst (wis_metric a) = before ++ [(i, k); (k, j)] /\ triangle_cells (a_dim a) = fst (wis_metric a) ++ after /\
    exists d x y, a_get a i j = Ok d /\ a_get a i k = Ok x /\ a_get a k j = Ok y /\ clt (cadd (cadd x y) ceps) d = true.
Proof.
  intros N a Hr H. destruct (metric_reads a Hr) as [[E _]|(E & i & j & k & t & rest & Hij & Hk & Hf & Ht & Hfull)]; [contradiction|].
  split; [assumption|]. exists i, j, k, t, rest. repeat split; try assumption; lia.
Qed.

(** One start of the heuristic looks at n(n-1)/2 + 1 cells, each once: from every vertex of the tour but the last those of the
    vertices not visited yet, and the one that closes the tour. *)
Theorem C80_one_start : forall (N : Num) (m : namatrix N) i c p, na_wf m -> single_nearest_neighbour m i = Ok (c, p) ->
  fst (wsingle_nearest_neighbour m i) = greedy_cells (na_dim m) [] p ++ [(last p i, i)] /\
  NoDup (fst (wsingle_nearest_neighbour m i)) /\
  2 * length (fst (wsingle_nearest_neighbour m i)) = na_dim m * (na_dim m - 1) + 2.
Proof.
  intros N m i c p Hw E. rewrite <- erase_single in E. destruct (single_reads m Hw i c p E) as (Ef & Hh & Hp). rewrite Ef.
  assert (Hnd : NoDup p) by (apply (Permutation_NoDup Hp), seq_NoDup).
  assert (Hl : length p = na_dim m) by (apply Permutation_length in Hp; rewrite seq_length in Hp; lia).
  split; [reflexivity|]. split.
  - apply nodup_app; [apply greedy_NoDup; assumption|constructor; [intros []|constructor]|]. intros [u v] H [H'|[]]. injection H' as <- <-.
    apply greedy_rows in H. destruct H as [H _]. destruct p as [|x p]; [discriminate|]. pose proof (app_removelast_last i (l := x :: p) ltac:(discriminate)) as Hs.
    rewrite Hs in Hnd. apply NoDup_remove_2 in Hnd. rewrite app_nil_r in Hnd. contradiction.
  - rewrite app_length, (greedy_count (na_dim m)), Hl.
    + cbn [length]. pose proof (pairs_of_two (na_dim m)). destruct (na_dim m) as [|k]; [cbn; lia|]. replace (S k - 1) with k by lia. nia.
    + rewrite app_nil_r. assumption.
    + intros v Hv. rewrite app_nil_r in Hv. apply (Permutation_in v (Permutation_sym Hp)), in_seq in Hv. lia.
    + cbn [length]. lia.
Qed.

Lemma wmapM_length {A B} (f : A -> logged B) (c : nat) l : forall ys, snd (wmapM f l) = Ok ys ->
  (forall x y, In x l -> snd (f x) = Ok y -> length (fst (f x)) = c) -> length (fst (wmapM f l)) = length l * c.
Proof.
  induction l as [|x l IH]; intros ys E H; [reflexivity|]. cbn [wmapM] in *.
  destruct (snd (f x)) as [y| |] eqn:Ey; [|unfold wbind in E; rewrite Ey in E; discriminate..].
  rewrite (wbind_Ok _ _ _ Ey) in *. cbn [fst snd] in *.
  destruct (snd (wmapM f l)) as [zs| |] eqn:Ez; [|unfold wbind in E; rewrite Ez in E; discriminate..].
  rewrite (wbind_Ok _ _ _ Ez). cbn [fst quiet]. rewrite !app_length, (IH zs eq_refl), (H x y (or_introl eq_refl) Ey); [cbn [length]; lia|].
  intros x' y' Hx. apply H. right. exact Hx.
Qed.

Lemma starts_length draws n k : k <= n -> length (n_random_numbers draws n k) = k.
Proof.
  intros H. unfold n_random_numbers. rewrite firstn_length. pose proof (Permutation_length (shuffle_perm draws (seq 0 n))) as E.
  rewrite seq_length in E. lia.
Qed.

(** [k] starts look at [k] times as many. *)
Theorem C80_starts : forall (N : Num) (m : namatrix N) env k s, na_wf m -> n_nearest_neighbour env SEQ_COMPUTATION m k = Ok s ->
  2 * length (fst (wn_nearest_neighbour (nn_draws env) m k)) = k * (na_dim m * (na_dim m - 1) + 2).
Proof.
  intros N m env k s Hw E. rewrite <- erase_nn in E. unfold wn_nearest_neighbour in *. destruct (k =? 0); [discriminate|].
  destruct (k <=? na_dim m) eqn:Ek; [|discriminate]. cbn [negb] in *. apply Nat.leb_le in Ek.
  destruct (snd (wmapM (wsingle_nearest_neighbour m) (n_random_numbers (nn_draws env) (na_dim m) k))) as [ys| |] eqn:Ey; [|unfold wbind in E; rewrite Ey in E; discriminate..].
  rewrite (wbind_Ok _ _ _ Ey). cbn [fst quiet]. rewrite app_nil_r, (wmapM_length _ (pairs_of (na_dim m) + 1) _ _ Ey), starts_length by first [assumption|
    intros x [c p] _ Hx; rewrite erase_single in Hx; destruct (C80_one_start N m x c p Hw Hx) as (_ & _ & Hl); pose proof (pairs_of_two (na_dim m));
    destruct (na_dim m) as [|j]; [cbn in *; lia|]; replace (S j - 1) with j in Hl by lia; nia].
  pose proof (pairs_of_two (na_dim m)). destruct (na_dim m) as [|j]; [cbn [pairs_of]; lia|]. replace (S j - 1) with j by lia. nia.
Qed.

(** The algorithm of Prim: whatever the costs are and whether or not it comes to an end, it looks at whole rows of the matrix, at
    each at most once and not at those of excluded vertices, and between two rows at every entry of its vector of n + 1
    entries, at most n + 1 times. *)
Theorem C80_prim : forall (N : Num), NumOrd N -> forall (m : namatrix N) X, na_wf m ->
  let n := na_dim m in
  let cells := filter (fun x => fst x <? n) (fst (wprim m X)) in
  let entries := filter (fun x => negb (fst x <? n)) (fst (wprim m X)) in
  exists rows rounds, cells = flat_map (row_cells n) rows /\ NoDup rows /\ (forall v, In v rows -> v < n /\ ~ In v X) /\
    length cells <= n * n /\
    length entries = rounds * (n + 1) /\ length rows <= rounds <= length rows + 1 /\ rounds <= n + 1.
Proof.
  intros N O m X Hw n cells entries. destruct (prim_reads O m Hw X) as (vs & tail & Hf & Hnd & Hin & Ht & Hlen). fold n in Hf, Hin, Hlen.
  assert (Hlook : forall l, filter (fun x : nat * nat => fst x <? n) (map (fun i : nat => (n + 1, i)) l) = [] /\
    filter (fun x : nat * nat => negb (fst x <? n)) (map (fun i : nat => (n + 1, i)) l) = map (fun i : nat => (n + 1, i)) l).
  { assert (H : (n + 1 <? n) = false) by (apply Nat.ltb_ge; lia). induction l as [|i l [I1 I2]]; [split; reflexivity|]. cbn [map filter fst]. rewrite H. cbn [negb]. rewrite I1, I2. split; reflexivity. }
  assert (Hrow : forall v l, v < n -> filter (fun x : nat * nat => fst x <? n) (map (pair v) l) = map (pair v) l /\
    filter (fun x : nat * nat => negb (fst x <? n)) (map (pair v) l) = []).
  { intros v l Hv. apply Nat.ltb_lt in Hv. induction l as [|i l [I1 I2]]; [split; reflexivity|]. cbn [map filter fst]. rewrite Hv. cbn [negb]. rewrite I1, I2. split; reflexivity. }
  assert (Hcells : cells = flat_map (row_cells n) vs /\ length entries = length vs * (n + 1) + length tail).
  { unfold cells, entries. rewrite Hf. rewrite !filter_app. assert (Htail : filter (fun x : nat * nat => fst x <? n) tail = [] /\ filter (fun x : nat * nat => negb (fst x <? n)) tail = tail).
    { destruct Ht as [->| ->]; [split; reflexivity|apply Hlook]. }
    destruct Htail as [-> ->]. rewrite app_nil_r, app_length. clear Hf Hlen Hnd. induction vs as [|v vs IH]; [split; reflexivity|].
    cbn [flat_map]. rewrite !filter_app. destruct IH as [IH1 IH2]; [intros u Hu; apply Hin; right; exact Hu|]. rewrite IH1.
    destruct (Hlook (seq 0 (n + 1))) as [L1 L2]. change (map (fun i => (n + 1, i)) (seq 0 (n + 1))) with (look m) in L1, L2.
    destruct (Hrow v (seq 0 n) (proj1 (Hin v (or_introl eq_refl)))) as [R1 R2]. change (map (pair v) (seq 0 n)) with (row_cells n v) in R1, R2.
    rewrite L1, L2, R1, R2. split; [reflexivity|]. rewrite !app_length. cbn [length app].
    assert (Hll : length (look m) = n + 1) by (unfold look; rewrite map_length, seq_length; reflexivity). rewrite Hll. lia. }
  destruct Hcells as [-> He].
  assert (Hvs : length vs <= n).
  { rewrite <- (seq_length n 0) at 1. apply NoDup_incl_length; [assumption|]. intros v Hv. apply in_seq. destruct (Hin v Hv). lia. }
  exists vs, (length vs + length tail / (n + 1)). split; [reflexivity|]. split; [assumption|]. split; [assumption|]. split.
  - rewrite (flat_map_const _ n); [nia|]. intros v _. unfold row_cells. rewrite map_length, seq_length. reflexivity.
  - assert (Hdiv : tail = [] /\ length tail / (n + 1) = 0 /\ length tail = 0 \/ length tail / (n + 1) = 1 /\ length tail = n + 1).
    { destruct Ht as [->| ->]; [left; split; [reflexivity|]; split; [apply Nat.div_0_l; lia|reflexivity]|right].
      unfold look. fold n. rewrite map_length, seq_length. split; [apply Nat.div_same; lia|reflexivity]. }
    rewrite He. destruct Hdiv as [(_ & -> & ->)|[-> ->]]; split; lia.
Qed.

(** If the costs between different vertices are finite, it looks at every cell of the rows that are not excluded, so the
    promise cannot be improved: without excluded vertices it is n^2 cells. *)
Theorem C80_prim_every_row : forall (N : Num), NumOrd N -> forall (m : namatrix N) X, na_wf m ->
  (forall i j c, i < na_dim m -> j < na_dim m -> i <> j -> na_get m i j = Ok c -> clt c cinf = true) ->
  Forall (fun x => x < na_dim m) X ->
  forall u v, u < na_dim m -> v < na_dim m -> ~ In u X -> In (u, v) (fst (wprim m X)).
Proof.
  intros N O m X Hw Hfin HX u v Hu Hv Hx.
  assert (Hf : forall i j, i < na_dim m -> j < na_dim m -> i <> j -> clt (na_val m i j) cinf = true) by (intros i j Hi Hj Hne; apply (Hfin i j); try assumption; apply na_get_val; assumption).
  assert (Hex : exists v, v < na_dim m /\ ~ In v X) by (exists u; split; assumption).
  destruct (C18_spanning_tree N O m (na_val m) X Hw (fun i j => na_get_val m i j Hw) Hf HX Hex) as (g & T & E & _).
  rewrite <- (erase_prim m X Hw) in E. apply (prim_all O m Hw Hf X g Hex E u Hu Hx). apply in_map, in_seq. lia.
Qed.

Theorem C80_prim_square : forall (N : Num), NumOrd N -> forall (m : namatrix N), na_wf m ->
  (forall i j c, i < na_dim m -> j < na_dim m -> i <> j -> na_get m i j = Ok c -> clt c cinf = true) ->
  length (filter (fun x => fst x <? na_dim m) (fst (wprim m []))) = na_dim m * na_dim m.
Proof.
  intros N O m Hw Hfin. destruct (C80_prim N O m [] Hw) as (rows & rounds & Hc & Hnd & Hin & Hle & _). rewrite Hc in *.
  apply Nat.le_antisymm; [assumption|]. rewrite (flat_map_const _ (na_dim m)) by (intros v _; unfold row_cells; rewrite map_length, seq_length; reflexivity).
  apply Nat.mul_le_mono_r. rewrite <- (seq_length (na_dim m) 0) at 1. apply NoDup_incl_length; [apply seq_NoDup|]. intros u Hu. apply in_seq in Hu.
  assert (H : In (u, u) (flat_map (row_cells (na_dim m)) rows)).
  { rewrite <- Hc. apply filter_In. split; [|apply Nat.ltb_lt; cbn [fst]; lia]. apply (C80_prim_every_row N O m [] Hw Hfin (Forall_nil _)); try lia. intros []. }
  apply in_flat_map in H. destruct H as (x & Hx & H). apply in_map_iff in H. destruct H as (y & E & _). injection E as -> _. assumption.
Qed.

(** In all at most (n+1)^2 + n^2 steps. *)
Theorem C80_prim_quadratic : forall (N : Num), NumOrd N -> forall (m : namatrix N) X, na_wf m ->
  length (fst (wprim m X)) <= (na_dim m + 1) * (na_dim m + 1) + na_dim m * na_dim m.
Proof.
  intros N O m X Hw. destruct (C80_prim N O m X Hw) as (rows & rounds & _ & _ & _ & Hc & He & _ & Hr). revert Hc He.
  generalize (fst (wprim m X)). intros l Hc He.
  assert (H : length l = length (filter (fun x => fst x <? na_dim m) l) + length (filter (fun x => negb (fst x <? na_dim m)) l)).
  { clear. induction l as [|x l IH]; [reflexivity|]. cbn [filter]. destruct (fst x <? na_dim m); cbn [negb length]; lia. }
  rewrite H, He. nia.
Qed.

(** The same for doubles. *)
Theorem C80_prim_quadratic_f64 : forall (m : namatrix B64) X, na_wf m ->
  length (fst (wprim m X)) <= (na_dim m + 1) * (na_dim m + 1) + na_dim m * na_dim m.
Proof. exact (C80_prim_quadratic B64 B64_ord). Qed.

(** four vertices, with the costs |i - j|; and a broken triangle *)
Example C80_applies :
  let m := int_matrix 4 (fun i j => Z.abs (Z.of_nat i - Z.of_nat j)) in
  let b := int_matrix 4 (fun i j => if (i =? 0) && (j =? 2) then 9%Z else Z.abs (Z.of_nat i - Z.of_nat j)) in
  na_wf m /\ readable (na_adj m) /\ snd (wis_metric (na_adj m)) = Ok true /\ length (fst (wis_metric (na_adj m))) = 90 /\
  snd (wis_metric (na_adj b)) = Ok false /\ length (fst (wis_metric (na_adj b))) = 23 /\
  single_nearest_neighbour m 1 = Ok (Fin 6, [1; 0; 2; 3]) /\
  fst (wsingle_nearest_neighbour m 1) = [(1, 0); (1, 2); (1, 3); (0, 2); (0, 3); (2, 3); (3, 1)] /\
  length (fst (wprim m [])) = 41 /\ length (fst (wprim m [2])) = 32.
Proof.
  cbv zeta. split; [apply matrix_of_wf|]. split; [|vm_compute; auto 10]. intros i j Hi Hj.
  exists (na_val (int_matrix 4 (fun i j => Z.abs (Z.of_nat i - Z.of_nat j))) i j). apply na_get_val; [apply matrix_of_wf|assumption|assumption].
Qed.

Print Assumptions C80_same_program.
Print Assumptions C80_metric_yes.
Print Assumptions C80_metric_no.
Print Assumptions C80_one_start.
Print Assumptions C80_starts.
Print Assumptions C80_prim.
Print Assumptions C80_prim_every_row.
Print Assumptions C80_prim_square.
Print Assumptions C80_prim_quadratic.
Print Assumptions C80_prim_quadratic_f64.
