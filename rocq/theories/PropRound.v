(** C51-C55: matrices of arbitrary finite doubles, with rounding.

    [f64_values m w]: the cells of [m] are finite doubles of values [w i j * 2^-1074], so the
    true cost of a tour is [tour_cost w] in this unit; [values_exist] shows that every matrix
    of finite doubles is of this form.  [moderate w n]: no negative cost, sums do not overflow.
    [rounded k x z]: the double [x] is finite and [z (1-u)^k <= x <= z (1+u)^k], u = 2^-53. *)
From Coq Require Import ZArith Arith Bool List Permutation Lia.
From Flocq Require Import IEEE754.Binary IEEE754.Bits.
From Verif Require Import Num NumB64 Base Spec SpecFacts Data Mst Par MstPar OneTree Rand Nn Exact Dfs Greedy PrimProofs MstFacts
  OneTreeProofs PermProofs Units RoundProofs Instances PropExact PropMst PropNn PropData.
Import ListNotations.

(** ** C51: evaluate_circle *)
Lemma steps_cost w : forall t a, fold_right Z.add 0%Z (map (fun e => w (fst e) (snd e)) (combine (a :: t) t)) = path_cost w (a :: t).
Proof.
  induction t as [|b t IH]; intros a; [reflexivity|]. cbn [combine map fold_right fst snd].
  specialize (IH b). cbn [combine] in IH |- *. rewrite IH. reflexivity.
Qed.

Lemma moderate_sum w n E : moderate w n -> length E <= n -> (forall a b, In (a, b) E -> a < n /\ b < n) ->
  (0 <= fold_right Z.add 0 (map (fun e => w (fst e) (snd e)) E) <= 2 ^ 2096)%Z.
Proof.
  intros Hm Hl HE. destruct (moderate_edges w n E Hm HE Hl) as [H1 H2].
  assert (Hfr : fold_right Z.add 0%Z (map (fun e => w (fst e) (snd e)) E) = edges_cost w E).
  { unfold edges_cost. clear. induction E as [|e E IH]; [reflexivity|]. cbn [map fold_right]. rewrite IH. reflexivity. }
  rewrite Hfr. set (P := (2 ^ 2096)%Z) in *. clearbody P. lia.
Qed.

Theorem C51_circle_rounded : forall (m : namatrix B64) w p, f64_values m w -> moderate w (na_dim m) ->
  2 <= length p <= na_dim m -> Forall (fun v => v < na_dim m) p ->
  exists x, evaluate_circle (na_adj m) p = Ok x /\ rounded (length p) x (tour_cost w p).
Proof.
  intros m w p Hv Hmod Hl Hr. set (n := na_dim m) in *.
  destruct p as [|a [|b p]]; [cbn in Hl; lia..|].
  assert (Hget : forall i j, i < n -> j < n -> na_get m i j = Ok (na_val m i j)) by (intros; apply na_get_val; [apply Hv|assumption..]).
  destruct (C36_sum_of_steps B64 (na_adj m) (na_val m) a b p Hget Hr) as [_ E].
  eexists. split; [exact E|]. apply approx_rounded. clear E.
  rewrite Forall_forall in Hr.
  set (steps := combine (a :: b :: p) (b :: p)). set (l := last (b :: p) b).
  assert (Hls : length steps = S (length p)) by (unfold steps; rewrite combine_length; cbn [length]; lia).
  assert (Hst : forall x y, In (x, y) (steps ++ [(l, a)]) -> x < n /\ y < n).
  { intros x y Hin. apply in_app_or in Hin. destruct Hin as [Hin|[Hin|[]]].
    - split; [apply in_combine_l in Hin; apply Hr; assumption|apply in_combine_r in Hin; apply Hr; right; assumption].
    - injection Hin as <- <-. split; [|apply Hr; left; reflexivity]. apply Hr. right. apply last_In. discriminate. }
  assert (Et : tour_cost w (a :: b :: p) = fold_right Z.add 0%Z (map (fun e => w (fst e) (snd e)) (steps ++ [(l, a)]))).
  { unfold tour_cost. rewrite <- steps_cost. fold steps. rewrite map_app, fold_right_app. cbn [map fold_right fst snd].
    assert (El : last (a :: b :: p) a = l).
    { unfold l. change (last (a :: b :: p) a) with (last (b :: p) a). apply last_default. discriminate. }
    rewrite El. rewrite Z.add_0_r. clear. set (z := w l a). clearbody z. induction steps as [|e s IH]; cbn [map fold_right]; lia. }
  rewrite Et.
  assert (Ef : @cadd B64 (fold_left (fun acc e => cadd acc (na_val m (fst e) (snd e))) steps c0) (na_val m l a) =
    @csum B64 (map (fun e => na_val m (fst e) (snd e)) (steps ++ [(l, a)]))).
  { unfold csum. rewrite map_app, fold_left_app. cbn [map fold_left fst snd]. f_equal.
    clear. generalize (@c0 B64). induction steps as [|e s IH]; intros acc; [reflexivity|]. cbn [map fold_left]. apply IH. }
  fold steps l. rewrite Ef.
  replace (length (a :: b :: p)) with (0 + length (map (fun e => na_val m (fst e) (snd e)) (steps ++ [(l, a)]))) by (rewrite map_length, app_length, Hls; cbn; lia).
  assert (Hlen : length (steps ++ [(l, a)]) <= n) by (rewrite app_length, Hls; cbn in *; lia).
  apply approx_csum.
  - assert (G : forall E, (forall x y, In (x, y) E -> x < n /\ y < n) -> Forall2 (approx 0) (map (fun e => na_val m (fst e) (snd e)) E) (map (fun e => w (fst e) (snd e)) E)).
    { intros E. induction E as [|[x y] E IH]; intros HE; [constructor|]. cbn [map fst snd]. destruct (HE x y (or_introl eq_refl)) as [Hx Hy]. constructor.
      - apply approx_holds; [apply values_val; assumption|]. apply Hmod; assumption.
      - apply IH. intros; apply HE; right; assumption. }
    apply G. assumption.
  - apply Forall_forall. intros z Hz. apply in_map_iff in Hz. destruct Hz as ([x y] & <- & Hin). destruct (Hst x y Hin). apply Hmod; assumption.
  - apply (moderate_sum w n); assumption.
  - rewrite map_length. destruct Hmod as (_ & Hn & _). lia.
Qed.
Print Assumptions C51_circle_rounded.

(** ** C52: the enumerating solvers *)
Lemma tour_rounded (m : namatrix B64) w q : f64_values m w -> moderate w (na_dim m) -> 2 <= na_dim m -> is_tour (na_dim m) q ->
  exists x, evaluate_circle (na_adj m) q = Ok x /\ rounded (na_dim m) x (tour_cost w q).
Proof.
  intros Hv Hm Hn Hq. pose proof (tour_length _ _ Hq) as Hl. rewrite <- Hl. apply C51_circle_rounded; try assumption; [lia|].
  apply tour_Forall. assumption.
Qed.

(** What both solvers have: [c] is the least evaluation over a set of tours that contains,
    for every tour, one of the same cost. *)
Lemma near_optimal (m : namatrix B64) w c p (S : list nat -> Prop) : f64_values m w -> moderate w (na_dim m) -> 2 <= na_dim m ->
  is_tour (na_dim m) p ->
  (p <> seq 0 (na_dim m) /\ evaluate_circle (na_adj m) p = Ok c \/ p = seq 0 (na_dim m) /\ c = cinf) ->
  (forall q cq, is_tour (na_dim m) q -> S q -> evaluate_circle (na_adj m) q = Ok cq -> cle c cq = true) ->
  (forall q, is_tour (na_dim m) q -> exists q', is_tour (na_dim m) q' /\ S q' /\ tour_cost w q' = tour_cost w q) ->
  rounded (na_dim m) c (tour_cost w p) /\
  forall q, is_tour (na_dim m) q ->
    (tour_cost w p * (2 ^ 53 - 1) ^ Z.of_nat (na_dim m) <= tour_cost w q * (2 ^ 53 + 1) ^ Z.of_nat (na_dim m))%Z.
Proof.
  intros Hv Hm Hn Hp Hc Hmin Hcov. set (n := na_dim m) in *.
  assert (Hr : rounded n c (tour_cost w p)).
  { destruct Hc as [[_ E]|[Ep Ec]].
    - destruct (tour_rounded m w p Hv Hm Hn Hp) as (x & Ex & Hx). assert (x = c) by congruence. subst x. assumption.
    - exfalso. destruct (Hcov p Hp) as (q' & Hq' & HS & _). destruct (tour_rounded m w q' Hv Hm Hn Hq') as (x & Ex & (z & Hz & _)).
      specialize (Hmin q' x Hq' HS Ex). rewrite Ec in Hmin.
      pose proof (holds_lt_inf x z Hz) as H. rewrite (ord_lt B64 B64_ord), Hmin in H. rewrite andb_comm in H. discriminate H. }
  split; [assumption|]. intros q Hq. destruct (Hcov q Hq) as (q' & Hq' & HS & Eq). rewrite <- Eq.
  destruct (tour_rounded m w q' Hv Hm Hn Hq') as (x & Ex & Hx).
  apply (rounded_le n c x); [assumption..|]. apply (Hmin q' x Hq' HS Ex).
Qed.

Theorem C52_naive_near_optimal : forall (m : namatrix B64) w, f64_values m w -> moderate w (na_dim m) -> 2 <= na_dim m ->
  exists x p, naive_solver (na_adj m) = Ok (x, p) /\ is_tour (na_dim m) p /\ rounded (na_dim m) x (tour_cost w p) /\
    forall q, is_tour (na_dim m) q ->
      (tour_cost w p * (2 ^ 53 - 1) ^ Z.of_nat (na_dim m) <= tour_cost w q * (2 ^ 53 + 1) ^ Z.of_nat (na_dim m))%Z.
Proof.
  intros m w Hv Hm Hn. set (n := na_dim m) in *.
  destruct (C44_naive_rounded_partial B64 B64_ord (na_adj m)) as (c & p & E & Hp & Hc & Hmin).
  { intros q Hq. destruct (tour_rounded m w q Hv Hm Hn Hq) as (x & Ex & Hx). exists x. split; [assumption|]. apply (rounded_nnan n x (tour_cost w q)). assumption. }
  exists c, p. split; [assumption|]. split; [assumption|].
  apply (near_optimal m w c p (fun q => q <> seq 0 n)); try assumption.
  intros q Hq. destruct (list_eq_dec Nat.eq_dec q (seq 0 n)) as [->|Hne]; [|exists q; auto].
  assert (Eid : seq 0 n = [0] ++ seq 1 (n - 1)) by (replace n with (S (n - 1)) at 1 by lia; reflexivity).
  exists (seq 1 (n - 1) ++ [0]). split; [unfold is_tour; fold n; rewrite Eid; apply Permutation_app_comm|]. split.
  - rewrite Eid. replace (n - 1) with (S (n - 2)) by lia. cbn. discriminate.
  - rewrite Eid. symmetry. apply tour_cost_rot.
Qed.
Print Assumptions C52_naive_near_optimal.

Theorem C52_first_near_optimal : forall (m : namatrix B64) w, f64_values m w -> moderate w (na_dim m) -> symmetric w (na_dim m) -> 3 <= na_dim m ->
  exists x p, first_improved_solver (na_adj m) = Ok (x, p) /\ is_tour (na_dim m) p /\ hd 0 p = 0 /\ rounded (na_dim m) x (tour_cost w p) /\
    forall q, is_tour (na_dim m) q ->
      (tour_cost w p * (2 ^ 53 - 1) ^ Z.of_nat (na_dim m) <= tour_cost w q * (2 ^ 53 + 1) ^ Z.of_nat (na_dim m))%Z.
Proof.
  intros m w Hv Hm Hsym Hn. set (n := na_dim m) in *.
  set (ev q := match evaluate_circle (na_adj m) q with Ok c => c | _ => c0 end).
  assert (Hev : forall q, is_tour n q -> evaluate_circle (na_adj m) q = Ok (ev q) /\ rounded n (ev q) (tour_cost w q)).
  { intros q Hq. destruct (tour_rounded m w q Hv Hm ltac:(fold n; lia) Hq) as (x & Ex & Hx). unfold ev. rewrite Ex. auto. }
  destruct (first_generic B64_ord (na_adj m) ev) as (c & p & E & Hp & Hhd & Hc & Hmin).
  { change (1 <= n). lia. }
  { intros q Hq. apply Hev. assumption. }
  { intros q Hq. apply (rounded_nnan n _ (tour_cost w q)). apply Hev. assumption. }
  exists c, p. split; [assumption|]. split; [assumption|]. split; [assumption|].
  apply (near_optimal m w c p (fun q => hd 0 q = 0 /\ q <> seq 0 n)); try assumption; [fold n; lia|..].
  - destruct Hc as [[-> H]|[-> H]]; [left|right; auto]. split; [assumption|]. apply Hev. assumption.
  - intros q cq Hq [Hh Hne] Eq. destruct (Hev q Hq) as [Eq' _]. assert (cq = ev q) by congruence. subst cq.
    destruct q as [|a q]; [apply tour_length in Hq; cbn in Hq; fold n in Hq; lia|]. cbn in Hh. subst a. apply Hmin; assumption.
  - intros q Hq.
    assert (Eid : seq 0 n = 0 :: seq 1 (n - 1)) by (replace n with (S (n - 1)) at 1 by lia; reflexivity).
    assert (H0 : In 0 q) by (apply (tour_In n q 0 Hq); lia).
    apply in_split in H0. destruct H0 as (q1 & q2 & ->). rewrite tour_cost_rot. cbn [app].
    assert (Hq' : is_tour n (0 :: q2 ++ q1)).
    { unfold is_tour in *. fold n in Hq. rewrite <- Hq. change (0 :: q2 ++ q1) with ((0 :: q2) ++ q1). apply Permutation_app_comm. }
    destruct (list_eq_dec Nat.eq_dec (0 :: q2 ++ q1) (seq 0 n)) as [Heq|Hne]; [|exists (0 :: q2 ++ q1); auto].
    rewrite Heq. set (rv := rev (seq 1 (n - 1))). exists (0 :: rv).
    split; [unfold is_tour, rv; fold n; rewrite Eid; apply perm_skip, Permutation_sym, Permutation_rev|]. split; [split; [reflexivity|]|].
    + rewrite Eid. intros H. injection H as H. unfold rv in H. replace (n - 1) with (S (S (n - 3))) in H by lia.
      apply (f_equal (hd 0)) in H.
      assert (Hh : forall l : list nat, hd 0 (rev l) = last l 0).
      { clear. intros l. destruct l as [|x l]; [reflexivity|]. destruct (exists_last (l := x :: l)) as (l' & y & ->); [discriminate|].
        rewrite rev_unit, last_last. reflexivity. }
      rewrite Hh, seq_S, last_last in H. simpl in H. lia.
    + rewrite <- (tour_cost_rev w n (seq 0 n)) by (try assumption; apply tour_Forall, tour_seq).
      rewrite Eid. cbn [rev]. fold rv. change (0 :: rv) with ([0] ++ rv). apply tour_cost_rot.
Qed.
Print Assumptions C52_first_near_optimal.

(** ** C53: Prim *)
Theorem C53_prim_minimum : forall (m : namatrix B64) w env mode, f64_values m w -> moderate w (na_dim m) -> 1 <= na_dim m -> mode <= 2 ->
  exists g T, prim env mode m = Ok g /\ length g = na_dim m /\ spanning_tree (seq 0 (na_dim m)) T /\
    (forall v, v < na_dim m -> nth v g [] = map (fun x => mkEdge (fst x) (na_val m (fst (snd x)) (snd (snd x)))) (incident T v)) /\
    rounded (2 * na_dim m) (undirected_edge_weight g) (edges_cost w T) /\
    (symmetric w (na_dim m) -> forall T', spanning_tree (seq 0 (na_dim m)) T' -> (edges_cost w T <= edges_cost w T')%Z).
Proof.
  intros m w env mode Hv Hm Hn Hmode.
  assert (Ef : free_vertices (na_dim m) [] = seq 0 (na_dim m)) by (unfold free_vertices; generalize (seq 0 (na_dim m)); intros l; induction l as [|a l IH]; [reflexivity|]; cbn in *; congruence).
  destruct (prim_rounded m w Hv Hm [] ltac:(constructor) (one_free _ Hn)) as (g & T & Eg & Hl & Hsp & Hadj & Hr & _ & Hmin).
  rewrite Ef in Hsp, Hmin. exists g, T. split; [|auto].
  rewrite (C20_prim_modes_agree B64 B64_ord m env mode 0) by (try lia; apply Hv). exact Eg.
Qed.
Print Assumptions C53_prim_minimum.

(** With vertices left out, and the version with the priority queue: the tree that this one
    follows is of least weight too, and its weight is reported up to rounding. *)
Theorem C53_excluded_minimum : forall (m : namatrix B64) w X pick, f64_values m w -> moderate w (na_dim m) ->
  Forall (fun x => x < na_dim m) X -> (exists v, v < na_dim m /\ ~ In v X) -> symmetric w (na_dim m) ->
  exists c g g', prim_with_excluded_node_single_threaded m X = Ok g /\ rounded (2 * na_dim m) (undirected_edge_weight g) c /\
    prim_with_excluded_node_priority_queue pick m X = Ok g' /\ rounded (3 * na_dim m) (undirected_edge_weight g') c /\
    (exists T, spanning_tree (free_vertices (na_dim m) X) T /\ edges_cost w T = c) /\
    forall T, spanning_tree (free_vertices (na_dim m) X) T -> (c <= edges_cost w T)%Z.
Proof.
  intros m w X pick Hv Hm HX Hex Hsym.
  destruct (prim_rounded m w Hv Hm X HX Hex) as (g & T & Eg & _ & Hsp & _ & Hr & _ & Hmin).
  destruct (prim_pq_rounded m w Hv Hm pick X HX Hex) as (g' & T' & Eg' & Hsp' & Hr' & _ & Hmin').
  specialize (Hmin Hsym). specialize (Hmin' Hsym).
  assert (Ec : edges_cost w T' = edges_cost w T) by (pose proof (Hmin T' Hsp'); pose proof (Hmin' T Hsp); lia).
  rewrite Ec in Hr'. exists (edges_cost w T), g, g'. repeat (split; [assumption|]). split; [exists T; auto|assumption].
Qed.
Print Assumptions C53_excluded_minimum.

(** ** C54: the lower bounds *)
Theorem C54_mst_bounds : forall (m : namatrix B64) w env mode pick, f64_values m w -> moderate w (na_dim m) -> symmetric w (na_dim m) ->
  1 <= na_dim m -> mode <= 2 ->
  exists c x y, mst_bound env mode m = Ok x /\ rounded (2 * na_dim m) x c /\
    mst_queue_bound pick m = Ok y /\ rounded (3 * na_dim m) y c /\
    forall q, is_tour (na_dim m) q -> (c <= tour_cost w q)%Z.
Proof.
  intros m w env mode pick Hv Hm Hsym Hn Hmode.
  destruct (C53_excluded_minimum m w [] pick Hv Hm ltac:(constructor) (one_free _ Hn) Hsym) as (c & g & g' & Eg & Hr & Eg' & Hr' & (T & Hsp & Ec) & Hmin).
  exists c, (undirected_edge_weight g), (undirected_edge_weight g'). split; [|split; [assumption|split; [|split; [assumption|]]]].
  - unfold mst_bound. rewrite (C20_prim_modes_agree B64 B64_ord m env mode 0) by (try lia; apply Hv).
    change (prim env 0 m) with (prim_with_excluded_node_single_threaded m []). rewrite Eg. reflexivity.
  - unfold mst_queue_bound. rewrite Eg'. reflexivity.
  - intros q Hq. rewrite <- Ec. apply (mst_below_tour m (na_dim m)); try assumption; [apply Hm|]. intros T' HT'. rewrite Ec. apply Hmin. assumption.
Qed.
Print Assumptions C54_mst_bounds.

(** All versions of the 1-tree bound report, up to rounding, the weight of a cheapest 1-tree of
    some vertex; the weights for the other vertices are not greater, up to rounding. *)
Theorem C54_one_tree_bounds : forall (m : namatrix B64) w t, f64_values m w -> moderate w (na_dim m) -> symmetric w (na_dim m) -> 3 <= na_dim m ->
  exists c x, one_tree_lower_bound_seq m = Ok x /\ one_tree_lower_bound_par t m = Ok x /\ rounded (2 * na_dim m) x c /\
    (exists s F, s < na_dim m /\ one_tree_at (na_dim m) s F /\ edges_cost w F = c /\
       forall F', one_tree_at (na_dim m) s F' -> (c <= edges_cost w F')%Z) /\
    (forall s, s < na_dim m -> exists F, one_tree_at (na_dim m) s F /\
       (edges_cost w F * (2 ^ 53 - 1) ^ Z.of_nat (2 * na_dim m) <= c * (2 ^ 53 + 1) ^ Z.of_nat (2 * na_dim m))%Z) /\
    forall q, is_tour (na_dim m) q -> (c <= tour_cost w q)%Z.
Proof.
  intros m w t Hv Hm Hsym Hn.
  destruct (seq_bound_max B64_ord m) as (x & Ex & (s & Hs & Es) & Hmax); [|lia|].
  { intros s Hs. destruct (one_tree_rounded m w Hv Hm s Hs Hn) as (x & F & Ex & _ & Hr & _). exists x. split; [assumption|apply (rounded_nnan _ _ _ Hr)]. }
  destruct (one_tree_rounded m w Hv Hm s Hs Hn) as (x' & F & Ex' & HF & Hr & _ & Hmin). assert (x' = x) by congruence. subst x'. specialize (Hmin Hsym).
  exists (edges_cost w F), x. split; [assumption|]. split; [rewrite C24_par_is_seq by exact B64_ord; assumption|]. split; [assumption|].
  split; [exists s, F; auto|]. split.
  - intros s' Hs'. destruct (one_tree_rounded m w Hv Hm s' Hs' Hn) as (y & F' & Ey & HF' & Hry & _). exists F'. split; [assumption|].
    apply (rounded_le (2 * na_dim m) y x); [assumption..|]. apply (Hmax s'); assumption.
  - intros q Hq. destruct (tour_one_tree m w s q Hs Hn Hsym Hq) as (F' & HF' & <-). apply Hmin. assumption.
Qed.
Print Assumptions C54_one_tree_bounds.

Theorem C54_one_tree_mpi : forall (m : namatrix B64) w order t size, f64_values m w -> moderate w (na_dim m) -> symmetric w (na_dim m) -> 3 <= na_dim m ->
  1 <= size <= na_dim m -> Permutation order (seq 0 size) ->
  exists c x y, one_tree_lower_bound_mpi order t m size = Ok (x :: repeat cinf (size - 1)) /\ rounded (2 * na_dim m) x c /\
    one_tree_lower_bound_seq m = Ok y /\ cle x y = true /\ cle y x = true /\
    forall q, is_tour (na_dim m) q -> (c <= tour_cost w q)%Z.
Proof.
  intros m w order t size Hv Hm Hsym Hn Hsz HP.
  assert (Hw : forall s, s < na_dim m -> exists x, one_tree_weight m s = Ok x /\ cnan x = false).
  { intros s Hs. destruct (one_tree_rounded m w Hv Hm s Hs Hn) as (x & F & Ex & _ & Hr & _). exists x. split; [assumption|apply (rounded_nnan _ _ _ Hr)]. }
  destruct (mpi_bound_max B64_ord m Hw order t size Hsz HP) as (x & Ex & (s & Hs & Es) & Hmax).
  destruct (C24_mpi_maximum B64 B64_ord m order t size Hw Hsz HP) as (x' & y & Ex' & Ey & H1 & H2).
  assert (x' = x) by (rewrite Ex in Ex'; injection Ex' as ->; reflexivity). subst x'.
  destruct (one_tree_rounded m w Hv Hm s Hs Hn) as (z & F & Ez & HF & Hr & _ & Hmin). assert (z = x) by congruence. subst z. specialize (Hmin Hsym).
  exists (edges_cost w F), x, y. repeat (split; [assumption|]).
  intros q Hq. destruct (tour_one_tree m w s q Hs Hn Hsym Hq) as (F' & HF' & <-). apply Hmin. assumption.
Qed.
Print Assumptions C54_one_tree_mpi.

(** ** C55: nearest neighbour *)
Lemma single_rounded (m : namatrix B64) w s : f64_values m w -> moderate w (na_dim m) -> 2 <= na_dim m -> s < na_dim m ->
  exists x p, single_nearest_neighbour m s = Ok (x, p) /\ is_tour (na_dim m) p /\ hd 0 p = s /\ greedy_tour w (na_dim m) p /\
    rounded (na_dim m) x (tour_cost w p).
Proof.
  intros Hv Hm Hn Hs.
  destruct (C25_greedy_tour B64 B64_ord m (na_val m) s (proj1 Hv)) as (x & p & E & Hp & Hh & Hg & He & _); [..|assumption|].
  { intros; apply na_get_val; [apply Hv|assumption..]. }
  { intros i j Hi Hj _. apply (holds_lt_inf _ (w i j)). apply values_val; assumption. }
  exists x, p. repeat (split; [assumption|]). split.
  - intros k v Hk Hvn Hnot. specialize (Hg k v Hk Hvn Hnot).
    assert (Hb : forall j, j < length p -> nth j p 0 < na_dim m) by (intros j Hj; pose proof (tour_Forall _ _ Hp) as HF; rewrite Forall_forall in HF; apply HF, nth_In; assumption).
    rewrite (holds_le _ _ (w (nth k p 0) (nth (S k) p 0)) (w (nth k p 0) v)) in Hg by (apply values_val; try assumption; apply Hb; lia).
    apply Z.leb_le in Hg. assumption.
  - destruct (tour_rounded m w p Hv Hm Hn Hp) as (y & Ey & Hy). specialize (He Hn). assert (y = x) by congruence. subst y. assumption.
Qed.

(** From every start: a tour that goes to a nearest unvisited vertex at each step (in true
    costs, not rounded ones), its cost up to rounding. *)
Theorem C55_greedy_rounded : forall (m : namatrix B64) w s, f64_values m w -> moderate w (na_dim m) -> 2 <= na_dim m -> s < na_dim m ->
  exists x p, single_nearest_neighbour m s = Ok (x, p) /\ is_tour (na_dim m) p /\ hd 0 p = s /\ greedy_tour w (na_dim m) p /\
    rounded (na_dim m) x (tour_cost w p).
Proof. exact single_rounded. Qed.
Print Assumptions C55_greedy_rounded.

Theorem C55_best_start_rounded : forall (m : namatrix B64) w env mode k, f64_values m w -> moderate w (na_dim m) -> 2 <= na_dim m ->
  mode <= 1 -> 1 <= k <= na_dim m ->
  exists starts x p, length starts = k /\ NoDup starts /\ Forall (fun s => s < na_dim m) starts /\
    n_nearest_neighbour env mode m k = Ok (x, p) /\ is_tour (na_dim m) p /\ In (hd 0 p) starts /\ greedy_tour w (na_dim m) p /\
    rounded (na_dim m) x (tour_cost w p) /\
    forall s, In s starts -> exists y q, single_nearest_neighbour m s = Ok (y, q) /\ is_tour (na_dim m) q /\ greedy_tour w (na_dim m) q /\
      (tour_cost w p * (2 ^ 53 - 1) ^ Z.of_nat (na_dim m) <= tour_cost w q * (2 ^ 53 + 1) ^ Z.of_nat (na_dim m))%Z.
Proof.
  intros m w env mode k Hv Hm Hn Hmode Hk.
  destruct (C26_best_start B64 B64_ord m (na_val m) env mode k (proj1 Hv)) as (starts & x & p & L1 & L2 & L3 & E & Hp & _ & (s & Hs & Es) & Hmin); [..|assumption|assumption|].
  { intros; apply na_get_val; [apply Hv|assumption..]. }
  { intros i j Hi Hj _. apply (holds_lt_inf _ (w i j)). apply values_val; assumption. }
  rewrite Forall_forall in L3.
  destruct (single_rounded m w s Hv Hm Hn (L3 s Hs)) as (x' & p' & E' & _ & Hh & Hg & Hr).
  assert (x' = x /\ p' = p) as [-> ->] by (rewrite Es in E'; injection E' as -> ->; auto).
  exists starts, x, p. split; [assumption|]. split; [assumption|]. split; [apply Forall_forall; assumption|].
  split; [assumption|]. split; [assumption|]. split; [congruence|]. split; [assumption|]. split; [assumption|].
  intros t Ht. destruct (single_rounded m w t Hv Hm Hn (L3 t Ht)) as (y & q & Eq & Hq & _ & Hgq & Hry). exists y, q.
  split; [assumption|]. split; [assumption|]. split; [assumption|].
  apply (rounded_le (na_dim m) x y); [assumption..|].
  specialize (Hmin t y q Ht Eq).
  destruct Hr as (a & Ha & _). destruct Hry as (b & Hb & _). rewrite (holds_le _ _ a b Ha Hb).
  unfold olt in Hmin. rewrite (holds_nnan y b Hb), (holds_nnan x a Ha), (holds_lt y x b a Hb Ha) in Hmin. cbn in Hmin.
  apply Z.ltb_ge in Hmin. apply Z.leb_le. assumption.
Qed.
Print Assumptions C55_best_start_rounded.

(** MPI: every process returns the same tour; as good, up to rounding, as from every start *)
Theorem C55_mpi_rounded : forall (m : namatrix B64) w order tree size, f64_values m w -> moderate w (na_dim m) -> 2 <= na_dim m ->
  1 <= size <= na_dim m -> (forall r, r < size -> Permutation (order r) (seq 0 size)) ->
  exists x p, nearest_neighbour_mpi order tree m size = Ok (repeat (x, p) size) /\ is_tour (na_dim m) p /\ greedy_tour w (na_dim m) p /\
    rounded (na_dim m) x (tour_cost w p) /\
    forall s, s < na_dim m -> exists y q, single_nearest_neighbour m s = Ok (y, q) /\ is_tour (na_dim m) q /\ greedy_tour w (na_dim m) q /\
      (tour_cost w p * (2 ^ 53 - 1) ^ Z.of_nat (na_dim m) <= tour_cost w q * (2 ^ 53 + 1) ^ Z.of_nat (na_dim m))%Z.
Proof.
  intros m w order tree size Hv Hm Hn Hsz Hord.
  destruct (C27_all_ranks_agree B64 B64_ord m (na_val m) order tree size (proj1 Hv)) as (x & p & E & Hp & _ & (s & Hs & Es) & Hmin); [..|assumption|assumption|].
  { intros; apply na_get_val; [apply Hv|assumption..]. }
  { intros i j Hi Hj _. apply (holds_lt_inf _ (w i j)). apply values_val; assumption. }
  { intros s c p E. destruct (le_lt_dec (na_dim m) s) as [Hs|Hs]; [rewrite C25_bad_start in E by assumption; discriminate|].
    destruct (single_rounded m w s Hv Hm Hn Hs) as (x & q & E' & _ & _ & _ & Hr). assert (x = c) by congruence. subst x. apply (rounded_nnan _ _ _ Hr). }
  destruct (single_rounded m w s Hv Hm Hn Hs) as (x' & p' & E' & _ & Hh & Hg & Hr).
  assert (x' = x /\ p' = p) as [-> ->] by (rewrite Es in E'; injection E' as -> ->; auto).
  exists x, p. repeat (split; [assumption|]).
  intros t Ht. destruct (single_rounded m w t Hv Hm Hn Ht) as (y & q & Eq & Hq & _ & Hgq & Hry). exists y, q.
  split; [assumption|]. split; [assumption|]. split; [assumption|].
  apply (rounded_le (na_dim m) x y); [assumption..|]. apply (Hmin t y q); assumption.
Qed.
Print Assumptions C55_mpi_rounded.

(** ** A concrete case: distances in tenths, none of them a binary fraction *)
Definition all_pairs (n : nat) (P : nat -> nat -> bool) : bool := forallb (fun i => forallb (P i) (seq 0 n)) (seq 0 n).
Lemma all_pairs_spec n P i j : all_pairs n P = true -> i < n -> j < n -> P i j = true.
Proof.
  unfold all_pairs. rewrite forallb_forall. intros H Hi Hj. specialize (H i ltac:(apply in_seq; lia)).
  rewrite forallb_forall in H. apply H. apply in_seq. lia.
Qed.

Definition ex_units i j := units (na_val ex_drift i j).
Lemma ex_drift_values : f64_values ex_drift ex_units.
Proof. apply values_units; [reflexivity|]. apply Forall_forall. apply forallb_forall. vm_compute. reflexivity. Qed.
Lemma ex_drift_moderate : moderate ex_units (na_dim ex_drift).
Proof.
  split; [|split; [vm_compute; discriminate|]]; intros i j Hi Hj; apply Z.leb_le.
  - apply (all_pairs_spec 4 (fun i j => 0 <=? ex_units i j)%Z); [vm_compute; reflexivity|assumption..].
  - apply (all_pairs_spec 4 (fun i j => Z.of_nat 4 * ex_units i j <=? 2 ^ 2095)%Z); [vm_compute; reflexivity|assumption..].
Qed.
Lemma ex_drift_symmetric : symmetric ex_units (na_dim ex_drift).
Proof.
  intros i j Hi Hj. apply Z.eqb_eq. apply (all_pairs_spec 4 (fun i j => ex_units i j =? ex_units j i)%Z); [vm_compute; reflexivity|assumption..].
Qed.
Example C51_applies : exists x, evaluate_circle (na_adj ex_drift) [0; 1; 3; 2] = Ok x /\ rounded 4 x (tour_cost ex_units [0; 1; 3; 2]).
Proof.
  apply (C51_circle_rounded ex_drift ex_units [0; 1; 3; 2] ex_drift_values ex_drift_moderate); [cbn; lia|]. repeat constructor.
Qed.
(** the sum is rounded: it is not the true cost *)
Example C51_not_exact : match evaluate_circle (na_adj ex_drift) [0; 1; 3; 2] with
  | Ok x => negb (Z.eqb (units x) (tour_cost ex_units [0; 1; 3; 2])) | _ => false end = true.
Proof. vm_compute. reflexivity. Qed.
Example C52_applies : exists x p, naive_solver (na_adj ex_drift) = Ok (x, p) /\ rounded 4 x (tour_cost ex_units p).
Proof.
  destruct (C52_naive_near_optimal ex_drift ex_units ex_drift_values ex_drift_moderate) as (x & p & E & _ & H & _); [cbn; lia|]. exists x, p. auto.
Qed.
Example C52_first_applies : exists x p, first_improved_solver (na_adj ex_drift) = Ok (x, p) /\ rounded 4 x (tour_cost ex_units p).
Proof.
  destruct (C52_first_near_optimal ex_drift ex_units ex_drift_values ex_drift_moderate ex_drift_symmetric) as (x & p & E & _ & _ & H & _); [cbn; lia|]. exists x, p. auto.
Qed.
Example C53_applies : exists g, prim (mkEnv (fun _ => []) (fun _ => RLeaf)) 0 ex_drift = Ok g /\ length g = 4.
Proof.
  destruct (C53_prim_minimum ex_drift ex_units (mkEnv (fun _ => []) (fun _ => RLeaf)) 0 ex_drift_values ex_drift_moderate) as (g & T & E & H & _); [cbn; lia..|]. exists g. auto.
Qed.
Example C54_applies : exists c x, one_tree_lower_bound_seq ex_drift = Ok x /\ rounded 8 x c /\ Z.le c (tour_cost ex_units [0; 1; 3; 2]).
Proof.
  destruct (C54_one_tree_bounds ex_drift ex_units RLeaf ex_drift_values ex_drift_moderate ex_drift_symmetric) as (c & x & E & _ & H & _ & _ & Hq); [cbn; lia|].
  exists c, x. split; [assumption|]. split; [assumption|]. apply Hq. apply is_tour_dec. vm_compute. reflexivity.
Qed.
Example C55_applies : exists x p, single_nearest_neighbour ex_drift 2 = Ok (x, p) /\ hd 0 p = 2 /\ rounded 4 x (tour_cost ex_units p).
Proof.
  destruct (C55_greedy_rounded ex_drift ex_units 2 ex_drift_values ex_drift_moderate) as (x & p & E & _ & H & _ & H'); [cbn; lia..|]. exists x, p. auto.
Qed.
