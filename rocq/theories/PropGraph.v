(** C70: graphs built through the interface of [Graph] (parser.rs:66-122). *)
From Coq Require Import ZArith Arith Bool List Permutation Lia.
From Verif Require Import Num NumB64 Base Spec SpecFacts Data MstFacts Instances.
Import ListNotations.
Local Open Scope nat_scope.

(** A graph of [n] vertices without edges ([Graph::from(vec![vec![]; n])]) to which the
    undirected edges [es] are added one after the other. *)
Definition build {N : Num} (n : nat) (es : list (nat * nat * C N)) : res (graph N) :=
  foldM (fun g '(u, v, c) => add_undirected_edge g u v c) es (repeat [] n).

(** What vertex [x] must have: for every edge in turn its other end, for a loop both ends. *)
Definition ends_at {N : Num} (x : nat) (es : list (nat * nat * C N)) : list (edge N) :=
  flat_map (fun '(u, v, c) => (if u =? x then [mkEdge v c] else []) ++ (if v =? x then [mkEdge u c] else [])) es.

(** How often [x] is an end of an edge. *)
Definition times_end {N : Num} (x : nat) (es : list (nat * nat * C N)) : nat :=
  list_sum (map (fun '(u, v, _) => (if u =? x then 1 else 0) + (if v =? x then 1 else 0)) es).

Lemma add_edge_spec {N : Num} (g : graph N) u v c : u < length g -> v < length g ->
  exists g', add_undirected_edge g u v c = Ok g' /\ length g' = length g /\
    forall x, x < length g -> nth x g' [] = nth x g [] ++ ends_at x [(u, v, c)].
Proof.
  intros Hu Hv. unfold add_undirected_edge.
  rewrite (modify_res_Ok g u _ []) by assumption. cbn [bind].
  rewrite (modify_res_Ok _ v _ []) by (rewrite upd_length; assumption).
  eexists. split; [reflexivity|]. split; [rewrite !upd_length; reflexivity|]. intros x Hx. unfold ends_at. cbn [flat_map]. rewrite app_nil_r.
  destruct (Nat.eqb_spec u x) as [->|Nu], (Nat.eqb_spec v x) as [->|Nv]; cbn [app].
  - rewrite !nth_upd_eq by (rewrite ?upd_length; assumption). rewrite <- app_assoc. reflexivity.
  - rewrite nth_upd_neq, nth_upd_eq by assumption. reflexivity.
  - rewrite nth_upd_eq by (rewrite upd_length; assumption). rewrite nth_upd_neq by assumption. reflexivity.
  - rewrite !nth_upd_neq, app_nil_r by assumption. reflexivity.
Qed.

Lemma build_spec {N : Num} n (es : list (nat * nat * C N)) : (forall u v c, In (u, v, c) es -> u < n /\ v < n) ->
  exists g, build n es = Ok g /\ length g = n /\ forall x, x < n -> nth x g [] = ends_at x es.
Proof.
  intros Hes. unfold build.
  destruct (foldM_inv (fun g '(u, v, c) => add_undirected_edge g u v c)
    (fun pre (g : graph N) => length g = n /\ forall x, x < n -> nth x g [] = ends_at x pre) es (repeat [] n)) as (g & E & H).
  - split; [apply repeat_length|]. intros x Hx. apply nth_repeat.
  - intros pre [[u v] c] post g Epre [Hl Hg]. destruct (Hes u v c) as [Hu Hv]; [rewrite Epre; apply in_elt|].
    destruct (add_edge_spec g u v c) as (g' & E' & Hl' & Hg'); [lia|lia|]. exists g'. split; [exact E'|]. split; [lia|].
    intros x Hx. rewrite Hg', Hg by lia. unfold ends_at. rewrite flat_map_app. reflexivity.
  - exists g. split; [exact E|]. exact H.
Qed.

Lemma ends_times {N : Num} x (es : list (nat * nat * C N)) : length (ends_at x es) = times_end x es.
Proof.
  unfold ends_at, times_end. induction es as [|[[u v] c] es IH]; [reflexivity|]. cbn [flat_map map list_sum fold_right]. rewrite !app_length, IH.
  unfold list_sum. destruct (u =? x), (v =? x); reflexivity.
Qed.

(** Every edge stands at both its ends, with its cost, in the order of insertion; the degree
    counts the ends. *)
Theorem C70_edges : forall (N : Num) n (es : list (nat * nat * C N)), (forall u v c, In (u, v, c) es -> u < n /\ v < n) ->
  exists g, build n es = Ok g /\ length g = n /\
    forall x, x < n -> nth x g [] = ends_at x es /\ vertex_degree g x = Ok (times_end x es).
Proof.
  intros N n es Hes. destruct (build_spec n es Hes) as (g & E & Hl & Hg). exists g. split; [exact E|]. split; [exact Hl|].
  intros x Hx. split; [apply Hg; assumption|]. unfold vertex_degree. rewrite (nth_res_nth g x []) by lia. cbn [bind]. rewrite Hg by assumption.
  rewrite ends_times. reflexivity.
Qed.
Print Assumptions C70_edges.

(** The degrees sum up to twice the number of edges. *)
Theorem C70_degree_sum : forall (N : Num) n (es : list (nat * nat * C N)) g, (forall u v c, In (u, v, c) es -> u < n /\ v < n) ->
  build n es = Ok g -> exists ds, mapM (vertex_degree g) (seq 0 n) = Ok ds /\ list_sum ds = 2 * length es.
Proof.
  intros N n es g Hes E. destruct (C70_edges N n es Hes) as (g' & E' & Hl & Hg). assert (g' = g) by congruence. subst g'.
  exists (map (fun x => times_end x es) (seq 0 n)). split.
  - assert (G : forall l, (forall x, In x l -> x < n) -> mapM (vertex_degree g) l = Ok (map (fun x => times_end x es) l)).
    { induction l as [|x l IH]; intros Hx; [reflexivity|]. cbn [mapM map]. rewrite (proj2 (Hg x ltac:(apply Hx; left; reflexivity))). cbn [bind].
      rewrite IH by (intros; apply Hx; right; assumption). reflexivity. }
    apply G. intros x Hx. apply in_seq in Hx. lia.
  - clear E Hg g Hl E'. induction es as [|[[u v] c] es IH].
    + assert (G : forall l : list nat, list_sum (map (fun x => times_end x (@nil (nat * nat * C N))) l) = 0) by (induction l as [|x l IHl]; [reflexivity|exact IHl]). apply G.
    + assert (Hone : forall y, y < n -> list_sum (map (fun x => if y =? x then 1 else 0) (seq 0 n)) = 1).
      { intros y Hy. assert (G : forall k a, list_sum (map (fun x => if y =? x then 1 else 0) (seq a k)) = if (a <=? y) && (y <? a + k) then 1 else 0).
        { induction k as [|k IHk]; intros a; [cbn [seq map list_sum fold_right]; destruct (Nat.leb_spec a y), (Nat.ltb_spec y (a + 0)); cbn [andb]; lia|].
          cbn [seq map list_sum fold_right]. unfold list_sum in IHk. rewrite IHk.
          destruct (Nat.eqb_spec y a), (Nat.leb_spec (S a) y), (Nat.leb_spec a y), (Nat.ltb_spec y (S a + k)), (Nat.ltb_spec y (a + S k)); cbn [andb]; lia. }
        rewrite G. cbn [Nat.leb andb Nat.add]. destruct (Nat.ltb_spec y n); lia. }
      destruct (Hes u v c (or_introl eq_refl)) as [Hu Hv].
      assert (Hsplit : forall l, list_sum (map (fun x => times_end x ((u, v, c) :: es)) l) =
        list_sum (map (fun x => if u =? x then 1 else 0) l) + list_sum (map (fun x => if v =? x then 1 else 0) l) + list_sum (map (fun x => times_end x es) l)).
      { induction l as [|x l IHl]; [reflexivity|]. cbn [map list_sum fold_right]. unfold list_sum in IHl. rewrite IHl. unfold times_end at 1. cbn [map list_sum fold_right].
        unfold times_end, list_sum. lia. }
      rewrite Hsplit, !Hone, IH by (try assumption; intros u' v' c' Hi; apply (Hes u' v' c'); right; assumption). cbn [length]. lia.
Qed.
Print Assumptions C70_degree_sum.

(** A vertex out of range is refused. *)
Theorem C70_out_of_range_panics : forall (N : Num) n (es : list (nat * nat * C N)),
  (exists u v c, In (u, v, c) es /\ ~ (u < n /\ v < n)) -> build n es = Panic.
Proof.
  intros N n es (u & v & c & Hin & Hout). unfold build.
  assert (G : forall es (g : graph N), length g = n -> In (u, v, c) es -> foldM (fun g '(u, v, c) => add_undirected_edge g u v c) es g = Panic).
  { clear es Hin. induction es as [|[[u' v'] c'] es IH]; intros g Hl Hin; [destruct Hin|]. destruct Hin as [E|Hin]; cbn [foldM].
    - injection E as -> -> ->. unfold add_undirected_edge, modify_res. destruct (nth_error g u) as [x|] eqn:Eu; [|reflexivity]. cbn [bind].
      destruct (nth_error (upd g u _) v) as [y|] eqn:Ev; [|reflexivity]. exfalso. apply Hout.
      split; [rewrite <- Hl; apply nth_error_Some; congruence|].
      rewrite <- Hl. erewrite <- (upd_length g u). apply nth_error_Some. rewrite Ev. discriminate.
    - destruct (le_lt_dec n u') as [Hu|Hu].
      { unfold add_undirected_edge, modify_res. rewrite (proj2 (nth_error_None g u')) by lia. reflexivity. }
      destruct (le_lt_dec n v') as [Hv|Hv].
      { unfold add_undirected_edge. rewrite (modify_res_Ok g u' _ []) by lia. cbn [bind]. unfold modify_res.
        rewrite (proj2 (nth_error_None _ v')) by (rewrite upd_length; lia). reflexivity. }
      destruct (add_edge_spec g u' v' c') as (g' & -> & Hl' & _); [lia|lia|]. cbn [bind]. apply IH; [lia|assumption]. }
  apply G; [apply repeat_length|assumption].
Qed.
Print Assumptions C70_out_of_range_panics.

(** ** Weights *)
Local Open Scope Z_scope.

Definition costs_at (x : nat) (es : list (nat * nat * Z)) : list Z :=
  flat_map (fun '(u, v, c) => (if (u =? x)%nat then [c] else []) ++ (if (v =? x)%nat then [c] else [])) es.

Lemma ends_costs {N : Num} (f : Z -> C N) x es :
  map e_cost (ends_at x (map (fun '(u, v, z) => (u, v, f z)) es)) = map f (costs_at x es).
Proof.
  unfold ends_at, costs_at. induction es as [|[[u v] z] es IH]; [reflexivity|]. cbn [map flat_map]. rewrite !map_app, IH.
  destruct (u =? x)%nat, (v =? x)%nat; reflexivity.
Qed.

Lemma zsum_add (f g : nat -> Z) l : zsum (map (fun x => f x + g x) l) = zsum (map f l) + zsum (map g l).
Proof. induction l as [|x l IH]; [reflexivity|]. cbn [map zsum fold_right]. unfold zsum in IH. rewrite IH. unfold zsum. lia. Qed.

(** Summed over all vertices, every edge counts twice. *)
Lemma costs_twice (f : Z -> Z) n es : (forall u v c, In (u, v, c) es -> (u < n)%nat /\ (v < n)%nat) ->
  zsum (map (fun x => zsum (map f (costs_at x es))) (seq 0 n)) = 2 * zsum (map (fun e => f (snd e)) es).
Proof.
  induction es as [|[[u v] z] es IH]; intros Hes.
  - assert (G : forall l : list nat, zsum (map (fun x => zsum (map f (costs_at x []))) l) = 0) by (induction l as [|x l IHl]; [reflexivity|exact IHl]). apply G.
  - destruct (Hes u v z (or_introl eq_refl)) as [Hu Hv].
    rewrite (map_ext _ (fun x => ((if (u =? x)%nat then f z else 0) + (if (v =? x)%nat then f z else 0)) + zsum (map f (costs_at x es)))).
    2:{ intros x. unfold costs_at. cbn [flat_map]. rewrite map_app, zsum_app. destruct (u =? x)%nat, (v =? x)%nat; cbn; lia. }
    rewrite !zsum_add, !zsum_indicator, IH by (try assumption; intros u' v' c' Hi; apply (Hes u' v' c'); right; assumption).
    cbn [map zsum fold_right snd]. unfold zsum. lia.
Qed.

Lemma build_weight {N B} (E : Exact N B) n es g : (forall u v c, In (u, v, c) es -> (u < n)%nat /\ (v < n)%nat) ->
  2 * zabs_sum (map snd es) <= B -> build n (map (fun '(u, v, z) => (u, v, inj E z)) es) = Ok g ->
  directed_edge_weight g = inj E (2 * zsum (map snd es)) /\ undirected_edge_weight g = inj E (zsum (map snd es)).
Proof.
  intros Hes HB Eg. destruct (build_spec n (map (fun '(u, v, z) => (u, v, inj E z)) es)) as (g' & E' & Hl & Hg).
  { intros u v c Hin. apply in_map_iff in Hin as ([[u' v'] z'] & Ee & Hin). injection Ee as -> -> _. exact (Hes _ _ _ Hin). }
  assert (g' = g) by congruence. subst g'. clear E'.
  assert (Habs : zsum (map (fun x => zabs_sum (costs_at x es)) (seq 0 n)) = 2 * zabs_sum (map snd es)).
  { unfold zabs_sum. rewrite (costs_twice Z.abs n es Hes), map_map. reflexivity. }
  assert (Hsum : zsum (map (fun x => zsum (costs_at x es)) (seq 0 n)) = 2 * zsum (map snd es)).
  { change (map snd es) with (map (fun e => (fun z => z) (snd e)) es). pose proof (costs_twice (fun z => z) n es Hes) as Ht. cbv beta in Ht |- *.
    rewrite <- Ht. f_equal. apply map_ext. intros x. rewrite map_id. reflexivity. }
  assert (Hone : forall x, In x (seq 0 n) -> zabs_sum (costs_at x es) <= B).
  { intros x Hx. assert (G : forall l, In x l -> zabs_sum (costs_at x es) <= zsum (map (fun x => zabs_sum (costs_at x es)) l)).
    { clear. induction l as [|y l IH]; [intros []|]. intros [->|Hin]; cbn [map zsum fold_right].
      - assert (0 <= zsum (map (fun x => zabs_sum (costs_at x es)) l)) by (clear; induction l as [|y l IH]; cbn; [lia|pose proof (zabs_sum_nonneg (costs_at y es)); unfold zsum in IH; lia]).
        unfold zsum in H. lia.
      - pose proof (zabs_sum_nonneg (costs_at y es)). specialize (IH Hin). unfold zsum in IH. lia. }
    specialize (G _ Hx). lia. }
  assert (Hd : directed_edge_weight g = inj E (2 * zsum (map snd es))).
  { unfold directed_edge_weight. rewrite <- Hsum, <- csum_inj.
    - f_equal. rewrite map_map.
      assert (Hgs : g = map (fun x => ends_at x (map (fun '(u, v, z) => (u, v, inj E z)) es)) (seq 0 n)).
      { apply (nth_ext _ _ [] []); [rewrite map_length, seq_length; exact Hl|]. intros x Hx. rewrite Hl in Hx. rewrite (Hg x Hx).
        rewrite (nth_indep _ [] (ends_at 0%nat (map (fun '(u, v, z) => (u, v, inj E z)) es)))
          by (rewrite map_length, seq_length; exact Hx).
        rewrite map_nth with (f := fun x => ends_at x (map (fun '(u, v, z) => (u, v, inj E z)) es)), seq_nth by exact Hx. reflexivity. }
      rewrite Hgs, map_map. apply map_ext_in. intros x Hx. rewrite ends_costs. apply csum_inj. exact (Hone x Hx).
    - rewrite <- Habs in HB. refine (Z.le_trans _ _ _ _ HB). clear. unfold zabs_sum at 1. rewrite map_map.
      induction (seq 0 n) as [|x l IH]; cbn; [lia|]. pose proof (zsum_abs (costs_at x es)). unfold zsum in *. lia. }
  split; [exact Hd|]. unfold undirected_edge_weight. rewrite Hd. apply inj_half.
  pose proof (zsum_abs (map snd es)). lia.
Qed.

(** The weight of the graph is the sum of the costs of the edges, each counted once. *)
Theorem C70_weight : forall n es g, (forall u v z, In (u, v, z) es -> (u < n)%nat /\ (v < n)%nat) ->
  build n (map (fun '(u, v, z) => (u, v, Fin z : C EZ)) es) = Ok g ->
  directed_edge_weight g = Fin (2 * zsum (map snd es)) /\ undirected_edge_weight g = Fin (zsum (map snd es)).
Proof. intros n es g Hes Eg. exact (build_weight (EZ_exact (2 * zabs_sum (map snd es))) n es g Hes (Z.le_refl _) Eg). Qed.
Print Assumptions C70_weight.

(** In binary64, for integers times a power of two, as long as nothing is rounded. *)
Theorem C70_weight_f64 : forall e (He : -1074 <= e <= 970) n es g, (forall u v z, In (u, v, z) es -> (u < n)%nat /\ (v < n)%nat) ->
  2 * zabs_sum (map snd es) <= 2 ^ 53 ->
  build n (map (fun '(u, v, z) => (u, v, b64_inj e z : C B64)) es) = Ok g ->
  directed_edge_weight g = b64_inj e (2 * zsum (map snd es)) /\ undirected_edge_weight g = b64_inj e (zsum (map snd es)).
Proof. intros e He n es g Hes HB Eg. exact (build_weight (B64_exact e He) n es g Hes HB Eg). Qed.
Print Assumptions C70_weight_f64.

(** Four vertices, a double edge, a loop, a negative cost, a vertex without edges. *)
Definition ex_edges : list (nat * nat * Z) := [(0%nat, 1%nat, 4); (1%nat, 2%nat, -3); (2%nat, 2%nat, 5); (0%nat, 1%nat, 1)].

Example C70_applies : (forall u v z, In (u, v, z) ex_edges -> (u < 4)%nat /\ (v < 4)%nat) /\
  (exists g, build 4 (map (fun '(u, v, z) => (u, v, Fin z : C EZ)) ex_edges) = Ok g /\
     mapM (vertex_degree g) (seq 0 4) = Ok [2; 3; 3; 0]%nat /\ undirected_edge_weight g = Fin 7) /\
  2 * zabs_sum (map snd ex_edges) <= 2 ^ 53 /\
  (exists u v c, In (u, v, c) (map (fun '(u, v, z) => (u, v, Fin z : C EZ)) ex_edges) /\ ~ ((u < 2)%nat /\ (v < 2)%nat)).
Proof.
  split; [|split; [|split]].
  - intros u v z H. cbn in H. repeat (destruct H as [H|H]; [injection H; intros; lia|]). destruct H.
  - eexists. split; [|split]; reflexivity.
  - vm_compute. discriminate.
  - exists 1%nat, 2%nat, (Fin (-3)). split; [right; left; reflexivity|lia].
Qed.
