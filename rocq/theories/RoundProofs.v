(** Rounded sums over paths and trees. *)
From Coq Require Import ZArith Arith Bool List Permutation Lia.
From Flocq Require Import IEEE754.Binary IEEE754.Bits.
From Verif Require Import Num NumB64 Base Spec SpecFacts Data Mst Par MstPar OneTree Dfs Greedy PrimProofs PqProofs MstFacts PqExact
  OneTreeProofs OrderProofs Units Instances.
Import ListNotations.
Local Open Scope Z_scope.

(** The cells of the matrix are finite doubles, of values [w i j * 2^-1074]. *)
Definition f64_values (m : namatrix B64) (w : nat -> nat -> Z) : Prop :=
  na_wf m /\ forall i j, (i < na_dim m)%nat -> (j < na_dim m)%nat -> exists x, na_get m i j = Ok x /\ holds x (w i j).

(** The costs are not negative, and so far below the largest double that no sum overflows:
    [n] times each is at most [2^2095 * 2^-1074 = 2^1021].  (The bound on the number of vertices is beyond any memory.) *)
Definition moderate (w : nat -> nat -> Z) (n : nat) : Prop :=
  nonneg w n /\ Z.of_nat n <= 2 ^ 50 /\ forall i j, (i < n)%nat -> (j < n)%nat -> Z.of_nat n * w i j <= 2 ^ 2095.

Lemma values_val m w i j : f64_values m w -> (i < na_dim m)%nat -> (j < na_dim m)%nat -> holds (na_val m i j) (w i j).
Proof.
  intros [Hwf H] Hi Hj. destruct (H i j Hi Hj) as (x & E & Hx). rewrite na_get_val in E by assumption. injection E as ->. assumption.
Qed.

(** every matrix of finite doubles has such values *)
Lemma values_units (m : namatrix B64) : na_wf m -> Forall (fun x => is_finite 53 1024 x = true) (na_data m) ->
  f64_values m (fun i j => units (na_val m i j)).
Proof.
  intros Hwf Hf. rewrite Forall_forall in Hf. split; [assumption|]. intros i j Hi Hj.
  rewrite na_get_val by assumption. eexists. split; [reflexivity|]. apply holds_units. apply Hf. unfold na_val. apply nth_In.
  rewrite Hwf. apply cell_bound; assumption.
Qed.
Theorem values_exist (m : namatrix B64) : na_wf m -> Forall (fun x => is_finite 53 1024 x = true) (na_data m) -> exists w, f64_values m w.
Proof. intros Hwf Hf. eexists. apply values_units; assumption. Qed.

(** ** Trees *)
Lemma incident_length T v : (length (incident T v) <= 2 * length T)%nat.
Proof.
  unfold incident. induction T as [|[a b] T IH]; cbn [flat_map length fst snd]; [lia|]. rewrite !app_length.
  destruct (b =? v)%nat, (a =? v)%nat; cbn [length]; lia.
Qed.
Lemma incident_length_simple T v : (forall a b, In (a, b) T -> a <> b) -> (length (incident T v) <= length T)%nat.
Proof.
  unfold incident. induction T as [|[a b] T IH]; intros H; cbn [flat_map length fst snd]; [lia|]. rewrite !app_length.
  specialize (IH ltac:(intros; apply H; right; assumption)). specialize (H a b (or_introl eq_refl)).
  destruct (Nat.eqb_spec b v), (Nat.eqb_spec a v); cbn [length]; lia.
Qed.

Lemma incident_In T v x a b : In (x, (a, b)) (incident T v) -> In (a, b) T.
Proof.
  intros Hin. unfold incident in Hin. apply in_flat_map in Hin. destruct Hin as ([a' b'] & HT & Hin). cbn [fst snd] in Hin.
  assert (a' = a /\ b' = b) as [-> ->] by (destruct (b' =? v)%nat; destruct (a' =? v)%nat; cbn in Hin; intuition congruence). assumption.
Qed.

Lemma directed_approx (g : graph B64) (cf : nat -> nat -> C B64) w T n D : length g = n ->
  (forall a b, In (a, b) T -> (a < n)%nat /\ (b < n)%nat /\ 0 <= w a b /\ holds (cf a b) (w a b)) ->
  (forall v, (length (incident T v) <= D)%nat) -> Z.of_nat (D + n) <= 2 ^ 52 -> 2 * edges_cost w T <= 2 ^ 2096 ->
  (forall v, (v < n)%nat -> nth v g [] = adjlist cf T v) ->
  approx (D + n) (directed_edge_weight g) (2 * edges_cost w T) /\ 0 <= edges_cost w T.
Proof.
  intros Hl HT HD Hk Hs Hg.
  assert (Hnn : 0 <= edges_cost w T).
  { assert (G : forall T, (forall a b, In (a, b) T -> 0 <= w a b) -> 0 <= edges_cost w T).
    { clear. unfold edges_cost. induction T as [|[a b] T IH]; intros H; cbn [fold_right fst snd]; [lia|].
      pose proof (H a b (or_introl eq_refl)). specialize (IH ltac:(intros; apply H; right; assumption)). lia. }
    apply G. intros a b H. apply HT in H. tauto. }
  assert (Eg : g = map (adjlist cf T) (seq 0 n)).
  { apply (nth_ext _ _ [] []); [rewrite map_length, seq_length; assumption|]. intros v Hv. rewrite Hl in Hv. rewrite Hg by assumption.
    rewrite (nth_indep _ [] (adjlist cf T n)) by (rewrite map_length, seq_length; assumption).
    rewrite (map_nth (adjlist cf T)). rewrite seq_nth by assumption. reflexivity. }
  split; [|assumption].
  unfold directed_edge_weight. rewrite Eg, map_map.
  pose proof (degree_sum w T n ltac:(intros a b H; destruct (HT a b H) as (? & ? & _); auto)) as Hsum.
  assert (Hpos : forall v, Forall (fun z => 0 <= z) (inc_cost w T v)).
  { intros v. apply Forall_forall. intros z Hz. unfold inc_cost in Hz. apply in_map_iff in Hz. destruct Hz as ([x [a b]] & <- & Hin).
    apply incident_In in Hin. cbn [fst snd]. apply HT in Hin. tauto. }
  assert (Hpos' : forall v, 0 <= zsum (inc_cost w T v)).
  { intros v. specialize (Hpos v). induction Hpos; cbn [zsum fold_right]; [lia|]. unfold zsum in *. lia. }
  rewrite <- Hsum.
  replace n with (length (map (fun x => csum (map e_cost (adjlist cf T x))) (seq 0 n))) at 1 by (rewrite map_length, seq_length; reflexivity).
  apply approx_csum.
  - assert (G : forall l, (forall v, In v l -> zsum (inc_cost w T v) <= 2 ^ 2096) -> Forall2 (approx D) (map (fun x => csum (map e_cost (adjlist cf T x))) l)
      (map (fun v => zsum (inc_cost w T v)) l)).
    { induction l as [|v l IH]; intros Hv; [constructor|]. cbn [map]. constructor; [|apply IH; intros; apply Hv; right; assumption].
      apply (approx_weaken (0 + length (map e_cost (adjlist cf T v)))); [unfold adjlist; rewrite !map_length; apply HD|apply Hpos'|].
      apply approx_csum; [|apply Hpos|apply Hv; left; reflexivity|].
      - unfold adjlist, inc_cost. rewrite map_map. cbn [e_cost].
        assert (G2 : forall l, (forall x a b, In (x, (a, b)) l -> In (a, b) T) ->
          Forall2 (approx 0) (map (fun x : nat * (nat * nat) => cf (fst (snd x)) (snd (snd x))) l) (map (fun x => w (fst (snd x)) (snd (snd x))) l)).
        { clear - HT. induction l as [|[x [a b]] l IH]; intros H; [constructor|]. cbn [map fst snd]. constructor.
          - destruct (HT a b (H x a b (or_introl eq_refl))) as (_ & _ & H1 & H2). apply approx_holds; assumption.
          - apply IH. intros; eapply H; right; eassumption. }
        apply G2. intros x a b. apply incident_In.
      - unfold adjlist. rewrite !map_length. specialize (HD v). lia. }
    apply G. intros v Hv. assert (Hle : zsum (inc_cost w T v) <= 2 * edges_cost w T).
    { rewrite <- Hsum. clear - Hv Hpos'. induction (seq 0 n) as [|u l IH]; [destruct Hv|]. cbn [map]. change (zsum (?a :: ?b)) with (a + zsum b).
      assert (0 <= zsum (map (fun v0 => zsum (inc_cost w T v0)) l)).
      { clear - Hpos'. induction l; cbn [map]; [cbn; lia|]. change (zsum (?a :: ?b)) with (a + zsum b). pose proof (Hpos' a). lia. }
      destruct Hv as [->|Hv]; [lia|]. specialize (IH Hv). pose proof (Hpos' u). lia. }
    lia.
  - apply Forall_forall. intros z Hz. apply in_map_iff in Hz. destruct Hz as (v & <- & _). apply Hpos'.
  - unfold zsum in Hsum at 1. rewrite Hsum. assumption.
  - rewrite map_length, seq_length. assumption.
Qed.

Lemma directed_rounded (g : graph B64) (cf : nat -> nat -> C B64) w T n D : length g = n ->
  (forall a b, In (a, b) T -> (a < n)%nat /\ (b < n)%nat /\ 0 <= w a b /\ holds (cf a b) (w a b)) ->
  (forall v, (length (incident T v) <= D)%nat) -> Z.of_nat (D + n) <= 2 ^ 52 -> 2 * edges_cost w T <= 2 ^ 2096 ->
  (forall v, (v < n)%nat -> nth v g [] = adjlist cf T v) ->
  rounded (D + n) (undirected_edge_weight g) (edges_cost w T).
Proof.
  intros H1 H2 H3 H4 H5 H6. destruct (directed_approx g cf w T n D H1 H2 H3 H4 H5 H6) as [H H0].
  unfold undirected_edge_weight. apply approx_half; assumption.
Qed.

Lemma moderate_edges w n T : moderate w n -> (forall a b, In (a, b) T -> (a < n)%nat /\ (b < n)%nat) -> (length T <= n)%nat ->
  0 <= edges_cost w T /\ 2 * edges_cost w T <= 2 ^ 2096.
Proof.
  intros (Hnn & _ & Hb) HT Hl.
  assert (G : forall T, (forall a b, In (a, b) T -> (a < n)%nat /\ (b < n)%nat) ->
    0 <= edges_cost w T /\ Z.of_nat n * edges_cost w T <= Z.of_nat (length T) * 2 ^ 2095).
  { clear T HT Hl. unfold edges_cost. induction T as [|[a b] T IH]; intros HT; cbn [fold_right fst snd length].
    - rewrite Z.mul_0_r. split; [lia|]. apply Z.mul_nonneg_nonneg; [lia|apply Z.pow_nonneg; lia].
    - destruct (HT a b (or_introl eq_refl)) as [Ha Hb']. specialize (IH ltac:(intros; apply HT; right; assumption)).
      pose proof (Hnn a b Ha Hb'). pose proof (Hb a b Ha Hb'). rewrite Nat2Z.inj_succ. set (P := 2 ^ 2095) in *. clearbody P. nia. }
  destruct (G T HT) as [G1 G2]. split; [assumption|].
  assert (E2 : 2 ^ 2096 = 2 * 2 ^ 2095) by (rewrite <- Z.pow_succ_r by lia; reflexivity).
  rewrite E2. assert (0 < 2 ^ 2095) by (apply Z.pow_pos_nonneg; lia). set (P := 2 ^ 2095) in *. clearbody P.
  destruct (Nat.eq_dec n 0) as [->|Hn].
  - destruct T; [cbn in *; lia|cbn in Hl; lia].
  - assert (Z.of_nat n * edges_cost w T <= Z.of_nat n * P) by nia. nia.
Qed.

(** ** Prim and the 1-tree on arbitrary doubles *)
Section Trees.
Variable m : namatrix B64.
Variable w : nat -> nat -> Z.
Hypothesis Hv : f64_values m w.
Let n := na_dim m.
Hypothesis Hmod : moderate w n.

Lemma values_le a b c d : (a < n)%nat -> (b < n)%nat -> (c < n)%nat -> (d < n)%nat -> a <> b -> c <> d ->
  cle (na_val m a b) (na_val m c d) = (w a b <=? w c d).
Proof. intros. apply holds_le; apply values_val; assumption. Qed.
Lemma values_fin a b : (a < n)%nat -> (b < n)%nat -> a <> b -> clt (na_val m a b) cinf = true.
Proof. intros. apply (holds_lt_inf _ (w a b)). apply values_val; assumption. Qed.

Lemma free_length X : (length (free_vertices n X) <= n)%nat.
Proof. unfold free_vertices. rewrite <- (seq_length n 0) at 2. induction (seq 0 n); cbn; [lia|]. destruct (negb _); cbn; lia. Qed.

Lemma prim_rounded X : Forall (fun x => (x < n)%nat) X -> (exists v, (v < n)%nat /\ ~ In v X) ->
  exists g T, prim_with_excluded_node_single_threaded m X = Ok g /\ length g = n /\
    spanning_tree (free_vertices n X) T /\
    (forall v, (v < n)%nat -> nth v g [] = adjlist (na_val m) T v) /\
    rounded (2 * n) (undirected_edge_weight g) (edges_cost w T) /\ 0 <= edges_cost w T /\
    (symmetric w n -> forall T', spanning_tree (free_vertices n X) T' -> edges_cost w T <= edges_cost w T').
Proof.
  intros HX Hex. destruct (prim_order B64_ord m (proj1 Hv) w values_le values_fin X HX Hex) as (g & T & Eg & Hl & Hsp & Hne & Hadj & Hmin).
  fold n in Hl, Hsp, Hadj, Hmin. exists g, T. do 4 (split; [assumption|]).
  assert (HT : forall a b, In (a, b) T -> (a < n)%nat /\ (b < n)%nat).
  { intros a b Hin. destruct Hsp as [Hs _]. destruct (Hs a b Hin) as [H1 H2]. apply free_In in H1, H2. tauto. }
  assert (HlT : (length T <= n)%nat) by (destruct Hsp as (_ & _ & Hlen); pose proof (free_length X); lia).
  destruct (moderate_edges w n T Hmod HT HlT) as [H0 Hs]. split; [|split; assumption].
  replace (2 * n)%nat with (n + n)%nat by lia. destruct Hmod as (Hnn & Hn & _).
  apply (directed_rounded g (na_val m) w T n); try assumption.
  - intros a b Hin. destruct (HT a b Hin). split; [assumption|]. split; [assumption|]. split; [apply Hnn; assumption|apply values_val; assumption].
  - intros v. pose proof (incident_length_simple T v Hne). lia.
  - lia.
Qed.

(** the weight that counts every edge twice, as the solvers use it *)
Lemma prim_directed X : Forall (fun x => (x < n)%nat) X -> (exists v, (v < n)%nat /\ ~ In v X) ->
  exists g T, prim_with_excluded_node_single_threaded m X = Ok g /\
    spanning_tree (free_vertices n X) T /\
    approx (3 * n) (directed_edge_weight g) (2 * edges_cost w T) /\ 0 <= edges_cost w T /\
    (symmetric w n -> forall T', spanning_tree (free_vertices n X) T' -> edges_cost w T <= edges_cost w T').
Proof.
  intros HX Hex. destruct (prim_rounded X HX Hex) as (g & T & Eg & Hl & Hsp & Hadj & _ & H0 & Hmin).
  exists g, T. split; [assumption|]. split; [assumption|].
  assert (HT : forall a b, In (a, b) T -> (a < n)%nat /\ (b < n)%nat).
  { intros a b Hin. destruct Hsp as [Hs _]. destruct (Hs a b Hin) as [H1 H2]. apply (free_In m) in H1, H2. tauto. }
  assert (HlT : (length T <= n)%nat) by (destruct Hsp as (_ & _ & Hlen); pose proof (free_length X); lia).
  destruct (moderate_edges w n T Hmod HT HlT) as [_ Hs]. split; [|split; assumption].
  replace (3 * n)%nat with (2 * n + n)%nat by lia. destruct Hmod as (Hnn & Hn & _).
  apply (directed_approx g (na_val m) w T n); try assumption.
  - intros a b Hin. destruct (HT a b Hin). split; [assumption|]. split; [assumption|]. split; [apply Hnn; assumption|apply values_val; assumption].
  - intros v. pose proof (incident_length T v). lia.
  - lia.
Qed.

Lemma prim_pq_rounded pick X : Forall (fun x => (x < n)%nat) X -> (exists v, (v < n)%nat /\ ~ In v X) ->
  exists g T, prim_with_excluded_node_priority_queue pick m X = Ok g /\
    spanning_tree (free_vertices n X) T /\
    rounded (3 * n) (undirected_edge_weight g) (edges_cost w T) /\ 0 <= edges_cost w T /\
    (symmetric w n -> forall T', spanning_tree (free_vertices n X) T' -> edges_cost w T <= edges_cost w T').
Proof.
  intros HX Hex.
  destruct (prim_pq_spec B64_ord m (proj1 Hv) values_fin pick X HX Hex) as (g & P & start & R & Eg & Hl & Hgr & HP & Hadj & HPn).
  fold n in Hl, HP, Hadj, HPn.
  set (T := map snd P) in *.
  assert (Hsp0 : spanning_tree (start :: R) T) by (eapply greedy_spanning; eauto).
  assert (Hsp : spanning_tree (free_vertices n X) T).
  { destruct Hsp0 as (H1 & H2 & H3). split; [|split].
    - intros a b Hin. destruct (H1 a b Hin). split; apply (Permutation_in _ (Permutation_sym HP)); assumption.
    - intros a b Ha Hb. apply H2; apply (Permutation_in _ HP); assumption.
    - rewrite H3. symmetry. apply Permutation_length. assumption. }
  assert (Hfr : forall a, In a (free_vertices n X) -> (a < n)%nat) by (intros a Ha; apply (free_In m) in Ha; tauto).
  assert (HTn : forall a b, In (a, b) T -> (a < n)%nat /\ (b < n)%nat).
  { intros a b Hin. destruct Hsp as [Hs _]. destruct (Hs a b Hin). auto. }
  assert (Hnd : NoDup (start :: R)) by (apply (Permutation_NoDup HP), (free_NoDup m)).
  assert (Hnd2 : NoDup (map snd T)).
  { apply (Permutation_NoDup (Permutation_sym (greedy_heads _ _ _ _ Hgr))). inversion Hnd; assumption. }
  assert (HlT : (length T <= n)%nat) by (destruct Hsp as (_ & _ & Hlen); pose proof (free_length X); lia).
  destruct (moderate_edges w n T Hmod HTn HlT) as [H0 Hs].
  exists g, T. split; [assumption|]. split; [assumption|]. split; [|split; [assumption|]].
  - set (w' := fun (_ b : nat) => w (source T b) b). set (cf' := fun (_ b : nat) => na_val m (source T b) b). set (T' := map (fun p => (fst p, snd (snd p))) P).
    assert (Hw' : forall p, In p P -> w' (fst p) (snd (snd p)) = w (fst (snd p)) (snd (snd p)) /\ cf' (fst p) (snd (snd p)) = na_val m (fst (snd p)) (snd (snd p))).
    { intros [l [u v]] Hp. unfold w', cf'. cbn [fst snd]. rewrite (source_In T u v Hnd2); [auto|].
      apply (in_map snd) in Hp. exact Hp. }
    clearbody w' cf'.
    assert (HPT : forall p, In p P -> (fst p < n)%nat /\ (fst (snd p) < n)%nat /\ (snd (snd p) < n)%nat).
    { intros [l [u v]] Hp. rewrite Forall_forall in HPn. pose proof (HPn _ Hp). apply (in_map snd) in Hp. cbn [fst snd] in *.
      destruct (HTn u v Hp). auto. }
    assert (Ew : edges_cost w' T' = edges_cost w T).
    { unfold T', T. clear -Hw'. induction P as [|p P IH]; [reflexivity|]. unfold edges_cost in *. cbn [map fold_right fst snd].
      rewrite IH by (intros; apply Hw'; right; assumption). rewrite (proj1 (Hw' p (or_introl eq_refl))). reflexivity. }
    assert (HlT' : length T' = length T) by (unfold T', T; rewrite !map_length; reflexivity).
    rewrite <- Ew. replace (3 * n)%nat with (2 * n + n)%nat by lia. destruct Hmod as (Hnn & Hn & _).
    apply (directed_rounded g cf' w' T' n); try assumption.
    + intros a b Hin. unfold T' in Hin. apply in_map_iff in Hin. destruct Hin as (p & Heq & Hp). injection Heq as <- <-.
      destruct (HPT p Hp) as (H1 & H2 & H3). destruct (Hw' p Hp) as [-> ->]. repeat (split; [first [assumption|apply Hnn; assumption]|]).
      apply values_val; assumption.
    + intros v. pose proof (incident_length T' v). lia.
    + lia.
    + rewrite Ew. assumption.
    + intros v Hv'. rewrite Hadj by assumption. unfold T'. clear -Hw'.
      induction P as [|p P IH]; [reflexivity|].
      unfold adj3, adjlist in *. cbn [map flat_map]. rewrite IH by (intros; apply Hw'; right; assumption).
      unfold incident. cbn [flat_map fst snd]. rewrite !map_app. f_equal.
      destruct (Hw' p (or_introl eq_refl)) as [_ H4].
      destruct (snd (snd p) =? v)%nat, (fst p =? v)%nat; cbn [map app fst snd]; rewrite ?H4; reflexivity.
  - intros Hsym T' HT'. apply (greedy_min_spanning w (ele m) start R T (free_vertices n X) T'); try assumption.
    + intros a b c d Ha Hb Hc Hd. unfold ele. cbn [fst snd]. intros Hab Hcd Hle.
      rewrite values_le in Hle by auto. lia.
    + apply (free_NoDup m).
    + intros a b Ha Hb. apply Hsym; auto.
Qed.

Lemma one_tree_rounded s : (s < n)%nat -> (3 <= n)%nat ->
  exists x F, one_tree_weight m s = Ok x /\ one_tree_at n s F /\ rounded (2 * n) x (edges_cost w F) /\ 0 <= edges_cost w F /\
    (symmetric w n -> forall F', one_tree_at n s F' -> edges_cost w F <= edges_cost w F').
Proof.
  intros Hs Hn. destruct (one_tree_order B64_ord m (proj1 Hv) w values_le values_fin s Hs Hn) as (g & F & Eg & HF & HlF & Hl & Hne & Hadj & Hmin).
  fold n in HF, HlF, Hl, Hne, Hadj, Hmin.
  exists (undirected_edge_weight g), F. split; [unfold one_tree_weight; rewrite Eg; reflexivity|]. split; [assumption|].
  destruct (moderate_edges w n F Hmod) as [H0 H1]; [intros a b Hin; apply Hne in Hin; tauto|lia|]. split; [|split; assumption].
  replace (2 * n)%nat with (n + n)%nat by lia. destruct Hmod as (Hnn & Hn' & _).
  apply (directed_rounded g (na_val m) w F n); try assumption.
  - intros a b Hin. destruct (Hne a b Hin) as (? & ? & _). repeat (split; [first [assumption|apply Hnn; assumption]|]). apply values_val; assumption.
  - intros v. pose proof (incident_length_simple F v). rewrite HlF in H. apply H. intros a b Hin. apply Hne in Hin. tauto.
  - lia.
Qed.
End Trees.
