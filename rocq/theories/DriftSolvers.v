(** The depth-first solvers on arbitrary doubles: what they find. *)
From Coq Require Import ZArith NArith Arith Bool List Permutation Lia.
From Flocq Require Import IEEE754.Binary IEEE754.Bits.
From Verif Require Import Num NumB64 Base Spec SpecFacts Data Mst Exact Threaded Dfs Greedy PrimProofs MstFacts ExactProofs
  SearchProofs Units RoundProofs DriftProofs.
Import ListNotations.

(** few roundings add little *)
Lemma within_excess k c z : (Z.of_nat k <= 2 ^ 52)%Z -> (0 <= z)%Z -> within k c z -> ((c - z) * 2 ^ 53 <= 2 * Z.of_nat k * z)%Z.
Proof.
  intros Hk Hz Hw. pose proof (within_double k c z Hk Hz Hw) as H2. pose proof (within_nonneg k c z Hz Hw) as H0. destruct Hw as [_ H].
  pose proof (bernoulli k ltac:(lia)) as B.
  pose proof (pow_pos (2 ^ 53) k ltac:(lia)). pose proof (pow_pos (2 ^ 53 + 1) k ltac:(lia)).
  set (r := ((2 ^ 53 + 1) ^ Z.of_nat k)%Z) in *. set (q := ((2 ^ 53) ^ Z.of_nat k)%Z) in *. clearbody r q.
  set (u := (2 ^ 53)%Z) in *. assert (Hu : (Z.of_nat k <= u)%Z) by (assert (u = 2 * 2 ^ 52)%Z by reflexivity; lia). clearbody u.
  set (k' := Z.of_nat k) in *. assert (0 <= k')%Z by (unfold k'; lia). clearbody k'.
  assert (K3 : (c * q * (u - k') <= z * r * (u - k'))%Z) by (apply Z.mul_le_mono_nonneg_r; lia).
  assert (K4 : (z * (r * (u - k')) <= z * (q * u))%Z) by (apply Z.mul_le_mono_nonneg_l; assumption).
  assert (K5 : (q * (c * (u - k')) <= q * (z * u))%Z) by lia.
  apply Z.mul_le_mono_pos_l in K5; [|assumption]. nia.
Qed.

Lemma spread P s t e : (0 < P)%Z -> (Z.abs (s - t) * P <= e)%Z -> (s * P <= t * P + e /\ t * P <= s * P + e)%Z.
Proof. intros HP H. assert ((s - t) * P <= e /\ (t - s) * P <= e)%Z by nia. lia. Qed.
Lemma scale P a b : (0 < P)%Z -> (a <= b)%Z -> (a * P <= b * P)%Z.
Proof. intros. apply Z.mul_le_mono_nonneg_r; lia. Qed.

Section Solvers.
Variable m : namatrix B64.
Variable w : nat -> nat -> Z.
Variable W : Z.
Hypothesis Hv : f64_values m w.
Let n := na_dim m.
Hypothesis Hn : 1 <= n.
Hypothesis Hsz : sized w n W.
Let g := na_adj m.
Let M := ((Z.of_nat n + 1) * W)%Z.

Let Hval : forall i j, i < a_dim g -> j < a_dim g -> exists x, a_get g i j = Ok x /\ holds x (w i j).
Proof. intros i j Hi Hj. apply Hv; assumption. Qed.
Let HW0 : (0 <= W)%Z. Proof. exact (W0 g w W Hn Hsz). Qed.
Let HM0 : (0 <= M)%Z. Proof. unfold M. nia. Qed.
Let Hmod : moderate w n. Proof. apply (sized_moderate w n W Hn Hsz). Qed.

(** the tree weight that is added to the cost of a prefix *)
Lemma prim_near p : NoDup p -> Forall (fun i => i < n) p -> 1 <= length p ->
  exists lg x L, prim_with_excluded_node_single_threaded m p = Ok lg /\ holds (directed_edge_weight lg) L /\
    (0 <= L <= (2 * Z.of_nat n + 1) * W)%Z /\ ((L - 2 * x) * 2 ^ 53 <= 12 * Z.of_nat n * M)%Z /\ (0 <= x)%Z /\
    (symmetric w n -> forall q, is_tour n q -> extends p q -> (path_cost w p + x <= tour_cost w q)%Z).
Proof.
  intros Hnd Hr Hl. pose proof Hsz as (Hnn & Hub & Hbig & Hsm).
  destruct (Nat.eq_dec (length p) n) as [Hfull|Hnf].
  - assert (Ht : is_tour n p) by (apply tour_intro; assumption).
    exists [], 0%Z, 0%Z. split; [apply (prim_single_none (N := B64)); intros v Hv'; apply (tour_In n p v Ht); assumption|].
    split; [apply holds_0|]. split; [nia|]. split; [nia|]. split; [lia|]. intros _ q Hq [r ->].
    pose proof (prefix_cost_le w n p r Hnn (tour_Forall n _ Hq)). lia.
  - assert (Hex : exists v, v < n /\ ~ In v p).
    { destruct (existsb (fun v => negb (memb v p)) (seq 0 n)) eqn:Ee.
      - apply existsb_exists in Ee. destruct Ee as (v & Hv' & Ev). apply in_seq in Hv'. exists v.
        split; [lia|]. apply memb_nIn. destruct (memb v p); [discriminate|reflexivity].
      - exfalso. pose proof (in_range_length p n Hnd Hr). assert (Hi : incl (seq 0 n) p).
        { intros v Hv'. apply memb_In. destruct (memb v p) eqn:Em; [reflexivity|].
          assert (true = false); [|discriminate]. rewrite <- Ee. symmetry. apply existsb_exists. exists v. rewrite Em. auto. }
        apply NoDup_incl_length in Hi; [|apply seq_NoDup]. rewrite seq_length in Hi. lia. }
    destruct (prim_directed m w Hv Hmod p Hr Hex) as (lg & T & Eg & Hsp & (L & HL & HwL & _) & H0 & Hmin).
    fold n in Hsp, HwL, Hmin.
    assert (Hx : (edges_cost w T <= Z.of_nat n * W)%Z).
    { assert (HT : (edges_cost w T <= Z.of_nat (length T) * W)%Z).
      { assert (HT : forall a b, In (a, b) T -> (w a b <= W)%Z).
        { intros a b Hin. destruct Hsp as [Hs _]. destruct (Hs a b Hin) as [H1 H2]. apply (free_In m) in H1, H2. apply Hub; tauto. }
        clear - HT. unfold edges_cost. induction T as [|[a b] T IH]; cbn [fold_right fst snd length]; [lia|].
        specialize (HT a b (or_introl eq_refl)) as Hab. specialize (IH ltac:(intros; apply HT; right; assumption)). lia. }
      destruct Hsp as (_ & _ & Hlen). pose proof (free_length m p) as Hfl. fold n in Hfl.
      assert (Z.of_nat (length T) <= Z.of_nat n)%Z by lia. nia. }
    assert (Hn52 : (Z.of_nat (3 * n) <= 2 ^ 52)%Z).
    { assert (2 ^ 52 = 4 * 2 ^ 50)%Z by reflexivity. destruct Hmod as (_ & Hn50 & _). lia. }
    pose proof (within_excess (3 * n) L (2 * edges_cost w T) Hn52 ltac:(lia) HwL) as Hexc.
    pose proof (within_nonneg (3 * n) L (2 * edges_cost w T) ltac:(lia) HwL) as HL0.
    exists lg, (edges_cost w T), L. split; [assumption|]. split; [assumption|].
    assert (Hexc' : ((L - 2 * edges_cost w T) * 2 ^ 53 <= 12 * Z.of_nat n * (Z.of_nat n * W))%Z).
    { eapply Z.le_trans; [exact Hexc|]. set (x := edges_cost w T) in *. clearbody x. rewrite Nat2Z.inj_mul. nia. }
    split; [split; [assumption|]|split; [|split; [assumption|]]].
    + assert (H12 : (12 * Z.of_nat n * Z.of_nat n <= 2 ^ 53)%Z).
      { destruct (Z.le_gt_cases (Z.of_nat n) 1000); [|set (P := (2 ^ 53)%Z) in *; clearbody P; nia].
        apply Z.le_trans with (12 * 1000 * 1000)%Z; [nia|]. apply Z.leb_le. reflexivity. }
      set (P := (2 ^ 53)%Z) in *. assert (0 < P)%Z by reflexivity. clearbody P.
      assert ((L - 2 * edges_cost w T) * P <= W * P)%Z by nia. nia.
    + eapply Z.le_trans; [exact Hexc'|]. unfold M. nia.
    + intros Hsym q Hq [r ->]. apply (prefix_tree_bound m w p r T Hnn Hq).
      * intros ->. cbn in Hl. lia.
      * intros ->. rewrite app_nil_r in Hq. apply tour_length in Hq. contradiction.
      * apply Hmin. assumption.
Qed.

(** the sum that is compared with the best cost *)
Lemma bound_near p c lb L : NoDup p -> Forall (fun i => i < n) p -> near (budget g (length p) * M) c (path_cost w p) ->
  holds lb L -> (0 <= L <= (2 * Z.of_nat n + 1) * W)%Z ->
  exists y, holds (@cadd B64 c lb) y /\ (y * 2 ^ 53 <= (path_cost w p + L) * 2 ^ 53 + (budget g (length p) + 3) * M)%Z.
Proof.
  intros Hnd Hr (a & Ha & Ea) HL HLr. pose proof (in_range_length p n Hnd Hr) as Hle.
  pose proof (budget_le g W Hn (length p) Hle) as Hb. change (a_dim g) with n in Hb.
  pose proof (small_drift g w W Hn Hsz (budget g (length p)) (a - path_cost w p) ltac:(change (a_dim g) with n; nia) Ea) as Hs.
  pose proof (path_range g w W Hn Hsz p Hr Hle) as Hp. change (a_dim g) with n in Hp.
  pose proof (M_big g w W Hn Hsz) as HM. change (a_dim g) with n in HM. fold M in HM.
  assert (E2 : (2 ^ 2097 = 4 * 2 ^ 2095)%Z) by (change 4%Z with (2 ^ 2)%Z; rewrite <- (Z.pow_add_r 2 2 2095) by lia; reflexivity).
  assert (Hab : (Z.abs (a + L) <= 3 * M)%Z) by (unfold M; lia).
  destruct (holds_add c lb a L Ha HL) as (y & Hy & Ey).
  { rewrite E2. set (P := (2 ^ 2095)%Z) in *. clearbody P. lia. }
  exists y. split; [assumption|]. set (P := (2 ^ 53)%Z) in *. assert (0 < P)%Z by reflexivity. clearbody P.
  destruct (spread P _ _ _ H Ey) as [K1 _]. destruct (spread P _ _ _ H Ea) as [K2 _]. lia.
Qed.

Lemma leaf_drift : (dleaf g * M <= drift n W)%Z.
Proof.
  unfold drift, dleaf. change (a_dim g) with n. rewrite <- Z.mul_assoc. fold M. apply Z.mul_le_mono_nonneg_r; [assumption|]. nia.
Qed.
Lemma genuine_near s : genuine g w W s -> is_tour n (snd s) /\ near (drift n W) (fst s) (tour_cost w (snd s)).
Proof. intros [H1 H2]. split; [assumption|]. eapply near_weaken; [|exact H2]. exact leaf_drift. Qed.

(** ** V2 and V3: optimal up to the drift *)
Definition close (k : Z) (t : Z) (q : list nat) : Prop := (t * 2 ^ 53 <= k * tour_cost w q * 2 ^ 53 + dleaf g * M)%Z.
Lemma close_le k a b q : (a <= b)%Z -> close k b q -> close k a q.
Proof. unfold close. set (P := (2 ^ 53)%Z). assert (0 < P)%Z by reflexivity. clearbody P. intros Hab Hb. pose proof (scale P a b H Hab). lia. Qed.
Lemma close_refl k q t : (1 <= k)%Z -> is_tour n q -> (Z.abs (t - tour_cost w q) * 2 ^ 53 <= dleaf g * M)%Z -> close k t q.
Proof.
  unfold close. intros Hk Hq Ht. pose proof (tour_range g w W Hn Hsz q Hq) as [H0 _].
  set (P := (2 ^ 53)%Z) in *. assert (0 < P)%Z by reflexivity. clearbody P. destruct (spread P _ _ _ H Ht) as [K _].
  pose proof (scale P (tour_cost w q) (k * tour_cost w q) H ltac:(nia)). lia.
Qed.

Lemma close_result s (k : Z) t : genuine g w W s -> holds (fst s) t -> (forall q, is_tour n q -> close k t q) ->
  forall q, is_tour n q -> (tour_cost w (snd s) * 2 ^ 53 <= k * tour_cost w q * 2 ^ 53 + 2 * drift n W)%Z.
Proof.
  intros [_ (c & Hc & Ec)] Ht Hall q Hq. rewrite <- (holds_unique _ _ _ Ht Hc) in Ec. specialize (Hall q Hq). unfold close in Hall.
  pose proof leaf_drift as HD. change (a_dim g) with n in Ec. fold M in Ec.
  set (P := (2 ^ 53)%Z) in *. assert (0 < P)%Z by reflexivity. clearbody P. destruct (spread P _ _ _ H Ec) as [_ K]. lia.
Qed.

Lemma second_drift : exists x p, second_improved_solver g = Ok (x, p) /\ is_tour n p /\ near (drift n W) x (tour_cost w p) /\
  forall q, is_tour n q -> (tour_cost w p * 2 ^ 53 <= tour_cost w q * 2 ^ 53 + 2 * drift n W)%Z.
Proof.
  unfold second_improved_solver. rewrite second_dfs. unfold dfs0.
  destruct (search_all (solution B64) (fun s => s) (fun _ r => r) keep2 g w W Hn Hval Hsz
     (fun _ => True) ltac:(auto) ltac:(auto) (close 1) (fun _ => False)) with (st := (cinf, []) : solution B64)
    as ([x p] & Ed & _ & Hg & t & Ht & _ & Hopt); auto.
  - apply close_le.
  - intros q t Hq. apply close_refl; [lia|exact Hq].
  - intros st p c _ _ _ _ _ _. exists true, st. repeat split; discriminate.
  - exists x, p. split; [exact Ed|]. destruct (genuine_near _ Hg) as [H1 H2]. split; [exact H1|]. split; [exact H2|].
    intros q Hq. pose proof (close_result (x, p) 1 t Hg Ht Hopt q Hq) as H. rewrite Z.mul_1_l in H. exact H.
Qed.

Lemma third_drift : exists x p, third_improved_solver g = Ok (x, p) /\ is_tour n p /\ near (drift n W) x (tour_cost w p) /\
  forall q, is_tour n q -> (tour_cost w p * 2 ^ 53 <= tour_cost w q * 2 ^ 53 + 2 * drift n W)%Z.
Proof.
  unfold third_improved_solver. rewrite third_dfs. unfold dfs0.
  destruct (search_all (solution B64) (fun s => s) (fun _ r => r) keep3 g w W Hn Hval Hsz
     (fun _ => True) ltac:(auto) ltac:(auto) (close 1) (fun _ => False)) with (st := (cinf, []) : solution B64)
    as ([x p] & Ed & _ & Hg & t & Ht & _ & Hopt); auto.
  - apply close_le.
  - intros q t Hq. apply close_refl; [lia|exact Hq].
  - intros st p c _ _ Hnd Hr Hl (y & Hy & Ey). unfold keep3. eexists _, st. split; [reflexivity|].
    split; [reflexivity|]. split; [constructor|]. intros Hc. right. exists c, y. split; [assumption|]. split; [assumption|].
    intros q t Hq [r ->] Hlt. unfold close. rewrite Z.mul_1_l.
    pose proof (prefix_cost_le w n p r (proj1 Hsz) (tour_Forall n _ Hq)) as Hpre.
    pose proof (budget_le g W Hn (length p) (in_range_length p n Hnd Hr)) as [_ Hb].
    assert (HbM : (budget g (length p) * M <= dleaf g * M)%Z) by (apply Z.mul_le_mono_nonneg_r; [assumption|unfold dleaf; lia]).
    change (a_dim g) with n in Ey. fold M in Ey.
    set (P := (2 ^ 53)%Z) in *. assert (0 < P)%Z by reflexivity. clearbody P. destruct (spread P _ _ _ H Ey) as [K _].
    pose proof (scale P t y H ltac:(lia)). pose proof (scale P _ _ H Hpre). lia.
  - exists x, p. split; [exact Ed|]. destruct (genuine_near _ Hg) as [H1 H2]. split; [exact H1|]. split; [exact H2|].
    intros q Hq. pose proof (close_result (x, p) 1 t Hg Ht Hopt q Hq) as H. rewrite Z.mul_1_l in H. exact H.
Qed.

(** ** V4: a tour, of about the reported cost *)
Lemma estimate_near p : exists x e, compute_nn_of_remaining_vertices g p n = Ok x /\ holds x e /\ (0 <= e <= 2 * (Z.of_nat n * W))%Z.
Proof.
  pose proof Hsz as (Hnn & Hub & Hbig & _). pose proof Hmod as (_ & Hn50 & _).
  unfold compute_nn_of_remaining_vertices.
  match goal with |- context [foldM ?f _ _] =>
    destruct (foldM_inv f (fun pre acc => exists z, approx (length pre) acc z /\ (0 <= z <= Z.of_nat (length pre) * W)%Z)
      (seq 0 n) c0) as (s & Es & z & Hz & Hzr) end.
  - exists 0%Z. split; [apply approx_holds; [apply holds_0|lia]|cbn; lia].
  - intros pre i post acc Eseq (z & Hz & Hzr).
    assert (Hi : In i (seq 0 n)) by (rewrite Eseq; apply in_elt). apply in_seq in Hi.
    assert (Hlen : length pre < n) by (apply (f_equal (@length nat)) in Eseq; rewrite seq_length, app_length in Eseq; cbn in Eseq; lia).
    assert (Hlp : length (pre ++ [i]) = S (length pre)) by (rewrite app_length; cbn; lia).
    assert (Hskip : exists z', approx (length (pre ++ [i])) acc z' /\ (0 <= z' <= Z.of_nat (length (pre ++ [i])) * W)%Z).
    { exists z. rewrite Hlp. split; [apply (approx_weaken (length pre)); [lia|lia|assumption]|]. nia. }
    destruct (memb i p).
    { eexists. split; [reflexivity|]. exact Hskip. }
    match goal with |- context [foldM ?f _ _] =>
      destruct (foldM_inv' f (fun s : C B64 => s = cinf \/ exists z, holds s z /\ (0 <= z <= W)%Z)
        (seq (i + 1) (n - (i + 1))) cinf) as (s & Es & Hs) end.
    + left; reflexivity.
    + intros j s Hj Hs. apply in_seq in Hj. destruct (memb j p); [eexists; split; [reflexivity|assumption]|].
      destruct (Hval i j) as (x & Ex & Hx); [change (a_dim g) with n; lia..|]. rewrite Ex. cbn [bind]. eexists. split; [reflexivity|].
      destruct (clt x s); [right; exists (w i j); split; [assumption|split; [apply Hnn|apply Hub]; lia]|assumption].
    + rewrite Es. cbn [bind]. destruct Hs as [->|(y & Hy & Hyr)].
      * change (negb (@ceq B64 cinf cinf)) with false. cbv iota. eexists. split; [reflexivity|]. exact Hskip.
      * assert (Hne : @ceq B64 s cinf = false).
        { rewrite (ord_eq B64 B64_ord). pose proof (holds_lt_inf s y Hy) as Hlt. rewrite (ord_lt B64 B64_ord) in Hlt.
          apply andb_prop in Hlt. destruct Hlt as [_ Hlt]. apply negb_true_iff in Hlt. rewrite Hlt. apply andb_false_r. }
        rewrite Hne. cbn [negb]. eexists. split; [reflexivity|]. exists (z + y)%Z. rewrite Hlp. split; [|nia].
        apply (approx_plus (length pre)); [assumption| | lia | lia | | lia].
        -- apply (approx_weaken 0); [lia|lia|]. apply approx_holds; [assumption|lia].
        -- assert (E : (2 ^ 2096 = 4 * 2 ^ 2094)%Z) by (change 4%Z with (2 ^ 2)%Z; rewrite <- (Z.pow_add_r 2 2 2094) by lia; reflexivity).
           rewrite E. assert (0 <= 2 ^ 2094)%Z by (apply Z.pow_nonneg; lia). set (P := (2 ^ 2094)%Z) in *. clearbody P. nia.
  - rewrite Es. rewrite seq_length in *. destruct Hz as (e & He & Hwe & _).
    exists s, e. split; [reflexivity|]. split; [assumption|].
    assert (Hk : (Z.of_nat n <= 2 ^ 52)%Z) by (assert (2 ^ 52 = 4 * 2 ^ 50)%Z by reflexivity; lia).
    pose proof (within_double n e z Hk (proj1 Hzr) Hwe). pose proof (within_nonneg n e z (proj1 Hzr) Hwe). lia.
Qed.

Lemma fourth_drift : exists x p, fourth_improved_solver g = Ok (x, p) /\ is_tour n p /\ near (drift n W) x (tour_cost w p).
Proof.
  unfold fourth_improved_solver. rewrite fourth_dfs. unfold dfs0.
  destruct (search_all (solution B64) (fun s => s) (fun _ r => r) (keep4 g) g w W Hn Hval Hsz
     (fun _ => True) ltac:(auto) ltac:(auto) (fun _ _ => True) (fun _ => False)) with (st := (cinf, []) : solution B64)
    as ([x p] & Ed & _ & Hg & _); auto.
  - intros st p c _ _ Hnd Hr Hl Hc. unfold keep4. change (a_dim g) with n.
    destruct (estimate_near p) as (x & e & Ex & He & Her). rewrite Ex. cbn [bind]. eexists _, st. split; [reflexivity|].
    split; [reflexivity|]. split; [constructor|]. intros Hf. right.
    destruct (bound_near p c x e Hnd Hr Hc He ltac:(nia)) as (y & Hy & _). exists (@cadd B64 c x), y. auto.
  - exists x, p. split; [exact Ed|]. apply (genuine_near _ Hg).
Qed.

(** ** V6 with any hash function: a tour, of about the reported cost *)
Lemma sixth_drift hash : exists x p, sixth_improved_solver_with hash m = Ok (x, p) /\ is_tour n p /\ near (drift n W) x (tour_cost w p).
Proof.
  unfold sixth_improved_solver_with. rewrite sixth_dfs.
  pose (fits := fun v : C B64 => exists L, holds v L /\ (0 <= L <= (2 * Z.of_nat n + 1) * W)%Z).
  destruct (search_all (solution B64 * @cache B64) fst (fun s r => (r, snd s)) (keep6 hash m) g w W Hn Hval Hsz
     (fun st => forall h v, cache_find (snd st) h = Some v -> fits v) ltac:(auto) ltac:(auto) (fun _ _ => True) (fun _ => False))
    with (st := ((cinf, []), []) : solution B64 * @cache B64) as ([[x p] ch] & Ed & _ & Hg & _); auto.
  - intros st p c HJ _ Hnd Hr Hl Hc. change (a_dim g) with n in *. unfold keep6.
    destruct (prim_near p Hnd Hr ltac:(lia)) as (lg & x & L & Eg & HL & HLr & _). rewrite Eg. cbn [bind].
    assert (Hnew : fits (directed_edge_weight lg)) by (exists L; auto).
    assert (HJ2 : fits (fst (or_insert (snd st) (hash p) (directed_edge_weight lg)))).
    { unfold or_insert. destruct (cache_find (snd st) (hash p)) as [v|] eqn:Ef; [apply (HJ _ _ Ef)|exact Hnew]. }
    assert (HJ3 : forall h v, cache_find (snd (or_insert (snd st) (hash p) (directed_edge_weight lg))) h = Some v -> fits v).
    { unfold or_insert. destruct (cache_find (snd st) (hash p)) as [v|] eqn:Ef; [assumption|].
      intros h v. cbn [snd cache_find fst]. destruct (N.eqb (hash p) h); [intros Hv'; injection Hv' as <-; exact Hnew|apply HJ]. }
    destruct (or_insert (snd st) (hash p) (directed_edge_weight lg)) as [lb ch']. cbn [fst snd] in HJ2, HJ3.
    destruct HJ2 as (L' & HL' & HLr'). eexists _, (fst st, ch'). split; [reflexivity|]. split; [reflexivity|]. split; [assumption|].
    intros Hf. right. destruct (bound_near p c lb L' Hnd Hr Hc HL' HLr') as (y & Hy & _). exists (@cadd B64 c lb), y. auto.
  - intros h v Hv'. discriminate.
  - exists x, p. change (a_dim g) with n in Ed.
    match goal with |- context [dfs6 ?a ?b ?c ?d ?e ?f] => assert (Ed' : dfs6 a b c d e f = Ok ((x, p), ch)) by exact Ed; rewrite Ed' end.
    split; [reflexivity|]. apply (genuine_near _ Hg).
Qed.

(** ** The search of V5, of the threads and of the MPI workers *)
(** [t] is at most twice the tour [q], up to the drift *)
Definition twice (t : Z) (q : list nat) : Prop :=
  symmetric w n -> (t * 2 ^ 53 <= 2 * tour_cost w q * 2 ^ 53 + (dleaf g + 12 * Z.of_nat n + 2) * M)%Z.
Lemma twice_le a b q : (a <= b)%Z -> twice b q -> twice a q.
Proof. unfold twice. intros Hab H Hs. specialize (H Hs). set (P := (2 ^ 53)%Z) in *. assert (0 < P)%Z by reflexivity. clearbody P. pose proof (scale P a b H0 Hab). lia. Qed.
Lemma twice_refl q t : is_tour n q -> (Z.abs (t - tour_cost w q) * 2 ^ 53 <= dleaf g * M)%Z -> twice t q.
Proof.
  unfold twice. intros Hq Ht _. pose proof (tour_range g w W Hn Hsz q Hq) as [H0 _].
  assert (K0 : (0 <= (12 * Z.of_nat n + 2) * M)%Z) by (apply Z.mul_nonneg_nonneg; lia).
  set (P := (2 ^ 53)%Z) in *. assert (H : (0 < P)%Z) by reflexivity. clearbody P. destruct (spread P _ _ _ H Ht) as [K _].
  pose proof (scale P (tour_cost w q) (2 * tour_cost w q) H ltac:(lia)). lia.
Qed.

Lemma mpi_drift (gl : C B64) p cost : (gl = cinf \/ exists z, holds gl z) -> NoDup p -> Forall (fun i => i < n) p ->
  near (budget g (length p) * M) cost (path_cost w p) ->
  exists s, mpi_rec (S n) m p cost (cinf, []) gl = Ok s /\ sound_result g w W s /\
    forall q, is_tour n q -> extends p q -> (exists t, holds (fst s) t /\ twice t q) \/ (exists z, holds gl z /\ twice z q).
Proof.
  intros Hgl Hnd Hr Hcost. rewrite mpi_dfs. unfold dfs0.
  destruct (search_drift (solution B64) (fun s => s) (fun _ r => r) (keep7 m gl) g w W Hn Hval Hsz
     (fun _ => True) ltac:(auto) ltac:(auto) twice (fun q => exists z, holds gl z /\ twice z q) twice_le twice_refl)
    with (fuel := S n) (prefix := p) (cost := cost) (st := (cinf, []) : solution B64) as (s & Ed & _ & Hs & Hall); try assumption; auto.
  - intros st p0 c _ Hst Hnd0 Hr0 Hl0 Hc. change (a_dim g) with n in *. fold M in Hc. unfold keep7.
    destruct (prim_near p0 Hnd0 Hr0 ltac:(lia)) as (lg & x & L & Eg & HL & HLr & Hexc & Hx0 & Hlow). rewrite Eg. cbn [bind].
    eexists _, st. split; [reflexivity|]. split; [reflexivity|]. split; [constructor|].
    destruct (bound_near p0 c _ L Hnd0 Hr0 Hc HL HLr) as (y & Hy & Ey). intros Hf.
    assert (HR : forall q t, is_tour n q -> extends p0 q -> (t < y)%Z -> twice t q).
    { intros q t Hq Hex Hlt Hsym. specialize (Hlow Hsym q Hq Hex).
      pose proof (path_cost_nonneg w n p0 (proj1 Hsz) Hr0) as Hp0.
      pose proof (budget_le g W Hn (length p0) (in_range_length p0 n Hnd0 Hr0)) as [_ Hb].
      assert (HbM : ((budget g (length p0) + 3) * M <= (dleaf g + 2) * M)%Z) by (apply Z.mul_le_mono_nonneg_r; [assumption|unfold dleaf; lia]).
      set (P := (2 ^ 53)%Z) in *. assert (0 < P)%Z by reflexivity. clearbody P.
      replace ((dleaf g + 12 * Z.of_nat n + 2) * M)%Z with ((dleaf g + 2) * M + 12 * Z.of_nat n * M)%Z by ring.
      set (D := ((dleaf g + 2) * M)%Z) in *. set (D' := (12 * Z.of_nat n * M)%Z) in *. clearbody D D'.
      pose proof (scale P t y H ltac:(lia)). pose proof (scale P (path_cost w p0 + 2 * x) (2 * tour_cost w q) H ltac:(lia)). lia. }
    destruct (@clt B64 gl (fst st)) eqn:Hclt.
    + left. intros q Hq Hex. destruct Hgl as [->|(z & Hz)].
      * exfalso. destruct Hst as [->|(_ & a & Ha & _)]; [discriminate Hclt|]. rewrite (inf_lt_holds _ a Ha) in Hclt. discriminate.
      * exists z. split; [assumption|]. apply HR; try assumption. rewrite (holds_le _ _ y z Hy Hz) in Hf. lia.
    + right. exists (@cadd B64 c (directed_edge_weight lg)), y. auto.
  - change (a_dim g) with n. lia.
  - left. reflexivity.
  - exists s. split; [exact Ed|]. split; [assumption|]. exact Hall.
Qed.

(** the result, from the reported costs *)
Lemma twice_result s t : genuine g w W s -> holds (fst s) t -> symmetric w n -> forall q, is_tour n q -> twice t q ->
  (tour_cost w (snd s) * 2 ^ 53 <= 2 * tour_cost w q * 2 ^ 53 + 2 * drift n W)%Z.
Proof.
  intros [_ (c & Hc & Ec)] Ht Hsym q Hq Hall. rewrite <- (holds_unique _ _ _ Ht Hc) in Ec. specialize (Hall Hsym).
  change (a_dim g) with n in Ec. fold M in Ec.
  assert (HD : (dleaf g * M + (dleaf g + 12 * Z.of_nat n + 2) * M <= 2 * drift n W)%Z).
  { unfold drift, dleaf. change (a_dim g) with n. rewrite <- (Z.mul_assoc _ (Z.of_nat n + 1) W). fold M. rewrite <- Z.mul_add_distr_r, Z.mul_assoc.
    apply Z.mul_le_mono_nonneg_r; [assumption|]. nia. }
  set (P := (2 ^ 53)%Z) in *. assert (0 < P)%Z by reflexivity. clearbody P. destruct (spread P _ _ _ H Ec) as [_ K]. lia.
Qed.

Lemma fifth_drift : exists x p, fifth_improved_solver m = Ok (x, p) /\ is_tour n p /\ near (drift n W) x (tour_cost w p) /\
  (symmetric w n -> forall q, is_tour n q -> (tour_cost w p * 2 ^ 53 <= 2 * tour_cost w q * 2 ^ 53 + 2 * drift n W)%Z).
Proof.
  unfold fifth_improved_solver. rewrite (fifth_mpi B64_ord).
  destruct (mpi_drift cinf [] (@c0 B64) ltac:(left; reflexivity) ltac:(constructor) ltac:(constructor)) as ([x p] & Ed & Hs & Hall).
  { exists 0%Z. split; [apply holds_0|]. cbn. lia. }
  fold n. rewrite Ed. exists x, p. split; [reflexivity|].
  assert (Hgood : forall q, is_tour n q -> exists t, holds x t /\ twice t q).
  { intros q Hq. destruct (Hall q Hq ltac:(exists q; reflexivity)) as [H|(z & Hz & _)]; [exact H|]. destruct (inf_not_holds z Hz). }
  destruct Hs as [Hs|Hs].
  { exfalso. destruct (Hgood (seq 0 n) (tour_seq n)) as (t & Ht & _). injection Hs as -> _. exact (inf_not_holds t Ht). }
  destruct (genuine_near _ Hs) as [H1 H2]. split; [exact H1|]. split; [exact H2|]. intros Hsym q Hq.
  destruct (Hgood q Hq) as (t & Ht & Htw). exact (twice_result (x, p) t Hs Ht Hsym q Hq Htw).
Qed.
End Solvers.
