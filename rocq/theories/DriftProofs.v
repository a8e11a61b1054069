(** The depth-first solvers on arbitrary doubles: how far the running cost drifts.

    The solvers add the cost of a step when they go down and subtract it when they come back,
    so the running cost is rounded again and again.  Each level works on its own copy of the
    number, which bounds the drift. *)
From Coq Require Import ZArith Arith Bool List Permutation Lia Reals Lra.
From Flocq Require Import Core IEEE754.Binary IEEE754.Bits.
From Flocq Require IEEE754.BinarySingleNaN.
From Verif Require Import Num NumB64 F64Facts Base Spec SpecFacts Data Mst Exact Dfs Greedy PrimProofs MstFacts ExactProofs Units RoundProofs.
Import ListNotations.
Local Notation mode_NE := BinarySingleNaN.mode_NE.
Local Notation fexp := (SpecFloat.fexp 53 1024).
Local Notation RN := (round radix2 fexp (BinarySingleNaN.round_mode mode_NE)).
Local Notation tiny := (bpow radix2 (-1074)).

(** ** One addition or subtraction, of any signs *)
Section Ops.
Local Open Scope Z_scope.
Local Instance prec53' : Prec_gt_0 53 := eq_refl.

Lemma RN_opp x : RN (- x)%R = (- RN x)%R.
Proof. change (BinarySingleNaN.round_mode mode_NE) with ZnearestE. apply round_NE_opp. Qed.

Lemma RN_over z : Z.abs z <= 2 ^ 2097 -> (Rabs (RN (IZR z * tiny)) < bpow radix2 1024)%R.
Proof.
  intros Hz. pose proof (bpow_gt_0 radix2 (-1074)) as P.
  assert (G : forall z, 0 <= z <= 2 ^ 2097 -> (Rabs (RN (IZR z * tiny)) < bpow radix2 1024)%R).
  { clear z Hz. intros z Hz.
    assert (H0 : (0 <= RN (IZR z * tiny))%R).
    { rewrite <- (round_0 radix2 fexp (BinarySingleNaN.round_mode mode_NE)). apply RN_mono. apply Rmult_le_pos; [apply IZR_le; lia|lra]. }
    rewrite Rabs_pos_eq by assumption. apply Rle_lt_trans with (bpow radix2 1023); [|apply bpow_lt; lia].
    rewrite <- (round_generic radix2 fexp (BinarySingleNaN.round_mode mode_NE) (bpow radix2 1023)).
    - apply RN_mono. replace (bpow radix2 1023) with (IZR (2 ^ 2097) * tiny)%R.
      + apply Rmult_le_compat_r; [lra|]. apply IZR_le. apply Hz.
      + change (2 ^ 2097) with (Zpower radix2 2097). rewrite IZR_Zpower by lia. rewrite <- bpow_plus. reflexivity.
    - apply generic_format_bpow. unfold SpecFloat.fexp, SpecFloat.emin. lia. }
  destruct (Z.le_gt_cases 0 z) as [H|H]; [apply G; lia|].
  replace (IZR z * tiny)%R with (- (IZR (- z) * tiny))%R by (rewrite opp_IZR; ring).
  rewrite RN_opp, Rabs_Ropp. apply G. lia.
Qed.

Lemma rel_error (c z : Z) (eps : R) : (Rabs eps <= / 2 ^ 53)%R -> (IZR c = IZR z * (1 + eps))%R -> Z.abs (c - z) * 2 ^ 53 <= Z.abs z.
Proof.
  intros He E. apply le_IZR. rewrite mult_IZR, !abs_IZR, minus_IZR, E.
  replace (IZR z * (1 + eps) - IZR z)%R with (IZR z * eps)%R by ring. rewrite Rabs_mult.
  change (2 ^ 53) with (2 ^ Z.of_nat 53). rewrite <- pow_IZR. change (IZR 2) with 2%R.
  assert (H : (0 < 2 ^ 53)%R) by (apply pow_lt; lra).
  assert (E1 : (/ 2 ^ 53 * 2 ^ 53 = 1)%R) by (apply Rinv_l; lra).
  pose proof (Rabs_pos (IZR z)). pose proof (Rabs_pos eps).
  rewrite Rmult_assoc. rewrite <- (Rmult_1_r (Rabs (IZR z))) at 2. apply Rmult_le_compat_l; [assumption|].
  rewrite <- E1. apply Rmult_le_compat_r; lra.
Qed.

Lemma holds_add x y a b : holds x a -> holds y b -> Z.abs (a + b) <= 2 ^ 2097 ->
  exists c, holds (@cadd B64 x y) c /\ Z.abs (c - (a + b)) * 2 ^ 53 <= Z.abs (a + b).
Proof.
  intros [Fx Vx] [Fy Vy] Hs. pose proof (RN_over _ Hs) as Ho.
  assert (Es : (IZR a * tiny + IZR b * tiny = IZR (a + b) * tiny)%R) by (rewrite plus_IZR; ring).
  pose proof (Bplus_correct 53 1024 eq_refl eq_refl binop_nan_pl64 mode_NE x y Fx Fy) as K.
  rewrite Vx, Vy, Es in K. rewrite Rlt_bool_true in K by exact Ho. destruct K as (K1 & K2 & _).
  destruct (holds_exists (@cadd B64 x y) K2) as (c & Hc). exists c. split; [assumption|].
  destruct (round_sum (IZR a * tiny) (IZR b * tiny)) as (eps & He & Er).
  { rewrite <- Vx. apply (generic_format_B2R 53 1024). } { rewrite <- Vy. apply (generic_format_B2R 53 1024). }
  rewrite Es in Er. destruct Hc as [_ Vc].
  assert (E : (IZR c * tiny = RN (IZR (a + b) * tiny))%R) by (rewrite <- Vc; exact K1).
  apply (rel_error c (a + b) eps He). apply (Rmult_eq_reg_r tiny); [|pose proof (bpow_gt_0 radix2 (-1074)); lra].
  rewrite E, Er. ring.
Qed.

Lemma holds_sub x y a b : holds x a -> holds y b -> Z.abs (a - b) <= 2 ^ 2097 ->
  exists c, holds (@csub B64 x y) c /\ Z.abs (c - (a - b)) * 2 ^ 53 <= Z.abs (a - b).
Proof.
  intros [Fx Vx] [Fy Vy] Hs. pose proof (RN_over _ Hs) as Ho.
  assert (Es : (IZR a * tiny - IZR b * tiny = IZR (a - b) * tiny)%R) by (rewrite minus_IZR; ring).
  pose proof (Bminus_correct 53 1024 eq_refl eq_refl binop_nan_pl64 mode_NE x y Fx Fy) as K.
  rewrite Vx, Vy, Es in K. rewrite Rlt_bool_true in K by exact Ho. destruct K as (K1 & K2 & _).
  destruct (holds_exists (@csub B64 x y) K2) as (c & Hc). exists c. split; [assumption|].
  destruct (round_sum (IZR a * tiny) (- (IZR b * tiny))) as (eps & He & Er).
  { rewrite <- Vx. apply (generic_format_B2R 53 1024). } { rewrite <- Vy. apply generic_format_opp. apply (generic_format_B2R 53 1024). }
  change (IZR a * tiny + - (IZR b * tiny))%R with (IZR a * tiny - IZR b * tiny)%R in Er.
  rewrite Es in Er. destruct Hc as [_ Vc].
  assert (E : (IZR c * tiny = RN (IZR (a - b) * tiny))%R) by (rewrite <- Vc; exact K1).
  apply (rel_error c (a - b) eps He). apply (Rmult_eq_reg_r tiny); [|pose proof (bpow_gt_0 radix2 (-1074)); lra].
  rewrite E, Er. ring.
Qed.
End Ops.

(** ** The sizes *)
(** No cost is negative, [W] is above all of them, and [n] times [W] is at most
    [2^2094 * 2^-1074 = 2^1020], so that nothing overflows; at most 208061 vertices, so that the
    drift stays below [W]. *)
Definition sized (w : nat -> nat -> Z) (n : nat) (W : Z) : Prop :=
  nonneg w n /\ (forall i j, i < n -> j < n -> (w i j <= W)%Z) /\
  (Z.of_nat n * W <= 2 ^ 2094)%Z /\ ((Z.of_nat n + 3) ^ 2 * (Z.of_nat n + 1) <= 2 ^ 53)%Z.

(** The double [x] is finite and differs from [z * 2^-1074] by at most [e * 2^-53 * 2^-1074]. *)
Definition near (e : Z) (x : binary64) (z : Z) : Prop :=
  exists c, holds x c /\ (Z.abs (c - z) * 2 ^ 53 <= e)%Z.

(** The bound, in units of [2^-53 * 2^-1074]. *)
Definition drift (n : nat) (W : Z) : Z := ((Z.of_nat n + 3) ^ 2 * (Z.of_nat n + 1) * W)%Z.

Lemma near_holds e x z : (0 <= e)%Z -> holds x z -> near e x z.
Proof. intros He H. exists z. split; [assumption|]. rewrite Z.sub_diag. lia. Qed.
Lemma near_weaken d e x z : (d <= e)%Z -> near d x z -> near e x z.
Proof. intros He (c & H1 & H2). exists c. split; [assumption|lia]. Qed.
Lemma near_nnan e x z : near e x z -> @cnan B64 x = false.
Proof. intros (c & H & _). apply (holds_nnan x c H). Qed.
Lemma near_finite e x z : near e x z -> is_finite 53 1024 x = true.
Proof. intros (c & [H _] & _). assumption. Qed.
Lemma near_lt_inf e x z : near e x z -> @clt B64 x cinf = true.
Proof. intros (c & H & _). apply (holds_lt_inf x c H). Qed.

Lemma sized_moderate w n W : 1 <= n -> sized w n W -> moderate w n.
Proof.
  intros Hn (H1 & H2 & H3 & H4). split; [assumption|]. split.
  - assert (2 ^ 53 = 8 * 2 ^ 50)%Z by reflexivity. set (P := (2 ^ 50)%Z) in *. clearbody P. nia.
  - intros i j Hi Hj. specialize (H1 i j Hi Hj). specialize (H2 i j Hi Hj).
    assert (E : (2 ^ 2095 = 2 * 2 ^ 2094)%Z) by (rewrite <- Z.pow_succ_r by lia; reflexivity). rewrite E.
    assert (0 < 2 ^ 2094)%Z by (apply Z.pow_pos_nonneg; lia). set (P := (2 ^ 2094)%Z) in *. clearbody P. nia.
Qed.

Section Drift.
Variable St : Type.
Variable get : St -> solution B64.
Variable put : St -> solution B64 -> St.
Variable keep : St -> list nat -> C B64 -> res (bool * St).
Variable g : adj B64.
Variable w : nat -> nat -> Z.
Variable W : Z.
Let n := a_dim g.
Hypothesis Hn : 1 <= n.
Hypothesis Hval : forall i j, i < n -> j < n -> exists x, a_get g i j = Ok x /\ holds x (w i j).
Hypothesis Hsz : sized w n W.

Let M := ((Z.of_nat n + 1) * W)%Z.

Lemma W0 : (0 <= W)%Z.
Proof. destruct Hsz as (H1 & H2 & _). specialize (H1 0 0 ltac:(lia) ltac:(lia)). specialize (H2 0 0 ltac:(lia) ltac:(lia)). lia. Qed.
Lemma M_big : (M <= 2 ^ 2095)%Z.
Proof.
  destruct Hsz as (_ & _ & H & _). pose proof W0.
  assert (E : (2 ^ 2095 = 2 * 2 ^ 2094)%Z) by (rewrite <- Z.pow_succ_r by lia; reflexivity). rewrite E.
  set (P := (2 ^ 2094)%Z) in *. clearbody P. unfold M. nia.
Qed.

(** the number of roundings after which the cost of a prefix of length [k] is handed down *)
Definition budget (k : nat) : Z :=
  if k =? 0 then 0%Z else ((Z.of_nat n - 1) ^ 2 - (Z.of_nat n - Z.of_nat k) ^ 2)%Z.
Lemma budget_step k : 1 <= k < n -> budget (S k) = (budget k + (2 * (Z.of_nat n - Z.of_nat k) - 1))%Z.
Proof. intros Hk. unfold budget. destruct (Nat.eqb_spec k 0); [lia|]. cbn [Nat.eqb]. rewrite Nat2Z.inj_succ. nia. Qed.
Lemma budget_le k : k <= n -> (0 <= budget k <= (Z.of_nat n - 1) ^ 2)%Z.
Proof. intros Hk. unfold budget. destruct (Nat.eqb_spec k 0); nia. Qed.

Lemma small_drift d e : (0 <= d <= Z.of_nat n ^ 2)%Z -> (Z.abs e * 2 ^ 53 <= d * M)%Z -> (Z.abs e <= W)%Z.
Proof.
  intros Hd He. pose proof W0. destruct Hsz as (_ & _ & _ & H4).
  assert (d * M <= W * 2 ^ 53)%Z; [|lia].
  unfold M. set (P := (2 ^ 53)%Z) in *. clearbody P.
  apply Z.le_trans with (Z.of_nat n ^ 2 * ((Z.of_nat n + 1) * W))%Z; [apply Z.mul_le_mono_nonneg_r; nia|].
  replace (Z.of_nat n ^ 2 * ((Z.of_nat n + 1) * W))%Z with (Z.of_nat n ^ 2 * (Z.of_nat n + 1) * W)%Z by ring.
  rewrite (Z.mul_comm W P). apply Z.mul_le_mono_nonneg_r; [assumption|].
  eapply Z.le_trans; [|exact H4]. apply Z.mul_le_mono_nonneg_r; nia.
Qed.

Lemma near_add d x a y b : near (d * M) x a -> holds y b -> (0 <= d <= Z.of_nat n ^ 2)%Z -> (0 <= a + b <= Z.of_nat n * W)%Z ->
  near ((d + 1) * M) (@cadd B64 x y) (a + b).
Proof.
  intros (c & Hc & Ec) Hy Hd Hab. pose proof (small_drift d (c - a) Hd Ec) as Hs. pose proof M_big as HM. pose proof W0.
  assert (E2 : (2 ^ 2097 = 4 * 2 ^ 2095)%Z) by (change 4%Z with (2 ^ 2)%Z; rewrite <- (Z.pow_add_r 2 2 2095) by lia; reflexivity).
  assert (Hcb : (Z.abs (c + b) <= M)%Z) by (unfold M; lia).
  destruct (holds_add x y c b Hc Hy) as (s & Hs1 & Hs2).
  { rewrite E2. set (P := (2 ^ 2095)%Z) in *. clearbody P. lia. }
  exists s. split; [assumption|]. set (P := (2 ^ 53)%Z) in *. assert (0 < P)%Z by reflexivity. clearbody P.
  assert (Z.abs (s - (a + b)) * P <= Z.abs (s - (c + b)) * P + Z.abs (c - a) * P)%Z by nia. lia.
Qed.

Lemma near_sub d x a y b : near (d * M) x (a + b) -> holds y b -> (0 <= d <= Z.of_nat n ^ 2)%Z -> (0 <= a <= Z.of_nat n * W)%Z ->
  near ((d + 1) * M) (@csub B64 x y) a.
Proof.
  intros (c & Hc & Ec) Hy Hd Hab. pose proof (small_drift d (c - (a + b)) Hd Ec) as Hs. pose proof M_big as HM. pose proof W0.
  assert (E2 : (2 ^ 2097 = 4 * 2 ^ 2095)%Z) by (change 4%Z with (2 ^ 2)%Z; rewrite <- (Z.pow_add_r 2 2 2095) by lia; reflexivity).
  assert (Hcb : (Z.abs (c - b) <= M)%Z) by (unfold M; lia).
  destruct (holds_sub x y c b Hc Hy) as (s & Hs1 & Hs2).
  { rewrite E2. set (P := (2 ^ 2095)%Z) in *. clearbody P. lia. }
  exists s. split; [assumption|]. set (P := (2 ^ 53)%Z) in *. assert (0 < P)%Z by reflexivity. clearbody P.
  assert (Z.abs (s - a) * P <= Z.abs (s - (c - b)) * P + Z.abs (c - (a + b)) * P)%Z by nia. lia.
Qed.

Lemma path_upper p : Forall (fun i => i < n) p -> p <> [] -> (path_cost w p <= W * (Z.of_nat (length p) - 1))%Z.
Proof.
  destruct Hsz as (_ & Hub & _). induction p as [|a [|b p] IH]; intros Hr Hne; [congruence|cbn; lia|].
  inversion Hr as [|? ? Ha Hr']; subst. inversion Hr' as [|? ? Hb _]; subst. specialize (IH Hr' ltac:(discriminate)).
  change (path_cost w (a :: b :: p)) with (w a b + path_cost w (b :: p))%Z. pose proof (Hub a b Ha Hb).
  change (length (a :: b :: p)) with (S (length (b :: p))). rewrite Nat2Z.inj_succ. lia.
Qed.
Lemma path_range p : Forall (fun i => i < n) p -> length p <= n -> (0 <= path_cost w p <= Z.of_nat n * W)%Z.
Proof.
  intros Hr Hl. split; [apply (path_cost_nonneg w n); [apply Hsz|assumption]|]. pose proof W0.
  destruct p as [|a p]; [cbn; nia|]. pose proof (path_upper (a :: p) Hr ltac:(discriminate)). nia.
Qed.
Lemma tour_range q : is_tour n q -> (0 <= tour_cost w q <= Z.of_nat n * W)%Z.
Proof.
  intros Hq. destruct Hsz as (Hnn & Hub & _). split; [exact (prefix_cost_le w n [] q Hnn (tour_Forall n _ Hq))|]. pose proof W0.
  pose proof (tour_length n q Hq) as Hl. pose proof (tour_Forall n q Hq) as Hr.
  destruct q as [|a q]; [cbn; nia|]. rewrite tour_cost_closed.
  pose proof (path_upper ((a :: q) ++ [a])) as Hp. rewrite app_length, Hl in Hp. cbn [length] in Hp.
  assert (Forall (fun i => i < n) ((a :: q) ++ [a])).
  { apply Forall_app. split; [assumption|]. constructor; [inversion Hr; assumption|constructor]. }
  specialize (Hp ltac:(assumption) ltac:(discriminate)). cbn [app] in Hp |- *. nia.
Qed.

(** the vertices of a list that are not on the prefix *)
Definition fresh (prefix l : list nat) : nat := length (filter (fun i => negb (memb i prefix)) l).
Lemma fresh_app p l l' : fresh p (l ++ l') = fresh p l + fresh p l'.
Proof. unfold fresh. rewrite filter_app, app_length. reflexivity. Qed.
Lemma fresh_all p : NoDup p -> Forall (fun i => i < n) p -> fresh p (seq 0 n) + length p <= n.
Proof.
  intros Hnd Hr. unfold fresh. rewrite <- app_length. apply in_range_length.
  - assert (G : forall l l' : list nat, NoDup l -> NoDup l' -> (forall x, In x l -> ~ In x l') -> NoDup (l ++ l')).
    { clear. induction l as [|x l IH]; intros l' H1 H2 H3; [assumption|]. inversion H1; subst. cbn. constructor.
      - rewrite in_app_iff. intros [H|H]; [contradiction|]. apply (H3 x); [left; reflexivity|assumption].
      - apply IH; try assumption. intros; apply H3; right; assumption. }
    apply G; [apply NoDup_filter, seq_NoDup|assumption|]. intros x Hx. apply filter_In in Hx. destruct Hx as [_ Hx].
    apply memb_nIn. destruct (memb x p); [discriminate|reflexivity].
  - apply Forall_app. split; [|assumption]. apply Forall_forall. intros x Hx. apply filter_In in Hx. destruct Hx as [Hx _]. apply in_seq in Hx. lia.
Qed.

(** *** The search *)
Variable I : St -> Prop.
Variable good : St -> list nat -> Prop.
Definition dleaf := ((Z.of_nat n - 1) ^ 2 + 1)%Z.
Hypothesis Hleaf : forall st q (c : C B64), I st -> is_tour n q -> near (dleaf * M) c (tour_cost w q) ->
  let st' := put st (if clt c (fst (get st)) then (c, q) else get st) in
  I st' /\ good st' q /\ (forall q', good st q' -> good st' q').
Hypothesis Hkeep : forall st p (c : C B64), I st -> NoDup p -> Forall (fun i => i < n) p -> 2 <= length p ->
  near (budget (length p) * M) c (path_cost w p) ->
  exists b st', keep st p c = Ok (b, st') /\ I st' /\
    (forall q', good st q' -> good st' q') /\
    (b = false -> forall q, is_tour n q -> extends p q -> good st' q).

Lemma dfs_drift : forall fuel prefix cost st,
  n - length prefix < fuel -> NoDup prefix -> Forall (fun i => i < n) prefix -> I st ->
  near (budget (length prefix) * M) cost (path_cost w prefix) ->
  exists st', dfs St get put keep g fuel prefix cost st = Ok st' /\ I st' /\
    (forall q', good st q' -> good st' q') /\
    (forall q, is_tour n q -> extends prefix q -> good st' q).
Proof.
  pose proof W0 as HW0. assert (HM0 : (0 <= M)%Z) by (unfold M; nia).
  induction fuel as [|f IH]; intros prefix cost st Hf Hnd Hr HI Hcost; [lia|].
  cbn [dfs]. fold n. pose proof (in_range_length prefix n Hnd Hr) as Hle.
  destruct (Nat.eqb_spec (length prefix) n) as [El|Nl].
  - assert (Hne : prefix <> []) by (intros ->; cbn in El; lia).
    assert (Ht : is_tour n prefix) by (apply tour_intro; assumption).
    unfold leaf. rewrite (last_res_last prefix 0 Hne), (first_res_hd prefix 0 Hne). cbn [bind].
    rewrite Forall_forall in Hr.
    assert (Hl1 : last prefix 0 < n) by (apply Hr, last_In; assumption).
    assert (Hl2 : hd 0 prefix < n) by (apply Hr; destruct prefix; [congruence|left; reflexivity]).
    destruct (Hval _ _ Hl1 Hl2) as (e & Ee & He). rewrite Ee. cbn [bind].
    assert (Etc : (path_cost w prefix + w (last prefix 0%nat) (hd 0%nat prefix))%Z = tour_cost w prefix).
    { destruct prefix as [|a p]; [congruence|]. unfold tour_cost. cbn [hd].
      rewrite (last_default (a :: p) 0%nat a) by discriminate. reflexivity. }
    assert (Hc : near (dleaf * M) (@cadd B64 cost e) (tour_cost w prefix)).
    { rewrite <- Etc. unfold dleaf. replace ((Z.of_nat n - 1) ^ 2)%Z with (budget (length prefix)).
      - apply near_add; try assumption; [pose proof (budget_le (length prefix)); nia|]. rewrite Etc. apply tour_range. assumption.
      - rewrite El. unfold budget. destruct (Nat.eqb_spec n 0); [lia|]. rewrite Z.sub_diag. change (0 ^ 2)%Z with 0%Z. lia. }
    destruct (Hleaf st prefix _ HI Ht Hc) as (H1 & H2 & H3).
    eexists. split; [reflexivity|]. split; [exact H1|]. split; [exact H3|].
    intros q Hq [r ->].
    assert (r = []) as ->.
    { apply tour_length in Hq. rewrite app_length in Hq. destruct r; [reflexivity|cbn in Hq; lia]. }
    rewrite app_nil_r. exact H2.
  - set (step0 := step St keep g (dfs St get put keep g f) prefix).
    destruct (foldM_inv step0
       (fun pre s => near ((budget (length prefix) + if length prefix =? 0 then 0 else 2 * Z.of_nat (fresh prefix pre)) * M) (fst s) (path_cost w prefix) /\ I (snd s) /\
          (forall q', good st q' -> good (snd s) q') /\
          (forall i q, In i pre -> is_tour n q -> extends (prefix ++ [i]) q -> good (snd s) q))
       (seq 0 n) (cost, st)) as (s & Es & Hs1 & Hs2 & Hs3 & Hs4).
    + cbn [fst snd]. split; [|split; [assumption|split; [auto|intros i q []]]].
      apply (near_weaken (budget (length prefix) * M)); [|assumption]. apply Z.mul_le_mono_nonneg_r; [assumption|].
      destruct (length prefix =? 0); lia.
    + intros pre i post [c st1] Eseq (Hc & HI1 & Hm1 & Hg1). cbn [fst snd] in Hc, HI1, Hm1, Hg1.
      assert (Hi : In i (seq 0 n)) by (rewrite Eseq; apply in_elt).
      apply in_seq in Hi. unfold step0, step.
      destruct (memb i prefix) eqn:Em.
      { exists (c, st1). split; [reflexivity|]. cbn [fst snd].
        split; [|split; [assumption|split; [assumption|]]].
        - rewrite fresh_app. unfold fresh at 2. cbn [filter]. rewrite Em. cbn [negb length]. rewrite Nat.add_0_r. assumption.
        - intros i' q Hin Hq Hex. apply in_app_or in Hin. destruct Hin as [Hin|[<-|[]]]; [eauto|].
          exfalso. apply memb_In in Em. destruct Hex as [r ->]. apply tour_NoDup in Hq.
          rewrite <- app_assoc in Hq. cbn [app] in Hq. apply NoDup_remove_2 in Hq. apply Hq.
          apply in_or_app. left; assumption. }
      assert (Hfr : fresh prefix (pre ++ [i]) = S (fresh prefix pre)).
      { rewrite fresh_app. unfold fresh at 2. cbn [filter]. rewrite Em. cbn [negb length]. lia. }
      assert (Hcnt : S (fresh prefix pre) + length prefix <= n).
      { pose proof (fresh_all prefix Hnd Hr) as Hall. rewrite Eseq in Hall. change (i :: post) with ([i] ++ post) in Hall.
        rewrite app_assoc, fresh_app, Hfr in Hall. lia. }
      apply memb_nIn in Em.
      assert (Hnd' : NoDup (prefix ++ [i])) by (apply NoDup_snoc; assumption).
      assert (Hr' : Forall (fun i => i < n) (prefix ++ [i])) by
        (apply Forall_app; split; [assumption|constructor; [lia|constructor]]).
      assert (Hl' : length (prefix ++ [i]) = S (length prefix)) by (rewrite app_length; cbn; lia).
      cbv zeta. destruct (Nat.eqb_spec (length (prefix ++ [i])) 1) as [E1|N1].
      * assert (prefix = []) by (destruct prefix; [reflexivity|cbn in E1; rewrite app_length in E1; cbn in E1; lia]).
        subst prefix. cbn [app length] in *. change (0 =? 0) with true in *. cbv iota in *.
        change (budget 0) with 0%Z in *.
        destruct (IH [i] c st1) as (st2 & E2 & HI2 & Hm2 & Hg2); try assumption; try (cbn [length]; lia).
        { cbn [length]. unfold budget. change (1 =? 0) with false. cbv iota. rewrite Z.sub_diag. exact Hc. }
        rewrite E2. cbn [bind].
        eexists. split; [reflexivity|]. cbn [fst snd]. split; [exact Hc|]. split; [assumption|].
        split; [auto|]. intros i' q Hin Hq Hex. apply in_app_or in Hin.
        destruct Hin as [Hin|[<-|[]]]; [eauto|]. apply Hg2; assumption.
      * assert (Hne : prefix <> []) by (intros ->; cbn in N1; lia).
        assert (Hl0 : 0 < length prefix) by (destruct prefix; [congruence|cbn; lia]).
        destruct (Nat.eqb_spec (length prefix) 0) as [|_]; [lia|].
        unfold last_edge. rewrite Hl'.
        replace (S (length prefix) - 2) with (length prefix - 1) by lia.
        replace (length prefix - 1 + 1) with (length prefix) by lia.
        rewrite (nth_res_nth _ _ 0) by lia. rewrite (nth_res_nth _ _ 0) by lia. cbn [bind].
        rewrite app_nth1 by lia. rewrite app_nth2 by lia. rewrite Nat.sub_diag. cbn [nth].
        rewrite nth_last by assumption.
        pose proof (proj1 (Forall_forall _ _) Hr) as Hr2.
        assert (Hlt : last prefix 0 < n) by (apply Hr2, last_In; assumption).
        destruct (Hval _ i Hlt ltac:(lia)) as (e & Ee & He). rewrite Ee. cbn [bind].
        pose proof (path_cost_snoc w prefix i 0 Hne) as Esn.
        pose proof (path_range (prefix ++ [i]) Hr' ltac:(lia)) as Hrg'.
        pose proof (path_range prefix Hr Hle) as Hrg.
        pose proof (budget_step (length prefix) ltac:(lia)) as Hbs.
        pose proof (budget_le (length prefix) ltac:(lia)) as Hb1. pose proof (budget_le (S (length prefix)) ltac:(lia)) as Hb2.
        assert (Hnn2 : ((Z.of_nat n - 1) ^ 2 <= Z.of_nat n ^ 2 - 1)%Z) by nia.
        assert (Hadd : near ((budget (length prefix) + 2 * Z.of_nat (fresh prefix pre) + 1) * M) (@cadd B64 c e) (path_cost w (prefix ++ [i]))).
        { rewrite Esn. apply near_add; try assumption; [lia|]. rewrite <- Esn. assumption. }
        assert (Hadd' : near (budget (length (prefix ++ [i])) * M) (@cadd B64 c e) (path_cost w (prefix ++ [i]))).
        { eapply near_weaken; [|exact Hadd]. apply Z.mul_le_mono_nonneg_r; [assumption|]. rewrite Hl'. lia. }
        assert (Hsub : near ((budget (length prefix) + 2 * Z.of_nat (fresh prefix (pre ++ [i]))) * M) (@csub B64 (@cadd B64 c e) e) (path_cost w prefix)).
        { rewrite Hfr. replace (budget (length prefix) + 2 * Z.of_nat (S (fresh prefix pre)))%Z with (budget (length prefix) + 2 * Z.of_nat (fresh prefix pre) + 1 + 1)%Z by lia.
          apply (near_sub _ _ _ _ (w (last prefix 0) i)); try assumption; [rewrite <- Esn; assumption|lia]. }
        destruct (Hkeep st1 (prefix ++ [i]) (@cadd B64 c e) HI1 Hnd' Hr' ltac:(lia) Hadd') as (b & st2 & Ek & HI2 & Hm2 & Hg2).
        rewrite Ek. cbn [bind].
        destruct b.
        -- destruct (IH (prefix ++ [i]) (@cadd B64 c e) st2) as (st3 & E3 & HI3 & Hm3 & Hg3); try assumption; try lia.
           rewrite E3. cbn [bind]. eexists. split; [reflexivity|]. cbn [fst snd]. split; [exact Hsub|].
           split; [assumption|]. split; [auto|]. intros i' q Hin Hq Hex. apply in_app_or in Hin.
           destruct Hin as [Hin|[<-|[]]]; [eauto|]. apply Hg3; assumption.
        -- cbn [bind]. eexists. split; [reflexivity|]. cbn [fst snd]. split; [exact Hsub|].
           split; [assumption|]. split; [auto|]. intros i' q Hin Hq Hex. apply in_app_or in Hin.
           destruct Hin as [Hin|[<-|[]]]; [eauto|]. apply Hg2; auto.
    + match goal with |- context [@foldM ?A ?B ?f ?l ?s0] => assert (Es' : @foldM A B f l s0 = Ok s) by exact Es; rewrite Es' end.
      cbn [bind]. exists (snd s). split; [reflexivity|]. split; [assumption|].
      split; [assumption|]. intros q Hq [r ->].
      destruct r as [|i r].
      { exfalso. rewrite app_nil_r in Hq. apply tour_length in Hq. lia. }
      apply (Hs4 i).
      * apply in_seq. assert (In i (prefix ++ i :: r)) by apply in_elt.
        apply (tour_In _ _ _ Hq) in H. lia.
      * assumption.
      * exists r. rewrite <- app_assoc. reflexivity.
Qed.
End Drift.

(** ** What a search finds *)
Section Search.
Variable St : Type.
Variable get : St -> solution B64.
Variable put : St -> solution B64 -> St.
Variable keep : St -> list nat -> C B64 -> res (bool * St).
Variable g : adj B64.
Variable w : nat -> nat -> Z.
Variable W : Z.
Let n := a_dim g.
Hypothesis Hn : 1 <= n.
Hypothesis Hval : forall i j, i < n -> j < n -> exists x, a_get g i j = Ok x /\ holds x (w i j).
Hypothesis Hsz : sized w n W.
Let M := ((Z.of_nat n + 1) * W)%Z.
Variable J : St -> Prop.
Hypothesis Hgp : forall st r, get (put st r) = r.
Hypothesis HJput : forall st r, J st -> J (put st r).
(** [R t q]: a reported cost [t] is good enough with respect to the tour [q];
    [G q]: something found elsewhere is *)
Variable R : Z -> list nat -> Prop.
Variable G : list nat -> Prop.
Hypothesis HRle : forall a b q, (a <= b)%Z -> R b q -> R a q.
Hypothesis HRrefl : forall q t, is_tour n q -> (Z.abs (t - tour_cost w q) * 2 ^ 53 <= dleaf g * M)%Z -> R t q.

Definition genuine (s : solution B64) : Prop := is_tour n (snd s) /\ near (dleaf g * M) (fst s) (tour_cost w (snd s)).
Definition sound_result (s : solution B64) : Prop := s = (cinf, []) \/ genuine s.

Hypothesis Hkeep : forall st p (c : C B64), J st -> sound_result (get st) -> NoDup p -> Forall (fun i => i < n) p -> 2 <= length p ->
  near (budget g (length p) * M) c (path_cost w p) ->
  exists b st', keep st p c = Ok (b, st') /\ get st' = get st /\ J st' /\
    (b = false -> (forall q, is_tour n q -> extends p q -> G q) \/
       exists y x, holds y x /\ @cle B64 y (fst (get st)) = false /\ forall q t, is_tour n q -> extends p q -> (t < x)%Z -> R t q).

Definition good_result (s : solution B64) (q : list nat) : Prop := (exists t, holds (fst s) t /\ R t q) \/ G q.

Lemma inf_not_holds t : ~ holds (@cinf B64) t.
Proof. intros [H _]. discriminate H. Qed.

Lemma search_drift fuel prefix cost st : n - length prefix < fuel -> NoDup prefix -> Forall (fun i => i < n) prefix -> J st ->
  sound_result (get st) -> near (budget g (length prefix) * M) cost (path_cost w prefix) ->
  exists st', dfs St get put keep g fuel prefix cost st = Ok st' /\ J st' /\ sound_result (get st') /\
    forall q, is_tour n q -> extends prefix q -> good_result (get st') q.
Proof.
  intros Hf Hnd Hr HJ Hs Hcost.
  destruct (dfs_drift St get put keep g w W Hn Hval Hsz (fun st => J st /\ sound_result (get st)) (fun st q => good_result (get st) q))
    with (fuel := fuel) (prefix := prefix) (cost := cost) (st := st) as (st' & E & (HJ' & Hs') & _ & Hg); try assumption.
  - intros st1 q c (HJ1 & Hs1) Hq Hc. fold n in Hq. fold n M in Hc. cbv zeta. rewrite Hgp.
    pose proof Hc as (t & Ht & Et).
    assert (Hgen : genuine (c, q)) by (split; assumption).
    destruct Hs1 as [Hs1|Hs1].
    + rewrite Hs1. cbn [fst]. rewrite (holds_lt_inf c t Ht). split; [split; [apply HJput; assumption|right; assumption]|]. split.
      * left. exists t. split; [assumption|]. apply HRrefl; assumption.
      * intros q' [(t' & Ht' & _)|Hg']; [|right; assumption]. exfalso. exact (inf_not_holds t' Ht').
    + destruct Hs1 as (Htp & a & Ha & Ea). rewrite (holds_lt c _ t a Ht Ha).
      destruct (Z.ltb_spec t a) as [Hlt|Hge].
      * split; [split; [apply HJput; assumption|right; assumption]|]. split.
        -- left. exists t. split; [assumption|]. apply HRrefl; assumption.
        -- intros q' [(t' & Ht' & HR')|Hg']; [|right; assumption]. left. exists t. split; [assumption|].
           rewrite (holds_unique _ _ _ Ht' Ha) in HR'. apply (HRle t a); [lia|assumption].
      * split; [split; [apply HJput; assumption|right; split; [assumption|exists a; auto]]|]. split; [|auto].
        left. exists a. split; [assumption|]. apply (HRle a t); [assumption|]. apply HRrefl; assumption.
  - intros st1 p c (HJ1 & Hs1) Hnd1 Hr1 Hl1 Hc. fold n in Hr1. fold n M in Hc.
    destruct (Hkeep st1 p c HJ1 Hs1 Hnd1 Hr1 Hl1 Hc) as (b & st2 & Ek & Eg & HJ2 & Hb).
    exists b, st2. split; [assumption|]. rewrite Eg. split; [split; assumption|]. split; [auto|].
    intros Hfalse q Hq Hex. destruct (Hb Hfalse) as [HG|(y & x & Hy & Hle & HR)]; [right; auto|]. left.
    destruct Hs1 as [Hs1|(_ & a & Ha & _)].
    + exfalso. rewrite Hs1 in Hle. cbn [fst] in Hle. pose proof (holds_lt_inf y x Hy) as Hlt.
      apply (clt_le B64_ord) in Hlt. congruence.
    + exists a. split; [assumption|]. apply HR; try assumption. rewrite (holds_le y _ x a Hy Ha) in Hle. lia.
  - split; assumption.
  - exists st'. auto.
Qed.

(** from the empty prefix: a tour is found, and it is good enough *)
Lemma search_all st : J st -> get st = (cinf, []) -> (forall q, ~ G q) ->
  exists st', dfs St get put keep g (S n) [] c0 st = Ok st' /\ J st' /\ genuine (get st') /\
    exists t, holds (fst (get st')) t /\ (Z.abs (t - tour_cost w (snd (get st'))) * 2 ^ 53 <= dleaf g * M)%Z /\ forall q, is_tour n q -> R t q.
Proof.
  intros HJ Hg HG.
  destruct (search_drift (S n) [] (@c0 B64) st) as (st' & E & HJ' & Hs & Hall); [cbn [length]; lia|constructor|constructor|assumption|left; assumption| |].
  - exists 0%Z. split; [apply holds_0|]. cbn. lia.
  - exists st'. split; [assumption|]. split; [assumption|].
    assert (Hgood : forall q, is_tour n q -> exists t, holds (fst (get st')) t /\ R t q).
    { intros q Hq. destruct (Hall q Hq ltac:(exists q; reflexivity)) as [H|H]; [assumption|destruct (HG q H)]. }
    destruct Hs as [Hs|Hs].
    { exfalso. destruct (Hgood (seq 0 n) (tour_seq n)) as (t & Ht & _). rewrite Hs in Ht. exact (inf_not_holds t Ht). }
    split; [assumption|]. destruct Hs as (Htour & t & Ht & Et). exists t. split; [assumption|]. split; [assumption|].
    intros q Hq. destruct (Hgood q Hq) as (t' & Ht' & HR). rewrite (holds_unique _ _ _ Ht Ht'). assumption.
Qed.
End Search.
