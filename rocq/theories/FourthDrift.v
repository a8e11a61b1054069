(** The fourth solver on arbitrary doubles, with the triangle inequality up to a slack: how far
    it can be from the optimum.  (Proofs.) *)
From Coq Require Import ZArith NArith Arith Bool List Permutation Lia.
From Flocq Require Import IEEE754.Binary IEEE754.Bits.
From Verif Require Import Num NumB64 Base Spec SpecFacts Data Mst Exact Threaded Dfs Greedy PrimProofs MstFacts ExactProofs
  SearchProofs Units RoundProofs DriftProofs DriftSolvers RatioProofs FourthProofs.
Import ListNotations.

Section FourthDrift.
Variable m : namatrix B64.
Variable w : nat -> nat -> Z.
Variable W : Z.
Hypothesis Hv : f64_values m w.
Let n := na_dim m.
Hypothesis Hn : 1 <= n.
Hypothesis Hsz : sized w n W.
Let g := na_adj m.
Let M := ((Z.of_nat n + 1) * W)%Z.

Let Hval : forall i j, i < a_dim g -> j < a_dim g -> exists x, a_get g i j = Ok x /\ holds x (w i j).
Proof. intros i j Hi Hj. apply Hv; assumption. Qed.
Let HW0 : (0 <= W)%Z. Proof. exact (W0 g w W Hn Hsz). Qed.
Let HM0 : (0 <= M)%Z. Proof. unfold M. nia. Qed.
Let Hmod : moderate w n. Proof. apply (sized_moderate w n W Hn Hsz). Qed.

(** the estimate is the sum of the least costs, up to rounding *)
Lemma estimate_values p : exists x e zs, compute_nn_of_remaining_vertices g p n = Ok x /\ holds x e /\ (0 <= e <= 2 * (Z.of_nat n * W))%Z /\
  Forall2 (nn_of g w p) (outside p (seq 0 n)) zs /\ ((e - zsum zs) * 2 ^ 53 <= 2 * Z.of_nat n * M)%Z.
Proof.
  pose proof Hsz as (Hnn & Hub & Hbig & _). pose proof Hmod as (_ & Hn50 & _).
  unfold compute_nn_of_remaining_vertices.
  match goal with |- context [foldM ?f _ _] =>
    destruct (foldM_inv f (fun pre acc => exists zs, approx (length pre) acc (zsum zs) /\ (0 <= zsum zs <= Z.of_nat (length pre) * W)%Z /\ Forall2 (nn_of g w p) (outside p pre) zs)
      (seq 0 n) c0) as (s & Es & zs & Hz & Hzr & HF) end.
  - exists []. split; [apply approx_holds; [apply holds_0|cbn; lia]|]. split; [cbn; lia|constructor].
  - intros pre i post acc Eseq (zs & Hz & Hzr & HF).
    assert (Hi : In i (seq 0 n)) by (rewrite Eseq; apply in_elt). apply in_seq in Hi.
    assert (Hlen : length pre < n) by (apply (f_equal (@length nat)) in Eseq; rewrite seq_length, app_length in Eseq; cbn in Eseq; lia).
    assert (Hlp : length (pre ++ [i]) = S (length pre)) by (rewrite app_length; cbn; lia).
    assert (Hout : outside p (pre ++ [i]) = outside p pre ++ (if memb i p then [] else [i])).
    { unfold outside. rewrite filter_app. cbn [filter]. destruct (memb i p); reflexivity. }
    rewrite Hout, Hlp. clear Hout. destruct (memb i p).
    { eexists. split; [reflexivity|]. exists zs. rewrite app_nil_r. split; [apply (approx_weaken (length pre)); [lia|lia|assumption]|]. split; [nia|assumption]. }
    match goal with |- context [foldM ?f _ _] =>
      destruct (foldM_inv f (fun pre (s : C B64) => (s = cinf /\ forall j, In j pre -> In j p) \/
          exists z, holds s z /\ (0 <= z <= W)%Z /\ (exists j, i < j < n /\ ~ In j p /\ z = w i j) /\ forall j, In j pre -> ~ In j p -> (z <= w i j)%Z)
        (seq (i + 1) (n - (i + 1))) cinf) as (s & Es & Hs) end.
    + left. split; [reflexivity|intros j []].
    + intros pre' j post' s Eseq' Hs. assert (Hj : In j (seq (i + 1) (n - (i + 1)))) by (rewrite Eseq'; apply in_elt). apply in_seq in Hj.
      destruct (memb j p) eqn:Em.
      { apply memb_In in Em. eexists. split; [reflexivity|]. destruct Hs as [[-> Hs]|(z & Hzs & Hz0 & Hz' & Hs)]; [left|right].
        - split; [reflexivity|]. intros k Hk. apply in_app_or in Hk. destruct Hk as [|[<-|[]]]; auto.
        - exists z. split; [assumption|]. split; [assumption|]. split; [assumption|]. intros k Hk Hkp. apply in_app_or in Hk. destruct Hk as [|[<-|[]]]; [auto|contradiction]. }
      apply memb_nIn in Em.
      assert (Hb : (0 <= w i j <= W)%Z) by (split; [apply Hnn|apply Hub]; lia).
      destruct (Hval i j) as (x & Ex & Hx); [change (a_dim g) with n; lia..|]. rewrite Ex. cbn [bind]. eexists. split; [reflexivity|]. right.
      destruct Hs as [[-> Hs]|(z & Hzs & Hz0 & Hz' & Hs)].
      * rewrite (holds_lt_inf x _ Hx). exists (w i j). split; [assumption|]. split; [assumption|]. split; [exists j; repeat split; try lia; assumption|].
        intros k Hk Hkp. apply in_app_or in Hk. destruct Hk as [Hk|[<-|[]]]; [|lia]. exfalso. auto.
      * rewrite (holds_lt x s _ _ Hx Hzs). destruct (Z.ltb_spec (w i j) z).
        -- exists (w i j). split; [assumption|]. split; [assumption|]. split; [exists j; repeat split; try lia; assumption|].
           intros k Hk Hkp. apply in_app_or in Hk. destruct Hk as [Hk|[<-|[]]]; [|lia]. specialize (Hs k Hk Hkp). lia.
        -- exists z. split; [assumption|]. split; [assumption|]. split; [assumption|].
           intros k Hk Hkp. apply in_app_or in Hk. destruct Hk as [Hk|[<-|[]]]; [auto|lia].
    + rewrite Es. cbn [bind]. assert (Hlater : forall j, i < j < n -> In j (seq (i + 1) (n - (i + 1)))) by (intros j Hj; apply in_seq; lia).
      destruct Hs as [[-> Hs]|(y & Hy & Hyr & Hy' & Hs)].
      * change (negb (@ceq B64 cinf cinf)) with false. cbv iota. eexists. split; [reflexivity|]. exists (zs ++ [0%Z]).
        rewrite zsum_app. change (zsum [0%Z]) with 0%Z. rewrite Z.add_0_r. split; [apply (approx_weaken (length pre)); [lia|lia|assumption]|]. split; [nia|].
        apply Forall2_app; [assumption|]. constructor; [|constructor]. split; [left; reflexivity|]. intros j Hj Hjp. exfalso. auto.
      * assert (Hne : @ceq B64 s cinf = false).
        { rewrite (ord_eq B64 B64_ord). pose proof (holds_lt_inf s y Hy) as Hlt. rewrite (ord_lt B64 B64_ord) in Hlt.
          apply andb_prop in Hlt. destruct Hlt as [_ Hlt]. apply negb_true_iff in Hlt. rewrite Hlt. apply andb_false_r. }
        rewrite Hne. cbn [negb]. eexists. split; [reflexivity|]. exists (zs ++ [y]).
        rewrite zsum_app. change (zsum [y]) with (y + 0)%Z. rewrite Z.add_0_r. split; [|split; [nia|]].
        -- apply (approx_plus (length pre)); [assumption| | lia | lia | | lia].
           ++ apply (approx_weaken 0); [lia|lia|]. apply approx_holds; [assumption|lia].
           ++ assert (E : (2 ^ 2096 = 4 * 2 ^ 2094)%Z) by (change 4%Z with (2 ^ 2)%Z; rewrite <- (Z.pow_add_r 2 2 2094) by lia; reflexivity).
              rewrite E. assert (0 <= 2 ^ 2094)%Z by (apply Z.pow_nonneg; lia). set (P := (2 ^ 2094)%Z) in *. clearbody P. nia.
        -- apply Forall2_app; [assumption|]. constructor; [|constructor]. split; [right; assumption|]. intros j Hj Hjp. auto.
  - rewrite Es. rewrite seq_length in *. destruct Hz as (e & He & Hwe & _).
    exists s, e, zs. split; [reflexivity|]. split; [assumption|].
    assert (Hk : (Z.of_nat n <= 2 ^ 52)%Z) by (assert (2 ^ 52 = 4 * 2 ^ 50)%Z by reflexivity; lia).
    pose proof (within_double n e _ Hk (proj1 Hzr) Hwe). pose proof (within_nonneg n e _ (proj1 Hzr) Hwe).
    pose proof (within_excess n e _ Hk (proj1 Hzr) Hwe) as Hexc. split; [lia|]. split; [assumption|].
    eapply Z.le_trans; [exact Hexc|]. unfold M. set (z := zsum zs) in *. clearbody z. nia.
Qed.

(** the tour [q] up to the logarithmic factor, the slack [d] and the drift *)
Definition log_close (d t : Z) (q : list nat) : Prop :=
  (2 * t * 2 ^ 53 <= (Z.of_nat (Nat.log2_up (n - 2)) + 2) * (tour_cost w q + (Z.of_nat n - 1) * d) * 2 ^ 53 + 2 * ((dleaf g + 2 * Z.of_nat n + 2) * M))%Z.

Lemma fourth_log d : (0 <= d)%Z -> symmetric w n -> triangle_up_to w n d ->
  exists x p, fourth_improved_solver g = Ok (x, p) /\ is_tour n p /\ near (drift n W) x (tour_cost w p) /\
    forall q, is_tour n q ->
      (2 * tour_cost w p * 2 ^ 53 <= (Z.of_nat (Nat.log2_up (n - 2)) + 2) * (tour_cost w q + (Z.of_nat n - 1) * d) * 2 ^ 53 + 4 * drift n W)%Z.
Proof.
  intros Hd Hs Ht. pose proof Hsz as (Hnn & _). unfold fourth_improved_solver. rewrite fourth_dfs. unfold dfs0.
  destruct (search_all (solution B64) (fun s => s) (fun _ r => r) (keep4 g) g w W Hn Hval Hsz
     (fun _ => True) ltac:(auto) ltac:(auto) (log_close d) (fun _ => False)) with (st := (cinf, []) : solution B64)
    as ([x p] & Ed & _ & Hg & t & Ht' & Et & Hopt); auto.
  - intros a b q Hab. unfold log_close. set (P := (2 ^ 53)%Z). assert (0 < P)%Z by reflexivity. clearbody P. pose proof (scale P (2 * a) (2 * b) H ltac:(lia)). lia.
  - intros q t Hq Et. change (a_dim g) with n in Hq, Et. fold M in Et. unfold log_close. pose proof (tour_range g w W Hn Hsz q Hq) as [H0 _].
    assert (K0 : (0 <= 2 * Z.of_nat n * M + 2 * M)%Z) by nia.
    assert (K1 : (2 * tour_cost w q <= (Z.of_nat (Nat.log2_up (n - 2)) + 2) * (tour_cost w q + (Z.of_nat n - 1) * d))%Z).
    { assert (0 <= (Z.of_nat n - 1) * d)%Z by nia. set (D := ((Z.of_nat n - 1) * d)%Z) in *. clearbody D. nia. }
    replace ((dleaf g + 2 * Z.of_nat n + 2) * M)%Z with (dleaf g * M + (2 * Z.of_nat n * M + 2 * M))%Z by ring.
    set (P := (2 ^ 53)%Z) in *. assert (H : (0 < P)%Z) by reflexivity. clearbody P. destruct (spread P _ _ _ H Et) as [K _].
    pose proof (scale P _ _ H K1). lia.
  - intros st p c _ _ Hnd Hr Hl Hc. unfold keep4. change (a_dim g) with n.
    destruct (estimate_values p) as (x & e & zs & Ex & He & Her & HF & Hexc). rewrite Ex. cbn [bind]. eexists _, st. split; [reflexivity|].
    split; [reflexivity|]. split; [constructor|]. intros Hf. right.
    destruct (bound_near m w W Hn Hsz p c x e Hnd Hr Hc He ltac:(unfold n in *; nia)) as (y & Hy & Ey). exists (@cadd B64 c x), y.
    split; [assumption|]. split; [assumption|]. intros q t Hq [r ->] Hlt. unfold log_close.
    change (a_dim g) with n in Hq. fold n in Ey. fold g in Ey. fold M in Ey.
    pose proof (estimate_slack g w Hn d p r zs Hd Hs Ht Hnn Hq Hl HF) as Hr'. change (a_dim g) with n in Hr'.
    pose proof (budget_le g W Hn (length p) (in_range_length p n Hnd Hr)) as [_ Hb].
    assert (HbM : ((budget g (length p) + 3) * M <= (dleaf g + 2) * M)%Z) by (apply Z.mul_le_mono_nonneg_r; [assumption|unfold dleaf; lia]).
    replace ((dleaf g + 2 * Z.of_nat n + 2) * M)%Z with ((dleaf g + 2) * M + 2 * Z.of_nat n * M)%Z by ring.
    set (P := (2 ^ 53)%Z) in *. assert (H : (0 < P)%Z) by reflexivity. clearbody P.
    set (D := ((dleaf g + 2) * M)%Z) in *. set (D' := (2 * Z.of_nat n * M)%Z) in *. clearbody D D'.
    pose proof (scale P t y H ltac:(lia)). pose proof (scale P _ _ H Hr'). lia.
  - exists x, p. split; [exact Ed|]. destruct (genuine_near m w W Hn Hsz _ Hg) as [H1 H2]. split; [exact H1|]. split; [exact H2|].
    intros q Hq. specialize (Hopt q Hq). unfold log_close in Hopt. cbn [fst snd] in *. change (a_dim g) with n in Et. fold M in Et.
    assert (HD : (2 * (dleaf g * M) + 2 * ((dleaf g + 2 * Z.of_nat n + 2) * M) <= 4 * drift n W)%Z).
    { unfold drift, dleaf. change (a_dim g) with n. rewrite <- (Z.mul_assoc _ (Z.of_nat n + 1) W). fold M. rewrite !Z.mul_assoc, <- Z.mul_add_distr_r.
      apply Z.mul_le_mono_nonneg_r; [assumption|]. nia. }
    set (P := (2 ^ 53)%Z) in *. assert (H : (0 < P)%Z) by reflexivity. clearbody P. destruct (spread P _ _ _ H Et) as [_ K]. lia.
Qed.
End FourthDrift.
