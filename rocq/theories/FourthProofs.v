(** How far the fourth solver can be from the optimum when the triangle inequality holds.
    (Proofs.) *)
From Coq Require Import ZArith Arith Bool List Permutation Lia.
From Verif Require Import Num Base Spec SpecFacts Data Mst Exact Dfs Greedy PrimProofs MstFacts PermProofs ExactProofs Matching MatchingProofs ChristofidesProofs ChristofidesExact SlackProofs RatioProofs.
Import ListNotations.

Section Fourth.
Context {N : Num} {B : Z} (E : Exact N B).
Variable g : adj N.
Variable w : nat -> nat -> Z.
Variable W : Z.
Let n := a_dim g.
Hypothesis Hn : 1 <= n.
Hypothesis Hrep : represents E g w.
Hypothesis HW : bounded w n W.
Let W_nonneg : (0 <= W)%Z.
Proof. pose proof (HW 0 0 ltac:(lia) ltac:(lia)); lia. Qed.

(** the estimate for vertex [i]: the least cost to a later vertex that is not in [p], if there is one *)
Definition nn_of (p : list nat) (i : nat) (z : Z) : Prop :=
  (z = 0%Z \/ exists j, i < j < n /\ ~ In j p /\ z = w i j) /\ (forall j, i < j < n -> ~ In j p -> (z <= w i j)%Z).

Definition outside (p : list nat) (l : list nat) : list nat := filter (fun v => negb (memb v p)) l.

Lemma nn_estimate p : (2 * W * Z.of_nat n <= B)%Z ->
  exists zs, compute_nn_of_remaining_vertices g p n = Ok (inj E (zsum zs)) /\ (Z.abs (zsum zs) <= W * Z.of_nat n)%Z /\
    Forall2 (nn_of p) (outside p (seq 0 n)) zs.
Proof.
  intros HB. unfold compute_nn_of_remaining_vertices.
  match goal with |- context [foldM ?f _ _] =>
    destruct (foldM_inv f (fun pre acc => exists zs, acc = inj E (zsum zs) /\ (Z.abs (zsum zs) <= W * Z.of_nat (length pre))%Z /\ Forall2 (nn_of p) (outside p pre) zs)
      (seq 0 n) c0) as (s & Es & zs & -> & Hx & HF) end.
  - exists []. split; [apply inj_0|]. split; [cbn; lia|constructor].
  - intros pre i post acc Eseq (zs & -> & Hx & HF).
    assert (Hi : In i (seq 0 n)) by (rewrite Eseq; apply in_elt). apply in_seq in Hi.
    assert (Hlen : length pre < n) by (apply (f_equal (@length nat)) in Eseq; rewrite seq_length, app_length in Eseq; simpl in Eseq; lia).
    assert (Hlp : length (pre ++ [i]) = S (length pre)) by (rewrite app_length; simpl; lia).
    assert (Hout : outside p (pre ++ [i]) = outside p pre ++ (if memb i p then [] else [i])).
    { unfold outside. rewrite filter_app. cbn [filter]. destruct (memb i p); reflexivity. }
    rewrite Hout, Hlp. destruct (memb i p).
    { eexists. split; [reflexivity|]. exists zs. split; [reflexivity|]. rewrite app_nil_r. split; [nia|assumption]. }
    match goal with |- context [foldM ?f _ _] =>
      destruct (foldM_inv f (fun pre s => (s = cinf /\ forall j, In j pre -> In j p) \/
          exists z, s = inj E z /\ (Z.abs z <= W)%Z /\ (exists j, i < j < n /\ ~ In j p /\ z = w i j) /\ forall j, In j pre -> ~ In j p -> (z <= w i j)%Z)
        (seq (i + 1) (n - (i + 1))) cinf) as (s & Es & Hs) end.
    + left. split; [reflexivity|intros j []].
    + intros pre' j post' s Eseq' Hs. assert (Hj : In j (seq (i + 1) (n - (i + 1)))) by (rewrite Eseq'; apply in_elt). apply in_seq in Hj.
      destruct (memb j p) eqn:Em.
      { apply memb_In in Em. eexists. split; [reflexivity|]. destruct Hs as [[-> Hs]|(z & -> & Hz & Hz' & Hs)]; [left|right].
        - split; [reflexivity|]. intros k Hk. apply in_app_or in Hk. destruct Hk as [|[<-|[]]]; auto.
        - exists z. split; [reflexivity|]. split; [assumption|]. split; [assumption|]. intros k Hk Hkp. apply in_app_or in Hk. destruct Hk as [|[<-|[]]]; [auto|contradiction]. }
      apply memb_nIn in Em.
      assert (Hb : (Z.abs (w i j) <= W)%Z) by (apply HW; lia).
      rewrite Hrep by (try (fold n); lia). cbn [bind]. eexists. split; [reflexivity|]. right.
      destruct Hs as [[-> Hs]|(z & -> & Hz & Hz' & Hs)].
      * rewrite inj_lt_inf by nia. exists (w i j). split; [reflexivity|]. split; [assumption|]. split; [exists j; repeat split; try lia; assumption|].
        intros k Hk Hkp. apply in_app_or in Hk. destruct Hk as [Hk|[<-|[]]]; [|lia]. exfalso. auto.
      * rewrite inj_lt by nia. destruct (Z.ltb_spec (w i j) z).
        -- exists (w i j). split; [reflexivity|]. split; [assumption|]. split; [exists j; repeat split; try lia; assumption|].
           intros k Hk Hkp. apply in_app_or in Hk. destruct Hk as [Hk|[<-|[]]]; [|lia]. specialize (Hs k Hk Hkp). lia.
        -- exists z. split; [reflexivity|]. split; [assumption|]. split; [assumption|].
           intros k Hk Hkp. apply in_app_or in Hk. destruct Hk as [Hk|[<-|[]]]; [auto|lia].
    + rewrite Es. cbn [bind]. assert (Hlater : forall j, i < j < n -> In j (seq (i + 1) (n - (i + 1)))) by (intros j Hj; apply in_seq; lia).
      destruct Hs as [[-> Hs]|(z & -> & Hz & Hz' & Hs)].
      * rewrite (inf_eq_inf N B E). cbn [negb]. eexists. split; [reflexivity|]. exists (zs ++ [0%Z]).
        rewrite zsum_app. change (zsum [0%Z]) with 0%Z. rewrite Z.add_0_r. split; [reflexivity|]. split; [nia|].
        apply Forall2_app; [assumption|]. constructor; [|constructor]. split; [left; reflexivity|]. intros j Hj Hjp. exfalso. auto.
      * rewrite (inj_eq_inf N B E) by nia. cbn [negb]. eexists. split; [reflexivity|]. exists (zs ++ [z]).
        rewrite zsum_app. change (zsum [z]) with (z + 0)%Z. rewrite Z.add_0_r.
        split; [apply inj_add; nia|]. split; [nia|]. apply Forall2_app; [assumption|]. constructor; [|constructor]. split; [right; assumption|]. intros j Hj Hjp. auto.
  - rewrite Es. exists zs. rewrite seq_length in Hx. auto.
Qed.

(** The estimate against the rest of a tour that begins with [p] *)
Lemma estimate_slack d p r zs : (0 <= d)%Z -> symmetric w n -> triangle_up_to w n d -> nonneg w n ->
  is_tour n (p ++ r) -> 2 <= length p -> Forall2 (nn_of p) (outside p (seq 0 n)) zs ->
  (2 * (path_cost w p + zsum zs) <= (Z.of_nat (Nat.log2_up (n - 2)) + 2) * (tour_cost w (p ++ r) + (Z.of_nat n - 1) * d))%Z.
Proof.
  intros Hd Hs H0d Hnn Hq Hp HF.
  pose proof (tour_length n _ Hq) as Hl. rewrite app_length in Hl. pose proof (tour_NoDup n _ Hq) as Hnd.
  assert (Hin : forall v, In v (p ++ r) -> v < n) by (intros v; apply (tour_In n _ v Hq)).
  assert (Hinp : forall v, In v p -> v < n) by (intros v Hv; apply Hin, in_or_app; left; assumption).
  assert (Hinr : forall v, In v r -> v < n) by (intros v Hv; apply Hin, in_or_app; right; assumption).
  assert (Hdis : forall v, In v r -> ~ In v p).
  { intros v Hr Hv. destruct (in_split v r Hr) as (a & b & ->). rewrite app_assoc in Hnd. apply NoDup_remove_2 in Hnd. apply Hnd.
    apply in_or_app. left. apply in_or_app. left. assumption. }
  assert (Hndr : NoDup r) by (clear -Hnd; induction p as [|x p IH]; [exact Hnd|inversion Hnd; auto]).
  assert (HP : Permutation (outside p (seq 0 n)) r).
  { apply NoDup_Permutation; [apply NoDup_filter, seq_NoDup|assumption|]. intros v. unfold outside. rewrite filter_In, in_seq.
    split.
    - intros [Hv Hm]. assert (Hv' : In v (p ++ r)) by (apply (tour_In n _ v Hq); lia). apply in_app_or in Hv'. destruct Hv' as [Hv'|]; [|assumption].
      apply memb_In in Hv'. rewrite Hv' in Hm. discriminate.
    - intros Hv. split; [pose proof (Hinr v Hv); lia|]. pose proof (Hdis v Hv) as Hm. apply memb_nIn in Hm. rewrite Hm. reflexivity. }
  assert (Hz : exists l, zsum zs = zsum (map l r) /\ forall v, In v r -> nn_of p v (l v)).
  { destruct (values_of (outside p (seq 0 n)) zs) as [l El]; [apply NoDup_filter, seq_NoDup|clear -HF; induction HF; cbn; congruence|].
    exists l. rewrite <- El. split; [apply zsum_perm, Permutation_map; assumption|]. intros v Hv.
    apply (Permutation_in v (Permutation_sym HP)) in Hv. rewrite <- El in HF. clear -HF Hv.
    induction (outside p (seq 0 n)) as [|x t IH]; [destruct Hv|]. cbn [map] in HF. inversion HF; subst. destruct Hv as [<-|Hv]; auto. }
  destruct Hz as (l & -> & Hl').
  assert (Hpq : (path_cost w p <= tour_cost w (p ++ r))%Z) by (apply (prefix_cost_le w n); [assumption|apply Forall_forall; exact Hin]).
  assert (Hq0 : (0 <= tour_cost w (p ++ r))%Z) by (apply (tour_nonneg w n Hnn); assumption).
  assert (Hshort : length r <= 1 -> zsum (map l r) = 0%Z).
  { intros H. destruct r as [|v [|]]; [reflexivity| |cbn in H; lia]. cbn [map]. rewrite zsum_cons. cbn [zsum fold_right].
    destruct (Hl' v (or_introl eq_refl)) as [[->|(j & Hj & Hjp & _)] _]; [reflexivity|].
    assert (Hj' : In j (p ++ [v])) by (apply (tour_In n _ j Hq); lia). apply in_app_or in Hj'. destruct Hj' as [Hj'|[Hj'|[]]]; [contradiction|lia]. }
  assert (Hnd0 : (0 <= (Z.of_nat n - 1) * d)%Z) by nia.
  destruct (le_lt_dec (length r) 1) as [H1|H1]; [rewrite (Hshort H1); nia|].
  set (K := (tour_cost w r + (Z.of_nat (length r) - 1) * d)%Z).
  assert (Hhalf : (2 * zsum (map l r) <= (Z.of_nat (Nat.log2_up (n - 2)) + 1) * K)%Z).
  { apply (halving w n d Hd H0d Hnn l K).
    - apply Nat.le_trans with (n - 2); [lia|]. destruct (Nat.le_gt_cases (n - 2) 1) as [L|L]; [pose proof (Nat.pow_nonzero 2 (Nat.log2_up (n - 2)) ltac:(lia)); lia|].
      apply Nat.log2_up_spec. lia.
    - intros ->. cbn in H1. lia.
    - assumption.
    - assumption.
    - intros a b Ha Hb Hab. destruct (Nat.lt_trichotomy a b) as [L|[L|L]]; [|contradiction|].
      + destruct (Hl' a Ha) as [_ Hm]. specialize (Hm b ltac:(split; [lia|auto]) (Hdis b Hb)). lia.
      + destruct (Hl' b Hb) as [_ Hm]. specialize (Hm a ltac:(split; [lia|auto]) (Hdis a Ha)). rewrite (Hs a b) by auto. lia.
    - intros v Hv. destruct (Hl' v Hv) as [[->|(j & Hj & Hjp & ->)] _].
      + pose proof (tour_nonneg w n Hnn r Hinr). unfold K. nia.
      + assert (Hj' : In j (p ++ r)) by (apply (tour_In n _ j Hq); lia). apply in_app_or in Hj'. destruct Hj' as [|Hj']; [contradiction|].
        pose proof (edge_in w n d Hd Hs H0d Hnn v j r Hinr Hv Hj' ltac:(lia)). unfold K. lia.
    - unfold K. lia. }
  destruct p as [|a p]; [cbn in Hp; lia|]. destruct r as [|b r]; [cbn in H1; lia|].
  set (z := last (b :: r) b).
  assert (Hz : z < n) by (apply Hinr, last_In; discriminate).
  assert (Ha : a < n) by (apply Hinp; left; reflexivity). assert (Hb : b < n) by (apply Hinr; left; reflexivity).
  (* the rest as a path *)
  assert (Hrest : (tour_cost w (b :: r) <= 2 * path_cost w (b :: r) + (Z.of_nat (length (b :: r)) - 2) * d)%Z).
  { unfold tour_cost. fold z. assert (w z b <= path_cost w (b :: r) + (Z.of_nat (length (b :: r)) - 2) * d)%Z; [|lia]. rewrite (Hs z b) by assumption.
    destruct (exists_last (l := r)) as (r' & y & Er); [intros ->; cbn in H1; lia|].
    assert (z = y) as ->. { unfold z. rewrite Er. change (b :: r' ++ [y]) with ((b :: r') ++ [y]). apply last_last. }
    rewrite Er. assert (Hsub : subseq [] r') by (clear; induction r'; [constructor|apply subseq_skip; assumption]).
    pose proof (shortcut_slack w n d [] r' y Hd H0d Hsub b Hb Hz (fun v Hv => Hinr v (or_intror (eq_ind_r (fun l => In v l) (in_or_app r' [y] v (or_introl Hv)) Er)))) as H.
    cbn [app path_cost] in H. rewrite Z.add_0_r in H. cbn [length] in *. rewrite app_length. cbn [length]. rewrite Z.sub_0_r in H.
    replace (Z.of_nat (S (length r' + 1)) - 2)%Z with (Z.of_nat (length r')) by lia. exact H. }
  assert (Hsplit : (path_cost w (a :: p) + path_cost w (b :: r) <= tour_cost w ((a :: p) ++ b :: r))%Z).
  { change ((a :: p) ++ b :: r) with (a :: p ++ b :: r). rewrite tour_cost_closed. change ((a :: p ++ b :: r) ++ [a]) with ((a :: p ++ b :: r) ++ [a]).
    rewrite (path_cost_snoc w (a :: p ++ b :: r) a a) by discriminate. change (a :: p ++ b :: r) with ((a :: p) ++ b :: r) at 1. rewrite path_cost_app.
    rewrite (path_cost_snoc w (a :: p) b a) by discriminate.
    pose proof (Hnn (last (a :: p) a) b (Hinp _ (last_In (a :: p) a ltac:(discriminate))) Hb).
    assert (Hla : last (a :: p ++ b :: r) a < n) by (apply Hin; apply (last_In (a :: p ++ b :: r)); discriminate). pose proof (Hnn _ a Hla Ha). lia. }
  assert (HTr : (K <= tour_cost w ((a :: p) ++ b :: r) + (Z.of_nat n - 1) * d)%Z).
  { assert (Hsub : subseq (b :: r) ((a :: p) ++ b :: r)) by (clear; induction (a :: p) as [|x l IH]; [apply subseq_refl|cbn; apply subseq_skip; exact IH]).
    pose proof (tour_subseq w n d Hd H0d Hnn (b :: r) _ Hin Hsub) as H. unfold K. rewrite app_length in H. rewrite <- Hl, Nat2Z.inj_add. lia. }
  assert (HK : (K <= 2 * path_cost w (b :: r) + 2 * ((Z.of_nat n - 1) * d))%Z) by (unfold K; nia).
  clearbody K. set (L := Z.of_nat (Nat.log2_up (n - 2))) in *. assert (HL : (0 <= L)%Z) by (unfold L; lia).
  set (D := ((Z.of_nat n - 1) * d)%Z) in *. clearbody D. nia.
Qed.

Lemma estimate_ratio p r zs : symmetric w n -> triangle w n -> is_tour n (p ++ r) -> 2 <= length p -> Forall2 (nn_of p) (outside p (seq 0 n)) zs ->
  (2 * (path_cost w p + zsum zs) <= (Z.of_nat (Nat.log2_up (n - 2)) + 2) * tour_cost w (p ++ r))%Z.
Proof.
  intros Hs Ht Hq Hp HF.
  assert (H0d : triangle_up_to w n 0) by (intros i j k Hi Hj Hk; specialize (Ht i j k Hi Hj Hk); lia).
  pose proof (estimate_slack 0%Z p r zs ltac:(lia) Hs H0d (metric_nonneg w n Hs Ht) Hq Hp HF) as H. rewrite Z.mul_0_r, Z.add_0_r in H. exact H.
Qed.

Lemma fourth_ratio : symmetric w n -> triangle w n -> (2 * W * (Z.of_nat n + 1) <= B)%Z ->
  exists c p, fourth_improved_solver g = Ok (inj E c, p) /\ is_tour n p /\ tour_cost w p = c /\
    forall q, is_tour n q -> (2 * c <= (Z.of_nat (Nat.log2_up (n - 2)) + 2) * tour_cost w q)%Z.
Proof.
  intros Hs Ht HB. unfold fourth_improved_solver. rewrite fourth_dfs. unfold dfs0.
  destruct (search_spec E (solution N) (fun s => s) (fun _ r => r) (keep4 g) g w W Hn Hrep HW ltac:(fold n; nia)
     (fun _ => True) ltac:(auto) ltac:(auto) (fun t q => (2 * t <= (Z.of_nat (Nat.log2_up (n - 2)) + 2) * tour_cost w q)%Z)) with (st0 := (cinf, []) : solution N)
    as (st & p & Ed & [Hp Htour] & _ & Hopt); auto.
  - intros; lia.
  - intros q Hq. assert (0 <= tour_cost w q)%Z; [|nia]. apply (tour_nonneg w n (metric_nonneg w n Hs Ht)). intros v. apply (tour_In n q v Hq).
  - intros st p _ Hnd Hr Hl. unfold keep4. fold n.
    destruct (nn_estimate p ltac:(nia)) as (zs & Ex & Hx & HF). rewrite Ex. cbn [bind].
    pose proof (path_cost_bound w n p W HW Hr W_nonneg). pose proof (in_range_length p n Hnd Hr).
    eexists _, st. split; [reflexivity|]. split; [reflexivity|]. split; [constructor|].
    rewrite inj_add by nia.
    intros Hc. exists (path_cost w p + zsum zs)%Z. split; [nia|]. split; [assumption|].
    intros q t Hq [r ->] Hlt. fold n in Hq. pose proof (estimate_ratio p r zs Hs Ht Hq Hl HF). lia.
  - fold n in Ed |- *. rewrite Ed. exists (tour_cost w p), p. subst st. auto.
Qed.
End Fourth.
