(** The nearest-neighbour heuristic on represented integer costs. *)
From Coq Require Import ZArith Arith Bool List Permutation Lia.
From Verif Require Import Num Base Data Par Rand MstPar Nn Spec SpecFacts Dfs PrimProofs PermProofs OneTreeProofs MstParProofs NnProofs.
Import ListNotations.

Section NnExact.
Context {N : Num} {B : Z} (E : Exact N B) (O : NumOrd N).
Variable m : namatrix N.
Hypothesis Hwf : na_wf m.
Variable w : nat -> nat -> Z.
Variable W : Z.
Let n := na_dim m.
Hypothesis Hrep : represents E (na_adj m) w.
Hypothesis HW : bounded w n W.
Hypothesis HB : (W * (Z.of_nat n + 1) <= B)%Z.

Lemma single_exact s : s < n -> exists p, single_nearest_neighbour m s = Ok (inj E (tour_cost w p), p) /\
  is_tour n p /\ hd 0 p = s /\ greedy_tour w n p.
Proof.
  intros Hs. assert (W0 : (0 <= W)%Z) by (pose proof (HW s s Hs Hs); lia).
  assert (Hval : forall a b, a < n -> b < n -> (a = b -> n = 1) -> na_val m a b = inj E (w a b)).
  { intros a b Ha Hb Hab. specialize (Hrep a b Ha Hb Hab). cbn [na_adj a_get] in Hrep. rewrite na_get_val in Hrep by assumption. congruence. }
  assert (Hwb : forall a b, a < n -> b < n -> (Z.abs (w a b) <= B)%Z) by (intros a b Ha Hb; pose proof (HW a b Ha Hb); nia).
  destruct (single_nn_spec O m Hwf) with (s := s) as (c & p & Es & Ht & Hh & Hg & Hc); [|exact Hs|].
  { intros a b Ha Hb Hab. rewrite Hval by (assumption || (intros; congruence)). apply inj_lt_inf. auto. }
  pose proof (tour_length _ _ Ht) as Hl. fold n in Hl.
  assert (Hgz : greedy_tour w n p).
  { intros k v Hk Hv Hnv. specialize (Hg k v Hk Hv Hnv).
    assert (Hin : forall j, j < length p -> nth j p 0 < n) by (intros j Hj; apply (tour_In _ _ _ Ht), nth_In; assumption).
    pose proof (tour_NoDup _ _ Ht) as Hnd.
    rewrite !Hval in Hg; try assumption; try (apply Hin; lia).
    - rewrite inj_le in Hg; [|apply Hwb; try assumption; apply Hin; lia..]. apply Z.leb_le. assumption.
    - intros <-. exfalso. apply Hnv. rewrite <- (firstn_skipn (S k) p) at 1. rewrite app_nth1 by (rewrite firstn_length; lia). apply nth_In. rewrite firstn_length; lia.
    - intros Heq. apply (NoDup_nth p 0) in Heq; try lia; assumption. }
  destruct (Nat.eq_dec n 1) as [H1|H1].
  - exists p. destruct p as [|x [|]]; try (cbn in Hl; lia). cbn in Hh. subst x.
    split; [|auto]. rewrite Es. f_equal. f_equal.
    unfold single_nearest_neighbour in Es. fold n in Es. rewrite H1 in Es.
    assert (s = 0) by lia. subst s. cbn [Nat.ltb Nat.leb negb repeat modify_res upd bind Nat.sub nn_loop] in Es.
    cbn in Es. rewrite na_get_val in Es by assumption. cbn [bind] in Es. injection Es as Es. rewrite <- Es.
    rewrite Hval by (assumption || auto). rewrite (inj_0 _ _ E). rewrite inj_add; [|cbn; pose proof (Hwb 0 0 Hs Hs); lia..].
    f_equal.
  - destruct (tour_steps E (na_adj m) w W n p eq_refl Hrep HW Ht) as [T1 T2].
    assert (Ec : evaluate_circle (na_adj m) p = Ok (inj E (tour_cost w p))).
    { apply (evaluate_circle_exact E (na_adj m) w W); auto; [lia|apply T2; lia|nia]. }
    rewrite Hc in Ec by (fold n; lia). injection Ec as ->. exists p. auto.
Qed.

Lemma tour_small p : is_tour n p -> 1 <= n -> (Z.abs (tour_cost w p) <= B)%Z.
Proof.
  intros Hq Hn. assert (W0 : (0 <= W)%Z) by (pose proof (HW 0 0 Hn Hn); lia).
  pose proof (tour_cost_bound w n p W HW (tour_Forall n p Hq) W0) as H.
  rewrite (tour_length n p Hq) in H. lia.
Qed.

(** [p] is a greedy tour from one of [starts], of least cost among the greedy tours the
    heuristic finds from them. *)
Lemma n_nn_exact env mode k : mode <= 1 -> 1 <= k <= n ->
  exists starts p, length starts = k /\ NoDup starts /\ Forall (fun s => s < n) starts /\
    n_nearest_neighbour env mode m k = Ok (inj E (tour_cost w p), p) /\
    is_tour n p /\ In (hd 0 p) starts /\ greedy_tour w n p /\
    single_nearest_neighbour m (hd 0 p) = Ok (inj E (tour_cost w p), p) /\
    forall s, In s starts -> exists q, single_nearest_neighbour m s = Ok (inj E (tour_cost w q), q) /\ (tour_cost w p <= tour_cost w q)%Z.
Proof.
  intros Hm Hk.
  destruct (n_nn_spec O env mode m k Hm Hk) as (starts & x & H1 & H2 & H3 & H4 & (s & Hs & Es) & H6).
  { intros s Hs. destruct (single_exact s Hs) as (p & Ep & _). eexists. exact Ep. }
  assert (Hin : forall s, In s starts -> s < n) by (rewrite Forall_forall in H3; exact H3).
  destruct (single_exact s (Hin s Hs)) as (p & Ep & Ht & Hh & Hg).
  assert (Ex : x = (inj E (tour_cost w p), p)) by congruence. subst x.
  exists starts, p. split; [assumption|]. split; [assumption|]. split; [assumption|]. split; [assumption|]. split; [assumption|].
  split; [rewrite Hh; assumption|]. split; [assumption|]. split; [rewrite Hh; assumption|].
  intros s' Hs'. destruct (single_exact s' (Hin s' Hs')) as (q & Eq & Htq & _ & _). exists q. split; [assumption|].
  specialize (H6 s' _ Hs' Eq). cbn [fst] in H6.
  pose proof (tour_small p Ht ltac:(lia)) as Sp. pose proof (tour_small q Htq ltac:(lia)) as Sq.
  unfold olt in H6. rewrite !(inj_not_nan E O) in H6 by assumption. rewrite inj_lt in H6 by assumption. apply Z.ltb_ge. assumption.
Qed.

Lemma nn_mpi_exact order tree size : 1 <= size <= n -> (forall r, r < size -> Permutation (order r) (seq 0 size)) ->
  exists p, nearest_neighbour_mpi order tree m size = Ok (repeat (inj E (tour_cost w p), p) size) /\
    is_tour n p /\ greedy_tour w n p /\ single_nearest_neighbour m (hd 0 p) = Ok (inj E (tour_cost w p), p) /\
    forall s, s < n -> exists q, single_nearest_neighbour m s = Ok (inj E (tour_cost w q), q) /\ (tour_cost w p <= tour_cost w q)%Z.
Proof.
  intros Hsz Hord.
  destruct (nn_mpi_spec O order tree m size) as (x & Ex & (s & Hs & Es) & Hmin); [|assumption|assumption|].
  { intros s Hs. destruct (single_exact s Hs) as (p & Ep & Ht & _). eexists. split; [exact Ep|]. cbn [fst].
    apply (inj_not_nan E O), tour_small; [assumption|lia]. }
  destruct (single_exact s Hs) as (p & Ep & Ht & Hh & Hg).
  assert (x = (inj E (tour_cost w p), p)) by congruence. subst x.
  exists p. split; [assumption|]. split; [assumption|]. split; [assumption|]. split; [rewrite Hh; assumption|].
  intros s' Hs'. destruct (single_exact s' Hs') as (q & Eq & Htq & _ & _). exists q. split; [assumption|].
  specialize (Hmin s' _ Hs' Eq). cbn [fst] in Hmin. rewrite inj_le in Hmin by (apply tour_small; assumption || lia).
  apply Z.leb_le. assumption.
Qed.
End NnExact.
