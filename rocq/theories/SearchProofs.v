(** The search from a prefix, used by the threaded and MPI solvers; and which prefixes the
    workers go through. *)
From Coq Require Import ZArith NArith Arith Bool List Permutation Lia ZifyBool.
From Verif Require Import Num Base Spec SpecFacts Data Mst Exact Threaded Dfs Greedy PrimProofs MstFacts
  ExactProofs PermProofs DigitsProofs.
Import ListNotations.

Section Inst.
Context {N : Num}.
Definition keep7 (m : namatrix N) (gl : C N) (st : solution N) (p : list nat) (c : C N)
  : res (bool * solution N) :=
  lg <- prim_with_excluded_node_single_threaded m p ;;
  Ok (cle (cadd c (directed_edge_weight lg)) (if clt gl (fst st) then gl else fst st), st).

Lemma mpi_dfs m gl : forall fuel p c r, mpi_rec fuel m p c r gl = dfs0 (keep7 m gl) (na_adj m) fuel p c r.
Proof.
  unfold dfs0. induction fuel as [|f IH]; intros p c r; [reflexivity|]. simpl.
  destruct (length p =? na_dim m); [symmetry; apply bind_ret|]. rewrite bind_snd. f_equal.
  apply foldM_ext. intros [c' r'] i _. simpl. destruct (memb i p); [reflexivity|].
  rewrite IH. destruct (length (p ++ [i]) =? 1); [reflexivity|].
  apply bind_ext. intros e. unfold keep7. rewrite bind_assoc. apply bind_ext. intros lb.
  rewrite IH. reflexivity.
Qed.

Lemma dfs_keep_ext (k k' : solution N -> list nat -> C N -> res (bool * solution N)) g :
  (forall st p c, k st p c = k' st p c) -> forall fuel p c r, dfs0 k g fuel p c r = dfs0 k' g fuel p c r.
Proof.
  intros H. unfold dfs0. induction fuel as [|f IH]; intros p c r; [reflexivity|]. simpl.
  destruct (length p =? a_dim g); [reflexivity|]. f_equal. apply foldM_ext. intros [c' r'] i _. unfold step.
  destruct (memb i p); [reflexivity|]. destruct (length (p ++ [i]) =? 1); [rewrite IH; reflexivity|].
  apply bind_ext. intros e. rewrite H. destruct (k' r' (p ++ [i]) (cadd c' e)) as [[b st]| |]; simpl; try reflexivity.
  destruct b; [rewrite IH|]; reflexivity.
Qed.

(** the fifth solver is the MPI search without a global bound *)
Lemma fifth_mpi (O : NumOrd N) (m : namatrix N) fuel p c r : fifth_rec fuel m p c r = mpi_rec fuel m p c r cinf.
Proof.
  rewrite mpi_dfs, fifth_dfs. apply dfs_keep_ext. intros st q x. unfold keep5, keep7. apply bind_ext. intros lg.
  replace (clt cinf (fst st)) with false; [reflexivity|]. symmetry.
  destruct (clt cinf (fst st)) eqn:Hc; [|reflexivity].
  pose proof (clt_nnan_r O _ _ Hc) as Hn. pose proof (ord_inf N O _ Hn) as Hle.
  rewrite (ord_lt N O), Hle, andb_false_r in Hc. discriminate.
Qed.

(** For every arithmetic: no panic; the result is untouched or a tour cheaper than infinity. *)
Definition found (n : nat) (s : solution N) : Prop :=
  s = (cinf, []) \/ (is_tour n (snd s) /\ clt (fst s) cinf = true).

Lemma mpi_struct (O : NumOrd N) (m : namatrix N) gl p c : 1 <= na_dim m -> na_wf m ->
  NoDup p -> Forall (fun i => i < na_dim m) p ->
  exists s, mpi_rec (S (na_dim m)) m p c (cinf, []) gl = Ok s /\ found (na_dim m) s.
Proof.
  intros Hn Hwf Hnd Hr. rewrite mpi_dfs. unfold dfs0.
  apply (dfs_struct (solution N) (fun s => s) (fun _ r => r) (keep7 m gl) (na_adj m) (found (na_dim m))); try assumption.
  - intros i j Hi Hj. exists (na_val m i j). apply na_get_val; assumption.
  - intros st q cc Hst Hq. simpl. destruct (clt cc (fst st)) eqn:Hc; [|assumption].
    right. simpl. split; [assumption|]. destruct Hst as [->|[_ Hst]]; [assumption|].
    apply (clt_cle_trans O _ (fst st)); [assumption|]. apply (clt_le O). assumption.
  - intros st q cc Hst Hnd' Hr' _. unfold keep7. destruct (prim_single_total O m Hwf q Hr') as (lg & ->). simpl. eauto.
  - simpl. lia.
  - left. reflexivity.
Qed.

Lemma found_nnan (O : NumOrd N) n s : found n s -> cnan (fst s) = false.
Proof. intros [->|[_ H]]; [apply (cinf_nnan O)|apply (clt_nnan_l O _ _ H)]. Qed.

End Inst.

(** ** Exact arithmetic *)
Section Prefix.
Context {N : Num} {B : Z} (E : Exact N B) (O : NumOrd N).
Variable m : namatrix N.
Hypothesis Hwf : na_wf m.
Variable w : nat -> nat -> Z.
Variable W : Z.
Let n := na_dim m.
Hypothesis Hn : 1 <= n.
Hypothesis Hrep : represents E (na_adj m) w.
Hypothesis HW : bounded w n W.
Hypothesis HB : (3 * W * (Z.of_nat n + 1) <= B)%Z.

Let W_nonneg : (0 <= W)%Z.
Proof. pose proof (HW 0 0 ltac:(lia) ltac:(lia)); lia. Qed.

Definition a_tour (s : solution N) (p : list nat) : Prop := s = (inj E (tour_cost w p), p) /\ is_tour n p.

Lemma tour_small' q : is_tour n q -> (Z.abs (tour_cost w q) <= B)%Z.
Proof.
  intros Hq. pose proof (tour_cost_bound w n q W HW (tour_Forall n q Hq) W_nonneg) as H.
  rewrite (tour_length n q Hq) in H. nia.
Qed.

(** [gl]: infinity or the integer [G] *)
Lemma mpi_prefix (gl : C N) (p : list nat) : NoDup p -> Forall (fun i => i < n) p ->
  (gl = cinf \/ exists G, gl = inj E G /\ (Z.abs G <= B)%Z) ->
  exists s, mpi_rec (S n) m p (inj E (path_cost w p)) (cinf, []) gl = Ok s /\
    (s = (cinf, []) \/ exists p', a_tour s p') /\
    forall q, is_tour n q -> extends p q ->
      (exists p', a_tour s p' /\ (symmetric w n -> nonneg w n -> (tour_cost w p' <= 2 * tour_cost w q)%Z)) \/
      (exists G, gl = inj E G /\ (Z.abs G <= B)%Z /\ (symmetric w n -> nonneg w n -> (G <= 2 * tour_cost w q)%Z)).
Proof.
  intros Hnd Hr Hgl. rewrite mpi_dfs. unfold dfs0.
  pose (I := fun s : solution N => s = (cinf, []) \/ exists p, a_tour s p).
  pose (good := fun (s : solution N) q =>
      (exists p', a_tour s p' /\ (symmetric w n -> nonneg w n -> (tour_cost w p' <= 2 * tour_cost w q)%Z)) \/
      (exists G, gl = inj E G /\ (Z.abs G <= B)%Z /\ (symmetric w n -> nonneg w n -> (G <= 2 * tour_cost w q)%Z))).
  assert (Hnn : forall q, is_tour n q -> nonneg w n -> (0 <= tour_cost w q)%Z).
  { intros q Hq Hnn. exact (prefix_cost_le w n [] q Hnn (tour_Forall n _ Hq)). }
  destruct (dfs_good (solution N) (fun s => s) (fun _ r => r) (keep7 m gl) (na_adj m) E w W Hrep HW ltac:(simpl; fold n; nia) I good)
    with (fuel := S n) (prefix := p) (st := (cinf, []) : solution N) as (s & Es & HI & _ & Hg).
  - intros st q HI Hq. change (a_dim (na_adj m)) with n in Hq. cbv zeta.
    pose proof (tour_small' q Hq) as Hsm.
    assert (Ha : a_tour (inj E (tour_cost w q), q) q) by (split; auto).
    destruct HI as [->|(p0 & Hp & Htp)].
    + cbn [fst]. rewrite inj_lt_inf by assumption. split; [right; eauto|]. split.
      * left. exists q. split; [assumption|]. intros _ Hn'. specialize (Hnn q Hq Hn'). lia.
      * intros q' [(p' & [Hp' Ht'] & _)|H]; [|right; assumption].
        injection Hp' as _ <-. exfalso. apply (tour_nonempty n [] Ht' Hn). reflexivity.
    + subst st. cbn [fst]. rewrite inj_lt by (try assumption; apply tour_small'; assumption).
      destruct (Z.ltb_spec (tour_cost w q) (tour_cost w p0)) as [Hlt|Hge].
      * split; [right; eauto|]. split.
        -- left. exists q. split; [assumption|]. intros _ Hn'. specialize (Hnn q Hq Hn'). lia.
        -- intros q' [(p' & [Hp' Ht'] & H)|H]; [|right; assumption]. injection Hp' as _ <-.
           left. exists q. split; [assumption|]. intros H1 H2. specialize (H H1 H2). lia.
      * split; [right; exists p0; split; auto|]. split; [|auto].
        left. exists p0. split; [split; auto|]. intros _ Hn'. specialize (Hnn q Hq Hn'). lia.
  - intros st p0 HI Hnd0 Hr0 Hl0. change (a_dim (na_adj m)) with n in *. unfold keep7.
    destruct (prim_bound E O m Hwf w W Hn Hrep HW HB p0 Hnd0 Hr0 ltac:(lia)) as (lg & x & Eg & Hwt & Hx & Hlow).
    rewrite Eg. cbn [bind].
    assert (Hpb : (Z.abs (path_cost w p0) <= W * Z.of_nat n)%Z).
    { pose proof (path_cost_bound w n p0 W HW Hr0 W_nonneg). pose proof (in_range_length p0 n Hnd0 Hr0). nia. }
    eexists _, st. split; [reflexivity|]. split; [assumption|]. split; [auto|].
    rewrite Hwt, inj_add by nia. intros Hc q Hq Hex.
    assert (Hcost : symmetric w n -> nonneg w n -> (path_cost w p0 + 2 * x <= 2 * tour_cost w q)%Z).
    { intros H1 H2. specialize (Hlow H1 H2 q Hq Hex). pose proof (path_cost_nonneg w n p0 H2 Hr0). lia. }
    assert (HBx : (Z.abs (path_cost w p0 + 2 * x) <= B)%Z) by nia.
    destruct (clt gl (fst st)) eqn:Hclt.
    + destruct Hgl as [->|(G & -> & HG)].
      * exfalso. destruct HI as [->|(p' & -> & Ht')]; cbn [fst] in Hclt.
        -- rewrite (inf_lt_inf N B E) in Hclt. discriminate.
        -- rewrite (inf_lt_inj N B E) in Hclt by (apply tour_small'; assumption). discriminate.
      * right. exists G. split; [reflexivity|]. split; [assumption|]. rewrite inj_le in Hc by assumption.
        intros H1 H2. specialize (Hcost H1 H2). lia.
    + destruct HI as [->|(p' & -> & Ht')]; cbn [fst] in Hc.
      * rewrite inj_le_inf in Hc by assumption. discriminate.
      * rewrite inj_le in Hc by (try assumption; apply tour_small'; assumption).
        left. exists p'. split; [split; auto|]. intros H1 H2. specialize (Hcost H1 H2). lia.
  - assumption.
  - simpl. fold n. lia.
  - assumption.
  - assumption.
  - left. reflexivity.
  - exists s. split; [exact Es|]. split; [exact HI|]. exact Hg.
Qed.

(** evaluating a prefix *)
Lemma eval_prefix p : NoDup p -> Forall (fun i => i < n) p ->
  evaluate_path (na_adj m) p = Ok (inj E (path_cost w p)).
Proof.
  intros Hnd Hr. pose proof (in_range_length p n Hnd Hr) as Hl. rewrite Forall_forall in Hr.
  apply (evaluate_path_exact E (na_adj m) w W); [|assumption|nia].
  intros k Hk.
  assert (H1 : nth k p 0 < n) by (apply Hr, nth_In; lia).
  assert (H2 : nth (S k) p 0 < n) by (apply Hr, nth_In; lia).
  split; [|apply HW; assumption]. apply Hrep; try assumption.
  intros Heq. exfalso. apply (NoDup_nth p 0) in Heq; try lia. assumption.
Qed.
End Prefix.
