(** When V5 (twice the spanning tree) keeps the first tour it finds. *)
From Coq Require Import ZArith Arith Bool List Permutation Lia.
From Verif Require Import Num Base Spec SpecFacts Data Mst Exact Dfs PrimProofs MstFacts ExactProofs BoundsProofs.
Import ListNotations.

Section Tight.
Context {N : Num} {B : Z} (E : Exact N B) (O : NumOrd N).
Variable m : namatrix N.
Hypothesis Hwf : na_wf m.
Variable w : nat -> nat -> Z.
Variable W : Z.
Let n := na_dim m.
Hypothesis Hn : 1 <= n.
Hypothesis Hrep : represents E (na_adj m) w.
Hypothesis HW : bounded w n W.
Hypothesis HB : (3 * W * (Z.of_nat n + 1) <= B)%Z.
Let W0 : (0 <= W)%Z.
Proof. pose proof (HW 0 0 ltac:(lia) ltac:(lia)); lia. Qed.

(** What is added to the cost of the prefix, and when this is more than [T]. *)
Definition pruned (T : Z) (p : list nat) : Prop :=
  exists lg x, prim_with_excluded_node_single_threaded m p = Ok lg /\ directed_edge_weight lg = inj E x /\
    (Z.abs x <= 2 * W * Z.of_nat n)%Z /\ (T < path_cost w p + x)%Z.

Lemma path_abs p : NoDup p -> Forall (fun i => i < n) p -> (Z.abs (path_cost w p) <= W * Z.of_nat n)%Z.
Proof. intros Hnd Hr. pose proof (path_cost_bound w n p W HW Hr W0). pose proof (in_range_length p n Hnd Hr). nia. Qed.

Notation rec := (dfs0 (keep5 m) (na_adj m)).
Definition stepper f p := step (solution N) (keep5 m) (na_adj m) (rec f) p.

Lemma take_snd {A S} (e : res (A * S)) s t : e = Ok s -> snd s = t -> (s <- e ;; Ok (snd s)) = Ok t.
Proof. intros -> <-. reflexivity. Qed.

Lemma rec_leaf f p st : is_tour n p -> rec (S f) p (inj E (path_cost w p)) st =
  Ok (if clt (inj E (tour_cost w p)) (fst st) then (inj E (tour_cost w p), p) else st).
Proof.
  intros Ht. unfold dfs0. cbn [dfs]. change (a_dim (na_adj m)) with n. rewrite (tour_length n p Ht), Nat.eqb_refl.
  pose proof (tour_NoDup n p Ht) as Hnd. pose proof (tour_Forall n p Ht) as Hr. pose proof (tour_length n p Ht) as Hl.
  assert (Hne : p <> []) by (intros ->; cbn in Hl; lia). unfold leaf. rewrite (last_res_last p 0 Hne), (first_res_hd p 0 Hne). cbn [bind].
  pose proof Hr as Hr2. rewrite Forall_forall in Hr2. assert (Hl1 : last p 0 < n) by (apply Hr2, last_In; assumption).
  assert (Hl2 : hd 0 p < n) by (apply Hr2; destruct p; [congruence|left; reflexivity]).
  rewrite (Hrep _ _ Hl1 Hl2).
  - cbn [bind]. assert (Etc : (path_cost w p + w (last p 0%nat) (hd 0%nat p))%Z = tour_cost w p).
    { destruct p as [|a p]; [congruence|]. unfold tour_cost. cbn [hd]. rewrite (last_default (a :: p) 0%nat a) by discriminate. reflexivity. }
    pose proof (path_abs p Hnd Hr). pose proof (HW _ _ Hl1 Hl2). rewrite inj_add by (try nia; rewrite Etc; pose proof (tour_cost_bound w n p W HW Hr W0); nia). rewrite Etc. reflexivity.
  - intros Heq. change (a_dim (na_adj m)) with n. destruct p as [|a [|b p]]; [congruence|cbn in Hl; lia|]. exfalso. inversion Hnd as [|? ? Hni _]; subst. apply Hni. cbn [hd] in Heq.
    rewrite <- Heq. change (last (a :: b :: p) 0) with (last (b :: p) 0). apply last_In. discriminate.
Qed.

Lemma step_first f st i : i < n -> stepper f [] (inj E (path_cost w []), st) i = (r <- rec f [i] (inj E (path_cost w [i])) st ;; Ok (inj E (path_cost w []), r)).
Proof. intros Hi. reflexivity. Qed.

Lemma step_child f p st i : p <> [] -> NoDup (p ++ [i]) -> Forall (fun i => i < n) (p ++ [i]) ->
  exists lg x, prim_with_excluded_node_single_threaded m (p ++ [i]) = Ok lg /\ directed_edge_weight lg = inj E x /\ (Z.abs x <= 2 * W * Z.of_nat n)%Z /\
    stepper f p (inj E (path_cost w p), st) i =
      (r <- (if cle (inj E (path_cost w (p ++ [i]) + x)) (fst st) then rec f (p ++ [i]) (inj E (path_cost w (p ++ [i]))) st else Ok st) ;; Ok (inj E (path_cost w p), r)).
Proof.
  intros Hne Hnd Hr. assert (Hl0 : 0 < length p) by (destruct p; [contradiction|cbn; lia]).
  assert (Hl' : length (p ++ [i]) = S (length p)) by (rewrite app_length; cbn; lia).
  destruct (prim_bound E O m Hwf w W Hn Hrep HW HB (p ++ [i]) Hnd Hr ltac:(lia)) as (lg & x & Eg & Hx & Ha & _). exists lg, (2 * x)%Z. split; [exact Eg|]. split; [exact Hx|]. split; [exact Ha|].
  assert (Hi : ~ In i p) by (apply NoDup_remove_2 in Hnd; rewrite app_nil_r in Hnd; exact Hnd).
  apply Forall_app in Hr. destruct Hr as [Hrp Hri]. inversion Hri as [|? ? Hin _]. subst. pose proof (NoDup_remove_1 _ _ _ Hnd) as Hndp. rewrite app_nil_r in Hndp.
  unfold stepper, step. replace (memb i p) with false by (symmetry; apply memb_nIn; assumption). rewrite Hl'.
  replace (S (length p) =? 1) with false by (symmetry; apply Nat.eqb_neq; lia).
  unfold last_edge. rewrite Hl'. replace (S (length p) - 2) with (length p - 1) by lia. replace (length p - 1 + 1) with (length p) by lia.
  rewrite (nth_res_nth _ _ 0) by lia. rewrite (nth_res_nth _ _ 0) by lia. cbn [bind]. rewrite app_nth1 by lia. rewrite app_nth2 by lia. rewrite Nat.sub_diag. cbn [nth]. rewrite nth_last by assumption.
  pose proof Hrp as Hr2. rewrite Forall_forall in Hr2. assert (Hlt : last p 0 < n) by (apply Hr2, last_In; assumption).
  rewrite Hrep; [|assumption|exact Hin|intros Heq; exfalso; apply Hi; rewrite <- Heq; apply last_In; assumption]. cbn [bind].
  assert (Hb1 : (Z.abs (path_cost w p) <= W * Z.of_nat n)%Z) by (apply path_abs; assumption).
  assert (Hb2 : (Z.abs (w (last p 0%nat) i) <= W)%Z) by (apply HW; assumption).
  assert (Hb3 : (Z.abs (path_cost w (p ++ [i])) <= W * Z.of_nat n)%Z) by (apply path_abs; [assumption|apply Forall_app; split; assumption]).
  pose proof (path_cost_snoc w p i 0 Hne) as Esn. rewrite inj_add by (try nia; rewrite <- Esn; nia). rewrite <- Esn.
  unfold keep5 at 1. rewrite Eg. cbn [bind]. rewrite Hx, inj_add by nia. rewrite inj_sub by (try nia; rewrite Esn; replace (path_cost w p + w (last p 0%nat) i - w (last p 0%nat) i)%Z with (path_cost w p) by lia; nia).
  replace (path_cost w (p ++ [i]) - w (last p 0%nat) i)%Z with (path_cost w p) by lia. reflexivity.
Qed.

Lemma extends_firstn (p q : list nat) : extends p q -> p = firstn (length p) q.
Proof. intros [r ->]. rewrite firstn_app, Nat.sub_diag, firstn_all. cbn [firstn]. symmetry. apply app_nil_r. Qed.

(** No tour below the prefix is cheaper than the result, or it is cut off: then nothing changes. *)
Lemma unchanged T : (Z.abs T <= B)%Z -> forall f p st, 1 <= length p -> n - length p < f -> NoDup p -> Forall (fun i => i < n) p -> fst st = inj E T ->
  (forall q, is_tour n q -> extends p q -> (T <= tour_cost w q)%Z \/ exists p', length p < length p' /\ extends p' q /\ pruned T p') ->
  rec f p (inj E (path_cost w p)) st = Ok st.
Proof.
  intros HT. induction f as [|f IH]; intros p st Hl Hf Hnd Hr Hst H; [lia|]. pose proof (in_range_length p n Hnd Hr) as Hle.
  destruct (Nat.eq_dec (length p) n) as [Ef|Nf].
  - assert (Ht : is_tour n p) by (apply tour_intro; assumption). rewrite rec_leaf by assumption. rewrite Hst.
    assert (Hc : (T <= tour_cost w p)%Z).
    { destruct (H p Ht (extends_refl p)) as [Hc|(p' & L & (r & Ex) & _)]; [exact Hc|]. apply (f_equal (@length nat)) in Ex. rewrite app_length in Ex. lia. }
    rewrite inj_lt by (try assumption; pose proof (tour_cost_bound w n p W HW Hr W0); nia). destruct (Z.ltb_spec (tour_cost w p) T); [lia|]. reflexivity.
  - unfold dfs0. cbn [dfs]. change (a_dim (na_adj m)) with n. destruct (Nat.eqb_spec (length p) n) as [|_]; [contradiction|].
    destruct (foldM_inv' (stepper f p) (fun s => s = (inj E (path_cost w p), st)) (seq 0 n) (inj E (path_cost w p), st)) as (s & Es & ->); [reflexivity| |].
    + intros i s Hi ->. apply in_seq in Hi. exists (inj E (path_cost w p), st). split; [|reflexivity]. destruct (memb i p) eqn:Em; [unfold stepper, step; rewrite Em; reflexivity|].
      apply memb_nIn in Em. assert (Hnd' : NoDup (p ++ [i])) by (apply NoDup_snoc; assumption).
      assert (Hr' : Forall (fun i => i < n) (p ++ [i])) by (apply Forall_app; split; [assumption|constructor; [lia|constructor]]).
      destruct (step_child f p st i ltac:(intros ->; cbn in Hl; lia) Hnd' Hr') as (lg & x & Eg & Hx & Ha & Est). etransitivity; [exact Est|]. clear Est. rewrite Hst.
      pose proof (path_abs _ Hnd' Hr'). rewrite inj_le by nia. destruct (Z.leb_spec (path_cost w (p ++ [i]) + x) T) as [Hk|Hk]; [|reflexivity].
      rewrite (IH (p ++ [i]) st); [reflexivity|rewrite app_length; cbn; lia|rewrite app_length; cbn; lia|assumption|assumption|assumption|].
      intros q Hq [r Er]. destruct (H q Hq) as [Hc|(p' & L & (r' & Er') & Hp')]; [exists ([i] ++ r); rewrite Er, <- app_assoc; reflexivity|left; exact Hc|]. right. exists p'. split; [|split; [exists r'; exact Er'|exact Hp']].
      rewrite app_length. cbn [length]. destruct (Nat.eq_dec (length p') (length p + 1)) as [El|]; [|lia]. exfalso.
      assert (p' = p ++ [i]).
      { rewrite (extends_firstn p' q) by (exists r'; exact Er'). rewrite (extends_firstn (p ++ [i]) q) by (exists r; exact Er). f_equal. rewrite app_length. cbn. lia. }
      subst p'. destruct Hp' as (lg' & x' & Eg' & Hx' & Ha' & Hlt). assert (lg' = lg) by congruence. subst lg'.
      assert (Exx : x' = x). { rewrite Hx in Hx'. pose proof (inj_le _ _ E x x' ltac:(nia) ltac:(nia)) as H1. pose proof (inj_le _ _ E x' x ltac:(nia) ltac:(nia)) as H2. rewrite <- Hx' in H1, H2.
        rewrite inj_le in H1, H2 by nia. rewrite Z.leb_refl in H1, H2. symmetry in H1, H2. apply Z.leb_le in H1, H2. lia. }
      subst x'. lia.
    + exact (take_snd _ _ _ Es eq_refl).
Qed.

Variable Hother : let T := tour_cost w (seq 0 n) in forall q, is_tour n q ->
  (T <= tour_cost w q)%Z \/ exists p, 2 <= length p /\ extends p q /\ pruned T p /\ p <> seq 0 (length p).
Notation T := (tour_cost w (seq 0 n)).
Let HT : (Z.abs T <= B)%Z.
Proof. pose proof (tour_cost_bound w n (seq 0 n) W HW (tour_Forall n _ (tour_seq n)) W0) as H. rewrite seq_length in H. nia. Qed.

(** after the first tour has been found, the branches off its path change nothing *)
Lemma off_path f k i : k < n -> i <> k -> i < n -> k <= i -> n - S k < f ->
  (k = 0 \/ exists lg x, prim_with_excluded_node_single_threaded m (seq 0 k ++ [i]) = Ok lg /\ directed_edge_weight lg = inj E x /\ (Z.abs x <= 2 * W * Z.of_nat n)%Z /\ (path_cost w (seq 0 k ++ [i]) + x <= T)%Z) ->
  rec f (seq 0 k ++ [i]) (inj E (path_cost w (seq 0 k ++ [i]))) (inj E T, seq 0 n) = Ok (inj E T, seq 0 n).
Proof.
  intros Hk Hik Hi Hki Hf Hkept. apply (unchanged T HT); [rewrite app_length; cbn; lia|rewrite app_length, seq_length; cbn; lia| | |reflexivity|].
  - apply NoDup_snoc; [apply seq_NoDup|rewrite in_seq; lia].
  - apply Forall_app. split; [apply Forall_forall; intros v Hv; apply in_seq in Hv; lia|constructor; [assumption|constructor]].
  - intros q Hq Hex. destruct (Hother q Hq) as [H|(p & Hl & Hp & Hpr & Hne)]; [left; exact H|]. right. exists p. split; [|split; assumption].
    pose proof (extends_firstn _ _ Hp) as E1. pose proof (extends_firstn _ _ Hex) as E2. rewrite app_length, seq_length in *. cbn [length] in *.
    destruct (le_lt_dec (length p) (k + 1)) as [Hle|]; [|lia]. exfalso.
    assert (Ep : p = firstn (length p) (seq 0 k ++ [i])) by (rewrite E2, firstn_firstn, Nat.min_l by lia; exact E1).
    destruct (Nat.eq_dec (length p) (k + 1)) as [El|Nl].
    + assert (Epp : p = seq 0 k ++ [i]) by (rewrite Ep, El; apply firstn_all2; rewrite app_length, seq_length; cbn; lia).
      destruct Hkept as [->|(lg & x & Eg & Hx & Ha & Hc)]; [cbn in El; lia|]. rewrite Epp in Hpr. destruct Hpr as (lg' & x' & Eg' & Hx' & Ha' & Hlt). assert (lg' = lg) by congruence. subst lg'.
      assert (Exx : x' = x). { rewrite Hx in Hx'. pose proof (inj_le _ _ E x x' ltac:(nia) ltac:(nia)) as H1. pose proof (inj_le _ _ E x' x ltac:(nia) ltac:(nia)) as H2. rewrite <- Hx' in H1, H2.
        rewrite inj_le in H1, H2 by nia. rewrite Z.leb_refl in H1, H2. symmetry in H1, H2. apply Z.leb_le in H1, H2. lia. }
      subst x'. lia.
    + apply Hne. rewrite Ep at 1. rewrite firstn_app, seq_length. replace (length p - k) with 0 by lia. cbn [firstn]. rewrite app_nil_r.
      rewrite <- (seq_length k 0) in Nl. clear -Hle Nl. rewrite seq_length in Nl. assert (Hlp : length p <= k) by lia. clear -Hlp. generalize (length p) Hlp. clear. intros a Ha.
      replace k with (a + (k - a)) by lia. rewrite seq_app, firstn_app, seq_length, Nat.sub_diag. cbn [firstn]. rewrite app_nil_r. apply firstn_all2. rewrite seq_length. lia.
Qed.

Lemma first_descent : forall d k f, k + d = n -> 1 <= k -> d < f -> rec f (seq 0 k) (inj E (path_cost w (seq 0 k))) (cinf, []) = Ok (inj E T, seq 0 n).
Proof.
  induction d as [|d IH]; intros k f Hk H1 Hf; (destruct f as [|f]; [lia|]).
  - assert (k = n) by lia. subst k. rewrite rec_leaf by apply tour_seq. cbn [fst]. rewrite inj_lt_inf by exact HT. reflexivity.
  - unfold dfs0. cbn [dfs]. change (a_dim (na_adj m)) with n. rewrite seq_length. destruct (Nat.eqb_spec k n) as [|_]; [lia|].
    destruct (foldM_inv (stepper f (seq 0 k)) (fun pre s => s = (inj E (path_cost w (seq 0 k)), if k <? length pre then (inj E T, seq 0 n) else (cinf, []))) (seq 0 n) (inj E (path_cost w (seq 0 k)), (cinf, []))) as (s & Es & ->); [reflexivity| |].
    + intros pre i post s Eseq ->. eexists. split; [|reflexivity]. rewrite app_length. cbn [length].
      assert (Hi : i = length pre).
      { assert (Hnth : nth (length pre) (seq 0 n) 0 = i) by (rewrite Eseq, app_nth2, Nat.sub_diag by lia; reflexivity). assert (Hlen : length pre < n) by (rewrite <- (seq_length n 0), Eseq, app_length; cbn; lia). rewrite seq_nth in Hnth by assumption. lia. }
      assert (Hin : i < n) by (rewrite Hi, <- (seq_length n 0), Eseq, app_length; cbn; lia). rewrite <- Hi.
      destruct (lt_eq_lt_dec i k) as [[Hlt|Heq]|Hgt].
      * replace (k <? i) with false by (symmetry; apply Nat.ltb_ge; lia). replace (k <? i + 1) with false by (symmetry; apply Nat.ltb_ge; lia).
        unfold stepper, step. replace (memb i (seq 0 k)) with true by (symmetry; apply memb_In, in_seq; lia). reflexivity.
      * replace i with k by lia. replace (k <? k) with false by (symmetry; apply Nat.ltb_ge; lia). replace (k <? k + 1) with true by (symmetry; apply Nat.ltb_lt; lia).
        assert (Eseq' : seq 0 k ++ [k] = seq 0 (S k)) by (rewrite seq_S; reflexivity).
        assert (Hndk : NoDup (seq 0 k ++ [k])) by (rewrite Eseq'; apply seq_NoDup). assert (Hrk : Forall (fun i => i < n) (seq 0 k ++ [k])) by (rewrite Eseq'; apply Forall_forall; intros v Hv; apply in_seq in Hv; lia).
        destruct (step_child f (seq 0 k) (cinf, []) k ltac:(destruct k; [lia|discriminate]) Hndk Hrk) as (lg & x & _ & _ & Ha & Est). etransitivity; [exact Est|]. clear Est.
        cbn [fst]. pose proof (path_abs _ Hndk Hrk) as Hpb. rewrite inj_le_inf by nia.
        rewrite Eseq'. rewrite (IH (S k) f) by lia. reflexivity.
      * replace (k <? i) with true by (symmetry; apply Nat.ltb_lt; lia). replace (k <? i + 1) with true by (symmetry; apply Nat.ltb_lt; lia).
        assert (Hnd' : NoDup (seq 0 k ++ [i])) by (apply NoDup_snoc; [apply seq_NoDup|rewrite in_seq; lia]).
        assert (Hr' : Forall (fun i => i < n) (seq 0 k ++ [i])) by (apply Forall_app; split; [apply Forall_forall; intros v Hv; apply in_seq in Hv; lia|constructor; [assumption|constructor]]).
        destruct (step_child f (seq 0 k) (inj E T, seq 0 n) i ltac:(destruct k; [lia|discriminate]) Hnd' Hr') as (lg & x & Eg & Hx & Ha & Est). etransitivity; [exact Est|]. clear Est.
        cbn [fst]. pose proof (path_abs _ Hnd' Hr') as Hpb. rewrite inj_le by (try exact HT; nia). destruct (Z.leb_spec (path_cost w (seq 0 k ++ [i]) + x) T) as [Hkept|_]; [|reflexivity].
        rewrite off_path by (try lia; right; exists lg, x; auto). reflexivity.
    + refine (take_snd _ _ _ Es _). cbn [snd]. rewrite seq_length.
      replace (k <? n) with true by (symmetry; apply Nat.ltb_lt; lia). reflexivity.
Qed.

Lemma fifth_keeps_first : fifth_improved_solver m = Ok (inj E T, seq 0 n).
Proof.
  unfold fifth_improved_solver. rewrite fifth_dfs. fold n. rewrite (inj_0 N B E). change 0%Z with (path_cost w []) at 1. unfold dfs0. cbn [dfs]. change (a_dim (na_adj m)) with n.
  cbn [length]. destruct (Nat.eqb_spec 0 n) as [|_]; [lia|].
  destruct (foldM_inv (stepper n []) (fun pre s => s = (inj E (path_cost w []), if 0 <? length pre then (inj E T, seq 0 n) else (cinf, []))) (seq 0 n) (inj E (path_cost w []), (cinf, []))) as (s & Es & ->); [reflexivity| |].
  - intros pre i post s Eseq ->. eexists. split; [|reflexivity]. rewrite app_length. cbn [length].
    assert (Hi : i = length pre).
    { assert (Hnth : nth (length pre) (seq 0 n) 0 = i) by (rewrite Eseq, app_nth2, Nat.sub_diag by lia; reflexivity). assert (Hlen : length pre < n) by (rewrite <- (seq_length n 0), Eseq, app_length; cbn; lia). rewrite seq_nth in Hnth by assumption. lia. }
    assert (Hin : i < n) by (rewrite Hi, <- (seq_length n 0), Eseq, app_length; cbn; lia). rewrite <- Hi. replace (0 <? i + 1) with true by (symmetry; apply Nat.ltb_lt; lia).
    etransitivity; [apply step_first; assumption|]. destruct i as [|i].
    + cbn [Nat.ltb Nat.leb]. change [0] with (seq 0 1). rewrite (first_descent (n - 1) 1 n) by lia. reflexivity.
    + replace (0 <? S i) with true by reflexivity. pose proof (off_path n 0 (S i) ltac:(lia) ltac:(lia) Hin ltac:(lia) ltac:(lia) ltac:(left; reflexivity)) as Ho. cbn [seq app] in Ho. rewrite Ho. reflexivity.
  - refine (take_snd _ _ _ Es _). cbn [snd]. rewrite seq_length.
    replace (0 <? n) with true by (symmetry; apply Nat.ltb_lt; lia). reflexivity.
Qed.
End Tight.

(** ** The instance: neighbours in the numbering are far apart, except for the last ones *)
Definition far (n i j : nat) : Z :=
  if i =? j then 0%Z else if ((S i =? j) && (i <? n - 6)) || ((S j =? i) && (j <? n - 6)) then 2%Z else 1%Z.

Lemma far_sym n i j : far n i j = far n j i.
Proof. unfold far. rewrite (Nat.eqb_sym j i), orb_comm. reflexivity. Qed.
Lemma far_diag n i : far n i i = 0%Z.
Proof. unfold far. rewrite Nat.eqb_refl. reflexivity. Qed.
Lemma far_range n i j : i <> j -> (1 <= far n i j <= 2)%Z.
Proof. intros H. unfold far. apply Nat.eqb_neq in H. rewrite H. destruct (_ || _); lia. Qed.
Lemma far_bounds n i j : (0 <= far n i j <= 2)%Z.
Proof. destruct (Nat.eq_dec i j) as [->|H]; [rewrite far_diag; lia|]. pose proof (far_range n i j H). lia. Qed.
Lemma far_triangle n i j k : (far n i j <= far n i k + far n k j)%Z.
Proof.
  destruct (Nat.eq_dec i k) as [->|H1]; [rewrite far_diag; lia|]. destruct (Nat.eq_dec k j) as [->|H2]; [rewrite far_diag; lia|].
  pose proof (far_range n i k H1). pose proof (far_range n k j H2). pose proof (far_bounds n i j). lia.
Qed.
Lemma far_near n i j : i <> j -> S i <> j -> S j <> i -> far n i j = 1%Z.
Proof. intros H1 H2 H3. unfold far. apply Nat.eqb_neq in H1, H2, H3. rewrite H1, H2, H3. reflexivity. Qed.
Lemma far_next n i : far n i (S i) = if i <? n - 6 then 2%Z else 1%Z.
Proof.
  unfold far. replace (i =? S i) with false by (symmetry; apply Nat.eqb_neq; lia). rewrite Nat.eqb_refl. replace (S (S i) =? i) with false by (symmetry; apply Nat.eqb_neq; lia). rewrite orb_false_r. reflexivity.
Qed.

Lemma far_path n k : 1 <= k -> path_cost (far n) (seq 0 k) = (Z.of_nat (k - 1) + Z.of_nat (Nat.min (k - 1) (n - 6)))%Z.
Proof.
  induction k as [|k IH]; [lia|]. intros _. destruct (Nat.eq_dec k 0) as [->|Hk]; [reflexivity|]. rewrite seq_S. cbn [Nat.add].
  rewrite (path_cost_snoc _ _ _ 0) by (destruct k; [lia|discriminate]). rewrite IH by lia.
  assert (El : last (seq 0 k) 0 = k - 1) by (rewrite <- nth_last by (destruct k; [lia|discriminate]); rewrite seq_length, seq_nth by lia; lia). rewrite El.
  replace (far n (k - 1) k) with (far n (k - 1) (S (k - 1))) by (f_equal; lia). rewrite far_next. destruct (Nat.ltb_spec (k - 1) (n - 6)); lia.
Qed.
Lemma far_first n : 7 <= n -> tour_cost (far n) (seq 0 n) = (2 * Z.of_nat n - 6)%Z.
Proof.
  intros Hn. assert (El : last (seq 0 n) 0 = n - 1) by (rewrite <- nth_last by (destruct n; [lia|discriminate]); rewrite seq_length, seq_nth by lia; lia).
  unfold tour_cost. destruct (seq 0 n) as [|a t] eqn:Es; [destruct n; [lia|discriminate]|]. assert (Ea : a = 0) by (destruct n; [lia|]; cbn in Es; congruence). rewrite <- Es in El |- *. rewrite Ea.
  rewrite El. rewrite far_path by lia. rewrite far_near by lia. lia.
Qed.
(** steps cost at least one *)
Lemma far_walk n l z : NoDup l -> l <> [] -> last l z <> z -> (Z.of_nat (length l) <= path_cost (far n) (l ++ [z]))%Z.
Proof.
  induction l as [|a [|b l] IH]; intros Nd Hne Hz; [contradiction| |].
  - cbn [last] in Hz. cbn [app path_cost length]. pose proof (far_range n a z Hz). lia.
  - inversion Nd as [|? ? Ha Nd']. subst. change (path_cost (far n) ((a :: b :: l) ++ [z])) with (far n a b + path_cost (far n) ((b :: l) ++ [z]))%Z.
    specialize (IH Nd' ltac:(discriminate) ltac:(exact Hz)). pose proof (far_range n a b ltac:(intros ->; apply Ha; left; reflexivity)). cbn [length] in *. lia.
Qed.

Lemma nodup_join {A} (l l' : list A) : NoDup l -> NoDup l' -> (forall x, In x l -> ~ In x l') -> NoDup (l ++ l').
Proof.
  induction l as [|a l IH]; intros H1 H2 H; [exact H2|]. inversion H1 as [|? ? Ha H1']. subst. cbn [app]. constructor.
  - rewrite in_app_iff. intros [Hi|Hi]; [contradiction|exact (H a ltac:(left; reflexivity) Hi)].
  - apply IH; [assumption|assumption|]. intros x Hx. apply H. right. assumption.
Qed.
Lemma free_count n p : NoDup p -> Forall (fun i => i < n) p -> length (free_vertices n p) + length p = n.
Proof.
  intros Hnd Hr. rewrite Forall_forall in Hr. assert (HP : Permutation (p ++ free_vertices n p) (seq 0 n)).
  { apply NoDup_Permutation; [|apply seq_NoDup|].
    - apply nodup_join; [assumption|unfold free_vertices; apply NoDup_filter, seq_NoDup|]. intros v Hv Hf. apply in_free in Hf. tauto.
    - intros v. rewrite in_app_iff, in_free, in_seq. split; [intros [H|H]; [specialize (Hr v H); lia|lia]|]. intros H. destruct (in_dec Nat.eq_dec v p); [left; assumption|right; split; [lia|assumption]]. }
  apply Permutation_length in HP. rewrite app_length, seq_length in HP. lia.
Qed.

Section FarTour.
Context {N : Num} {B : Z} (E : Exact N B) (O : NumOrd N).
Variable m : namatrix N.
Hypothesis Hwf : na_wf m.
Let n := na_dim m.
Hypothesis Hn : 7 <= n.
Hypothesis Hrep : represents E (na_adj m) (far n).
Hypothesis HB : (3 * 2 * (Z.of_nat n + 1) <= B)%Z.

Lemma far_bounded : bounded (far n) n 2.
Proof. intros i j _ _. pose proof (far_bounds n i j). lia. Qed.

(** the bound of a prefix *)
Lemma far_pruned T p : NoDup p -> Forall (fun i => i < n) p -> length p < n ->
  (T < path_cost (far n) p + 2 * (Z.of_nat n - Z.of_nat (length p) - 1))%Z -> pruned E m (far n) 2 T p.
Proof.
  intros Hnd Hr Hl HT. pose proof (free_count n p Hnd Hr) as Hc.
  assert (Hex : exists v, v < n /\ ~ In v p).
  { destruct (free_vertices n p) as [|v l] eqn:Ef; [cbn in Hc; lia|]. exists v. apply in_free. rewrite Ef. left. reflexivity. }
  destruct (prim_exact E O m Hwf (far n) 2 Hrep far_bounded ltac:(fold n; lia) p Hr Hex) as (lg & T0 & Eg & _ & Hsp & _ & Hx & _).
  assert (Hge : (Z.of_nat (length (free_vertices n p)) - 1 <= edges_cost (far n) T0)%Z).
  { apply (tree_at_least n (far n) (free_vertices n p) T0); [intros i j _ _; apply far_sym|intros i j _ _; apply far_bounds|intros i j k _ _ _; apply far_triangle|intros a b _ _ Hab; apply far_range; exact Hab|
      unfold free_vertices; apply NoDup_filter, seq_NoDup|intros v Hv; apply in_free in Hv; tauto|destruct (free_vertices n p); [cbn in Hc; lia|discriminate]|exact Hsp]. }
  exists lg, (2 * edges_cost (far n) T0)%Z. split; [exact Eg|]. split; [exact Hx|]. split; [|lia].
  assert (Hle : (edges_cost (far n) T0 <= 2 * Z.of_nat (length T0))%Z).
  { clear. unfold edges_cost. induction T0 as [|[a b] T0 IH]; cbn [fold_right length fst snd]; [lia|]. pose proof (far_bounds n a b). lia. }
  destruct Hsp as (_ & _ & Hlen). assert (length (free_vertices n p) <= n) by lia. fold n in Hlen. lia.
Qed.

(** a tour that is not the first one leaves it at some place *)
Lemma leaves_first q k0 : is_tour n q -> (forall k, k < k0 -> nth k q 0 = k) -> k0 <= n ->
  q = seq 0 n \/ exists k i r, k0 <= k < n /\ q = seq 0 k ++ i :: r /\ i <> k.
Proof.
  intros Hq. remember (n - k0) as d eqn:Ed. revert k0 Ed. induction d as [|d IH]; intros k0 Ed H Hk.
  - left. assert (k0 = n) by lia. subst k0. apply (nth_ext _ _ 0 0); [rewrite (tour_length n q Hq), seq_length; reflexivity|]. intros k Hkl. rewrite (tour_length n q Hq) in Hkl. rewrite seq_nth by assumption. apply H. assumption.
  - destruct (Nat.eq_dec (nth k0 q 0) k0) as [Ek|Nk].
    + destruct (IH (S k0) ltac:(lia)) as [Ei|(k & i & r & Hki & Eq & Hi)]; [|lia|left; exact Ei|right; exists k, i, r; split; [lia|auto]].
      intros k Hk'. destruct (Nat.eq_dec k k0) as [->|]; [exact Ek|apply H; lia].
    + right. pose proof (tour_length n q Hq) as Hl.
      assert (Hf : firstn k0 q = seq 0 k0).
      { apply (nth_ext _ _ 0 0); [rewrite firstn_length, seq_length; lia|]. intros k Hkl. rewrite firstn_length in Hkl. rewrite seq_nth by lia.
        rewrite <- (firstn_skipn k0 q) in H. specialize (H k ltac:(lia)). rewrite app_nth1 in H by (rewrite firstn_length; lia). exact H. }
      assert (Hs : length (skipn k0 q) = n - k0) by (rewrite skipn_length; lia). destruct (skipn k0 q) as [|a t] eqn:Es; [cbn in Hs; lia|].
      assert (Ha : nth k0 q 0 = a) by (rewrite <- (firstn_skipn k0 q), Es, app_nth2, firstn_length by (rewrite firstn_length; lia); replace (k0 - Nat.min k0 (length q)) with 0 by lia; reflexivity).
      exists k0, a, t. split; [lia|]. split; [|congruence]. rewrite <- Hf, <- Es. symmetry. apply firstn_skipn.
Qed.

Lemma far_other : let T := tour_cost (far n) (seq 0 n) in forall q, is_tour n q ->
  (T <= tour_cost (far n) q)%Z \/ exists p, 2 <= length p /\ extends p q /\ pruned E m (far n) 2 T p /\ p <> seq 0 (length p).
Proof.
  cbv zeta. rewrite far_first by exact Hn. intros q Hq. destruct (leaves_first q 0 Hq ltac:(lia) ltac:(lia)) as [->|(k & i & r & Hk & Eq & Hi)]; [left; rewrite far_first by exact Hn; lia|].
  pose proof (tour_NoDup n q Hq) as Hnd. pose proof (tour_Forall n q Hq) as Hr. pose proof (tour_length n q Hq) as Hl. rewrite Eq in Hnd, Hr, Hl.
  assert (Hik : k < i) by (destruct (le_lt_dec i k); [|assumption]; exfalso; apply NoDup_remove_2 in Hnd; apply Hnd, in_or_app; left; apply in_seq; lia).
  rewrite app_length, seq_length in Hl. cbn [length] in Hl.
  destruct (Nat.eq_dec k 0) as [->|Hk0].
  - right. destruct r as [|j r]; [cbn in Hl; lia|]. cbn [seq app] in *. exists [i; j]. split; [cbn; lia|]. split; [exists r; exact Eq|].
    assert (Hnd2 : NoDup [i; j]) by (change (i :: j :: r) with ([i; j] ++ r) in Hnd; clear -Hnd; inversion Hnd as [|? ? Ha _]; subst; constructor; [intros [->|[]]; apply Ha; left; reflexivity|constructor; [intros []|constructor]]).
    assert (Hij : i <> j) by (inversion Hnd2 as [|? ? Ha _]; subst; intros ->; apply Ha; left; reflexivity).
    inversion Hr as [|? ? Hi' Hr']. subst. inversion Hr' as [|? ? Hj' _]. subst.
    split; [|cbn; intros H; injection H; lia]. apply far_pruned; [assumption|constructor; [assumption|constructor; [assumption|constructor]]|cbn; lia|].
    cbn [path_cost length]. pose proof (far_range n i j Hij). lia.
  - destruct (le_lt_dec k (n - 5)) as [Hsmall|Hbig].
    + right. exists (seq 0 k ++ [i]). assert (Hsub : seq 0 k ++ i :: r = (seq 0 k ++ [i]) ++ r) by (rewrite <- app_assoc; reflexivity).
      assert (Hndp : NoDup (seq 0 k ++ [i])) by (apply NoDup_snoc; [apply seq_NoDup|rewrite in_seq; lia]).
      assert (Hrp : Forall (fun i => i < n) (seq 0 k ++ [i])) by (rewrite Hsub in Hr; apply Forall_app in Hr; tauto).
      assert (Hlp : length (seq 0 k ++ [i]) = S k) by (rewrite app_length, seq_length; cbn; lia). rewrite Hlp.
      split; [lia|]. split; [exists r; rewrite Eq; exact Hsub|]. split.
      * apply far_pruned; [assumption|assumption|lia|]. rewrite Hlp. rewrite (path_cost_snoc _ _ _ 0) by (destruct k; [lia|discriminate]). rewrite far_path by lia.
        assert (Hne : last (seq 0 k) 0 <> i) by (intros Ei; assert (Hin : In i (seq 0 k)) by (rewrite <- Ei; apply last_In; destruct k; [lia|discriminate]); apply in_seq in Hin; lia).
        pose proof (far_range n _ _ Hne). replace (Nat.min (k - 1) (n - 6)) with (k - 1) by lia. lia.
      * rewrite seq_S. cbn [Nat.add]. intros H. apply app_inj_tail in H. lia.
    + left. rewrite Eq. destruct k as [|[|k]]; [lia|lia|].
      assert (Es : seq 0 (S (S k)) = (0 :: seq 1 k) ++ [S k]) by (rewrite seq_S; reflexivity).
      assert (Hnd' : NoDup (S k :: i :: r)).
      { rewrite Es, <- app_assoc in Hnd. change ([S k] ++ i :: r) with (S k :: i :: r) in Hnd. clear -Hnd. induction (0 :: seq 1 k) as [|x l IH]; [exact Hnd|]. inversion Hnd. auto. }
      assert (Hw : (Z.of_nat (length (S k :: i :: r)) <= path_cost (far n) ((S k :: i :: r) ++ [0%nat]))%Z).
      { apply far_walk; [exact Hnd'|discriminate|].
        intros El. assert (Hin : In 0 (i :: r)) by (change (last (S k :: i :: r) 0) with (last (i :: r) 0) in El; pose proof (last_In (i :: r) 0 ltac:(discriminate)) as HL; rewrite El in HL; exact HL).
        cbn [seq app] in Hnd. inversion Hnd as [|? ? Hx _]. subst. apply Hx. right. apply in_or_app. right. exact Hin. }
      assert (Ec : tour_cost (far n) (seq 0%nat (S (S k)) ++ i :: r) = (path_cost (far n) (seq 0%nat (S (S k))) + path_cost (far n) ((S k :: i :: r) ++ [0%nat]))%Z).
      { rewrite Es, <- app_assoc. change ((0 :: seq 1 k) ++ [S k] ++ i :: r) with (0 :: (seq 1 k ++ S k :: i :: r)). rewrite tour_cost_closed.
        change ((0 :: seq 1 k ++ S k :: i :: r) ++ [0]) with (((0 :: seq 1 k) ++ S k :: i :: r) ++ [0]). rewrite <- app_assoc.
        change ((S k :: i :: r) ++ [0]) with (S k :: ((i :: r) ++ [0])). apply path_cost_app. }
      rewrite Ec, far_path by lia. cbn [length] in Hw. lia.
Qed.

Lemma far_fifth : fifth_improved_solver m = Ok (inj E (2 * Z.of_nat n - 6), seq 0 n).
Proof. rewrite <- far_first by exact Hn. apply (fifth_keeps_first E O m Hwf (far n) 2); [fold n; lia|exact Hrep|exact far_bounded|exact HB|exact far_other]. Qed.
End FarTour.

(** ** A tour of short steps: first the even places, then the odd ones *)
Definition zigzag (h : nat) : list nat := map (fun i => 2 * i) (seq 0 h) ++ map (fun i => 2 * i + 1) (seq 0 h).
Lemma zigzag_tour h : is_tour (2 * h) (zigzag h).
Proof.
  apply tour_intro.
  - apply nodup_join; [apply FinFun.Injective_map_NoDup; [intros a b; lia|apply seq_NoDup]|apply FinFun.Injective_map_NoDup; [intros a b; lia|apply seq_NoDup]|].
    intros x H1 H2. apply in_map_iff in H1, H2. destruct H1 as (a & Ea & _). destruct H2 as (b & Eb & _). lia.
  - apply Forall_forall. intros v Hv. apply in_app_or in Hv. destruct Hv as [Hv|Hv]; apply in_map_iff in Hv; destruct Hv as (a & <- & Ha); apply in_seq in Ha; lia.
  - unfold zigzag. rewrite app_length, !map_length, !seq_length. lia.
Qed.
Lemma steps_cost n (f : nat -> nat) a k : (forall i, far n (f i) (f (S i)) = 1%Z) -> path_cost (far n) (map f (seq a (S k))) = Z.of_nat k.
Proof.
  intros H. revert a. induction k as [|k IH]; intros a; [reflexivity|].
  change (map f (seq a (S (S k)))) with (f a :: map f (seq (S a) (S k))). specialize (IH (S a)). destruct (map f (seq (S a) (S k))) as [|x l] eqn:Em; [discriminate|].
  assert (x = f (S a)) by (cbn in Em; congruence). subst x. change (path_cost (far n) (f a :: f (S a) :: l)) with (far n (f a) (f (S a)) + path_cost (far n) (f (S a) :: l))%Z. rewrite H, IH. lia.
Qed.
Lemma zigzag_cost h : 3 <= h -> tour_cost (far (2 * h)) (zigzag h) = (2 * Z.of_nat h)%Z.
Proof.
  intros Hh. destruct h as [|[|[|h]]]; [lia|lia|lia|]. set (n := 2 * S (S (S h))). unfold zigzag. set (H := S (S h)).
  assert (H1 : path_cost (far n) (map (fun i => 2 * i) (seq 0 (S H))) = Z.of_nat H) by (apply (steps_cost n (fun i => 2 * i)); intros i; apply far_near; lia).
  assert (H2 : path_cost (far n) (map (fun i => 2 * i + 1) (seq 0 (S H))) = Z.of_nat H) by (apply (steps_cost n (fun i => 2 * i + 1)); intros i; apply far_near; lia).
  assert (L1 : last (map (fun i => 2 * i) (seq 0 (S H))) 0 = 2 * H) by (rewrite seq_S, map_app; apply last_last).
  assert (L2 : last (map (fun i => 2 * i + 1) (seq 0 (S H))) 0 = 2 * H + 1) by (rewrite seq_S, map_app; apply last_last).
  set (ev := map (fun i => 2 * i) (seq 0 (S H))) in *. set (od := map (fun i => 2 * i + 1) (seq 0 (S H))) in *.
  assert (Ee : exists e, ev = 0 :: e) by (eexists; reflexivity). assert (Eo : exists o, od = 1 :: o) by (eexists; reflexivity).
  clearbody ev od. destruct Ee as [e ->]. destruct Eo as [o ->]. cbn [app]. rewrite tour_cost_closed. change ((0 :: e ++ 1 :: o) ++ [0]) with (((0 :: e) ++ 1 :: o) ++ [0]).
  rewrite <- app_assoc. change ((1 :: o) ++ [0]) with (1 :: (o ++ [0])). rewrite path_cost_app. change (1 :: o ++ [0]) with ((1 :: o) ++ [0]).
  rewrite (path_cost_snoc _ (0 :: e) 1 0), (path_cost_snoc _ (1 :: o) 0 0) by discriminate. rewrite H1, H2, L1, L2.
  rewrite !far_near by (unfold H; lia). unfold H. lia.
Qed.
