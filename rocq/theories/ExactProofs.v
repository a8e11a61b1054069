(** Correctness of the recursive exact solvers V2-V6.  (Proofs.) *)
From Coq Require Import ZArith NArith Arith Bool List Permutation Lia ZifyBool.
From Verif Require Import Num Base Spec SpecFacts Data Mst Exact Dfs Greedy PrimProofs MstFacts.
Import ListNotations.

(** ** The solvers are instances of the generic search *)
Section Inst.
Context {N : Num}.

Definition dfs0 (keep : solution N -> list nat -> C N -> res (bool * solution N)) (g : adj N) :=
  dfs (solution N) (fun s => s) (fun _ r => r) keep g.

Definition keep2 (st : solution N) (p : list nat) (c : C N) : res (bool * solution N) := Ok (true, st).
Definition keep3 (st : solution N) (p : list nat) (c : C N) : res (bool * solution N) :=
  Ok (cle c (fst st), st).
Definition keep4 (g : adj N) (st : solution N) (p : list nat) (c : C N) : res (bool * solution N) :=
  lb <- compute_nn_of_remaining_vertices g p (a_dim g) ;; Ok (cle (cadd c lb) (fst st), st).
Definition keep5 (m : namatrix N) (st : solution N) (p : list nat) (c : C N) : res (bool * solution N) :=
  lg <- prim_with_excluded_node_single_threaded m p ;;
  Ok (cle (cadd c (directed_edge_weight lg)) (fst st), st).

Lemma bind_ext {A B} (e : res A) (f g : A -> res B) : (forall a, f a = g a) -> bind e f = bind e g.
Proof. intros H. destruct e; simpl; auto. Qed.

Lemma bind_assoc {A B D} (e : res A) (f : A -> res B) (h : B -> res D) :
  bind (bind e f) h = bind e (fun a => bind (f a) h).
Proof. destruct e; reflexivity. Qed.

Lemma bind_snd {A B} (e : res (A * B)) : ('(_, r) <- e ;; Ok r) = (s <- e ;; Ok (snd s)).
Proof. destruct e as [[? ?]| |]; reflexivity. Qed.

Lemma bind_ret {A} (e : res A) : (r <- e ;; Ok r) = e.
Proof. destruct e; reflexivity. Qed.

Lemma second_dfs g : forall fuel p c r, second_rec fuel g p c r = dfs0 keep2 g fuel p c r.
Proof.
  unfold dfs0. induction fuel as [|f IH]; intros p c r; [reflexivity|]. simpl.
  destruct (length p =? a_dim g); [symmetry; apply bind_ret|]. rewrite bind_snd. f_equal.
  apply foldM_ext. intros [c' r'] i _. simpl. destruct (memb i p); [reflexivity|].
  rewrite IH. destruct (length (p ++ [i]) =? 1); [reflexivity|].
  apply bind_ext. intros e. rewrite IH. reflexivity.
Qed.

Lemma third_dfs g : forall fuel p c r, third_rec fuel g p c r = dfs0 keep3 g fuel p c r.
Proof.
  unfold dfs0. induction fuel as [|f IH]; intros p c r; [reflexivity|]. simpl.
  destruct (length p =? a_dim g); [symmetry; apply bind_ret|]. rewrite bind_snd. f_equal.
  apply foldM_ext. intros [c' r'] i _. simpl. destruct (memb i p); [reflexivity|].
  rewrite IH. destruct (length (p ++ [i]) =? 1); [reflexivity|].
  apply bind_ext. intros e. rewrite IH. reflexivity.
Qed.

Lemma fourth_dfs g : forall fuel p c r, fourth_rec fuel g p c r = dfs0 (keep4 g) g fuel p c r.
Proof.
  unfold dfs0. induction fuel as [|f IH]; intros p c r; [reflexivity|]. simpl.
  destruct (length p =? a_dim g); [symmetry; apply bind_ret|]. rewrite bind_snd. f_equal.
  apply foldM_ext. intros [c' r'] i _. simpl. destruct (memb i p); [reflexivity|].
  rewrite IH. destruct (length (p ++ [i]) =? 1); [reflexivity|].
  apply bind_ext. intros e. unfold keep4. rewrite bind_assoc. apply bind_ext. intros lb.
  rewrite IH. reflexivity.
Qed.

Lemma fifth_dfs m : forall fuel p c r, fifth_rec fuel m p c r = dfs0 (keep5 m) (na_adj m) fuel p c r.
Proof.
  unfold dfs0. induction fuel as [|f IH]; intros p c r; [reflexivity|]. simpl.
  destruct (length p =? na_dim m); [symmetry; apply bind_ret|]. rewrite bind_snd. f_equal.
  apply foldM_ext. intros [c' r'] i _. simpl. destruct (memb i p); [reflexivity|].
  rewrite IH. destruct (length (p ++ [i]) =? 1); [reflexivity|].
  apply bind_ext. intros e. unfold keep5. rewrite bind_assoc. apply bind_ext. intros lb.
  rewrite IH. reflexivity.
Qed.

(** The sixth solver: the state also holds the cache. *)
Definition keep6 (hash : list nat -> N.t) (m : namatrix N) (st : solution N * @cache N)
           (p : list nat) (c : C N) : res (bool * (solution N * @cache N)) :=
  computed <- prim_with_excluded_node_single_threaded m p ;;
  let '(lb, ch) := or_insert (snd st) (hash p) (directed_edge_weight computed) in
  Ok (cle (cadd c lb) (fst (fst st)), (fst st, ch)).

Definition dfs6 hash m :=
  dfs (solution N * @cache N) fst (fun s r => (r, snd s)) (keep6 hash m) (na_adj m).

Lemma foldM_iso {A S T} (h : S -> T) (f : T -> A -> res T) (f' : S -> A -> res S) l :
  (forall s x, In x l -> f (h s) x = (s' <- f' s x ;; Ok (h s'))) ->
  forall s, foldM f l (h s) = (s' <- foldM f' l s ;; Ok (h s')).
Proof.
  induction l as [|x l IH]; intros H s; [reflexivity|]. simpl.
  rewrite H by (left; reflexivity). destruct (f' s x); simpl; [|reflexivity..].
  apply IH. intros; apply H; right; assumption.
Qed.

Definition assoc6 (s : C N * (solution N * @cache N)) : C N * solution N * @cache N :=
  (fst s, fst (snd s), snd (snd s)).

Lemma sixth_dfs hash m : forall fuel p c r ch,
  sixth_rec hash fuel m p c r ch = dfs6 hash m fuel p c (r, ch).
Proof.
  unfold dfs6. induction fuel as [|f IH]; intros p c r ch; [reflexivity|]. simpl.
  destruct (length p =? na_dim m); [reflexivity|].
  change (c, r, ch) with (assoc6 (c, (r, ch))).
  rewrite (foldM_iso assoc6 _ (step (solution N * @cache N) (keep6 hash m) (na_adj m) (dfs (solution N * @cache N) fst (fun s r => (r, snd s)) (keep6 hash m) (na_adj m) f) p)).
  - destruct (foldM _ _ _) as [[c1 [r1 ch1]]| |]; reflexivity.
  - intros [c' [r' ch']] i _. simpl. destruct (memb i p); [reflexivity|].
    rewrite IH. destruct (length (p ++ [i]) =? 1).
    + destruct (dfs _ _ _ _ _ _ _ _ _) as [[r1 ch1]| |]; reflexivity.
    + rewrite bind_assoc. apply bind_ext. intros e. unfold keep6. simpl. rewrite !bind_assoc.
      apply bind_ext. intros computed.
      destruct (or_insert ch' (hash (p ++ [i])) (directed_edge_weight computed)) as [lb ch1]. simpl.
      rewrite IH. destruct (cle (cadd (cadd c' e) lb) (fst r')); [|reflexivity].
      destruct (dfs _ _ _ _ _ _ _ _ _) as [[r1 ch2]| |]; reflexivity.
Qed.

End Inst.

(** ** The generic correctness theorem *)
Section Search.
Context {N : Num} {B : Z} (E : Exact N B).
Variable St : Type.
Variable get : St -> solution N.
Variable put : St -> solution N -> St.
Variable keep : St -> list nat -> C N -> res (bool * St).
Variable g : adj N.
Variable w : nat -> nat -> Z.
Variable W : Z.
Let n := a_dim g.
Hypothesis Hn : 1 <= n.
Hypothesis Hrep : represents E g w.
Hypothesis HW : bounded w n W.
Hypothesis HB : (W * (Z.of_nat n + 1) <= B)%Z.
Variable J : St -> Prop.
Hypothesis Hgp : forall st r, get (put st r) = r.
Hypothesis HJput : forall st r, J st -> J (put st r).
(** [R t q]: a result of cost [t] is good enough with respect to the tour [q] *)
Variable R : Z -> list nat -> Prop.
Hypothesis HRle : forall a b q, (a <= b)%Z -> R b q -> R a q.
Hypothesis HRrefl : forall q, is_tour n q -> R (tour_cost w q) q.
Hypothesis Hkeep : forall st p, J st -> NoDup p -> Forall (fun i => i < n) p -> 2 <= length p ->
  exists b st', keep st p (inj E (path_cost w p)) = Ok (b, st') /\ get st' = get st /\ J st' /\
    (b = false -> exists x, (Z.abs x <= B)%Z /\ cle (inj E x) (fst (get st)) = false /\
       forall q t, is_tour n q -> extends p q -> (t < x)%Z -> R t q).

Definition isres (s : solution N) (p : list nat) : Prop := s = (inj E (tour_cost w p), p) /\ is_tour n p.

Lemma tour_small q : is_tour n q -> (Z.abs (tour_cost w q) <= B)%Z.
Proof.
  intros Hq. assert (HW0 : (0 <= W)%Z) by (pose proof (HW 0 0 ltac:(lia) ltac:(lia)); lia).
  pose proof (tour_cost_bound w n q W HW (tour_Forall n q Hq) HW0) as H.
  rewrite (tour_length n q Hq) in H. lia.
Qed.

Lemma search_spec st0 : J st0 -> get st0 = (cinf, []) ->
  exists st p, dfs St get put keep g (S n) [] c0 st0 = Ok st /\ isres (get st) p /\ J st /\
    forall q, is_tour n q -> R (tour_cost w p) q.
Proof.
  intros HJ0 Hg0.
  pose (I := fun st => J st /\ (get st = (cinf, []) \/ exists p, isres (get st) p)).
  pose (good := fun st q => exists p, isres (get st) p /\ R (tour_cost w p) q).
  assert (Hd : exists st', dfs St get put keep g (S n) [] (inj E (path_cost w [])) st0 = Ok st' /\ I st' /\
    (forall q', good st0 q' -> good st' q') /\ (forall q, is_tour n q -> extends [] q -> good st' q)).
  { apply (dfs_good St get put keep g E w W Hrep HW HB I good); fold n;
      [| |assumption|simpl; lia|constructor|constructor|split; [assumption|left; assumption]].
  - (* leaf *)
    intros st q [HJ HI] Hq. simpl. fold n in Hq.
    pose proof (tour_small q Hq) as Hsm.
    destruct HI as [HI|(p & Hp & Htp)].
    + rewrite HI. simpl. rewrite inj_lt_inf by assumption.
      assert (Hr : isres (get (put st (inj E (tour_cost w q), q))) q) by (rewrite Hgp; split; auto).
      split; [split; [auto|right; exists q; assumption]|]. split; [exists q; auto|].
      intros q' (p & [Hp Htp] & _). rewrite HI in Hp. exfalso.
      injection Hp as _ <-. apply (tour_nonempty n [] Htp Hn). reflexivity.
    + rewrite Hp. simpl. pose proof (tour_small p Htp) as Hsp. rewrite inj_lt by assumption.
      destruct (Z.ltb_spec (tour_cost w q) (tour_cost w p)) as [Hlt|Hge].
      * assert (Hr : isres (get (put st (inj E (tour_cost w q), q))) q) by (rewrite Hgp; split; auto).
        split; [split; [auto|right; exists q; assumption]|]. split; [exists q; auto|].
        intros q' (p' & [Hp' Htp'] & HR'). rewrite Hp in Hp'. injection Hp' as _ <-.
        exists q. split; [assumption|]. apply (HRle _ (tour_cost w p)); [lia|assumption].
      * assert (Hr : isres (get (put st (inj E (tour_cost w p), p))) p) by (rewrite Hgp; split; auto).
        split; [split; [auto|right; exists p; assumption]|]. split.
        -- exists p. split; [assumption|]. apply (HRle _ (tour_cost w q)); [lia|auto].
        -- intros q' (p' & [Hp' Htp'] & HR'). rewrite Hp in Hp'. injection Hp' as _ <-.
           exists p. split; assumption.
  - (* keep *)
    intros st p [HJ HI] Hnd Hr Hl. fold n in Hr.
    destruct (Hkeep st p HJ Hnd Hr Hl) as (b & st' & Ek & Hg & HJ' & Hfalse).
    exists b, st'. split; [assumption|]. split; [split; [assumption|rewrite Hg; assumption]|].
    split; [intros q' (p' & H1 & H2); exists p'; rewrite Hg; auto|].
    intros Hb q Hq Hex. destruct (Hfalse Hb) as (x & Hx & Hc & HR).
    destruct HI as [HI|(p' & Hp' & Htp')].
    + rewrite HI in Hc. simpl in Hc. rewrite inj_le_inf in Hc by assumption. discriminate.
    + exists p'. split; [rewrite Hg; split; assumption|]. rewrite Hp' in Hc. simpl in Hc.
      rewrite inj_le in Hc by (try assumption; apply tour_small; assumption).
      apply HR; try assumption. lia.  }
  - destruct Hd as (st & Ed & HI & _ & Hall). change (path_cost w []) with 0%Z in Ed. rewrite <- (inj_0 N B E) in Ed. rewrite Ed. destruct HI as [HJ HI].
    assert (Hseq := Hall (seq 0 n) (tour_seq n) ltac:(exists (seq 0 n); reflexivity)).
    destruct Hseq as (p & Hp & _). exists st, p. split; [reflexivity|]. split; [assumption|]. split; [assumption|].
    intros q Hq. destruct (Hall q Hq ltac:(exists q; reflexivity)) as (p' & [Hp' _] & HR).
    destruct Hp as [Hp _]. rewrite Hp in Hp'. injection Hp' as _ <-. assumption.
Qed.
End Search.

(** ** V2, V3, V4 *)
Section V234.
Context {N : Num} {B : Z} (E : Exact N B).
Variable g : adj N.
Variable w : nat -> nat -> Z.
Variable W : Z.
Let n := a_dim g.
Hypothesis Hn : 1 <= n.
Hypothesis Hrep : represents E g w.
Hypothesis HW : bounded w n W.

Let W_nonneg : (0 <= W)%Z.
Proof. pose proof (HW 0 0 ltac:(lia) ltac:(lia)); lia. Qed.

Lemma second_optimal : (W * (Z.of_nat n + 1) <= B)%Z ->
  exists c p, second_improved_solver g = Ok (inj E c, p) /\ is_optimal w n c p.
Proof.
  intros HB. unfold second_improved_solver. rewrite second_dfs. unfold dfs0.
  destruct (search_spec E (solution N) (fun s => s) (fun _ r => r) keep2 g w W Hn Hrep HW HB
     (fun _ => True) ltac:(auto) ltac:(auto) (fun t q => (t <= tour_cost w q)%Z)) with (st0 := (cinf, []) : solution N)
    as (st & p & Ed & [Hp Ht] & _ & Hopt); auto.
  - intros; lia.
  - intros; lia.
  - intros st p _ _ _ _. exists true, st. repeat split; try discriminate.
  - fold n in Ed |- *. rewrite Ed. exists (tour_cost w p), p. subst st. split; [reflexivity|].
    split; [assumption|]. split; [reflexivity|assumption].
Qed.

Lemma third_genuine : (W * (Z.of_nat n + 1) <= B)%Z ->
  exists c p, third_improved_solver g = Ok (inj E c, p) /\ is_tour n p /\ tour_cost w p = c.
Proof.
  intros HB. unfold third_improved_solver. rewrite third_dfs. unfold dfs0.
  destruct (search_spec E (solution N) (fun s => s) (fun _ r => r) keep3 g w W Hn Hrep HW HB
     (fun _ => True) ltac:(auto) ltac:(auto) (fun t q => True)) with (st0 := (cinf, []) : solution N)
    as (st & p & Ed & [Hp Ht] & _ & Hopt); auto.
  - intros st p _ Hnd Hr Hl. unfold keep3. eexists _, st. split; [reflexivity|].
    split; [reflexivity|]. split; [constructor|]. intros Hc. exists (path_cost w p). split; [|split; [assumption|auto]].
    pose proof (path_cost_bound w n p W HW Hr W_nonneg). pose proof (in_range_length p n Hnd Hr). nia.
  - fold n in Ed |- *. rewrite Ed. exists (tour_cost w p), p. subst st. auto.
Qed.

Lemma third_optimal : nonneg w n -> (W * (Z.of_nat n + 1) <= B)%Z ->
  exists c p, third_improved_solver g = Ok (inj E c, p) /\ is_optimal w n c p.
Proof.
  intros Hnn HB. unfold third_improved_solver. rewrite third_dfs. unfold dfs0.
  destruct (search_spec E (solution N) (fun s => s) (fun _ r => r) keep3 g w W Hn Hrep HW HB
     (fun _ => True) ltac:(auto) ltac:(auto) (fun t q => (t <= tour_cost w q)%Z)) with (st0 := (cinf, []) : solution N)
    as (st & p & Ed & [Hp Ht] & _ & Hopt); auto.
  - intros; lia.
  - intros; lia.
  - intros st p _ Hnd Hr Hl. unfold keep3. eexists _, st. split; [reflexivity|].
    split; [reflexivity|]. split; [constructor|]. intros Hc. exists (path_cost w p). split; [|split; [assumption|]].
    + pose proof (path_cost_bound w n p W HW Hr W_nonneg). pose proof (in_range_length p n Hnd Hr). nia.
    + intros q t Hq [r ->] Hlt. pose proof (prefix_cost_le w n p r Hnn (tour_Forall n _ Hq)). lia.
  - fold n in Ed |- *. rewrite Ed. exists (tour_cost w p), p. subst st. split; [reflexivity|].
    split; [assumption|]. split; [reflexivity|assumption].
Qed.

(** The nearest-neighbour estimate is some number. *)
Lemma nn_value p : (2 * W * Z.of_nat n <= B)%Z ->
  exists x, compute_nn_of_remaining_vertices g p n = Ok (inj E x) /\ (Z.abs x <= W * Z.of_nat n)%Z.
Proof.
  intros HB. unfold compute_nn_of_remaining_vertices.
  match goal with |- context [foldM ?f _ _] =>
    destruct (foldM_inv f (fun pre acc => exists x, acc = inj E x /\ (Z.abs x <= W * Z.of_nat (length pre))%Z)
      (seq 0 n) c0) as (s & Es & x & -> & Hx) end.
  - exists 0%Z. split; [apply inj_0|]. simpl. lia.
  - intros pre i post acc Eseq (x & -> & Hx).
    assert (Hi : In i (seq 0 n)) by (rewrite Eseq; apply in_elt). apply in_seq in Hi.
    assert (Hlen : length pre < n) by (apply (f_equal (@length nat)) in Eseq; rewrite seq_length, app_length in Eseq; simpl in Eseq; lia).
    assert (Hlp : length (pre ++ [i]) = S (length pre)) by (rewrite app_length; simpl; lia).
    destruct (memb i p).
    { eexists. split; [reflexivity|]. exists x. split; [reflexivity|]. rewrite Hlp. nia. }
    match goal with |- context [foldM ?f _ _] =>
      destruct (foldM_inv' f (fun s => s = cinf \/ exists z, s = inj E z /\ (Z.abs z <= W)%Z)
        (seq (i + 1) (n - (i + 1))) cinf) as (s & Es & Hs) end.
    + left; reflexivity.
    + intros j s Hj Hs. apply in_seq in Hj. destruct (memb j p); [eexists; split; [reflexivity|assumption]|].
      assert (Hb : (Z.abs (w i j) <= W)%Z) by (apply HW; lia).
      rewrite Hrep by (try (fold n); lia). simpl. eexists. split; [reflexivity|].
      destruct (clt (inj E (w i j)) s); [right; eauto|assumption].
    + rewrite Es. simpl. destruct Hs as [->|(z & -> & Hz)].
      * rewrite (inf_eq_inf N B E). simpl. eexists. split; [reflexivity|]. exists x. split; [reflexivity|]. rewrite Hlp. nia.
      * rewrite (inj_eq_inf N B E) by nia. simpl. eexists. split; [reflexivity|]. exists (x + z)%Z.
        split; [apply inj_add; nia|]. rewrite Hlp. nia.
  - rewrite Es. exists x. rewrite seq_length in Hx. split; [reflexivity|assumption].
Qed.

Lemma fourth_genuine : (2 * W * (Z.of_nat n + 1) <= B)%Z ->
  exists c p, fourth_improved_solver g = Ok (inj E c, p) /\ is_tour n p /\ tour_cost w p = c.
Proof.
  intros HB. unfold fourth_improved_solver. rewrite fourth_dfs. unfold dfs0.
  destruct (search_spec E (solution N) (fun s => s) (fun _ r => r) (keep4 g) g w W Hn Hrep HW ltac:(fold n; nia)
     (fun _ => True) ltac:(auto) ltac:(auto) (fun t q => True)) with (st0 := (cinf, []) : solution N)
    as (st & p & Ed & [Hp Ht] & _ & Hopt); auto.
  - intros st p _ Hnd Hr Hl. unfold keep4. fold n.
    destruct (nn_value p ltac:(nia)) as (x & Ex & Hx). rewrite Ex. simpl.
    pose proof (path_cost_bound w n p W HW Hr W_nonneg). pose proof (in_range_length p n Hnd Hr).
    eexists _, st. split; [reflexivity|]. split; [reflexivity|]. split; [constructor|].
    rewrite inj_add by nia.
    intros Hc. exists (path_cost w p + x)%Z. split; [nia|]. split; [assumption|auto].
  - fold n in Ed |- *. rewrite Ed. exists (tour_cost w p), p. subst st. auto.
Qed.
End V234.

(** ** V5, V6 *)
Section V56.
Context {N : Num} {B : Z} (E : Exact N B) (O : NumOrd N).
Variable m : namatrix N.
Hypothesis Hwf : na_wf m.
Variable w : nat -> nat -> Z.
Variable W : Z.
Let n := na_dim m.
Hypothesis Hn : 1 <= n.
Hypothesis Hrep : represents E (na_adj m) w.
Hypothesis HW : bounded w n W.
Hypothesis HB : (3 * W * (Z.of_nat n + 1) <= B)%Z.

Let W_nonneg : (0 <= W)%Z.
Proof. pose proof (HW 0 0 ltac:(lia) ltac:(lia)); lia. Qed.

(** The lower bound the code computes for a prefix. *)
Lemma prim_bound p : NoDup p -> Forall (fun i => i < n) p -> 1 <= length p ->
  exists lg x, prim_with_excluded_node_single_threaded m p = Ok lg /\ directed_edge_weight lg = inj E (2 * x) /\
    (Z.abs (2 * x) <= 2 * W * Z.of_nat n)%Z /\
    (symmetric w n -> nonneg w n -> forall q, is_tour n q -> extends p q -> (path_cost w p + x <= tour_cost w q)%Z).
Proof.
  intros Hnd Hr Hl.
  destruct (Nat.eq_dec (length p) n) as [Hfull|Hnf].
  - assert (Ht : is_tour n p) by (apply tour_intro; assumption).
    exists [], 0%Z. split; [apply prim_single_none; intros v Hv; apply (tour_In n p v Ht); assumption|].
    split; [apply inj_0|]. split; [nia|]. intros _ Hnn q Hq [r ->].
    pose proof (prefix_cost_le w n p r Hnn (tour_Forall n _ Hq)). lia.
  - assert (Hex : exists v, v < n /\ ~ In v p).
    { destruct (existsb (fun v => negb (memb v p)) (seq 0 n)) eqn:Ee.
      - apply existsb_exists in Ee. destruct Ee as (v & Hv & Ev). apply in_seq in Hv. exists v.
        split; [lia|]. apply memb_nIn. destruct (memb v p); [discriminate|reflexivity].
      - exfalso. pose proof (in_range_length p n Hnd Hr). assert (incl (seq 0 n) p).
        { intros v Hv. apply memb_In. destruct (memb v p) eqn:Em; [reflexivity|].
          assert (true = false); [|discriminate]. rewrite <- Ee. symmetry. apply existsb_exists. exists v. rewrite Em. auto. }
        apply NoDup_incl_length in H0; [|apply seq_NoDup]. rewrite seq_length in H0. lia. }
    destruct (prim_exact E O m Hwf w W Hrep HW ltac:(fold n; nia) p Hr Hex) as (lg & T & Eg & _ & Hsp & _ & Hwt & Hmin).
    exists lg, (edges_cost w T). split; [assumption|]. split; [assumption|]. split.
    + assert (HT : (edges_cost (fun a b => Z.abs (w a b)) T <= W * Z.of_nat (length T))%Z).
      { apply edges_cost_abs_le. intros a b Hin. destruct Hsp as [Hs _]. destruct (Hs a b Hin) as [H1 H2].
        apply free_In in H1, H2. apply HW; tauto. }
      pose proof (edges_cost_abs w T). destruct Hsp as (_ & _ & Hlen).
      assert (length (free_vertices n p) <= n).
      { unfold free_vertices. rewrite <- (seq_length n 0) at 2.
        clear. induction (seq 0 n); simpl; [lia|]. destruct (negb _); simpl; lia. }
      assert (Z.of_nat (length T) <= Z.of_nat n)%Z by (unfold n in *; lia). nia.
    + intros Hsym Hnn q Hq [r ->]. apply (prefix_tree_bound m w p r T Hnn Hq).
      * intros ->. simpl in Hl. lia.
      * intros ->. rewrite app_nil_r in Hq. apply tour_length in Hq. contradiction.
      * apply Hmin. assumption.
Qed.

Lemma path_small p : NoDup p -> Forall (fun i => i < n) p -> (Z.abs (path_cost w p) <= W * Z.of_nat n)%Z.
Proof.
  intros Hnd Hr. pose proof (path_cost_bound w n p W HW Hr W_nonneg). pose proof (in_range_length p n Hnd Hr). nia.
Qed.

(** V5: genuine for all finite costs, within a factor two on symmetric nonnegative ones *)
Lemma fifth_spec :
  exists c p, fifth_improved_solver m = Ok (inj E c, p) /\ is_tour n p /\ tour_cost w p = c /\
    (symmetric w n -> nonneg w n -> forall q, is_tour n q -> (c <= 2 * tour_cost w q)%Z).
Proof.
  unfold fifth_improved_solver. rewrite fifth_dfs. unfold dfs0.
  destruct (search_spec E (solution N) (fun s => s) (fun _ r => r) (keep5 m) (na_adj m) w W Hn Hrep HW ltac:(simpl; fold n; nia)
     (fun _ => True) ltac:(auto) ltac:(auto)
     (fun t q => symmetric w n -> nonneg w n -> (t <= 2 * tour_cost w q)%Z)) with (st0 := (cinf, []) : solution N)
    as (st & p & Ed & [Hp Ht] & _ & Hopt); auto.
  - intros a b q Hab HR H1 H2. specialize (HR H1 H2). lia.
  - intros q Hq _ Hnn. assert (0 <= tour_cost w q)%Z; [|lia].
    change (a_dim (na_adj m)) with n in Hq.
    pose proof (prefix_cost_le w n [] q Hnn (tour_Forall n _ Hq)) as H0. exact H0.
  - intros st p _ Hnd Hr Hl. change (a_dim (na_adj m)) with n in *. unfold keep5.
    destruct (prim_bound p Hnd Hr ltac:(lia)) as (lg & x & Eg & Hwt & Hx & Hlow). rewrite Eg. simpl bind.
    pose proof (path_small p Hnd Hr).
    eexists _, st. split; [reflexivity|]. split; [reflexivity|]. split; [constructor|].
    rewrite Hwt, inj_add by nia. intros Hc. exists (path_cost w p + 2 * x)%Z. split; [nia|]. split; [assumption|].
    intros q t Hq Hex Hlt Hsym Hnn. specialize (Hlow Hsym Hnn q Hq Hex).
    pose proof (path_cost_nonneg w n p Hnn Hr). lia.
  - change (a_dim (na_adj m)) with n in Ed. fold n. rewrite Ed. exists (tour_cost w p), p. subst st.
    split; [reflexivity|]. split; [assumption|]. split; [reflexivity|].
    intros H1 H2 q Hq. apply Hopt; assumption.
Qed.

(** V6 with any hash function: genuine for all finite costs *)
Lemma sixth_genuine hash :
  exists c p, sixth_improved_solver_with hash m = Ok (inj E c, p) /\ is_tour n p /\ tour_cost w p = c.
Proof.
  unfold sixth_improved_solver_with. rewrite sixth_dfs.
  destruct (search_spec E (solution N * @cache N) fst (fun s r => (r, snd s)) (keep6 hash m) (na_adj m) w W Hn Hrep HW ltac:(simpl; fold n; nia)
     (fun st => forall h v, cache_find (snd st) h = Some v -> exists x, v = inj E x /\ (Z.abs x <= 2 * W * Z.of_nat n)%Z)
     ltac:(auto) ltac:(auto)
     (fun t q => True)) with (st0 := ((cinf, []), []) : solution N * @cache N)
    as ([st ch] & p & Ed & [Hp Ht] & _ & Hopt); auto.
  - intros st p HJ Hnd Hr Hl. change (a_dim (na_adj m)) with n in *. unfold keep6.
    destruct (prim_bound p Hnd Hr ltac:(lia)) as (lg & x & Eg & Hwt & Hx & _). rewrite Eg. simpl bind.
    pose proof (path_small p Hnd Hr).
    assert (HJ2 : exists y, fst (or_insert (snd st) (hash p) (directed_edge_weight lg)) = inj E y /\ (Z.abs y <= 2 * W * Z.of_nat n)%Z).
    { unfold or_insert. destruct (cache_find (snd st) (hash p)) as [v|] eqn:Ef.
      - apply (HJ _ _ Ef).
      - exists (2 * x)%Z. auto. }
    assert (HJ3 : forall h v, cache_find (snd (or_insert (snd st) (hash p) (directed_edge_weight lg))) h = Some v ->
              exists x, v = inj E x /\ (Z.abs x <= 2 * W * Z.of_nat n)%Z).
    { unfold or_insert. destruct (cache_find (snd st) (hash p)) as [v|] eqn:Ef; [assumption|].
      intros h v. simpl. destruct (N.eqb (hash p) h); [intros Hv; injection Hv as <-; exists (2 * x)%Z; auto|apply HJ]. }
    destruct (or_insert (snd st) (hash p) (directed_edge_weight lg)) as [lb ch']. cbn [fst snd] in HJ2, HJ3.
    destruct HJ2 as (y & -> & Hy).
    eexists _, (fst st, ch'). split; [reflexivity|]. split; [reflexivity|]. split; [assumption|].
    assert (HB3 : (3 * (W * Z.of_nat n) <= B)%Z) by nia.
    rewrite <- Z.mul_assoc in Hy.
    rewrite inj_add by lia. intros Hc. exists (path_cost w p + y)%Z. split; [lia|]. split; [assumption|auto].
  - intros h v Hv. discriminate.
  - match goal with |- context [dfs6 ?a ?b ?c ?d ?e ?f] =>
      assert (Ed' : dfs6 a b c d e f = Ok (st, ch)) by exact Ed; rewrite Ed' end. simpl in Hp. exists (tour_cost w p), p. subst st. auto.
Qed.
End V56.

(** ** V6 = V5 without collisions, for every arithmetic and every matrix *)
Section V6eq.
Context {N : Num}.
Variable m : namatrix N.
Let n := na_dim m.
Variable hash : list nat -> N.t.
Hypothesis Hinj : forall p q, NoDup p -> Forall (fun i => i < n) p -> NoDup q -> Forall (fun i => i < n) q ->
  hash p = hash q -> p = q.

Definition cache_ok (ch : @cache N) : Prop :=
  forall h v, cache_find ch h = Some v -> exists p g, NoDup p /\ Forall (fun i => i < n) p /\ h = hash p /\
    prim_with_excluded_node_single_threaded m p = Ok g /\ v = directed_edge_weight g.

Definition rel6 (r : res (solution N)) (r' : res (solution N * @cache N)) : Prop :=
  match r with
  | Ok s => exists ch, r' = Ok (s, ch) /\ cache_ok ch
  | Panic => r' = Panic
  | OutOfFuel => r' = OutOfFuel
  end.

Definition relc (r : res (C N * solution N)) (r' : res (C N * (solution N * @cache N))) : Prop :=
  match r with
  | Ok s => exists ch, r' = Ok (fst s, (snd s, ch)) /\ cache_ok ch
  | Panic => r' = Panic
  | OutOfFuel => r' = OutOfFuel
  end.

Lemma sixth_dfs_fifth : forall fuel prefix cost st ch,
  NoDup prefix -> Forall (fun i => i < n) prefix -> cache_ok ch ->
  rel6 (dfs0 (keep5 m) (na_adj m) fuel prefix cost st) (dfs6 hash m fuel prefix cost (st, ch)).
Proof.
  unfold dfs0, dfs6.
  induction fuel as [|f IH]; intros prefix cost st ch Hnd Hr Hch; [reflexivity|]. cbn [dfs].
  change (a_dim (na_adj m)) with n.
  destruct (length prefix =? n).
  { simpl fst. destruct (leaf (na_adj m) prefix cost st); simpl; eauto. }
  assert (G : forall l c s ch, Forall (fun i => i < n) l -> cache_ok ch ->
    relc (foldM (step (solution N) (keep5 m) (na_adj m) (dfs (solution N) (fun s => s) (fun _ r => r) (keep5 m) (na_adj m) f) prefix) l (c, s))
         (foldM (step (solution N * @cache N) (keep6 hash m) (na_adj m)
            (dfs (solution N * @cache N) fst (fun s r => (r, snd s)) (keep6 hash m) (na_adj m) f) prefix) l (c, (s, ch)))).
  { induction l as [|i l IHl]; intros c s ch1 Hl Hch1.
    - simpl. exists ch1. auto.
    - inversion Hl as [|? ? Hi Hl']; subst. cbn [foldM]. unfold step at 1 3.
      destruct (memb i prefix) eqn:Em; [cbn [bind]; apply IHl; assumption|].
      apply memb_nIn in Em. cbv zeta.
      assert (Hnd' : NoDup (prefix ++ [i])) by (apply NoDup_snoc; assumption).
      assert (Hr' : Forall (fun i => i < n) (prefix ++ [i])) by (apply Forall_app; auto).
      destruct (length (prefix ++ [i]) =? 1).
      + specialize (IH (prefix ++ [i]) c s ch1 Hnd' Hr' Hch1). unfold rel6 in IH.
        destruct (dfs (solution N) _ _ (keep5 m) (na_adj m) f (prefix ++ [i]) c s) as [s1| |].
        * destruct IH as (ch2 & -> & Hch2). cbn [bind]. apply IHl; assumption.
        * rewrite IH. reflexivity.
        * rewrite IH. reflexivity.
      + destruct (last_edge (na_adj m) (prefix ++ [i])) as [e| |]; cbn [bind]; [|reflexivity..].
        unfold keep5 at 1, keep6 at 1.
        destruct (prim_with_excluded_node_single_threaded m (prefix ++ [i])) as [lg| |] eqn:Ep; cbn [bind]; [|reflexivity..].
        assert (Hoi : exists ch2, or_insert ch1 (hash (prefix ++ [i])) (directed_edge_weight lg) = (directed_edge_weight lg, ch2) /\ cache_ok ch2).
        { unfold or_insert. destruct (cache_find ch1 (hash (prefix ++ [i]))) as [v|] eqn:Ef.
          - destruct (Hch1 _ _ Ef) as (p & g & Hp1 & Hp2 & Hh & Hpr & ->). apply Hinj in Hh; try assumption. subst p.
            rewrite Ep in Hpr. injection Hpr as <-. exists ch1. auto.
          - eexists. split; [reflexivity|]. intros h v. simpl.
            destruct (N.eqb_spec (hash (prefix ++ [i])) h) as [<-|]; [|apply Hch1].
            intros Hv. injection Hv as <-. exists (prefix ++ [i]), lg. auto. }
        destruct Hoi as (ch2 & Eoi & Hch2). cbn [snd fst]. rewrite Eoi. cbn [bind].
        destruct (cle (cadd (cadd c e) (directed_edge_weight lg)) (fst s)).
        * specialize (IH (prefix ++ [i]) (cadd c e) s ch2 Hnd' Hr' Hch2). unfold rel6 in IH.
          destruct (dfs (solution N) _ _ (keep5 m) (na_adj m) f (prefix ++ [i]) (cadd c e) s) as [s1| |].
          -- destruct IH as (ch3 & -> & Hch3). cbn [bind]. apply IHl; assumption.
          -- rewrite IH. reflexivity.
          -- rewrite IH. reflexivity.
        * cbn [bind]. apply IHl; assumption. }
  specialize (G (seq 0 n) cost st ch ltac:(apply Forall_forall; intros x Hx; apply in_seq in Hx; lia) Hch).
  destruct (foldM _ (seq 0 n) (cost, st)) as [[c' s']| |]; cbn [relc] in G.
  - destruct G as (ch' & G & Hch'). rewrite G. simpl. eauto.
  - rewrite G. reflexivity.
  - rewrite G. reflexivity.
Qed.

Theorem sixth_eq_fifth : sixth_improved_solver_with hash m = fifth_improved_solver m.
Proof.
  unfold sixth_improved_solver_with, fifth_improved_solver.
  rewrite fifth_dfs, sixth_dfs.
  pose proof (sixth_dfs_fifth (S (na_dim m)) [] c0 (cinf, []) []) as H.
  specialize (H ltac:(constructor) ltac:(constructor) ltac:(intros h v Hv; discriminate)).
  unfold rel6 in H. destruct (dfs0 _ _ _ _ _ _).
  - destruct H as (ch & -> & _). reflexivity.
  - rewrite H. reflexivity.
  - rewrite H. reflexivity.
Qed.
End V6eq.

(** ** Structure, for every arithmetic: no panic, and the path is empty or a tour *)
Section Struct.
Context {N : Num}.

Definition path_ok (n : nat) (s : solution N) : Prop := snd s = [] \/ is_tour n (snd s).

Lemma struct0 (g : adj N) keep : 1 <= a_dim g ->
  (forall i j, i < a_dim g -> j < a_dim g -> exists c, a_get g i j = Ok c) ->
  (forall st p c, NoDup p -> Forall (fun i => i < a_dim g) p -> 2 <= length p ->
     exists b, keep st p c = Ok (b, st)) ->
  exists s, dfs0 keep g (S (a_dim g)) [] c0 (cinf, []) = Ok s /\ path_ok (a_dim g) s.
Proof.
  intros Hn Hget Hkeep. unfold dfs0.
  apply (dfs_struct (solution N) (fun s => s) (fun _ r => r) keep g (path_ok (a_dim g))); try assumption.
  - intros st q c Hst Hq. destruct (clt c (fst st)); [right; assumption|assumption].
  - intros st p c Hst Hnd Hr Hl. destruct (Hkeep st p c Hnd Hr Hl) as (b & E). exists b, st. auto.
  - simpl. lia.
  - constructor.
  - constructor.
  - left. reflexivity.
Qed.

Lemma second_struct (g : adj N) : 1 <= a_dim g ->
  (forall i j, i < a_dim g -> j < a_dim g -> exists c, a_get g i j = Ok c) ->
  exists s, second_improved_solver g = Ok s /\ path_ok (a_dim g) s.
Proof.
  intros Hn Hget. unfold second_improved_solver. rewrite second_dfs. apply struct0; try assumption.
  intros. exists true. reflexivity.
Qed.

Lemma third_struct (g : adj N) : 1 <= a_dim g ->
  (forall i j, i < a_dim g -> j < a_dim g -> exists c, a_get g i j = Ok c) ->
  exists s, third_improved_solver g = Ok s /\ path_ok (a_dim g) s.
Proof.
  intros Hn Hget. unfold third_improved_solver. rewrite third_dfs. apply struct0; try assumption.
  intros. eexists. reflexivity.
Qed.

Lemma fourth_struct (g : adj N) : 1 <= a_dim g ->
  (forall i j, i < a_dim g -> j < a_dim g -> exists c, a_get g i j = Ok c) ->
  exists s, fourth_improved_solver g = Ok s /\ path_ok (a_dim g) s.
Proof.
  intros Hn Hget. unfold fourth_improved_solver. rewrite fourth_dfs. apply struct0; try assumption.
  intros st p c _ _ _. unfold keep4, compute_nn_of_remaining_vertices.
  match goal with |- context [foldM ?f ?l ?s] => destruct (foldM_inv' f (fun _ => True) l s I) as (x & E & _) end.
  - intros i s Hi _. apply in_seq in Hi. destruct (memb i p); [eauto|].
    match goal with |- context [foldM ?f ?l ?s] => destruct (foldM_inv' f (fun _ => True) l s I) as (y & E & _) end.
    + intros j s' Hj _. apply in_seq in Hj. destruct (memb j p); [eauto|].
      destruct (Hget i j) as (cc & ->); [lia|lia|]. simpl. eauto.
    + rewrite E. simpl. eauto.
  - rewrite E. simpl. eauto.
Qed.

Lemma fifth_struct (O : NumOrd N) (m : namatrix N) : 1 <= na_dim m -> na_wf m ->
  exists s, fifth_improved_solver m = Ok s /\ path_ok (na_dim m) s.
Proof.
  intros Hn Hwf. unfold fifth_improved_solver. rewrite fifth_dfs.
  apply (struct0 (na_adj m) (keep5 m)); try assumption.
  - intros i j Hi Hj. exists (na_val m i j). apply na_get_val; assumption.
  - intros st p c Hnd Hr _. unfold keep5. destruct (prim_single_total O m Hwf p Hr) as (lg & ->). simpl. eauto.
Qed.

Lemma sixth_struct (O : NumOrd N) hash (m : namatrix N) : 1 <= na_dim m -> na_wf m ->
  exists s, sixth_improved_solver_with hash m = Ok s /\ path_ok (na_dim m) s.
Proof.
  intros Hn Hwf. unfold sixth_improved_solver_with. rewrite sixth_dfs.
  assert (H : exists st, dfs6 hash m (S (na_dim m)) [] c0 ((cinf, []), []) = Ok st /\ path_ok (na_dim m) (fst st)).
  { unfold dfs6.
    apply (dfs_struct (solution N * @cache N) fst (fun s r => (r, snd s)) (keep6 hash m) (na_adj m)
      (fun st => path_ok (na_dim m) (fst st))); try assumption.
    - intros i j Hi Hj. exists (na_val m i j). apply na_get_val; assumption.
    - intros st q c Hst Hq. simpl. destruct (clt c (fst (fst st))); [right; assumption|assumption].
    - intros st p c Hst Hnd Hr Hl. unfold keep6. destruct (prim_single_total O m Hwf p Hr) as (lg & ->). cbn [bind].
      destruct (or_insert _ _ _) as [lb ch]. eexists _, (fst st, ch). split; [reflexivity|assumption].
    - simpl. lia.
    - constructor.
    - constructor.
    - left. reflexivity. }
  destruct H as ([s ch] & E & Hs). unfold solution in *. 
  match goal with |- context [dfs6 ?a ?b ?c ?d ?e ?f] =>
      assert (Ed' : dfs6 a b c d e f = Ok (s, ch)) by exact E; rewrite Ed' end. simpl. eauto.
Qed.
End Struct.
