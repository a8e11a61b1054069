(** Proofs about the logged solvers of Work.v. *)
From Coq Require Import Arith Bool List Lia Permutation Sorted ZArith.
From Verif Require Import Num Base Data Exact Spec PermProofs Work WorkSpec.
Import ListNotations.
Local Open Scope logged_scope.

(** ** The log can be dropped *)
Lemma snd_wbind {A B} (x : logged A) (f : A -> logged B) : snd (wbind x f) = bind (snd x) (fun a => snd (f a)).
Proof. unfold wbind, bind. destruct (snd x); reflexivity. Qed.

Lemma snd_wfoldM {A S} (f : S -> A -> logged S) l : forall s, snd (wfoldM f l s) = foldM (fun s x => snd (f s x)) l s.
Proof.
  induction l as [|x l IH]; intros s; [reflexivity|]. cbn [wfoldM foldM]. rewrite snd_wbind.
  destruct (snd (f s x)); cbn [bind]; [apply IH|reflexivity..].
Qed.

Lemma bind_ext {A B} (x y : res A) (f h : A -> res B) : x = y -> (forall a, f a = h a) -> bind x f = bind y h.
Proof. intros -> H. destruct y; cbn [bind]; [apply H|reflexivity..]. Qed.

(** the outcome of the first program decides how it goes on *)
Lemma wbind_Ok {A B} (x : logged A) (f : A -> logged B) a : snd x = Ok a -> wbind x f = (fst x ++ fst (f a), snd (f a)).
Proof. unfold wbind. intros ->. reflexivity. Qed.

Lemma wbind_quiet {A B} (r : res A) (f : A -> logged B) a : r = Ok a -> wbind (quiet r) f = f a.
Proof. intros ->. unfold wbind, quiet. cbn [snd fst app]. destruct (f a); reflexivity. Qed.

Section S.
Context {N : Num}.
Variable g : adj N.

Lemma erase_path p : snd (wevaluate_path g p) = evaluate_path g p.
Proof.
  unfold wevaluate_path, evaluate_path. destruct (length p <=? 1); [reflexivity|]. rewrite snd_wfoldM. apply foldM_ext.
  intros s x _. rewrite snd_wbind. apply bind_ext; [reflexivity|]. intros a. rewrite snd_wbind. apply bind_ext; [reflexivity|].
  intros b. rewrite snd_wbind. reflexivity.
Qed.

Lemma erase_circle p : snd (wevaluate_circle g p) = evaluate_circle g p.
Proof.
  unfold wevaluate_circle, evaluate_circle. destruct (length p <=? 1); [reflexivity|].
  rewrite snd_wbind. apply bind_ext; [reflexivity|]. intros a. rewrite snd_wbind. apply bind_ext; [reflexivity|].
  intros b. rewrite snd_wbind. apply bind_ext; [reflexivity|]. intros c. rewrite snd_wbind, erase_path. reflexivity.
Qed.

Lemma erase_naive_loop fuel : forall cur best, snd (wnaive_loop fuel g cur best) = naive_loop fuel g cur best.
Proof.
  induction fuel as [|f IH]; intros cur best; [reflexivity|]. cbn [wnaive_loop naive_loop].
  rewrite snd_wbind. apply bind_ext; [reflexivity|]. intros [b c]. destruct b; [|reflexivity].
  rewrite snd_wbind, erase_circle. apply bind_ext; [reflexivity|]. intros x. apply IH.
Qed.

Lemma erase_first_loop fuel : forall cur best, snd (wfirst_loop fuel g cur best) = first_loop fuel g cur best.
Proof.
  induction fuel as [|f IH]; intros cur best; [reflexivity|]. cbn [wfirst_loop first_loop].
  destruct cur as [|h t]; [reflexivity|].
  rewrite snd_wbind. apply bind_ext; [reflexivity|]. intros [b c]. destruct b; [|reflexivity].
  rewrite snd_wbind, erase_circle. apply bind_ext; [reflexivity|]. intros x. apply IH.
Qed.

Lemma erase_leaf p c r : snd (wleaf g p c r) = leaf g p c r.
Proof.
  unfold wleaf, leaf. rewrite snd_wbind. apply bind_ext; [reflexivity|]. intros a. rewrite snd_wbind. apply bind_ext; [reflexivity|].
  intros b. rewrite snd_wbind. reflexivity.
Qed.

Lemma erase_last_edge p : snd (wlast_edge g p) = last_edge g p.
Proof.
  unfold wlast_edge, last_edge. rewrite snd_wbind. apply bind_ext; [reflexivity|]. intros a. rewrite snd_wbind. reflexivity.
Qed.

Lemma erase_nn p n : snd (wcompute_nn_of_remaining_vertices g p n) = compute_nn_of_remaining_vertices g p n.
Proof.
  unfold wcompute_nn_of_remaining_vertices, compute_nn_of_remaining_vertices. rewrite snd_wfoldM. apply foldM_ext.
  intros s i _. destruct (memb i p); [reflexivity|]. rewrite snd_wbind, snd_wfoldM. apply bind_ext; [|reflexivity].
  apply foldM_ext. intros s' j _. destruct (memb j p); [reflexivity|]. rewrite snd_wbind. reflexivity.
Qed.

Lemma erase_second fuel : forall p c r, snd (wsecond_rec fuel g p c r) = second_rec fuel g p c r.
Proof.
  induction fuel as [|f IH]; intros p c r; [reflexivity|]. cbn [wsecond_rec second_rec].
  destruct (length p =? a_dim g); [apply erase_leaf|]. rewrite snd_wbind, snd_wfoldM.
  apply bind_ext; [|intros []; reflexivity]. apply foldM_ext. intros [c' r'] i _. destruct (memb i p); [reflexivity|].
  cbv zeta. destruct (length (p ++ [i]) =? 1).
  - rewrite snd_wbind, IH. reflexivity.
  - rewrite snd_wbind, erase_last_edge. apply bind_ext; [reflexivity|]. intros e. rewrite snd_wbind, IH. reflexivity.
Qed.

Lemma erase_third fuel : forall p c r, snd (wthird_rec fuel g p c r) = third_rec fuel g p c r.
Proof.
  induction fuel as [|f IH]; intros p c r; [reflexivity|]. cbn [wthird_rec third_rec].
  destruct (length p =? a_dim g); [apply erase_leaf|]. rewrite snd_wbind, snd_wfoldM.
  apply bind_ext; [|intros []; reflexivity]. apply foldM_ext. intros [c' r'] i _. destruct (memb i p); [reflexivity|].
  cbv zeta. destruct (length (p ++ [i]) =? 1).
  - rewrite snd_wbind, IH. reflexivity.
  - rewrite snd_wbind, erase_last_edge. apply bind_ext; [reflexivity|]. intros e. rewrite snd_wbind.
    apply bind_ext; [|reflexivity]. destruct (cle _ _); [apply IH|reflexivity].
Qed.

Lemma erase_fourth fuel : forall p c r, snd (wfourth_rec fuel g p c r) = fourth_rec fuel g p c r.
Proof.
  induction fuel as [|f IH]; intros p c r; [reflexivity|]. cbn [wfourth_rec fourth_rec].
  destruct (length p =? a_dim g); [apply erase_leaf|]. rewrite snd_wbind, snd_wfoldM.
  apply bind_ext; [|intros []; reflexivity]. apply foldM_ext. intros [c' r'] i _. destruct (memb i p); [reflexivity|].
  cbv zeta. destruct (length (p ++ [i]) =? 1).
  - rewrite snd_wbind, IH. reflexivity.
  - rewrite snd_wbind, erase_last_edge. apply bind_ext; [reflexivity|]. intros e. rewrite snd_wbind, erase_nn.
    apply bind_ext; [reflexivity|]. intros lb. rewrite snd_wbind.
    apply bind_ext; [|reflexivity]. destruct (cle _ _); [apply IH|reflexivity].
Qed.

(** ** The cells of one tour *)
Lemma wfoldM_reads {A S} (f : S -> A -> logged S) (r : A -> nat * nat) l :
  (forall s x, In x l -> exists s', f s x = ([r x], Ok s')) ->
  forall s, exists s', wfoldM f l s = (map r l, Ok s').
Proof.
  induction l as [|x l IH]; intros H s; [exists s; reflexivity|].
  destruct (H s x (or_introl eq_refl)) as (s1 & E). destruct (IH ltac:(intros; apply H; right; assumption) s1) as (s2 & E2).
  exists s2. cbn [wfoldM]. rewrite E. unfold wbind. cbn [snd fst]. rewrite E2. reflexivity.
Qed.

Lemma nth_res_Ok {A} (l : list A) d i : i < length l -> nth_res l i = Ok (nth i l d).
Proof. intros H. unfold nth_res. rewrite (nth_error_nth' l d H). reflexivity. Qed.

Lemma map_combine (p : list nat) : map (fun k => (nth k p 0, nth (k + 1) p 0)) (seq 0 (length p - 1)) = combine p (tl p).
Proof.
  induction p as [|a p IH]; [reflexivity|]. destruct p as [|b p]; [reflexivity|].
  cbn [length tl]. replace (S (S (length p)) - 1) with (S (length p)) by lia.
  cbn [seq map combine]. f_equal. cbn [length] in IH. replace (S (length p) - 1) with (length p) in IH by lia.
  etransitivity; [|exact IH]. rewrite <- seq_shift, map_map. apply map_ext. intros k. reflexivity.
Qed.

Hypothesis Hcells : forall i j, i < a_dim g -> j < a_dim g -> exists c, a_get g i j = Ok c.

Lemma path_reads p : (forall v, In v p -> v < a_dim g) -> exists c, wevaluate_path g p = (combine p (tl p), Ok c).
Proof.
  intros Hp. unfold wevaluate_path. destruct (Nat.leb_spec (length p) 1) as [Hl|Hl].
  - exists c0. destruct p as [|a [|b p]]; [reflexivity..|simpl in Hl; lia].
  - rewrite <- map_combine. apply wfoldM_reads. intros s k Hk. apply in_seq in Hk.
    rewrite (wbind_quiet _ _ (nth k p 0)) by (apply nth_res_Ok; lia).
    rewrite (wbind_quiet _ _ (nth (k + 1) p 0)) by (apply nth_res_Ok; lia).
    destruct (Hcells (nth k p 0) (nth (k + 1) p 0)) as (c & E); [apply Hp, nth_In; lia..|].
    exists (cadd s c). unfold wbind, wget. cbn [snd]. rewrite E. reflexivity.
Qed.

Lemma last_res_last (h : nat) t : last_res (h :: t) = Ok (last t h).
Proof.
  unfold last_res. destruct t as [|x t] using rev_ind; [reflexivity|]. rewrite last_last.
  change (h :: t ++ [x]) with ((h :: t) ++ [x]). rewrite rev_app_distr. reflexivity.
Qed.

Lemma last_In h (t : list nat) : In (last t h) (h :: t).
Proof. induction t as [|x t IH] using rev_ind; [left; reflexivity|]. rewrite last_last. right. apply in_app_iff. right. left. reflexivity. Qed.

Lemma circle_reads p : (forall v, In v p -> v < a_dim g) -> exists c, wevaluate_circle g p = (circle_cells p, Ok c).
Proof.
  intros Hp. unfold wevaluate_circle. destruct (Nat.leb_spec (length p) 1) as [Hl|Hl].
  - exists c0. destruct p as [|a [|b p]]; [reflexivity..|simpl in Hl; lia].
  - destruct p as [|a [|b p]]; [simpl in Hl; lia..|]. set (t := b :: p) in *.
    rewrite (wbind_quiet _ _ (last t a)) by apply last_res_last.
    rewrite (wbind_quiet _ _ a) by reflexivity.
    destruct (Hcells (last t a) a) as (c & E); [apply Hp, last_In|apply Hp; left; reflexivity|].
    destruct (path_reads (a :: t) Hp) as (d & Ed). exists (cadd d c).
    rewrite (wbind_Ok _ _ c) by exact E. rewrite (wbind_Ok _ _ d) by (rewrite Ed; reflexivity).
    rewrite Ed. cbn [fst snd quiet wget app tl]. rewrite app_nil_r. reflexivity.
Qed.

Lemma circle_cells_length p : length p <> 1 -> length (circle_cells p) = length p.
Proof.
  destruct p as [|a [|b p]]; [reflexivity|simpl; lia|]. intros _. unfold circle_cells. cbn [length]. f_equal.
  rewrite combine_length. cbn [length]. lia.
Qed.

Lemma flat_length (n : nat) ps : (forall p, In p ps -> length p = n) -> (n = 1 -> ps = []) ->
  length (flat_map circle_cells ps) = n * length ps.
Proof.
  intros H H1. destruct (Nat.eq_dec n 1) as [E|E]; [rewrite (H1 E); simpl; lia|]. clear H1.
  induction ps as [|p ps IH]; [simpl; lia|]. cbn [flat_map length]. rewrite app_length, IH by (intros; apply H; right; assumption).
  assert (Hp := H p (or_introl eq_refl)). rewrite circle_cells_length by lia. lia.
Qed.

(** ** The loops over the permutations *)
Lemma next_sorted cur cur' ps (P : list nat -> Prop) : lex cur cur' ->
  (forall q, P q -> lex cur q -> q = cur' \/ lex cur' q) -> P cur' ->
  StronglySorted lex ps -> (forall q, In q ps <-> P q /\ lex cur' q) ->
  StronglySorted lex (cur' :: ps) /\ forall q, In q (cur' :: ps) <-> P q /\ lex cur q.
Proof.
  intros Hl Hn Hc Hs Hi. split.
  - constructor; [assumption|]. apply Forall_forall. intros q Hq. apply Hi in Hq. tauto.
  - intros q. cbn [In]. split.
    + intros [<-|H]; [auto|]. apply Hi in H. destruct H. split; [assumption|]. apply (lex_trans _ cur'); assumption.
    + intros [H1 H2]. destruct (Hn q H1 H2) as [->|H3]; [left; reflexivity|]. right. apply Hi. auto.
Qed.

Lemma wnaive_loop_reads L : (forall v, In v L -> v < a_dim g) ->
  forall fuel cur best, aboveL L cur < fuel -> Permutation L cur ->
  exists s ps, wnaive_loop fuel g cur best = (flat_map circle_cells ps, Ok s) /\ StronglySorted lex ps /\
    forall q, In q ps <-> Permutation L q /\ lex cur q.
Proof.
  intros HLv. induction fuel as [|f IH]; intros cur best Hf HL; [lia|]. cbn [wnaive_loop].
  destruct (next_permutation_spec cur) as (b & cur' & E & HP & Ht & Hfl).
  rewrite (wbind_quiet _ _ (b, cur')) by exact E.
  assert (HL' : Permutation L cur') by (transitivity cur; assumption).
  destruct b.
  - destruct (Ht eq_refl) as [Hl Hnext].
    destruct (circle_reads cur') as (c & Ec); [intros v Hv; apply HLv, (Permutation_in v (Permutation_sym HL')), Hv|].
    rewrite (wbind_Ok _ _ c) by (rewrite Ec; reflexivity). rewrite Ec. cbn [fst].
    destruct (IH cur' (if clt c (fst best) then (c, cur') else best)) as (s & ps & Es & Hs & Hi); [|assumption|].
    { pose proof (aboveL_lt L cur cur' HL' Hl). lia. }
    exists s, (cur' :: ps). rewrite Es. split; [reflexivity|].
    apply (next_sorted cur cur' ps (fun q => Permutation L q)); try assumption.
    intros q Hq. apply Hnext. transitivity L; [symmetry|]; assumption.
  - destruct (Hfl eq_refl) as [-> Hmax]. exists best, []. split; [reflexivity|]. split; [constructor|].
    intros q. split; [intros []|]. intros [H1 H2]. exfalso.
    destruct (Hmax q ltac:(transitivity L; [symmetry|]; assumption)) as [->|H3]; [apply (lex_irrefl _ H2)|].
    apply (lex_irrefl q). apply (lex_trans _ cur); assumption.
Qed.

Lemma wfirst_loop_reads h L : h < a_dim g -> (forall v, In v L -> v < a_dim g) ->
  forall fuel cur best, aboveL L cur < fuel -> Permutation L cur ->
  exists s ps, wfirst_loop fuel g (h :: cur) best = (flat_map circle_cells (map (cons h) ps), Ok s) /\ StronglySorted lex ps /\
    forall q, In q ps <-> Permutation L q /\ lex cur q.
Proof.
  intros Hh HLv. induction fuel as [|f IH]; intros cur best Hf HL; [lia|]. cbn [wfirst_loop].
  destruct (next_permutation_spec cur) as (b & cur' & E & HP & Ht & Hfl).
  rewrite (wbind_quiet _ _ (b, cur')) by exact E.
  assert (HL' : Permutation L cur') by (transitivity cur; assumption).
  cbv zeta. destruct b.
  - destruct (Ht eq_refl) as [Hl Hnext].
    destruct (circle_reads (h :: cur')) as (c & Ec);
      [intros v [<-|Hv]; [assumption|apply HLv, (Permutation_in v (Permutation_sym HL')), Hv]|].
    rewrite (wbind_Ok _ _ c) by (rewrite Ec; reflexivity). rewrite Ec. cbn [fst].
    destruct (IH cur' (if clt c (fst best) then (c, h :: cur') else best)) as (s & ps & Es & Hs & Hi); [|assumption|].
    { pose proof (aboveL_lt L cur cur' HL' Hl). lia. }
    exists s, (cur' :: ps). rewrite Es. split; [reflexivity|].
    apply (next_sorted cur cur' ps (fun q => Permutation L q)); try assumption.
    intros q Hq. apply Hnext. transitivity L; [symmetry|]; assumption.
  - destruct (Hfl eq_refl) as [-> Hmax]. exists best, []. split; [reflexivity|]. split; [constructor|].
    intros q. split; [intros []|]. intros [H1 H2]. exfalso.
    destruct (Hmax q ltac:(transitivity L; [symmetry|]; assumption)) as [->|H3]; [apply (lex_irrefl _ H2)|].
    apply (lex_irrefl q). apply (lex_trans _ cur); assumption.
Qed.
End S.

(** ** There are n! permutations *)
Lemma insert_all_remove x p q : ~ In x p -> In q (insert_all x p) -> remove Nat.eq_dec x q = p.
Proof.
  revert q. induction p as [|y p IH]; intros q Hx H.
  - destruct H as [<-|[]]. cbn [remove]. destruct (Nat.eq_dec x x); [reflexivity|congruence].
  - destruct H as [<-|H].
    + cbn [remove]. destruct (Nat.eq_dec x x); [|congruence]. change (remove Nat.eq_dec x (y :: p) = y :: p).
      apply notin_remove. assumption.
    + apply in_map_iff in H. destruct H as (q' & <- & H). cbn [remove].
      destruct (Nat.eq_dec x y) as [->|_]; [exfalso; apply Hx; left; reflexivity|].
      f_equal. apply IH; [|assumption]. intros Hin. apply Hx. right. assumption.
Qed.

Lemma insert_all_NoDup x p : ~ In x p -> NoDup (insert_all x p).
Proof.
  induction p as [|y p IH]; intros Hx; cbn [insert_all]; constructor; try (intros []); try constructor.
  - intros H. apply in_map_iff in H. destruct H as (q & E & _). injection E as E _. apply Hx. left. assumption.
  - apply FinFun.Injective_map_NoDup; [intros a b E; injection E; auto|]. apply IH. intros H. apply Hx. right. assumption.
Qed.

Lemma nodup_app {A} (a b : list A) : NoDup a -> NoDup b -> (forall x, In x a -> ~ In x b) -> NoDup (a ++ b).
Proof.
  induction a as [|x a IH]; intros Ha Hb H; [assumption|]. cbn [app]. inversion Ha; subst. constructor.
  - intros Hin. apply in_app_iff in Hin. destruct Hin as [Hin|Hin]; [contradiction|]. apply (H x (or_introl eq_refl) Hin).
  - apply IH; [assumption..|]. intros; apply H; right; assumption.
Qed.

Lemma perms_NoDup l : NoDup l -> NoDup (perms l).
Proof.
  induction 1 as [|x l Hx Hl IH]; [repeat constructor; intros []|]. cbn [perms].
  assert (Hn : forall p, In p (perms l) -> ~ In x p).
  { intros p Hp Hin. apply Hx. apply (Permutation_in x (Permutation_sym (perms_perm l p Hp))), Hin. }
  revert IH Hn. generalize (perms l). intros L HL Hn. induction HL as [|p L Hp HL IHL]; [constructor|]. cbn [flat_map].
  apply nodup_app.
  - apply insert_all_NoDup, Hn. left. reflexivity.
  - apply IHL. intros; apply Hn; right; assumption.
  - intros q Hq Hq'. apply in_flat_map in Hq'. destruct Hq' as (p' & Hp' & Hq').
    apply insert_all_remove in Hq; [|apply Hn; left; reflexivity].
    apply insert_all_remove in Hq'; [|apply Hn; right; assumption]. congruence.
Qed.

Lemma sorted_NoDup ps : StronglySorted lex ps -> NoDup ps.
Proof.
  induction 1 as [|p ps Hs IH Hp]; constructor; [|assumption]. intros H. rewrite Forall_forall in Hp.
  apply (lex_irrefl p), Hp, H.
Qed.

Lemma count_perms l ps : NoDup l -> StronglySorted lex ps -> (forall q, In q ps <-> Permutation l q /\ q <> l) ->
  S (length ps) = fact (length l).
Proof.
  intros Hl Hs Hi. rewrite <- perms_length. change (S (length ps)) with (length (l :: ps)).
  apply Permutation_length, NoDup_Permutation.
  - constructor; [|apply sorted_NoDup; assumption]. intros H. apply Hi in H. destruct H as [_ H]. apply H. reflexivity.
  - apply perms_NoDup. assumption.
  - intros q. cbn [In]. split.
    + intros [<-|H]; apply perms_complete; [reflexivity|]. apply Hi in H. tauto.
    + intros H. apply perms_perm in H. destruct (list_eq_dec Nat.eq_dec l q) as [E|E]; [left; assumption|].
      right. apply Hi. split; [assumption|congruence].
Qed.

(** ** The searches *)
Definition free (p l : list nat) : list nat := filter (fun i => negb (memb i p)) l.

Lemma free_seq n p : NoDup p -> (forall v, In v p -> v < n) -> length (free p (seq 0 n)) = n - length p.
Proof.
  intros Hn Hp. unfold free.
  assert (H : Permutation (seq 0 n) (p ++ filter (fun i => negb (memb i p)) (seq 0 n))).
  { apply NoDup_Permutation.
    - apply seq_NoDup.
    - apply nodup_app; [assumption|apply NoDup_filter, seq_NoDup|]. intros x Hx H. apply filter_In in H. destruct H as [_ H].
      apply negb_true_iff, memb_nIn in H. contradiction.
    - intros x. rewrite in_app_iff, filter_In, in_seq, negb_true_iff, memb_nIn.
      destruct (in_dec Nat.eq_dec x p) as [H|H]; [specialize (Hp x H)|]; intuition lia. }
  apply Permutation_length in H. rewrite seq_length, app_length in H. lia.
Qed.

Lemma loop_reads {S} (f : S -> nat -> logged S) (P : S -> Prop) p lo hi l :
  (forall s i, P s -> In i l -> In i p -> f s i = quiet (Ok s)) ->
  (forall s i, P s -> In i l -> ~ In i p -> exists s', snd (f s i) = Ok s' /\ P s' /\ lo <= length (fst (f s i)) <= hi) ->
  forall s, P s -> exists s', snd (wfoldM f l s) = Ok s' /\ P s' /\
    length (free p l) * lo <= length (fst (wfoldM f l s)) <= length (free p l) * hi.
Proof.
  induction l as [|i l IH]; intros H1 H2 s Hs.
  - exists s. split; [reflexivity|]. split; [assumption|]. simpl. lia.
  - assert (IH' := IH ltac:(intros; apply H1; [|right|]; assumption) ltac:(intros; apply H2; [|right|]; assumption)).
    unfold free in *. cbn [filter wfoldM]. destruct (memb i p) eqn:E.
    + apply memb_In in E. rewrite (H1 s i Hs (or_introl eq_refl) E). rewrite (wbind_quiet _ _ s) by reflexivity.
      apply IH'. assumption.
    + apply memb_nIn in E. destruct (H2 s i Hs (or_introl eq_refl) E) as (s1 & E1 & Hs1 & Hl).
      rewrite (wbind_Ok _ _ s1) by exact E1. cbn [fst snd negb length]. destruct (IH' s1 Hs1) as (s2 & E2 & Hs2 & Hl2).
      exists s2. split; [exact E2|]. split; [exact Hs2|]. rewrite app_length. lia.
Qed.

Section Search.
Context {N : Num}.
Variable g : adj N.
Hypothesis Hcells : forall i j, i < a_dim g -> j < a_dim g -> exists c, a_get g i j = Ok c.
(** [z]: the case of the matrix of zeroes, in which nothing is pruned *)
Variable z : bool.
Hypothesis Hz : z = true -> (forall i j, i < a_dim g -> j < a_dim g -> a_get g i j = Ok c0) /\
  cadd (c0 : C N) c0 = c0 /\ csub (c0 : C N) c0 = c0 /\ cle (c0 : C N) c0 = true /\ cle (c0 : C N) cinf = true /\
  ceq (cinf : C N) cinf = true.

Definition zinv (s : C N * solution N) : Prop := z = true -> fst s = c0 /\ (fst (snd s) = cinf \/ fst (snd s) = c0).
Definition low (t : nat) : nat := if z then t else 0.

Definition pre (p : list nat) : Prop := NoDup p /\ forall v, In v p -> v < a_dim g.

Lemma pre_snoc p i : pre p -> i < a_dim g -> ~ In i p -> pre (p ++ [i]).
Proof.
  intros [H1 H2] Hi Hn. split.
  - apply nodup_app; [assumption|repeat constructor; intros []|]. intros x Hx [<-|[]]. contradiction.
  - intros v Hv. apply in_app_iff in Hv. destruct Hv as [Hv|[<-|[]]]; auto.
Qed.

Lemma pre_length p : pre p -> length p <= a_dim g.
Proof.
  intros [H1 H2]. rewrite <- (seq_length (a_dim g) 0). apply NoDup_incl_length; [assumption|].
  intros x Hx. apply in_seq. specialize (H2 x Hx). lia.
Qed.

(** the new edge *)
Lemma last_edge_read p i : pre p -> p <> [] -> i < a_dim g ->
  exists c, snd (wlast_edge g (p ++ [i])) = Ok c /\ length (fst (wlast_edge g (p ++ [i]))) = 1 /\ (z = true -> c = c0).
Proof.
  intros [H1 H2] Hne Hi. unfold wlast_edge. rewrite app_length. cbn [length].
  assert (Hl : length p <> 0) by (destruct p; [congruence|simpl; lia]).
  rewrite (wbind_quiet _ _ (nth (length p + 1 - 2) (p ++ [i]) 0)) by (apply nth_res_Ok; rewrite app_length; simpl; lia).
  rewrite (wbind_quiet _ _ (nth (length p + 1 - 2 + 1) (p ++ [i]) 0)) by (apply nth_res_Ok; rewrite app_length; simpl; lia).
  assert (Hu : nth (length p + 1 - 2) (p ++ [i]) 0 < a_dim g).
  { rewrite app_nth1 by lia. apply H2, nth_In. lia. }
  assert (Hv : nth (length p + 1 - 2 + 1) (p ++ [i]) 0 < a_dim g).
  { rewrite app_nth2 by lia. replace (length p + 1 - 2 + 1 - length p) with 0 by lia. exact Hi. }
  destruct (Hcells _ _ Hu Hv) as (c & E). exists c. split; [exact E|]. split; [reflexivity|].
  intros Ez. destruct (Hz Ez) as [H0 _]. rewrite (H0 _ _ Hu Hv) in E. congruence.
Qed.

(** the closing edge *)
Lemma leaf_read p c r : pre p -> p <> [] -> zinv (c, r) ->
  exists r', snd (wleaf g p c r) = Ok r' /\ length (fst (wleaf g p c r)) = 1 /\ zinv (c, r').
Proof.
  intros [H1 H2] Hne Hi. destruct p as [|h t]; [congruence|]. unfold wleaf.
  rewrite (wbind_quiet _ _ (last t h)) by apply last_res_last. rewrite (wbind_quiet _ _ h) by reflexivity.
  assert (Hu : last t h < a_dim g) by apply H2, last_In. assert (Hv : h < a_dim g) by (apply H2; left; reflexivity).
  destruct (Hcells _ _ Hu Hv) as (e & E). rewrite (wbind_Ok _ _ e) by exact E. cbn [fst snd quiet].
  eexists. split; [reflexivity|]. split; [reflexivity|]. intros Ez. destruct (Hi Ez) as [E1 E2]. cbn [fst snd] in *.
  split; [assumption|]. destruct (Hz Ez) as (H0 & Ha & _). rewrite (H0 _ _ Hu Hv) in E. injection E as E. subst e c.
  destruct (clt _ _); cbn [fst]; [right; exact Ha|exact E2].
Qed.

(** ** V2 *)
Lemma wsecond_reads fuel : forall p c r, pre p -> p <> [] -> a_dim g - length p < fuel ->
  exists r', snd (wsecond_rec fuel g p c r) = Ok r' /\
    length (fst (wsecond_rec fuel g p c r)) = tree_cells (fun _ => 0) (a_dim g - length p).
Proof.
  induction fuel as [|f IH]; intros p c r Hp Hne Hf; [lia|]. cbn [wsecond_rec]. pose proof (pre_length p Hp) as Hpl.
  destruct (Nat.eqb_spec (length p) (a_dim g)) as [E|E].
  - destruct p as [|h t]; [congruence|]. unfold wleaf.
    rewrite (wbind_quiet _ _ (last t h)) by apply last_res_last. rewrite (wbind_quiet _ _ h) by reflexivity.
    destruct Hp as [_ Hp]. destruct (Hcells (last t h) h) as (e & Ee); [apply Hp, last_In|apply Hp; left; reflexivity|].
    rewrite (wbind_Ok _ _ e) by exact Ee. cbn [fst snd quiet]. eexists. split; [reflexivity|].
    replace (a_dim g - length (h :: t)) with 0 by lia. reflexivity.
  - set (m := a_dim g - length p - 1). assert (Hm : a_dim g - length p = S m) by lia.
    match goal with |- context [wfoldM ?F _ _] => set (F0 := F) end.
    destruct (loop_reads F0 (fun _ => True) p (1 + tree_cells (fun _ => 0) m) (1 + tree_cells (fun _ => 0) m)
                (seq 0 (a_dim g))) with (s := (c, r)) as ([c' r'] & E1 & _ & E2).
    + intros [c1 r1] i _ _ Hi. unfold F0. apply memb_In in Hi. rewrite Hi. reflexivity.
    + intros [c1 r1] i _ Hi Hn. apply in_seq in Hi. unfold F0. rewrite (proj2 (memb_nIn i p) Hn). cbv zeta.
      assert (Hl1 : length (p ++ [i]) = S (length p)) by (rewrite app_length; simpl; lia).
      destruct (Nat.eqb_spec (length (p ++ [i])) 1) as [H1|_]; [exfalso; apply Hne, length_zero_iff_nil; lia|].
      destruct (last_edge_read p i Hp Hne ltac:(lia)) as (e & Ee & Le & _).
      rewrite (wbind_Ok _ _ e) by exact Ee.
      destruct (IH (p ++ [i]) (cadd c1 e) r1) as (r2 & E2 & L2); [apply pre_snoc; [assumption|lia|assumption]|destruct p; discriminate|lia|].
      rewrite (wbind_Ok _ _ r2) by exact E2. cbn [fst snd quiet]. eexists. split; [reflexivity|]. split; [exact I|].
      rewrite !app_length, Le, L2. cbn [length]. replace (a_dim g - length (p ++ [i])) with m by lia. lia.
    + exact I.
    + rewrite (wbind_Ok _ _ (c', r')) by exact E1. cbn [fst snd quiet]. exists r'. split; [reflexivity|].
      rewrite app_nil_r. destruct Hp as [Hp1 Hp2]. rewrite free_seq in E2 by assumption. rewrite Hm in *. cbn [tree_cells]. lia.
Qed.

(** ** V3 *)
Lemma wthird_reads fuel : forall p c r, pre p -> p <> [] -> a_dim g - length p < fuel -> zinv (c, r) ->
  exists r', snd (wthird_rec fuel g p c r) = Ok r' /\ zinv (c, r') /\
    low (tree_cells (fun _ => 0) (a_dim g - length p)) <= length (fst (wthird_rec fuel g p c r)) <=
      tree_cells (fun _ => 0) (a_dim g - length p).
Proof.
  induction fuel as [|f IH]; intros p c r Hp Hne Hf Hi0; [lia|]. cbn [wthird_rec]. pose proof (pre_length p Hp) as Hpl.
  destruct (Nat.eqb_spec (length p) (a_dim g)) as [E|E].
  - destruct (leaf_read p c r Hp Hne Hi0) as (r' & E1 & E2 & E3). exists r'. split; [exact E1|]. split; [exact E3|].
    rewrite E2. replace (a_dim g - length p) with 0 by lia. unfold low. cbn [tree_cells]. destruct z; lia.
  - set (m := a_dim g - length p - 1). assert (Hm : a_dim g - length p = S m) by lia.
    match goal with |- context [wfoldM ?F _ _] => set (F0 := F) end.
    destruct (loop_reads F0 zinv p (low (1 + tree_cells (fun _ => 0) m)) (1 + tree_cells (fun _ => 0) m)
                (seq 0 (a_dim g))) with (s := (c, r)) as ([c' r'] & E1 & I1 & E2).
    + intros [c1 r1] i _ _ Hi. unfold F0. apply memb_In in Hi. rewrite Hi. reflexivity.
    + intros [c1 r1] i HI Hi Hn. apply in_seq in Hi. unfold F0. rewrite (proj2 (memb_nIn i p) Hn). cbv zeta.
      assert (Hl1 : length (p ++ [i]) = S (length p)) by (rewrite app_length; simpl; lia).
      destruct (Nat.eqb_spec (length (p ++ [i])) 1) as [H1|_]; [exfalso; apply Hne, length_zero_iff_nil; lia|].
      destruct (last_edge_read p i Hp Hne ltac:(lia)) as (e & Ee & Le & Lz).
      rewrite (wbind_Ok _ _ e) by exact Ee.
      assert (HI' : zinv (cadd c1 e, r1)).
      { intros Ez. destruct (HI Ez) as [A1 A2]. cbn [fst snd] in *. split; [|exact A2].
        rewrite A1, (Lz Ez). apply (Hz Ez). }
      assert (HB : exists r2, snd (if cle (cadd c1 e) (fst r1) then wthird_rec f g (p ++ [i]) (cadd c1 e) r1 else quiet (Ok r1)) = Ok r2 /\
        zinv (cadd c1 e, r2) /\
        low (tree_cells (fun _ => 0) m) <= length (fst (if cle (cadd c1 e) (fst r1) then wthird_rec f g (p ++ [i]) (cadd c1 e) r1 else quiet (Ok r1))) <= tree_cells (fun _ => 0) m).
      { destruct (cle (cadd c1 e) (fst r1)) eqn:Ecl.
        - destruct (IH (p ++ [i]) (cadd c1 e) r1) as (r2 & A1 & A2 & A3); [apply pre_snoc; [assumption|lia|assumption]|destruct p; discriminate|lia|assumption|].
          replace (a_dim g - length (p ++ [i])) with m in A3 by lia. exists r2. auto.
        - exists r1. split; [reflexivity|]. split; [assumption|]. cbn [fst quiet length]. unfold low.
          destruct (bool_dec z true) as [Ez|Ez]; [|apply not_true_is_false in Ez; rewrite Ez; cbn iota; lia].
          exfalso. destruct (HI' Ez) as [A1 A2]. cbn [fst snd] in *. rewrite A1 in Ecl. destruct (Hz Ez) as (_ & _ & _ & B1 & B2 & _).
          destruct A2 as [A2|A2]; rewrite A2 in Ecl; congruence. }
      destruct HB as (r2 & A1 & A2 & A3). rewrite (wbind_Ok _ _ r2) by exact A1. cbn [fst snd quiet] in A3 |- *. eexists. split; [reflexivity|]. split.
      { intros Ez. destruct (A2 Ez) as [B1 B2]. cbn [fst snd] in *. split; [|exact B2]. rewrite B1, (Lz Ez). apply (Hz Ez). }
      rewrite !app_length, Le. cbn [length]. unfold low in *. revert A3.
      match goal with |- _ <= ?u <= _ -> _ => match goal with |- context [?t + 0] => change t with u end; generalize u end.
      intros t A3. clear - A3. destruct z; lia.
    + exact Hi0.
    + rewrite (wbind_Ok _ _ (c', r')) by exact E1. cbn [fst snd quiet]. exists r'. split; [reflexivity|]. split.
      { intros Ez. destruct (I1 Ez) as [_ B]. destruct (Hi0 Ez) as [B0 _]. split; assumption. }
      rewrite app_nil_r. destruct Hp as [Hp1 Hp2]. rewrite free_seq in E2 by assumption. rewrite Hm in *. cbn [tree_cells].
      unfold low in *. destruct z; lia.
Qed.

(** ** V4 *)
Lemma nn_inner sub n i : (forall v, In v sub -> v < n) -> n = a_dim g -> i < n -> forall s, (z = true -> s = cinf \/ s = c0) ->
  exists s', snd (wfoldM (fun shortest j => if memb j sub then quiet (Ok shortest)
       else cost <~ wget g i j ;; quiet (Ok (if clt cost shortest then cost else shortest))) (seq (i + 1) (n - (i + 1))) s) = Ok s' /\
    (z = true -> s' = cinf \/ s' = c0) /\
    length (fst (wfoldM (fun shortest j => if memb j sub then quiet (Ok shortest)
       else cost <~ wget g i j ;; quiet (Ok (if clt cost shortest then cost else shortest))) (seq (i + 1) (n - (i + 1))) s)) =
      length (free sub (seq (i + 1) (n - (i + 1)))).
Proof.
  intros Hs En Hi s Hs0.
  match goal with |- context [wfoldM ?F _ _] => set (F0 := F) end.
  destruct (loop_reads F0 (fun s => z = true -> s = cinf \/ s = c0) sub 1 1 (seq (i + 1) (n - (i + 1)))) with (s := s) as (s' & E1 & I1 & E2).
  - intros s1 j _ _ Hj. unfold F0. apply memb_In in Hj. rewrite Hj. reflexivity.
  - intros s1 j I1 Hj Hn. apply in_seq in Hj. unfold F0. rewrite (proj2 (memb_nIn j sub) Hn).
    destruct (Hcells i j) as (c & E); [lia..|]. rewrite (wbind_Ok _ _ c) by exact E. cbn [fst snd quiet wget].
    eexists. split; [reflexivity|]. split; [|simpl; lia]. intros Ez. destruct (Hz Ez) as [H0 _]. rewrite H0 in E by lia.
    injection E as <-. destruct (clt _ _); [right; reflexivity|auto].
  - exact Hs0.
  - exists s'. split; [exact E1|]. split; [exact I1|]. lia.
Qed.

Lemma nn_reads sub : (forall v, In v sub -> v < a_dim g) ->
  exists c, snd (wcompute_nn_of_remaining_vertices g sub (a_dim g)) = Ok c /\ (z = true -> c = c0) /\
    length (fst (wcompute_nn_of_remaining_vertices g sub (a_dim g))) = pairs_of (length (free sub (seq 0 (a_dim g)))).
Proof.
  intros Hs. unfold wcompute_nn_of_remaining_vertices. set (n := a_dim g).
  match goal with |- context [wfoldM ?F (seq 0 n) c0] => set (F0 := F) end.
  assert (G : forall k i acc, i + k = n -> (z = true -> acc = c0) ->
    exists c, snd (wfoldM F0 (seq i k) acc) = Ok c /\ (z = true -> c = c0) /\
      length (fst (wfoldM F0 (seq i k) acc)) = pairs_of (length (free sub (seq i k)))).
  { induction k as [|k IH]; intros i acc Hk Ha.
    - exists acc. split; [reflexivity|]. split; [assumption|reflexivity].
    - cbn [seq wfoldM]. unfold F0 at 1 3. unfold free. cbn [filter]. fold (free sub (seq (S i) k)).
      destruct (memb i sub) eqn:E.
      + rewrite (wbind_quiet _ _ acc) by reflexivity. apply IH; [lia|assumption].
      + destruct (nn_inner sub n i Hs eq_refl ltac:(lia) cinf ltac:(auto)) as (s & E1 & I1 & L1).
        replace (n - (i + 1)) with k in * by lia. replace (i + 1) with (S i) in * by lia.
        rewrite (wbind_Ok (wfoldM _ _ cinf) _ s) by exact E1. cbn [snd fst quiet].
        set (acc' := if negb (ceq s cinf) then cadd acc s else acc).
        rewrite (wbind_Ok _ _ acc') by reflexivity. cbn [fst snd]. rewrite !app_length, L1. cbn [length negb].
        destruct (IH (S i) acc' ltac:(lia)) as (c & E2 & I2 & L2).
        { intros Ez. unfold acc'. destruct (Hz Ez) as (_ & A1 & _ & _ & _ & A2). rewrite (Ha Ez).
          destruct (I1 Ez) as [->| ->]; [rewrite A2; reflexivity|]. rewrite A1. destruct (negb _); reflexivity. }
        exists c. split; [exact E2|]. split; [exact I2|]. rewrite L2. cbn [pairs_of]. lia. }
  apply G; [lia|auto].
Qed.

Lemma wfourth_reads fuel : forall p c r, pre p -> p <> [] -> a_dim g - length p < fuel -> zinv (c, r) ->
  exists r', snd (wfourth_rec fuel g p c r) = Ok r' /\ zinv (c, r') /\
    low (tree_cells pairs_of (a_dim g - length p)) <= length (fst (wfourth_rec fuel g p c r)) <=
      tree_cells pairs_of (a_dim g - length p).
Proof.
  induction fuel as [|f IH]; intros p c r Hp Hne Hf Hi0; [lia|]. cbn [wfourth_rec]. pose proof (pre_length p Hp) as Hpl.
  destruct (Nat.eqb_spec (length p) (a_dim g)) as [E|E].
  - destruct (leaf_read p c r Hp Hne Hi0) as (r' & E1 & E2 & E3). exists r'. split; [exact E1|]. split; [exact E3|].
    rewrite E2. replace (a_dim g - length p) with 0 by lia. unfold low. cbn [tree_cells]. destruct z; lia.
  - set (m := a_dim g - length p - 1). assert (Hm : a_dim g - length p = S m) by lia.
    match goal with |- context [wfoldM ?F _ _] => set (F0 := F) end.
    destruct (loop_reads F0 zinv p (low (1 + pairs_of m + tree_cells pairs_of m)) (1 + pairs_of m + tree_cells pairs_of m)
                (seq 0 (a_dim g))) with (s := (c, r)) as ([c' r'] & E1 & I1 & E2).
    + intros [c1 r1] i _ _ Hi. unfold F0. apply memb_In in Hi. rewrite Hi. reflexivity.
    + intros [c1 r1] i HI Hi Hn. apply in_seq in Hi. unfold F0. rewrite (proj2 (memb_nIn i p) Hn). cbv zeta.
      assert (Hl1 : length (p ++ [i]) = S (length p)) by (rewrite app_length; simpl; lia).
      assert (Hp' : pre (p ++ [i])) by (apply pre_snoc; [assumption|lia|assumption]).
      destruct (Nat.eqb_spec (length (p ++ [i])) 1) as [H1|_]; [exfalso; apply Hne, length_zero_iff_nil; lia|].
      destruct (last_edge_read p i Hp Hne ltac:(lia)) as (e & Ee & Le & Lz).
      rewrite (wbind_Ok _ _ e) by exact Ee.
      assert (HI' : zinv (cadd c1 e, r1)).
      { intros Ez. destruct (HI Ez) as [A1 A2]. cbn [fst snd] in *. split; [|exact A2].
        rewrite A1, (Lz Ez). apply (Hz Ez). }
      destruct (nn_reads (p ++ [i]) (proj2 Hp')) as (lb & Elb & Zlb & Llb).
      destruct Hp' as [Hq1 Hq2]. rewrite free_seq in Llb by assumption. replace (a_dim g - length (p ++ [i])) with m in Llb by lia.
      rewrite (wbind_Ok _ _ lb) by exact Elb.
      assert (HB : exists r2, snd (if cle (cadd (cadd c1 e) lb) (fst r1) then wfourth_rec f g (p ++ [i]) (cadd c1 e) r1 else quiet (Ok r1)) = Ok r2 /\
        zinv (cadd c1 e, r2) /\
        low (tree_cells pairs_of m) <= length (fst (if cle (cadd (cadd c1 e) lb) (fst r1) then wfourth_rec f g (p ++ [i]) (cadd c1 e) r1 else quiet (Ok r1))) <= tree_cells pairs_of m).
      { destruct (cle (cadd (cadd c1 e) lb) (fst r1)) eqn:Ecl.
        - destruct (IH (p ++ [i]) (cadd c1 e) r1) as (r2 & A1 & A2 & A3); [split; assumption|destruct p; discriminate|lia|assumption|].
          replace (a_dim g - length (p ++ [i])) with m in A3 by lia. exists r2. auto.
        - exists r1. split; [reflexivity|]. split; [assumption|]. cbn [fst quiet length]. unfold low.
          destruct (bool_dec z true) as [Ez|Ez]; [|apply not_true_is_false in Ez; rewrite Ez; cbn iota; lia].
          exfalso. destruct (HI' Ez) as [A1 A2]. cbn [fst snd] in *. destruct (Hz Ez) as (_ & B0 & _ & B1 & B2 & _).
          rewrite A1, (Zlb Ez), B0 in Ecl. destruct A2 as [A2|A2]; rewrite A2 in Ecl; congruence. }
      destruct HB as (r2 & A1 & A2 & A3). rewrite (wbind_Ok _ _ r2) by exact A1. cbn [fst snd quiet] in A3 |- *. eexists. split; [reflexivity|]. split.
      { intros Ez. destruct (A2 Ez) as [B1 B2]. cbn [fst snd] in *. split; [|exact B2]. rewrite B1, (Lz Ez). apply (Hz Ez). }
      rewrite !app_length, Le, Llb. cbn [length]. unfold low in *. revert A3.
      match goal with |- _ <= ?u <= _ -> _ => match goal with |- context [?t + 0] => change t with u end; generalize u end.
      intros t A3. clear - A3. destruct z; lia.
    + exact Hi0.
    + rewrite (wbind_Ok _ _ (c', r')) by exact E1. cbn [fst snd quiet]. exists r'. split; [reflexivity|]. split.
      { intros Ez. destruct (I1 Ez) as [_ B]. destruct (Hi0 Ez) as [B0 _]. split; assumption. }
      rewrite app_nil_r. destruct Hp as [Hp1 Hp2]. rewrite free_seq in E2 by assumption. rewrite Hm in *. cbn [tree_cells].
      unfold low in *. destruct z; lia.
Qed.

(** ** The first level: one tree per starting vertex *)
Lemma root_reads (rec : nat -> list nat -> C N -> solution N -> logged (solution N)) extra :
  1 <= a_dim g ->
  (forall p c r, pre p -> length p = 1 -> zinv (c, r) -> exists r', snd (rec (a_dim g) p c r) = Ok r' /\ zinv (c, r') /\
     low (tree_cells extra (a_dim g - length p)) <= length (fst (rec (a_dim g) p c r)) <= tree_cells extra (a_dim g - length p)) ->
  forall F, (forall c r i, F (c, r) i = (result <~ rec (a_dim g) [i] c r ;; quiet (Ok (c, result)))) ->
  forall s, zinv s -> exists s', snd (wfoldM F (seq 0 (a_dim g)) s) = Ok s' /\
    low (a_dim g * tree_cells extra (a_dim g - 1)) <= length (fst (wfoldM F (seq 0 (a_dim g)) s)) <= a_dim g * tree_cells extra (a_dim g - 1).
Proof.
  intros Hd Hrec F HF s Hs.
  destruct (loop_reads F zinv [] (low (tree_cells extra (a_dim g - 1))) (tree_cells extra (a_dim g - 1)) (seq 0 (a_dim g))) with (s := s) as (s' & E1 & _ & E2).
  - intros s1 i _ _ [].
  - intros [c1 r1] i I1 Hi _. apply in_seq in Hi. rewrite HF.
    destruct (Hrec [i] c1 r1) as (r2 & A1 & A2 & A3); [|reflexivity|assumption|].
    { split; [repeat constructor; intros []|]. intros v [<-|[]]. lia. }
    rewrite (wbind_Ok _ _ r2) by exact A1. cbn [fst snd quiet]. eexists. split; [reflexivity|]. split; [exact A2|].
    rewrite app_nil_r. exact A3.
  - exact Hs.
  - exists s'. split; [exact E1|]. rewrite free_seq in E2 by (try constructor; intros v []). cbn [length] in E2.
    rewrite Nat.sub_0_r in E2. unfold low in *. destruct z; lia.
Qed.
End Search.

(** ** The sizes of the trees *)
Lemma tree0_low m : 2 <= m -> 3 * fact m <= tree_cells (fun _ => 0) m.
Proof.
  intros H. induction H as [|m H IH]; [simpl; lia|]. cbn [tree_cells]. change (fact (S m)) with (S m * fact m). nia.
Qed.
Lemma tree0_high m : 1 <= m -> tree_cells (fun _ => 0) m + 2 <= 4 * fact m.
Proof.
  intros H. induction H as [|m H IH]; [simpl; lia|]. cbn [tree_cells]. change (fact (S m)) with (S m * fact m). nia.
Qed.
Lemma pairs_of_two m : 2 * pairs_of m + m = m * m.
Proof. induction m as [|m IH]; [reflexivity|]. cbn [pairs_of]. nia. Qed.
Lemma tree2_high m : 2 <= m -> tree_cells pairs_of m + m * m + m <= 6 * fact m.
Proof.
  intros H. induction H as [|m H IH]; [simpl; lia|]. cbn [tree_cells]. change (fact (S m)) with (S m * fact m). pose proof (pairs_of_two m).
  assert (6 * fact m >= tree_cells pairs_of m + m * m + m) by lia.
  assert (E : 6 * (S m * fact m) = S m * (6 * fact m)) by lia. rewrite E.
  assert (S m * (6 * fact m) >= S m * (tree_cells pairs_of m + m * m + m)) by (apply Nat.mul_le_mono_l; lia).
  assert (S m * (tree_cells pairs_of m + m * m + m) >= S m * (1 + pairs_of m + tree_cells pairs_of m) + S m * S m + S m); [|lia].
  set (T := tree_cells pairs_of m) in *. clearbody T. clear - H H0. nia.
Qed.
