(** Facts about src/solvers/approximate/matching.rs. *)
From Coq Require Import ZArith Arith Bool List Permutation Lia.
From Verif Require Import Num Base Data Par Rand MstPar Matching Spec SpecFacts Greedy PrimProofs NnProofs.
Import ListNotations.

Lemma pair_ind {A} (P : list A -> Prop) : P [] -> (forall x, P [x]) -> (forall x y l, P l -> P (x :: y :: l)) -> forall l, P l.
Proof.
  intros H0 H1 H2. assert (H : forall l, P l /\ forall x, P (x :: l)); [|intros l; apply H].
  induction l as [|y l [IH1 IH2]]; split; auto.
Qed.

Lemma unchunk_chunks {A} (l : list A) : unchunk2 (chunks2 l) (remainder2 l) = l.
Proof. induction l as [| |x y l IH] using pair_ind; [reflexivity..|]. cbn. unfold unchunk2 in IH. rewrite IH. reflexivity. Qed.
Lemma chunks2_length {A} (l : list A) : 2 * length (chunks2 l) + length (remainder2 l) = length l /\ length (remainder2 l) <= 1.
Proof. induction l as [| |x y l IH] using pair_ind; cbn in *; lia. Qed.
Lemma endpoints_chunks l : Nat.Even (length l) -> endpoints (chunks2 l) = l.
Proof.
  induction l as [|x|x y l IH] using pair_ind; intros [k Hk]; [reflexivity|cbn in Hk; lia|]. cbn. unfold endpoints in IH. rewrite IH; [reflexivity|].
  exists (k - 1). cbn in Hk. lia.
Qed.
Lemma endpoints_chunks_incl l : incl (endpoints (chunks2 l)) l.
Proof. induction l as [|x|x y l IH] using pair_ind; intros z Hz; [destruct Hz..|]. cbn in Hz. destruct Hz as [<-|[<-|Hz]]; cbn; [auto..|]. right. right. apply IH. assumption. Qed.
Lemma shuffle_short {A} draws (l : list A) : length l <= 1 -> shuffle draws l = l.
Proof. intros H. unfold shuffle. replace (length l - 1) with 0 by lia. reflexivity. Qed.
Lemma endpoints_app A B : endpoints (A ++ B) = endpoints A ++ endpoints B.
Proof. apply flat_map_app. Qed.
Lemma endpoints_perm A B : Permutation A B -> Permutation (endpoints A) (endpoints B).
Proof. apply Permutation_flat_map. Qed.

Section Matching.
Context {N : Num}.
Variable m : namatrix N.
Hypothesis Hwf : na_wf m.
Let n := na_dim m.
Let v := na_val m.

(** the three ways to pair four vertices *)
Definition cost0 (e f : nat * nat) : C N := cadd (v (fst e) (snd e)) (v (fst f) (snd f)).
Definition cost1 (e f : nat * nat) : C N := cadd (v (fst e) (fst f)) (v (snd e) (snd f)).
Definition cost2 (e f : nat * nat) : C N := cadd (v (fst e) (snd f)) (v (snd e) (fst f)).

Definition opt2 (e f : nat * nat) : (nat * nat) * (nat * nat) :=
  if clt (cost1 e f) (cost0 e f) then
    if clt (cost2 e f) (cost1 e f) then ((fst e, fst f), (snd e, fst f)) else ((fst e, fst f), (snd e, snd f))
  else if clt (cost2 e f) (cost0 e f) then ((fst e, snd f), (snd e, fst f)) else (e, f).

Definition edge_ok (e : nat * nat) : Prop := fst e < n /\ snd e < n.
Definition all_ok (M : matching) : Prop := Forall edge_ok M.

Lemma optimize_Ok e f : edge_ok e -> edge_ok f -> optimize_two_matching m e f = Ok (opt2 e f).
Proof.
  destruct e as [a b], f as [c d]. intros [Ha Hb] [Hc Hd]. cbn [fst snd] in *. unfold optimize_two_matching.
  rewrite !na_get_val by assumption. cbn [bind]. reflexivity.
Qed.

Lemma opt2_ok e f : edge_ok e -> edge_ok f -> edge_ok (fst (opt2 e f)) /\ edge_ok (snd (opt2 e f)).
Proof.
  intros [Ha Hb] [Hc Hd]. unfold opt2. destruct (clt _ _); [destruct (clt _ _)|destruct (clt (cost2 e f) (cost0 e f))]; repeat split; assumption.
Qed.
Lemma opt2_incl e f : incl (endpoints [fst (opt2 e f); snd (opt2 e f)]) (endpoints [e; f]).
Proof.
  unfold opt2. intros x Hx. destruct (clt _ _); [destruct (clt _ _)|destruct (clt (cost2 e f) (cost0 e f))]; cbn in *; tauto.
Qed.
(** if the branch with the slip is not taken, the vertices are kept *)
Lemma opt2_perm e f : clt (cost1 e f) (cost0 e f) && clt (cost2 e f) (cost1 e f) = false ->
  Permutation (endpoints [fst (opt2 e f); snd (opt2 e f)]) (endpoints [e; f]).
Proof.
  intros H. destruct e as [a b], f as [c d]. unfold opt2. destruct (clt (cost1 _ _) (cost0 _ _)).
  - cbn [andb] in H. rewrite H. cbn. apply perm_skip, perm_swap.
  - destruct (clt (cost2 _ _) (cost0 _ _)); cbn; [|reflexivity]. apply perm_skip.
    apply perm_trans with [b; d; c]; [apply perm_swap|]. apply perm_skip, perm_swap.
Qed.

Definition improve (M : matching) : matching := unchunk2 (map (fun c => opt2 (fst c) (snd c)) (chunks2 M)) (remainder2 M).

Lemma improve_cons e f M : improve (e :: f :: M) = fst (opt2 e f) :: snd (opt2 e f) :: improve M.
Proof. reflexivity. Qed.

Lemma improve_chunks_Ok M : all_ok M -> improve_chunks m M = Ok (improve M).
Proof.
  induction M as [| |e f M IH] using pair_ind; intros H; [reflexivity..|].
  inversion H as [|? ? He H']; subst. inversion H' as [|? ? Hf HM]; subst. cbn [improve_chunks]. rewrite optimize_Ok by assumption. cbn [bind].
  destruct (opt2 e f) as [e' f'] eqn:E. rewrite IH by assumption. cbn [bind]. rewrite improve_cons, E. reflexivity.
Qed.

(** ** Invariants of the improvement *)
Record invariant (I : matching -> Prop) : Prop := {
  inv_perm : forall M M', Permutation M M' -> I M -> I M';
  inv_step : forall e f M, I (e :: f :: M) -> I (fst (opt2 e f) :: snd (opt2 e f) :: M)
}.

Lemma improve_inv I : invariant I -> forall M done, I (done ++ M) -> I (done ++ improve M).
Proof.
  intros HI M. induction M as [| |e f M IH] using pair_ind; intros done H; [exact H..|].
  rewrite improve_cons. set (e' := fst (opt2 e f)). set (f' := snd (opt2 e f)).
  replace (done ++ e' :: f' :: improve M) with ((done ++ [e'; f']) ++ improve M) by (rewrite <- app_assoc; reflexivity).
  apply IH. apply (inv_perm I HI (e' :: f' :: done ++ M)).
  - rewrite <- app_assoc. cbn [app]. rewrite <- !Permutation_middle. reflexivity.
  - apply (inv_step I HI). apply (inv_perm I HI (done ++ e :: f :: M)); [|assumption]. rewrite <- !Permutation_middle. reflexivity.
Qed.

Lemma all_ok_inv : invariant all_ok.
Proof.
  split.
  - intros M M' HP H. unfold all_ok in *. rewrite Forall_forall in *. intros x Hx. apply H. apply (Permutation_in _ (Permutation_sym HP)). assumption.
  - intros e f M H. inversion H as [|? ? He H']; subst. inversion H' as [|? ? Hf HM]; subst. destruct (opt2_ok e f He Hf). constructor; [assumption|]. constructor; assumption.
Qed.

Lemma improve_matching_spec draws M tries : all_ok M ->
  exists M', improve_matching draws m M tries = Ok M' /\ all_ok M' /\ forall I, invariant I -> I M -> I M'.
Proof.
  intros HM. unfold improve_matching. destruct (length M <=? 1); [exists M; split; [reflexivity|]; split; [assumption|]; intros; assumption|].
  apply (foldM_inv' _ (fun M' => all_ok M' /\ forall I, invariant I -> I M -> I M')); [split; [assumption|]; intros; assumption|].
  intros t M1 _ [HM1 HI1].
  assert (Hsh : all_ok (shuffle (draws t) M1)) by (apply (inv_perm _ all_ok_inv M1); [apply Permutation_sym, shuffle_perm|assumption]).
  rewrite improve_chunks_Ok by assumption. eexists. split; [reflexivity|]. split.
  - apply (improve_inv _ all_ok_inv _ []). assumption.
  - intros I HI H. apply (improve_inv I HI _ []). cbn [app]. apply (inv_perm I HI M1); [apply Permutation_sym, shuffle_perm|exact (HI1 I HI H)].
Qed.

(** ** The parallel loop *)
Definition ctask_ok (t : ctask) : Prop :=
  match t with CRead => True | CWrite1 e f => edge_ok e /\ edge_ok f | CWrite2 f => edge_ok f | CDone => True end.
Definition ctask_cell (i : nat) (t : ctask) (x : (nat * nat) * (nat * nat)) : ctask * ((nat * nat) * (nat * nat)) :=
  match t with
  | CRead => (CWrite1 (fst (opt2 (fst x) (snd x))) (snd (opt2 (fst x) (snd x))), x)
  | CWrite1 e f => (CWrite2 f, (e, snd x))
  | CWrite2 f => (CDone, (fst x, f))
  | CDone => (CDone, x)
  end.
Let dd : (nat * nat) * (nat * nat) := ((0, 0), (0, 0)).
Let step' (i : nat) (t : ctask) (cs : list ((nat * nat) * (nat * nat))) :=
  Ok (fst (ctask_cell i t (nth i cs dd)), upd cs i (snd (ctask_cell i t (nth i cs dd)))).
Let Inv (ls : list ctask) (cs : list ((nat * nat) * (nat * nat))) : Prop :=
  length ls = length cs /\ Forall ctask_ok ls /\ Forall (fun c => edge_ok (fst c) /\ edge_ok (snd c)) cs.

Lemma upd_same' {A} (l : list A) i d : i < length l -> upd l i (nth i l d) = l.
Proof. revert i. induction l as [|a l IH]; intros [|i] H; cbn in *; [lia..| |]; [reflexivity|]. rewrite IH by lia. reflexivity. Qed.
Lemma Forall_upd {A} (P : A -> Prop) l i x : Forall P l -> P x -> Forall P (upd l i x).
Proof. intros H Hx. revert i. induction H as [|a l Ha Hl IH]; intros [|i]; cbn; constructor; auto. Qed.

Lemma chunk_loop cs sched : Forall (fun c => edge_ok (fst c) /\ edge_ok (snd c)) cs ->
  par_for (chunk_step m) CRead 3 (length cs) sched cs = Ok (map (fun c => opt2 (fst c) (snd c)) cs).
Proof.
  intros Hcs. rewrite (par_for_ext (chunk_step m) step' Inv).
  - destruct (par_for_cells dd step' CRead ctask_cell (fun s => length s = length cs) (length cs)) with
      (rounds := 3) (g := fun (_ : nat) (x : (nat * nat) * (nat * nat)) => opt2 (fst x) (snd x)) (sched := sched) (s := cs) as (s' & E & L & C1 & _).
    + intros s i x H. rewrite upd_length. assumption.
    + intros s H. lia.
    + intros i l s Hi H. reflexivity.
    + intros k i x _ Hk. destruct k as [|[|[|k]]]; [lia..|]. cbn [iter ctask_cell fst snd].
      assert (Hdone : forall k y, snd (iter ctask_cell k i (CDone, y)) = y) by (clear; induction k; intros; cbn [iter ctask_cell fst snd]; auto).
      rewrite Hdone. destruct (opt2 (fst x) (snd x)); reflexivity.
    + reflexivity.
    + rewrite E. f_equal. apply (nth_ext _ _ dd dd); [rewrite map_length; assumption|]. intros i Hi. rewrite C1 by lia.
      set (g := fun c : (nat * nat) * (nat * nat) => opt2 (fst c) (snd c)). rewrite (nth_indep (map g cs) dd (g dd)) by (rewrite map_length; lia).
      rewrite map_nth. reflexivity.
  - intros ls s i l (Hl & Hls & Hs) El. unfold step'.
    assert (Hi : i < length s) by (rewrite <- Hl; apply nth_error_Some; congruence).
    assert (Hc : edge_ok (fst (nth i s dd)) /\ edge_ok (snd (nth i s dd))) by (rewrite Forall_forall in Hs; apply Hs, nth_In; assumption).
    destruct l as [|e f|f|]; cbn [chunk_step ctask_cell fst snd].
    + rewrite (nth_res_nth _ _ dd) by assumption. cbn [bind]. rewrite optimize_Ok by tauto. cbn [bind].
      destruct (opt2 (fst (nth i s dd)) (snd (nth i s dd))); cbn [bind fst snd]. rewrite upd_same' by assumption. reflexivity.
    + rewrite (modify_res_Ok _ _ _ dd) by assumption. reflexivity.
    + rewrite (modify_res_Ok _ _ _ dd) by assumption. reflexivity.
    + rewrite upd_same' by assumption. reflexivity.
  - intros ls s i l l' s' (Hl & Hls & Hs) El E. unfold step' in E. injection E as <- <-.
    assert (Hi : i < length s) by (rewrite <- Hl; apply nth_error_Some; congruence).
    assert (Hc : edge_ok (fst (nth i s dd)) /\ edge_ok (snd (nth i s dd))) by (rewrite Forall_forall in Hs; apply Hs, nth_In; assumption).
    assert (Ht : ctask_ok l) by (rewrite Forall_forall in Hls; apply Hls; apply nth_error_In with i; assumption).
    split; [rewrite !upd_length; assumption|].
    destruct l as [|e f|f|]; cbn [ctask_cell ctask_ok fst snd] in *; (split; apply Forall_upd; try assumption); cbn [ctask_ok fst snd]; try tauto.
    apply opt2_ok; tauto.
  - split; [apply repeat_length|]. split; [|assumption]. apply Forall_forall. intros t Ht. apply repeat_spec in Ht. subst t. exact Logic.I.
Qed.

Lemma chunks_ok M : all_ok M -> Forall (fun c => edge_ok (fst c) /\ edge_ok (snd c)) (chunks2 M).
Proof.
  induction M as [| |e f M IH] using pair_ind; intros H; [constructor..|]. inversion H as [|? ? He H']; subst. inversion H' as [|? ? Hf HM]; subst.
  cbn. constructor; [split; assumption|auto].
Qed.

Theorem par_improve_seq draws sched M tries : all_ok M ->
  par_improve_matching draws sched m M tries = improve_matching draws m M tries.
Proof.
  intros HM. unfold par_improve_matching, improve_matching.
  assert (Hstep : forall M t, all_ok M -> (cs <- par_for (chunk_step m) CRead 3 (length (chunks2 (shuffle (draws t) M))) (sched t) (chunks2 (shuffle (draws t) M)) ;;
           Ok (unchunk2 cs (remainder2 (shuffle (draws t) M)))) = improve_chunks m (shuffle (draws t) M)).
  { intros M1 t HM1. assert (Hsh : all_ok (shuffle (draws t) M1)) by (apply (inv_perm _ all_ok_inv M1); [apply Permutation_sym, shuffle_perm|assumption]).
    rewrite chunk_loop by (apply chunks_ok; assumption). cbn [bind]. rewrite improve_chunks_Ok by assumption. reflexivity. }
  assert (Hloop : forall l M, all_ok M -> foldM (fun M t => let M := shuffle (draws t) M in
           cs <- par_for (chunk_step m) CRead 3 (length (chunks2 M)) (sched t) (chunks2 M) ;; Ok (unchunk2 cs (remainder2 M))) l M =
         foldM (fun M t => improve_chunks m (shuffle (draws t) M)) l M).
  { induction l as [|t l IH]; intros M1 HM1; [reflexivity|]. cbn [foldM]. cbv zeta. rewrite Hstep by assumption.
    assert (Hsh : all_ok (shuffle (draws t) M1)) by (apply (inv_perm _ all_ok_inv M1); [apply Permutation_sym, shuffle_perm|assumption]).
    rewrite improve_chunks_Ok by assumption. cbn [bind]. apply IH. apply (improve_inv _ all_ok_inv _ []). assumption. }
  rewrite Hloop by assumption. destruct (Nat.leb_spec (length M) 1) as [Hle|Hgt]; [|reflexivity].
  generalize (seq 0 tries). intros l. induction l as [|t l IH]; [reflexivity|]. cbn [foldM]. rewrite shuffle_short by assumption.
  destruct M as [|e [|f M]]; [exact IH|exact IH|cbn in Hle; lia].
Qed.

(** ** MPI *)
Lemma matching_cost_Ok M : all_ok M -> exists c, matching_cost m M = Ok c.
Proof.
  intros H. unfold matching_cost. rewrite (mapM_Ok _ (fun e => v (fst e) (snd e))).
  - eexists. reflexivity.
  - intros e He. unfold all_ok in H. rewrite Forall_forall in H. destruct (H e He). apply na_get_val; assumption.
Qed.

Theorem mpi_improve_spec (O : NumOrd N) draws M tries size : all_ok M -> M <> [] -> 1 <= size ->
  exists r Mr cr, r < size /\ improve_matching (draws r) m M tries = Ok Mr /\ matching_cost m Mr = Ok cr /\
    mpi_improve_matching draws m M tries size = Ok (repeat Mr size) /\
    forall r' Mr' cr', r' < size -> improve_matching (draws r') m M tries = Ok Mr' -> matching_cost m Mr' = Ok cr' -> clt cr' cr = false.
Proof.
  intros HM Hne Hs. unfold mpi_improve_matching. replace (length M =? 0) with false by (destruct M; [congruence|reflexivity]).
  assert (Hloc : forall r, exists x, (M' <- improve_matching (draws r) m M tries ;; cost <- matching_cost m M' ;; Ok (cost, M')) = Ok x /\
     improve_matching (draws r) m M tries = Ok (snd x) /\ matching_cost m (snd x) = Ok (fst x)).
  { intros r. destruct (improve_matching_spec (draws r) M tries HM) as (M' & E & HM' & _). destruct (matching_cost_Ok M' HM') as (c & Ec).
    exists (c, M'). rewrite E. cbn [bind]. rewrite Ec. auto. }
  assert (Hmap : forall l, exists locals, mapM (fun r => M' <- improve_matching (draws r) m M tries ;; cost <- matching_cost m M' ;; Ok (cost, M')) l = Ok locals /\
     Forall2 (fun r x => improve_matching (draws r) m M tries = Ok (snd x) /\ matching_cost m (snd x) = Ok (fst x)) l locals).
  { induction l as [|r l (locals & E & HF)]; [exists []; split; [reflexivity|constructor]|]. destruct (Hloc r) as (x & Ex & Hx).
    exists (x :: locals). split; [|constructor; assumption]. cbn [mapM]. rewrite Ex. cbn [bind]. rewrite E. reflexivity. }
  destruct (Hmap (seq 0 size)) as (locals & E & HF). rewrite E. cbn [bind].
  destruct locals as [|root rest]; [inversion HF; destruct size; [lia|discriminate]|]. cbn [first_res bind tl].
  set (best := fold_left _ rest root).
  assert (Hbest : In best (root :: rest) /\ forall y, In y (root :: rest) -> clt (fst y) (fst best) = false).
  { unfold best. clear - O. assert (H : forall (l : list (C N * matching)) b seen, In b seen -> (forall y, In y seen -> clt (fst y) (fst b) = false) ->
      let r := fold_left (fun best other => if clt (fst other) (fst best) then other else best) l b in
      In r (seen ++ l) /\ forall y, In y (seen ++ l) -> clt (fst y) (fst r) = false).
    { induction l as [|x l IH]; intros b seen Hb Hm; cbn [fold_left]; [rewrite app_nil_r; auto|].
      replace (seen ++ x :: l) with ((seen ++ [x]) ++ l) by (rewrite <- app_assoc; reflexivity).
      destruct (clt (fst x) (fst b)) eqn:Ex; apply IH.
      - apply in_or_app. right. left. reflexivity.
      - intros y Hy. apply in_app_or in Hy. destruct Hy as [Hy|[<-|[]]]; [|apply (clt_irrefl O)].
        destruct (clt (fst y) (fst x)) eqn:Ey; [|reflexivity]. rewrite <- (Hm y Hy). symmetry. apply (clt_cle_trans O _ (fst x)); [assumption|apply (clt_le O); assumption].
      - apply in_or_app. auto.
      - intros y Hy. apply in_app_or in Hy. destruct Hy as [Hy|[<-|[]]]; auto. }
    apply (H rest root [root]); [left; reflexivity|]. intros y [<-|[]]. apply (clt_irrefl O). }
  destruct Hbest as [Hin Hmin].
  assert (HF2 : forall x, In x (root :: rest) -> exists r, In r (seq 0 size) /\ improve_matching (draws r) m M tries = Ok (snd x) /\ matching_cost m (snd x) = Ok (fst x)).
  { clear - HF. induction HF as [|r x l ls H HF IH]; intros y [].
    - subst y. exists r. split; [left; reflexivity|assumption].
    - destruct (IH y H0) as (r' & Hr' & H'). exists r'. split; [right; assumption|assumption]. }
  assert (HF1 : forall r, In r (seq 0 size) -> exists x, In x (root :: rest) /\ improve_matching (draws r) m M tries = Ok (snd x) /\ matching_cost m (snd x) = Ok (fst x)).
  { clear - HF. induction HF as [|r x l ls H HF IH]; intros y [].
    - subst y. exists x. split; [left; reflexivity|assumption].
    - destruct (IH y H0) as (r' & Hr' & H'). exists r'. split; [right; assumption|assumption]. }
  destruct (HF2 best Hin) as (r & Hr & Er & Ec). apply in_seq in Hr.
  exists r, (snd best), (fst best). split; [lia|]. split; [assumption|]. split; [assumption|]. split; [reflexivity|].
  intros r' Mr' cr' Hr' Er' Ec'. destruct (HF1 r') as (x & Hx & Ex & Exc); [apply in_seq; lia|].
  rewrite Er' in Ex. injection Ex as ->. rewrite Ec' in Exc. injection Exc as ->. apply Hmin. assumption.
Qed.

(** ** The matching of a list of vertices *)
Variable V : list nat.
Hypothesis HV : forall x, In x V -> x < n.

Lemma first_ok draws : all_ok (chunks2 (shuffle draws V)).
Proof.
  apply Forall_forall. intros [a b] Hin.
  assert (H : forall x, In x [a; b] -> x < n).
  { intros x Hx. apply HV. apply (Permutation_in _ (shuffle_perm draws V)). apply endpoints_chunks_incl. apply in_flat_map. exists (a, b). auto. }
  split; apply H; cbn; auto.
Qed.

(** every result comes from the first matching by improvement *)
Theorem approx_spec (O : NumOrd N) env mode tries : mode <= 2 -> (mode = MPI_COMPUTATION -> 2 <= length V /\ 1 <= mt_size env) ->
  exists M', approx_min_cost_matching env mode m V tries = Ok M' /\ all_ok M' /\
    forall I, invariant I -> I (chunks2 (shuffle (mt_first env) V)) -> I M'.
Proof.
  intros Hmode Hmpi. unfold approx_min_cost_matching. pose proof (first_ok (mt_first env)) as Hok.
  destruct (Nat.eqb_spec mode SEQ_COMPUTATION); [apply improve_matching_spec; assumption|].
  destruct (Nat.eqb_spec mode PAR_COMPUTATION); [rewrite par_improve_seq by assumption; apply improve_matching_spec; assumption|].
  destruct (Nat.eqb_spec mode MPI_COMPUTATION) as [->|]; [|unfold SEQ_COMPUTATION, PAR_COMPUTATION, MPI_COMPUTATION in *; lia].
  destruct (Hmpi eq_refl) as [Hl Hs].
  destruct (mpi_improve_spec O (mt_draws env) (chunks2 (shuffle (mt_first env) V)) tries (mt_size env) Hok) as (r & Mr & cr & Hr & Er & _ & E & _).
  - intros E. pose proof (chunks2_length (shuffle (mt_first env) V)) as H. rewrite E in H. cbn [length] in H.
    rewrite (Permutation_length (shuffle_perm (mt_first env) V)) in H. lia.
  - assumption.
  - rewrite E. cbn [bind]. destruct (mt_size env) as [|k]; [lia|]. cbn [repeat first_res]. exists Mr. split; [reflexivity|].
    destruct (improve_matching_spec (mt_draws env r) (chunks2 (shuffle (mt_first env) V)) tries Hok) as (M' & E' & H1 & H2).
    rewrite Er in E'. injection E' as <-. auto.
Qed.

Lemma listed_inv : invariant (fun M => incl (endpoints M) V).
Proof.
  split.
  - intros M M' HP H x Hx. apply H. apply (Permutation_in _ (Permutation_sym (endpoints_perm _ _ HP))). assumption.
  - intros e f M H x Hx. apply H. change (e :: f :: M) with ([e; f] ++ M). rewrite endpoints_app. apply in_or_app.
    change (fst (opt2 e f) :: snd (opt2 e f) :: M) with ([fst (opt2 e f); snd (opt2 e f)] ++ M) in Hx. rewrite endpoints_app in Hx.
    apply in_app_or in Hx. destruct Hx as [Hx|Hx]; [left; apply opt2_incl; assumption|auto].
Qed.
Lemma length_inv k : invariant (fun M => length M = k).
Proof. split; [intros M M' HP <-; symmetry; apply Permutation_length; assumption|intros e f M H; exact H]. Qed.

(** no four vertices send the improvement into the branch with the slip *)
Definition no_slip : Prop := forall a b c d, In a V -> In b V -> In c V -> In d V -> NoDup [a; b; c; d] ->
  clt (cadd (v a c) (v b d)) (cadd (v a b) (v c d)) && clt (cadd (v a d) (v b c)) (cadd (v a c) (v b d)) = false.

Lemma perfect_four e f M : NoDup V -> perfect_matching V (e :: f :: M) ->
  In (fst e) V /\ In (snd e) V /\ In (fst f) V /\ In (snd f) V /\ NoDup [fst e; snd e; fst f; snd f].
Proof.
  intros Hnd HP. unfold perfect_matching in HP. change (endpoints (e :: f :: M)) with ([fst e; snd e; fst f; snd f] ++ endpoints M) in HP.
  assert (Hin : forall x, In x [fst e; snd e; fst f; snd f] -> In x V) by (intros x Hx; apply (Permutation_in _ HP), in_or_app; auto).
  repeat split; try (apply Hin; cbn; tauto).
  apply (Permutation_NoDup (Permutation_sym HP)) in Hnd. clear - Hnd. revert Hnd. generalize [fst e; snd e; fst f; snd f]. intros l.
  induction l as [|x l IH]; intros H; [constructor|]. cbn [app] in H. inversion H; subst. constructor; [|auto]. intros Hx. apply H2, in_or_app. auto.
Qed.

Lemma perfect_inv : NoDup V -> no_slip -> invariant (perfect_matching V).
Proof.
  intros Hnd Hns. split.
  - intros M M' HP H. unfold perfect_matching in *. rewrite <- H. apply endpoints_perm. apply Permutation_sym. assumption.
  - intros e f M H. destruct (perfect_four e f M Hnd H) as (H1 & H2 & H3 & H4 & H5).
    pose proof (opt2_perm e f (Hns _ _ _ _ H1 H2 H3 H4 H5)) as HP. unfold perfect_matching in *. rewrite <- H.
    change (fst (opt2 e f) :: snd (opt2 e f) :: M) with ([fst (opt2 e f); snd (opt2 e f)] ++ M). change (e :: f :: M) with ([e; f] ++ M).
    rewrite !endpoints_app. apply Permutation_app_tail. assumption.
Qed.
Lemma first_perfect draws : Nat.Even (length V) -> perfect_matching V (chunks2 (shuffle draws V)).
Proof.
  intros He. unfold perfect_matching. rewrite endpoints_chunks; [apply shuffle_perm|]. rewrite (Permutation_length (shuffle_perm draws V)). assumption.
Qed.
End Matching.
