(** Properties C15-C17: the static and the dynamic MPI exact solver. *)
From Coq Require Import ZArith Arith Bool List Permutation Lia.
From Verif Require Import Num NumB64 NumPos Base Spec SpecFacts Data Mst Exact Threaded Mpi Dfs PrimProofs
  ExactProofs DigitsProofs SearchProofs Coverage CoverageAll ThreadedProofs MpiStatic MpiDynamic MpiProofs MpiChunks MpiExact MpiDynRuns Instances PropExact.
Import ListNotations.

(** Runs of the static solver with [workers] = world size - 1 workers, worker [i] having to
    look at the prefixes [nth i todo []]; runs of the dynamic solver. *)
Definition static_run {N} (m : namatrix N) (workers : nat) (todo : list (list (list nat))) (c : sconfig N) : Prop :=
  steps (sstep workers (mpi_work m)) (sinit (fun i => nth i todo [])) c.
Definition dynamic_run {N} (m : namatrix N) (workers : nat) (c : dconfig N) : Prop :=
  steps (dstep workers (na_dim m) (mpi_work m)) dinit c.

(** Every cell is a nonnegative number, infinity or NaN. *)
Definition nonneg_matrix {N} (m : namatrix N) : Prop :=
  forall i j x, na_get m i j = Ok x -> cnan x = true \/ cle c0 x = true.

(** ** C15.  Any ordered arithmetic (doubles included). *)
Theorem C15_no_deadlock : forall (N : Num) (O : NumOrd N) (PP : NumPos N) (m : namatrix N) prefix_length workers,
  1 <= na_dim m -> na_wf m -> nonneg_matrix m -> workers < na_dim m ^ prefix_length ->
  exists todo, static_todo m prefix_length workers = Ok todo /\
  forall c, static_run m workers todo c -> sdone workers c \/ exists c', sstep workers (mpi_work m) c c'.
Proof.
  intros N O PP m plen workers Hn Hwf Hm Hw. destruct (static_todo_Ok m Hn plen workers Hw) as (todo & E & _).
  exists todo. split; [assumption|]. apply (s_progress O PP m Hn Hwf Hm plen workers Hw todo E).
Qed.
Print Assumptions C15_no_deadlock.

(** No worker panics, and hence takes the others down, in the middle of a run. *)
Theorem C15_no_worker_panics : forall (N : Num) (O : NumOrd N) (PP : NumPos N) (m : namatrix N) prefix_length workers todo c i p rest local g,
  1 <= na_dim m -> na_wf m -> nonneg_matrix m -> workers < na_dim m ^ prefix_length ->
  static_todo m prefix_length workers = Ok todo -> static_run m workers todo c -> i < workers ->
  s_worker c i = WRun (p :: rest) local g -> exists s, mpi_work m p g = Ok s.
Proof.
  intros N O PP m plen workers todo c i p rest local g Hn Hwf Hm Hw E Hc Hi Est.
  exact (s_work_ok O PP m Hn Hwf Hm plen workers Hw todo E c i p rest local g Hc Hi Est).
Qed.
Print Assumptions C15_no_worker_panics.

Theorem C15_no_infinite_run : forall (N : Num) (O : NumOrd N) (PP : NumPos N) (m : namatrix N) prefix_length workers todo,
  1 <= na_dim m -> na_wf m -> nonneg_matrix m -> workers < na_dim m ^ prefix_length ->
  static_todo m prefix_length workers = Ok todo ->
  ~ exists f : nat -> sconfig N, f 0 = sinit (fun i => nth i todo []) /\ forall k, sstep workers (mpi_work m) (f k) (f (S k)).
Proof.
  intros N O PP m plen workers todo Hn Hwf Hm Hw E (f & H0 & Hf).
  apply (no_infinite_run (sstep workers (mpi_work m)) (measure workers) (static_run m workers todo) f); [|rewrite H0; apply steps_refl|assumption].
  intros c c' Hc Hs. split; [apply (steps_step _ _ c); assumption|].
  apply (s_measure O PP m Hn Hwf Hm plen workers Hw todo E c c' Hc Hs).
Qed.
Print Assumptions C15_no_infinite_run.

(** no send ever meets an undelivered message: whether MPI buffers or not makes no difference *)
Theorem C15_channels : forall (N : Num) (O : NumOrd N) (PP : NumPos N) (m : namatrix N) prefix_length workers todo c i,
  1 <= na_dim m -> na_wf m -> nonneg_matrix m -> workers < na_dim m ^ prefix_length ->
  static_todo m prefix_length workers = Ok todo -> static_run m workers todo c -> i < workers ->
  length (s_up c i) + length (s_down c i) <= 1.
Proof.
  intros N O PP m plen workers todo c i Hn Hwf Hm Hw E Hc Hi.
  apply (s_channels O PP m Hn Hwf Hm plen workers Hw todo E c i Hc Hi).
Qed.
Print Assumptions C15_channels.

(** the wrap-up *)
Lemma all_or_one {N} (n workers : nat) (l : nat -> solution N) : (forall i, i < workers -> found n (l i)) ->
  (forall i, i < workers -> is_tour n (snd (l i)) /\ clt (fst (l i)) cinf = true) \/ exists i, i < workers /\ l i = (cinf, []).
Proof.
  induction workers as [|k IH]; intros H; [left; intros; lia|].
  destruct IH as [IH|(i & Hi & E)]; [auto| |right; exists i; auto].
  destruct (H k ltac:(lia)) as [Hk|Hk]; [right; exists k; auto|left]. intros i Hi.
  destruct (Nat.eq_dec i k) as [->|]; [assumption|apply IH; lia].
Qed.

Lemma wrapup_cases {N} (O : NumOrd N) n workers (win : C N * nat) (l : nat -> solution N) : 1 <= n -> 1 <= workers ->
  (forall i, i < workers -> found n (l i) /\ cle (fst win) (fst (l i)) = true) ->
  (win = (cinf, 0) \/ exists i, i < workers /\ snd win = S i /\ fst (l i) = fst win) ->
  let out := wrapup win (repeat 0 n :: map (fun i => snd (l i)) (seq 0 workers)) in
  (out = Panic /\ exists j, j < workers /\ l j = (cinf, [])) \/
  (exists i, i < workers /\ out = Ok (repeat (l i) (S workers)) /\
     forall j, j < workers -> is_tour n (snd (l j)) /\ clt (fst (l j)) cinf = true /\ cle (fst (l i)) (fst (l j)) = true).
Proof.
  intros Hn Hw Hl Hwin out. unfold out. set (paths := _ :: _).
  assert (Hlen : length paths = S workers) by (unfold paths; cbn [length]; rewrite map_length, seq_length; reflexivity).
  destruct (all_or_one n workers l ltac:(intros; apply Hl; assumption)) as [Hall|(j & Hj & Ej)].
  - right. destruct Hwin as [->|(i & Hi & E1 & E2)].
    + exfalso. destruct (Hl 0 ltac:(lia)) as (_ & Hle). cbn [fst] in Hle. destruct (Hall 0 ltac:(lia)) as (_ & Hlt).
      rewrite (ord_lt N O), Hle, andb_false_r in Hlt. discriminate.
    + exists i. split; [assumption|]. split.
      * rewrite <- Hlen. rewrite (surjective_pairing (l i)), E2. apply wrapup_ok.
        -- rewrite E1. unfold paths. apply (nth_paths (repeat 0 n) (fun i => snd (l i))). assumption.
        -- rewrite (tour_length n _ (proj1 (Hall i Hi))). intros p [<-|Hp]; [apply repeat_length|].
           apply in_map_iff in Hp. destruct Hp as (k & <- & Hk). apply in_seq in Hk. apply tour_length. apply Hall. lia.
      * intros j Hj. destruct (Hall j Hj) as [H1 H2]. split; [assumption|]. split; [assumption|]. rewrite E2. apply Hl. assumption.
  - left. split; [|exists j; auto].
    assert (Hin : In (snd (l j)) paths) by (right; apply (in_map (fun i => snd (l i))), in_seq; lia).
    rewrite Ej in Hin. cbn [snd] in Hin.
    destruct Hwin as [->|(i & Hi & E1 & E2)].
    + apply (wrapup_mismatch _ paths (repeat 0 n) []); [reflexivity|assumption|]. rewrite repeat_length. simpl. lia.
    + assert (Hi' : nth_error paths (snd win) = Some (snd (l i))).
      { rewrite E1. apply (nth_paths (repeat 0 n) (fun i => snd (l i))). assumption. }
      destruct (proj1 (Hl i Hi)) as [El|[Ht _]].
      * apply (wrapup_mismatch _ paths (snd (l i)) (repeat 0 n) Hi'); [left; reflexivity|]. rewrite repeat_length, El. simpl. lia.
      * apply (wrapup_mismatch _ paths (snd (l i)) [] Hi'); [assumption|]. rewrite (tour_length n _ Ht). simpl. lia.
Qed.

(** At the end of every run: [local i] is the best (cost, path) worker [i] found and reported
    (or (infinity, [])), [s_winner] what the root broadcasts.  The least reported cost wins.
    Either every worker found a tour, and then all processes return the same solution, the
    one of the winner; or some worker found none, and then the buffers of the final broadcast
    have different lengths. *)
Theorem C15_least_reported_wins : forall (N : Num) (O : NumOrd N) (PP : NumPos N) (m : namatrix N) prefix_length workers todo c,
  1 <= na_dim m -> na_wf m -> nonneg_matrix m -> 1 <= workers < na_dim m ^ prefix_length ->
  static_todo m prefix_length workers = Ok todo -> static_run m workers todo c -> sdone workers c ->
  let local i := local_of (s_worker c i) in
  (forall i, i < workers -> cle (fst (s_winner c)) (fst (local i)) = true) /\
  (s_winner c = (cinf, 0) \/ exists i, i < workers /\ snd (s_winner c) = S i /\ fst (s_winner c) = fst (local i)) /\
  ((wrapup (s_winner c) (static_paths (na_dim m) workers c) = Panic /\ exists j, j < workers /\ local j = (cinf, [])) \/
   (exists i, i < workers /\ wrapup (s_winner c) (static_paths (na_dim m) workers c) = Ok (repeat (local i) (S workers)) /\
      forall j, j < workers -> is_tour (na_dim m) (snd (local j)) /\ clt (fst (local j)) cinf = true /\
        cle (fst (local i)) (fst (local j)) = true)).
Proof.
  intros N O PP m plen workers todo c Hn Hwf Hm Hw E Hc Hd. cbv zeta.
  destruct (s_outcome O PP m Hn Hwf Hm plen workers (proj2 Hw) todo E c Hc Hd) as (H1 & H2 & _).
  split; [intros i Hi; apply H1; assumption|]. split.
  { destruct H2 as [H2|(i & Hi & E1 & E2)]; [left; assumption|right; exists i; auto]. }
  apply (wrapup_cases O (na_dim m) workers (s_winner c) (fun i => local_of (s_worker c i))); try assumption; [lia|].
  intros i Hi. destruct (H1 i Hi) as [[Hf _] Hle]. auto.
Qed.
Print Assumptions C15_least_reported_wins.

(** All processes return the same cost and path, and the path is a tour. *)
Theorem C15_all_ranks_agree : forall (N : Num) (O : NumOrd N) (PP : NumPos N) (m : namatrix N) prefix_length size results,
  1 <= na_dim m -> na_wf m -> nonneg_matrix m -> 2 <= size ->
  static_result m prefix_length size (Ok results) ->
  exists cost path, results = repeat (cost, path) size /\ is_tour (na_dim m) path /\ clt cost cinf = true.
Proof.
  intros N O PP m plen size results Hn Hwf Hm Hsz. unfold static_result.
  destruct (static_todo m plen (size - 1)) as [todo| |] eqn:E; [|discriminate..].
  intros (c & Hc & Hd & Er).
  assert (Hlt : size - 1 < na_dim m ^ plen).
  { destruct (le_lt_dec (na_dim m ^ plen) (size - 1)) as [Hle|]; [|assumption]. exfalso.
    unfold static_todo in E. destruct (size - 1) as [|k] eqn:Ek; [lia|]. cbn [seq mapM] in E.
    rewrite chunk_prefixes_panics in E by (left; assumption). discriminate. }
  destruct (C15_least_reported_wins N O PP m plen (size - 1) todo c Hn Hwf Hm ltac:(lia) E Hc Hd) as (_ & _ & [[H _]|(i & Hi & H & Hall)]);
    rewrite H in Er; [discriminate|].
  assert (Er' : results = repeat (local_of (s_worker c i)) (S (size - 1))) by congruence. rewrite Er'.
  destruct (Hall i Hi) as (H1 & H2 & _). exists (fst (local_of (s_worker c i))), (snd (local_of (s_worker c i))).
  rewrite <- surjective_pairing. replace (S (size - 1)) with size by lia. split; [reflexivity|]. split; assumption.
Qed.
Print Assumptions C15_all_ranks_agree.

(** An executable scheduler: the events of a run in order. *)
Inductive event := Work (i : nat) | Recv (i : nat) | Finish (i : nat) | Root (i : nat) | Barrier.
Definition sdo {N} (m : namatrix N) (workers : nat) (e : event) (c : sconfig N) : option (sconfig N) :=
  let '(mkS w f b st up down) := c in
  match e with
  | Work i => if i <? workers then
      match st i with
      | WRun (p :: todo) local g =>
        match mpi_work m p g with
        | Ok r => Some (mkS w f b (fupd st i (WWait todo (merge local r))) (fupd up i (up i ++ [(fst (merge local r), S i)])) down)
        | _ => None end
      | _ => None end else None
  | Recv i => if i <? workers then
      match st i, down i with
      | WWait todo local, g :: rest => Some (mkS w f b (fupd st i (WRun todo local g)) up (fupd down i rest))
      | _, _ => None end else None
  | Finish i => if i <? workers then
      match st i with
      | WRun [] local g => Some (mkS w f b (fupd st i (WBar local)) (fupd up i (up i ++ [(cneg1, S i)])) down)
      | _ => None end else None
  | Root i => if (f <? workers) && (i <? workers) && negb b then
      match up i with
      | (c, rk) :: rest => Some (if cle c0 c
          then mkS (update_winner w (c, rk)) f false st (fupd up i rest) (fupd down (rk - 1) (down (rk - 1) ++ [fst (update_winner w (c, rk))]))
          else mkS w (S f) false st (fupd up i rest) down)
      | [] => None end else None
  | Barrier => if (workers <=? f) && negb b then Some (mkS w f true st up down) else None
  end.
Lemma sdo_sstep {N} (m : namatrix N) workers e c c' : sdo m workers e c = Some c' -> sstep workers (mpi_work m) c c'.
Proof.
  destruct c as [w f b st up down]. unfold sdo. destruct e as [i|i|i|i|].
  - destruct (Nat.ltb_spec i workers); [|discriminate]. destruct (st i) as [[|p todo] local g|? ?|?] eqn:Es; try discriminate.
    destruct (mpi_work m p g) as [r| |] eqn:Er; try discriminate. intros H1; injection H1 as <-. eapply S_work; eassumption.
  - destruct (Nat.ltb_spec i workers); [|discriminate]. destruct (st i) as [? ? ?|todo local|?] eqn:Es; try discriminate.
    destruct (down i) as [|g rest] eqn:Ed; try discriminate. intros H1; injection H1 as <-. eapply S_recv; eassumption.
  - destruct (Nat.ltb_spec i workers); [|discriminate]. destruct (st i) as [[|? ?] local g|? ?|?] eqn:Es; try discriminate.
    intros H1; injection H1 as <-. eapply S_finish; eassumption.
  - destruct (Nat.ltb_spec f workers); [|discriminate]. destruct (Nat.ltb_spec i workers); [|discriminate]. destruct b; [discriminate|]. cbn [andb negb].
    destruct (up i) as [|[c rk] rest] eqn:Eu; try discriminate. intros H1; injection H1 as <-.
    destruct (cle c0 c) eqn:Ec; [eapply S_root_update|eapply S_root_finish]; eassumption.
  - destruct (Nat.leb_spec workers f); [|discriminate]. destruct b; [discriminate|]. cbn [andb negb]. intros H1; injection H1 as <-. apply S_root_barrier; assumption.
Qed.
Fixpoint sexec {N} (m : namatrix N) (workers : nat) (es : list event) (c : sconfig N) : option (sconfig N) :=
  match es with [] => Some c | e :: es => match sdo m workers e c with Some c' => sexec m workers es c' | None => None end end.
Lemma steps_trans {A} (R : A -> A -> Prop) a b c : steps R a b -> steps R b c -> steps R a c.
Proof. intros H1 H2. induction H2 as [|b b' b'' H2 IH Hs]; [assumption|]. apply (steps_step R a b'); auto. Qed.
Lemma sexec_steps {N} (m : namatrix N) workers es : forall c c', sexec m workers es c = Some c' -> steps (sstep workers (mpi_work m)) c c'.
Proof.
  induction es as [|e es IH]; intros c c' H; simpl in H; [injection H as <-; apply steps_refl|].
  destruct (sdo m workers e c) as [c1|] eqn:E; [|discriminate]. apply sdo_sstep in E.
  apply (steps_trans _ c c1); [apply (steps_step _ _ c); [apply steps_refl|assumption]|auto].
Qed.
(** worker [i] does all its [k] prefixes and finishes *)
Definition alone (i k : nat) : list event := concat (repeat [Work i; Root i; Recv i] k) ++ [Finish i; Root i].

(** n = 4, two workers with twelve prefixes each *)
Definition C15_m := int_matrix 4 ex_sym.
Definition C15_show (c : option (sconfig EZ)) :=
  match c with Some c => Some (s_winner c, static_paths 4 2 c, wrapup (s_winner c) (static_paths 4 2 c)) | None => None end.
Example C15_applies : nonneg_matrix C15_m /\ na_wf C15_m /\
  exists todo, static_todo C15_m 3 2 = Ok todo /\ map (@length _) todo = [12; 12] /\
  exists c c', static_run C15_m 2 todo c /\ static_run C15_m 2 todo c' /\
    C15_show (Some c) = Some ((Fin 10%Z : C EZ, 1), [[0;0;0;0]; [0;1;3;2]; [2;0;1;3]], Ok (repeat (Fin 10%Z : C EZ, [0;1;3;2]) 3)) /\
    C15_show (Some c') = Some ((Fin 10%Z : C EZ, 2), [[0;0;0;0]; [0;1;3;2]; [2;0;1;3]], Ok (repeat (Fin 10%Z : C EZ, [2;0;1;3]) 3)).
Proof.
  split.
  { intros i j x H. unfold C15_m, int_matrix, na_get in H. cbn [na_dim matrix_of] in H.
    destruct (Nat.ltb_spec i 4); [|discriminate]. destruct (Nat.ltb_spec j 4); [|discriminate]. cbn [andb] in H.
    do 4 (destruct i as [|i]; [do 4 (destruct j as [|j]; [vm_compute in H; injection H as <-; right; reflexivity|]); lia|]). lia. }
  split; [apply matrix_of_wf|].
  destruct (static_todo C15_m 3 2) as [todo| |] eqn:E;
    [|exfalso; destruct (static_todo_Ok C15_m ltac:(simpl; lia) 3 2 ltac:(simpl; lia)) as (? & E' & _); rewrite E in E'; discriminate..].
  exists todo. split; [reflexivity|].
  assert (G : forall es, C15_show (match static_todo C15_m 3 2 with Ok todo => sexec C15_m 2 es (sinit (fun i => nth i todo [])) | _ => None end) <> None ->
    exists c, static_run C15_m 2 todo c /\ C15_show (Some c) = C15_show (match static_todo C15_m 3 2 with Ok todo => sexec C15_m 2 es (sinit (fun i => nth i todo [])) | _ => None end)).
  { intros es. rewrite E. destruct (sexec C15_m 2 es _) as [c|] eqn:Ec; [|intros H; exfalso; apply H; reflexivity]. intros _.
    exists c. split; [apply (sexec_steps _ _ _ _ _ Ec)|reflexivity]. }
  split.
  { assert (H : match static_todo C15_m 3 2 with Ok todo => map (@length _) todo | _ => [] end = [12; 12]) by (vm_compute; reflexivity).
    rewrite E in H. assumption. }
  assert (S1 : C15_show (match static_todo C15_m 3 2 with Ok todo => sexec C15_m 2 (alone 0 12 ++ alone 1 12 ++ [Barrier]) (sinit (fun i => nth i todo [])) | _ => None end) =
    Some ((Fin 10%Z : C EZ, 1), [[0;0;0;0]; [0;1;3;2]; [2;0;1;3]], Ok (repeat (Fin 10%Z : C EZ, [0;1;3;2]) 3))) by (vm_compute; reflexivity).
  assert (S2 : C15_show (match static_todo C15_m 3 2 with Ok todo => sexec C15_m 2 (alone 1 12 ++ alone 0 12 ++ [Barrier]) (sinit (fun i => nth i todo [])) | _ => None end) =
    Some ((Fin 10%Z : C EZ, 2), [[0;0;0;0]; [0;1;3;2]; [2;0;1;3]], Ok (repeat (Fin 10%Z : C EZ, [2;0;1;3]) 3))) by (vm_compute; reflexivity).
  destruct (G (alone 0 12 ++ alone 1 12 ++ [Barrier])) as (c & Hc & Ec); [rewrite S1; discriminate|].
  destruct (G (alone 1 12 ++ alone 0 12 ++ [Barrier])) as (c' & Hc' & Ec'); [rewrite S2; discriminate|].
  exists c, c'. rewrite Ec, Ec', S1, S2. auto.
Qed.

(** A tour of negative cost is taken for the end of its worker: the root leaves its loop, the
    worker waits for an answer that never comes. *)
Theorem C15_negative_costs_refuted : exists w todo c,
  static_todo (int_matrix 3 w) 3 1 = Ok todo /\ static_run (int_matrix 3 w) 1 todo c /\
  ~ sdone 1 c /\ ~ exists c', sstep 1 (mpi_work (int_matrix 3 w)) c c'.
Proof.
  exists (fun _ _ => (-1)%Z). set (m := int_matrix 3 _).
  destruct (static_todo m 3 1) as [todo| |] eqn:E;
    [|exfalso; destruct (static_todo_Ok m ltac:(simpl; lia) 3 1 ltac:(simpl; lia)) as (? & E' & _); rewrite E in E'; discriminate..].
  assert (S1 : match static_todo m 3 1 with Ok todo =>
      match sexec m 1 [Work 0; Root 0; Barrier] (sinit (fun i => nth i todo [])) with
      | Some c => Some (s_barrier c, match s_worker c 0 with WWait _ _ => true | _ => false end, s_down c 0)
      | None => None end | _ => None end = Some (true, true, [])) by (vm_compute; reflexivity).
  rewrite E in S1. destruct (sexec m 1 _ _) as [c|] eqn:Ec; [|discriminate]. apply sexec_steps in Ec.
  injection S1 as H1 H2 H3. exists todo, c. split; [reflexivity|]. split; [assumption|]. clear Ec E. clearbody m.
  destruct (s_worker c 0) as [l1 l2 l3|l1 l2|l1] eqn:Es; [discriminate H2| |discriminate H2]. split.
  - intros [_ Hd]. destruct (Hd 0 ltac:(lia)) as (l & El). congruence.
  - intros (c' & Hs). inversion Hs; subst; cbn [s_barrier s_worker s_down] in *; try discriminate H1;
      assert (i = 0) by lia; subst i; congruence.
Qed.
Print Assumptions C15_negative_costs_refuted.

(** ** C16.  Up to as many workers as vertices, every interleaving. *)
Lemma int_nonneg n w : nonneg w n -> nonneg_matrix (int_matrix n w).
Proof.
  intros H i j x Hx. unfold na_get in Hx. change (na_dim (int_matrix n w)) with n in Hx.
  destruct (Nat.ltb_spec i n); [|discriminate]. destruct (Nat.ltb_spec j n); [|discriminate].
  assert (E : na_get (int_matrix n w) i j = Ok (Fin (w i j) : C EZ)) by (apply matrix_of_get; assumption).
  unfold na_get in E. change (na_dim (int_matrix n w)) with n in E.
  destruct (Nat.ltb_spec i n); [|lia]. destruct (Nat.ltb_spec j n); [|lia].
  rewrite Hx in E. injection E as ->. apply ez_nn_fin. apply H; assumption.
Qed.

Theorem C16_static_factor_two : forall n w size, 3 <= n -> 2 <= size <= n + 1 -> symmetric w n -> nonneg w n ->
  (exists out, static_result (int_matrix n w) 3 size out) /\
  forall out, static_result (int_matrix n w) 3 size out ->
    exists c p, out = Ok (repeat (Fin c : C EZ, p) size) /\ is_tour n p /\ tour_cost w p = c /\
      forall q, is_tour n q -> (c <= 2 * tour_cost w q)%Z.
Proof.
  intros n w size Hn Hsz Hs Hnn. destruct (EZ_bound 3 w n ltac:(lia)) as (W & B & HW & H0 & HB).
  set (m := int_matrix n w). set (k := size - 1).
  assert (Hk : k < na_dim m ^ 3) by (change (na_dim m) with n; rewrite pow3; unfold k; nia).
  destruct (static_todo_Ok m ltac:(change (na_dim m) with n; lia) 3 k Hk) as (todo & Et & _).
  unfold static_result. fold k. rewrite Et. split.
  - destruct (s_finishes EZ_ord EZ_pos m ltac:(change (na_dim m) with n; lia) (matrix_of_wf n _) (int_nonneg n w Hnn) 3 k Hk todo Et
      _ (steps_refl _ _)) as (c & H1 & H2).
    eexists. exists c. split; [exact H1|]. split; [exact H2|reflexivity].
  - intros out (c & H1 & H2 & ->).
    destruct (static_factor (EZ_exact B) EZ_ord m (matrix_of_wf n _) w W Hn (emb_represents (EZ_exact B) n w) HW HB Hnn k
      ltac:(unfold k; lia) Hk todo Et c ltac:(change (na_dim m) with n; unfold k; lia) H1 H2) as (p & E & Hp & Hq).
    exists (tour_cost w p), p. replace size with (S k) by (unfold k; lia). split; [exact E|]. split; [assumption|]. split; [reflexivity|].
    apply Hq. assumption.
Qed.
Print Assumptions C16_static_factor_two.

Theorem C16_static_factor_two_f64 : forall e n w W size, (-1074 <= e <= 970)%Z -> 3 <= n -> 2 <= size <= n + 1 ->
  symmetric w n -> nonneg w n -> bounded w n W -> (3 * W * (Z.of_nat n + 1) <= 2 ^ 53)%Z ->
  forall out, static_result (f64_matrix e n w) 3 size out ->
    exists c p, out = Ok (repeat (b64_inj e c : C B64, p) size) /\ is_tour n p /\ tour_cost w p = c /\
      forall q, is_tour n q -> (c <= 2 * tour_cost w q)%Z.
Proof.
  intros e n w W size He Hn Hsz Hs Hnn HW HB out.
  set (m := f64_matrix e n w). set (k := size - 1).
  assert (Hk : k < na_dim m ^ 3) by (change (na_dim m) with n; rewrite pow3; unfold k; nia).
  destruct (static_todo_Ok m ltac:(change (na_dim m) with n; lia) 3 k Hk) as (todo & Et & _).
  unfold static_result. fold k. rewrite Et. intros (c & H1 & H2 & ->).
  destruct (static_factor (B64_exact e He) B64_ord m (matrix_of_wf n _) w W Hn (emb_represents (B64_exact e He) n w) HW HB Hnn k
      ltac:(unfold k; lia) Hk todo Et c ltac:(change (na_dim m) with n; unfold k; lia) H1 H2) as (p & E & Hp & Hq).
  exists (tour_cost w p), p. replace size with (S k) by (unfold k; lia). split; [exact E|]. split; [assumption|]. split; [reflexivity|].
  apply Hq. assumption.
Qed.
Print Assumptions C16_static_factor_two_f64.

Example C16_applies : symmetric ex_sym 4 /\ nonneg ex_sym 4 /\ 2 <= 3 <= 4 + 1.
Proof. concrete; lia. Qed.

(** a worker without prefixes keeps its empty path *)
Lemma idle_worker {N} (m : namatrix N) workers todo c i : nth i todo [] = [] -> static_run m workers todo c ->
  local_of (s_worker c i) = (cinf, []).
Proof.
  intros E H.
  assert (G : (exists g, s_worker c i = WRun [] (cinf, []) g) \/ s_worker c i = WBar (cinf, [])).
  { unfold static_run in H. remember (sinit (fun i => nth i todo [])) as c0 eqn:E0.
    induction H as [c|c c' c'' H IH Hs]; [left; exists cinf; rewrite E0; cbn; rewrite E; reflexivity|].
    specialize (IH E0). inversion Hs; subst; cbn [s_worker] in *; try assumption;
      unfold fupd; (destruct (Nat.eqb_spec i i0) as [->|]; [|assumption]).
    - destruct IH as [(g' & IH)|IH]; congruence.
    - destruct IH as [(g' & IH)|IH]; congruence.
    - destruct IH as [(g' & IH)|IH]; right; congruence. }
  destruct G as [(g & ->)| ->]; reflexivity.
Qed.

(** With more workers than vertices a worker may have nothing to do: three vertices, five
    processes (four workers), any costs, any interleaving: the final broadcast fails. *)
Theorem C16_more_workers_refuted : forall w out, nonneg w 3 -> static_result (int_matrix 3 w) 3 5 out -> out = Panic.
Proof.
  intros w out Hnn. unfold static_result. change (5 - 1) with 4. set (m := int_matrix 3 w).
  destruct (static_todo m 3 4) as [todo| |] eqn:E; [|auto..]. intros (c & Hc & Hd & ->).
  assert (E0 : match static_todo m 3 4 with Ok todo => nth 0 todo [] | _ => [[1]] end = []) by (vm_compute; reflexivity).
  rewrite E in E0. pose proof (idle_worker m 4 todo c 0 E0 Hc) as H0.
  destruct (C15_least_reported_wins EZ EZ_ord EZ_pos m 3 4 todo c ltac:(simpl; lia) (matrix_of_wf 3 _) (int_nonneg 3 w Hnn) ltac:(simpl; lia) E Hc Hd)
    as (_ & _ & [[H _]|(i & _ & _ & H)]); [exact H|].
  exfalso. destruct (H 0 ltac:(lia)) as (H1 & _). rewrite H0 in H1. apply (tour_length (na_dim m)) in H1. discriminate.
Qed.
Print Assumptions C16_more_workers_refuted.

(** Two vertices: no prefix of three distinct vertices exists. *)
Theorem C16_two_vertices_refuted : forall w out, nonneg w 2 -> static_result (int_matrix 2 w) 3 2 out -> out = Panic.
Proof.
  intros w out Hnn. unfold static_result. change (2 - 1) with 1. set (m := int_matrix 2 w).
  destruct (static_todo m 3 1) as [todo| |] eqn:E; [|auto..]. intros (c & Hc & Hd & ->).
  assert (E0 : match static_todo m 3 1 with Ok todo => nth 0 todo [] | _ => [[1]] end = []) by (vm_compute; reflexivity).
  rewrite E in E0. pose proof (idle_worker m 1 todo c 0 E0 Hc) as H0.
  destruct (C15_least_reported_wins EZ EZ_ord EZ_pos m 3 1 todo c ltac:(simpl; lia) (matrix_of_wf 2 _) (int_nonneg 2 w Hnn) ltac:(simpl; lia) E Hc Hd)
    as (_ & _ & [[H _]|(i & _ & _ & H)]); [exact H|].
  exfalso. destruct (H 0 ltac:(lia)) as (H1 & _). rewrite H0 in H1. apply (tour_length (na_dim m)) in H1. discriminate.
Qed.
Print Assumptions C16_two_vertices_refuted.

(** A single process: nobody works, the answer is (infinity, zeros). *)
Theorem C16_single_process_refuted : forall n w out, static_result (int_matrix n w) 3 1 out ->
  out = Ok [(PInf : C EZ, repeat 0 n)].
Proof.
  intros n w out. unfold static_result. change (1 - 1) with 0. cbn [static_todo seq mapM].
  change (static_todo (int_matrix n w) 3 0) with (Ok (@nil (list (list nat)))). cbv iota.
  intros (c & Hc & _ & ->).
  assert (Hwin : s_winner c = (cinf, 0)).
  { remember (sinit (fun i => nth i [] [])) as c0 eqn:E0. induction Hc as [c|c c' c'' H IH Hs]; [rewrite E0; reflexivity|].
    specialize (IH E0). inversion Hs; subst; cbn [s_winner] in *; try assumption; lia. }
  rewrite Hwin. unfold static_paths. cbn [seq map]. change (na_dim (int_matrix n w)) with n.
  rewrite (wrapup_ok _ _ (repeat 0 n)); [reflexivity|reflexivity|]. intros p [<-|[]]. reflexivity.
Qed.
Print Assumptions C16_single_process_refuted.

(** As many workers as keys, or more: they panic in the split. *)
Theorem C16_too_many_workers_panic : forall (N : Num) (m : namatrix N) prefix_length size out,
  2 <= size -> na_dim m ^ prefix_length <= size - 1 -> static_result m prefix_length size out -> out = Panic.
Proof.
  intros N m plen size out H1 H2. unfold static_result, static_todo. destruct (size - 1) as [|k] eqn:Ek; [lia|].
  cbn [seq mapM]. rewrite chunk_prefixes_panics by (left; assumption). cbn [bind]. auto.
Qed.
Print Assumptions C16_too_many_workers_panic.

(** Which numbers of workers leave nobody without a prefix, exactly: a worker gets the
    prefixes strictly between the ends of its chunk of [n^3 / t] keys, the least one is the key
    [n + 2] ([0;1;2]) and the greatest one [n^3 - n - 3]. *)
Definition enough_prefixes (n t : nat) : Prop :=
  t * (n + 4) <= n ^ 3 \/ (n ^ 3 < 2 * t /\ t + n + 3 <= n ^ 3).

(** Otherwise every run, on every table of costs in every ordered arithmetic, panics. *)
Theorem C16_idle_worker_panics : forall (N : Num) (O : NumOrd N) (PP : NumPos N) (m : namatrix N) size,
  3 <= na_dim m -> na_wf m -> nonneg_matrix m -> 2 <= size -> ~ enough_prefixes (na_dim m) (size - 1) ->
  forall out, static_result m 3 size out -> out = Panic.
Proof.
  intros N O PP m size Hn Hwf Hm Hsz Hno out Ho. set (t := size - 1) in *.
  destruct (le_lt_dec (na_dim m ^ 3) t) as [Hbig|Hlt]; [apply (C16_too_many_workers_panic N m 3 size out Hsz Hbig Ho)|].
  destruct (idle_chunk (na_dim m) t Hn ltac:(unfold t; lia) Hlt Hno) as (i & Hi & Ei).
  destruct (static_todo_Ok m ltac:(lia) 3 t Hlt) as (todo & Et & _ & Hch). destruct (Hch i Hi) as [Ec _]. rewrite Ei in Ec.
  assert (E0 : nth i todo [] = []) by congruence. clear Ec.
  unfold static_result in Ho. fold t in Ho. rewrite Et in Ho. destruct Ho as (c & Hc & Hd & ->).
  pose proof (idle_worker m t todo c i E0 Hc) as H0.
  destruct (C15_least_reported_wins N O PP m 3 t todo c ltac:(lia) Hwf Hm ltac:(unfold t in *; lia) Et Hc Hd)
    as (_ & _ & [[H _]|(j & _ & _ & H)]); [exact H|].
  exfalso. destruct (H i Hi) as (H1 & _). rewrite H0 in H1. apply (tour_length (na_dim m)) in H1. cbn in H1. lia.
Qed.
Print Assumptions C16_idle_worker_panics.

(** Although the chunks drop their first and last key and the keys past the last chunk, no tour is
    lost: read from one of its cities in one of the two directions, it begins with a prefix that
    some worker has. *)
Theorem C16_every_tour_covered : forall n t q, 3 <= n -> 1 <= t -> enough_prefixes n t -> is_tour n q ->
  exists k prefixes p x y rest, k < t /\ chunk_prefixes 3 n t k = Ok prefixes /\ In p prefixes /\
    (q = x ++ y \/ rev q = x ++ y) /\ y ++ x = p ++ rest.
Proof.
  intros n t q Hn Ht Hen Hq. destruct (busy_seen n t q Hn Ht Hen Hq) as (j & p & x & y & rest & Hj & Hxy & _ & (l & El & Hin) & Er).
  exists j, l, p, x, y, rest. auto 8.
Qed.
Print Assumptions C16_every_tour_covered.

(** five cities and ten workers, chunks of 12 keys: the tour 0 2 1 4 3 loses six of its ten prefixes *)
Example C16_every_tour_covered_applies : enough_prefixes 5 10 /\ is_tour 5 [0; 2; 1; 4; 3].
Proof. split; [unfold enough_prefixes; change (5 ^ 3) with 125; lia|]. concrete. Qed.

Section Exactly.
Context {N : Num} {B : Z} (E : Exact N B) (O : NumOrd N).
Variables (m : namatrix N) (w : nat -> nat -> Z) (W : Z).
Notation n := (na_dim m).
Hypothesis Hwf : na_wf m.
Hypothesis Hn : 3 <= n.
Hypothesis Hrep : represents E (na_adj m) w.
Hypothesis HW : bounded w n W.
Hypothesis HB : (3 * W * (Z.of_nat n + 1) <= B)%Z.
Hypothesis Hnn : nonneg w n.

Lemma returns_when_enough size : 2 <= size -> enough_prefixes n (size - 1) ->
  forall out, static_result m 3 size out ->
  exists p, out = Ok (repeat (inj E (tour_cost w p), p) size) /\ is_tour n p /\
    (symmetric w n -> forall q, is_tour n q -> (tour_cost w p <= 2 * tour_cost w q)%Z).
Proof.
  intros Hsz Hen out Ho. set (t := size - 1) in *. assert (Ht : 1 <= t) by (unfold t; lia).
  pose proof (busy_lt n t Hen Ht) as Hlt.
  destruct (static_todo_Ok m ltac:(lia) 3 t Hlt) as (todo & Et & _ & Hch).
  unfold static_result in Ho. fold t in Ho. rewrite Et in Ho. destruct Ho as (c & Hc & Hd & ->).
  destruct (static_genuine E O m Hwf w W Hn Hrep HW HB Hnn t Ht Hlt todo Et c) as (p & E1 & Hp & Hq); [|assumption|assumption|].
  { intros i Hi. destruct (Hch i Hi) as [Ec _]. apply (busy_chunks n t i _ Hn Ht Hen Hi Ec). }
  exists p. replace size with (S t) by (unfold t; lia). split; [exact E1|]. split; [exact Hp|].
  intros Hs q Ht'.
  destruct (busy_seen n t q Hn Ht Hen Ht') as (j & pre & x & y & rest & Hj & Hxy & Hrot & (l & El & Hin) & Erest).
  destruct (Hch j Hj) as (Ec & _). assert (l = nth j todo []) by congruence. subst l.
  destruct Hxy as [Eq|Eq].
  - apply (Hq Hs q Ht'). exists j, pre, x, y, rest. auto.
  - rewrite <- (tour_cost_rev w n q Hs (tour_Forall _ _ Ht')).
    apply (Hq Hs (rev q) (tour_rev n q Ht')). exists j, pre, x, y, rest. auto.
Qed.
End Exactly.

(** The static solver, exactly: with enough prefixes every run returns one and the same genuine
    tour with its cost on every process, at most twice the least cost of any tour, otherwise every
    run panics. *)
Theorem C16_exactly : forall n w size, 3 <= n -> 2 <= size -> symmetric w n -> nonneg w n ->
  (exists out, static_result (int_matrix n w) 3 size out) /\
  forall out, static_result (int_matrix n w) 3 size out ->
    (enough_prefixes n (size - 1) -> exists c p, out = Ok (repeat (Fin c : C EZ, p) size) /\ is_tour n p /\ tour_cost w p = c /\
      forall q, is_tour n q -> (c <= 2 * tour_cost w q)%Z) /\
    (~ enough_prefixes n (size - 1) -> out = Panic).
Proof.
  intros n w size Hn Hsz Hs Hnn. destruct (EZ_bound 3 w n ltac:(lia)) as (W & B & HW & H0 & HB).
  set (m := int_matrix n w). split.
  - unfold static_result. destruct (static_todo m 3 (size - 1)) as [todo| |] eqn:Et; [|exists Panic; reflexivity..].
    destruct (le_lt_dec (na_dim m ^ 3) (size - 1)) as [Hbig|Hlt].
    + exfalso. revert Et. unfold static_todo. destruct (size - 1) as [|k] eqn:Ek; [lia|].
      cbn [seq mapM]. rewrite chunk_prefixes_panics by (left; assumption). cbn [bind]. discriminate.
    + destruct (s_finishes EZ_ord EZ_pos m ltac:(change (na_dim m) with n; lia) (matrix_of_wf n _) (int_nonneg n w Hnn) 3 (size - 1) Hlt todo Et
        _ (steps_refl _ _)) as (c & H1 & H2).
      eexists. exists c. split; [exact H1|]. split; [exact H2|reflexivity].
  - intros out Ho. split.
    + intros Hen.
      destruct (returns_when_enough (EZ_exact B) EZ_ord m w W (matrix_of_wf n _) Hn (emb_represents (EZ_exact B) n w) HW HB Hnn size Hsz Hen out Ho)
        as (p & E & Hp & Hq).
      exists (tour_cost w p), p. split; [exact E|]. split; [assumption|]. split; [reflexivity|]. exact (Hq Hs).
    + intros Hno. apply (C16_idle_worker_panics EZ EZ_ord EZ_pos m size Hn (matrix_of_wf n _) (int_nonneg n w Hnn) Hsz Hno out Ho).
Qed.
Print Assumptions C16_exactly.

Theorem C16_exactly_f64 : forall e n w W size, (-1074 <= e <= 970)%Z -> 3 <= n -> 2 <= size ->
  symmetric w n -> nonneg w n -> bounded w n W -> (3 * W * (Z.of_nat n + 1) <= 2 ^ 53)%Z -> enough_prefixes n (size - 1) ->
  forall out, static_result (f64_matrix e n w) 3 size out ->
    exists c p, out = Ok (repeat (b64_inj e c : C B64, p) size) /\ is_tour n p /\ tour_cost w p = c /\
      forall q, is_tour n q -> (c <= 2 * tour_cost w q)%Z.
Proof.
  intros e n w W size He Hn Hsz Hs Hnn HW HB Hen out Ho.
  destruct (returns_when_enough (B64_exact e He) B64_ord (f64_matrix e n w) w W (matrix_of_wf n _) Hn (emb_represents (B64_exact e He) n w) HW HB Hnn size Hsz Hen out Ho)
    as (p & E & Hp & Hq).
  exists (tour_cost w p), p. split; [exact E|]. split; [assumption|]. split; [reflexivity|]. exact (Hq Hs).
Qed.
Print Assumptions C16_exactly_f64.

(** three cities: up to three workers, then 14 to 21; four to thirteen and 22 on panic *)
Example C16_exactly_applies : symmetric ex_sym 3 /\ nonneg ex_sym 3 /\ enough_prefixes 3 3 /\ enough_prefixes 3 14 /\ enough_prefixes 3 21 /\
  ~ enough_prefixes 3 4 /\ ~ enough_prefixes 3 13 /\ ~ enough_prefixes 3 22.
Proof. split; [concrete|]. split; [concrete|]. unfold enough_prefixes. change (3 ^ 3) with 27. lia. Qed.

(** ** C17.  At least four vertices. *)
Lemma dynamic_ok {N} (O : NumOrd N) (PP : NumPos N) (m : namatrix N) : 4 <= na_dim m -> na_wf m -> nonneg_matrix m ->
  exists stream, follows (na_dim m) (Some [1; 2; 3]) stream /\ NoDup stream /\
    (forall u, In u stream <-> key3 (na_dim m) u /\ number (na_dim m) [1; 2; 3] <= number (na_dim m) u) /\
    (forall u, In u stream -> zeros u = false) /\
    (forall p g, In p stream -> Q (sound (na_dim m)) g -> exists r, mpi_work m p g = Ok r /\ sound (na_dim m) r).
Proof.
  intros Hn Hwf Hm. destruct (dynamic_stream (na_dim m) Hn) as (L & H1 & H2 & H3 & H4).
  exists L. repeat (split; [assumption|]). intros p g Hp _. apply H3 in Hp. destruct Hp as ((_ & P1 & P2) & _).
  apply (mpi_work_sound O PP); try assumption. lia.
Qed.

Theorem C17_no_deadlock : forall (N : Num) (O : NumOrd N) (PP : NumPos N) (m : namatrix N) workers,
  4 <= na_dim m -> na_wf m -> nonneg_matrix m ->
  forall c, dynamic_run m workers c -> ddone workers c \/ exists c', dstep workers (na_dim m) (mpi_work m) c c'.
Proof.
  intros N O PP m workers Hn Hwf Hm. destruct (dynamic_ok O PP m Hn Hwf Hm) as (L & H1 & H2 & H3 & H4 & H5).
  apply (dynamic_progress O workers (na_dim m) (mpi_work m) L H1 H4 (sound (na_dim m)) (sound_init O _) (sound_nonneg m) H5).
Qed.
Print Assumptions C17_no_deadlock.

Theorem C17_no_worker_panics : forall (N : Num) (O : NumOrd N) (PP : NumPos N) (m : namatrix N) workers c i h local p g,
  4 <= na_dim m -> na_wf m -> nonneg_matrix m -> dynamic_run m workers c -> i < workers ->
  d_worker c i = DWork h local p g -> exists s, mpi_work m p g = Ok s.
Proof.
  intros N O PP m workers c i h local p g Hn Hwf Hm Hc Hi Est. destruct (dynamic_ok O PP m Hn Hwf Hm) as (L & H1 & H2 & H3 & H4 & H5).
  exact (dynamic_work_ok O workers (na_dim m) (mpi_work m) L H1 H4 (sound (na_dim m)) (sound_init O _) (sound_nonneg m) H5 c i h local p g Hc Hi Est).
Qed.
Print Assumptions C17_no_worker_panics.

Theorem C17_no_infinite_run : forall (N : Num) (O : NumOrd N) (PP : NumPos N) (m : namatrix N) workers,
  4 <= na_dim m -> na_wf m -> nonneg_matrix m ->
  ~ exists f : nat -> dconfig N, f 0 = dinit /\ forall k, dstep workers (na_dim m) (mpi_work m) (f k) (f (S k)).
Proof.
  intros N O PP m workers Hn Hwf Hm (f & H0 & Hf). destruct (dynamic_ok O PP m Hn Hwf Hm) as (L & H1 & H2 & H3 & H4 & H5).
  apply (no_infinite_run (dstep workers (na_dim m) (mpi_work m)) (dmeasure workers L) (dynamic_run m workers) f); [|rewrite H0; apply steps_refl|assumption].
  intros c c' Hc Hs. split; [apply (steps_step _ _ c); assumption|].
  apply (dynamic_measure O workers (na_dim m) (mpi_work m) L H1 H4 (sound (na_dim m)) (sound_init O _) (sound_nonneg m) H5 c c' Hc Hs).
Qed.
Print Assumptions C17_no_infinite_run.

Theorem C17_channels : forall (N : Num) (O : NumOrd N) (PP : NumPos N) (m : namatrix N) workers c i,
  4 <= na_dim m -> na_wf m -> nonneg_matrix m -> dynamic_run m workers c -> i < workers ->
  length (d_up c i) + length (d_down c i) <= 1.
Proof.
  intros N O PP m workers c i Hn Hwf Hm Hc Hi. destruct (dynamic_ok O PP m Hn Hwf Hm) as (L & H1 & H2 & H3 & H4 & H5).
  apply (dynamic_channels O workers (na_dim m) (mpi_work m) L H1 H4 (sound (na_dim m)) (sound_init O _) (sound_nonneg m) H5 c i Hc Hi).
Qed.
Print Assumptions C17_channels.

(** At the end every list of three distinct vertices from [1;2;3] on (in the order of the
    numbers they write) has been given to exactly one worker, exactly once, and nothing else
    has been given to any. *)
Theorem C17_each_prefix_once : forall (N : Num) (O : NumOrd N) (PP : NumPos N) (m : namatrix N) workers c,
  4 <= na_dim m -> na_wf m -> nonneg_matrix m -> 1 <= workers -> dynamic_run m workers c -> ddone workers c ->
  let n := na_dim m in
  let given := flat_map (fun i => handed_of (d_worker c i)) (seq 0 workers) in
  NoDup given /\
  forall u, In u given <-> length u = 3 /\ Forall (fun d => d < n) u /\ NoDup u /\ number n [1; 2; 3] <= number n u.
Proof.
  intros N O PP m workers c Hn Hwf Hm Hw Hc Hd. cbv zeta. destruct (dynamic_ok O PP m Hn Hwf Hm) as (L & H1 & H2 & H3 & H4 & H5).
  destruct (dynamic_outcome O workers (na_dim m) (mpi_work m) L H1 H4 (sound (na_dim m)) (sound_init O _) (sound_nonneg m) H5 c Hw Hc Hd)
    as (_ & _ & _ & HP).
  split; [apply (Permutation_NoDup HP H2)|].
  intros u. split.
  - intros Hu. apply (Permutation_in _ (Permutation_sym HP)) in Hu. apply H3 in Hu. destruct Hu as ((U1 & U2 & U3) & U4). auto.
  - intros (U1 & U2 & U3 & U4). apply (Permutation_in _ HP). apply H3. split; [split; auto|assumption].
Qed.
Print Assumptions C17_each_prefix_once.

Theorem C17_least_reported_wins : forall (N : Num) (O : NumOrd N) (PP : NumPos N) (m : namatrix N) workers c,
  4 <= na_dim m -> na_wf m -> nonneg_matrix m -> 1 <= workers -> dynamic_run m workers c -> ddone workers c ->
  let local i := dlocal_of (d_worker c i) in
  (forall i, i < workers -> cle (fst (d_winner c)) (fst (local i)) = true) /\
  (d_winner c = (cinf, 0) \/ exists i, i < workers /\ snd (d_winner c) = S i /\ fst (d_winner c) = fst (local i)) /\
  ((wrapup (d_winner c) (dynamic_paths (na_dim m) workers c) = Panic /\ exists j, j < workers /\ local j = (cinf, [])) \/
   (exists i, i < workers /\ wrapup (d_winner c) (dynamic_paths (na_dim m) workers c) = Ok (repeat (local i) (S workers)) /\
      forall j, j < workers -> is_tour (na_dim m) (snd (local j)) /\ clt (fst (local j)) cinf = true /\
        cle (fst (local i)) (fst (local j)) = true)).
Proof.
  intros N O PP m workers c Hn Hwf Hm Hw Hc Hd. cbv zeta. destruct (dynamic_ok O PP m Hn Hwf Hm) as (L & H1 & H2 & H3 & H4 & H5).
  destruct (dynamic_outcome O workers (na_dim m) (mpi_work m) L H1 H4 (sound (na_dim m)) (sound_init O _) (sound_nonneg m) H5 c Hw Hc Hd)
    as (G1 & G2 & _).
  split; [intros i Hi; apply G1; assumption|]. split.
  { destruct G2 as [G2|(i & Hi & E1 & E2)]; [left; assumption|right; exists i; auto]. }
  apply (wrapup_cases O (na_dim m) workers (d_winner c) (fun i => dlocal_of (d_worker c i))); try assumption; [lia|].
  intros i Hi. destruct (G1 i Hi) as [[Hf _] Hle]. auto.
Qed.
Print Assumptions C17_least_reported_wins.

Theorem C17_all_ranks_agree : forall (N : Num) (O : NumOrd N) (PP : NumPos N) (m : namatrix N) size results,
  4 <= na_dim m -> na_wf m -> nonneg_matrix m -> 2 <= size -> dynamic_result m size (Ok results) ->
  exists cost path, results = repeat (cost, path) size /\ is_tour (na_dim m) path /\ clt cost cinf = true.
Proof.
  intros N O PP m size results Hn Hwf Hm Hsz (c & Hc & Hd & Er).
  destruct (C17_least_reported_wins N O PP m (size - 1) c Hn Hwf Hm ltac:(lia) Hc Hd) as (_ & _ & [[H _]|(i & Hi & H & Hall)]);
    rewrite H in Er; [discriminate|].
  assert (Er' : results = repeat (dlocal_of (d_worker c i)) (S (size - 1))) by congruence. rewrite Er'.
  destruct (Hall i Hi) as (H1 & H2 & _). exists (fst (dlocal_of (d_worker c i))), (snd (dlocal_of (d_worker c i))).
  rewrite <- surjective_pairing. replace (S (size - 1)) with size by lia. auto.
Qed.
Print Assumptions C17_all_ranks_agree.

(** The cost the root announces is that of a tour some worker holds, and at most twice the
    optimum; the returned solutions are this one, unless the final broadcast fails. *)
Theorem C17_dynamic_factor_two : forall n w size, 4 <= n -> 2 <= size -> symmetric w n -> nonneg w n ->
  forall c, dynamic_run (int_matrix n w) (size - 1) c -> ddone (size - 1) c ->
  exists cost i p, i < size - 1 /\ d_winner c = (Fin cost : C EZ, S i) /\ dlocal_of (d_worker c i) = (Fin cost : C EZ, p) /\
    is_tour n p /\ tour_cost w p = cost /\ (forall q, is_tour n q -> (cost <= 2 * tour_cost w q)%Z) /\
    (wrapup (d_winner c) (dynamic_paths n (size - 1) c) = Panic \/
     wrapup (d_winner c) (dynamic_paths n (size - 1) c) = Ok (repeat (Fin cost : C EZ, p) size)).
Proof.
  intros n w size Hn Hsz Hs Hnn c Hc Hd. destruct (EZ_bound 3 w n ltac:(lia)) as (W & B & HW & H0 & HB).
  destruct (dynamic_stream n Hn) as (L & H1 & H2 & H3 & H4).
  destruct (dynamic_factor (EZ_exact B) EZ_ord (int_matrix n w) (matrix_of_wf n _) w W ltac:(simpl; lia) (emb_represents (EZ_exact B) n w) HW HB Hnn
    Hn L H1 H3 H4 (size - 1) ltac:(lia) c Hc Hd) as (i & p & Hi & Ew & El & Hp & Hq & _).
  exists (tour_cost w p), i, p. split; [assumption|]. split; [exact Ew|]. split; [exact El|]. split; [assumption|]. split; [reflexivity|].
  split; [apply Hq; assumption|].
  unfold wrapup, nth_res. rewrite Ew. cbn [snd fst]. unfold dynamic_paths.
  rewrite (nth_paths (repeat 0 n) (fun i => snd (dlocal_of (d_worker c i)))) by assumption. rewrite El. cbn [bind snd].
  destruct (forallb _ _); [right|left; reflexivity]. f_equal.
  replace size with (S (size - 1)) at 2 by lia. cbn [map repeat]. f_equal.
  assert (G : forall l : list (list nat), map (fun _ => (Fin (tour_cost w p) : C EZ, p)) l = repeat (Fin (tour_cost w p) : C EZ, p) (length l)).
  { clear. induction l as [|x l IH]; [reflexivity|]. cbn [map repeat length]. f_equal. exact IH. }
  etransitivity; [apply G|]. rewrite map_length, seq_length. reflexivity.
Qed.
Print Assumptions C17_dynamic_factor_two.

(** An executable scheduler for the dynamic solver. *)
Inductive devent := DStartE (i : nat) | DRecvE (i : nat) | DWorkE (i : nat) | DRootE (i : nat) | DBarrierE.
Definition ddo {N} (m : namatrix N) (workers : nat) (e : devent) (c : dconfig N) : option (dconfig N) :=
  let '(mkD w f cur b st up down) := c in
  match e with
  | DStartE i => if i <? workers then
      match st i with
      | DStart => Some (mkD w f cur b (fupd st i (DWait [] (cinf, []))) (fupd up i (up i ++ [(cinf, S i)])) down)
      | _ => None end else None
  | DRecvE i => if i <? workers then
      match st i, down i with
      | DWait h local, (g, p) :: rest => Some (if forallb (fun x => x =? 0) p
          then mkD w f cur b (fupd st i (DBar h local)) up (fupd down i rest)
          else mkD w f cur b (fupd st i (DWork (h ++ [p]) local p g)) up (fupd down i rest))
      | _, _ => None end else None
  | DWorkE i => if i <? workers then
      match st i with
      | DWork h local p g =>
        match mpi_work m p g with
        | Ok r => Some (mkD w f cur b (fupd st i (DWait h (merge local r))) (fupd up i (up i ++ [(fst (merge local r), S i)])) down)
        | _ => None end
      | _ => None end else None
  | DRootE i => if (f <? workers) && (i <? workers) && negb b then
      match up i with
      | (c, rk) :: rest =>
        match cur with
        | Some p => match next_unique (S (na_dim m ^ 3)) p (na_dim m) with
          | Ok cur' => Some (mkD (update_winner_nonneg w (c, rk)) f cur' false st (fupd up i rest)
              (fupd down (rk - 1) (down (rk - 1) ++ [(fst (update_winner_nonneg w (c, rk)), p)])))
          | _ => None end
        | None => Some (mkD (update_winner_nonneg w (c, rk)) (S f) None false st (fupd up i rest)
              (fupd down (rk - 1) (down (rk - 1) ++ [(fst (update_winner_nonneg w (c, rk)), [0; 0; 0])])))
        end
      | [] => None end else None
  | DBarrierE => if (workers <=? f) && negb b then Some (mkD w f cur true st up down) else None
  end.
Lemma ddo_dstep {N} (m : namatrix N) workers e c c' : ddo m workers e c = Some c' -> dstep workers (na_dim m) (mpi_work m) c c'.
Proof.
  destruct c as [w f cur b st up down]. unfold ddo. destruct e as [i|i|i|i|].
  - destruct (Nat.ltb_spec i workers); [|discriminate]. destruct (st i) as [| | |] eqn:Es; try discriminate.
    intros H1; injection H1 as <-. eapply D_start; eassumption.
  - destruct (Nat.ltb_spec i workers); [|discriminate]. destruct (st i) as [|h local| |] eqn:Es; try discriminate.
    destruct (down i) as [|[g p] rest] eqn:Ed; try discriminate. intros H1; injection H1 as <-.
    destruct (forallb _ p) eqn:Ez; [eapply D_recv_done|eapply D_recv]; eassumption.
  - destruct (Nat.ltb_spec i workers); [|discriminate]. destruct (st i) as [| |h local p g|] eqn:Es; try discriminate.
    destruct (mpi_work m p g) as [r| |] eqn:Er; try discriminate. intros H1; injection H1 as <-. eapply D_work; eassumption.
  - destruct (Nat.ltb_spec f workers); [|discriminate]. destruct (Nat.ltb_spec i workers); [|discriminate]. destruct b; [discriminate|]. cbn [andb negb].
    destruct (up i) as [|[c rk] rest] eqn:Eu; try discriminate. destruct cur as [p|].
    + destruct (next_unique (S (na_dim m ^ 3)) p (na_dim m)) as [q| |] eqn:En; try discriminate.
      intros H1; injection H1 as <-. eapply D_root_work; eassumption.
    + intros H1; injection H1 as <-. eapply D_root_empty; eassumption.
  - destruct (Nat.leb_spec workers f); [|discriminate]. destruct b; [discriminate|]. cbn [andb negb]. intros H1; injection H1 as <-. apply D_root_barrier; assumption.
Qed.
Fixpoint dexec {N} (m : namatrix N) (workers : nat) (es : list devent) (c : dconfig N) : option (dconfig N) :=
  match es with [] => Some c | e :: es => match ddo m workers e c with Some c' => dexec m workers es c' | None => None end end.
Lemma dexec_steps {N} (m : namatrix N) workers es : forall c c', dexec m workers es c = Some c' -> steps (dstep workers (na_dim m) (mpi_work m)) c c'.
Proof.
  induction es as [|e es IH]; intros c c' H; simpl in H; [injection H as <-; apply steps_refl|].
  destruct (ddo m workers e c) as [c1|] eqn:E; [|discriminate]. apply ddo_dstep in E.
  apply (steps_trans _ c c1); [apply (steps_step _ _ c); [apply steps_refl|assumption]|auto].
Qed.

Definition turn (i : nat) : list devent := [DRecvE i; DWorkE i; DRootE i].
(** both workers get prefixes: worker 1 one of them, worker 0 the others *)
Definition both_work : list devent :=
  [DStartE 0; DStartE 1; DRootE 1; DRootE 0] ++ concat (repeat (turn 0) 14) ++ [DRecvE 0] ++ turn 1 ++ [DRecvE 1; DBarrierE].
(** worker 1 starts when nothing is left *)
Definition late_start : list devent :=
  [DStartE 0; DRootE 0] ++ concat (repeat (turn 0) 15) ++ [DRecvE 0; DStartE 1; DRootE 1; DRecvE 1; DBarrierE].

Definition C17_show (c : dconfig EZ) :=
  (d_barrier c, map (fun i => match d_worker c i with DBar h l => Some (length h, l) | _ => None end) [0; 1],
   d_winner c, wrapup (d_winner c) (dynamic_paths 4 2 c)).

Lemma C17_from_run es v : option_map C17_show (dexec (int_matrix 4 ex_sym) 2 es dinit) = Some v ->
  exists c, dynamic_run (int_matrix 4 ex_sym) 2 c /\ C17_show c = v.
Proof.
  destruct (dexec (int_matrix 4 ex_sym) 2 es dinit) as [c|] eqn:E; [|discriminate]. intros H. injection H as H.
  exists c. split; [apply (dexec_steps _ _ es); assumption|assumption].
Qed.
Lemma C17_show_done c b x y z t : C17_show c = (b, [Some x; Some y], z, t) -> b = true -> ddone 2 c.
Proof.
  unfold C17_show. intros H ->. injection H as H1 H2 H3 _ _. split; [assumption|]. intros i Hi.
  destruct i as [|[|i]]; [destruct (d_worker c 0)|destruct (d_worker c 1)|lia]; try discriminate; eauto.
Qed.
Example C17_applies : nonneg ex_sym 4 /\ symmetric ex_sym 4 /\
  exists c, dynamic_run (int_matrix 4 ex_sym) 2 c /\ ddone 2 c /\
  wrapup (d_winner c) (dynamic_paths 4 2 c) = Ok (repeat (Fin 10%Z : C EZ, [1; 3; 2; 0]) 3).
Proof.
  split; [concrete; lia|]. split; [concrete; lia|].
  destruct (C17_from_run both_work (true, [Some (14, (Fin 10%Z : C EZ, [1;3;2;0])); Some (1, (Fin 18%Z : C EZ, [1;2;3;0]))], (Fin 10%Z : C EZ, 1),
    Ok (repeat (Fin 10%Z : C EZ, [1; 3; 2; 0]) 3))) as (c & Hc & Es); [vm_compute; reflexivity|].
  exists c. split; [assumption|]. split; [apply (C17_show_done _ _ _ _ _ _ Es); reflexivity|].
  unfold C17_show in Es. congruence.
Qed.

(** The dynamic solver may fail on an ordinary instance: a worker that starts when all
    prefixes are gone has no path, and the final broadcast needs one of length n from all. *)
Theorem C17_late_worker_refuted : exists w, symmetric w 4 /\ nonneg w 4 /\
  dynamic_result (int_matrix 4 w) 3 Panic.
Proof.
  exists ex_sym. split; [concrete; lia|]. split; [concrete; lia|].
  destruct (C17_from_run late_start (true, [Some (15, (Fin 10%Z : C EZ, [1;3;2;0])); Some (0, (PInf : C EZ, []))], (Fin 10%Z : C EZ, 1),
    Panic)) as (c & Hc & Es); [vm_compute; reflexivity|].
  exists c. split; [assumption|]. split; [apply (C17_show_done _ _ _ _ _ _ Es); reflexivity|].
  unfold C17_show in Es. change (na_dim (int_matrix 4 ex_sym)) with 4. change (3 - 1) with 2. congruence.
Qed.
Print Assumptions C17_late_worker_refuted.

(** With two workers or more it may always fail, whatever the costs. *)
Theorem C17_may_panic : forall (N : Num) (O : NumOrd N) (PP : NumPos N) (m : namatrix N) size,
  4 <= na_dim m -> na_wf m -> nonneg_matrix m -> 3 <= size -> dynamic_result m size Panic.
Proof.
  intros N O PP m size Hn Hwf Hm Hsz. destruct (dynamic_ok O PP m Hn Hwf Hm) as (L & H1 & H2 & H3 & H4 & H5).
  destruct (dynamic_finishes O 1 (na_dim m) (mpi_work m) L H1 H4 (sound (na_dim m)) (sound_init O _) (sound_nonneg m) H5 dinit (steps_refl _ _))
    as (c1 & Hc1 & Hb1 & Hd1).
  destruct (dinv_steps O 1 (na_dim m) (mpi_work m) L H1 H4 (sound (na_dim m)) (sound_init O _) (sound_nonneg m) H5 c1 Hc1) as (_ & _ & Hf & Hbf & Hcur & _).
  specialize (Hbf Hb1). cbn [sum] in Hf.
  destruct (late (na_dim m) (mpi_work m) (size - 1) c1 ltac:(lia) Hc1) as (c2 & Hc2 & E2).
  { pose proof (dfinb_le (d_worker c1 0) (d_down c1 0)). lia. }
  { apply Hcur. lia. }
  destruct (dynamic_completes O (size - 1) (na_dim m) (mpi_work m) L H1 H4 (sound (na_dim m)) (sound_init O _) (sound_nonneg m) H5 c2 Hc2)
    as (c3 & H23 & Hc3 & Hd3).
  pose proof (bar_stays (na_dim m) (mpi_work m) (size - 1) 1 [] (cinf, []) c2 c3 H23 E2) as E3.
  exists c3. split; [exact Hc3|]. split; [exact Hd3|].
  destruct (C17_least_reported_wins N O PP m (size - 1) c3 Hn Hwf Hm ltac:(lia) Hc3 Hd3) as (_ & _ & [[H _]|(i & _ & _ & H)]); [symmetry; exact H|].
  exfalso. destruct (H 1 ltac:(lia)) as (Ht & _). rewrite E3 in Ht. cbn [dlocal_of snd] in Ht. apply (tour_length (na_dim m)) in Ht. cbn in Ht. lia.
Qed.
Print Assumptions C17_may_panic.

(** The list of all prefixes: three different vertices, from [1;2;3] on. *)
Lemma stream_length n L : 4 <= n -> NoDup L -> (forall u, In u L <-> key3 n u /\ number n [1; 2; 3] <= number n u) -> length L = n * (n - 2) ^ 2 - 1.
Proof. intros Hn H1 H2. pose proof (prefix_count n L Hn H1 H2). lia. Qed.

(** With more workers than prefixes it always fails. *)
Theorem C17_too_many_workers_panic : forall (N : Num) (O : NumOrd N) (PP : NumPos N) (m : namatrix N) size,
  4 <= na_dim m -> na_wf m -> nonneg_matrix m -> na_dim m * (na_dim m - 2) ^ 2 <= size - 1 ->
  forall out, dynamic_result m size out -> out = Panic.
Proof.
  intros N O PP m size Hn Hwf Hm Hsz out (c & Hc & Hd & ->). destruct (dynamic_ok O PP m Hn Hwf Hm) as (L & H1 & H2 & H3 & H4 & H5).
  assert (Hpos : 1 <= na_dim m * (na_dim m - 2) ^ 2) by (pose proof (prefix_count (na_dim m) L Hn H2 H3); lia).
  destruct (dynamic_outcome O (size - 1) (na_dim m) (mpi_work m) L H1 H4 (sound (na_dim m)) (sound_init O _) (sound_nonneg m) H5 c ltac:(lia) Hc Hd)
    as (_ & _ & _ & HP).
  assert (Hidle : exists i, i < size - 1 /\ handed_of (d_worker c i) = []).
  { apply Permutation_length in HP. rewrite (stream_length _ L Hn H2 H3) in HP. revert HP.
    set (f := fun i => handed_of (d_worker c i)). intros HP.
    assert (G : forall k, length (flat_map f (seq 0 k)) < k -> exists i, i < k /\ f i = []).
    { induction k as [|k IH]; intros Hk; [lia|]. rewrite seq_S, flat_map_app, app_length in Hk. cbn [flat_map] in Hk. rewrite app_nil_r in Hk. cbn [Nat.add] in Hk.
      destruct (f k) as [|x l] eqn:Ek; [exists k; auto|]. cbn [length] in Hk. destruct IH as (i & Hi & Ei); [lia|]. exists i. auto. }
    apply (G (size - 1)). lia. }
  destruct Hidle as (i & Hi & Ei). destruct (nothing_given (na_dim m) (mpi_work m) (size - 1) c Hc i) as [E0 _]. specialize (E0 Ei).
  destruct (C17_least_reported_wins N O PP m (size - 1) c Hn Hwf Hm ltac:(lia) Hc Hd) as (_ & _ & [[H _]|(j & _ & _ & H)]); [exact H|].
  exfalso. destruct (H i Hi) as (Ht & _). rewrite E0 in Ht. apply (tour_length (na_dim m)) in Ht. cbn in Ht. lia.
Qed.
Print Assumptions C17_too_many_workers_panic.

(** With one worker it always returns. *)
Theorem C17_one_worker_returns : forall n w out, 4 <= n -> symmetric w n -> nonneg w n -> dynamic_result (int_matrix n w) 2 out ->
  exists c p, out = Ok [(Fin c : C EZ, p); (Fin c : C EZ, p)] /\ is_tour n p /\ tour_cost w p = c /\
    forall q, is_tour n q -> (c <= 2 * tour_cost w q)%Z.
Proof.
  intros n w out Hn Hs Hnn (c & Hc & Hd & ->).
  destruct (C17_dynamic_factor_two n w 2 Hn ltac:(lia) Hs Hnn c Hc Hd) as (cost & i & p & Hi & Ew & El & Hp & Hcost & Hq & [E|E]).
  - exfalso. change (na_dim (int_matrix n w)) with n in *.
    destruct (C17_least_reported_wins EZ EZ_ord EZ_pos (int_matrix n w) 1 c Hn (matrix_of_wf n _) (int_nonneg n w Hnn) ltac:(lia) Hc Hd)
      as (_ & _ & [[_ (j & Hj & Ej)]|(j & _ & H & _)]).
    + assert (i = 0) by lia. assert (j = 0) by lia. subst i j. rewrite El in Ej. discriminate.
    + change (2 - 1) with 1 in E. change (na_dim (int_matrix n w)) with n in H. rewrite H in E. discriminate.
  - exists cost, p. split; [exact E|]. auto.
Qed.
Print Assumptions C17_one_worker_returns.

(** With at most as many workers as prefixes it may return: everyone gets one of the first
    prefixes before anyone reports. *)
Theorem C17_may_return : forall n w size, 4 <= n -> 2 <= size -> size - 1 <= n * (n - 2) ^ 2 - 1 -> nonneg w n ->
  exists results, dynamic_result (int_matrix n w) size (Ok results).
Proof.
  intros n w size Hn Hsz Hmax Hnn. assert (Hn3 : 3 <= n) by lia. set (m := int_matrix n w).
  destruct (dynamic_ok EZ_ord EZ_pos m Hn (matrix_of_wf n _) (int_nonneg n w Hnn)) as (L & H1 & H2 & H3 & H4 & H5).
  change (na_dim m) with n in *. pose proof (stream_length n L Hn H2 H3) as HL.
  assert (Hirr : clt (@cinf EZ) cinf = false) by reflexivity.
  destruct (handout n (mpi_work m) Hirr (size - 1) L H1 H4 (size - 1) (Nat.le_refl _) ltac:(lia)) as (c1 & Hc1 & _ & _ & _ & _ & Hw1 & _).
  destruct (dynamic_completes EZ_ord (size - 1) n (mpi_work m) L H1 H4 (sound n) (sound_init EZ_ord _) (sound_nonneg m) H5 c1 Hc1)
    as (c2 & H12 & Hc2 & Hd2).
  assert (Hprom : forall i, i < size - 1 -> clt (fst (dlocal_of (d_worker c2 i))) (@cinf EZ) = true).
  { intros i Hi.
    assert (Htr : forall a b : C EZ, clt a b = true -> clt b cinf = true -> clt a cinf = true) by (intros a b; destruct a, b; cbn; congruence).
    destruct (promising_steps n (mpi_work m) Htr (size - 1) c1 c2 i H12) as [(h & p & E & _)|H]; [|exfalso|exact H].
    - left. destruct (Hw1 i Hi) as (p & h & Hp & E). exists h, p. split; [exact E|]. intros r Er.
      destruct (EZ_bound 3 w n ltac:(lia)) as (W & B & HW & H0 & HB).
      apply H3 in Hp. destruct Hp as ((_ & P1 & P2) & _).
      destruct (mpi_work_exact (EZ_exact B) EZ_ord m (matrix_of_wf n _) w W Hn3 (emb_represents (EZ_exact B) n w) HW HB p cinf P2 P1 ltac:(apply Q_init; left; reflexivity)) as (s & Es & _ & Hs).
      rewrite Er in Es. injection Es as <-. destruct (extend_tour n p P2 P1) as (r0 & Hr0).
      destruct (Hs (p ++ r0) Hr0 ltac:(exists r0; reflexivity)) as [(p' & (-> & Hp') & _)|(G & HG & _)]; [reflexivity|discriminate].
    - destruct Hd2 as [_ Hd2]. destruct (Hd2 i Hi) as (h' & l' & E'). congruence. }
  destruct (C17_least_reported_wins EZ EZ_ord EZ_pos m (size - 1) c2 Hn (matrix_of_wf n _) (int_nonneg n w Hnn) ltac:(lia) Hc2 Hd2)
    as (_ & _ & [[_ (j & Hj & Ej)]|(i & _ & H & _)]).
  - exfalso. specialize (Hprom j Hj). rewrite Ej in Hprom. discriminate.
  - eexists. exists c2. split; [exact Hc2|]. split; [exact Hd2|]. symmetry. exact H.
Qed.
Print Assumptions C17_may_return.

Example C17_may_applies : symmetric ex_sym 4 /\ nonneg ex_sym 4 /\ 4 * (4 - 2) ^ 2 - 1 = 15.
Proof. split; [concrete; lia|]. split; [concrete; lia|reflexivity]. Qed.

(** Three vertices: the first prefix is [1; 2; 3], and the worker given it panics. *)
Theorem C17_three_vertices_refuted : forall w g, mpi_work (int_matrix 3 w) [1; 2; 3] g = Panic /\
  forall workers, 1 <= workers -> exists c, dynamic_run (int_matrix 3 w) workers c /\
    exists h local gm, d_worker c 0 = DWork h local [1; 2; 3] gm.
Proof.
  intros w g. split; [vm_compute; reflexivity|]. intros workers Hw.
  assert (E : forall k, option_map (fun c => d_worker c 0) (dexec (int_matrix 3 w) (S k) [DStartE 0; DRootE 0; DRecvE 0] dinit) =
    Some (DWork [[1; 2; 3]] (PInf : C EZ, []) [1; 2; 3] (PInf : C EZ))) by (intros k; vm_compute; reflexivity).
  destruct workers as [|k]; [lia|]. specialize (E k).
  destruct (dexec _ _ _ _) as [c|] eqn:Ec; [|discriminate]. apply dexec_steps in Ec. injection E as E. exists c. split; [exact Ec|]. eauto.
Qed.
Print Assumptions C17_three_vertices_refuted.

(** A single process: nobody works, the answer is (infinity, zeros). *)
Theorem C17_single_process_refuted : forall n w out, dynamic_result (int_matrix n w) 1 out ->
  out = Ok [(PInf : C EZ, repeat 0 n)].
Proof.
  intros n w out. unfold dynamic_result. change (1 - 1) with 0. intros (c & Hc & _ & ->).
  assert (Hwin : d_winner c = (cinf, 0)).
  { remember (@dinit EZ) as c0 eqn:E0. induction Hc as [c|c c' c'' H IH Hs]; [rewrite E0; reflexivity|].
    specialize (IH E0). inversion Hs; subst; cbn [d_winner] in *; try assumption; lia. }
  rewrite Hwin. unfold dynamic_paths. cbn [seq map]. change (na_dim (int_matrix n w)) with n.
  rewrite (wrapup_ok _ _ (repeat 0 n)); [reflexivity|reflexivity|]. intros p [<-|[]]. reflexivity.
Qed.
Print Assumptions C17_single_process_refuted.
