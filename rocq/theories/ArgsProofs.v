(** The command line is read as it is written.  (Proofs.) *)
From Coq Require Import Ascii String DecimalString DecimalN NArith Arith Bool List Lia.
From Verif Require Import Num Base Data Precond Text Xml Cli Args ArgsSpec XmlProofs.
Import ListNotations.
Local Open Scope char_scope.

(** ** Values *)
Lemma one_of_In {A} (values : list (string * A)) s a : one_of values s = Some a -> exists n, In (n, a) values /\ s = txt n.
Proof.
  unfold one_of. intros H. destruct (find _ values) as [[n x]|] eqn:E; [|discriminate]. cbn in H. injection H as ->.
  apply find_some in E. destruct E as [E1 E2]. cbn in E2. apply text_eqb_spec in E2. exists n. auto.
Qed.
Lemma one_of_exact s a : one_of exact_values s = Some a <-> s = exact_name a.
Proof. split; [|intros ->; destruct a; reflexivity]. intros H. apply one_of_In in H. destruct H as (n & Hn & ->). cbn in Hn. repeat (destruct Hn as [Hn|Hn]; [injection Hn as <- <-; reflexivity|]). destruct Hn. Qed.
Lemma one_of_approx s a : one_of approx_values s = Some a <-> s = approx_name a.
Proof. split; [|intros ->; destruct a; reflexivity]. intros H. apply one_of_In in H. destruct H as (n & Hn & ->). cbn in Hn. repeat (destruct Hn as [Hn|Hn]; [injection Hn as <- <-; reflexivity|]). destruct Hn. Qed.
Lemma one_of_bound s a : one_of lower_bound_values s = Some a <-> s = bound_name a.
Proof. split; [|intros ->; destruct a; reflexivity]. intros H. apply one_of_In in H. destruct H as (n & Hn & ->). cbn in Hn. repeat (destruct Hn as [Hn|Hn]; [injection Hn as <- <-; reflexivity|]). destruct Hn. Qed.
Lemma one_of_parallelism mpi s p : one_of (parallelism_values mpi) s = Some p <-> s = parallelism_name p /\ (p = MPI -> mpi = true).
Proof.
  split.
  - intros H. apply one_of_In in H. destruct H as (n & Hn & ->). destruct mpi; cbn in Hn; repeat (destruct Hn as [Hn|Hn]; [injection Hn as <- <-; split; [reflexivity|congruence]|]); destruct Hn.
  - intros (-> & H). destruct p; [destruct mpi; reflexivity|destruct mpi; reflexivity|rewrite H by reflexivity; reflexivity].
Qed.

(** ** Arguments *)
Section Arguments.
Variables mpi bounds : bool.
Notation args_of := (arguments mpi bounds).

Lemma add_value_parallelism v r pos ps ls : add_value mpi OptParallelism v r = Some (pos, ps, ls) <->
  exists p ps', ps = p :: ps' /\ v = parallelism_name p /\ (p = MPI -> mpi = true) /\ r = Some (pos, ps', ls).
Proof.
  unfold add_value. split.
  - destruct r as [[[pos' ps'] ls']|]; [|discriminate]. cbn [obind]. destruct (one_of _ v) as [p|] eqn:E; [|discriminate]. cbn [option_map]. intros H. injection H as <- <- <-.
    apply one_of_parallelism in E. exists p, ps'. tauto.
  - intros (p & ps' & -> & -> & Hp & ->). cbn [obind]. rewrite (proj2 (one_of_parallelism mpi (parallelism_name p) p) (conj eq_refl Hp)). reflexivity.
Qed.
Lemma add_value_bound v r pos ps ls : add_value mpi OptLowerBound v r = Some (pos, ps, ls) <->
  exists l ls', ls = l :: ls' /\ v = bound_name l /\ r = Some (pos, ps, ls').
Proof.
  unfold add_value. split.
  - destruct r as [[[pos' ps'] ls']|]; [|discriminate]. cbn [obind]. destruct (one_of _ v) as [p|] eqn:E; [|discriminate]. cbn [option_map]. intros H. injection H as <- <- <-.
    apply one_of_bound in E. exists p, ls'. tauto.
  - intros (l & ls' & -> & -> & ->). cbn [obind]. rewrite (proj2 (one_of_bound (bound_name l) l) eq_refl). reflexivity.
Qed.

(** an option with its value *)
Definition has_option (o : option_name) : Prop := o = OptLowerBound -> bounds = true.
Definition option_spelled (o : option_name) (v : text) (words : list text) : Prop := In words (spellings [short_of o] (long_of o) v).
Definition is_value (o : option_name) (v : text) : Prop := exists r, add_value mpi o v (Some ([], [], [])) = Some r.
Lemma is_value_form o v : is_value o v -> exists c d s, v = c :: d :: s /\ Ascii.eqb c "-" = false /\ Ascii.eqb c "=" = false.
Proof.
  intros ([[pos ps] ls] & H). destruct o.
  - apply add_value_parallelism in H. destruct H as (p & ps' & _ & -> & _). destruct p; cbn; eauto 10.
  - apply add_value_bound in H. destruct H as (l & ps' & _ & -> & _). destruct l; cbn; eauto 10.
Qed.
Lemma add_value_is o v r g : add_value mpi o v r = Some g -> is_value o v.
Proof.
  destruct g as [[pos ps] ls]. intros H. destruct o.
  - apply add_value_parallelism in H. destruct H as (p & ps' & _ & Hv & Hp & _). eexists. apply add_value_parallelism. eauto 10.
  - apply add_value_bound in H. destruct H as (l & ls' & _ & Hv & _). eexists. apply add_value_bound. eauto 10.
Qed.

Lemma find_long name o : find_option bounds (fun o => text_eqb (long_of o) name) = Some o <-> name = long_of o /\ has_option o.
Proof.
  unfold find_option, has_option. split.
  - intros H. apply find_some in H. destruct H as [H1 H2]. apply text_eqb_spec in H2. split; [auto|]. intros ->. destruct H1 as [H1|H1]; [discriminate|]. destruct bounds; [reflexivity|destruct H1].
  - intros [-> H]. destruct o; [reflexivity|]. rewrite H by reflexivity. reflexivity.
Qed.
Lemma find_short c o : find_option bounds (fun o => Ascii.eqb (short_of o) c) = Some o <-> c = short_of o /\ has_option o.
Proof.
  unfold find_option, has_option. split.
  - intros H. apply find_some in H. destruct H as [H1 H2]. apply Ascii.eqb_eq in H2. split; [auto|]. intros ->. destruct H1 as [H1|H1]; [discriminate|]. destruct bounds; [reflexivity|destruct H1].
  - intros [-> H]. destruct o; [reflexivity|]. rewrite H by reflexivity. reflexivity.
Qed.
Lemma split_eq_long o v : split_eq (long_of o ++ "=" :: v) = (long_of o, Some v) /\ split_eq (long_of o) = (long_of o, None).
Proof. destruct o; split; reflexivity. Qed.
Lemma split_eq_inv s : forall a b, split_eq s = (a, b) -> match b with None => s = a | Some v => s = a ++ "=" :: v end.
Proof.
  induction s as [|c s IH]; cbn; intros a b H; [injection H as <- <-; reflexivity|]. destruct (Ascii.eqb_spec c "=").
  - injection H as <- <-. subst c. reflexivity.
  - destruct (split_eq s) as [a' b'] eqn:E. injection H as <- <-. specialize (IH a' b' eq_refl). destruct b'; cbn; f_equal; assumption.
Qed.

(** reading an option *)
Lemma pending_value o v args : is_value o v -> args_of (Some o) (v :: args) = add_value mpi o v (args_of None args).
Proof.
  intros H. apply is_value_form in H. destruct H as (c & d & s & -> & E & _). cbn [arguments]. destruct c as [[] [] [] [] [] [] [] []]; try reflexivity. discriminate.
Qed.
Lemma read_option o v words args : has_option o -> is_value o v -> option_spelled o v words -> args_of None (words ++ args) = add_value mpi o v (args_of None args).
Proof.
  intros Ho Hv Hw. pose proof (proj2 (find_long _ o) (conj eq_refl Ho)) as FL. pose proof (proj2 (find_short _ o) (conj eq_refl Ho)) as FS.
  destruct (is_value_form o v Hv) as (c & d & s & Ev & E1 & E2).
  unfold option_spelled, spellings in Hw. cbn [In] in Hw. destruct Hw as [<-|[<-|[<-|[<-|[<-|[]]]]]].
  - cbn [app txt list_ascii_of_string]. transitivity (args_of (Some o) (v :: args)); [|apply pending_value; assumption].
    cbn [arguments]. destruct o; rewrite FS; reflexivity.
  - cbn [app txt list_ascii_of_string]. cbn [arguments]. rewrite Ev. destruct o; cbn [short_of] in *; rewrite FS; cbn [obind]; destruct c as [[] [] [] [] [] [] [] []]; try reflexivity; discriminate.
  - cbn [app txt list_ascii_of_string]. cbn [arguments]. destruct o; cbn [short_of] in *; rewrite FS; reflexivity.
  - cbn [app txt list_ascii_of_string]. transitivity (args_of (Some o) (v :: args)); [|apply pending_value; assumption].
    change (args_of None (("-" :: "-" :: long_of o) :: v :: args)) with
      (match long_of o with [] => Some (v :: args, [], []) | _ => let '(name, value) := split_eq (long_of o) in
        obind (find_option bounds (fun o => text_eqb (long_of o) name)) (fun o => match value with Some v' => add_value mpi o v' (args_of None (v :: args)) | None => args_of (Some o) (v :: args) end) end).
    rewrite (proj2 (split_eq_long o [])), FL. destruct o; reflexivity.
  - cbn [app txt list_ascii_of_string].
    change (args_of None (("-" :: "-" :: long_of o ++ "=" :: v) :: args)) with
      (match long_of o ++ "=" :: v with [] => Some (args, [], []) | _ => let '(name, value) := split_eq (long_of o ++ "=" :: v) in
        obind (find_option bounds (fun o => text_eqb (long_of o) name)) (fun o => match value with Some v' => add_value mpi o v' (args_of None args) | None => args_of (Some o) args end) end).
    rewrite (proj1 (split_eq_long o v)), FL. destruct o; reflexivity.
Qed.

Lemma read_word s args : is_word s -> args_of None (s :: args) = option_map (add_positional s) (args_of None args).
Proof.
  intros [->|H]; [reflexivity|]. cbn [arguments]. destruct s as [|c s]; [reflexivity|]. destruct c as [[] [] [] [] [] [] [] []]; try reflexivity.
  exfalso. exact (H s eq_refl).
Qed.

Lemma arguments_arranged args pos ps ls : arranged mpi bounds args pos ps ls -> args_of None args = Some (pos, ps, ls).
Proof.
  induction 1 as [|rest|s args pos ps ls Hs H IH|p words args pos ps ls Hp Hw H IH|l words args pos ps ls Hb Hw H IH].
  - reflexivity.
  - reflexivity.
  - rewrite read_word, IH by assumption. reflexivity.
  - rewrite (read_option OptParallelism (parallelism_name p) words); [|intros E; discriminate| |exact Hw].
    + rewrite IH. apply add_value_parallelism. eauto 10.
    + eexists. apply add_value_parallelism. eauto 10.
  - rewrite (read_option OptLowerBound (bound_name l) words); [|intros _; exact Hb| |exact Hw].
    + rewrite IH. apply add_value_bound. eauto 10.
    + eexists. apply add_value_bound. eauto 10.
Qed.

(** the other direction *)
Lemma arguments_sound n : forall args pos ps ls, List.length args <= n -> args_of None args = Some (pos, ps, ls) -> arranged mpi bounds args pos ps ls.
Proof.
  induction n as [|n IH]; intros args pos ps ls Hn H.
  { destruct args; [|cbn in Hn; lia]. injection H as <- <- <-. constructor. }
  destruct args as [|a args]; [injection H as <- <- <-; constructor|]. cbn [List.length] in Hn.
  assert (Hval : forall o v words rest, has_option o -> option_spelled o v words -> a :: args = words ++ rest -> List.length rest <= n ->
    add_value mpi o v (args_of None rest) = Some (pos, ps, ls) -> arranged mpi bounds (a :: args) pos ps ls).
  { intros o v words rest Ho Hw E Hr Hav. rewrite E. destruct o.
    - apply add_value_parallelism in Hav. destruct Hav as (p & ps' & -> & -> & Hp & Er). apply arr_parallelism; [assumption|exact Hw|]. apply IH; assumption.
    - apply add_value_bound in Hav. destruct Hav as (l & ls' & -> & -> & Er). apply arr_bound; [apply Ho; reflexivity|exact Hw|]. apply IH; assumption. }
  assert (Hpend : forall o w, has_option o -> a = w -> (forall v, option_spelled o v [w; v]) -> args_of (Some o) args = Some (pos, ps, ls) -> arranged mpi bounds (a :: args) pos ps ls).
  { intros o w Ho Ea Hw Hp. destruct args as [|v rest]; [discriminate|]. cbn [List.length] in Hn.
    assert (Hav : add_value mpi o v (args_of None rest) = Some (pos, ps, ls)).
    { cbn [arguments] in Hp. destruct v as [|c [|d v]]; [exact Hp|destruct c as [[] [] [] [] [] [] [] []]; exact Hp|]. destruct c as [[] [] [] [] [] [] [] []]; try exact Hp. discriminate. }
    apply (Hval o v [w; v] rest Ho (Hw v)); [subst; reflexivity|lia|exact Hav]. }
  assert (Hdash : {s | a = "-" :: s} + {forall s, a <> "-" :: s}).
  { destruct a as [|c s]; [right; discriminate|]. destruct (ascii_dec c "-") as [->|Hc]; [left; eauto|right; intros s' E; injection E as E _; contradiction]. }
  assert (Hword : is_word a -> arranged mpi bounds (a :: args) pos ps ls).
  { intros Hw. rewrite read_word in H by assumption. destruct (args_of None args) as [[[pos' ps'] ls']|] eqn:E; [|discriminate]. injection H as <- <- <-. apply arr_word; [assumption|]. apply IH; [lia|assumption]. }
  destruct Hdash as [[s Ea]|Hnd]; [|apply Hword; right; exact Hnd].
  destruct s as [|c s]; [apply Hword; left; exact Ea|].
  destruct (ascii_dec c "-") as [Ec|Hc].
  - subst c. destruct s as [|c s].
    + subst a. cbn in H. injection H as <- <- <-. apply arr_dashes.
    + subst a. cbn [arguments] in H. destruct (split_eq (c :: s)) as [name value] eqn:E.
      assert (H' : obind (find_option bounds (fun o => text_eqb (long_of o) name)) (fun o => match value with Some v => add_value mpi o v (args_of None args) | None => args_of (Some o) args end) = Some (pos, ps, ls)).
      { destruct c as [[] [] [] [] [] [] [] []]; exact H. }
      clear H. destruct (find_option _ _) as [o|] eqn:Eo; [|discriminate]. cbn [obind] in H'. apply find_long in Eo. destruct Eo as [-> Ho]. apply split_eq_inv in E. destruct value as [v|].
      * apply (Hval o v [txt "--" ++ long_of o ++ txt "=" ++ v] args Ho); [|rewrite E; reflexivity|lia|exact H'].
        unfold option_spelled, spellings. cbn [In]. tauto.
      * apply (Hpend o (txt "--" ++ long_of o) Ho); [rewrite E; reflexivity| |exact H'].
        intros v. unfold option_spelled, spellings. cbn [In]. tauto.
  - subst a. cbn [arguments] in H.
    assert (H' : obind (find_option bounds (fun o => Ascii.eqb (short_of o) c)) (fun o => match s with [] => args_of (Some o) args | "=" :: v => add_value mpi o v (args_of None args) | v => add_value mpi o v (args_of None args) end) = Some (pos, ps, ls)).
    { destruct c as [[] [] [] [] [] [] [] []]; try exact H. contradiction. }
    clear H. destruct (find_option _ _) as [o|] eqn:Eo; [|discriminate]. cbn [obind] in H'. apply find_short in Eo. destruct Eo as [-> Ho].
    destruct s as [|d s].
    + apply (Hpend o (txt "-" ++ [short_of o]) Ho); [reflexivity| |exact H']. intros v. unfold option_spelled, spellings. cbn [In]. tauto.
    + destruct (ascii_dec d "=") as [Ed|Hd].
      * subst d. apply (Hval o s [txt "-" ++ [short_of o] ++ txt "=" ++ s] args Ho); [|reflexivity|lia|exact H'].
        unfold option_spelled, spellings. cbn [In]. tauto.
      * apply (Hval o (d :: s) [txt "-" ++ [short_of o] ++ d :: s] args Ho); [|reflexivity|lia|].
        -- unfold option_spelled, spellings. cbn [In]. tauto.
        -- destruct d as [[] [] [] [] [] [] [] []]; try exact H'. contradiction.
Qed.
End Arguments.

Lemma arguments_iff mpi bounds args pos ps ls : arguments mpi bounds None args = Some (pos, ps, ls) <-> arranged mpi bounds args pos ps ls.
Proof. split; [apply arguments_sound with (n := List.length args); lia|apply arguments_arranged]. Qed.

Lemma no_bounds mpi args pos ps ls : arranged mpi false args pos ps ls -> ls = [].
Proof. intros H. remember false as b. induction H; subst; auto. discriminate. Qed.

Lemma subcommand_iff {A B} mpi bounds (values : list (string * A)) (name : A -> text) (make : A -> parallelism -> option lower_bound_algorithm -> B) args c path :
  (forall s a, one_of values s = Some a <-> s = name a) ->
  subcommand mpi bounds values make args = Some (c, path) <->
  path <> [] /\ exists a p lb ps ls, c = make a p lb /\ arranged mpi bounds args [name a; path] ps ls /\ default SingleThreaded p ps /\
    (ls = [] /\ lb = None \/ exists l, ls = [l] /\ lb = Some l).
Proof.
  intros Hv. unfold subcommand, default. split.
  - destruct (arguments mpi bounds None args) as [[[pos ps] ls]|] eqn:E; [|discriminate]. cbn [obind]. apply arguments_iff in E.
    destruct pos as [|a [|[|c0 path0] [|]]]; try discriminate. destruct (one_of values a) as [a'|] eqn:Ea; [|discriminate]. cbn [obind]. apply Hv in Ea. subst a.
    intros H. destruct ps as [|p [|]]; cbn [obind] in H; try discriminate; destruct ls as [|l [|]]; cbn [obind] in H; try discriminate; injection H as <- <-; (split; [discriminate|]); eauto 15.
  - intros (Hp & a & p & lb & ps & ls & -> & Harr & Hps & Hls). apply arguments_iff in Harr. rewrite Harr. cbn [obind]. destruct path as [|c0 path]; [contradiction|].
    rewrite (proj2 (Hv (name a) a) eq_refl). cbn [obind]. destruct Hps as [[-> ->]| ->]; destruct Hls as [[-> ->]|(l & -> & ->)]; reflexivity.
Qed.

Lemma parse_args_written mpi args cmd path : parse_args mpi args = Some (cmd, path) <-> written mpi cmd path args.
Proof.
  split.
  - destruct args as [|sub args]; [discriminate|]. cbn [parse_args]. destruct (text_eqb sub (txt "exact")) eqn:E1; [|destruct (text_eqb sub (txt "approx")) eqn:E2; [|destruct (text_eqb sub (txt "lower-bound")) eqn:E3; [|discriminate]]].
    + apply text_eqb_spec in E1. subst sub. intros H. apply (subcommand_iff mpi false exact_values exact_name) in H; [|apply one_of_exact].
      destruct H as (Hp & a & p & lb & ps & ls & -> & Harr & Hps & Hls). rewrite (no_bounds _ _ _ _ _ Harr) in Harr. eapply wr_exact; eassumption.
    + apply text_eqb_spec in E2. subst sub. intros H. apply (subcommand_iff mpi true approx_values approx_name) in H; [|apply one_of_approx].
      destruct H as (Hp & a & p & lb & ps & ls & -> & Harr & Hps & Hls). eapply wr_approx; eassumption.
    + apply text_eqb_spec in E3. subst sub. intros H. apply (subcommand_iff mpi false lower_bound_values bound_name) in H; [|apply one_of_bound].
      destruct H as (Hp & a & p & lb & ps & ls & -> & Harr & Hps & Hls). rewrite (no_bounds _ _ _ _ _ Harr) in Harr. eapply wr_bound; eassumption.
  - intros H. destruct H as [a p path args ps Hp Harr Hps|a p lb path args ps ls Hp Harr Hps Hls|a p path args ps Hp Harr Hps]; cbn [parse_args].
    + change (text_eqb (txt "exact") (txt "exact")) with true. cbn match. apply (subcommand_iff mpi false exact_values exact_name); [apply one_of_exact|]. split; [assumption|]. exists a, p, None, ps, []. auto 10.
    + change (text_eqb (txt "approx") (txt "exact")) with false. change (text_eqb (txt "approx") (txt "approx")) with true. cbn match.
      apply (subcommand_iff mpi true approx_values approx_name); [apply one_of_approx|]. split; [assumption|]. exists a, p, lb, ps, ls. auto 10.
    + change (text_eqb (txt "lower-bound") (txt "exact")) with false. change (text_eqb (txt "lower-bound") (txt "approx")) with false. change (text_eqb (txt "lower-bound") (txt "lower-bound")) with true. cbn match.
      apply (subcommand_iff mpi false lower_bound_values bound_name); [apply one_of_bound|]. split; [assumption|]. exists a, p, None, ps, []. auto 10.
Qed.
