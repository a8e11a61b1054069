(** next_permutation and the two enumerating solvers V0 and V1.  (Proofs.) *)
From Coq Require Import ZArith Arith Bool List Permutation Sorted Lia ZifyBool.
From Verif Require Import Num Base Spec SpecFacts Data Mst Exact Dfs PrimProofs.
Import ListNotations.

Notation noninc := (StronglySorted (fun a b => b <= a)).
Notation nondec := (StronglySorted (fun a b => a <= b)).

(** ** Lexicographic order *)
Lemma lex_irrefl l : ~ lex l l.
Proof. induction l; intros H; inversion H; subst; [lia|auto]. Qed.

Lemma lex_trans a b c : lex a b -> lex b c -> lex a c.
Proof.
  intros H. revert c. induction H as [x y p q Hxy|x p q H IH]; intros c Hc; inversion Hc; subst.
  - apply lex_head. lia.
  - apply lex_head. assumption.
  - apply lex_head. assumption.
  - apply lex_tail. auto.
Qed.

Lemma lex_total a b : length a = length b -> a = b \/ lex a b \/ lex b a.
Proof.
  revert b. induction a as [|x a IH]; destruct b as [|y b]; simpl; intros H; try discriminate; [auto|].
  destruct (Nat.lt_trichotomy x y) as [Hl|[->|Hl]].
  - right; left. apply lex_head; assumption.
  - destruct (IH b) as [->|[Hl|Hl]]; [congruence|auto|right; left; apply lex_tail; assumption|right; right; apply lex_tail; assumption].
  - right; right. apply lex_head; assumption.
Qed.

Lemma lex_app p a b : lex a b -> lex (p ++ a) (p ++ b).
Proof. induction p; simpl; [auto|]. intros H. apply lex_tail. auto. Qed.

(** A nonincreasing list is the greatest of its arrangements. *)
Lemma noninc_max s q : noninc s -> Permutation s q -> q = s \/ lex q s.
Proof.
  intros Hs. revert q. induction Hs as [|x s Hs IH Hx]; intros q HP.
  - apply Permutation_nil in HP. auto.
  - destruct q as [|y q]; [apply Permutation_sym, Permutation_nil in HP; discriminate|].
    assert (Hy : y <= x).
    { assert (Hin : In y (x :: s)) by (apply (Permutation_in _ (Permutation_sym HP)); left; reflexivity).
      destruct Hin as [->|Hin]; [lia|]. rewrite Forall_forall in Hx. auto. }
    destruct (Nat.eq_dec y x) as [->|Hne].
    + apply Permutation_cons_inv in HP. destruct (IH q HP) as [->|Hl]; [auto|right; apply lex_tail; assumption].
    + right. apply lex_head. lia.
Qed.

Lemma nondec_min s q : nondec s -> Permutation s q -> q = s \/ lex s q.
Proof.
  intros Hs. revert q. induction Hs as [|x s Hs IH Hx]; intros q HP.
  - apply Permutation_nil in HP. auto.
  - destruct q as [|y q]; [apply Permutation_sym, Permutation_nil in HP; discriminate|].
    assert (Hy : x <= y).
    { assert (Hin : In y (x :: s)) by (apply (Permutation_in _ (Permutation_sym HP)); left; reflexivity).
      destruct Hin as [->|Hin]; [lia|]. rewrite Forall_forall in Hx. auto. }
    destruct (Nat.eq_dec y x) as [->|Hne].
    + apply Permutation_cons_inv in HP. destruct (IH q HP) as [->|Hl]; [auto|right; apply lex_tail; assumption].
    + right. apply lex_head. lia.
Qed.

Lemma ss_app {A} (R : A -> A -> Prop) a b : StronglySorted R a -> StronglySorted R b ->
  (forall x y, In x a -> In y b -> R x y) -> StronglySorted R (a ++ b).
Proof.
  intros Ha Hb H. induction Ha as [|x a Ha IH Hx]; [assumption|]. simpl. constructor.
  - apply IH. intros; apply H; [right|]; assumption.
  - apply Forall_app. split; [assumption|]. apply Forall_forall. intros y Hy. apply H; [left; reflexivity|assumption].
Qed.

Lemma ss_app_inv {A} (R : A -> A -> Prop) a b : StronglySorted R (a ++ b) ->
  StronglySorted R a /\ StronglySorted R b /\ forall x y, In x a -> In y b -> R x y.
Proof.
  induction a as [|x a IH]; simpl; intros H.
  - split; [constructor|]. split; [assumption|]. intros x y [].
  - inversion H as [|? ? H1 H2]; subst. destruct (IH H1) as (Ha & Hb & Hab).
    apply Forall_app in H2. destruct H2 as [H2 H3]. split; [constructor; assumption|]. split; [assumption|].
    intros u v [->|Hu] Hv; [rewrite Forall_forall in H3; auto|auto].
Qed.

Lemma noninc_rev s : noninc s -> nondec (rev s).
Proof.
  induction 1 as [|x s Hs IH Hx]; [constructor|]. simpl. apply ss_app; [assumption|repeat constructor|].
  intros u v Hu [<-|[]]. apply in_rev in Hu. rewrite Forall_forall in Hx. auto.
Qed.

(** ** The two scans *)
Lemma np_pivot_spec (l : list nat) : forall i, i < length l -> noninc (skipn i l) ->
  (np_pivot l i = Ok 0 /\ noninc l) \/
  exists a p s, l = a ++ p :: s /\ np_pivot l i = Ok (S (length a)) /\ noninc s /\ s <> [] /\ p < hd 0 s.
Proof.
  assert (Hsk : forall k, k < length l -> skipn k l = nth k l 0 :: skipn (S k) l).
  { clear. induction l as [|x l IH]; intros k Hk; [simpl in Hk; lia|].
    destruct k; [reflexivity|]. simpl. apply IH. simpl in Hk. lia. }
  induction i as [|i IH]; intros Hi Hs.
  - left. split; [reflexivity|assumption].
  - cbn [np_pivot]. rewrite (nth_res_nth l i 0) by lia. cbn [bind].
    rewrite (nth_res_nth l (S i) 0) by lia. cbn [bind].
    destruct (Nat.leb_spec (nth (S i) l 0) (nth i l 0)) as [Hle|Hgt].
    + apply IH; [lia|]. rewrite Hsk by lia. constructor; [assumption|].
      rewrite Hsk in Hs |- * by lia. inversion Hs as [|? ? H1 H2]; subst. constructor; [assumption|].
      eapply Forall_impl; [|exact H2]. intros b Hb. cbv beta in *. lia.
    + right. exists (firstn i l), (nth i l 0), (skipn (S i) l). split.
      { rewrite <- Hsk by lia. symmetry. apply firstn_skipn. }
      split; [rewrite firstn_length_le by lia; reflexivity|]. split; [assumption|].
      rewrite Hsk by lia. split; [discriminate|]. simpl. assumption.
Qed.

Lemma nth_res_app_r {A} (a b : list A) i : nth_res (a ++ b) (length a + i) = nth_res b i.
Proof.
  unfold nth_res. rewrite nth_error_app2 by lia. replace (length a + i - length a) with i by lia. reflexivity.
Qed.

Lemma np_succ_S l p j : np_succ l p (S j) = (x <- nth_res l (S j) ;; if x <=? p then np_succ l p j else Ok (S j)).
Proof. reflexivity. Qed.
Lemma np_succ_0 l p : np_succ l p 0 = (x <- nth_res l 0 ;; if x <=? p then Panic else Ok 0).
Proof. reflexivity. Qed.

Lemma np_succ_spec a p s1 x s2 : x > p -> Forall (fun y => y <= p) s2 ->
  np_succ (a ++ s1 ++ x :: s2) p (length (a ++ s1 ++ x :: s2) - 1) = Ok (length a + length s1).
Proof.
  intros Hx Hs2. rewrite app_assoc. set (b := a ++ s1).
  replace (length a + length s1) with (length b) by (unfold b; rewrite app_length; reflexivity). clearbody b. clear a s1.
  rewrite app_length. simpl length. replace (length b + S (length s2) - 1) with (length b + length s2) by lia.
  revert Hs2. induction s2 as [|y s2 IH] using rev_ind; intros Hs2.
  - simpl length. rewrite Nat.add_0_r.
    assert (Hn : nth_res (b ++ [x]) (length b) = Ok x).
    { rewrite <- (Nat.add_0_r (length b)). rewrite nth_res_app_r. reflexivity. }
    destruct (length b) as [|k]; [rewrite np_succ_0|rewrite np_succ_S]; rewrite Hn; cbn [bind];
      replace (x <=? p) with false by (symmetry; apply Nat.leb_gt; lia); reflexivity.
  - rewrite app_length. simpl length. replace (length b + (length s2 + 1)) with (S (length b + length s2)) by lia.
    rewrite np_succ_S.
    apply Forall_app in Hs2. destruct Hs2 as [Hs2 Hy]. inversion Hy as [|? ? Hy' _]; subst.
    assert (Hn : nth_res (b ++ x :: s2 ++ [y]) (S (length b + length s2)) = Ok y).
    { replace (S (length b + length s2)) with (length b + S (length s2 + 0)) by lia. rewrite nth_res_app_r.
      change (x :: s2 ++ [y]) with ((x :: s2) ++ [y]).
      change (S (length s2 + 0)) with (length (x :: s2) + 0). rewrite nth_res_app_r. reflexivity. }
    rewrite Hn. cbn [bind]. replace (y <=? p) with true by (symmetry; apply Nat.leb_le; lia).
    assert (Hext : forall j, j <= length b + length s2 ->
              np_succ (b ++ x :: s2 ++ [y]) p j = np_succ (b ++ x :: s2) p j).
    { assert (Hne : forall j, j <= length b + length s2 -> nth_res (b ++ x :: s2 ++ [y]) j = nth_res (b ++ x :: s2) j).
      { intros j Hj. unfold nth_res. change (x :: s2 ++ [y]) with ((x :: s2) ++ [y]). rewrite app_assoc.
        rewrite nth_error_app1 by (rewrite app_length; simpl; lia). reflexivity. }
      induction j as [|j IHj]; intros Hj; [rewrite !np_succ_0, Hne by lia; reflexivity|].
      rewrite !np_succ_S, Hne, IHj by lia. reflexivity. }
    rewrite Hext by lia. apply IH. assumption.
Qed.

Lemma split_noninc s p : noninc s -> s <> [] -> p < hd 0 s ->
  exists s1 x s2, s = s1 ++ x :: s2 /\ p < x /\ Forall (fun y => y <= p) s2 /\ Forall (fun y => x <= y) s1.
Proof.
  induction 1 as [|x s Hs IH Hx]; intros Hne Hp; [congruence|]. simpl in Hp.
  destruct s as [|y s]; [exists [], x, []; repeat split; auto|].
  destruct (Nat.lt_ge_cases p y) as [Hy|Hy].
  - destruct (IH ltac:(discriminate) Hy) as (s1 & z & s2 & E & Hz & H2 & H1).
    exists (x :: s1), z, s2. split; [rewrite E; reflexivity|]. split; [assumption|]. split; [assumption|].
    constructor; [|assumption]. rewrite Forall_forall in Hx. apply Hx. rewrite E. apply in_elt.
  - exists [], x, (y :: s). split; [reflexivity|]. split; [assumption|]. split; [|constructor].
    inversion Hs as [|? ? Hs1 Hs2]; subst. constructor; [assumption|].
    eapply Forall_impl; [|exact Hs2]. intros b Hb. cbv beta in *. lia.
Qed.

Lemma upd_app {A} (a : list A) x y b : upd (a ++ x :: b) (length a) y = a ++ y :: b.
Proof. induction a; simpl; [reflexivity|]. rewrite IHa. reflexivity. Qed.

(** ** next_permutation is the lexicographic successor *)
Theorem next_permutation_spec l :
  exists b l', next_permutation l = Ok (b, l') /\ Permutation l l' /\
    (b = true -> lex l l' /\ forall q, Permutation l q -> lex l q -> q = l' \/ lex l' q) /\
    (b = false -> l' = l /\ forall q, Permutation l q -> q = l \/ lex q l).
Proof.
  destruct l as [|h t].
  { exists false, []. split; [reflexivity|]. split; [constructor|]. split; [discriminate|].
    intros _. split; [reflexivity|]. intros q Hq. apply Permutation_nil in Hq. auto. }
  set (l := h :: t). assert (Hlen : 0 < length l) by (simpl; lia).
  assert (Eq : next_permutation l =
    (i <- np_pivot l (length l - 1) ;;
     match i with
     | O => Ok (false, l)
     | S i' =>
       p <- nth_res l i' ;;
       j <- np_succ l p (length l - 1) ;;
       x <- nth_res l j ;;
       let l1 := upd (upd l i' x) j p in
       Ok (true, firstn i l1 ++ rev (skipn i l1))
     end)) by reflexivity.
  rewrite Eq. clear Eq. clearbody l. clear h t.
  destruct (np_pivot_spec l (length l - 1)) as [[Ep Hs]|(a & p & s & El & Ep & Hs & Hne & Hp)].
  - lia.
  - destruct (exists_last (l := l)) as (l' & x & ->); [intros ->; simpl in Hlen; lia|].
    rewrite app_length. simpl. replace (length l' + 1 - 1) with (length l' + 0) by lia.
    rewrite skipn_app, skipn_all2 by lia. replace (length l' + 0 - length l') with 0 by lia. simpl. repeat constructor.
  - rewrite Ep. cbn [bind]. exists false, l. split; [reflexivity|]. split; [apply Permutation_refl|].
    split; [discriminate|]. intros _. split; [reflexivity|]. intros q Hq. apply noninc_max; assumption.
  - rewrite Ep. cbn [bind].
    destruct (split_noninc s p Hs Hne Hp) as (s1 & x & s2 & Es & Hx & Hs2 & Hs1).
    assert (Enth : nth_res l (length a) = Ok p).
    { rewrite El. rewrite <- (Nat.add_0_r (length a)), nth_res_app_r. reflexivity. }
    rewrite Enth. cbn [bind].
    assert (El2 : l = (a ++ [p]) ++ s1 ++ x :: s2) by (rewrite El, Es, <- app_assoc; reflexivity).
    assert (Esucc : np_succ l p (length l - 1) = Ok (length (a ++ [p]) + length s1)).
    { rewrite El2. apply np_succ_spec; [lia|assumption]. }
    rewrite Esucc. cbn [bind].
    assert (Enx : nth_res l (length (a ++ [p]) + length s1) = Ok x).
    { rewrite El2. rewrite nth_res_app_r. rewrite <- (Nat.add_0_r (length s1)), nth_res_app_r. reflexivity. }
    rewrite Enx. cbn [bind]. cbv zeta.
    assert (Eupd : upd (upd l (length a) x) (length (a ++ [p]) + length s1) p = a ++ x :: s1 ++ p :: s2).
    { rewrite El at 1. rewrite upd_app. rewrite Es.
      replace (a ++ x :: s1 ++ x :: s2) with ((a ++ x :: s1) ++ x :: s2) by (rewrite <- app_assoc; reflexivity).
      replace (length (a ++ [p]) + length s1) with (length (a ++ x :: s1)) by (rewrite !app_length; simpl; lia).
      rewrite upd_app, <- app_assoc. reflexivity. }
    rewrite Eupd.
    replace (firstn (S (length a)) (a ++ x :: s1 ++ p :: s2)) with (a ++ [x]).
    2:{ replace (a ++ x :: s1 ++ p :: s2) with ((a ++ [x]) ++ s1 ++ p :: s2) by (rewrite <- app_assoc; reflexivity).
        replace (S (length a)) with (length (a ++ [x]) + 0) by (rewrite app_length; simpl; lia).
        rewrite firstn_app_2. rewrite firstn_O, app_nil_r. reflexivity. }
    replace (skipn (S (length a)) (a ++ x :: s1 ++ p :: s2)) with (s1 ++ p :: s2).
    2:{ replace (a ++ x :: s1 ++ p :: s2) with ((a ++ [x]) ++ s1 ++ p :: s2) by (rewrite <- app_assoc; reflexivity).
        replace (S (length a)) with (length (a ++ [x])) by (rewrite app_length; simpl; lia).
        rewrite skipn_app, skipn_all, Nat.sub_diag. reflexivity. }
    rewrite <- app_assoc. simpl app at 2.
    assert (HPs : Permutation (p :: s) (x :: s1 ++ p :: s2)).
    { rewrite Es. rewrite <- (Permutation_middle s1 s2 x). rewrite <- (Permutation_middle s1 s2 p). apply perm_swap. }
    eexists true, _. split; [reflexivity|]. split; [|split; [|discriminate]].
    + rewrite El. apply Permutation_app_head. rewrite HPs. apply perm_skip. apply Permutation_rev.
    + intros _. split; [rewrite El; apply lex_app; apply lex_head; assumption|].
      assert (Hni : noninc (s1 ++ p :: s2)).
      { rewrite Es in Hs. apply ss_app_inv in Hs. destruct Hs as (Ha & Hb & Hab).
        inversion Hb as [|? ? Hb1 Hb2]; subst. apply ss_app; [assumption|constructor; assumption|].
        intros u v Hu [<-|Hv]; [|apply Hab; [assumption|right; assumption]].
        rewrite Forall_forall in Hs1. specialize (Hs1 u Hu). lia. }
      intros q Hq Hlex.
      (* compare q with the common prefix a *)
      rewrite El in Hq, Hlex. clear -Hq Hlex Hs Hx Hs2 Hs1 Es HPs Hni.
      revert q Hq Hlex. induction a as [|y a IH]; intros q Hq Hlex.
      * simpl in *. destruct q as [|z q]; [inversion Hlex|].
        inversion Hlex as [? ? ? ? Hlt|? ? ? Hlt]; subst.
        -- assert (Hz : In z (s1 ++ x :: s2)).
           { assert (Hin : In z (p :: s1 ++ x :: s2)) by (apply (Permutation_in _ (Permutation_sym Hq)); left; reflexivity).
             destruct Hin as [->|Hin]; [lia|assumption]. }
           assert (Hxz : x <= z).
           { apply in_app_or in Hz. rewrite !Forall_forall in *. destruct Hz as [Hz|[->|Hz]]; [auto|lia|].
             specialize (Hs2 z Hz). lia. }
           destruct (Nat.eq_dec z x) as [->|Hzx]; [|right; apply lex_head; lia].
           rewrite HPs in Hq. apply Permutation_cons_inv in Hq.
           destruct (nondec_min (rev (s1 ++ p :: s2)) q) as [->|Hl].
           ++ apply noninc_rev. assumption.
           ++ rewrite <- Permutation_rev. assumption.
           ++ left; reflexivity.
           ++ right. apply lex_tail. assumption.
        -- exfalso. apply Permutation_cons_inv in Hq.
           destruct (noninc_max _ q Hs Hq) as [->|Hl]; [apply (lex_irrefl _ Hlt)|].
           apply (lex_irrefl q). apply (lex_trans _ _ _ Hl Hlt).
      * simpl in *. destruct q as [|z q]; [inversion Hlex|].
        inversion Hlex as [? ? ? ? Hlt|? ? ? Hlt]; subst.
        -- right. apply lex_head. assumption.
        -- apply Permutation_cons_inv in Hq. destruct (IH q Hq Hlt) as [->|Hl]; [auto|right; apply lex_tail; assumption].
Qed.

(** ** All arrangements, to count them *)
Fixpoint insert_all (x : nat) (l : list nat) : list (list nat) :=
  (x :: l) :: match l with [] => [] | y :: t => map (cons y) (insert_all x t) end.
Fixpoint perms (l : list nat) : list (list nat) :=
  match l with
  | [] => [[]]
  | x :: t => flat_map (insert_all x) (perms t)
  end.

Lemma insert_all_length x l : length (insert_all x l) = S (length l).
Proof. induction l; simpl; [reflexivity|]. rewrite map_length, IHl. reflexivity. Qed.

Lemma insert_all_In x p q : In (p ++ x :: q) (insert_all x (p ++ q)).
Proof.
  induction p as [|y p IH]; simpl.
  - destruct q; left; reflexivity.
  - right. apply in_map. assumption.
Qed.

Lemma insert_all_perm x l q : In q (insert_all x l) -> Permutation (x :: l) q.
Proof.
  revert q. induction l as [|y l IH]; simpl; intros q H.
  - destruct H as [<-|[]]. apply Permutation_refl.
  - destruct H as [<-|H]; [apply Permutation_refl|]. apply in_map_iff in H. destruct H as (q' & <- & H).
    rewrite perm_swap. apply perm_skip. auto.
Qed.

Lemma perms_perm l q : In q (perms l) -> Permutation l q.
Proof.
  revert q. induction l as [|x l IH]; simpl; intros q H.
  - destruct H as [<-|[]]. constructor.
  - apply in_flat_map in H. destruct H as (p & Hp & Hq). rewrite (IH p Hp). apply insert_all_perm. assumption.
Qed.

Lemma perms_complete l q : Permutation l q -> In q (perms l).
Proof.
  revert q. induction l as [|x l IH]; intros q H.
  - apply Permutation_nil in H. subst. left; reflexivity.
  - assert (Hin : In x q) by (apply (Permutation_in _ H); left; reflexivity).
    apply in_split in Hin. destruct Hin as (q1 & q2 & ->). apply Permutation_cons_app_inv in H.
    simpl. apply in_flat_map. exists (q1 ++ q2). split; [auto|apply insert_all_In].
Qed.

Lemma perms_length l : length (perms l) = fact (length l).
Proof.
  induction l as [|x l IH]; [reflexivity|]. simpl perms.
  assert (G : forall L : list (list nat), (forall q, In q L -> length q = length l) ->
    length (flat_map (insert_all x) L) = S (length l) * length L).
  { induction L as [|q L IHL]; intros HL; [simpl; lia|]. simpl. rewrite app_length, insert_all_length.
    rewrite HL by (left; reflexivity). rewrite IHL by (intros; apply HL; right; assumption). lia. }
  rewrite G.
  - rewrite IH. simpl. lia.
  - intros q Hq. apply perms_perm in Hq. symmetry. apply Permutation_length. assumption.
Qed.

Fixpoint lexb (p q : list nat) : bool :=
  match p, q with
  | a :: p', b :: q' => (a <? b) || ((a =? b) && lexb p' q')
  | _, _ => false
  end.

Lemma lexb_lex p q : lexb p q = true <-> lex p q.
Proof.
  revert q. induction p as [|a p IH]; intros [|b q]; simpl; try (split; [discriminate|intros H; inversion H]).
  rewrite orb_true_iff, andb_true_iff, Nat.ltb_lt, Nat.eqb_eq, IH. split.
  - intros [H|[-> H]]; [apply lex_head|apply lex_tail]; assumption.
  - intros H. inversion H; subst; auto.
Qed.

Lemma filter_le {A} (f g : A -> bool) l : (forall x, In x l -> f x = true -> g x = true) ->
  length (filter f l) <= length (filter g l).
Proof.
  induction l as [|x l IH]; intros H; [simpl; lia|]. simpl.
  assert (IH' := IH ltac:(intros; apply H; [right|]; assumption)).
  destruct (f x) eqn:Ef; [rewrite (H x (or_introl eq_refl) Ef); simpl; lia|].
  destruct (g x); simpl; lia.
Qed.

Lemma filter_lt {A} (f g : A -> bool) l y : (forall x, In x l -> f x = true -> g x = true) ->
  In y l -> f y = false -> g y = true -> length (filter f l) < length (filter g l).
Proof.
  induction l as [|x l IH]; intros H Hy Hf Hg; [destruct Hy|]. simpl.
  assert (H' : forall x, In x l -> f x = true -> g x = true) by (intros; apply H; [right|]; assumption).
  destruct Hy as [->|Hy].
  - rewrite Hf, Hg. simpl. pose proof (filter_le f g l H'). lia.
  - specialize (IH H' Hy Hf Hg). destruct (f x) eqn:Ef.
    + rewrite (H x (or_introl eq_refl) Ef). simpl. lia.
    + destruct (g x); simpl; lia.
Qed.

(** number of arrangements of [L] greater than [p] *)
Definition aboveL (L p : list nat) : nat := length (filter (lexb p) (perms L)).

Lemma aboveL_lt L p q : Permutation L q -> lex p q -> aboveL L q < aboveL L p.
Proof.
  intros HP Hl. unfold aboveL. apply (filter_lt _ _ _ q).
  - intros x _ Hx. apply lexb_lex in Hx. apply lexb_lex. apply (lex_trans _ q); assumption.
  - apply perms_complete. assumption.
  - destruct (lexb q q) eqn:E; [|reflexivity]. apply lexb_lex in E. exfalso. apply (lex_irrefl _ E).
  - apply lexb_lex. assumption.
Qed.

Lemma aboveL_fact L p : Permutation L p -> aboveL L p < fact (length L).
Proof.
  intros HP. unfold aboveL. rewrite <- perms_length.
  assert (length (filter (lexb p) (perms L)) < length (filter (fun _ => true) (perms L))).
  { apply (filter_lt _ _ _ p); auto.
    - apply perms_complete. assumption.
    - destruct (lexb p p) eqn:E; [|reflexivity]. apply lexb_lex in E. exfalso. apply (lex_irrefl _ E). }
  assert (E : filter (fun _ : list nat => true) (perms L) = perms L).
  { generalize (perms L). clear. induction l; simpl; congruence. }
  rewrite E in H. assumption.
Qed.

(** ** Iteration *)
Fixpoint iterate_np (k : nat) (l : list nat) : res (list nat) :=
  match k with
  | O => Ok l
  | S k => '(b, l') <- next_permutation l ;; if b : bool then iterate_np k l' else Panic
  end.

Lemma iterate_np_reach : forall k l q, Permutation l q -> lex l q -> aboveL l l - aboveL l q <= k ->
  exists i, i <= k /\ iterate_np i l = Ok q.
Proof.
  assert (G : forall k L l q, Permutation L l -> Permutation L q -> lex l q -> aboveL L l - aboveL L q <= k ->
     exists i, i <= k /\ iterate_np i l = Ok q).
  { induction k as [|k IH]; intros L l q HL HP Hl Hk.
    - pose proof (aboveL_lt L l q HP Hl). lia.
    - destruct (next_permutation_spec l) as (b & l' & E & HPl & Ht & Hf).
      assert (HPlq : Permutation l q) by (transitivity L; [symmetry|]; assumption).
      destruct b.
      + destruct (Ht eq_refl) as [Hll Hnext]. clear Hf.
        destruct (Hnext q HPlq Hl) as [->|Hlq].
        * exists 1. split; [lia|]. simpl. rewrite E. reflexivity.
        * destruct (IH L l' q) as (i & Hi & Ei).
          -- transitivity l; assumption.
          -- assumption.
          -- assumption.
          -- pose proof (aboveL_lt L l l' ltac:(transitivity l; assumption) Hll).
             pose proof (aboveL_lt L l' q HP Hlq). lia.
          -- exists (S i). split; [lia|]. simpl. rewrite E. simpl. assumption.
      + destruct (Hf eq_refl) as [_ Hmax]. exfalso. destruct (Hmax q HPlq) as [->|Hq].
        * apply (lex_irrefl _ Hl).
        * apply (lex_irrefl _ (lex_trans _ _ _ Hl Hq)). }
  intros k l q HP. apply (G k l l q); auto.
Qed.

Theorem iterate_np_all l q : nondec l -> Permutation l q ->
  exists i, i < fact (length l) /\ iterate_np i l = Ok q.
Proof.
  intros Hs HP. destruct (nondec_min l q Hs HP) as [->|Hl].
  - exists 0. split; [apply lt_O_fact|reflexivity].
  - destruct (iterate_np_reach (aboveL l l - aboveL l q) l q HP Hl (Nat.le_refl _)) as (i & Hi & E).
    exists i. split; [|assumption]. pose proof (aboveL_fact l l (Permutation_refl _)). lia.
Qed.

(** ** The enumeration loops, for any ordered arithmetic *)
Section Enum.
Context {N : Num} (O : NumOrd N).
Variable g : adj N.
Variable ev : list nat -> C N.

Section Loop.
(** the part of the permutation that stays in front: [] for V0, [0] for V1 *)
Variable front : list nat.
Variable L : list nat.
Hypothesis Hev : forall q, Permutation L q -> evaluate_circle g (front ++ q) = Ok (ev (front ++ q)).
Hypothesis Hnn : forall q, Permutation L q -> cnan (ev (front ++ q)) = false.
Variable init : solution N.
Hypothesis Hinit : fst init = cinf.

Definition step_best (best : solution N) (p : list nat) : solution N :=
  if clt (ev p) (fst best) then (ev p, p) else best.

(** what the best solution looks like after everything in [V] has been seen *)
Definition best_ok (V : list nat -> Prop) (best : solution N) : Prop :=
  (best = init \/ exists p, Permutation L p /\ V p /\ best = (ev (front ++ p), front ++ p)) /\
  (forall q, Permutation L q -> V q -> cle (fst best) (ev (front ++ q)) = true).

Lemma best_nnan V best : best_ok V best -> cnan (fst best) = false.
Proof.
  intros [[->|(p & Hp & _ & ->)] _]; [rewrite Hinit; apply (cinf_nnan O)|apply Hnn; assumption].
Qed.

Lemma best_step V best p : best_ok V best -> Permutation L p ->
  best_ok (fun q => V q \/ q = p) (step_best best (front ++ p)).
Proof.
  intros Hb HP. pose proof (best_nnan V best Hb) as Hbn. destruct Hb as [H1 H2]. unfold step_best.
  destruct (clt (ev (front ++ p)) (fst best)) eqn:E.
  - split.
    + right. exists p. auto.
    + intros q Hq [HV|Hqp]; simpl.
      * apply (clt_le O). eapply (clt_cle_trans O); eauto.
      * subst q. apply (cle_refl O). auto.
  - split.
    + destruct H1 as [H1|(p' & Hp' & HV & Hb)]; [auto|]. right. exists p'. auto.
    + intros q Hq [HV|Hqp]; [auto|]. subst q. apply (nclt_cle O); auto.
Qed.

Lemma best_ext V V' best : (forall q, Permutation L q -> (V q <-> V' q)) -> best_ok V best -> best_ok V' best.
Proof.
  intros H [H1 H2]. split.
  - destruct H1 as [H1|(p' & Hp' & HV & Hb)]; [auto|]. right. exists p'. split; [assumption|]. split; [apply H; assumption|assumption].
  - intros q Hq HV. apply H2; [assumption|]. apply H; assumption.
Qed.

(** [V]: greater than the start and not greater than the current one *)
Lemma best_next start cur cur' best : Permutation L cur -> Permutation cur cur' -> lex cur cur' ->
  (cur = start \/ lex start cur) ->
  (forall q, Permutation cur q -> lex cur q -> q = cur' \/ lex cur' q) ->
  best_ok (fun q => lex start q /\ (q = cur \/ lex q cur)) best ->
  best_ok (fun q => lex start q /\ (q = cur' \/ lex q cur')) (step_best best (front ++ cur')).
Proof.
  intros HL HP Hl Hst Hnext Hb.
  assert (HL' : Permutation L cur') by (transitivity cur; assumption).
  apply (best_ext (fun q => (lex start q /\ (q = cur \/ lex q cur)) \/ q = cur')); [|apply best_step; assumption].
  intros q Hq. split.
  - intros [[H1 [->|H2]] | ->].
    + split; [assumption|right; assumption].
    + split; [assumption|]. right. apply (lex_trans _ cur); assumption.
    + split; [|auto]. destruct Hst as [<-|Hst]; [assumption|apply (lex_trans _ cur); assumption].
  - intros [H1 [->|H2]]; [right; reflexivity|].
    assert (HPq : Permutation cur q) by (transitivity L; [symmetry|]; assumption).
    destruct (lex_total q cur ltac:(symmetry; apply Permutation_length; assumption)) as [->|[H3|H3]]; [auto|auto|].
    destruct (Hnext q HPq H3) as [->|H4]; [auto|]. exfalso. apply (lex_irrefl q). apply (lex_trans _ cur'); assumption.
Qed.
End Loop.

Lemma naive_loop_spec L init start :
  (forall q, Permutation L q -> evaluate_circle g q = Ok (ev q)) ->
  (forall q, Permutation L q -> cnan (ev q) = false) -> fst init = cinf ->
  forall fuel cur best, aboveL L cur < fuel -> Permutation L cur -> (cur = start \/ lex start cur) ->
  best_ok [] L init (fun q => lex start q /\ (q = cur \/ lex q cur)) best ->
  exists s, naive_loop fuel g cur best = Ok s /\ best_ok [] L init (fun q => lex start q) s.
Proof.
  intros Hev Hnn Hinit. induction fuel as [|f IH]; intros cur best Hf HL Hst Hb; [lia|]. cbn [naive_loop].
  destruct (next_permutation_spec cur) as (b & cur' & E & HP & Ht & Hfl). rewrite E. cbn [bind].
  assert (HL' : Permutation L cur') by (transitivity cur; assumption).
  destruct b.
  - destruct (Ht eq_refl) as [Hl Hnext]. rewrite Hev by assumption. cbn [bind].
    change (if clt (ev cur') (fst best) then (ev cur', cur') else best) with (step_best best ([] ++ cur')).
    apply IH.
    + pose proof (aboveL_lt L cur cur' HL' Hl). lia.
    + assumption.
    + right. destruct Hst as [<-|Hst]; [assumption|apply (lex_trans _ cur); assumption].
    + apply (best_next [] L Hnn init Hinit start cur cur'); assumption.
  - destruct (Hfl eq_refl) as [-> Hmax]. exists best. split; [reflexivity|].
    apply (best_ext [] L init (fun q => lex start q /\ (q = cur \/ lex q cur))); [|assumption].
    intros q Hq. split; [tauto|]. intros H. split; [assumption|]. apply Hmax. transitivity L; [symmetry|]; assumption.
Qed.

Lemma first_loop_spec h L init start :
  (forall q, Permutation L q -> evaluate_circle g (h :: q) = Ok (ev (h :: q))) ->
  (forall q, Permutation L q -> cnan (ev (h :: q)) = false) -> fst init = cinf ->
  forall fuel cur best, aboveL L cur < fuel -> Permutation L cur -> (cur = start \/ lex start cur) ->
  best_ok [h] L init (fun q => lex start q /\ (q = cur \/ lex q cur)) best ->
  exists s, first_loop fuel g (h :: cur) best = Ok s /\ best_ok [h] L init (fun q => lex start q) s.
Proof.
  intros Hev Hnn Hinit. induction fuel as [|f IH]; intros cur best Hf HL Hst Hb; [lia|]. cbn [first_loop].
  destruct (next_permutation_spec cur) as (b & cur' & E & HP & Ht & Hfl). rewrite E. cbn [bind].
  assert (HL' : Permutation L cur') by (transitivity cur; assumption).
  destruct b.
  - destruct (Ht eq_refl) as [Hl Hnext]. rewrite Hev by assumption. cbn [bind].
    change (if clt (ev (h :: cur')) (fst best) then (ev (h :: cur'), h :: cur') else best) with (step_best best ([h] ++ cur')).
    apply IH.
    + pose proof (aboveL_lt L cur cur' HL' Hl). lia.
    + assumption.
    + right. destruct Hst as [<-|Hst]; [assumption|apply (lex_trans _ cur); assumption].
    + apply (best_next [h] L Hnn init Hinit start cur cur'); assumption.
  - destruct (Hfl eq_refl) as [-> Hmax]. exists best. split; [reflexivity|].
    apply (best_ext [h] L init (fun q => lex start q /\ (q = cur \/ lex q cur))); [|assumption].
    intros q Hq. split; [tauto|]. intros H. split; [assumption|]. apply Hmax. transitivity L; [symmetry|]; assumption.
Qed.

Lemma seq_nondec a k : nondec (seq a k).
Proof.
  revert a. induction k as [|k IH]; intros a; [constructor|]. simpl. constructor; [apply IH|].
  apply Forall_forall. intros x Hx. apply in_seq in Hx. lia.
Qed.

(** V0: the best of the evaluations of all arrangements but the sorted one *)
Theorem naive_generic :
  (forall q, is_tour (a_dim g) q -> evaluate_circle g q = Ok (ev q)) ->
  (forall q, is_tour (a_dim g) q -> cnan (ev q) = false) ->
  exists c p, naive_solver g = Ok (c, p) /\ is_tour (a_dim g) p /\
    (c = ev p /\ p <> seq 0 (a_dim g) \/ c = cinf /\ p = seq 0 (a_dim g)) /\
    forall q, is_tour (a_dim g) q -> q <> seq 0 (a_dim g) -> cle c (ev q) = true.
Proof.
  intros Hev Hnn. set (n := a_dim g) in *. unfold naive_solver. fold n.
  destruct (naive_loop_spec (seq 0 n) (cinf, seq 0 n) (seq 0 n)) with (fuel := fact n) (cur := seq 0 n) (best := (cinf, seq 0 n) : solution N)
    as ([c p] & E & H1 & H2).
  - intros q Hq. apply Hev. apply Permutation_sym. assumption.
  - intros q Hq. apply Hnn. apply Permutation_sym. assumption.
  - reflexivity.
  - pose proof (aboveL_fact (seq 0 n) (seq 0 n) (Permutation_refl _)). rewrite seq_length in H. assumption.
  - apply Permutation_refl.
  - left; reflexivity.
  - split; [left; reflexivity|]. intros q Hq [Ha [->|Hb]]; exfalso; [apply (lex_irrefl _ Ha)|].
    apply (lex_irrefl _ (lex_trans _ _ _ Ha Hb)).
  - exists c, p. split; [exact E|]. split; [|split].
    + destruct H1 as [H1|(p' & Hp' & _ & H1)]; injection H1 as _ ->; [apply tour_seq|apply Permutation_sym; assumption].
    + destruct H1 as [H1|(p' & Hp' & Hl & H1)]; injection H1 as -> ->; [right; auto|].
      left. split; [reflexivity|]. simpl. intros ->. apply (lex_irrefl _ Hl).
    + intros q Hq Hne. apply (H2 q); [apply Permutation_sym; assumption|].
      destruct (nondec_min (seq 0 n) q) as [->|Hl]; [apply seq_nondec|apply Permutation_sym; assumption|congruence|assumption].
Qed.

(** V1: the best of the evaluations of all arrangements that start with 0, but the sorted one *)
Theorem first_generic : 1 <= a_dim g ->
  (forall q, is_tour (a_dim g) q -> evaluate_circle g q = Ok (ev q)) ->
  (forall q, is_tour (a_dim g) q -> cnan (ev q) = false) ->
  exists c p, first_improved_solver g = Ok (c, p) /\ is_tour (a_dim g) p /\ hd 0 p = 0 /\
    (c = ev p /\ p <> seq 0 (a_dim g) \/ c = cinf /\ p = seq 0 (a_dim g)) /\
    forall q, is_tour (a_dim g) (0 :: q) -> 0 :: q <> seq 0 (a_dim g) -> cle c (ev (0 :: q)) = true.
Proof.
  intros Hn Hev Hnn. unfold first_improved_solver. set (n := a_dim g) in *.
  destruct n as [|n']; [lia|]. change (seq 0 (S n')) with (0 :: seq 1 n'). set (L := seq 1 n').
  assert (Htour : forall q, Permutation L q <-> is_tour (S n') (0 :: q)).
  { intros q. unfold is_tour. change (seq 0 (S n')) with (0 :: L). split; intros H.
    - apply perm_skip, Permutation_sym. assumption.
    - apply Permutation_cons_inv in H. apply Permutation_sym. assumption. }
  destruct (first_loop_spec 0 L (cinf, 0 :: L) L) with (fuel := fact (S n')) (cur := L) (best := (cinf, 0 :: L) : solution N)
    as ([c p] & E & H1 & H2).
  - intros q Hq. apply Hev. apply Htour. assumption.
  - intros q Hq. apply Hnn. apply Htour. assumption.
  - reflexivity.
  - pose proof (aboveL_fact L L (Permutation_refl _)).
    assert (HL : length L = n') by apply seq_length. rewrite HL in H.
    pose proof (fact_le n' (S n') ltac:(lia)). lia.
  - apply Permutation_refl.
  - left; reflexivity.
  - split; [left; reflexivity|]. intros q Hq [Ha [->|Hb]]; exfalso; [apply (lex_irrefl _ Ha)|].
    apply (lex_irrefl _ (lex_trans _ _ _ Ha Hb)).
  - exists c, p. split; [exact E|]. split; [|split; [|split]].
    + destruct H1 as [H1|(p' & Hp' & _ & H1)]; injection H1 as _ ->; apply Htour; [apply Permutation_refl|assumption].
    + destruct H1 as [H1|(p' & Hp' & _ & H1)]; injection H1 as _ ->; reflexivity.
    + destruct H1 as [H1|(p' & Hp' & Hl & H1)]; injection H1 as -> ->; [right; auto|].
      left. split; [reflexivity|]. simpl. intros Heq. injection Heq as ->. apply (lex_irrefl _ Hl).
    + intros q Hq Hne. apply (H2 q); [apply Htour; assumption|].
      destruct (nondec_min L q) as [->|Hl]; [apply seq_nondec|apply Htour; assumption|congruence|assumption].
Qed.
End Enum.

(** ** evaluate_path and evaluate_circle *)
Section Eval.
Context {N : Num} {B : Z} (E : Exact N B).
Variable g : adj N.
Variable w : nat -> nat -> Z.
Variable W : Z.

Definition cell_ok (i j : nat) : Prop := a_get g i j = Ok (inj E (w i j)) /\ (Z.abs (w i j) <= W)%Z.
Definition steps_ok (p : list nat) : Prop :=
  forall k, S k < length p -> cell_ok (nth k p 0) (nth (S k) p 0).

Lemma path_cost_firstn p k : S k < length p ->
  path_cost w (firstn (S (S k)) p) = (path_cost w (firstn (S k) p) + w (nth k p 0%nat) (nth (S k) p 0%nat))%Z.
Proof.
  revert k. induction p as [|a p IH]; intros k Hk; [simpl in Hk; lia|].
  destruct p as [|b p]; [simpl in Hk; lia|].
  destruct k as [|k]; [simpl; lia|].
  change (firstn (S (S (S k))) (a :: b :: p)) with (a :: b :: firstn (S k) p).
  change (firstn (S (S k)) (a :: b :: p)) with (a :: b :: firstn k p).
  specialize (IH k ltac:(simpl in *; lia)).
  change (firstn (S (S k)) (b :: p)) with (b :: firstn (S k) p) in IH.
  change (firstn (S k) (b :: p)) with (b :: firstn k p) in IH.
  change (nth (S k) (a :: b :: p) 0) with (nth k (b :: p) 0).
  change (nth (S (S k)) (a :: b :: p) 0) with (nth (S k) (b :: p) 0).
  change (path_cost w (a :: b :: firstn (S k) p)) with (w a b + path_cost w (b :: firstn (S k) p))%Z.
  change (path_cost w (a :: b :: firstn k p)) with (w a b + path_cost w (b :: firstn k p))%Z.
  lia.
Qed.

Lemma path_cost_steps p : steps_ok p -> (0 <= W)%Z -> (Z.abs (path_cost w p) <= W * Z.of_nat (length p - 1))%Z.
Proof.
  intros Hs HW. induction p as [|a [|b p] IH]; [simpl; lia..|].
  change (path_cost w (a :: b :: p)) with (w a b + path_cost w (b :: p))%Z.
  assert (Hs' : steps_ok (b :: p)) by (intros k Hk; apply (Hs (S k)); simpl in *; lia).
  specialize (IH Hs'). destruct (Hs 0 ltac:(simpl; lia)) as [_ Hb]. simpl in Hb.
  simpl length in *. replace (S (S (length p)) - 1) with (S (length p)) by lia.
  replace (S (length p) - 1) with (length p) in IH by lia. nia.
Qed.

Theorem evaluate_path_exact p : steps_ok p -> (0 <= W)%Z -> (W * Z.of_nat (length p) <= B)%Z ->
  evaluate_path g p = Ok (inj E (path_cost w p)).
Proof.
  intros Hs HW HB. unfold evaluate_path.
  destruct (Nat.leb_spec (length p) 1) as [Hle|Hgt].
  { rewrite (inj_0 N B E). do 2 f_equal. destruct p as [|a [|b p]]; [reflexivity..|simpl in Hle; lia]. }
  match goal with |- foldM ?f _ _ = _ =>
    destruct (foldM_inv f (fun pre acc => acc = inj E (path_cost w (firstn (S (length pre)) p))) (seq 0 (length p - 1)) c0)
      as (s & Es & ->) end.
  - rewrite (inj_0 N B E). simpl. destruct p; reflexivity.
  - intros pre k post acc Eseq ->.
    assert (Hk : k = length pre /\ k < length p - 1).
    { assert (Hin : length pre < length (seq 0 (length p - 1))) by (rewrite Eseq, app_length; simpl; lia).
      rewrite seq_length in Hin. split; [|assert (In k (seq 0 (length p - 1))) by (rewrite Eseq; apply in_elt); apply in_seq in H; lia].
      assert (nth (length pre) (seq 0 (length p - 1)) 0 = k) by (rewrite Eseq, app_nth2, Nat.sub_diag by lia; reflexivity).
      rewrite seq_nth in H by assumption. lia. }
    destruct Hk as [-> Hk]. rewrite (nth_res_nth p _ 0) by lia. cbn [bind].
    replace (length pre + 1) with (S (length pre)) by lia. rewrite (nth_res_nth p _ 0) by lia. cbn [bind].
    destruct (Hs (length pre) ltac:(lia)) as [Hg Hb]. rewrite Hg. cbn [bind].
    eexists. split; [reflexivity|]. rewrite app_length. simpl length.
    replace (S (length pre + 1)) with (S (S (length pre))) by lia.
    rewrite path_cost_firstn by lia.
    assert (Hpre : forall k, (Z.abs (path_cost w (firstn k p)) <= W * Z.of_nat (length p))%Z).
    { intros k. assert (Hsk : steps_ok (firstn k p)).
      { intros j Hj. rewrite firstn_length in Hj. specialize (Hs j ltac:(lia)).
        rewrite <- (firstn_skipn k p) in Hs. rewrite !app_nth1 in Hs by (rewrite firstn_length; lia). assumption. }
      pose proof (path_cost_steps _ Hsk HW). rewrite firstn_length in H. nia. }
    pose proof (Hpre (S (length pre))). pose proof (Hpre (S (S (length pre)))) as H2.
    rewrite path_cost_firstn in H2 by lia. apply inj_add; nia.
  - rewrite Es. do 3 f_equal. rewrite seq_length. replace (S (length p - 1)) with (length p) by lia. apply firstn_all.
Qed.

Theorem evaluate_circle_exact p : 2 <= length p -> steps_ok p -> cell_ok (last p 0) (hd 0 p) -> (0 <= W)%Z ->
  (W * Z.of_nat (length p) <= B)%Z -> evaluate_circle g p = Ok (inj E (tour_cost w p)).
Proof.
  intros Hl Hs [Hc Hcb] HW HB. unfold evaluate_circle.
  replace (length p <=? 1) with false by (symmetry; apply Nat.leb_gt; lia).
  assert (Hne : p <> []) by (intros ->; simpl in Hl; lia).
  rewrite (last_res_last p 0 Hne), (first_res_hd p 0 Hne). cbn [bind]. rewrite Hc. cbn [bind].
  rewrite evaluate_path_exact by assumption. cbn [bind].
  pose proof (path_cost_steps p Hs HW) as Hpb.
  assert (W * Z.of_nat (length p - 1) + W = W * Z.of_nat (length p))%Z by nia.
  rewrite inj_add by nia. do 2 f_equal.
  destruct p as [|a p]; [congruence|]. unfold tour_cost. simpl hd.
  rewrite (last_default (a :: p) 0 a) by discriminate. reflexivity.
Qed.

(** Tours of a represented matrix *)
Lemma tour_steps n p : n = a_dim g -> represents E g w -> bounded w n W -> is_tour n p ->
  steps_ok p /\ (2 <= n -> cell_ok (last p 0) (hd 0 p)).
Proof.
  intros -> Hrep HW Ht. pose proof (tour_NoDup _ _ Ht) as Hnd.
  assert (Hin : forall x, In x p -> x < a_dim g) by (intros x; apply tour_In; assumption).
  split.
  - intros k Hk.
    assert (H1 : nth k p 0 < a_dim g) by (apply Hin, nth_In; lia).
    assert (H2 : nth (S k) p 0 < a_dim g) by (apply Hin, nth_In; lia).
    split; [|apply HW; assumption]. apply Hrep; try assumption.
    intros Heq. exfalso. apply (NoDup_nth p 0) in Heq; try lia. assumption.
  - intros Hn. assert (Hne : p <> []) by (apply (tour_nonempty _ _ Ht); lia).
    assert (H1 : last p 0 < a_dim g) by (apply Hin, last_In; assumption).
    assert (H2 : hd 0 p < a_dim g) by (apply Hin; destruct p; [congruence|left; reflexivity]).
    split; [|apply HW; assumption]. apply Hrep; try assumption.
    intros Heq. exfalso. apply tour_length in Ht. destruct p as [|a [|b p]]; [congruence|simpl in Ht; lia|].
    inversion Hnd as [|? ? Hni _]; subst. apply Hni. simpl hd in Heq. rewrite <- Heq.
    change (last (a :: b :: p) 0) with (last (b :: p) 0). apply last_In. discriminate.
Qed.
End Eval.

(** ** Optimality of V0 and V1 *)
Section V01.
Context {N : Num} {B : Z} (E : Exact N B) (O : NumOrd N).
Variable g : adj N.
Variable w : nat -> nat -> Z.
Variable W : Z.
Let n := a_dim g.
Hypothesis Hn : 2 <= n.
Hypothesis Hrep : represents E g w.
Hypothesis HW : bounded w n W.
Hypothesis HB : (W * (Z.of_nat n + 1) <= B)%Z.

Let W0 : (0 <= W)%Z.
Proof. pose proof (HW 0 0 ltac:(lia) ltac:(lia)); lia. Qed.

Let Hsmall q : is_tour n q -> (Z.abs (tour_cost w q) <= B)%Z.
Proof.
  intros Hq. pose proof (tour_cost_bound w n q W HW (tour_Forall n q Hq) W0) as H.
  rewrite (tour_length n q Hq) in H. lia.
Qed.

Let Hev q : is_tour n q -> evaluate_circle g q = Ok (inj E (tour_cost w q)).
Proof.
  intros Hq. destruct (tour_steps E g w W n q eq_refl Hrep HW Hq) as [H1 H2].
  pose proof (tour_length n q Hq).
  apply (evaluate_circle_exact E g w W); auto; nia.
Qed.

Let Hnn q : is_tour n q -> cnan (inj E (tour_cost w q)) = false.
Proof. intros Hq. apply (clt_nnan_l O _ cinf). apply inj_lt_inf. auto. Qed.

Theorem naive_optimal :
  exists c p, naive_solver g = Ok (inj E c, p) /\ is_optimal w n c p.
Proof.
  destruct (naive_generic O g (fun q => inj E (tour_cost w q)) Hev Hnn) as (c & p & Es & Ht & Hc & Hmin). fold n in Ht, Hc, Hmin.
  (* a rotation of the sorted tour was evaluated *)
  set (rot := seq 1 (n - 1) ++ [0]).
  assert (Eid : seq 0 n = [0] ++ seq 1 (n - 1)).
  { replace n with (S (n - 1)) at 1 by lia. reflexivity. }
  assert (Hrot : is_tour n rot) by (unfold is_tour, rot; rewrite Eid; apply Permutation_app_comm).
  assert (Hrc : tour_cost w rot = tour_cost w (seq 0 n)) by (rewrite Eid; symmetry; apply tour_cost_rot).
  assert (Hrne : rot <> seq 0 n).
  { unfold rot. rewrite Eid. replace (n - 1) with (S (n - 2)) by lia. simpl. discriminate. }
  assert (Hall : forall q, is_tour n q -> cle c (inj E (tour_cost w q)) = true).
  { intros q Hq. destruct (list_eq_dec Nat.eq_dec q (seq 0 n)) as [->|Hne]; [|apply Hmin; assumption].
    rewrite <- Hrc. apply Hmin; assumption. }
  destruct Hc as [[-> Hne]|[-> Hp]].
  - exists (tour_cost w p), p. split; [assumption|]. split; [assumption|]. split; [reflexivity|].
    intros q Hq. specialize (Hall q Hq). rewrite inj_le in Hall by auto. lia.
  - exfalso. specialize (Hall rot Hrot). rewrite (inf_le_inj N B E) in Hall by auto. discriminate.
Qed.

Theorem first_optimal : 3 <= n -> symmetric w n ->
  exists c p, first_improved_solver g = Ok (inj E c, p) /\ is_optimal w n c p.
Proof.
  intros Hn3 Hsym.
  destruct (first_generic O g (fun q => inj E (tour_cost w q)) ltac:(fold n; lia) Hev Hnn) as (c & p & Es & Ht & Hhd & Hc & Hmin). fold n in Ht, Hc, Hmin.
  assert (Eid : seq 0 n = 0 :: seq 1 (n - 1)).
  { replace n with (S (n - 1)) at 1 by lia. reflexivity. }
  set (rv := rev (seq 1 (n - 1))).
  assert (Hrv : is_tour n (0 :: rv)) by (unfold is_tour, rv; rewrite Eid; apply perm_skip, Permutation_sym, Permutation_rev).
  assert (Hrc : tour_cost w (0 :: rv) = tour_cost w (seq 0 n)).
  { rewrite <- (tour_cost_rev w n (seq 0 n)) by (try assumption; apply tour_Forall, tour_seq).
    rewrite Eid. simpl rev. fold rv. change (0 :: rv) with ([0] ++ rv). apply tour_cost_rot. }
  assert (Hrne : 0 :: rv <> seq 0 n).
  { rewrite Eid. intros Heq. injection Heq as Heq. unfold rv in Heq.
    replace (n - 1) with (S (S (n - 3))) in Heq by lia.
    apply (f_equal (hd 0)) in Heq.
    assert (Hh : forall l : list nat, hd 0 (rev l) = last l 0).
    { clear. intros l. destruct l as [|x l]; [reflexivity|]. destruct (exists_last (l := x :: l)) as (l' & y & ->); [discriminate|].
      rewrite rev_unit, last_last. reflexivity. }
    rewrite Hh in Heq. rewrite seq_S, last_last in Heq. simpl in Heq. lia. }
  assert (Hall : forall q, is_tour n q -> cle c (inj E (tour_cost w q)) = true).
  { intros q Hq. assert (H0 : In 0 q) by (apply (tour_In n q 0 Hq); lia).
    apply in_split in H0. destruct H0 as (q1 & q2 & ->).
    rewrite tour_cost_rot. simpl app.
    assert (Hq' : is_tour n (0 :: q2 ++ q1)).
    { unfold is_tour in *. rewrite <- Hq. change (0 :: q2 ++ q1) with ((0 :: q2) ++ q1). apply Permutation_app_comm. }
    destruct (list_eq_dec Nat.eq_dec (0 :: q2 ++ q1) (seq 0 n)) as [Heq|Hne]; [|apply Hmin; assumption].
    rewrite Heq, <- Hrc. apply Hmin; assumption. }
  destruct Hc as [[-> Hne]|[-> Hp]].
  - exists (tour_cost w p), p. split; [assumption|]. split; [assumption|]. split; [reflexivity|].
    intros q Hq. specialize (Hall q Hq). rewrite inj_le in Hall by auto. lia.
  - exfalso. specialize (Hall (0 :: rv) Hrv). rewrite (inf_le_inj N B E) in Hall by auto. discriminate.
Qed.
End V01.
