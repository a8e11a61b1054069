(** C77: how much work the exact solvers do, in calls of the matrix's [get].

    The comments of exact.rs promise "Theta(n * n!)" for V0, "Theta(n * (n-1)!) = Theta(n!)" for V1 and "O(n!)" for V2; V3
    and V4 promise to prune.  The calls of [get] are what a user who supplies the matrix can count. *)
From Coq Require Import Arith Bool List Lia Permutation Sorted ZArith.
From Verif Require Import Num NumB64 Base Data Exact Spec PermProofs Work WorkSpec WorkProofs.
Import ListNotations.

(** every cell of the square can be read *)
Definition readable {N : Num} (g : adj N) : Prop :=
  forall i j, i < a_dim g -> j < a_dim g -> exists c, a_get g i j = Ok c.

(** The logged solvers are the solvers. *)
Theorem C77_same_program : forall (N : Num) (g : adj N),
  snd (wnaive_solver g) = naive_solver g /\
  snd (wfirst_improved_solver g) = first_improved_solver g /\
  snd (wsecond_improved_solver g) = second_improved_solver g /\
  snd (wthird_improved_solver g) = third_improved_solver g /\
  snd (wfourth_improved_solver g) = fourth_improved_solver g.
Proof.
  intros N g. split; [apply erase_naive_loop|]. split; [apply erase_first_loop|]. split; [apply erase_second|].
  split; [apply erase_third|apply erase_fourth].
Qed.

Lemma tour_bound n q : Permutation (seq 0 n) q -> length q = n.
Proof. intros H. apply Permutation_length in H. rewrite seq_length in H. lia. Qed.

(** V0 evaluates every tour but the sorted one, each once and in lexicographic order, and reads nothing else: [n * (n! - 1)]
    calls. *)
Theorem C77_naive : forall (N : Num) (g : adj N), readable g ->
  exists s ps, wnaive_solver g = (flat_map circle_cells ps, Ok s) /\
    StronglySorted lex ps /\
    (forall q, In q ps <-> is_tour (a_dim g) q /\ q <> seq 0 (a_dim g)) /\
    length ps = fact (a_dim g) - 1 /\
    length (fst (wnaive_solver g)) = a_dim g * (fact (a_dim g) - 1).
Proof.
  intros N g Hg. set (n := a_dim g).
  destruct (wnaive_loop_reads g Hg (seq 0 n)) with (fuel := fact n) (cur := seq 0 n) (best := (cinf : C N, seq 0 n))
    as (s & ps & E & Hs & Hi).
  - intros v Hv. apply in_seq in Hv. unfold n in Hv. lia.
  - pose proof (aboveL_fact (seq 0 n) (seq 0 n) (Permutation_refl _)) as H. rewrite seq_length in H. exact H.
  - reflexivity.
  - assert (Hi' : forall q, In q ps <-> Permutation (seq 0 n) q /\ q <> seq 0 n).
    { intros q. rewrite Hi. split; intros [H1 H2]; (split; [assumption|]).
      - intros ->. apply (lex_irrefl _ H2).
      - destruct (nondec_min (seq 0 n) q (seq_nondec 0 n) H1) as [H|H]; [contradiction|assumption]. }
    assert (Hc : length ps = fact n - 1).
    { pose proof (count_perms (seq 0 n) ps (seq_NoDup n 0) Hs Hi') as H. rewrite seq_length in H. lia. }
    assert (E' : wnaive_solver g = (flat_map circle_cells ps, Ok s)) by exact E.
    exists s, ps. split; [exact E'|]. split; [exact Hs|]. split.
    { intros q. rewrite Hi'. unfold is_tour. split; intros [H1 H2]; (split; [symmetry; assumption|assumption]). }
    split; [exact Hc|]. rewrite E'. cbn [fst]. rewrite <- Hc. apply flat_length.
    + intros p Hp. apply tour_bound, Hi', Hp.
    + intros E1. rewrite E1 in Hc. destruct ps; [reflexivity|discriminate].
Qed.

(** V1 does the same for the tours that start at vertex 0: [n * ((n-1)! - 1)] calls, which is [n! - n].  Without vertices it
    panics before any call. *)
Theorem C77_first : forall (N : Num) (g : adj N), readable g -> 1 <= a_dim g ->
  exists s ps, wfirst_improved_solver g = (flat_map circle_cells ps, Ok s) /\
    StronglySorted lex ps /\
    (forall q, In q ps <-> is_tour (a_dim g) q /\ hd_error q = Some 0 /\ q <> seq 0 (a_dim g)) /\
    length ps = fact (a_dim g - 1) - 1 /\
    length (fst (wfirst_improved_solver g)) = fact (a_dim g) - a_dim g.
Proof.
  intros N g Hg Hd. destruct (a_dim g) as [|k] eqn:Ek; [lia|]. replace (S k - 1) with k by lia.
  destruct (wfirst_loop_reads g Hg 0 (seq 1 k)) with (fuel := fact (S k)) (cur := seq 1 k) (best := (cinf : C N, seq 0 (S k)))
    as (s & ps & E & Hs & Hi).
  - lia.
  - intros v Hv. apply in_seq in Hv. lia.
  - pose proof (aboveL_fact (seq 1 k) (seq 1 k) (Permutation_refl _)) as H. rewrite seq_length in H.
    pose proof (fact_le k (S k) ltac:(lia)). lia.
  - reflexivity.
  - assert (Hi' : forall q, In q ps <-> Permutation (seq 1 k) q /\ q <> seq 1 k).
    { intros q. rewrite Hi. split; intros [H1 H2]; (split; [assumption|]).
      - intros ->. apply (lex_irrefl _ H2).
      - destruct (nondec_min (seq 1 k) q (seq_nondec 1 k) H1) as [H|H]; [contradiction|assumption]. }
    assert (Hc : length ps = fact k - 1).
    { pose proof (count_perms (seq 1 k) ps (seq_NoDup k 1) Hs Hi') as H. rewrite seq_length in H. lia. }
    assert (E' : wfirst_improved_solver g = (flat_map circle_cells (map (cons 0) ps), Ok s)).
    { unfold wfirst_improved_solver. rewrite Ek. exact E. }
    exists s, (map (cons 0) ps). split; [exact E'|]. split.
    { clear - Hs. induction Hs as [|p ps Hs IH Hp]; [constructor|]. cbn [map]. constructor; [exact IH|].
      apply Forall_map. apply (Forall_impl _ (fun q H => lex_tail 0 p q H) Hp). }
    split.
    { intros q. rewrite in_map_iff. split.
      - intros (q' & <- & H). apply Hi' in H. destruct H as [H1 H2]. split.
        + unfold is_tour. cbn [seq]. constructor. symmetry. exact H1.
        + split; [reflexivity|]. cbn [seq]. congruence.
      - intros (H1 & H2 & H3). destruct q as [|x q]; [discriminate|]. injection H2 as ->. exists q. split; [reflexivity|].
        apply Hi'. split; [|cbn [seq] in H3; congruence]. unfold is_tour in H1. cbn [seq] in H1.
        symmetry. apply Permutation_cons_inv in H1. exact H1. }
    split; [rewrite map_length; exact Hc|]. rewrite E'. cbn [fst].
    rewrite (flat_length (S k)).
    + rewrite map_length, Hc. change (fact (S k)) with (S k * fact k). pose proof (lt_O_fact k). nia.
    + intros p Hp. apply in_map_iff in Hp. destruct Hp as (q & <- & Hq). apply Hi' in Hq. destruct Hq as [Hq _].
      apply Permutation_length in Hq. rewrite seq_length in Hq. cbn [length]. lia.
    + intros E1. injection E1 as ->. destruct ps; [reflexivity|discriminate].
Qed.

Theorem C77_first_empty : forall (N : Num) (g : adj N), a_dim g = 0 -> wfirst_improved_solver g = ([], Panic).
Proof. intros N g E. unfold wfirst_improved_solver. rewrite E. reflexivity. Qed.

(** a search without pruning, from every vertex *)
Lemma root_second {N : Num} (g : adj N) : readable g -> 1 <= a_dim g ->
  exists s, snd (wsecond_improved_solver g) = Ok s /\
    length (fst (wsecond_improved_solver g)) = a_dim g * tree_cells (fun _ => 0) (a_dim g - 1).
Proof.
  intros Hg Hd. unfold wsecond_improved_solver. cbn [wsecond_rec length].
  destruct (Nat.eqb_spec 0 (a_dim g)) as [E|_]; [lia|].
  match goal with |- context [wfoldM ?F _ _] => set (F0 := F) end.
  destruct (loop_reads F0 (fun _ => True) [] (tree_cells (fun _ => 0) (a_dim g - 1)) (tree_cells (fun _ => 0) (a_dim g - 1)) (seq 0 (a_dim g)))
    with (s := (c0 : C N, (cinf : C N, [] : list nat))) as ([c r] & E1 & _ & E2).
  - intros s i _ _ [].
  - intros [c1 r1] i _ Hi _. apply in_seq in Hi. unfold F0. cbn [memb existsb app length Nat.eqb].
    destruct (wsecond_reads g Hg false ltac:(discriminate) (a_dim g) [i] c1 r1) as (r2 & A1 & A2).
    + split; [repeat constructor; intros []|]. intros v [<-|[]]. lia.
    + discriminate.
    + cbn [length]. lia.
    + rewrite (wbind_Ok _ _ r2) by exact A1. cbn [fst snd quiet]. eexists. split; [reflexivity|]. split; [exact I|].
      rewrite app_nil_r, A2. cbn [length]. lia.
  - exact I.
  - rewrite (wbind_Ok _ _ (c, r)) by exact E1. cbn [fst snd quiet]. exists r. split; [reflexivity|]. rewrite app_nil_r.
    rewrite free_seq in E2 by (try constructor; intros v []). cbn [length] in E2. rewrite Nat.sub_0_r in E2.
    apply Nat.le_antisymm; [exact (proj2 E2)|exact (proj1 E2)].
Qed.

(** V2 looks at every partial tour.  From three vertices on it makes between [3 * n!] and [4 * n!] calls: it is in the class
    its comment promises, but makes more than three times the calls of V1, which it improves upon, and it makes
    fewer than V0 only from four vertices on. *)
Theorem C77_second : forall (N : Num) (g : adj N), readable g -> 1 <= a_dim g ->
  let n := a_dim g in
  exists s, snd (wsecond_improved_solver g) = Ok s /\
    length (fst (wsecond_improved_solver g)) = n * tree_cells (fun _ => 0) (n - 1) /\
    length (fst (wsecond_improved_solver g)) <= 4 * fact n /\
    (3 <= n -> 3 * fact n <= length (fst (wsecond_improved_solver g)) /\
               3 * length (fst (wfirst_improved_solver g)) < length (fst (wsecond_improved_solver g))) /\
    (4 <= n -> length (fst (wsecond_improved_solver g)) < length (fst (wnaive_solver g))) /\
    (n = 3 -> length (fst (wsecond_improved_solver g)) = 18 /\ length (fst (wnaive_solver g)) = 15).
Proof.
  intros N g Hg Hd n. destruct (root_second g Hg Hd) as (s & E1 & E2). fold n in E2. exists s. split; [exact E1|]. split; [exact E2|].
  destruct (C77_first N g Hg Hd) as (_ & _ & _ & _ & _ & _ & F1). destruct (C77_naive N g Hg) as (_ & _ & _ & _ & _ & _ & F0).
  fold n in F1, F0, Hd. rewrite E2, F1, F0. clear E2 F1 F0 E1. clearbody n. clear g Hg s N.
  destruct n as [|k]; [lia|]. replace (S k - 1) with k by lia. change (fact (S k)) with (S k * fact k). split.
  { destruct k as [|k]; [simpl; lia|]. pose proof (tree0_high (S k) ltac:(lia)). nia. }
  split; [intros H; pose proof (tree0_low k ltac:(lia)); pose proof (lt_O_fact k); split; nia|]. split.
  - intros H. pose proof (tree0_high k ltac:(lia)) as H1. pose proof (lt_O_fact k).
    assert (tree_cells (fun _ => 0) k + 2 <= S k * fact k) by nia. nia.
  - intros H. injection H as ->. split; reflexivity.
Qed.

Lemma zero_laws {N : Num} (O : NumOrd N) {B : Z} (E : Exact N B) (HB : (0 <= B)%Z) :
  cadd (c0 : C N) c0 = c0 /\ csub (c0 : C N) c0 = c0 /\ cle (c0 : C N) c0 = true /\ cle (c0 : C N) cinf = true /\
  ceq (cinf : C N) cinf = true.
Proof.
  rewrite (inj_0 N B E). split; [rewrite (inj_add N B E) by (simpl; lia); reflexivity|].
  split; [rewrite (inj_sub N B E) by (simpl; lia); reflexivity|].
  split; [rewrite (inj_le N B E) by (simpl; lia); reflexivity|].
  split; [apply (inj_le_inf N B E); simpl; lia|].
  pose proof (ord_0 N O) as H. rewrite (ord_lt N O) in H. apply andb_true_iff in H. destruct H as [H _].
  apply (ord_nan_r N O) in H. unfold cnan in H. apply negb_false_iff in H. exact H.
Qed.

Section Pruned.
Context {N : Num} (g : adj N) (Hg : readable g) (Hd : 1 <= a_dim g) (z : bool).
Hypothesis Hz : z = true -> (forall i j, i < a_dim g -> j < a_dim g -> a_get g i j = Ok c0) /\
  cadd (c0 : C N) c0 = c0 /\ csub (c0 : C N) c0 = c0 /\ cle (c0 : C N) c0 = true /\ cle (c0 : C N) cinf = true /\
  ceq (cinf : C N) cinf = true.

Lemma root_third : exists s, snd (wthird_improved_solver g) = Ok s /\
  low z (a_dim g * tree_cells (fun _ => 0) (a_dim g - 1)) <= length (fst (wthird_improved_solver g)) <=
    a_dim g * tree_cells (fun _ => 0) (a_dim g - 1).
Proof.
  unfold wthird_improved_solver. cbn [wthird_rec length]. destruct (Nat.eqb_spec 0 (a_dim g)) as [E|_]; [lia|].
  match goal with |- context [wfoldM ?F _ _] => set (F0 := F) end.
  destruct (root_reads g z Hz (fun f p c r => wthird_rec f g p c r) (fun _ => 0) Hd) with (F := F0) (s := (c0 : C N, (cinf : C N, [] : list nat)))
    as ([c r] & E1 & E2).
  - intros p c r Hp Hl Hi. apply (wthird_reads g Hg z Hz); [assumption|intros ->; discriminate|lia|assumption].
  - reflexivity.
  - intros Ez. split; [reflexivity|left; reflexivity].
  - rewrite (wbind_Ok _ _ (c, r)) by exact E1. cbn [fst snd quiet]. exists r. split; [reflexivity|]. rewrite app_nil_r. exact E2.
Qed.

Lemma root_fourth : exists s, snd (wfourth_improved_solver g) = Ok s /\
  low z (a_dim g * tree_cells pairs_of (a_dim g - 1)) <= length (fst (wfourth_improved_solver g)) <=
    a_dim g * tree_cells pairs_of (a_dim g - 1).
Proof.
  unfold wfourth_improved_solver. cbn [wfourth_rec length]. destruct (Nat.eqb_spec 0 (a_dim g)) as [E|_]; [lia|].
  match goal with |- context [wfoldM ?F _ _] => set (F0 := F) end.
  destruct (root_reads g z Hz (fun f p c r => wfourth_rec f g p c r) pairs_of Hd) with (F := F0) (s := (c0 : C N, (cinf : C N, [] : list nat)))
    as ([c r] & E1 & E2).
  - intros p c r Hp Hl Hi. apply (wfourth_reads g Hg z Hz); [assumption|intros ->; discriminate|lia|assumption].
  - reflexivity.
  - intros Ez. split; [reflexivity|left; reflexivity].
  - rewrite (wbind_Ok _ _ (c, r)) by exact E1. cbn [fst snd quiet]. exists r. split; [reflexivity|]. rewrite app_nil_r. exact E2.
Qed.
End Pruned.

(** Pruning never costs V3 a call: at most as many as V2, whatever the costs are. *)
Theorem C77_third : forall (N : Num) (g : adj N), readable g -> 1 <= a_dim g ->
  exists s, snd (wthird_improved_solver g) = Ok s /\
    length (fst (wthird_improved_solver g)) <= length (fst (wsecond_improved_solver g)) /\
    length (fst (wthird_improved_solver g)) <= 4 * fact (a_dim g).
Proof.
  intros N g Hg Hd. destruct (C77_second N g Hg Hd) as (_ & _ & E2 & E3 & _).
  destruct (root_third g Hg Hd false ltac:(discriminate)) as (s & E1 & _ & E4). exists s. split; [exact E1|]. lia.
Qed.

(** V4 pays for its bound with up to one call per pair of vertices not yet visited, at every partial tour; all in all at
    most [6 * n!]. *)
Theorem C77_fourth : forall (N : Num) (g : adj N), readable g -> 1 <= a_dim g ->
  let n := a_dim g in
  exists s, snd (wfourth_improved_solver g) = Ok s /\
    length (fst (wfourth_improved_solver g)) <= n * tree_cells pairs_of (n - 1) /\
    length (fst (wfourth_improved_solver g)) <= 6 * fact n.
Proof.
  intros N g Hg Hd n. destruct (root_fourth g Hg Hd false ltac:(discriminate)) as (s & E1 & _ & E4). fold n in E4.
  exists s. split; [exact E1|]. split; [exact E4|]. etransitivity; [exact E4|]. fold n in Hd. clearbody n. clear - Hd.
  destruct n as [|k]; [lia|]. replace (S k - 1) with k by lia. change (fact (S k)) with (S k * fact k).
  destruct k as [|[|k]]; [simpl; lia..|]. pose proof (tree2_high (S (S k)) ltac:(lia)). nia.
Qed.

(** These bounds are reached: a tour that costs as much as the best so far is not pruned, so when all costs are zero V3 makes
    every call of V2, and V4 every call that its bound allows for. *)
Theorem C77_no_pruning : forall (N : Num), NumOrd N -> forall B (E : Exact N B), (0 <= B)%Z ->
  forall g : adj N, 1 <= a_dim g -> (forall i j, i < a_dim g -> j < a_dim g -> a_get g i j = Ok c0) ->
  let n := a_dim g in
  length (fst (wthird_improved_solver g)) = length (fst (wsecond_improved_solver g)) /\
  length (fst (wfourth_improved_solver g)) = n * tree_cells pairs_of (n - 1).
Proof.
  intros N O B E HB g Hd H0 n. assert (Hg : readable g) by (intros i j Hi Hj; exists c0; apply H0; assumption).
  assert (Hz : true = true -> (forall i j, i < a_dim g -> j < a_dim g -> a_get g i j = Ok c0) /\
    cadd (c0 : C N) c0 = c0 /\ csub (c0 : C N) c0 = c0 /\ cle (c0 : C N) c0 = true /\ cle (c0 : C N) cinf = true /\
    ceq (cinf : C N) cinf = true) by (intros _; split; [exact H0|apply (zero_laws O E HB)]).
  destruct (C77_second N g Hg Hd) as (_ & _ & E2 & _). destruct (root_third g Hg Hd true Hz) as (_ & _ & E3).
  destruct (root_fourth g Hg Hd true Hz) as (_ & _ & E4). unfold low in E3, E4. fold n in E2, E3, E4. split; lia.
Qed.

Theorem C77_no_pruning_f64 : forall g : adj B64, 1 <= a_dim g ->
  (forall i j, i < a_dim g -> j < a_dim g -> a_get g i j = Ok c0) ->
  let n := a_dim g in
  length (fst (wthird_improved_solver g)) = length (fst (wsecond_improved_solver g)) /\
  length (fst (wfourth_improved_solver g)) = n * tree_cells pairs_of (n - 1).
Proof. exact (C77_no_pruning B64 B64_ord (2 ^ 53) (B64_exact 0 ltac:(lia)) ltac:(lia)). Qed.

(** four vertices, with the costs |i - j|: the calls of the five solvers *)
Example C77_applies :
  let g := @mkAdj EZ 4 (fun i j => if (i <? 4) && (j <? 4) then Ok (Fin (Z.abs (Z.of_nat i - Z.of_nat j))) else Panic) in
  readable g /\
  length (fst (wnaive_solver g)) = 92 /\ length (fst (wfirst_improved_solver g)) = 20 /\
  length (fst (wsecond_improved_solver g)) = 84.
Proof.
  cbv zeta. split; [|vm_compute; auto]. intros i j Hi Hj. cbn [a_dim a_get] in *.
  apply Nat.ltb_lt in Hi, Hj. rewrite Hi, Hj. eexists. reflexivity.
Qed.

Print Assumptions C77_same_program.
Print Assumptions C77_naive.
Print Assumptions C77_first.
Print Assumptions C77_first_empty.
Print Assumptions C77_second.
Print Assumptions C77_third.
Print Assumptions C77_fourth.
Print Assumptions C77_no_pruning.
Print Assumptions C77_no_pruning_f64.
