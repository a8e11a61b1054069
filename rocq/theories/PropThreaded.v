(** Properties C11-C14: splitting the key space and the multi-threaded exact solver. *)
From Coq Require Import ZArith Arith Bool List Permutation Lia.
From Verif Require Import Num NumB64 Base Spec SpecFacts Data Mst Exact Threaded Dfs PrimProofs MstFacts
  ExactProofs PermProofs DigitsProofs SearchProofs Coverage ThreadedProofs Instances PropExact.
Import ListNotations.

(** ** C11.  A key is a list of [digits] digits below [basis]. *)
Definition is_key (basis digits : nat) (d : list nat) : Prop :=
  length d = digits /\ Forall (fun x => x < basis) d.

(** every key below [total - total mod n] lies in the range of exactly one chunk, the others
    in none; the ends of a chunk are keys *)
Theorem C11_chunks_cover : forall basis digits n d, 1 <= n -> n < basis ^ digits -> is_key basis digits d ->
  (number basis d < basis ^ digits - (basis ^ digits) mod n <->
   exists k lo hi, k < n /\ split_up_b_ary_number_into_n_chunks digits basis n k = Ok (lo, hi) /\
     is_key basis digits lo /\ is_key basis digits hi /\
     number basis lo <= number basis d <= number basis hi) /\
  (forall k k' lo hi lo' hi', k < n -> k' < n ->
     split_up_b_ary_number_into_n_chunks digits basis n k = Ok (lo, hi) ->
     split_up_b_ary_number_into_n_chunks digits basis n k' = Ok (lo', hi') ->
     number basis lo <= number basis d <= number basis hi ->
     number basis lo' <= number basis d <= number basis hi' -> k = k').
Proof.
  intros b digits n d Hn Ht [Hd1 Hd2].
  assert (Hb : 1 <= b) by (destruct b; [destruct digits; simpl in Ht; lia|lia]).
  set (total := b ^ digits) in *. set (size := total / n).
  pose proof (Nat.div_mod total n ltac:(lia)) as Hdm. fold size in Hdm.
  pose proof (Nat.mod_upper_bound total n ltac:(lia)) as Hmod.
  assert (Hsz : 1 <= size) by (apply Nat.div_le_lower_bound; lia).
  assert (Hval : forall k, k < n -> k * size + size - 1 < total) by (intros k Hk; nia).
  assert (Hnum : forall k, k < n -> number b (convert_to_b_ary_digits (k * size) b digits) = k * size /\
    number b (convert_to_b_ary_digits (k * size + size - 1) b digits) = k * size + size - 1).
  { intros k Hk. specialize (Hval k Hk). rewrite !(number_convert b Hb), !Nat.mod_small by (fold total; lia). auto. }
  split; [split|].
  - intros Hv. destruct (chunk_of_key total n (number b d) Hn Ht Hv) as (Hk & Hr & _). fold size in Hk, Hr.
    set (k := number b d / size) in *. exists k. do 2 eexists. split; [assumption|].
    split; [rewrite split_spec by assumption; reflexivity|]. cbv zeta. fold total. fold size.
    destruct (Hnum k Hk) as [-> ->]. repeat split; try apply (convert_length b); try apply (convert_ok b Hb); lia.
  - intros (k & lo & hi & Hk & Hs & _ & _ & Hr). rewrite split_spec in Hs by assumption. cbv zeta in Hs. fold total in Hs. fold size in Hs.
    injection Hs as <- <-. destruct (Hnum k Hk) as [E1 E2]. rewrite E1, E2 in Hr. nia.
  - intros k k' lo hi lo' hi' Hk Hk' Hs Hs' Hr Hr'.
    rewrite split_spec in Hs, Hs' by assumption. cbv zeta in Hs, Hs'. fold total in Hs, Hs'. fold size in Hs, Hs'.
    injection Hs as <- <-. injection Hs' as <- <-.
    destruct (Hnum k Hk) as [E1 E2]. rewrite E1, E2 in Hr. destruct (Hnum k' Hk') as [E1' E2']. rewrite E1', E2' in Hr'. nia.
Qed.
Print Assumptions C11_chunks_cover.

(** consecutive: the first chunk starts at zero and each starts where the last one ended *)
Theorem C11_chunks_consecutive : forall basis digits n, 1 <= n -> n < basis ^ digits ->
  (exists hi, split_up_b_ary_number_into_n_chunks digits basis n 0 = Ok (repeat 0 digits, hi)) /\
  (forall k lo hi lo' hi', S k < n ->
     split_up_b_ary_number_into_n_chunks digits basis n k = Ok (lo, hi) ->
     split_up_b_ary_number_into_n_chunks digits basis n (S k) = Ok (lo', hi') ->
     number basis lo' = S (number basis hi)).
Proof.
  intros b digits n Hn Ht.
  assert (Hb : 1 <= b) by (destruct b; [destruct digits; simpl in Ht; lia|lia]).
  set (total := b ^ digits) in *. set (size := total / n).
  pose proof (Nat.div_mod total n ltac:(lia)) as Hdm. fold size in Hdm.
  assert (Hsz : 1 <= size) by (apply Nat.div_le_lower_bound; lia).
  split.
  - eexists. rewrite split_spec by assumption. cbv zeta. simpl. f_equal. f_equal.
    unfold convert_to_b_ary_digits.
    assert (E : digits_rev 0 b digits = repeat 0 digits).
    { clear - Hb. induction digits as [|k IH]; [reflexivity|]. cbn [digits_rev repeat].
      rewrite Nat.mod_0_l, Nat.div_0_l, IH by lia. reflexivity. }
    rewrite E. clear. induction digits as [|k IH]; [reflexivity|]. cbn [repeat rev]. rewrite IH.
    clear. induction k as [|k IH]; [reflexivity|]. cbn. rewrite IH. reflexivity.
  - intros k lo hi lo' hi' Hk Hs Hs'.
    rewrite split_spec in Hs, Hs' by assumption. cbv zeta in Hs, Hs'. fold total in Hs, Hs'. fold size in Hs, Hs'.
    injection Hs as <- <-. injection Hs' as <- <-.
    rewrite !(number_convert b Hb), !Nat.mod_small by (fold total; nia). nia.
Qed.
Print Assumptions C11_chunks_consecutive.

(** it panics exactly when there are no more keys than chunks (or no chunks) *)
Theorem C11_panics_iff : forall basis digits n k,
  split_up_b_ary_number_into_n_chunks digits basis n k = Panic <-> (basis ^ digits <= n \/ n = 0).
Proof.
  intros b digits n k. split; [|apply split_panics]. intros H.
  destruct (le_lt_dec (b ^ digits) n) as [Hl|Hl]; [left; assumption|]. destruct n as [|n]; [right; reflexivity|].
  rewrite split_spec in H by lia. discriminate.
Qed.
Print Assumptions C11_panics_iff.

Example C11_applies : split_up_b_ary_number_into_n_chunks 2 5 3 1 = Ok ([1;3], [3;0]) /\
  number 5 [1;3] = 8 /\ number 5 [3;0] = 15 /\ 5 ^ 2 - (5 ^ 2) mod 3 = 24.
Proof. repeat split; reflexivity. Qed.

(** The doc comment calls the second value exclusive.  Read this way the last key of every
    chunk is in no chunk. *)
Theorem C11_exclusive_reading_refuted : exists basis digits n d, 1 <= n /\ n < basis ^ digits /\
  is_key basis digits d /\ number basis d < basis ^ digits - (basis ^ digits) mod n /\
  forall k lo hi, k < n -> split_up_b_ary_number_into_n_chunks digits basis n k = Ok (lo, hi) ->
    ~ (number basis lo <= number basis d < number basis hi).
Proof.
  exists 5, 2, 3, [1;2]. split; [lia|]. split; [simpl; lia|]. split; [split; [reflexivity|repeat (constructor; [lia|]); constructor]|].
  split; [vm_compute; lia|].
  intros k lo hi Hk H. destruct k as [|[|[|k]]]; [| | |lia]; vm_compute in H; injection H as <- <-; vm_compute; lia.
Qed.
Print Assumptions C11_exclusive_reading_refuted.

(** ** C12 *)
Theorem C12_successor : forall basis d, 1 <= basis -> Forall (fun x => x < basis) d ->
  match get_next_value d basis with
  | Some d' => Forall (fun x => x < basis) d' /\ length d' = length d /\ number basis d' = S (number basis d)
  | None => d = repeat (basis - 1) (length d)
  end.
Proof.
  intros b d Hb Hd. pose proof (get_next_value_spec b Hb d Hd) as H. destruct (get_next_value d b); [assumption|].
  assert (Hr : digits_ok b (repeat (b - 1) (length d))).
  { clear - Hb. induction (length d); simpl; constructor; [lia|assumption]. }
  apply (number_inj b Hb); [assumption|assumption|rewrite repeat_length; reflexivity|].
  assert (E : forall k, S (number b (repeat (b - 1) k)) = b ^ k); [|specialize (E (length d)); lia].
  clear - Hb. intros k. rewrite (value_vrev b Hb).
  assert (Er : rev (repeat (b - 1) k) = repeat (b - 1) k).
  { clear. induction k as [|k IH]; [reflexivity|]. cbn [repeat rev]. rewrite IH. clear.
    induction k as [|k IH]; [reflexivity|]. cbn. rewrite IH. reflexivity. }
  rewrite Er. clear Er. induction k as [|k IH]; [reflexivity|]. cbn [repeat vrev]. rewrite Nat.pow_succ_r'. nia.
Qed.
Print Assumptions C12_successor.

(** overflow is reported only at the largest key, and there always *)
Theorem C12_overflow_iff : forall basis d, 1 <= basis -> Forall (fun x => x < basis) d ->
  (get_next_value d basis = None <-> forall d', length d' = length d -> Forall (fun x => x < basis) d' ->
     number basis d' <= number basis d).
Proof.
  intros b d Hb Hd. pose proof (get_next_value_spec b Hb d Hd) as H. split.
  - intros E d' Hl Hd'. rewrite E in H. pose proof (value_lt b Hb d' Hd') as Hlt. rewrite Hl in Hlt. lia.
  - intros Hmax. destruct (get_next_value d b) as [d'|]; [|reflexivity]. destruct H as (H1 & H2 & H3).
    specialize (Hmax d' H2 H1). lia.
Qed.
Print Assumptions C12_overflow_iff.

Theorem C12_conversion_inverse : forall basis digits, 1 <= basis ->
  (forall v, is_key basis digits (convert_to_b_ary_digits v basis digits) /\
     (v < basis ^ digits -> number basis (convert_to_b_ary_digits v basis digits) = v)) /\
  (forall d, is_key basis digits d -> convert_to_b_ary_digits (number basis d) basis digits = d).
Proof.
  intros b digits Hb. split.
  - intros v. split; [split; [apply (convert_length b)|apply (convert_ok b Hb)]|].
    intros Hv. rewrite (number_convert b Hb), Nat.mod_small by assumption. reflexivity.
  - intros d [<- Hd]. apply (convert_number b Hb). assumption.
Qed.
Print Assumptions C12_conversion_inverse.

(** calling it again and again *)
Fixpoint successors (fuel : nat) (basis : nat) (d : list nat) : list (list nat) :=
  match fuel with
  | 0 => []
  | S f => match get_next_value d basis with Some d' => d' :: successors f basis d' | None => [] end
  end.
Theorem C12_iteration_visits_all : forall basis digits d, 1 <= basis -> is_key basis digits d ->
  let visited := successors (basis ^ digits) basis d in
  NoDup visited /\
  forall d', In d' visited <-> is_key basis digits d' /\ number basis d < number basis d'.
Proof.
  intros b digits d Hb [Hl Hd].
  assert (G : forall fuel d, length d = digits -> Forall (fun x => x < b) d -> b ^ digits - S (number b d) <= fuel ->
    NoDup (successors fuel b d) /\ forall d', In d' (successors fuel b d) <-> is_key b digits d' /\ number b d < number b d').
  { induction fuel as [|f IH]; intros e He1 He2 Hf.
    - split; [constructor|]. intros d'. split; [intros []|]. intros [[H1 H2] H3].
      pose proof (value_lt b Hb d' H2) as Hlt. rewrite H1 in Hlt. lia.
    - cbn [successors]. pose proof (get_next_value_spec b Hb e He2) as Hs. destruct (get_next_value e b) as [e'|].
      + destruct Hs as (H1 & H2 & H3). destruct (IH e') as [I1 I2]; [lia|assumption|lia|]. split.
        * constructor; [|assumption]. intros Hin. apply I2 in Hin. lia.
        * intros d'. cbn [In]. rewrite I2. split.
          -- intros [<-|[H4 H5]]; [split; [split; [lia|assumption]|lia]|split; [assumption|lia]].
          -- intros [H4 H5]. destruct (Nat.eq_dec (number b d') (number b e')) as [E|Ne].
             ++ left. destruct H4 as [H6 H7]. apply (number_inj b Hb); [assumption|assumption|lia|auto].
             ++ right. split; [assumption|lia].
      + split; [constructor|]. intros d'. split; [intros []|]. intros [[H1 H2] H3].
        pose proof (value_lt b Hb d' H2) as Hlt. rewrite H1 in Hlt. rewrite He1 in Hs. lia. }
  cbv zeta. apply G; try assumption. lia.
Qed.
Print Assumptions C12_iteration_visits_all.

Example C12_applies : get_next_value [1;0;2;2] 3 = Some [1;1;0;0] /\ get_next_value [2;2;2] 3 = None /\
  convert_to_b_ary_digits 14 3 3 = [1;1;2] /\ number 3 [1;1;2] = 14 /\
  successors 27 3 [2;1;1] = [[2;1;2]; [2;2;0]; [2;2;1]; [2;2;2]].
Proof. repeat split; reflexivity. Qed.

(** ** C13.  Any ordered arithmetic (doubles included), any matrix, any number of threads. *)
Theorem C13_schedules_agree : forall (N : Num) (O : NumOrd N) (m : namatrix N) prefix_length threads,
  1 <= na_dim m -> na_wf m -> 1 <= threads ->
  forall s s', threaded_result m prefix_length threads s -> threaded_result m prefix_length threads s' ->
    cnan (fst s) = false /\ ceq (fst s) (fst s') = true.
Proof.
  intros N O m plen t Hn Hwf Ht s s'. unfold threaded_result. destruct (na_dim m <=? t).
  - intros H H'. rewrite H in H'. injection H' as <-. destruct (fifth_struct O m Hn Hwf) as (s0 & E & Hs0).
    rewrite H in E. injection E as <-.
    assert (Hnn : cnan (fst s) = false).
    { unfold fifth_improved_solver in H. rewrite (fifth_mpi O) in H.
      destruct (mpi_struct O m cinf [] c0 Hn Hwf ltac:(constructor) ltac:(constructor)) as (s1 & E1 & F1).
      rewrite H in E1. injection E1 as <-. apply (found_nnan O _ _ F1). }
    split; [assumption|]. rewrite (ord_eq N O), (cle_refl O _ Hnn). reflexivity.
  - intros (c & d & Hi & Hr & Hd & ->) (c' & d' & Hi' & Hr' & Hd' & ->).
    rewrite Hi in Hi'. injection Hi' as <-.
    destruct (le_lt_dec (na_dim m ^ plen) t) as [Hle|Hlt].
    { exfalso. unfold tinit in Hi. destruct t as [|t]; [lia|]. cbn [seq mapM] in Hi.
      rewrite chunk_prefixes_panics in Hi by (left; assumption). discriminate. }
    split.
    + destruct (run_result O m Hn Hwf plen t Ht Hlt c Hi d Hr Hd) as (F & _). apply (found_nnan O _ _ F).
    + apply (runs_agree O m Hn Hwf plen t Ht Hlt c Hi d d'); assumption.
Qed.
Print Assumptions C13_schedules_agree.

(** the reported solution: untouched or a tour found for one of the examined prefixes, and no
    dearer than what is found for any other *)
Theorem C13_minimum_of_prefixes : forall (N : Num) (O : NumOrd N) (m : namatrix N) prefix_length threads,
  1 <= na_dim m -> na_wf m -> 1 <= threads -> threads < na_dim m -> threads < na_dim m ^ prefix_length ->
  forall s, threaded_result m prefix_length threads s ->
    (s = (cinf, []) \/ (is_tour (na_dim m) (snd s) /\ clt (fst s) cinf = true)) /\
    (s = (cinf, []) \/ exists k prefixes p, k < threads /\ chunk_prefixes prefix_length (na_dim m) threads k = Ok prefixes /\
       In p prefixes /\ thread_work m p = Ok s) /\
    forall k prefixes p r, k < threads -> chunk_prefixes prefix_length (na_dim m) threads k = Ok prefixes ->
       In p prefixes -> thread_work m p = Ok r -> cle (fst s) (fst r) = true.
Proof.
  intros N O m plen t Hn Hwf Ht Htn Hlt s. unfold threaded_result.
  replace (na_dim m <=? t) with false by (symmetry; apply Nat.leb_gt; assumption).
  intros (c & d & Hi & Hr & Hd & ->).
  destruct (run_result O m Hn Hwf plen t Ht Hlt c Hi d Hr Hd) as (F & P & L).
  destruct (tinit_Ok m Hn plen t Ht Hlt) as (c1 & Ec1 & _ & Hch & _). rewrite Hi in Ec1. injection Ec1 as <-.
  assert (G : forall p, In p (pending c) <-> exists k prefixes, k < t /\ chunk_prefixes plen (na_dim m) t k = Ok prefixes /\ In p prefixes).
  { intros p. unfold pending.
    assert (G' : forall ks ls, Forall2 (fun i l => chunk_prefixes plen (na_dim m) t i = Ok l) ks ls ->
      In p (concat ls) <-> exists k prefixes, In k ks /\ chunk_prefixes plen (na_dim m) t k = Ok prefixes /\ In p prefixes).
    { clear. intros ks ls HF. induction HF as [|k l ks ls Hk HF IH]; simpl.
      - split; [intros []|intros (? & ? & [] & _)].
      - rewrite in_app_iff, IH. split.
        + intros [H|(k' & l' & H1 & H2 & H3)]; [exists k, l; auto|exists k', l'; auto].
        + intros (k' & l' & [<-|H1] & H2 & H3); [left; congruence|right; exists k', l'; auto]. }
    rewrite (G' _ _ Hch). split; intros (k & l & H1 & H2); exists k, l; (split; [|assumption]); [apply in_seq in H1; lia|apply in_seq; lia]. }
  split; [exact F|]. split.
  - destruct P as [P|(p & Hp & Hw)]; [left; assumption|right]. apply G in Hp. destruct Hp as (k & l & H1 & H2 & H3). exists k, l, p. auto.
  - intros k l p r Hk Hl Hp Hw. apply (L p r); [|assumption]. apply G. exists k, l. auto.
Qed.
Print Assumptions C13_minimum_of_prefixes.

(** no schedule gets stuck: from every reachable configuration the run can be finished, and
    every step takes one prefix off the (finite) work list *)
Theorem C13_every_schedule_finishes : forall (N : Num) (O : NumOrd N) (m : namatrix N) prefix_length threads,
  1 <= na_dim m -> na_wf m -> 1 <= threads -> threads < na_dim m ^ prefix_length ->
  exists c0, tinit m prefix_length threads = Ok c0 /\
    (forall c, tsteps m c0 c -> tdone c \/ exists c', tstep m c c') /\
    (forall c c', tstep m c c' -> length (concat (snd c)) = S (length (concat (snd c')))).
Proof.
  intros N O m plen t Hn Hwf Ht Hlt. destruct (tinit_Ok m Hn plen t Ht Hlt) as (c0 & E & _).
  exists c0. split; [assumption|]. split.
  - intros c Hc. apply (run_progress O m Hn Hwf plen t Ht Hlt c0 E c Hc).
  - intros c c' Hs. apply (tstep_measure m c c' Hs).
Qed.
Print Assumptions C13_every_schedule_finishes.

(** Two schedules, written as the sequence of threads that get the lock. *)
Fixpoint run_schedule {N} (m : namatrix N) (sched : list nat) (c : tconfig N) : res (tconfig N) :=
  match sched with
  | [] => Ok c
  | i :: sched =>
    match nth i (snd c) [] with
    | [] => Panic
    | p :: rest => r <- thread_work m p ;; run_schedule m sched (merge (fst c) r, upd (snd c) i rest)
    end
  end.
Lemma run_schedule_tsteps {N} (m : namatrix N) sched : forall c c', run_schedule m sched c = Ok c' -> tsteps m c c'.
Proof.
  induction sched as [|i sched IH]; intros c c' H; simpl in H; [injection H as <-; apply tsteps_refl|].
  destruct (nth i (snd c) []) as [|p rest] eqn:En; [discriminate|].
  destruct (thread_work m p) as [r| |] eqn:Ew; simpl in H; try discriminate.
  assert (Hs : tstep m c (merge (fst c) r, upd (snd c) i rest)).
  { destruct c as [g todo]. cbn [fst snd] in *.
    assert (Hi : i < length todo) by (destruct (le_lt_dec (length todo) i); [rewrite nth_overflow in En by assumption; discriminate|assumption]).
    destruct (nth_split todo [] Hi) as (b & a & Ht & Hb). rewrite En in Ht.
    assert (Eu : upd todo i rest = b ++ rest :: a).
    { rewrite Ht. clear - Hb. revert i Hb. induction b as [|x b IHb]; intros i Hb; simpl in Hb; subst i; [reflexivity|].
      simpl. rewrite IHb by reflexivity. reflexivity. }
    rewrite Eu, Ht. apply tstep_thread. assumption. }
  specialize (IH _ _ H). clear - Hs IH.
  induction IH as [|c1 d d' H1 IH Hd]; [apply (tsteps_step m c c _ (tsteps_refl m c) Hs)|].
  apply (tsteps_step m c d d'); auto.
Qed.

Definition work_counts {N} (c : tconfig N) : list nat := map (@length _) (snd c).
Definition demo (sched : list nat) : res (tconfig EZ * tconfig EZ) :=
  c0 <- tinit (int_matrix 4 ex_sym) 3 2 ;; d <- run_schedule (int_matrix 4 ex_sym) sched c0 ;; Ok (c0, d).
(** n = 4, two threads with the prefixes [0;1;2] .. [1;3;2] and [2;0;1] .. [3;2;1]: one
    schedule runs thread 0 first, the other thread 1; the paths differ, the costs do not *)
Example C13_applies : exists c0 d d',
  tinit (int_matrix 4 ex_sym) 3 2 = Ok c0 /\ work_counts c0 = [12; 12] /\
  tsteps (int_matrix 4 ex_sym) c0 d /\ tdone d /\ tsteps (int_matrix 4 ex_sym) c0 d' /\ tdone d' /\
  fst d = (Fin 10%Z : C EZ, [0;1;3;2]) /\ fst d' = (Fin 10%Z : C EZ, [2;0;1;3]).
Proof.
  assert (E1 : (r <- demo (repeat 0 12 ++ repeat 1 12) ;; Ok (work_counts (fst r), snd r)) =
    Ok ([12;12], ((Fin 10%Z : C EZ, [0;1;3;2]), [[]; []]))) by (vm_compute; reflexivity).
  assert (E2 : (r <- demo (repeat 1 12 ++ repeat 0 12) ;; Ok (work_counts (fst r), snd r)) =
    Ok ([12;12], ((Fin 10%Z : C EZ, [2;0;1;3]), [[]; []]))) by (vm_compute; reflexivity).
  unfold demo in E1, E2.
  destruct (tinit (int_matrix 4 ex_sym) 3 2) as [c0| |]; [|discriminate..]. cbn [bind] in E1, E2.
  destruct (run_schedule (int_matrix 4 ex_sym) (repeat 0 12 ++ repeat 1 12) c0) as [d| |] eqn:Ed; [|discriminate..].
  destruct (run_schedule (int_matrix 4 ex_sym) (repeat 1 12 ++ repeat 0 12) c0) as [d'| |] eqn:Ed'; [|discriminate..].
  apply run_schedule_tsteps in Ed. apply run_schedule_tsteps in Ed'.
  cbn [bind fst snd] in E1, E2. injection E1 as Hc Hd. injection E2 as _ Hd'.
  exists c0, d, d'. rewrite Hd, Hd' in *. repeat (split; [assumption || reflexivity || (repeat constructor)|]). reflexivity.
Qed.

(** ** C14.  All schedules, all thread counts. *)
Theorem C14_threaded_factor_two : forall n w threads, 3 <= n -> 1 <= threads -> symmetric w n -> nonneg w n ->
  (exists s, threaded_result (int_matrix n w) 3 threads s) /\
  forall s, threaded_result (int_matrix n w) 3 threads s ->
    exists c p, s = (Fin c : C EZ, p) /\ is_tour n p /\ tour_cost w p = c /\
      forall q, is_tour n q -> (c <= 2 * tour_cost w q)%Z.
Proof.
  intros n w t Hn Ht Hs Hnn. destruct (EZ_bound 3 w n ltac:(lia)) as (W & B & HW & H0 & HB).
  unfold threaded_result. change (na_dim (int_matrix n w)) with n. destruct (Nat.leb_spec n t) as [Hle|Hgt].
  - destruct (C07_fifth_factor_two n w ltac:(lia) Hs Hnn) as (c & p & E & H1 & H2 & H3).
    split; [eexists; exact E|]. intros s Hs'. rewrite E in Hs'. injection Hs' as <-. exists c, p. auto.
  - assert (Hlt : t < na_dim (int_matrix n w) ^ 3) by (cbn [na_dim int_matrix matrix_of]; rewrite pow3; nia).
    destruct (tinit_Ok (int_matrix n w) ltac:(simpl; lia) 3 t Ht Hlt) as (c0 & E0 & _).
    split.
    + destruct (run_extends EZ_ord (int_matrix n w) ltac:(simpl; lia) (matrix_of_wf n _) 3 t Ht Hlt c0 E0 c0 (tsteps_refl _ _)) as (c & H1 & H2).
      exists (fst c), c0, c. auto.
    + intros s (c1 & c & E1 & H1 & H2 & ->).
      destruct (threaded_factor (EZ_exact B) EZ_ord (int_matrix n w) (matrix_of_wf n _) w W Hn
        (emb_represents (EZ_exact B) n w) HW HB t ltac:(simpl; lia) c1 c E1 H1 H2) as (p & (Hp & Htp) & Hq).
      exists (tour_cost w p), p. split; [assumption|]. split; [assumption|]. split; [reflexivity|]. apply Hq; assumption.
Qed.
Print Assumptions C14_threaded_factor_two.

Theorem C14_threaded_factor_two_f64 : forall e n w W threads, (-1074 <= e <= 970)%Z -> 3 <= n -> 1 <= threads ->
  symmetric w n -> nonneg w n -> bounded w n W -> (3 * W * (Z.of_nat n + 1) <= 2 ^ 53)%Z ->
  forall s, threaded_result (f64_matrix e n w) 3 threads s ->
    exists c p, s = (b64_inj e c : C B64, p) /\ is_tour n p /\ tour_cost w p = c /\
      forall q, is_tour n q -> (c <= 2 * tour_cost w q)%Z.
Proof.
  intros e n w W t He Hn Ht Hs Hnn HW HB s.
  unfold threaded_result. change (na_dim (f64_matrix e n w)) with n. destruct (Nat.leb_spec n t) as [Hle|Hgt].
  - destruct (C07_fifth_factor_two_f64 e n w W He ltac:(lia) Hs Hnn HW HB) as (c & p & E & H1 & H2 & H3).
    intros Hs'. rewrite E in Hs'. injection Hs' as <-. exists c, p. auto.
  - intros (c1 & c & E1 & H1 & H2 & ->).
    destruct (threaded_factor (B64_exact e He) B64_ord (f64_matrix e n w) (matrix_of_wf n _) w W Hn
        (emb_represents (B64_exact e He) n w) HW HB t ltac:(simpl; lia) c1 c E1 H1 H2) as (p & (Hp & Htp) & Hq).
    exists (tour_cost w p), p. split; [assumption|]. split; [assumption|]. split; [reflexivity|]. apply Hq; assumption.
Qed.
Print Assumptions C14_threaded_factor_two_f64.

(** Coverage itself: every tour has a rotation that starts with a prefix some thread examines. *)
Theorem C14_every_tour_covered : forall n threads q, 3 <= n -> 1 <= threads <= n -> is_tour n q ->
  exists k prefixes p x y rest, k < threads /\ chunk_prefixes 3 n threads k = Ok prefixes /\ In p prefixes /\
    q = x ++ y /\ y ++ x = p ++ rest.
Proof.
  intros n t q Hn Ht Hq. destruct (coverage n Hn t Ht q Hq) as (i & p & x & y & Hi & Eq & _ & (l & Hl & Hin) & _ & r & Er).
  exists i, l, p, x, y, r. auto.
Qed.
Print Assumptions C14_every_tour_covered.

Example C14_applies : symmetric ex_v5 7 /\ nonneg ex_v5 7 /\
  chunk_prefixes 3 4 3 1 = Ok [[1;2;0]; [1;2;3]; [1;3;0]; [1;3;2]; [2;0;1]; [2;0;3]; [2;1;0]; [2;1;3]].
Proof. concrete. Qed.

(** With two vertices and one thread no prefix of three distinct vertices exists. *)
Theorem C14_two_vertices_refuted : forall w s,
  threaded_result (int_matrix 2 w) 3 1 s <-> s = (PInf : C EZ, []).
Proof.
  intros w s. unfold threaded_result. change (na_dim (int_matrix 2 w) <=? 1) with false. cbv iota.
  assert (E : tinit (int_matrix 2 w) 3 1 = Ok ((PInf : C EZ, []), [[]])) by (vm_compute; reflexivity).
  split.
  - intros (c0 & c & E0 & H & Hd & ->). rewrite E in E0. injection E0 as <-.
    destruct (tsteps_spec _ _ _ H) as (ps & rs & HF & HP & Hg). apply Permutation_nil in HP. apply app_eq_nil in HP.
    destruct HP as [-> _]. inversion HF; subst. exact Hg.
  - intros ->. exists ((PInf : C EZ, []), [[]]), ((PInf : C EZ, []), [[]]). split; [exact E|].
    split; [apply tsteps_refl|]. split; [repeat constructor|reflexivity].
Qed.
Print Assumptions C14_two_vertices_refuted.
