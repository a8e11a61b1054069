(** C87: a matrix made of any rows of numbers.

    [VecMatrix::from] takes every list of rows as it is: what happens later depends on which cells there are. *)
From Coq Require Import ZArith Arith Bool List Permutation Lia.
From Verif Require Import Num NumB64 Base Data Exact Spec SpecFacts Instances Work WorkProofs RaggedSpec RaggedProofs PropData PropWork PropDiag.
Import ListNotations.
Local Open Scope nat_scope.

(** A cell is read when it is there; otherwise the access panics. *)
Theorem C87_get : forall (N : Num) (m : vecmatrix N) i j,
  (has_cell m i j -> vm_get m i j = Ok (nth j (nth i m []) c0)) /\ (~ has_cell m i j -> vm_get m i j = Panic).
Proof. intros N m i j. split; [apply vm_get_cell|apply vm_get_none]. Qed.
Print Assumptions C87_get.

(** What stands to the right of the square is never read: rows that are too long do no harm, in every solver on this type, in the measures of a tour, in the
    triangle test and in the copy into an NAMatrix. *)
Theorem C87_long_rows : forall (N : Num) (m : vecmatrix N),
  naive_solver (vm_adj m) = naive_solver (vm_adj (left_square m)) /\
  first_improved_solver (vm_adj m) = first_improved_solver (vm_adj (left_square m)) /\
  (2 <= length m -> second_improved_solver (vm_adj m) = second_improved_solver (vm_adj (left_square m)) /\
    third_improved_solver (vm_adj m) = third_improved_solver (vm_adj (left_square m)) /\
    fourth_improved_solver (vm_adj m) = fourth_improved_solver (vm_adj (left_square m))) /\
  (forall p, NoDup p -> (forall v, In v p -> v < length m) -> evaluate_path (vm_adj m) p = evaluate_path (vm_adj (left_square m)) p /\
    evaluate_circle (vm_adj m) p = evaluate_circle (vm_adj (left_square m)) p) /\
  is_metric (vm_adj m) = is_metric (vm_adj (left_square m)) /\
  na_from_adj (vm_adj m) = na_from_adj (vm_adj (left_square m)).
Proof.
  intros N m. assert (S : same_between (vm_adj m) (vm_adj (left_square m))).
  { split; [cbn [vm_adj a_dim]; unfold left_square; rewrite map_length; reflexivity|]. intros i j Hi Hj _. symmetry. apply left_square_get; assumption. }
  destruct (C79_enumeration N _ _ S) as [E0 E1]. split; [exact E0|]. split; [exact E1|]. split; [intros H2; apply (C79_searches N _ _ S H2)|]. split.
  - intros p Hp Hv. apply (C79_circles N _ _ p S Hp Hv).
  - assert (L : length (left_square m) = length m) by (unfold left_square; apply map_length). split.
    { unfold is_metric. cbn [vm_adj a_dim a_get]. rewrite L.
      apply foldM_ext. intros s i Hi. apply in_seq in Hi. apply foldM_ext. intros t j Hj. apply in_seq in Hj. destruct t; [|reflexivity].
      rewrite left_square_get by lia. destruct (vm_get m i j); cbn [bind]; [|reflexivity..].
      apply foldM_ext. intros u k Hk. apply in_seq in Hk. rewrite !left_square_get by lia. reflexivity. }
    unfold na_from_adj. cbn [vm_adj a_dim a_get]. replace (length (left_square m)) with (length m) by (unfold left_square; rewrite map_length; reflexivity).
    apply foldM_ext. intros s i Hi. apply in_seq in Hi. apply foldM_ext. intros t j Hj. apply in_seq in Hj. rewrite left_square_get by lia. reflexivity.
Qed.
Print Assumptions C87_long_rows.

(** The copy into an NAMatrix succeeds exactly when every row is long enough, and keeps the cells. *)
Theorem C87_copy : forall (N : Num) (m : vecmatrix N),
  (Forall (fun r => length m <= length r) m -> exists k, na_from_adj (vm_adj m) = Ok k /\ na_dim k = length m /\
    forall i j, i < length m -> j < length m -> na_get k i j = Ok (nth j (nth i m []) c0)) /\
  (~ Forall (fun r => length m <= length r) m -> na_from_adj (vm_adj m) = Panic).
Proof.
  intros N m. split; intros H.
  - assert (C : forall i j, i < length m -> j < length m -> vm_get m i j = Ok (nth j (nth i m []) c0)).
    { intros i j Hi Hj. apply vm_get_cell. split; [exact Hi|]. rewrite Forall_forall in H. specialize (H (nth i m []) (nth_In _ _ Hi)). lia. }
    destruct (C35_copy N (vm_adj m) (fun i j => nth j (nth i m []) c0)) as (k & E & D & G); [exact C|].
    exists k. split; [exact E|]. split; [exact D|]. intros i j Hi Hj. rewrite G by assumption. apply C; assumption.
  - assert (X : exists i, i < length m /\ length (nth i m []) < length m).
    { apply neg_Forall_Exists_neg in H; [|intros r; apply le_dec]. apply Exists_exists in H. destruct H as (r & Hr & L). apply (In_nth _ _ []) in Hr.
      destruct Hr as (i & Hi & <-). exists i. split; [exact Hi|lia]. }
    destruct X as (i & Hi & L). apply (copy_panics (vm_adj m) (vm_fuel m) i (length (nth i m []))); [exact Hi|exact L|]. apply vm_get_none. intros [_ K]. lia.
Qed.
Print Assumptions C87_copy.

(** V0 ends well exactly when there is a cell for every pair of different vertices: otherwise it comes across the missing one and panics. *)
Theorem C87_naive : forall (N : Num) (m : vecmatrix N),
  ((forall i j, i < length m -> j < length m -> i <> j -> has_cell m i j) -> exists s, naive_solver (vm_adj m) = Ok s) /\
  ((exists i j, i < length m /\ j < length m /\ i <> j /\ ~ has_cell m i j) -> naive_solver (vm_adj m) = Panic).
Proof.
  intros N m. split.
  - intros H. set (b := mkAdj (length m) (fun i j => if i =? j then Ok c0 else vm_get m i j) : adj N).
    assert (S : same_between (vm_adj m) b).
    { split; [reflexivity|]. intros i j _ _ Hij. cbn [b vm_adj a_get]. replace (i =? j) with false by (symmetry; apply Nat.eqb_neq; exact Hij). reflexivity. }
    assert (Hr : readable b).
    { intros i j Hi Hj. cbn [b a_dim a_get] in *. destruct (Nat.eqb_spec i j) as [->|Hij]; [eexists; reflexivity|]. eexists. apply vm_get_cell, H; assumption. }
    destruct (C77_naive N b Hr) as (s & ps & E & _). exists s. rewrite (proj1 (C79_enumeration N _ _ S)), <- (proj1 (C77_same_program N b)), E. reflexivity.
  - intros (i & j & Hi & Hj & Hij & H). apply (naive_panics (vm_adj m) (vm_fuel m) i j Hi Hj Hij). apply vm_get_none, H.
Qed.
Print Assumptions C87_naive.

(** So do the searches V2, V3 and V4: pruning does not hide a missing cell, for it does not begin before the third vertex. *)
Theorem C87_searches : forall (N : Num) (m : vecmatrix N), 2 <= length m ->
  ((forall i j, i < length m -> j < length m -> i <> j -> has_cell m i j) -> exists s2 s3 s4,
    second_improved_solver (vm_adj m) = Ok s2 /\ third_improved_solver (vm_adj m) = Ok s3 /\ fourth_improved_solver (vm_adj m) = Ok s4) /\
  ((exists i j, i < length m /\ j < length m /\ i <> j /\ ~ has_cell m i j) ->
    second_improved_solver (vm_adj m) = Panic /\ third_improved_solver (vm_adj m) = Panic /\ fourth_improved_solver (vm_adj m) = Panic).
Proof.
  intros N m H2. split.
  - intros H. set (b := mkAdj (length m) (fun i j => if i =? j then Ok c0 else vm_get m i j) : adj N).
    assert (S : same_between (vm_adj m) b).
    { split; [reflexivity|]. intros i j _ _ Hij. cbn [b vm_adj a_get]. replace (i =? j) with false by (symmetry; apply Nat.eqb_neq; exact Hij). reflexivity. }
    assert (Hr : readable b).
    { intros i j Hi Hj. cbn [b a_dim a_get] in *. destruct (Nat.eqb_spec i j) as [->|Hij]; [eexists; reflexivity|]. eexists. apply vm_get_cell, H; assumption. }
    assert (H1 : 1 <= a_dim b) by (cbn [b a_dim]; lia).
    destruct (C77_second N b Hr H1) as (s2 & E2 & _), (C77_third N b Hr H1) as (s3 & E3 & _), (C77_fourth N b Hr H1) as (s4 & E4 & _).
    destruct (C79_searches N _ _ S H2) as (D2 & D3 & D4). destruct (C77_same_program N b) as (_ & _ & P2 & P3 & P4).
    exists s2, s3, s4. rewrite D2, D3, D4, <- P2, <- P3, <- P4. auto.
  - intros (i & j & Hi & Hj & Hij & H). pose proof (vm_get_none m i j H) as G.
    split; [|split]; [apply (second_panics (vm_adj m) (vm_fuel m) i j)|apply (third_panics (vm_adj m) (vm_fuel m) i j)|apply (fourth_panics (vm_adj m) (vm_fuel m) i j)]; assumption.
Qed.
Print Assumptions C87_searches.

(** Not so V1, which looks at one direction of every tour only: a cell may be missing that it never reads, and it answers where V0 and V2 panic. *)
Theorem C87_first_refuted : exists m : vecmatrix EZ, (exists i j, i < length m /\ j < length m /\ i <> j /\ ~ has_cell m i j) /\
  first_improved_solver (vm_adj m) = Ok (Fin 6%Z, [0; 2; 1]) /\ naive_solver (vm_adj m) = Panic /\ second_improved_solver (vm_adj m) = Panic.
Proof.
  exists [[Fin 0; Fin 1; Fin 2]; [Fin 1; Fin 0]; [Fin 2; Fin 3; Fin 0]]%Z. split; [|split; [|split]; vm_compute; reflexivity].
  exists 1, 2. unfold has_cell. cbn [length nth]. repeat split; lia.
Qed.
Print Assumptions C87_first_refuted.

(** Thus the copy and the solvers do not agree: rows without the last cell of the diagonal are solved, but cannot be copied. *)
Theorem C87_agree_refuted : exists m : vecmatrix EZ, naive_solver (vm_adj m) = Ok (Fin 6%Z, [0; 2; 1]) /\ na_from_adj (vm_adj m) = Panic.
Proof. exists [[Fin 0; Fin 1; Fin 2]; [Fin 1; Fin 0; Fin 3]; [Fin 2; Fin 3]]%Z. split; vm_compute; reflexivity. Qed.
Print Assumptions C87_agree_refuted.

Example C87_applies :
  let long := [[Fin 0; Fin 1; Fin 2; Fin 9]; [Fin 1; Fin 0; Fin 3]; [Fin 2; Fin 3; Fin 0; Fin 9; Fin 9]]%Z : vecmatrix EZ in
  let short := [[Fin 0; Fin 1; Fin 2]; [Fin 1; Fin 0]; [Fin 2; Fin 3; Fin 0]]%Z : vecmatrix EZ in
  Forall (fun r => length long <= length r) long /\ naive_solver (vm_adj long) = Ok (Fin 6%Z, [0; 2; 1]) /\
  (exists i j, i < length short /\ j < length short /\ i <> j /\ ~ has_cell short i j) /\ naive_solver (vm_adj short) = Panic.
Proof.
  cbv zeta. split; [repeat constructor|]. split; [vm_compute; reflexivity|]. split; [|vm_compute; reflexivity].
  exists 1, 2. unfold has_cell. cbn [length nth]. repeat split; try lia.
Qed.
