(** Facts about the multigraph of src/solvers/approximate/christofides.rs. *)
From Coq Require Import ZArith Arith Bool List Permutation Lia.
From Verif Require Import Num Base Data Mst Par Mem Rand MstPar Matching Christofides Spec SpecFacts Greedy PrimProofs EulerProofs.
Import ListNotations.

(** ** A spanning tree has neither loops nor parallel edges *)
Lemma labels (E : list (nat * nat)) : exists f : nat -> nat, (forall a b, In (a, b) E -> f a = f b) /\
  forall V, NoDup V -> length V <= length (nodup Nat.eq_dec (map f V)) + length E.
Proof.
  induction E as [|[x y] E (f & Hf & Hc)].
  - exists (fun v => v). split; [intros a b []|]. intros V HV. rewrite map_id, (nodup_fixed_point _ HV). lia.
  - exists (fun z => if f z =? f x then f y else f z). split.
    + intros a b [H|H].
      * injection H as -> ->. rewrite Nat.eqb_refl. destruct (f b =? f a); reflexivity.
      * rewrite (Hf a b H). reflexivity.
    + intros V HV. specialize (Hc V HV). cbn [length].
      assert (Hi : incl (nodup Nat.eq_dec (map f V)) (f x :: nodup Nat.eq_dec (map (fun z => if f z =? f x then f y else f z) V))).
      { intros l Hl. apply nodup_In, in_map_iff in Hl. destruct Hl as (v & <- & Hv).
        destruct (Nat.eq_dec (f v) (f x)) as [->|Hne]; [left; reflexivity|]. right. apply nodup_In, in_map_iff. exists v. split; [|assumption].
        apply Nat.eqb_neq in Hne. rewrite Hne. reflexivity. }
      apply NoDup_incl_length in Hi; [cbn [length] in Hi; lia|apply NoDup_nodup].
Qed.

Lemma joined_labels E f a b : (forall a b, In (a, b) E -> f a = f b) -> joined E a b -> (f a : nat) = f b.
Proof. intros Hf H. induction H as [|a b c H IH [Hin|Hin]]; [reflexivity|rewrite IH; auto|rewrite IH; symmetry; auto]. Qed.

Lemma connected_length E V : NoDup V -> (forall a b, In a V -> In b V -> joined E a b) -> length V <= S (length E).
Proof.
  intros HV HJ. destruct (labels E) as (f & Hf & Hc). specialize (Hc V HV).
  assert (length (nodup Nat.eq_dec (map f V)) <= 1); [|lia].
  destruct V as [|v V]; [cbn; lia|]. change 1 with (length [f v]). apply NoDup_incl_length; [apply NoDup_nodup|].
  intros l Hl. apply nodup_In, in_map_iff in Hl. destruct Hl as (u & <- & Hu). left.
  apply (joined_labels E f); [assumption|]. apply HJ; [left; reflexivity|assumption].
Qed.

Lemma spanning_tree_simple V T A e B : NoDup V -> spanning_tree V T -> T = A ++ e :: B ->
  ~ joined (A ++ B) (fst e) (snd e).
Proof.
  intros HV (H1 & H2 & H3) -> HJ.
  assert (H : length V <= S (length (A ++ B))).
  { apply connected_length; [assumption|]. intros a b Ha Hb. specialize (H2 a b Ha Hb). clear - H2 HJ.
    induction H2 as [|a b c H IH Hin]; [constructor|]. apply (joined_trans _ a b c); [assumption|].
    assert (Hstep : forall x y, In (x, y) (A ++ e :: B) -> joined (A ++ B) x y).
    { intros x y Hxy. apply in_app_or in Hxy. destruct Hxy as [Hxy|[->|Hxy]]; [|assumption|]; apply joined_edge, in_or_app; auto. }
    destruct Hin as [Hin|Hin]; [auto|apply joined_sym; auto]. }
  rewrite app_length in *. cbn [length] in H3. lia.
Qed.

Definition joins (e : nat * nat) (i j : nat) : bool := (fst e =? i) && (snd e =? j) || (fst e =? j) && (snd e =? i).

Lemma joins_spec e i j : joins e i j = true <-> e = (i, j) \/ e = (j, i).
Proof.
  destruct e as [a b]. unfold joins. cbn [fst snd]. rewrite orb_true_iff, !andb_true_iff, !Nat.eqb_eq.
  split; intros [H|H]; [left|right|left|right]; (destruct H; congruence) || (injection H as -> ->; auto).
Qed.
Lemma joins_sym e i j : joins e i j = joins e j i.
Proof. unfold joins. apply orb_comm. Qed.

Lemma copies_app A B i j : copies (A ++ B) i j = copies A i j + copies B i j.
Proof. unfold copies. rewrite map_app. apply list_sum_app'. Qed.
Lemma copies_cons e A i j : copies (e :: A) i j = ind ((fst e =? i) && (snd e =? j)) + ind ((fst e =? j) && (snd e =? i)) + copies A i j.
Proof. reflexivity. Qed.
Lemma copies_sym A i j : copies A i j = copies A j i.
Proof. unfold copies. apply list_sum_ext. intros e _. lia. Qed.
Lemma copies_diag A i : Nat.Even (copies A i i).
Proof. induction A as [|e A [k IH]]; [exists 0; reflexivity|]. rewrite copies_cons. exists (ind ((fst e =? i) && (snd e =? i)) + k). lia. Qed.
Lemma copies_none A i j : (forall e, In e A -> joins e i j = false) -> copies A i j = 0.
Proof.
  intros H. unfold copies. apply list_sum_0. intros e He. specialize (H e He). unfold joins in H. apply orb_false_iff in H. destruct H as [-> ->]. reflexivity.
Qed.
Lemma copies_In A i j : copies A i j <> 0 <-> In (i, j) A \/ In (j, i) A.
Proof.
  induction A as [|[a b] A IH]; [cbn; intuition|]. rewrite copies_cons. cbn [fst snd In].
  destruct (Nat.eqb_spec a i), (Nat.eqb_spec b j), (Nat.eqb_spec a j), (Nat.eqb_spec b i); subst; cbn [andb ind]; intuition (try congruence); try (apply H0; clear H0); try lia; intuition congruence.
Qed.

Lemma tree_copies V T i j : NoDup V -> spanning_tree V T -> copies T i j = ind (existsb (fun e => joins e i j) T).
Proof.
  intros HV HT. destruct (existsb _ T) eqn:Ex.
  - apply existsb_exists in Ex. destruct Ex as (e & He & Hj). apply in_split in He. destruct He as (A & B & ->).
    pose proof (spanning_tree_simple V _ A e B HV HT eq_refl) as HS.
    rewrite copies_app, copies_cons.
    assert (Hend : forall e', In e' (A ++ B) -> joins e' i j = false).
    { intros e' He'. destruct (joins e' i j) eqn:Ej; [|reflexivity]. exfalso. apply HS. apply joins_spec in Hj, Ej.
      destruct Hj as [->| ->]; destruct Ej as [->| ->]; cbn [fst snd]; (apply joined_edge; assumption) || (apply joined_sym, joined_edge; assumption). }
    rewrite (copies_none A) by (intros; apply Hend, in_or_app; auto). rewrite (copies_none B) by (intros; apply Hend, in_or_app; auto).
    assert (Hne : i <> j).
    { intros ->. apply HS. apply joins_spec in Hj. destruct Hj as [->| ->]; constructor. }
    apply joins_spec in Hj. cbn [ind]. destruct Hj as [->| ->]; cbn [fst snd]; rewrite !Nat.eqb_refl; cbn [andb ind];
      destruct (Nat.eqb_spec i j), (Nat.eqb_spec j i); cbn [andb ind]; lia.
  - apply copies_none. intros e He. destruct (joins e i j) eqn:Ej; [|reflexivity].
    assert (existsb (fun e => joins e i j) T = true) by (apply existsb_exists; eauto). congruence.
Qed.

(** degrees *)
Lemma copies_degree n E v : v < n -> (forall a b, In (a, b) E -> a < n /\ b < n) -> degree n (copies E) v = count_occ Nat.eq_dec (endpoints E) v.
Proof.
  intros Hv HE. induction E as [|[a b] E IH].
  - unfold degree. apply list_sum_0. reflexivity.
  - assert (Hab : a < n /\ b < n) by (apply HE; left; reflexivity).
    specialize (IH (fun x y H => HE x y (or_intror H))).
    change (endpoints ((a, b) :: E)) with ([a; b] ++ endpoints E). rewrite count_occ_app, <- IH.
    unfold degree. rewrite (list_sum_ext (copies ((a, b) :: E) v) (fun j => traversals [a; b] v j + copies E v j)).
    2:{ intros j _. rewrite copies_cons. cbn [fst snd traversals]. unfold ind. lia. }
    rewrite list_sum_map_add. f_equal.
    pose proof (walk_degree n [a; b] v ltac:(discriminate) ltac:(intros x [<-|[<-|[]]]; tauto) Hv) as HW. cbn [hd last] in HW. unfold degree in HW.
    assert (Hcount : count_occ Nat.eq_dec [a; b] v = ind (a =? v) + ind (b =? v)).
    { cbn. unfold ind. destruct (Nat.eq_dec a v), (Nat.eqb_spec a v), (Nat.eq_dec b v), (Nat.eqb_spec b v); lia. }
    lia.
Qed.
Lemma endpoints_length E : length (endpoints E) = 2 * length E.
Proof. induction E as [|e E IH]; [reflexivity|]. change (endpoints (e :: E)) with ([fst e; snd e] ++ endpoints E). cbn [app length] in *. lia. Qed.
Lemma incident_length T v : length (incident T v) = count_occ Nat.eq_dec (endpoints T) v.
Proof.
  induction T as [|[a b] T IH]; [reflexivity|]. change (endpoints ((a, b) :: T)) with ([a; b] ++ endpoints T). rewrite count_occ_app, <- IH.
  unfold incident. cbn [flat_map]. rewrite app_length. f_equal. cbn [fst snd count_occ].
  destruct (Nat.eqb_spec b v), (Nat.eqb_spec a v), (Nat.eq_dec a v), (Nat.eq_dec b v); cbn; lia.
Qed.
Lemma incident_In T v x e : In (x, e) (incident T v) -> In e T /\ (e = (v, x) \/ e = (x, v)).
Proof.
  unfold incident. intros H. apply in_flat_map in H. destruct H as ([a b] & Hin & H). cbn [fst snd] in H.
  destruct (Nat.eqb_spec b v), (Nat.eqb_spec a v); cbn in H; intuition (try congruence); match goal with H : (_, _) = (_, _) |- _ => injection H as <- <- end; subst; auto.
Qed.

Lemma combine_seq_map {A} (l : list A) d : forall k, combine (seq k (length l)) l = map (fun i => (i, nth (i - k) l d)) (seq k (length l)).
Proof.
  induction l as [|x l IH]; intros k; [reflexivity|]. cbn [length seq combine map]. rewrite Nat.sub_diag. cbn [nth]. f_equal. rewrite IH.
  apply map_ext_in. intros i Hi. apply in_seq in Hi. replace (i - k) with (S (i - S k)) by lia. reflexivity.
Qed.

Section Fill.
Context {N : Num}.
Variable n : nat.
Variable T : list (nat * nat).
Variable cost : nat -> nat -> C N.
Variable mst : graph N.
Hypothesis HT : forall a b, In (a, b) T -> a < n /\ b < n.
Hypothesis Hlen : length mst = n.
Hypothesis Hadj : forall v, v < n -> nth v mst [] = map (fun x => mkEdge (fst x) (cost (fst (snd x)) (snd (snd x)))) (incident T v).

Let entry (v : nat) : list (edge N) := map (fun x => mkEdge (fst x) (cost (fst (snd x)) (snd (snd x)))) (incident T v).

Lemma entry_range v e : In e (entry v) -> e_to e < n.
Proof.
  intros He. apply in_map_iff in He. destruct He as ([x e'] & <- & Hin). cbn [fst snd e_to]. apply incident_In in Hin.
  destruct Hin as [Hin [-> | ->]]; apply HT in Hin; tauto.
Qed.

Lemma tasks_map : combine (seq 0 n) mst = map (fun i => (i, entry i)) (seq 0 n).
Proof.
  rewrite <- Hlen at 1. rewrite (combine_seq_map mst []). rewrite Hlen. apply map_ext_in. intros i Hi. apply in_seq in Hi.
  rewrite Nat.sub_0_r, Hadj by lia. reflexivity.
Qed.

(** the programs of the rows *)

Definition row_prog (dim i : nat) (es : list (edge N)) : list (instr (A := C N * nat)) := map (fun e => Store (e_to e * dim + i) (e_cost e, 1)) es.

(** the last edge of the tree between two vertices is stored *)
Definition stored (i j : nat) (x : C N * nat) : C N * nat :=
  fold_left (fun x e => if joins e i j then (cost (fst e) (snd e), 1) else x) T x.

Lemma stored_sym i j x : stored i j x = stored j i x.
Proof. unfold stored. revert x. generalize T. intros t0. induction t0 as [|e t IH]; intros x; [reflexivity|]. cbn [fold_left]. rewrite IH. rewrite joins_sym. reflexivity. Qed.

Lemma run_entry (off : nat -> nat) i j k : off j = k -> (forall x, x < n -> off x = k -> x = j) -> i < n -> forall x,
  cell_run k (map (fun e => Store (off (e_to e)) (e_cost e, 1)) (entry i)) x = stored i j x.
Proof.
  intros Hoff Hinj Hi. unfold entry, stored. pose proof HT as HT'. revert HT'. generalize T. intros t0. induction t0 as [|[a b] t IH]; intros HT' x; [reflexivity|].
  assert (Hab : a < n /\ b < n) by (apply HT'; left; reflexivity). specialize (IH (fun a b H => HT' a b (or_intror H))).
  unfold incident. cbn [flat_map]. rewrite !map_app, cell_run_app. cbn [fold_left]. fold (incident t i). rewrite IH. f_equal.
  cbn [fst snd]. unfold joins. cbn [fst snd].
  assert (Hcell : forall y (c : C N) z, y < n -> cell_instr k z (Store (off y) (c, 1)) = if y =? j then (c, 1) else z).
  { intros y c z Hy. unfold cell_instr. cbn [instr_cell]. destruct (Nat.eqb_spec (off y) k) as [E|E], (Nat.eqb_spec y j) as [E'|E']; try reflexivity.
    - exfalso. apply E'. apply Hinj; assumption.
    - exfalso. apply E. rewrite E'. assumption. }
  unfold cell_run. destruct (Nat.eqb_spec b i), (Nat.eqb_spec a i); cbn [app map fold_left fst snd e_to e_cost]; rewrite ?Hcell by tauto.
  - subst. destruct (Nat.eqb_spec i j); cbn [andb orb]; reflexivity.
  - rewrite andb_true_r. cbn [andb orb]. reflexivity.
  - rewrite andb_false_r, orb_false_r. cbn [andb]. reflexivity.
  - rewrite andb_false_r. cbn [andb orb]. reflexivity.
Qed.

Lemma run_tasks (P : nat -> list (instr (A := C N * nat))) i k x : i < n -> (forall i', i' < n -> i' <> i -> forall q, In q (P i') -> instr_cell q <> k) ->
  cell_run k (concat (map P (seq 0 n))) x = cell_run k (P i) x.
Proof.
  intros Hi Hoth. replace n with (i + S (n - S i)) by lia. rewrite seq_app, map_app, concat_app, cell_run_app. cbn [seq map concat plus]. rewrite cell_run_app.
  rewrite (cell_run_other k (concat (map P (seq 0 i)))).
  - apply cell_run_other. intros q Hq. apply in_concat in Hq. destruct Hq as (p & Hp & Hq). apply in_map_iff in Hp. destruct Hp as (i' & <- & Hi').
    apply in_seq in Hi'. apply (Hoth i'); [lia|lia|assumption].
  - intros q Hq. apply in_concat in Hq. destruct Hq as (p & Hp & Hq). apply in_map_iff in Hp. destruct Hp as (i' & <- & Hi').
    apply in_seq in Hi'. apply (Hoth i'); [lia|lia|assumption].
Qed.

Lemma seq_mem_modify g (es : list (edge N)) i : mg_dim g = n -> length (mg_cells g) = n * n -> i < n -> (forall e, In e es -> e_to e < n) ->
  foldM (fun g e => mg_modify g i (e_to e) (fun _ => (e_cost e, 1))) es g =
  (cs <- foldM seq_instr (row_prog n i es) (mg_cells g) ;; Ok (mkMG n cs)).
Proof.
  revert g. induction es as [|e es IH]; intros [d cs] Hd Hcs Hi Hr; cbn [mg_dim mg_cells] in *; subst d; [reflexivity|].
  cbn [foldM row_prog map]. unfold mg_modify at 1. cbn [mg_dim mg_cells].
  assert (He : e_to e < n) by (apply Hr; left; reflexivity). apply Nat.ltb_lt in He as He'. apply Nat.ltb_lt in Hi as Hi'. rewrite He', Hi'. cbn [andb].
  cbn [seq_instr]. rewrite (modify_res_Ok _ _ _ (c0, 0)) by (rewrite Hcs; apply cell_bound; assumption). cbn [bind].
  rewrite IH; [reflexivity|reflexivity|cbn; rewrite upd_length; assumption|assumption|intros; apply Hr; right; assumption].
Qed.

Lemma fill_rows : forall l g, mg_dim g = n -> length (mg_cells g) = n * n -> (forall i, In i l -> i < n) ->
  foldM (fun g '(i, es) => foldM (fun g e => mg_modify g i (e_to e) (fun _ => (e_cost e, 1))) es g) (map (fun i => (i, entry i)) l) g =
  (cs <- foldM seq_instr (concat (map (fun i => row_prog n i (entry i)) l)) (mg_cells g) ;; Ok (mkMG n cs)).
Proof.
  induction l as [|i l IH]; intros [d cs] Hd Hcs Hl; cbn [mg_dim mg_cells] in *; subst d; [reflexivity|].
  cbn [map foldM concat]. assert (Hi : i < n) by (apply Hl; left; reflexivity).
  rewrite seq_mem_modify; [|reflexivity|assumption|assumption|intros e He; apply (entry_range i); assumption]. cbn [mg_cells].
  rewrite foldM_app. destruct (seq_mem_cells (c0, 0) (row_prog n i (entry i)) cs) as (cs' & E & L & _).
  { intros q Hq. apply in_map_iff in Hq. destruct Hq as (e & <- & He). cbn [instr_cell]. rewrite Hcs. apply cell_bound; [assumption|apply (entry_range i); assumption]. }
  rewrite E. cbn [bind]. rewrite IH; [reflexivity|reflexivity|cbn; lia|intros; apply Hl; right; assumption].
Qed.

(** both modes store, in each cell, the last edge of the tree between its vertices *)
Definition filled (g g' : multigraph N) : Prop :=
  mg_dim g' = n /\ mg_wf g' /\ forall i j, i < n -> j < n -> cell g' i j = stored i j (cell g i j).

Lemma fill_mst_seq_spec g : mg_dim g = n -> mg_wf g -> exists g', fill_mst_seq g mst = Ok g' /\ filled g g'.
Proof.
  intros Hd Hwf. unfold mg_wf in Hwf. rewrite Hd in Hwf. unfold fill_mst_seq. rewrite Hd, tasks_map.
  rewrite fill_rows; [|assumption|assumption|intros i Hi; apply in_seq in Hi; lia].
  destruct (seq_mem_cells (c0, 0) (concat (map (fun i => row_prog n i (entry i)) (seq 0 n))) (mg_cells g)) as (cs' & E & L & Cc).
  { intros q Hq. apply in_concat in Hq. destruct Hq as (p & Hp & Hq). apply in_map_iff in Hp. destruct Hp as (i & <- & Hi). apply in_seq in Hi.
    apply in_map_iff in Hq. destruct Hq as (e & <- & He). cbn [instr_cell]. rewrite Hwf. apply cell_bound; [lia|apply (entry_range i); assumption]. }
  rewrite E. cbn [bind]. exists (mkMG n cs'). split; [reflexivity|]. split; [reflexivity|]. split; [unfold mg_wf; cbn; lia|].
  intros i j Hi Hj. unfold cell. cbn [mg_dim mg_cells]. rewrite Hd. rewrite Cc by (rewrite Hwf; apply cell_bound; assumption).
  rewrite (run_tasks _ i) by (first [assumption | intros i' Hi' Hne q Hq; apply in_map_iff in Hq; destruct Hq as (e & <- & He); cbn [instr_cell];
    intros Eq; destruct (off_inj n i' (e_to e) i j Hi' (entry_range i' e He) Hi Hj Eq); congruence]).
  apply (run_entry (fun x => x * n + i)); [reflexivity|intros x Hx Eq; destruct (off_inj n i x i j Hi Hx Hi Hj Eq); congruence|assumption].
Qed.

Lemma fill_mst_par_spec sched g : mg_dim g = n -> mg_wf g -> exists g', fill_mst_par sched g mst = Ok g' /\ filled g g'.
Proof.
  intros Hd Hwf. unfold mg_wf in Hwf. rewrite Hd in Hwf. unfold fill_mst_par. rewrite Hd, tasks_map.
  replace (forallb _ (map (fun i => (i, entry i)) (seq 0 n))) with true.
  2:{ symmetry. apply forallb_forall. intros [i es] Hin. apply in_map_iff in Hin. destruct Hin as (i' & Eq & Hi). injection Eq as <- <-.
      apply forallb_forall. intros e He. apply Nat.ltb_lt. apply (entry_range i'). assumption. }
  rewrite map_map. set (progs := map _ (seq 0 n)).
  assert (Hpl : length progs = n) by (unfold progs; rewrite map_length, seq_length; reflexivity).
  assert (Hpn : forall a, a < n -> nth a progs [] = column_prog n a (entry a)).
  { intros a Ha. unfold progs. set (F := fun x => column_prog n x (entry x)). rewrite (nth_indep _ [] (F 0)) by (rewrite map_length, seq_length; assumption).
    change (map (fun x => column_prog n x (entry x)) (seq 0 n)) with (map F (seq 0 n)). rewrite map_nth, seq_nth by assumption. reflexivity. }
  destruct (par_mem_seq (c0, 0) progs (mg_cells g)) with (sched := sched) as (cs' & E & E2).
  { intros q p Hp Hq. unfold progs in Hp. apply in_map_iff in Hp. destruct Hp as (i & <- & Hi). apply in_seq in Hi.
    apply in_map_iff in Hq. destruct Hq as (e & <- & He). cbn [instr_cell]. rewrite Hwf. apply cell_bound; [apply (entry_range i); assumption|lia]. }
  { rewrite Hpl. intros a b q r Ha Hb Hab Hq Hr. rewrite Hpn in Hq, Hr by assumption.
    apply in_map_iff in Hq, Hr. destruct Hq as (e & <- & He). destruct Hr as (e' & <- & He'). cbn [instr_cell]. intros Eq.
    destruct (off_inj n (e_to e) a (e_to e') b (entry_range a e He) Ha (entry_range b e' He') Hb Eq). congruence. }
  rewrite E. cbn [bind].
  destruct (seq_mem_cells (c0, 0) (concat progs) (mg_cells g)) as (cs2 & E3 & L & Cc).
  { intros q Hq. apply in_concat in Hq. destruct Hq as (p & Hp & Hq). unfold progs in Hp. apply in_map_iff in Hp. destruct Hp as (i & <- & Hi). apply in_seq in Hi.
    apply in_map_iff in Hq. destruct Hq as (e & <- & He). cbn [instr_cell]. rewrite Hwf. apply cell_bound; [apply (entry_range i); assumption|lia]. }
  unfold seq_mem in E2. rewrite E3 in E2. injection E2 as <-.
  exists (mkMG n cs2). split; [reflexivity|]. split; [reflexivity|]. split; [unfold mg_wf; cbn; lia|].
  intros i j Hi Hj. unfold cell. cbn [mg_dim mg_cells]. rewrite Hd. rewrite Cc by (rewrite Hwf; apply cell_bound; assumption).
  unfold progs. rewrite (run_tasks _ j) by (first [assumption | intros i' Hi' Hne q Hq; apply in_map_iff in Hq; destruct Hq as (e & <- & He); cbn [instr_cell];
    intros Eq; destruct (off_inj n (e_to e) i' i j (entry_range i' e He) Hi' Hi Hj Eq); congruence]).
  rewrite (stored_sym i j). unfold column_prog.
  apply (run_entry (fun x => j * n + x)); [reflexivity|intros x Hx Eq; lia|assumption].
Qed.

Lemma stored_count i j x : snd (stored i j (x, 0)) = ind (existsb (fun e => joins e i j) T).
Proof using T cost.
  unfold stored. assert (H : forall k c, k <= 1 -> snd (fold_left (fun x e => if joins e i j then (cost (fst e) (snd e), 1) else x) T (c, k)) =
     if existsb (fun e => joins e i j) T then 1 else k).
  { generalize T. intros t. induction t as [|e t IH]; intros k c Hk; [reflexivity|]. cbn [fold_left existsb].
    destruct (joins e i j); cbn [orb]; [|apply IH; assumption]. rewrite IH by apply le_n. destruct (existsb _ t); reflexivity. }
  rewrite H by apply Nat.le_0_l. destruct (existsb _ T); reflexivity.
Qed.
End Fill.

(** ** The matching *)
Section FillMatching.
Context {N : Num}.
Variable n : nat.
Implicit Types (g : multigraph N) (M : matching).

Lemma fill_matching_mem M g : mg_dim g = n -> mg_wf g -> (forall a b, In (a, b) M -> a < n /\ b < n) ->
  fill_matching_seq g M = (cs <- seq_mem (map (pair_prog n) M) (mg_cells g) ;; Ok (mkMG n cs)).
Proof.
  revert g. induction M as [|[a b] M IH]; intros [d cs] Hd Hwf HM; unfold mg_wf in Hwf; cbn [mg_dim mg_cells] in *; subst d; [reflexivity|].
  assert (Hab : a < n /\ b < n) by (apply HM; left; reflexivity). destruct Hab as [Ha Hb].
  unfold fill_matching_seq, seq_mem in *. cbn [foldM map concat pair_prog app fst snd seq_instr].
  unfold mg_modify at 1. cbn [mg_dim mg_cells]. apply Nat.ltb_lt in Ha as Ha'. apply Nat.ltb_lt in Hb as Hb'. rewrite Ha', Hb'. cbn [andb].
  rewrite (modify_res_Ok _ _ _ (c0, 0)) by (rewrite Hwf; apply cell_bound; assumption). cbn [bind].
  unfold mg_modify at 1. cbn [mg_dim mg_cells]. rewrite Ha', Hb'. cbn [andb].
  rewrite (modify_res_Ok _ _ _ (c0, 0)) by (rewrite upd_length, Hwf; apply cell_bound; assumption). cbn [bind].
  rewrite IH; [reflexivity|reflexivity|unfold mg_wf; cbn; rewrite !upd_length; assumption|intros; apply HM; right; assumption].
Qed.

Lemma pair_range M g : mg_dim g = n -> mg_wf g -> (forall a b, In (a, b) M -> a < n /\ b < n) ->
  forall q p, In p (map (pair_prog n) M) -> In q p -> instr_cell (A := C N * nat) q < length (mg_cells g).
Proof.
  intros Hd Hwf HM q p Hp Hq. apply in_map_iff in Hp. destruct Hp as ([a b] & <- & Hin). destruct (HM a b Hin). unfold mg_wf in Hwf. rewrite Hwf, Hd.
  destruct Hq as [<-|[<-|[]]]; cbn [instr_cell fst snd]; apply cell_bound; assumption.
Qed.

Definition matched g M g' : Prop :=
  mg_dim g' = n /\ mg_wf g' /\ forall i j, i < n -> j < n -> cnt g' i j = cnt g i j + copies M i j /\ fst (cell g' i j) = fst (cell g i j).

Lemma run_pairs M i j : i < n -> j < n -> (forall a b, In (a, b) M -> a < n /\ b < n) -> forall x : C N * nat,
  cell_run (j * n + i) (concat (map (pair_prog n) M)) x = (fst x, snd x + copies M i j).
Proof.
  intros Hi Hj. induction M as [|[a b] M IH]; intros HM x.
  - cbn. rewrite Nat.add_0_r. destruct x; reflexivity.
  - assert (Hab : a < n /\ b < n) by (apply HM; left; reflexivity). destruct Hab as [Ha Hb].
    cbn [map concat]. rewrite cell_run_app, IH by (intros; apply HM; right; assumption). rewrite copies_cons. cbn [fst snd].
    assert (Hoff : forall u v, u < n -> v < n -> (v * n + u =? j * n + i) = (u =? i) && (v =? j)).
    { intros u v Hu Hv. destruct (Nat.eqb_spec (v * n + u) (j * n + i)) as [E|E].
      - destruct (off_inj n u v i j Hu Hv Hi Hj E) as [-> ->]. rewrite !Nat.eqb_refl. reflexivity.
      - destruct (Nat.eqb_spec u i) as [->|]; [|reflexivity]. destruct (Nat.eqb_spec v j) as [->|]; [congruence|reflexivity]. }
    unfold cell_run, pair_prog. cbn [fold_left fst snd]. unfold cell_instr. cbn [instr_cell]. rewrite !Hoff by assumption.
    rewrite (andb_comm (a =? j) (b =? i)).
    destruct ((a =? i) && (b =? j)), ((b =? i) && (a =? j)); cbn [ind bump fst snd]; f_equal; lia.
Qed.

Lemma fill_matching_seq_spec M g : mg_dim g = n -> mg_wf g -> (forall a b, In (a, b) M -> a < n /\ b < n) ->
  exists g', fill_matching_seq g M = Ok g' /\ matched g M g'.
Proof.
  intros Hd Hwf HM. rewrite fill_matching_mem by assumption. unfold seq_mem.
  destruct (seq_mem_cells (c0, 0) (concat (map (pair_prog n) M)) (mg_cells g)) as (cs' & E & L & Cc).
  { intros q Hq. apply in_concat in Hq. destruct Hq as (p & Hp & Hq). apply (pair_range M g Hd Hwf HM q p); assumption. }
  rewrite E. cbn [bind]. unfold mg_wf in Hwf. rewrite Hd in Hwf. exists (mkMG n cs'). split; [reflexivity|]. split; [reflexivity|]. split; [unfold mg_wf; cbn; lia|].
  intros i j Hi Hj. unfold cnt, cell. cbn [mg_dim mg_cells]. rewrite Hd. rewrite Cc by (rewrite Hwf; apply cell_bound; assumption).
  rewrite run_pairs by assumption. split; reflexivity.
Qed.

(** no two pairs join the same vertices *)
Definition distinct_pairs M : Prop := forall a b, a < length M -> b < length M -> a <> b ->
  forall i j, joins (nth a M (0, 0)) i j = true -> joins (nth b M (0, 0)) i j = false.

Lemma fill_matching_par_seq M g sched : mg_dim g = n -> mg_wf g -> (forall a b, In (a, b) M -> a < n /\ b < n) -> distinct_pairs M ->
  fill_matching_par sched g M = fill_matching_seq g M.
Proof.
  intros Hd Hwf HM HD. rewrite fill_matching_mem by assumption. unfold fill_matching_par. rewrite Hd.
  destruct (par_mem_seq (c0, 0) (map (pair_prog n) M) (mg_cells g)) with (sched := sched) as (cs' & E & E2).
  - intros q p. apply pair_range; assumption.
  - rewrite map_length. intros a b q r Ha Hb Hab Hq Hr.
    rewrite (nth_indep _ [] (pair_prog n (0, 0))) in Hq by (rewrite map_length; assumption). rewrite map_nth in Hq.
    rewrite (nth_indep _ [] (pair_prog n (0, 0))) in Hr by (rewrite map_length; assumption). rewrite map_nth in Hr.
    pose proof (nth_In M (0, 0) Ha) as HMa. pose proof (nth_In M (0, 0) Hb) as HMb. specialize (HD a b Ha Hb Hab).
    destruct (nth a M (0, 0)) as [a1 a2], (nth b M (0, 0)) as [b1 b2]. destruct (HM _ _ HMa), (HM _ _ HMb).
    assert (Hno : forall i j, (a1, a2) = (i, j) \/ (a1, a2) = (j, i) -> (b1, b2) = (i, j) \/ (b1, b2) = (j, i) -> False).
    { intros i j Hj1 Hj2. apply joins_spec in Hj1, Hj2. rewrite (HD i j Hj1) in Hj2. discriminate. }
    intros Eq. apply (Hno a1 a2); [auto|].
    destruct Hq as [<-|[<-|[]]]; destruct Hr as [<-|[<-|[]]]; cbn [instr_cell fst snd] in Eq;
      apply off_inj in Eq; try assumption; destruct Eq; subst; auto.
  - rewrite E, E2. reflexivity.
Qed.
End FillMatching.

(** ** The whole multigraph *)
Section Whole.
Context {N : Num}.
Variable m : namatrix N.
Let n := na_dim m.
Hypothesis Hwf : na_wf m.
Variable T : list (nat * nat).
Variable cost : nat -> nat -> C N.
Variable mst : graph N.
Hypothesis HT : spanning_tree (seq 0 n) T.
Hypothesis Hlen : length mst = n.
Hypothesis Hadj : forall v, v < n -> nth v mst [] = map (fun x => mkEdge (fst x) (cost (fst (snd x)) (snd (snd x)))) (incident T v).
Variable M : matching.
Hypothesis HM : forall a b, In (a, b) M -> a < n /\ b < n.

Lemma T_range a b : In (a, b) T -> a < n /\ b < n.
Proof. intros H. destruct HT as [H1 _]. destruct (H1 a b H) as [Ha Hb]. apply in_seq in Ha, Hb. lia. Qed.

Lemma base_wf : mg_wf (mg_base m).
Proof. unfold mg_wf, mg_base. cbn. rewrite map_length. exact Hwf. Qed.
Lemma base_cell i j : i < n -> j < n -> cell (mg_base m) i j = (na_val m i j, 0).
Proof.
  intros Hi Hj. unfold cell, mg_base, na_val. cbn [mg_dim mg_cells]. set (f := fun c : C N => (c, 0)). change (c0, 0) with (f c0). rewrite map_nth. reflexivity.
Qed.

Definition multigraph_ok (g : multigraph N) : Prop :=
  mg_dim g = n /\ mg_wf g /\ forall i j, i < n -> j < n -> cnt g i j = copies (T ++ M) i j.

Lemma fill_modes env mode : mode <= 2 -> (mode = PAR_COMPUTATION -> distinct_pairs M) ->
  exists g, fill_multigraph env mode m mst M = Ok g /\ fill_multigraph env SEQ_COMPUTATION m mst M = Ok g /\ multigraph_ok g.
Proof.
  intros Hmode Hdist.
  destruct (fill_mst_seq_spec n T cost mst T_range Hlen Hadj (mg_base m) eq_refl base_wf) as (g1 & E1 & Hd1 & Hw1 & C1).
  destruct (fill_matching_seq_spec n M g1 Hd1 Hw1 HM) as (g2 & E2 & Hd2 & Hw2 & C2).
  assert (Hok : multigraph_ok g2).
  { split; [assumption|]. split; [assumption|]. intros i j Hi Hj. destruct (C2 i j Hi Hj) as [-> _]. unfold cnt. rewrite C1, base_cell, stored_count by assumption.
    rewrite copies_app, (tree_copies (seq 0 n) T i j (seq_NoDup n 0) HT). reflexivity. }
  assert (Eseq : fill_multigraph env SEQ_COMPUTATION m mst M = Ok g2).
  { unfold fill_multigraph. rewrite Nat.eqb_refl, orb_true_r. rewrite E1. cbn [bind]. assumption. }
  exists g2. split; [|split; assumption].
  destruct (Nat.eq_dec mode PAR_COMPUTATION) as [->|Hne].
  - specialize (Hdist eq_refl). unfold fill_multigraph. cbn [orb Nat.eqb MPI_COMPUTATION SEQ_COMPUTATION PAR_COMPUTATION].
    destruct (fill_mst_par_spec n T cost mst T_range Hlen Hadj (fill_sched1 env) (mg_base m) eq_refl base_wf) as (g1' & E1' & Hd1' & Hw1' & C1').
    assert (g1' = g1).
    { destruct g1 as [d1 cs1], g1' as [d2 cs2]. cbn [mg_dim] in *. unfold mg_wf in *. cbn [mg_dim mg_cells] in *. subst d1 d2. f_equal.
      apply (nth_ext _ _ (c0, 0) (c0, 0)); [lia|]. intros k Hk. rewrite Hw1' in Hk.
      assert (Hn0 : n <> 0) by nia.
      specialize (C1 (k mod n) (k / n)). specialize (C1' (k mod n) (k / n)). unfold cell in C1, C1'. cbn [mg_dim mg_cells] in C1, C1'.
      assert (Ek : k / n * n + k mod n = k) by (rewrite (Nat.div_mod k n) at 3 by assumption; lia). rewrite Ek in C1, C1'.
      rewrite C1', C1; try reflexivity; try (apply Nat.mod_upper_bound; assumption); apply Nat.div_lt_upper_bound; assumption. }
    subst g1'. fold n in E1'. rewrite E1'. cbn [bind]. rewrite (fill_matching_par_seq n) by assumption. assumption.
  - rewrite <- Eseq. unfold fill_multigraph. unfold PAR_COMPUTATION, SEQ_COMPUTATION, MPI_COMPUTATION in *.
    destruct mode as [|[|[|]]]; try lia; reflexivity.
Qed.

Lemma tree_connected : 1 <= n -> forall g, multigraph_ok g -> connected n (cnt g).
Proof.
  intros Hn g (Hd & Hw & Hc) v Hv. destruct HT as (_ & H2 & _).
  assert (HJ : joined T 0 v) by (apply H2; apply in_seq; lia).
  assert (H : forall a v, joined T a v -> a = 0 -> v < n -> reached n (cnt g) v); [|eauto]. clear HJ Hv v.
  intros a v HJ. induction HJ as [a|a b c HJ IH Hin]; intros Ea Hv; [rewrite Ea; constructor|].
  assert (Hb : b < n) by (destruct Hin as [Hin|Hin]; apply T_range in Hin; tauto).
  apply (reached_step n (cnt g) b c); [auto|assumption|]. rewrite Hc by assumption. rewrite copies_app.
  assert (copies T b c <> 0) by (apply copies_In; tauto). lia.
Qed.

Lemma multigraph_sym g : multigraph_ok g -> forall i j, i < n -> j < n -> cnt g i j = cnt g j i.
Proof. intros (_ & _ & Hc) i j Hi Hj. rewrite !Hc by assumption. apply copies_sym. Qed.
Lemma multigraph_diag g : multigraph_ok g -> forall i, i < n -> Nat.Even (cnt g i i).
Proof. intros (_ & _ & Hc) i Hi. rewrite Hc by assumption. apply copies_diag. Qed.
Lemma multigraph_degree g : multigraph_ok g -> forall i, i < n -> degree n (cnt g) i = length (nth i mst []) + count_occ Nat.eq_dec (endpoints M) i.
Proof.
  intros (_ & _ & Hc) i Hi. unfold degree. rewrite (list_sum_ext (cnt g i) (copies (T ++ M) i)) by (intros j Hj; apply in_seq in Hj; apply Hc; lia).
  fold (degree n (copies (T ++ M)) i). rewrite copies_degree; [|assumption|].
  - unfold endpoints. rewrite flat_map_app, count_occ_app. rewrite Hadj, map_length, incident_length by assumption. reflexivity.
  - intros a b Hin. apply in_app_or in Hin. destruct Hin as [Hin|Hin]; [apply T_range; assumption|auto].
Qed.

Lemma odd_vertices_spec v : In v (odd_vertices mst) <-> v < n /\ Nat.Odd (length (nth v mst [])).
Proof.
  unfold odd_vertices. rewrite (combine_seq_map mst []), Hlen, in_map_iff. split.
  - intros ([v' es] & <- & Hin). apply filter_In in Hin. destruct Hin as [Hin Ho]. apply in_map_iff in Hin. destruct Hin as (i & Eq & Hi).
    injection Eq as <- <-. apply in_seq in Hi. rewrite Nat.sub_0_r in Ho. cbn [fst]. split; [lia|]. apply Nat.eqb_eq in Ho.
    exists (length (nth i mst []) / 2). rewrite (Nat.div_mod (length (nth i mst [])) 2) at 1 by discriminate. lia.
  - intros [Hv [k Hk]]. exists (v, nth v mst []). split; [reflexivity|]. apply filter_In. split.
    + apply in_map_iff. exists v. rewrite Nat.sub_0_r. split; [reflexivity|]. apply in_seq. lia.
    + apply Nat.eqb_eq. rewrite Hk. replace (2 * k + 1) with (1 + k * 2) by lia. rewrite Nat.mod_add by discriminate. reflexivity.
Qed.
Lemma odd_vertices_NoDup : NoDup (odd_vertices mst).
Proof.
  unfold odd_vertices. rewrite (combine_seq_map mst []). set (l := seq 0 (length mst)). assert (Hl : NoDup l) by apply seq_NoDup. clearbody l.
  induction Hl as [|x l Hx Hl IH]; [constructor|]. cbn [map filter]. destruct (_ =? 1); cbn [map]; [|assumption].
  constructor; [|assumption]. intros Hin. apply in_map_iff in Hin. destruct Hin as ([a b] & Eq0 & Hin). cbn [fst] in Eq0. subst a. apply filter_In in Hin. destruct Hin as [Hin _].
  apply in_map_iff in Hin. destruct Hin as (i & Eq & Hi). injection Eq as Eq _. subst i. auto.
Qed.

(** with a perfect matching of the odd vertices all degrees are even *)
Lemma multigraph_even g : multigraph_ok g -> perfect_matching (odd_vertices mst) M -> forall i, i < n -> Nat.Even (degree n (cnt g) i).
Proof.
  intros Hok HP i Hi. rewrite multigraph_degree by assumption. unfold perfect_matching in HP.
  rewrite (proj1 (Permutation_count_occ Nat.eq_dec _ _) HP i).
  destruct (Nat.Even_or_Odd (length (nth i mst []))) as [[k Hk]|[k Hk]].
  - assert (~ In i (odd_vertices mst)).
    { intros Hin. apply odd_vertices_spec in Hin. destruct Hin as [_ [k' Hk']]. lia. }
    apply (count_occ_not_In Nat.eq_dec) in H. exists k. lia.
  - assert (In i (odd_vertices mst)) as Hin by (apply odd_vertices_spec; split; [assumption|exists k; assumption]).
    assert (count_occ Nat.eq_dec (odd_vertices mst) i = 1) by (apply NoDup_count_occ'; [apply odd_vertices_NoDup|assumption]). exists (S k). lia.
Qed.

(** the number of odd vertices is even *)
Lemma degree_total : list_sum (map (fun v => length (nth v mst [])) (seq 0 n)) = 2 * length T.
Proof.
  rewrite (list_sum_ext _ (fun v => count_occ Nat.eq_dec (endpoints T) v)) by (intros v Hv; apply in_seq in Hv; rewrite Hadj, map_length, incident_length by lia; reflexivity).
    rewrite <- endpoints_length.
    assert (Hr : forall x, In x (endpoints T) -> x < n).
    { intros x Hx. apply in_flat_map in Hx. destruct Hx as ([a b] & Hin & Hx). apply T_range in Hin. cbn in Hx. destruct Hx as [<-|[<-|[]]]; tauto. }
    revert Hr. generalize (endpoints T). clear. intros l. induction l as [|x l IH]; intros Hr; [apply list_sum_0; reflexivity|].
    rewrite (list_sum_ext _ (fun v => (if x =? v then 1 else 0) + count_occ Nat.eq_dec l v)).
    - rewrite list_sum_map_add, list_sum_indicator by (apply Hr; left; reflexivity). cbn [length plus]. apply f_equal. apply IH. intros; apply Hr; right; assumption.
    - intros v _. cbn [count_occ]. destruct (Nat.eq_dec x v), (Nat.eqb_spec x v); lia.
Qed.
Lemma odd_vertices_even : Nat.Even (length (odd_vertices mst)).
Proof.
  assert (Hsum : forall l, NoDup l -> (forall v, In v l -> v < n) ->
     Nat.Even (list_sum (map (fun v => length (nth v mst [])) l) + length (filter (fun v => Nat.odd (length (nth v mst []))) l))).
  { intros l _ _. induction l as [|v l [k IH]]; [exists 0; reflexivity|]. cbn [map filter]. unfold list_sum in *. cbn [fold_right].
    destruct (Nat.odd (length (nth v mst []))) eqn:Eo.
    - apply Nat.odd_spec in Eo. destruct Eo as [h Eo]. cbn [length]. exists (h + 1 + k). lia.
    - assert (Ee : Nat.even (length (nth v mst [])) = true) by (rewrite <- Nat.negb_odd, Eo; reflexivity). apply Nat.even_spec in Ee. destruct Ee as [h Ee]. exists (h + k). lia. }
  specialize (Hsum (seq 0 n) (seq_NoDup n 0) ltac:(intros v Hv; apply in_seq in Hv; lia)).
  pose proof degree_total as Etot.
  rewrite Etot in Hsum.
  assert (El : length (odd_vertices mst) = length (filter (fun v => Nat.odd (length (nth v mst []))) (seq 0 n))).
  { unfold odd_vertices. rewrite (combine_seq_map mst []), Hlen, map_length. generalize (seq 0 n). clear. intros l. induction l as [|v l IH]; [reflexivity|].
    cbn [map filter]. rewrite Nat.sub_0_r. replace (length (nth v mst []) mod 2 =? 1) with (Nat.odd (length (nth v mst []))); [destruct (Nat.odd _); cbn [length]; lia|].
    destruct (Nat.odd _) eqn:Eo; symmetry.
    - apply Nat.odd_spec in Eo. destruct Eo as [k ->]. replace (2 * k + 1) with (1 + k * 2) by lia. rewrite Nat.mod_add by discriminate. reflexivity.
    - apply Nat.eqb_neq. intros E. assert (Nat.odd (length (nth v mst [])) = true); [|congruence]. apply Nat.odd_spec. exists (length (nth v mst []) / 2).
      rewrite (Nat.div_mod (length (nth v mst [])) 2) at 1 by discriminate. lia. }
  rewrite El. destruct Hsum as [k Hk]. exists (k - length T). lia.
Qed.

(** a tree with an edge has a leaf, so there are at least two odd vertices *)
Lemma joined_first (a b : nat) : joined T a b -> a <> b -> exists e, In e T /\ (fst e = a \/ snd e = a).
Proof.
  induction 1 as [|a b c HJ IH Hin]; intros Hne; [congruence|]. destruct (Nat.eq_dec a b) as [->|Hab]; [|auto].
  destruct Hin as [Hin|Hin]; eexists; (split; [exact Hin|]); cbn; auto.
Qed.
Lemma odd_vertices_two : 2 <= n -> 2 <= length (odd_vertices mst).
Proof.
  intros Hn. destruct odd_vertices_even as [k Hk]. destruct k as [|k]; [|lia]. exfalso.
  assert (Hnone : forall v, v < n -> 2 <= length (nth v mst [])).
  { intros v Hv. assert (Hno : ~ Nat.Odd (length (nth v mst []))).
    { intros Ho. assert (Hin : In v (odd_vertices mst)) by (apply odd_vertices_spec; auto). destruct (odd_vertices mst); [destruct Hin|cbn in Hk; lia]. }
    assert (Hpos : length (nth v mst []) <> 0).
    { rewrite Hadj, map_length, incident_length by assumption. destruct HT as (_ & H2 & _).
      set (u := if v =? 0 then 1 else 0). assert (Hu : u < n /\ v <> u) by (unfold u; destruct (Nat.eqb_spec v 0); lia).
      destruct (joined_first v u) as ([a b] & Hin & He); [apply H2; apply in_seq; lia|tauto|].
      assert (Hv' : In v (endpoints T)) by (apply in_flat_map; exists (a, b); split; [assumption|]; cbn in *; tauto).
      apply (count_occ_In Nat.eq_dec) in Hv'. lia. }
    destruct (Nat.Even_or_Odd (length (nth v mst []))) as [[h Hh]|Ho]; [lia|contradiction]. }
  assert (Hge : forall l, (forall v, In v l -> v < n) -> 2 * length l <= list_sum (map (fun v => length (nth v mst [])) l)).
  { induction l as [|v l IH]; intros H; [cbn; lia|]. specialize (IH (fun x Hx => H x (or_intror Hx))). specialize (Hnone v (H v (or_introl eq_refl))).
    cbn [map length list_sum fold_right]. unfold list_sum in IH. lia. }
  specialize (Hge (seq 0 n) ltac:(intros v Hv; apply in_seq in Hv; lia)). rewrite degree_total, seq_length in Hge.
  destruct HT as (_ & _ & H3). rewrite seq_length in H3. lia.
Qed.
End Whole.
