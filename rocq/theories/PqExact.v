(** The weight of the graph returned by the priority-queue version of Prim's algorithm. *)
From Coq Require Import ZArith Arith Bool List Permutation Lia.
From Verif Require Import Num Base Data Mst Par MstPar Spec SpecFacts Greedy PrimProofs PqProofs MstFacts Dfs.
Import ListNotations.
Local Open Scope Z_scope.

Lemma greedy_heads le S R E : greedy le S R E -> Permutation (map snd E) R.
Proof.
  induction 1 as [|S R R' u v E Hu HP Hm H IH]; [constructor|]. cbn [map snd]. rewrite HP. constructor. assumption.
Qed.

(** the vertex from which [b] was reached *)
Definition source (T : list (nat * nat)) (b : nat) : nat :=
  match find (fun e => (snd e =? b)%nat) T with Some e => fst e | None => b end.

Lemma source_In T u v : NoDup (map snd T) -> In (u, v) T -> source T v = u.
Proof.
  unfold source. induction T as [|[a b] T IH]; [intros _ []|]. cbn [map snd]. intros Hnd Hin.
  inversion Hnd as [|? ? Hn Hnd']; subst. cbn [find snd]. destruct Hin as [H|H].
  - injection H as -> ->. rewrite Nat.eqb_refl. reflexivity.
  - destruct (Nat.eqb_spec b v) as [E|E]; [|apply IH; assumption]. exfalso. apply Hn. subst b.
    apply in_map_iff. exists (u, v). auto.
Qed.

Section PqExact.
Context {N : Num} {B : Z} (E : Exact N B) (O : NumOrd N).
Variable m : namatrix N.
Hypothesis Hwf : na_wf m.
Let n := na_dim m.
Variable w : nat -> nat -> Z.
Variable W : Z.
Hypothesis Hrep : represents E (na_adj m) w.
Hypothesis HW : bounded w n W.
Hypothesis HB : 2 * W * Z.of_nat n <= B.
Variable pick : nat -> nat.

Theorem prim_pq_exact X : Forall (fun x => (x < n)%nat) X -> (exists v, (v < n)%nat /\ ~ In v X) ->
  exists g T, prim_with_excluded_node_priority_queue pick m X = Ok g /\ length g = n /\
    spanning_tree (free_vertices n X) T /\
    directed_edge_weight g = inj E (2 * edges_cost w T) /\
    (symmetric w n -> forall T', spanning_tree (free_vertices n X) T' -> edges_cost w T <= edges_cost w T').
Proof.
  intros HX Hex.
  assert (Hfin : forall a b, (a < n)%nat -> (b < n)%nat -> a <> b -> clt (na_val m a b) cinf = true).
  { intros a b Ha Hb Hab. rewrite (rep_val E m Hwf w Hrep) by assumption. apply inj_lt_inf. apply (w_small m w W HW HB); assumption. }
  destruct (prim_pq_spec O m Hwf Hfin pick X HX Hex) as (g & P & start & R & Eg & Hl & Hgr & HP & Hadj & HPn).
  fold n in Hl, HP, Hadj, HPn.
  set (T := map snd P) in *.
  assert (Hsp0 : spanning_tree (start :: R) T) by (eapply greedy_spanning; eauto).
  assert (Hsp : spanning_tree (free_vertices n X) T).
  { destruct Hsp0 as (H1 & H2 & H3). split; [|split].
    - intros a b Hin. destruct (H1 a b Hin). split; apply (Permutation_in _ (Permutation_sym HP)); assumption.
    - intros a b Ha Hb. apply H2; apply (Permutation_in _ HP); assumption.
    - rewrite H3. symmetry. apply Permutation_length. assumption. }
  assert (Hfr : forall a, In a (free_vertices n X) -> (a < n)%nat) by (intros a Ha; apply (free_In m) in Ha; tauto).
  assert (HTn : forall a b, In (a, b) T -> (a < n)%nat /\ (b < n)%nat).
  { intros a b Hin. destruct Hsp as [Hs _]. destruct (Hs a b Hin). auto. }
  assert (Hnd : NoDup (start :: R)) by (apply (Permutation_NoDup HP), (free_NoDup m)).
  assert (Hnd2 : NoDup (map snd T)).
  { apply (Permutation_NoDup (Permutation_sym (greedy_heads _ _ _ _ Hgr))). inversion Hnd; assumption. }
  assert (Hne : forall a b, In (a, b) T -> a <> b).
  { intros a b Hin ->. assert (G : forall S R E, greedy (ele m) S R E -> NoDup (S ++ R) -> In (b, b) E -> False); [|exact (G _ _ _ Hgr Hnd Hin)].
    clear. induction 1 as [|S R R' u v E Hu HP Hm H IH]; [intros _ []|]. intros Hnd [Heq|Hin].
    - injection Heq as -> ->. assert (In b R) by (apply (Permutation_in _ (Permutation_sym HP)); left; reflexivity).
      apply in_split in Hu. destruct Hu as (l1 & l2 & ->). rewrite <- app_assoc in Hnd. apply NoDup_remove_2 in Hnd.
      apply Hnd. rewrite app_assoc. apply in_or_app. right. assumption.
    - apply IH; [|assumption]. apply (Permutation_NoDup (l := S ++ R)); [|assumption].
      rewrite HP. cbn [app]. symmetry. apply Permutation_middle. }
  exists g, T. split; [assumption|]. split; [assumption|]. split; [assumption|]. split.
  - set (w' := fun (_ b : nat) => w (source T b) b). set (T' := map (fun p => (fst p, snd (snd p))) P).
    assert (Hw' : forall p, In p P -> w' (fst p) (snd (snd p)) = w (fst (snd p)) (snd (snd p))).
    { intros [l [u v]] Hp. unfold w'. cbn [fst snd]. rewrite (source_In T u v Hnd2); [reflexivity|].
      apply (in_map snd) in Hp. exact Hp. }
    clearbody w'.
    assert (HPT : forall p, In p P -> (fst p < n)%nat /\ (fst (snd p) < n)%nat /\ (snd (snd p) < n)%nat /\ fst (snd p) <> snd (snd p)).
    { intros [l [u v]] Hp. rewrite Forall_forall in HPn. pose proof (HPn _ Hp). apply (in_map snd) in Hp. cbn [fst snd] in *.
      destruct (HTn u v Hp). pose proof (Hne u v Hp). auto. }
    assert (Ew : edges_cost w' T' = edges_cost w T).
    { unfold T', T. clear -Hw'. induction P as [|p P IH]; [reflexivity|]. unfold edges_cost in *. cbn [map fold_right fst snd].
      rewrite IH by (intros; apply Hw'; right; assumption). rewrite Hw' by (left; reflexivity). reflexivity. }
    rewrite <- Ew. apply (directed_weight E g w' T' n W); try assumption.
    + intros a b Hin. unfold T' in Hin. apply in_map_iff in Hin. destruct Hin as (p & Heq & Hp). injection Heq as <- <-.
      destruct (HPT p Hp) as (H1 & H2 & H3 & _). auto.
    + intros a b Hin. unfold T' in Hin. apply in_map_iff in Hin. destruct Hin as (p & Heq & Hp). injection Heq as <- <-.
      rewrite Hw' by assumption. destruct (HPT p Hp) as (_ & H2 & H3 & _). apply HW; assumption.
    + assert (HlT : (length T' <= n)%nat).
      { unfold T'. rewrite map_length, <- (map_length snd P). fold T. destruct Hsp as (_ & _ & Hlen). assert ((length (free_vertices n X) <= n)%nat); [|lia].
        unfold free_vertices. rewrite <- (seq_length n 0) at 2.
        clear. induction (seq 0 n); simpl; [lia|]. destruct (negb _); simpl; lia. }
      destruct Hex as (v & Hv & _). pose proof (HW v v Hv Hv). nia.
    + intros v Hv. rewrite Hadj by assumption. unfold T'. clear -Hw' HPT Hwf Hrep HPn.
      induction P as [|p P IH]; [reflexivity|].
      unfold adj3 in *. cbn [map flat_map]. rewrite IH; try (intros; first [apply Hw'|apply HPT]; right; assumption).
      2:{ inversion HPn; assumption. }
      unfold incident. cbn [flat_map fst snd]. rewrite !map_app. f_equal.
      destruct (HPT p (or_introl eq_refl)) as (H1 & H2 & H3 & H4).
      rewrite (rep_val E m Hwf w Hrep) by assumption.
      destruct (snd (snd p) =? v)%nat, (fst p =? v)%nat; cbn [map app fst snd]; rewrite ?Hw' by (left; reflexivity); reflexivity.
  - intros Hsym T' HT'. apply (greedy_min_spanning w (ele m) start R T (free_vertices n X) T'); try assumption.
    + intros a b c d Ha Hb Hc Hd. unfold ele. cbn [fst snd]. intros Hab Hcd Hle.
      rewrite !(rep_val E m Hwf w Hrep) in Hle by (fold n; auto). rewrite inj_le in Hle by (apply (w_small m w W HW HB); auto). lia.
    + apply (free_NoDup m).
    + intros a b Ha Hb. apply Hsym; auto.
Qed.
End PqExact.
