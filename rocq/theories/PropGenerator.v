(** C58: the generator of random documents. *)
From Coq Require Import ZArith Arith Bool List Lia Reals Lra.
From Flocq Require Import Core IEEE754.Binary IEEE754.Bits.
From Flocq Require IEEE754.BinarySingleNaN.
From Verif Require Import Num NumB64 F64Facts Base Data Points PointsProofs DistProofs PrimProofs ConvProofs Precond PrecondProofs PropData PropPoints
  Generator GeneratorProofs.
Import ListNotations.
Local Open Scope nat_scope.

(** ** Vocabulary *)
(** The random generator delivers 53 random bits. *)
Definition random_bits (draws : nat -> Z) : Prop := forall i, (0 <= draws i < 2 ^ 53)%Z.
(** no two of the points have the same position *)
Definition apart (ps : list point) : Prop := forall i j, i < j -> j < length ps ->
  r64 (fst (pt ps i)) <> r64 (fst (pt ps j)) \/ r64 (snd (pt ps i)) <> r64 (snd (pt ps j)).

Lemma points_length n draws : length (generated_points n draws) = n.
Proof. unfold generated_points. rewrite map_length, seq_length. reflexivity. Qed.
Lemma points_nth n draws i : i < n -> pt (generated_points n draws) i = (coordinate (draws (2 * i)), coordinate (draws (2 * i + 1))).
Proof.
  intros Hi. unfold pt, generated_points. set (f := fun i => (coordinate (draws (2 * i)), coordinate (draws (2 * i + 1)))).
  rewrite (nth_indep _ origin (f 0)) by (rewrite map_length, seq_length; assumption). rewrite map_nth, seq_nth by assumption. reflexivity.
Qed.
Lemma points_generated n draws i : random_bits draws -> i < n -> generated_point (pt (generated_points n draws) i).
Proof.
  intros Hd Hi. rewrite points_nth by assumption. destruct (coordinate_val _ (Hd (2 * i))) as (A1 & _ & A3 & A4). destruct (coordinate_val _ (Hd (2 * i + 1))) as (B1 & _ & B3 & B4).
  split; [split; assumption|]. split; [split; assumption|]. split; assumption.
Qed.

(** ** The points *)
(** [n] points with finite coordinates, each within 2^-47 of [20 r - 10] for its random number
    [r = draws k / 2^53], and none outside of the square from -10 to 10. *)
Theorem C58_points : forall n draws, random_bits draws ->
  let ps := generated_points n draws in
  length ps = n /\ finite_points ps /\ coords_within ps 10 /\
  forall i, i < n ->
    (Rabs (r64 (fst (pt ps i)) - (20 * (IZR (draws (2 * i)%nat) / 2 ^ 53) - 10)) <= / 2 ^ 47)%R /\
    (Rabs (r64 (snd (pt ps i)) - (20 * (IZR (draws (2 * i + 1)%nat) / 2 ^ 53) - 10)) <= / 2 ^ 47)%R.
Proof.
  intros n draws Hd ps.
  assert (HIn : forall p, In p ps -> generated_point p).
  { intros p Hp. destruct (In_nth ps p origin Hp) as (i & Hi & <-). unfold ps in Hi. rewrite points_length in Hi. apply (points_generated n draws i Hd Hi). }
  split; [apply points_length|]. split; [intros p Hp; apply (HIn p Hp)|]. split.
  - intros p Hp. destruct (HIn p Hp) as (_ & (A & B) & _). split; apply Rabs_le; lra.
  - assert (HP : forall k : nat, (/ 2 ^ k)%R = bpow radix2 (- Z.of_nat k)).
    { intros k. rewrite bpow_opp. f_equal. rewrite <- (IZR_Zpower radix2 (Z.of_nat k)) by lia. apply (pow_IZR 2). }
    assert (HB : forall k, (20 * (IZR k / 2 ^ 53) - 10)%R = wanted k) by (intros k; unfold wanted, Rdiv; rewrite HP; reflexivity).
    assert (H47 : (/ 2 ^ 47)%R = bpow radix2 (-47)) by apply HP.
    intros i Hi. unfold ps. rewrite points_nth by assumption. cbn [fst snd]. rewrite !HB, H47. split; apply coordinate_near, Hd.
Qed.
Print Assumptions C58_points.

(** ** The documents *)
(** A document with [n] vertices is written.  If no two points coincide, it is accepted by the
    solver, the matrix read from it is the one built from the points (see C38, C49: symmetric, Euclidean
    up to rounding), and it passes the check of the triangle inequality.  Otherwise the solver
    rejects it: an edge is missing. *)
Theorem C58_accepted_iff_apart : forall n rest draws, random_bits draws ->
  let ps := generated_points n draws in
  exists g, generator_main (Some n :: rest) draws = Ok (Written g) /\ length g = n /\
   (apart ps -> parse_from_xml (Some g) = Ok (Some g) /\
      exists m, na_from_graph g = Ok m /\ from_points b64_dist ps = Ok m /\ is_metric (na_adj m) = Ok true) /\
   (~ apart ps -> parse_from_xml (Some g) = Panic).
Proof.
  intros n rest draws Hd ps. destruct (C58_points n draws Hd) as (Hlen & Hf & Hw & _). fold ps in Hlen, Hf, Hw.
  destruct (generated_matrix_val ps) as (vm & E & Sq & V). rewrite Hlen in *.
  cbn [generator_main]. unfold ps in E. rewrite E. cbn [bind]. exists (document_of_matrix vm). split; [reflexivity|].
  set (g := document_of_matrix vm). assert (Lg : length g = n) by (unfold g, document_of_matrix; rewrite map_length; apply Sq). split; [exact Lg|].
  assert (Hrow : forall i, i < n -> nth i g [] = vertex_of_row (nth i vm [])).
  { intros i Hi. unfold g, document_of_matrix. change ([] : list (edge B64)) with (vertex_of_row []) at 1. apply map_nth. }
  assert (Hent : forall i j, i < n -> j < n -> nth j (nth i vm []) c0 = if i =? j then b64_zero else b64_dist (pt ps j) (pt ps i)) by (intros; apply V; assumption).
  assert (Hgen : forall i, i < n -> generated_point (pt ps i)) by (intros; apply points_generated; assumption).
  assert (Hloop : forall i e, i < length g -> In e (nth i g []) -> e_to e < length g /\ e_to e <> i).
  { intros i e Hi He. rewrite Lg in *. rewrite Hrow in He by assumption. apply in_row in He. destruct He as (H1 & _ & H3). rewrite (proj2 Sq) in H1 by assumption.
    split; [exact H1|]. intros Ei. rewrite Hent, Ei, Nat.eqb_refl in H3 by (assumption || lia). discriminate. }
  assert (Hlf : loop_free g) by (intros i e Hi He; apply (Hloop i e Hi He)).
  assert (Hto : forall i j, i < n -> j < n -> i <> j -> to_edges g i j = if ceq (b64_dist (pt ps j) (pt ps i)) (c0 : C B64) then [] else [mkEdge j (b64_dist (pt ps j) (pt ps i))]).
  { intros i j Hi Hj Hij. unfold to_edges. rewrite Hrow by assumption. rewrite row_to by (rewrite (proj2 Sq); assumption). rewrite Hent by assumption.
    replace (i =? j) with false by (symmetry; apply Nat.eqb_neq; assumption). reflexivity. }
  destruct (proj2 (C41_error_or_panic B64) g Hlf) as [Hacc Hrej]. split.
  - intros Hap.
    assert (Hpos : forall i j, i < n -> j < n -> i <> j -> fin (b64_dist (pt ps i) (pt ps j)) /\ (0 < r64 (b64_dist (pt ps i) (pt ps j)))%R).
    { intros i j Hi Hj Hij. apply dist_apart; [apply Hgen; assumption..|]. intros [S1 S2].
      destruct (Nat.lt_trichotomy i j) as [L|[L|L]]; [|lia|].
      - destruct (Hap i j L ltac:(lia)); contradiction.
      - destruct (Hap j i L ltac:(lia)); symmetry in S1, S2; contradiction. }
    assert (Hsym : forall i j, b64_dist (pt ps i) (pt ps j) = b64_dist (pt ps j) (pt ps i)) by (intros; apply dist_sym; apply fin_pt_nth, Hf).
    assert (Hone : forall i j, i < n -> j < n -> i <> j -> to_edges g i j = [mkEdge j (b64_dist (pt ps i) (pt ps j))]).
    { intros i j Hi Hj Hij. rewrite Hto by assumption. rewrite <- Hsym. destruct (Hpos i j Hi Hj Hij) as [F P].
      replace (ceq (b64_dist (pt ps i) (pt ps j)) (c0 : C B64)) with false; [reflexivity|]. symmetry. apply ceq_pos; assumption. }
    split.
    + apply Hacc. split; [exact Hloop|]. rewrite Lg. intros i j Hi Hj Hij. rewrite (Hone i j), (Hone j i) by auto. eexists. eexists. split; [reflexivity|]. split; [reflexivity|].
      cbn [e_cost]. rewrite (Hsym j i). apply ceq_refl. apply Hpos; assumption.
    + destruct (from_points_val b64_dist origin ps) as (m & Em & Wm & Dm & _).
      destruct (C38_f64 ps Hf) as (m' & Em' & _ & Dm' & Vm & Dg). assert (m' = m) by congruence. subst m'.
      destruct (na_from_graph_val g ltac:(intros i e Hi He; apply (Hloop i e Hi He))) as (m2 & E2 & W2 & D2 & V2).
      assert (m2 = m).
      { apply wf_ext; try assumption; [congruence|]. rewrite D2, Lg. intros i j Hi Hj. rewrite V2 by (rewrite Lg; assumption).
        destruct (Vm i j ltac:(lia) ltac:(lia)) as (G & _). rewrite na_get_val in G by (try assumption; rewrite Dm; lia). injection G as ->.
        destruct (Nat.eqb_spec i j) as [<-|Hij].
        - rewrite last_cost_none; [symmetry; apply dist_self, fin_pt_nth, Hf|]. change (to_edges g i i = []).
          unfold to_edges. rewrite Hrow, row_to by (try assumption; rewrite (proj2 Sq); assumption). rewrite Hent, Nat.eqb_refl by assumption. reflexivity.
        - rewrite (last_cost_some _ _ _ [] (mkEdge j (b64_dist (pt ps i) (pt ps j)))); [reflexivity|]. apply (Hone i j); assumption. }
      subst m2. exists m. split; [exact E2|]. split; [exact Em|]. apply (C48_metric_partial ps); [assumption| |exact Em].
      intros p Hp. destruct (Hw p Hp). lra.
  - intros Hnap. apply Hrej. intros [_ Hc]. apply Hnap. intros i j Hij Hj. rewrite Hlen in Hj.
    destruct (Hc i j ltac:(lia) ltac:(lia) ltac:(lia)) as (e & e' & E1 & _). rewrite Hto in E1 by lia.
    destruct (Req_dec (r64 (fst (pt ps i))) (r64 (fst (pt ps j)))) as [S1|S1]; [|auto].
    destruct (Req_dec (r64 (snd (pt ps i))) (r64 (snd (pt ps j)))) as [S2|S2]; [|auto]. exfalso.
    rewrite (dist_same (pt ps j) (pt ps i)) in E1 by (try (apply fin_pt_nth, Hf); split; symmetry; assumption). discriminate.
Qed.
Print Assumptions C58_accepted_iff_apart.

(** the arguments *)
Theorem C58_arguments : forall draws rest, generator_main [] draws = Ok NoN /\ generator_main (None :: rest) draws = Ok InvalidN.
Proof. split; reflexivity. Qed.
Print Assumptions C58_arguments.

(** ** Non-vacuity: both cases occur *)
Lemma differ x y : fin x -> fin y -> b64_cmp_eq x y = false -> r64 x <> r64 y.
Proof. intros Fx Fy H E. unfold b64_cmp_eq, b64_compare in H. rewrite Bcompare_correct, Rcompare_Eq in H by assumption. discriminate. Qed.
Definition ex_draws (i : nat) : Z := nth i [1; 9007199254740991; 4503599627370496; 77777777777; 12345; 4503599627370497]%Z 0%Z.
Lemma ex_draws_random : random_bits ex_draws.
Proof. intros i. do 6 (destruct i as [|i]; [cbn; lia|]). cbn. destruct i; lia. Qed.
Example C58_applies : random_bits ex_draws /\ apart (generated_points 3 ex_draws) /\
  (random_bits (fun _ => 5%Z) /\ ~ apart (generated_points 2 (fun _ => 5%Z))).
Proof.
  split; [exact ex_draws_random|]. split; [|split].
  - destruct (C58_points 3 ex_draws ex_draws_random) as (Hl & Hf & _). intros i j Hij Hj. rewrite Hl in Hj.
    assert (F := fun k => fin_pt_nth (generated_points 3 ex_draws) k Hf). left. apply differ; [apply F..|].
    destruct j as [|[|[|]]]; [lia|..|lia]; destruct i as [|[|]]; try lia; vm_compute; reflexivity.
  - intros i. lia.
  - intros H. destruct (H 0 1 ltac:(lia) ltac:(cbn; lia)) as [E|E]; apply E; reflexivity.
Qed.
