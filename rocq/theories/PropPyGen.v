(** C76: the generators in Python (utils/simple_gen.py, utils/benchmark_gen.py) and the documents they write.

    [distance i j] is the distance of the points number [i] and [j] as the script computes it: any double.  The costs are
    written with sixteen digits ([best16]), which is less than a double needs, so that the document has not quite
    these distances. *)
From Coq Require Import Ascii String ZArith NArith Arith Bool List Permutation Lia Reals Lra.
From Flocq Require Import Core IEEE754.Binary IEEE754.Bits.
From Verif Require Import PropMpi Num NumB64 F64Facts Base Data PrimProofs ConvProofs Precond Spec SpecFacts Units RoundProofs TourLength
  Cli PropCli PropCliRound Text Xml TextSpec Utf8 Utf8Proofs XmlProofs DecodeProofs GeneratorText GeneratorTextProofs
  Args ArgsSpec ArgsProofs PropText F64Text F64TextProofs PropNumbers PropPipeline PyGen PyGenProofs.
Import ListNotations.
Local Notation unit := (bpow radix2 (-1074)).

(** ** Specification *)
(** [m * 10^k] has sixteen digits and none with at most sixteen digits is closer to [v]; of two that are as close, the
    even one. *)
Definition best16 (m k : Z) (v : R) : Prop :=
  (10 ^ 15 <= m < 10 ^ 16)%Z /\
  forall m' k', (0 <= m' < 10 ^ 16)%Z ->
    let one := (IZR m * powerRZ 10 k)%R in let other := (IZR m' * powerRZ 10 k')%R in
    (Rabs (one - v) < Rabs (other - v))%R \/ other = one \/ (Rabs (one - v) = Rabs (other - v) /\ Z.even m = true).
(** the distance of the points [i] and [j], a real number *)
Definition apart_by (distance : nat -> nat -> C B64) (i j : nat) : R :=
  if i =? j then 0%R else r64 (distance (Nat.min i j) (Nat.max i j)).
(** a file with what simple_gen.py prints, with or without the line feed, and perhaps more text after it *)
Definition py_file (n : nat) (distance : nat -> nat -> C B64) (content : text) : Prop :=
  exists xml after, simple_gen n distance = Ok (xml ++ LF) /\ content = xml ++ after /\ utf8_text after.
Definition finite_distances (n : nat) (distance : nat -> nat -> C B64) : Prop :=
  forall i j, i < j -> j < n -> is_finite 53 1024 (distance i j) = true.
Definition ordinary_distances (n : nat) (distance : nat -> nat -> C B64) : Prop :=
  forall i j, i < j -> j < n -> is_finite 53 1024 (distance i j) = true /\ (0 <= r64 (distance i j) <= 2 ^ 900)%R.

(** ** One cost *)
Lemma best_closest m k v : closest m k v -> best16 m k v.
Proof. intros [H1 H2]. split; [exact H1|]. intros m' k' H. cbv zeta. rewrite !power10. exact (H2 m' k' H). Qed.

Theorem C76_cost : forall x : binary64, is_finite 53 1024 x = true ->
  exists x', read_f64 (format_15e x) = Some x' /\
    ((r64 x = 0%R /\ x' = x) \/
     exists m k, best16 m k (Rabs (r64 x)) /\ nearest x' (Bsign 53 1024 x) (IZR m * powerRZ 10 k)).
Proof.
  intros x Hx. destruct x as [s|s|s pl Hpl|s m e H]; try discriminate Hx.
  - exists (B754_zero 53 1024 s). split; [destruct s; reflexivity|]. left. split; reflexivity.
  - destruct (read_format s m e H) as (m' & k' & E & Hc & _). exists (decimal64 s m' k'). split; [exact E|]. right. exists m', k'. split; [apply best_closest; exact Hc|].
    rewrite power10. apply nearest_decimal. destruct Hc as [Hc _]. lia.
Qed.
Print Assumptions C76_cost.

Lemma read_small x : is_finite 53 1024 x = true -> (Rabs (r64 x) <= 2 ^ 1023)%R ->
  is_finite 53 1024 (kept x) = true /\ (Rabs (r64 (kept x) - r64 x) <= Rabs (r64 x) / 10 ^ 15)%R.
Proof.
  intros Hx Hl. pose proof (read_kept x Hx) as E. destruct x as [s|s|s pl Hpl|s m e H]; try discriminate Hx.
  - assert (kept (B754_zero 53 1024 s) = B754_zero 53 1024 s) as -> by (unfold kept; destruct s; reflexivity). split; [reflexivity|]. change (r64 (B754_zero 53 1024 s)) with 0%R. rewrite Rminus_0_r, Rabs_R0. unfold Rdiv. rewrite Rmult_0_l. apply Rle_refl.
  - destruct (read_format s m e H) as (m' & k' & E' & [Hc _] & Hb). rewrite E' in E. injection E as E. rewrite <- E.
    unfold Rdiv. rewrite Rmult_comm. apply rounds_near; [lia|reflexivity|exact Hb| |reflexivity]. rewrite bpow_powerRZ. exact Hl.
Qed.
(** Up to half of the largest double, the cost read differs from the distance by at most [10^-15] of it. *)
Theorem C76_cost_error : forall x x' : binary64, is_finite 53 1024 x = true -> (Rabs (r64 x) <= 2 ^ 1023)%R -> read_f64 (format_15e x) = Some x' ->
  is_finite 53 1024 x' = true /\ (Rabs (r64 x' - r64 x) <= Rabs (r64 x) / 10 ^ 15)%R.
Proof. intros x x' Hx Hl E. assert (kept x = x') as <- by (rewrite read_kept in E by exact Hx; congruence). apply read_small; assumption. Qed.
Print Assumptions C76_cost_error.

(** A distance with at most sixteen digits is read back as it was. *)
Theorem C76_cost_exact : forall (x : binary64) m k, is_finite 53 1024 x = true -> (0 <= m < 10 ^ 16)%Z -> Rabs (r64 x) = (IZR m * powerRZ 10 k)%R ->
  read_f64 (format_15e x) = Some x.
Proof.
  intros x m k Hx Hm E. destruct (C76_cost x Hx) as (x' & Er & H). rewrite Er. f_equal. destruct H as [[_ H]|(m1 & k1 & [Hm1 Hb] & Hn)]; [exact H|].
  assert (Ev : (IZR m1 * powerRZ 10 k1)%R = Rabs (r64 x)).
  { destruct (Hb m k Hm) as [L|[L|[L _]]]; cbv zeta in L; rewrite <- E in L.
    - rewrite (Rminus_diag_eq (Rabs (r64 x)) (Rabs (r64 x)) eq_refl), Rabs_R0 in L. pose proof (Rabs_pos (IZR m1 * powerRZ 10 k1 - Rabs (r64 x))). lra.
    - congruence.
    - rewrite (Rminus_diag_eq (Rabs (r64 x)) (Rabs (r64 x)) eq_refl), Rabs_R0 in L. destruct (Req_dec (IZR m1 * powerRZ 10 k1 - Rabs (r64 x)) 0) as [Z|Z]; [lra|]. apply Rabs_no_R0 in Z. lra. }
  rewrite Ev in Hn. apply (nearest_unique x' x (Bsign 53 1024 x) (Rabs (r64 x))); [exact Hn|]. unfold nearest. cbv zeta.
  assert (Er' : round radix2 (FLT_exp (-1074) 53) ZnearestE (Rabs (r64 x)) = Rabs (r64 x)).
  { apply round_generic; [apply valid_rnd_N|]. apply generic_format_abs. apply (generic_format_B2R 53 1024). }
  rewrite Er'. split.
  - intros _. split; [exact Hx|]. split; [|reflexivity]. clear - Hx. destruct x as [s|s|s pl Hpl|s m e H]; try discriminate Hx.
    + unfold r64. cbn [B2R Bsign]. rewrite Rabs_R0. destruct s; [rewrite Ropp_0|]; reflexivity.
    + cbn [Bsign]. assert (G : forall z, (0 <= F2R (Float radix2 (Zpos z) e))%R) by (intros z; apply F2R_ge_0; cbn; lia). unfold r64. cbn [B2R]. destruct s; cbn [cond_Zopp].
      * rewrite F2R_Zopp, Rabs_Ropp, Rabs_pos_eq by apply G. reflexivity.
      * rewrite Rabs_pos_eq by apply G. reflexivity.
  - intros L. pose proof (fin_lt x). lra.
Qed.
Print Assumptions C76_cost_exact.

(** In general it is not: [0.1 + 0.2] is read back as [0.3], and the largest double as infinity. *)
Theorem C76_cost_refuted : exists x x' y : binary64,
  is_finite 53 1024 x = true /\ read_f64 (format_15e x) = Some x' /\ is_finite 53 1024 x' = true /\ x' <> x /\
  is_finite 53 1024 y = true /\ read_f64 (format_15e y) = Some (B754_infinity 53 1024 false).
Proof.
  exists (b64_of_bits 4599075939470750516), (b64_of_bits 4599075939470750515), (b64_of_bits 9218868437227405311).
  split; [vm_compute; reflexivity|]. split.
  { assert (H : option_map bits_of_b64 (read_f64 (format_15e (b64_of_bits 4599075939470750516))) = Some 4599075939470750515%Z) by (vm_compute; reflexivity).
    destruct (read_f64 (format_15e (b64_of_bits 4599075939470750516))) as [y|]; [|discriminate]. injection H as H. rewrite <- H. unfold b64_of_bits, bits_of_b64. rewrite binary_float_of_bits_of_binary_float. reflexivity. }
  split; [vm_compute; reflexivity|]. split.
  { intros H. apply (f_equal bits_of_b64) in H. vm_compute in H. discriminate. }
  split; vm_compute; reflexivity.
Qed.
Print Assumptions C76_cost_refuted.

(** ** The document *)
Lemma ascii_format x : is_finite 53 1024 x = true -> forallb (fun c => N_of_ascii c <? 128)%N (format_15e x) = true.
Proof.
  assert (D : forall s, forallb is_digit s = true -> forallb (fun c => N_of_ascii c <? 128)%N s = true).
  { intros s H. rewrite forallb_forall in *. intros c Hc. specialize (H c Hc). destruct c as [[] [] [] [] [] [] [] []]; try reflexivity; discriminate. }
  intros Hx. destruct x as [s|s|s pl Hpl|s m e H]; try discriminate Hx; [destruct s; reflexivity|].
  destruct (format_finite s m e H) as (m' & e' & -> & [Hm _] & _). apply ascii_app; [destruct s; reflexivity|]. unfold show_scientific, show_exponent.
  destruct (sixteen_digits m' Hm) as (c & ds & -> & _ & Hc & Hd & _). cbn [firstn skipn].
  repeat apply ascii_app; try reflexivity; try (destruct (_ <? _)%Z; reflexivity); apply D; [cbn; rewrite Hc; reflexivity|exact Hd|apply digits_of_spec; lia].
Qed.
Lemma ascii_cell c : is_finite 53 1024 (snd c : C B64) = true -> forallb (fun c => N_of_ascii c <? 128)%N (spell (cell_piece c)) = true.
Proof.
  destruct c as [j x]. cbn [snd]. intros H. rewrite <- cell_text, tag_elem by apply show_nat_nonempty. repeat apply ascii_app; try reflexivity; [apply ascii_format; exact H|apply ascii_digits].
Qed.
Lemma ascii_bare name inner : forallb (fun c => N_of_ascii c <? 128)%N name = true -> (forall p, In p inner -> forallb (fun c => N_of_ascii c <? 128)%N (spell p) = true) ->
  forallb (fun c => N_of_ascii c <? 128)%N (spell (bare_piece name inner)) = true.
Proof.
  intros Hn Hi. destruct inner as [|p ps]; [cbn [bare_piece spell]; repeat apply ascii_app; try reflexivity; exact Hn|].
  cbn [bare_piece]. set (l := p :: ps) in *. clearbody l. cbn [spell]. repeat apply ascii_app; try reflexivity; try exact Hn. apply ascii_flat. exact Hi.
Qed.
Lemma ascii_document rows : (forall row c, In row rows -> In c row -> good_cell c) -> utf8_text (spell (py_document rows)).
Proof.
  intros Hg. apply ascii_text. unfold py_document. cbn [spell flat_map]. assert (Hr : forallb (fun c => N_of_ascii c <? 128)%N (spell (rows_piece rows)) = true).
  { apply ascii_bare; [reflexivity|]. intros p Hp. apply in_map_iff in Hp. destruct Hp as (row & <- & Hrow). apply ascii_bare; [reflexivity|]. intros q Hq. apply in_map_iff in Hq. destruct Hq as (c & <- & Hc). apply ascii_cell. apply (Hg row c Hrow Hc). }
  set (r := spell (rows_piece rows)) in *. clearbody r. repeat apply ascii_app; try reflexivity; exact Hr.
Qed.

Section File.
Variables (n : nat) (distance : nat -> nat -> C B64).
Hypothesis Hn : (N.of_nat n < 2 ^ 64)%N.
Hypothesis Hd : finite_distances n distance.
Lemma file_facts : exists xml val, simple_gen n distance = Ok (xml ++ LF) /\ utf8_text xml /\
  (forall i j, is_finite 53 1024 (val i j : C B64) = true) /\ (forall i j, i < n -> j < n -> val i j = wanted_cell distance i j) /\
  (forall m, create_matrix n distance = Ok m -> convert_to_xml m = Ok xml) /\
  forall after, from_str (N := B64) read_f64 (xml ++ after) = if n <=? 1 then None else Some (generated_instance (kept_graph n val)).
Proof.
  destruct (create_matrix_val n distance) as (m & E & S & V). exists (spell (py_document (rows_of n (vm_val m)))), (vm_val m).
  assert (F : forall i j, is_finite 53 1024 (vm_val m i j) = true).
  { intros i j. destruct (Nat.lt_ge_cases i n) as [Hi|Hi]; [destruct (Nat.lt_ge_cases j n) as [Hj|Hj]|].
    - rewrite V by assumption. unfold wanted_cell. destruct (Nat.eqb_spec i j); [reflexivity|]. apply Hd; lia.
    - unfold vm_val. rewrite nth_overflow by (rewrite (proj2 S) by exact Hi; exact Hj). reflexivity.
    - unfold vm_val. rewrite (nth_overflow m) by (rewrite (proj1 S); exact Hi). destruct j; reflexivity. }
  assert (G := rows_good n (vm_val m) F Hn). split; [unfold simple_gen; rewrite E; cbn [bind]; rewrite (convert_text n m S); reflexivity|].
  split; [apply ascii_document; exact G|]. split; [exact F|]. split; [exact V|]. split; [intros m' E'; assert (m' = m) as -> by congruence; apply convert_text; exact S|].
  intros after. rewrite (py_read _ after G), rows_value_of. destruct (n <=? 1); reflexivity.
Qed.
End File.

(** For every number of points: the document is ASCII; with less than two points it is refused, and otherwise it is accepted
    (even if points are in the same place, unlike the documents of the generator in Rust, C58) and the solvers
    work with the matrix of the costs as they are read, with zeros on the diagonal. *)
Theorem C76_document : forall n distance after, (N.of_nat n < 2 ^ 64)%N -> finite_distances n distance ->
  exists xml, simple_gen n distance = Ok (xml ++ LF) /\ utf8_text xml /\
  (n < 2 -> parse_text (N := B64) read_f64 (xml ++ after) = Ok None) /\
  (2 <= n -> exists g m, parse_text (N := B64) read_f64 (xml ++ after) = Ok (Some g) /\ na_from_graph g = Ok m /\ na_dim m = n /\
     forall i j, i < n -> j < n -> exists x, na_get m i j = Ok x /\
       (i = j -> x = B754_zero 53 1024 false) /\ (i < j -> read_f64 (format_15e (distance i j)) = Some x) /\ (j < i -> read_f64 (format_15e (distance j i)) = Some x)).
Proof.
  intros n distance after Hn Hd. destruct (file_facts n distance Hn Hd) as (xml & val & E & Hu & F & V & _ & R). exists xml. split; [exact E|]. split; [exact Hu|]. unfold parse_text. rewrite (R after). split.
  - intros L. destruct (Nat.leb_spec n 1); [reflexivity|lia].
  - intros L. destruct (Nat.leb_spec n 1); [lia|]. cbn [option_map generated_instance i_graph].
    assert (Hs : forall i j, i < n -> j < n -> val i j = val j i) by (intros i j Hi Hj; rewrite !V by assumption; unfold wanted_cell; rewrite (Nat.eqb_sym j i), (Nat.min_comm j i), (Nat.max_comm j i); reflexivity).
    destruct (kept_matrix n val) as (m & Em & _ & Dm & Vm). exists (kept_graph n val), m. split; [apply kept_accepted; [exact F|exact Hs]|]. split; [exact Em|]. split; [exact Dm|].
    intros i j Hi Hj. exists (if i =? j then @c0 B64 else kept (val i j)). split; [apply Vm; assumption|]. rewrite V by assumption. unfold wanted_cell. destruct (Nat.eqb_spec i j) as [->|Hne]; [split; [reflexivity|split; lia]|].
    split; [lia|]. split; intros L'; [rewrite Nat.min_l, Nat.max_r by lia|rewrite Nat.min_r, Nat.max_l by lia]; apply read_kept; apply Hd; assumption.
Qed.
Print Assumptions C76_document.

(** benchmark_gen.py writes one document for each number of points from [l] to [r], about the first of them: what
    simple_gen.py prints for these points. *)
Theorem C76_benchmark : forall l r distance, exists files, benchmark_gen l r distance = Ok files /\
  map fst files = seq l (r - l) ++ [r] /\ forall k xml, In (k, xml) files -> simple_gen k distance = Ok (xml ++ LF).
Proof.
  intros l r distance. destruct (create_matrix_val r distance) as (mr & Er & Sr & _).
  assert (M : exists minor, forall k, k <= r -> create_matrix k distance = Ok (minor k) /\ vm_sq k (minor k)).
  { exists (fun k => match create_matrix k distance with Ok m => m | _ => [] end). intros k _. destruct (create_matrix_val k distance) as (m & E & S & _). rewrite E. auto. }
  destruct M as [minor M]. set (xml := fun k => spell (py_document (rows_of k (vm_val (minor k))))).
  exists (map (fun k => (k, xml k)) (seq l (r - l) ++ [r])). unfold benchmark_gen. rewrite Er. cbn [bind].
  rewrite (mapM_Ok _ (fun k => (k, minor k))).
  2: { intros k Hk. apply in_seq in Hk. rewrite (principal_minor_val r k distance mr) by (exact Er || lia). rewrite (proj1 (M k ltac:(lia))). reflexivity. }
  cbn [bind]. assert (mr = minor r) as -> by (destruct (M r (le_n r)) as [E _]; congruence).
  replace (map (fun k => (k, minor k)) (seq l (r - l)) ++ [(r, minor r)]) with (map (fun k => (k, minor k)) (seq l (r - l) ++ [r])) by (rewrite map_app; reflexivity).
  assert (Hk : forall k, In k (seq l (r - l) ++ [r]) -> k <= r) by (intros k H; apply in_app_or in H; destruct H as [H|[<-|[]]]; [apply in_seq in H; lia|lia]).
  split; [|split].
  - rewrite (mapM_Ok _ (fun km => (fst km, xml (fst km)))).
    + rewrite map_map. reflexivity.
    + intros [k m] H. apply in_map_iff in H. destruct H as (k' & H & Hin). injection H as -> <-. rewrite (convert_text k) by (apply M, Hk; exact Hin). reflexivity.
  - rewrite map_map. cbn [fst]. apply map_id.
  - intros k x H. apply in_map_iff in H. destruct H as (k' & H & Hin). injection H as -> <-. destruct (M k (Hk k Hin)) as [E S]. unfold simple_gen. rewrite E. cbn [bind]. rewrite (convert_text k) by exact S. reflexivity.
Qed.
Print Assumptions C76_benchmark.

(** ** Lengths of tours *)
Section Relative.
Variables (n : nat) (w : nat -> nat -> Z) (d : nat -> nat -> R) (t : R).
Hypothesis Hw : forall i j, i < n -> j < n -> (d i j * (1 - t) <= IZR (w i j) * unit <= d i j * (1 + t))%R.
Lemma path_relative p : (forall x, In x p -> x < n) -> (path_length d p * (1 - t) <= IZR (path_cost w p) * unit <= path_length d p * (1 + t))%R.
Proof.
  induction p as [|a p IH]; intros Hp; [cbn; lra|]. destruct p as [|b p]; [cbn; lra|].
  change (path_cost w (a :: b :: p)) with (w a b + path_cost w (b :: p))%Z. change (path_length d (a :: b :: p)) with (d a b + path_length d (b :: p))%R. rewrite plus_IZR.
  assert (H1 := Hw a b (Hp a (or_introl eq_refl)) (Hp b (or_intror (or_introl eq_refl)))). assert (H2 := IH ltac:(intros x Hx; apply Hp; right; exact Hx)). lra.
Qed.
Lemma tour_relative p : is_tour n p -> (tour_length d p * (1 - t) <= IZR (tour_cost w p) * unit <= tour_length d p * (1 + t))%R.
Proof.
  intros Hp. assert (Hin : forall x, In x p -> x < n) by (intros x Hx; apply (Permutation_in x Hp) in Hx; apply in_seq in Hx; lia).
  destruct p as [|a p]; [cbn; lra|]. unfold tour_cost, tour_length. rewrite plus_IZR. assert (H1 := path_relative (a :: p) Hin).
  assert (Hlast : In (last (a :: p) a) (a :: p)) by (destruct (exists_last (l := a :: p) ltac:(discriminate)) as (l' & y & ->); rewrite last_last; apply in_or_app; right; left; reflexivity).
  assert (H2 := Hw _ a (Hin _ Hlast) (Hin a (or_introl eq_refl))). lra.
Qed.
End Relative.

(** The solvers on such a file work with costs that are within [10^-15] of the distances, so that the length of every
    tour is too: [tour_length] is the length of the tour with the distances of the script. *)
Theorem C76_walky : forall n distance content mpi wd files args path, 2 <= n -> (Z.of_nat n <= 2 ^ 50)%Z -> ordinary_distances n distance ->
  py_file n distance content -> files path = Some content ->
  exists g m w, rounded_document g m w /\ na_dim m = n /\
    (forall q, is_tour n q -> (tour_length (apart_by distance) q * (1 - / 10 ^ 15) <= IZR (tour_cost w q) * unit <= tour_length (apart_by distance) q * (1 + / 10 ^ 15))%R) /\
    forall cmd, written mpi cmd path args -> forall r, walky (N := B64) read_f64 show_f64 mpi wd files args r <->
      exists o, run wd cmd (Some g) o /\ r = Ran (map (flat_map (line_text (N := B64) show_f64)) (printed o)) (ended o).
Proof.
  intros n distance content mpi wd files args path Hn Hn50 Ho (xml' & after & E' & -> & Hafter) Hf.
  assert (Hd : finite_distances n distance) by (intros i j Hi Hj; apply (Ho i j Hi Hj)).
  assert (Hn64 : (N.of_nat n < 2 ^ 64)%N) by (apply N2Z.inj_lt; rewrite nat_N_Z; cbn in *; lia).
  destruct (file_facts n distance Hn64 Hd) as (xml & val & E & Hu & F & V & _ & R). assert (xml' = xml) as -> by (rewrite E in E'; injection E' as E'; apply app_inv_tail in E'; congruence).
  specialize (R after). destruct (Nat.leb_spec n 1) as [|_]; [lia|].
  assert (Hs : forall i j, i < n -> j < n -> val i j = val j i) by (intros i j Hi Hj; rewrite !V by assumption; unfold wanted_cell; rewrite (Nat.eqb_sym j i), (Nat.min_comm j i), (Nat.max_comm j i); reflexivity).
  destruct (kept_matrix n val) as (m & Em & Wf & Dm & Vm).
  set (c := fun i j : nat => if i =? j then @c0 B64 else kept (val i j)). set (w := fun i j => units (c i j)).
  assert (T : (0 < / 10 ^ 15 <= 1)%R) by (split; [apply Rinv_0_lt_compat, pow_lt; lra|rewrite <- Rinv_1; apply Rinv_le_contravar; [lra|apply pow_R1_Rle; lra]]).
  assert (Hc : forall i j, i < n -> j < n -> is_finite 53 1024 (c i j) = true /\ (0 <= apart_by distance i j <= 2 ^ 900)%R /\ (apart_by distance i j * (1 - / 10 ^ 15) <= r64 (c i j) <= apart_by distance i j * (1 + / 10 ^ 15))%R).
  { intros i j Hi Hj. unfold c, apart_by. destruct (Nat.eqb_spec i j) as [->|Hne]; [split; [reflexivity|]; split; [split; [lra|apply pow_le; lra]|cbn; lra]|].
    rewrite V by assumption. unfold wanted_cell. destruct (Nat.eqb_spec i j) as [|_]; [contradiction|]. destruct (Ho (Nat.min i j) (Nat.max i j) ltac:(lia) ltac:(lia)) as [H1 H2].
    destruct (read_small _ H1) as [H3 H4]. { rewrite Rabs_pos_eq by apply H2. apply Rle_trans with (2 ^ 900)%R; [apply H2|apply Rle_pow; [lra|lia]]. }
    rewrite (Rabs_pos_eq (r64 (distance _ _))) in H4 by apply H2. apply Rabs_le_inv in H4. split; [exact H3|]. split; [exact H2|]. unfold Rdiv in H4. lra. }
  assert (Hh : forall i j, i < n -> j < n -> holds (c i j) (w i j)) by (intros i j Hi Hj; apply holds_units; apply (Hc i j Hi Hj)).
  assert (Hw : forall i j, i < n -> j < n -> (apart_by distance i j * (1 - / 10 ^ 15) <= IZR (w i j) * unit <= apart_by distance i j * (1 + / 10 ^ 15))%R).
  { intros i j Hi Hj. destruct (Hh i j Hi Hj) as [_ Hv]. rewrite <- Hv. apply (Hc i j Hi Hj). }
  assert (U : (0 < unit)%R) by apply bpow_gt_0.
  exists (kept_graph n val), m, w. split; [|split; [exact Dm|split]].
  - split; [apply kept_accepted; [exact F|exact Hs]|]. split; [exact Em|]. rewrite Dm. split; [|split].
    + split; [exact Wf|]. rewrite Dm. intros i j Hi Hj. exists (c i j). split; [apply Vm; assumption|apply Hh; assumption].
    + split; [|split; [exact Hn50|]].
      * intros i j Hi Hj. apply le_IZR. apply (Rmult_le_reg_r unit); [exact U|]. rewrite Rmult_0_l. eapply Rle_trans; [|apply (Hw i j Hi Hj)]. destruct (Hc i j Hi Hj) as (_ & [H1 _] & _). apply Rmult_le_pos; lra.
      * intros i j Hi Hj. assert (B : (w i j <= 2 ^ 1975)%Z).
        { apply le_IZR. apply (Rmult_le_reg_r unit); [exact U|]. destruct (Hc i j Hi Hj) as (_ & [H0 H1] & _). eapply Rle_trans; [apply (Hw i j Hi Hj)|]. apply Rle_trans with (2 ^ 900 * 2)%R; [apply Rmult_le_compat; lra|].
          change (2 ^ 1975)%Z with (Zpower radix2 1975). rewrite IZR_Zpower by lia. rewrite <- bpow_plus. replace (2 ^ 900 * 2)%R with (bpow radix2 901); [apply bpow_le; lia|]. change 901%Z with (900 + 1)%Z. rewrite bpow_plus, bpow_powerRZ. f_equal. }
        apply Z.le_trans with (2 ^ 50 * 2 ^ 1975)%Z; [|rewrite <- Z.pow_add_r by lia; apply Z.pow_le_mono_r; lia]. clear - B Hn50. set (W := (2 ^ 1975)%Z) in *. assert (0 <= W)%Z by (apply Z.pow_nonneg; lia). clearbody W. nia.
    + intros i j Hi Hj. unfold w, c. rewrite (Nat.eqb_sym j i), (Hs i j Hi Hj). reflexivity.
  - intros q Hq. apply (tour_relative n); assumption.
  - intros cmd Hcmd r. apply parse_args_written in Hcmd. unfold walky. rewrite Hcmd, Hf. cbn [obind].
    assert (Et : read_to_string (xml ++ after) = Some (xml ++ after)) by (unfold read_to_string; rewrite (proj2 (valid_iff (xml ++ after))); [reflexivity|apply utf8_app; assumption]).
    rewrite Et. cbn [obind]. rewrite R. cbn [option_map generated_instance i_graph]. reflexivity.
Qed.
Print Assumptions C76_walky.

(** With three or more points the solvers V0 and V1 print one tour; its length in the distances of the script is least up
    to the roundings, and so is the number printed with it. *)
Theorem C76_exact : forall n distance content mpi wd files args path a, 3 <= n -> (Z.of_nat n <= 2 ^ 50)%Z -> ordinary_distances n distance ->
  py_file n distance content -> files path = Some content -> In a [V0; V1] -> written mpi (ExactCmd a SingleThreaded) path args ->
  exists x p, (forall r, walky (N := B64) read_f64 show_f64 mpi wd files args r <-> r = Ran [exact_text show_f64 x p] Done) /\
    is_tour n p /\ is_finite 53 1024 x = true /\
    let less := (1 - / 10 ^ 15)%R in let more := (1 + / 10 ^ 15)%R in let u := (/ 2 ^ 53)%R in let length := tour_length (apart_by distance) in
    (length p * (less * (1 - u) ^ n) <= r64 x <= length p * (more * (1 + u) ^ n))%R /\
    forall q, is_tour n q -> (length p * (less * (1 - u) ^ n) <= length q * (more * (1 + u) ^ n))%R.
Proof.
  intros n distance content mpi wd files args path a Hn Hn50 Ho Hfile Hf Ha Hw.
  destruct (C76_walky n distance content mpi wd files args path ltac:(lia) Hn50 Ho Hfile Hf) as (g & m & w & Hr & Dm & Ht & Hrun).
  destruct (C59_runs wd g m w Hr ltac:(lia)) as [H _]. rewrite Dm in H. destruct (H a Ha) as (x & p & Hout & Hp & (c & Hx & Hc1 & Hc2) & Hbest).
  exists x, p. split; [|split; [exact Hp|split; [apply Hx|]]].
  - intros r. rewrite (Hrun _ Hw r). split.
    + intros (o & H1 & ->). apply Hout in H1. subst o. cbn [printed ended map]. rewrite exact_lines. reflexivity.
    + intros ->. eexists. split; [apply Hout; reflexivity|]. cbn [printed ended map]. rewrite exact_lines. reflexivity.
  - cbv zeta. assert (T : (0 < / 10 ^ 15 <= 1)%R) by (split; [apply Rinv_0_lt_compat, pow_lt; lra|rewrite <- Rinv_1; apply Rinv_le_contravar; [lra|apply pow_R1_Rle; lra]]).
    assert (U : (0 < unit)%R) by apply bpow_gt_0. destruct Hx as [_ Hx]. fold (r64 x) in Hx. set (P := (2 ^ 53)%R). assert (HP : (1 < P)%R) by (apply Rlt_pow_R1; [lra|lia]).
    assert (Z1 : IZR (2 ^ 53) = P) by (symmetry; exact (pow_IZR 2 53)).
    clearbody P. assert (PN : (0 < P ^ n)%R) by (apply pow_lt; lra).
    assert (LO : ((1 - / P) ^ n * P ^ n = (P - 1) ^ n)%R) by (rewrite <- Rpow_mult_distr; f_equal; field; lra).
    assert (HI : ((1 + / P) ^ n * P ^ n = (P + 1) ^ n)%R) by (rewrite <- Rpow_mult_distr; f_equal; field; lra).
    assert (L0 : (0 <= (P - 1) ^ n)%R) by (apply pow_le; lra). assert (H0 : (0 <= (P + 1) ^ n)%R) by (apply pow_le; lra).
    assert (ZP : forall z, IZR (z ^ Z.of_nat n) = (IZR z ^ n)%R) by (intros z; symmetry; apply pow_IZR).
    assert (Zm : IZR (2 ^ 53 - 1) = (P - 1)%R) by (rewrite minus_IZR, Z1; reflexivity). assert (Zp : IZR (2 ^ 53 + 1) = (P + 1)%R) by (rewrite plus_IZR, Z1; reflexivity).
    apply IZR_le in Hc1, Hc2. rewrite !mult_IZR, !ZP in Hc1, Hc2. rewrite Zm, Z1 in Hc1. rewrite Zp, Z1 in Hc2.
    assert (Hcp := Ht p Hp). set (lp := tour_length (apart_by distance) p) in *. set (tp := IZR (tour_cost w p)) in *.
    split; [split|].
    + apply (Rmult_le_reg_r (P ^ n)); [exact PN|]. replace (lp * ((1 - / 10 ^ 15) * (1 - / P) ^ n) * P ^ n)%R with (lp * (1 - / 10 ^ 15) * ((1 - / P) ^ n * P ^ n))%R by ring. rewrite LO, Hx.
      apply Rle_trans with (tp * unit * (P - 1) ^ n)%R; [apply Rmult_le_compat_r; lra|]. replace (tp * unit * (P - 1) ^ n)%R with (tp * (P - 1) ^ n * unit)%R by ring. replace (IZR c * unit * P ^ n)%R with (IZR c * P ^ n * unit)%R by ring. apply Rmult_le_compat_r; [lra|assumption].
    + apply (Rmult_le_reg_r (P ^ n)); [exact PN|]. replace (lp * ((1 + / 10 ^ 15) * (1 + / P) ^ n) * P ^ n)%R with (lp * (1 + / 10 ^ 15) * ((1 + / P) ^ n * P ^ n))%R by ring. rewrite HI, Hx.
      apply Rle_trans with (tp * unit * (P + 1) ^ n)%R; [|apply Rmult_le_compat_r; lra]. replace (tp * unit * (P + 1) ^ n)%R with (tp * (P + 1) ^ n * unit)%R by ring. replace (IZR c * unit * P ^ n)%R with (IZR c * P ^ n * unit)%R by ring. apply Rmult_le_compat_r; [lra|assumption].
    + intros q Hq. assert (Hcq := Ht q Hq). specialize (Hbest q Hq). apply IZR_le in Hbest. rewrite !mult_IZR, !ZP, Zm, Zp in Hbest. set (lq := tour_length (apart_by distance) q) in *. set (tq := IZR (tour_cost w q)) in *. fold tp in Hbest.
      apply (Rmult_le_reg_r (P ^ n)); [exact PN|]. replace (lp * ((1 - / 10 ^ 15) * (1 - / P) ^ n) * P ^ n)%R with (lp * (1 - / 10 ^ 15) * ((1 - / P) ^ n * P ^ n))%R by ring. replace (lq * ((1 + / 10 ^ 15) * (1 + / P) ^ n) * P ^ n)%R with (lq * (1 + / 10 ^ 15) * ((1 + / P) ^ n * P ^ n))%R by ring. rewrite LO, HI.
      apply Rle_trans with (tp * unit * (P - 1) ^ n)%R; [apply Rmult_le_compat_r; lra|]. apply Rle_trans with (tq * unit * (P + 1) ^ n)%R; [|apply Rmult_le_compat_r; lra].
      replace (tp * unit * (P - 1) ^ n)%R with (tp * (P - 1) ^ n * unit)%R by ring. replace (tq * unit * (P + 1) ^ n)%R with (tq * (P + 1) ^ n * unit)%R by ring. apply Rmult_le_compat_r; [lra|assumption].
Qed.
Print Assumptions C76_exact.

(** ** Non-vacuity *)
(** Three points at the distances 0.30000000000000004, 0.5 and 0: the document, character by character, and a command for it. *)
Definition ex_distance (i j : nat) : C B64 := match i, j with 0, 1 => b64_of_bits 4599075939470750516 | 0, 2 => b64_of_bits 4602678819172646912 | _, _ => B754_zero 53 1024 false end.
Example C76_applies : ordinary_distances 3 ex_distance /\
  (exists content, py_file 3 ex_distance content) /\
  simple_gen 3 ex_distance = Ok (txt "<travellingSalesmanProblemInstance><name>RandomGraph</name><source>gh:lquenti/walky</source><description>random example</description><doublePrecision>15</doublePrecision><ignoredDigits>0</ignoredDigits><graph><vertex><edge cost=""3.000000000000000e-01"">1</edge><edge cost=""5.000000000000000e-01"">2</edge></vertex><vertex><edge cost=""3.000000000000000e-01"">0</edge><edge cost=""0.000000000000000e+00"">2</edge></vertex><vertex><edge cost=""5.000000000000000e-01"">0</edge><edge cost=""0.000000000000000e+00"">1</edge></vertex></graph></travellingSalesmanProblemInstance>" ++ LF) /\
  written false (ExactCmd V0 SingleThreaded) (txt "p.xml") [txt "exact"; txt "v0"; txt "p.xml"].
Proof.
  assert (Ho : ordinary_distances 3 ex_distance).
  { intros i j Hi Hj. assert (B : forall x, is_finite 53 1024 x = true -> (0 <=? units x)%Z = true -> (units x <=? 2 ^ 1074)%Z = true -> is_finite 53 1024 x = true /\ (0 <= r64 x <= 2 ^ 900)%R).
    { intros x Hx H0 H1. split; [exact Hx|]. destruct (holds_units x Hx) as [_ V]. unfold r64. rewrite V. apply Z.leb_le, IZR_le in H0, H1. assert (U : (0 < unit)%R) by apply bpow_gt_0. split; [apply Rmult_le_pos; lra|].
      apply Rle_trans with (IZR (2 ^ 1074) * unit)%R; [apply Rmult_le_compat_r; lra|]. change (2 ^ 1074)%Z with (Zpower radix2 1074). rewrite IZR_Zpower by lia. rewrite <- bpow_plus. change (bpow radix2 (1074 + -1074)) with 1%R. apply pow_R1_Rle. lra. }
    destruct i as [|[|i]], j as [|[|[|j]]]; try lia; apply B; vm_compute; reflexivity. }
  split; [exact Ho|]. split.
  - destruct (file_facts 3 ex_distance ltac:(reflexivity) ltac:(intros i j Hi Hj; apply (Ho i j Hi Hj))) as (xml & val & E & _). exists (xml ++ []), xml, []. split; [exact E|]. split; [reflexivity|constructor].
  - split; [vm_compute; reflexivity|apply parse_args_written; reflexivity].
Qed.
