(** C66: from the generator to the printed tour, character by character, and C67 for the generator.

    [show_f64] and [read_f64] are the decimal form of doubles and its reading (F64Text.v, C68).  The
    theorems about the generator's text hold for every [show] and [read] with [prints_doubles]: the
    decimal form of a finite double is read back as the same double (and consists of digits, points
    and signs), as C68_characters says of these two.
    [euclid (pt ps i) (pt ps j)] is the true distance of two points, a real number. *)
From Coq Require Import Ascii String DecimalString ZArith NArith Arith Bool List Permutation Lia Reals Lra.
From Flocq Require Import Core IEEE754.Binary IEEE754.Bits.
From Verif Require Import PropMpi Num NumB64 F64Facts Base Data ConvProofs Precond Spec SpecFacts Units RoundProofs DriftProofs TourLength PipelineProofs
  Points PropPoints Generator GeneratorProofs PropGenerator Cli PropCli PropCliRound PropDrift PropFactorRound
  RatioProofs PropFactor
  Text Xml TextSpec Utf8 Utf8Proofs XmlProofs DecodeProofs GeneratorText GeneratorTextProofs Args ArgsSpec ArgsProofs PropText F64Text PropNumbers.
Import ListNotations.
Local Notation unit := (bpow radix2 (-1074)).

Definition prints_doubles (show : C B64 -> text) (read : text -> option (C B64)) : Prop :=
  prints_numbers (fun x : C B64 => is_finite 53 1024 x = true) show read.

Lemma prints_reads_back show read x : prints_doubles show read -> is_finite 53 1024 x = true -> reads_back show read x.
Proof.
  intros H Hx. destruct (H x Hx) as [H1 H2]. split; [exact H1|]. rewrite forallb_forall in *. intros c Hc. specialize (H2 c Hc).
  destruct c as [[] [] [] [] [] [] [] []]; try reflexivity; discriminate.
Qed.

(** ** The generator's text *)
Lemma generated_costs n draws vm : random_bits draws -> generated_matrix n (generated_points n draws) = Ok vm ->
  length vm = n /\ (forall row, In row vm -> length row = n) /\ forall v e, In v (document_of_matrix vm) -> In e v -> is_finite 53 1024 (e_cost e) = true /\ e_to e < n.
Proof.
  intros Hd E. set (ps := generated_points n draws) in *. destruct (C58_points n draws Hd) as (Hlen & Hf & Hw & _). fold ps in Hlen, Hf, Hw.
  destruct (generated_matrix_val ps) as (vm' & E' & Sq & V). rewrite Hlen in *. assert (vm' = vm) by congruence. subst vm'.
  split; [apply Sq|]. split; [intros row Hr; apply In_nth with (d := []) in Hr; destruct Hr as (i & Hi & <-); apply (proj2 Sq); rewrite (proj1 Sq) in Hi; exact Hi|].
  intros v e Hv He. unfold document_of_matrix in Hv. apply in_map_iff in Hv. destruct Hv as (row & <- & Hr).
  apply In_nth with (d := []) in Hr. destruct Hr as (i & Hi & <-). rewrite (proj1 Sq) in Hi. apply in_row in He. destruct He as (H1 & H2 & H3). rewrite (proj2 Sq) in H1 by assumption.
  split; [|exact H1]. rewrite H2. change (nth (e_to e) (nth i vm []) c0) with (vm_val vm i (e_to e)). rewrite V by assumption.
  destruct (Nat.eqb_spec i (e_to e)) as [_|Hne]; [reflexivity|].
  assert (Hb : coords_within ps (bpow radix2 500)).
  { intros p Hp'. destruct (Hw p Hp') as [A B]. assert (H : (10 <= bpow radix2 500)%R) by (apply Rle_trans with (bpow radix2 4); [cbn; lra|apply bpow_le; lia]). lra. }
  destruct (C38_f64 ps Hf) as (m & Em & _ & Dm & Vm & _). destruct (C49_accurate ps m (e_to e) i Hf Hb Em ltac:(lia) ltac:(lia)) as (x & Gx & Fx & _).
  destruct (Vm (e_to e) i ltac:(lia) ltac:(lia)) as (G & _). assert (Ex : x = b64_dist (pt ps (e_to e)) (pt ps i)) by congruence. rewrite Ex in Fx. exact Fx.
Qed.

(** Whatever number is asked for: the text is complete, and is read back as the graph the generator has built
    (C58), except that a vertex without edges makes it unreadable. *)
Lemma ascii_app s t : forallb (fun c => N_of_ascii c <? 128)%N s = true -> forallb (fun c => N_of_ascii c <? 128)%N t = true -> forallb (fun c => N_of_ascii c <? 128)%N (s ++ t) = true.
Proof. intros H1 H2. rewrite forallb_app, H1, H2. reflexivity. Qed.
Lemma ascii_flat {T} (f : T -> text) l : (forall x, In x l -> forallb (fun c => N_of_ascii c <? 128)%N (f x) = true) -> forallb (fun c => N_of_ascii c <? 128)%N (flat_map f l) = true.
Proof. induction l as [|x l IH]; intros H; [reflexivity|]. cbn [flat_map]. apply ascii_app; [apply H; left; reflexivity|apply IH; intros y Hy; apply H; right; exact Hy]. Qed.
Lemma ascii_digits n : forallb (fun c => N_of_ascii c <? 128)%N (show_nat n) = true.
Proof. unfold show_nat. generalize (N.to_uint (N.of_nat n)). intros d. assert (G : forall d, forallb (fun c => N_of_ascii c <? 128)%N (list_ascii_of_string (NilEmpty.string_of_uint d)) = true) by (induction d0; cbn; auto). destruct d; try reflexivity; apply (G (_ d)). Qed.
(** The generator writes ASCII, so that the file is UTF-8 whatever UTF-8 follows. *)
Lemma generator_utf8 show read arg n rest draws text : prints_doubles show read -> random_bits draws -> parse_usize arg = Some n ->
  generator_stdout show (arg :: rest) draws = Ok text -> utf8_text text.
Proof.
  intros Hs Hd Ha E. cbn [generator_stdout] in E. rewrite Ha in E.
  destruct (generated_matrix n (generated_points n draws)) as [vm| |] eqn:Em; try discriminate. cbn [bind] in E. injection E as <-.
  destruct (generated_costs n draws vm Hd Em) as (_ & _ & Hc). apply ascii_text. unfold generate_xml_from_matrix, line_of. repeat (apply ascii_app; [repeat (apply ascii_app; [reflexivity|]); reflexivity|]).
  apply ascii_app; [|reflexivity]. apply ascii_flat. intros row Hr. unfold vertex_lines, line_of. apply ascii_app; [reflexivity|]. apply ascii_app; [|reflexivity].
  apply ascii_flat. intros [j x] Hj. destruct (ceq x (c0 : C B64)) eqn:Ex; [reflexivity|]. unfold edge_line, line_of.
  assert (Hx : is_finite 53 1024 x = true).
  { apply (Hc (vertex_of_row row) (mkEdge j x)); [apply in_map; exact Hr|]. unfold vertex_of_row. apply in_flat_map. exists (j, x). split; [exact Hj|]. rewrite Ex. left. reflexivity. }
  destruct (Hs x Hx) as [_ Hx']. repeat apply ascii_app; try reflexivity; [|apply ascii_digits].
  rewrite forallb_forall in *. intros c Hc'. specialize (Hx' c Hc'). destruct c as [[] [] [] [] [] [] [] []]; try reflexivity; discriminate.
Qed.

Theorem C66_generator_text : forall show read arg n rest draws after, prints_doubles show read -> random_bits draws -> parse_usize arg = Some n ->
  exists text g, generator_stdout show (arg :: rest) draws = Ok text /\ generator_main (Some n :: map parse_usize rest) draws = Ok (Written g) /\
    (g <> [] -> ~ In [] g -> from_str read (text ++ after) = Some (generated_instance g)) /\
    (g = [] \/ In [] g -> from_str read (text ++ after) = None).
Proof.
  intros show read arg n rest draws after Hs Hd Ha.
  destruct (generated_matrix_val (generated_points n draws)) as (vm & E & _ & _). rewrite points_length in E.
  destruct (generated_costs n draws vm Hd E) as (_ & _ & Hc). exists (generate_xml_from_matrix show vm), (document_of_matrix vm).
  cbn [generator_stdout generator_main]. rewrite Ha, E. cbn [bind]. split; [reflexivity|]. split; [reflexivity|].
  assert (Hn : (N.of_nat n < 2 ^ 64)%N).
  { unfold parse_usize, parse_unsigned in Ha. destruct (DecimalString.NilZero.uint_of_string _); [|discriminate]. destruct (_ <? _)%N eqn:L; [|discriminate]. injection Ha as <-. apply N.ltb_lt in L. rewrite N2Nat.id. exact L. }
  assert (HT := text_read show read vm ltac:(intros v e Hv He; destruct (Hc v e Hv He) as [H1 H2]; split; [apply prints_reads_back; assumption|lia]) after). cbv zeta in HT. unfold some_empty in HT.
  set (g := document_of_matrix vm) in *. split.
  - intros Hne Hv. rewrite HT. destruct g as [|v g']; [contradiction|]. cbn [orb]. replace (existsb _ (v :: g')) with false; [reflexivity|]. symmetry. apply not_true_is_false.
    intros H. apply existsb_exists in H. destruct H as ([|e x] & Hx & H); [contradiction|discriminate].
  - intros He. rewrite HT. destruct He as [->|He]; [reflexivity|]. replace (existsb _ g) with true; [destruct g; reflexivity|]. symmetry. apply existsb_exists. exists []. auto.
Qed.
Print Assumptions C66_generator_text.

(** Without an argument, or with one that does not name a number below 2^64, the generator writes one line that says
    so; the solver refuses a file with that line, whatever the command. *)
Theorem C66_generator_arguments : forall show read draws,
  generator_stdout show [] draws = Ok (txt "No n" ++ LF) /\
  (forall arg rest, (forall n, ~ TextSpec.numeral (2 ^ 64) n arg) -> generator_stdout show (arg :: rest) draws = Ok (txt "Invalid n" ++ LF)) /\
  (forall arg rest n, TextSpec.numeral (2 ^ 64) n arg -> exists vm, generated_matrix n (generated_points n draws) = Ok vm /\ generator_stdout show (arg :: rest) draws = Ok (generate_xml_from_matrix show vm)) /\
  forall content mpi wd files args path cmd, In content [txt "No n" ++ LF; txt "Invalid n" ++ LF] -> files path = Some content -> written mpi cmd path args ->
    forall r, walky (N := B64) read show mpi wd files args r <-> r = Ran (repeat [] (processes wd match cmd with ExactCmd _ p | ApproxCmd _ p _ | LowerBoundCmd _ p => p end)) Failed.
Proof.
  intros show read draws. split; [reflexivity|]. split; [|split].
  - intros arg rest H. cbn [generator_stdout]. destruct (parse_usize arg) as [n|] eqn:E; [|reflexivity]. destruct (H n). apply (DecodeProofs.parse_iff (2 ^ 64)). exact E.
  - intros arg rest n H. apply (DecodeProofs.parse_iff (2 ^ 64)) in H. change (parse_unsigned (2 ^ 64)) with parse_usize in H. cbn [generator_stdout]. rewrite H.
    destruct (generated_matrix_val (generated_points n draws)) as (vm & E & _ & _). rewrite points_length in E. exists vm. split; [exact E|]. rewrite E. reflexivity.
  - intros content mpi wd files args path cmd Hc Hf Hw r. destruct (C65_commands mpi args) as (_ & _ & H). destruct (H B64 read show wd files) as [H1 _]. rewrite (H1 cmd path Hw r). rewrite Hf. cbn [obind].
    assert (Hn : obind (read_to_string content) (from_str read) = None) 
      by (assert (H2 : read_to_string content = Some content /\ element_of content = None) by (destruct Hc as [<-|[<-|[]]]; split; vm_compute; reflexivity);
          destruct H2 as [H2 H3]; rewrite H2; cbn [obind]; unfold from_str; rewrite H3; reflexivity). rewrite Hn. cbn [option_map]. split.
    + intros (o & Ho & ->). assert (Eo : o = mkOut (repeat [] (processes wd match cmd with ExactCmd _ p | ApproxCmd _ p _ | LowerBoundCmd _ p => p end)) Failed) by (destruct cmd; exact Ho).
      rewrite Eo. cbn [printed ended]. f_equal. generalize (processes wd match cmd with ExactCmd _ p | ApproxCmd _ p _ | LowerBoundCmd _ p => p end). intros k. induction k; cbn; congruence.
    + intros ->. exists (mkOut (repeat [] (processes wd match cmd with ExactCmd _ p | ApproxCmd _ p _ | LowerBoundCmd _ p => p end)) Failed). split; [destruct cmd; reflexivity|].
      cbn [printed ended]. f_equal. generalize (processes wd match cmd with ExactCmd _ p | ApproxCmd _ p _ | LowerBoundCmd _ p => p end). intros k. induction k; cbn; congruence.
Qed.
Print Assumptions C66_generator_arguments.

(** For two or more points, no two at the same place, the text is the document of C58 and C59; for less than
    two, it is not readable. *)
Theorem C66_generated_readable : forall show read arg n rest draws after, prints_doubles show read -> random_bits draws -> parse_usize arg = Some n ->
  (2 <= n -> apart (generated_points n draws) -> exists text g, generator_stdout show (arg :: rest) draws = Ok text /\
     generator_main (Some n :: map parse_usize rest) draws = Ok (Written g) /\ parse_text read (text ++ after) = Ok (Some g)) /\
  (n < 2 -> exists text, generator_stdout show (arg :: rest) draws = Ok text /\ parse_text read (text ++ after) = Ok None).
Proof.
  intros show read arg n rest draws after Hs Hd Ha. destruct (C66_generator_text show read arg n rest draws after Hs Hd Ha) as (text & g & E & Eg & H1 & H2).
  destruct (C58_accepted_iff_apart n (map parse_usize rest) draws Hd) as (g' & Eg' & Lg & Hacc & _). assert (g' = g) by congruence. subst g'. split.
  - intros Hn Hap. exists text, g. split; [exact E|]. split; [exact Eg|]. destruct (Hacc Hap) as [Hp _]. unfold parse_text. rewrite H1; [exact Hp| |].
    + intros ->. cbn in Lg. lia.
    + intros Hin. unfold parse_from_xml, do_conditions_hold in Hp. destruct (is_fully_connected g) eqn:F; [|discriminate]. unfold is_fully_connected in F. rewrite forallb_forall in F. specialize (F [] Hin). apply Nat.eqb_eq in F. cbn in F. lia.
  - intros Hn. exists text. split; [exact E|]. unfold parse_text. rewrite H2; [reflexivity|]. destruct g as [|v [|v' g]]; [auto| |cbn in Lg; lia]. right.
    cbn [generator_main] in Eg. destruct (generated_matrix n (generated_points n draws)) as [vm| |] eqn:Em; try discriminate. cbn [bind] in Eg. injection Eg as Eg.
    destruct (generated_matrix_val (generated_points n draws)) as (vm' & E' & Sq & V). rewrite points_length in *. assert (vm' = vm) by congruence. subst vm'.
    destruct v as [|e v]; [left; reflexivity|]. exfalso. assert (n = 1) by (cbn in Lg; lia). subst n.
    assert (He : In e (vertex_of_row (nth 0 vm []))).
    { destruct vm as [|row vm]; [discriminate|]. cbn in Eg. injection Eg as Eg _. cbn [nth]. rewrite Eg. left. reflexivity. }
    apply in_row in He. destruct He as (L & _ & Hz). rewrite (proj2 Sq) in L by lia. assert (E0 : e_to e = 0) by lia. rewrite E0 in Hz.
    change (nth 0 (nth 0 vm []) c0) with (vm_val vm 0 0) in Hz. rewrite V in Hz by lia. discriminate.
Qed.
Print Assumptions C66_generated_readable.

(** C67 for the generator: however much of its text has been written, it is either all but the last line feed, or the
    reader reports an error. *)
Theorem C67_generator : forall show read arg n rest draws text s r, prints_doubles show read -> random_bits draws -> parse_usize arg = Some n ->
  generator_stdout show (arg :: rest) draws = Ok text -> text = s ++ r -> r <> [] -> r <> LF -> parse_text read s = Ok None.
Proof.
  intros show read arg n rest draws text s r Hs Hd Ha E Et Hr Hr'. cbn [generator_stdout] in E. rewrite Ha in E.
  destruct (generated_matrix n (generated_points n draws)) as [vm| |] eqn:Em; try discriminate. cbn [bind] in E. injection E as E.
  destruct (generated_costs n draws vm Hd Em) as (_ & _ & Hc).
  assert (Hn : (N.of_nat n < 2 ^ 64)%N).
  { unfold parse_usize, parse_unsigned in Ha. destruct (DecimalString.NilZero.uint_of_string _); [|discriminate]. destruct (_ <? _)%N eqn:L; [|discriminate]. injection Ha as <-. apply N.ltb_lt in L. rewrite N2Nat.id. exact L. }
  destruct (document_ok show read vm ltac:(intros v e Hv He; destruct (Hc v e Hv He) as [H1 H2]; split; [apply prints_reads_back; assumption|lia])) as (Hw & Hm & _). cbv zeta in Hw, Hm.
  rewrite text_eq in E. set (k := document_piece show (document_of_matrix vm)) in *.
  assert (Er : exists r', r = r' ++ LF /\ s ++ r' = spell k).
  { destruct (exists_last Hr) as (r' & c & ->). rewrite <- E in Et. rewrite app_assoc in Et. apply app_inj_tail in Et. destruct Et as [Et Ec]. subst c. exists r'. auto. }
  destruct Er as (r' & -> & E').
  apply (C67_cut_off B64 read k _ _ _ [] s r' Hw Hm pro_nil E'). intros ->. apply Hr'. reflexivity.
Qed.
Print Assumptions C67_generator.

(** ** The whole pipeline *)
(** The allowed error: (n + 4)^3 / 2^46 for coordinates between -10 and 10; less than 10^-4 for 1800 points *)
Definition allowed (n : nat) : R := ((INR n + 4) ^ 3 / 2 ^ 46)%R.
Definition true_length (ps : list point) : list nat -> R := tour_length (fun i j => euclid (pt ps i) (pt ps j)).

Lemma small_n n : ((Z.of_nat n + 3) ^ 2 * (Z.of_nat n + 1) <= 2 ^ 53)%Z -> (INR n <= 2 ^ 18)%R.
Proof.
  intros H. rewrite INR_IZR_INZ. change 2%R with (IZR 2). rewrite pow_IZR. apply IZR_le. change (2 ^ Z.of_nat 18)%Z with 262144%Z. change (2 ^ 53)%Z with 9007199254740992%Z in H. nia.
Qed.
Local Notation u := (/ 2 ^ 53)%R.
Lemma u_is : bpow radix2 (-53) = u.
Proof. change (bpow radix2 (-53)) with (/ IZR (Zpower_pos 2 53))%R. f_equal. rewrite (pow_IZR 2 53). reflexivity. Qed.
Lemma allowed_is n : allowed n = (128 * (INR n + 4) ^ 3 * u)%R.
Proof. unfold allowed, Rdiv. rewrite <- Rmult_assoc || idtac. replace (/ 2 ^ 46)%R with (128 * u)%R; [ring|]. change 53 with (46 + 7). rewrite pow_add, Rinv_mult. field. Qed.

Lemma tour_ge0 w n p : nonneg w n -> is_tour n p -> (0 <= tour_cost w p)%Z.
Proof. intros H Hp. apply (RatioProofs.tour_nonneg w n H). intros v. apply (tour_In n p v Hp). Qed.

Section Pipeline.
Variables (show : C B64 -> text) (read : text -> option (C B64)).
Hypothesis Hs : prints_doubles show read.
Variables (draws : nat -> Z) (arg : text) (n : nat) (rest : list text).
Hypothesis Hd : random_bits draws.
Hypothesis Ha : parse_usize arg = Some n.
Hypothesis Hn : 3 <= n.
Hypothesis Hsmall : ((Z.of_nat n + 3) ^ 2 * (Z.of_nat n + 1) <= 2 ^ 53)%Z.
Let ps := generated_points n draws.
Hypothesis Hap : apart ps.
Variables (mpi : bool) (wd : world) (files : text -> option text) (args : list text) (path : text).
Variable after : text.
Hypothesis Hafter : utf8_text after.

Lemma pipeline_facts : exists text g m w, generator_stdout show (arg :: rest) draws = Ok text /\ generator_main (Some n :: map parse_usize rest) draws = Ok (Written g) /\ from_str read (text ++ after) = Some (generated_instance g) /\
  rounded_document g m w /\ na_dim m = n /\ is_metric (na_adj m) = Ok true /\ sized w n (2 ^ 1079) /\
  forall p, is_tour n p -> (Rabs (IZR (tour_cost w p) * unit - true_length ps p) <= 151 * INR n * u)%R /\ (0 <= IZR (tour_cost w p) * unit <= 32 * INR n)%R.
Proof.
  destruct (C66_generated_readable show read arg n rest draws after Hs Hd Ha) as [H _]. destruct (H ltac:(lia) Hap) as (text & g & E & Eg & Hp). clear H.
  assert (H50 : (Z.of_nat n <= 2 ^ 50)%Z) by (assert (2 ^ 53 = 8 * 2 ^ 50)%Z by reflexivity; set (P := (2 ^ 50)%Z) in *; clearbody P; nia).
  destruct (C59_generated n (map parse_usize rest) draws Hd H50 Hap ltac:(lia)) as (g' & m & w & Eg' & Hdoc & Hdim & Hmet & Hw). fold ps in Hw. assert (g' = g) by congruence. subst g'.
  destruct (C62_generated n (map parse_usize rest) draws Hd Hsmall Hap ltac:(lia)) as (g' & m' & w' & Eg'' & Hdoc' & Hdim' & Hsz). assert (g' = g) by congruence. subst g'.
  assert (m' = m) by (destruct Hdoc as (_ & E1 & _), Hdoc' as (_ & E2 & _); congruence). subst m'.
  assert (Hww : forall i j, i < n -> j < n -> w i j = w' i j).
  { intros i j Hi Hj. destruct Hdoc as (_ & _ & V & _), Hdoc' as (_ & _ & V' & _). apply (values_fun m w w' V V'); rewrite Hdim; assumption. }
  exists text, g, m, w. split; [exact E|]. split; [exact Eg|].
  assert (Hread : from_str read (text ++ after) = Some (generated_instance g)).
  { destruct (C66_generator_text show read arg n rest draws after Hs Hd Ha) as (text' & g' & E' & Eg3 & H1 & H2). assert (text' = text) by congruence. assert (g' = g) by congruence. subst text' g'.
    unfold parse_text in Hp. apply H1; [intros ->; rewrite H2 in Hp by auto; discriminate|intros Hin; rewrite H2 in Hp by auto; discriminate]. }
  split; [exact Hread|]. split; [exact Hdoc|]. split; [exact Hdim|]. split; [exact Hmet|].
  destruct Hsz as (S1 & S2 & S3 & S4). split.
  { split; [intros i j Hi Hj; rewrite Hww by assumption; apply S1; assumption|]. split; [intros i j Hi Hj; rewrite Hww by assumption; apply S2; assumption|]. split; assumption. }
  destruct (C58_points n draws Hd) as (Hl & _ & Hc & _). fold ps in Hl, Hc.
  assert (Hu0 := u_pos). assert (Hu1 := u_small).
  intros p Hp'. split.
  - rewrite Rmult_assoc, (Rmult_comm 151), Rmult_assoc. rewrite (Rmult_comm u). unfold true_length. apply tour_close; [|lia|exact Hp'].
    intros i j Hi Hj. specialize (Hw i j Hi Hj).
    destruct (Hc (pt ps i)) as [A1 A2]; [unfold pt; apply nth_In; rewrite Hl; assumption|].
    destruct (Hc (pt ps j)) as [B1 B2]; [unfold pt; apply nth_In; rewrite Hl; assumption|].
    pose proof (euclid_32 _ _ A1 A2 B1 B2) as He. rewrite u_is in Hw. eapply Rle_trans; [exact Hw|].
    assert (Ht : (bpow radix2 (-534) <= u)%R) by (rewrite <- u_is; apply bpow_le; lia).
    assert (5 * u * euclid (pt ps i) (pt ps j) <= 5 * u * 30)%R by (apply Rmult_le_compat_l; lra). lra.
  - split; [apply Rmult_le_pos; [|apply bpow_ge_0]; apply IZR_le, (tour_ge0 w n p); [|exact Hp']; intros i j Hi Hj; rewrite Hww by assumption; apply S1; assumption|].
    pose proof (tour_close n w (fun _ _ => 0%R) 32 ltac:(intros i j Hi Hj; rewrite Rminus_0_r; rewrite Hww by assumption; specialize (S1 i j Hi Hj); specialize (S2 i j Hi Hj);
      rewrite Rabs_pos_eq by (apply Rmult_le_pos; [apply IZR_le; exact S1|apply bpow_ge_0]);
      apply Rle_trans with (IZR (2 ^ 1079) * unit)%R; [apply Rmult_le_compat_r; [apply bpow_ge_0|apply IZR_le; exact S2]|];
      change (2 ^ 1079)%Z with (Zpower radix2 1079); rewrite IZR_Zpower by lia; rewrite <- bpow_plus; change (bpow radix2 (1079 + -1074)) with 32%R; lra) p ltac:(lia) Hp') as H.
    assert (Z0 : forall q, path_length (fun _ _ => 0%R) q = 0%R) by (induction q as [|a [|b q] IH]; [reflexivity|reflexivity|]; change (0 + path_length (fun _ _ => 0%R) (b :: q) = 0)%R; rewrite IH; lra).
    assert (E0 : tour_length (fun _ _ => 0%R) p = 0%R) by (unfold tour_length; destruct p; [reflexivity|]; rewrite Z0; lra). rewrite E0, Rminus_0_r in H. apply Rabs_le_inv in H. lra.
Qed.

Lemma file_text text : generator_stdout show (arg :: rest) draws = Ok text -> read_to_string (text ++ after) = Some (text ++ after).
Proof. intros E. unfold read_to_string. rewrite (proj2 (valid_iff (text ++ after))); [reflexivity|]. apply utf8_app; [exact (generator_utf8 show read arg n rest draws text Hs Hd Ha E)|exact Hafter]. Qed.
Lemma walky_on text g cmd o : generator_stdout show (arg :: rest) draws = Ok text -> files path = Some (text ++ after) -> from_str read (text ++ after) = Some (generated_instance g) -> written mpi cmd path args ->
  only_outcome wd cmd g o -> forall r, walky read show mpi wd files args r <-> r = Ran (map (flat_map (line_text show)) (printed o)) (ended o).
Proof.
  intros E Hf Hr Hw Ho r. apply parse_args_written in Hw. unfold walky. rewrite Hw, Hf. cbn [obind]. rewrite (file_text text E). cbn [obind]. rewrite Hr. cbn [option_map generated_instance i_graph]. split.
  - intros (o' & H1 & ->). apply Ho in H1. subst o'. reflexivity.
  - intros ->. exists o. split; [apply Ho; reflexivity|reflexivity].
Qed.

Lemma n_facts : (3 <= INR n <= 2 ^ 18)%R /\ (0 < u)%R /\ (u * 2 ^ 53 = 1)%R.
Proof.
  split; [split; [replace 3%R with (INR 3) by (cbn; lra); apply le_INR; exact Hn|apply small_n; exact Hsmall]|]. split; [apply u_pos|]. apply Rinv_l, pow_nonzero. lra.
Qed.
Lemma few k : (k <= 3)%nat -> (INR (k * n) * u <= / 8)%R.
Proof.
  intros Hk. destruct n_facts as ((N1 & N2) & U1 & U2). assert (INR (k * n) <= 3 * 2 ^ 18)%R.
  { rewrite mult_INR. apply Rmult_le_compat; [apply pos_INR|apply pos_INR| |exact N2]. replace 3%R with (INR 3) by (cbn; lra). apply le_INR. exact Hk. }
  assert (E : (2 ^ 53 = 2 ^ 18 * 2 ^ 35)%R) by (rewrite <- pow_add; reflexivity). assert (H35 : (2 ^ 35 = 34359738368)%R) by (rewrite (pow_IZR 2 35); reflexivity). assert (H18 : (2 ^ 18 = 262144)%R) by (rewrite (pow_IZR 2 18); reflexivity).
  rewrite E, H35, H18 in *. assert (u' : (0 < / (262144 * 34359738368))%R) by lra. apply Rle_trans with (3 * 262144 * / (262144 * 34359738368))%R; [apply Rmult_le_compat_r; lra|lra].
Qed.

(** The exact solvers V0 to V3 with one thread: the only thing that can happen is that the program prints a tour and its
    length, and ends well; the tour is as short as possible and the length is right, up to the allowed error. *)
Lemma pipeline_exact : forall a, In a [V0; V1; V2; V3] -> written mpi (ExactCmd a SingleThreaded) path args ->
  exists text, generator_stdout show (arg :: rest) draws = Ok text /\ (files path = Some (text ++ after) ->
  exists x p, (forall r, walky read show mpi wd files args r <->
      r = Ran [txt "Best Cost: " ++ show x ++ LF ++ txt "Best Permutation: " ++ show_list p ++ LF] Done) /\
    is_tour n p /\ (Rabs (r64 x - true_length ps p) <= allowed n)%R /\ forall q, is_tour n q -> (true_length ps p <= true_length ps q + allowed n)%R).
Proof.
  intros a Hin Hw. destruct pipeline_facts as (text & g & m & w & E & Eg & Hread & Hdoc & Hdim & _ & Hsz & Htour). exists text. split; [exact E|]. intros Hf.
  destruct n_facts as ((N1 & N2) & U1 & U2).
  assert (Hres : exists x p, only_outcome wd (ExactCmd a SingleThreaded) g (mkOut [[BestCost x; BestPermutation p]] Done) /\ is_tour n p /\
    (Rabs (r64 x - IZR (tour_cost w p) * unit) <= 64 * (INR n + 3) ^ 2 * (INR n + 1) * u)%R /\
    forall q, is_tour n q -> (IZR (tour_cost w p) * unit <= IZR (tour_cost w q) * unit + 128 * (INR n + 3) ^ 2 * (INR n + 1) * u)%R).
  { assert (Hcase : In a [V0; V1] \/ In a [V2; V3]) by (cbn in *; tauto). destruct Hcase as [Hc|Hc].
    - destruct (C59_runs wd g m w Hdoc ltac:(lia)) as (H & _). destruct (H a Hc) as (x & p & Ho & Ht & Hx & Hopt). rewrite Hdim in *. exists x, p. split; [exact Ho|]. split; [exact Ht|].
      destruct (Htour p Ht) as (_ & T1 & T2). pose proof (bpow_gt_0 radix2 (-1074)) as Hb. split.
      + destruct Hx as (c & [_ Hv] & Hwi). unfold r64. rewrite Hv. replace (IZR c * unit - IZR (tour_cost w p) * unit)%R with ((IZR c - IZR (tour_cost w p)) * unit)%R by ring.
        rewrite Rabs_mult, (Rabs_pos_eq unit) by lra.
        assert (Hz : (0 <= tour_cost w p)%Z) by (apply (tour_ge0 w n p); [apply Hsz|exact Ht]).
        pose proof (few 1 ltac:(lia)) as F. rewrite Nat.mul_1_l in F.
        pose proof (within_real n c (tour_cost w p) Hz ltac:(lra) Hwi) as W. apply Rle_trans with (2 * (INR n * u) * IZR (tour_cost w p) * unit)%R; [apply Rmult_le_compat_r; lra|].
        rewrite Rmult_assoc. apply Rle_trans with (2 * (INR n * u) * (32 * INR n))%R; [apply Rmult_le_compat_l; [|lra]; apply Rmult_le_pos; [lra|]; apply Rmult_le_pos; lra|].
        replace (2 * (INR n * u) * (32 * INR n))%R with (64 * INR n ^ 2 * u)%R by ring. apply Rmult_le_compat_r; [lra|]. nra.
      + intros q Hq. specialize (Hopt q Hq). destruct (Htour q Hq) as (_ & Q1 & Q2).
        pose proof (few 1 ltac:(lia)) as F. rewrite Nat.mul_1_l in F.
        pose proof (factor_real n _ _ (tour_ge0 w n p (proj1 Hsz) Ht) (tour_ge0 w n q (proj1 Hsz) Hq) F Hopt) as W.
        apply Rle_trans with (IZR (tour_cost w q) * (1 + 4 * (INR n * u)) * unit)%R; [apply Rmult_le_compat_r; lra|].
        replace (IZR (tour_cost w q) * (1 + 4 * (INR n * u)) * unit)%R with (IZR (tour_cost w q) * unit + 4 * (INR n * u) * (IZR (tour_cost w q) * unit))%R by ring. apply Rplus_le_compat_l.
        apply Rle_trans with (4 * (INR n * u) * (32 * INR n))%R; [apply Rmult_le_compat_l; [|lra]; apply Rmult_le_pos; [lra|]; apply Rmult_le_pos; lra|].
        replace (4 * (INR n * u) * (32 * INR n))%R with (128 * INR n ^ 2 * u)%R by ring. apply Rmult_le_compat_r; [lra|]. nra.
    - destruct (C62_exact_runs wd g m w (2 ^ 1079)%Z Hdoc ltac:(lia) ltac:(rewrite Hdim; exact Hsz)) as (H & _). rewrite Hdim in H.
      destruct (H a ltac:(cbn in *; tauto)) as (x & p & Ho & Ht & Hx & Hopt & _). exists x, p. split; [exact Ho|]. split; [exact Ht|].
      assert (HW : (IZR (2 ^ 1079) * unit = 32)%R) by (change (2 ^ 1079)%Z with (Zpower radix2 1079); rewrite IZR_Zpower by lia; rewrite <- bpow_plus; reflexivity).
      assert (Hpos : (0 <= (INR n + 3) ^ 2 * (INR n + 1) * u)%R) by (apply Rmult_le_pos; [apply Rmult_le_pos; [apply pow_le; lra|lra]|lra]).
      split.
      + destruct (C61_in_reals n (2 ^ 1079)%Z (tour_cost w p) x (tour_cost w p) Hx ltac:(enough (0 <= drift n (2 ^ 1079))%Z by lia; unfold drift; apply Z.mul_nonneg_nonneg; [nia|apply Z.pow_nonneg; lia])) as (_ & H1 & _).
        rewrite HW, u_is in H1. unfold r64. eapply Rle_trans; [exact H1|]. lra.
      + intros q Hq. specialize (Hopt Hc q Hq). rewrite Z.mul_1_l in Hopt. destruct (C61_in_reals n (2 ^ 1079)%Z (tour_cost w q) x (tour_cost w p) Hx Hopt) as (_ & _ & H1).
        rewrite HW, u_is in H1. lra. }
  destruct Hres as (x & p & Ho & Ht & Hx & Hopt). exists x, p. split.
  { intros r. rewrite (walky_on text g _ _ E Hf Hread Hw Ho r). cbn [printed ended map flat_map]. unfold line_text, line_of. rewrite app_nil_r, <- !app_assoc. reflexivity. }
  split; [exact Ht|]. destruct (Htour p Ht) as (T & _). rewrite allowed_is.
  assert (P1 : (64 * (INR n + 3) ^ 2 * (INR n + 1) * u + 151 * INR n * u <= 128 * (INR n + 4) ^ 3 * u)%R).
  { rewrite <- Rmult_plus_distr_r. apply Rmult_le_compat_r; [lra|]. assert (0 <= INR n ^ 2)%R by (apply pow_le; lra). assert (0 <= INR n ^ 3)%R by (apply pow_le; lra). ring_simplify. nra. }
  split.
  - apply Rabs_le. apply Rabs_le_inv in Hx, T. lra.
  - intros q Hq. specialize (Hopt q Hq). destruct (Htour q Hq) as (T' & _). apply Rabs_le_inv in T, T'.
    assert (P2 : (128 * (INR n + 3) ^ 2 * (INR n + 1) * u + 302 * INR n * u <= 128 * (INR n + 4) ^ 3 * u)%R).
    { rewrite <- Rmult_plus_distr_r. apply Rmult_le_compat_r; [lra|]. assert (0 <= INR n ^ 2)%R by (apply pow_le; lra). assert (0 <= INR n ^ 3)%R by (apply pow_le; lra). ring_simplify. nra. }
    lra.
Qed.

(** A rounded sum is close to the true one. *)
Lemma rounded_close k j x z : (k <= 3)%nat -> (j <= k * n)%nat -> (IZR z * unit <= 32 * INR n)%R -> rounded j x z ->
  (r64 x <= IZR z * unit + 192 * INR n ^ 2 * u)%R /\ ((0 <= z)%Z -> Rabs (r64 x - IZR z * unit) <= 192 * INR n ^ 2 * u)%R.
Proof.
  intros Hk Hj Hz (c & [_ Hv] & Hwi). destruct n_facts as ((N1 & N2) & U1 & U2). pose proof (bpow_gt_0 radix2 (-1074)) as Hb. unfold r64. rewrite Hv.
  assert (Hsq : (0 <= 192 * INR n ^ 2 * u)%R) by (apply Rmult_le_pos; [apply Rmult_le_pos; [lra|apply pow_le; lra]|lra]).
  assert (Hpos : (0 <= z)%Z -> (Rabs (IZR c * unit - IZR z * unit) <= 192 * INR n ^ 2 * u)%R).
  { intros H0. replace (IZR c * unit - IZR z * unit)%R with ((IZR c - IZR z) * unit)%R by ring. rewrite Rabs_mult, (Rabs_pos_eq unit) by lra.
    assert (F : (INR j * u <= 3 * INR n * u)%R).
    { apply Rmult_le_compat_r; [lra|]. apply Rle_trans with (INR (k * n)); [apply le_INR; exact Hj|]. rewrite mult_INR. apply Rmult_le_compat_r; [lra|]. replace 3%R with (INR 3) by (cbn; lra). apply le_INR. exact Hk. }
    pose proof (few 3 ltac:(lia)) as F3. rewrite mult_INR in F3. replace (INR 3) with 3%R in F3 by (cbn; lra).
    pose proof (within_real j c z H0 ltac:(lra) Hwi) as W. assert (Hz0 : (0 <= IZR z * unit)%R) by (apply Rmult_le_pos; [apply IZR_le; exact H0|lra]).
    assert (Hj0 : (0 <= INR j * u)%R) by (apply Rmult_le_pos; [apply pos_INR|lra]).
    apply Rle_trans with (2 * (INR j * u) * IZR z * unit)%R; [apply Rmult_le_compat_r; lra|]. rewrite Rmult_assoc.
    apply Rle_trans with (2 * (3 * INR n * u) * (32 * INR n))%R; [apply Rmult_le_compat; lra|]. apply Req_le. ring. }
  split; [|exact Hpos]. destruct (Z.le_gt_cases 0 z) as [H0|H0]; [specialize (Hpos H0); apply Rabs_le_inv in Hpos; lra|].
  (* a bound below zero stays below zero, and is not raised *)
  destruct Hwi as [_ H2].
  assert (Hc : (c <= z)%Z).
  { assert (P1 : (0 < (2 ^ 53) ^ Z.of_nat j)%Z) by (apply Z.pow_pos_nonneg; lia). assert (P2 : ((2 ^ 53) ^ Z.of_nat j <= (2 ^ 53 + 1) ^ Z.of_nat j)%Z) by (apply Z.pow_le_mono_l; lia).
    apply Z.mul_le_mono_pos_r with (p := ((2 ^ 53) ^ Z.of_nat j)%Z); [exact P1|]. eapply Z.le_trans; [exact H2|]. set (A := ((2 ^ 53) ^ Z.of_nat j)%Z) in *. set (B := ((2 ^ 53 + 1) ^ Z.of_nat j)%Z) in *. clearbody A B. nia. }
  apply IZR_le in Hc. assert (IZR c * unit <= IZR z * unit)%R by (apply Rmult_le_compat_r; lra). lra.
Qed.
Lemma allowed_covers : (192 * INR n ^ 2 * u + 151 * INR n * u <= allowed n)%R.
Proof.
  destruct n_facts as ((N1 & N2) & U1 & U2). rewrite allowed_is, <- Rmult_plus_distr_r. apply Rmult_le_compat_r; [lra|]. assert (0 <= INR n ^ 2)%R by (apply pow_le; lra). assert (0 <= INR n ^ 3)%R by (apply pow_le; lra). ring_simplify. nra.
Qed.

Lemma same_lines (l : line B64) ls : (forall l', In l' ls -> l' = l) -> flat_map (line_text show) ls = concat (repeat (line_text show l) (length ls)).
Proof. induction ls as [|l' ls IH]; intros H; [reflexivity|]. cbn. rewrite (H l' (or_introl eq_refl)), IH; [reflexivity|]. intros l0 Hl. apply H. right. exact Hl. Qed.

Lemma pipeline_lower_bound : forall a p, fitting wd n p -> written mpi (LowerBoundCmd a p) path args ->
  exists text, generator_stdout show (arg :: rest) draws = Ok text /\ (files path = Some (text ++ after) ->
  exists x stdout, (forall r, walky read show mpi wd files args r <-> r = Ran stdout Done) /\
    concat stdout <> [] /\
    (forall s, In s stdout -> exists k, s = concat (repeat (match a with OneTree => txt "1-tree lower bound: " | _ => txt "MST lower bound: " end ++ show x ++ LF) k)) /\
    forall q, is_tour n q -> (r64 x <= true_length ps q + allowed n)%R).
Proof.
  intros a p Hfit Hw. destruct pipeline_facts as (text & g & m & w & E & Eg & Hread & Hdoc & Hdim & _ & Hsz & Htour). exists text. split; [exact E|]. intros Hf.
  destruct (C59_runs wd g m w Hdoc ltac:(lia)) as (_ & H & _). rewrite Hdim in H. destruct (H a p Hfit) as (o & x & c & Ho & Hdone & Hne & Hl & Hx & Hc).
  exists x, (map (flat_map (line_text show)) (printed o)). split; [|split; [|split]].
  - intros r. rewrite (walky_on text g _ _ E Hf Hread Hw Ho r), Hdone. reflexivity.
  - unfold lines in *. intros E0. apply Hne. clear -E0. induction (printed o) as [|ls rest IH]; [reflexivity|]. cbn in *. apply app_eq_nil in E0. destruct E0 as [E1 E2]. rewrite IH by exact E2.
    destruct ls as [|l ls]; [reflexivity|]. exfalso. cbn in E1. apply app_eq_nil in E1. destruct E1 as [E1 _]. unfold line_text, line_of in E1. apply app_eq_nil in E1. destruct E1 as [_ E1]. discriminate.
  - intros s Hin. apply in_map_iff in Hin. destruct Hin as (ls & <- & Hin). exists (length ls).
    rewrite (same_lines (bound_line a x) ls) by (intros l' Hl'; apply Hl; apply in_concat; exists ls; auto). f_equal. f_equal. unfold line_text, line_of, bound_line. destruct a; rewrite <- app_assoc; reflexivity.
  - intros q Hq. destruct (Htour q Hq) as (T & T1 & T2). pose proof (Hc q Hq) as Hcq. apply IZR_le in Hcq. pose proof (bpow_gt_0 radix2 (-1074)) as Hb.
    assert (Hcu : (IZR c * unit <= IZR (tour_cost w q) * unit)%R) by (apply Rmult_le_compat_r; lra).
    destruct (rounded_close 3 (roundings a n) x c ltac:(lia) ltac:(destruct a; cbn; lia) ltac:(lra) Hx) as [Hr _]. apply Rabs_le_inv in T. pose proof allowed_covers. lra.
Qed.

(** Two costs in units against the true lengths: a factor of at least one survives with a little more slack. *)
Lemma slack_real k a b la lb s : (0 <= k)%R -> (2 <= k)%R -> (0 <= s <= INR n)%R ->
  (2 * IZR a <= k * (IZR b + s * IZR (2 ^ 1042)))%R -> (Rabs (IZR a * unit - la) <= 151 * INR n * u)%R -> (Rabs (IZR b * unit - lb) <= 151 * INR n * u)%R ->
  (la <= k / 2 * (lb + INR n / 2 ^ 31))%R.
Proof.
  intros _ Hk Hs0 H Ha' Hb'. destruct n_facts as ((N1 & N2) & U1 & U2). pose proof (bpow_gt_0 radix2 (-1074)) as Hb.
  assert (E : (IZR (2 ^ 1042) * unit = / 2 ^ 32)%R).
  { change (2 ^ 1042)%Z with (Zpower radix2 1042). rewrite IZR_Zpower by lia. rewrite <- bpow_plus. cbn. lra. }
  assert (H1 : (2 * (IZR a * unit) <= k * (IZR b * unit + s * / 2 ^ 32))%R).
  { rewrite <- E. replace (2 * (IZR a * unit))%R with ((2 * IZR a) * unit)%R by ring. replace (k * (IZR b * unit + s * (IZR (2 ^ 1042) * unit)))%R with (k * (IZR b + s * IZR (2 ^ 1042)) * unit)%R by ring. apply Rmult_le_compat_r; lra. }
  apply Rabs_le_inv in Ha'. apply Rabs_le_inv in Hb'. set (A := (IZR a * unit)%R) in *. set (B := (IZR b * unit)%R) in *. clearbody A B.
  assert (U3 : (302 * u <= / 2 ^ 32)%R) by (rewrite <- u_is; cbn; lra).
  assert (U4 : (302 * INR n * u <= INR n * / 2 ^ 32)%R) by (replace (302 * INR n * u)%R with (INR n * (302 * u))%R by ring; apply Rmult_le_compat_l; lra).
  assert (P : (s * / 2 ^ 32 <= INR n * / 2 ^ 32)%R) by (apply Rmult_le_compat_r; [|lra]; apply Rlt_le, Rinv_0_lt_compat, pow_lt; lra).
  assert (Q : (INR n / 2 ^ 31 = 2 * (INR n * / 2 ^ 32))%R) by (field_simplify; lra). rewrite Q.
  set (D := (INR n * / 2 ^ 32)%R) in *. set (v := (151 * INR n * u)%R) in *. assert (Hv : (302 * INR n * u = 2 * v)%R) by (unfold v; ring). rewrite Hv in U4. assert (0 <= v)%R by (unfold v; apply Rmult_le_pos; lra).
  set (S := (s * / 2 ^ 32)%R) in *. clearbody D v S.
  assert (k * (B + S) <= k * (lb + v + D))%R by (apply Rmult_le_compat_l; lra).
  assert (2 * v <= k * v)%R by (apply Rmult_le_compat_r; lra).
  assert (k * (2 * v) <= k * D)%R by (apply Rmult_le_compat_l; lra).
  replace (k / 2 * (lb + 2 * D))%R with (k * (lb + v + D) / 2 + (k * D - k * v) / 2)%R by field.
  assert (2 * v <= k * D - k * v)%R by lra. lra.
Qed.

Lemma pipeline_nearest_neighbour : forall p, fitting wd n p -> written mpi (ApproxCmd NearestNeighbour p None) path args ->
  exists text, generator_stdout show (arg :: rest) draws = Ok text /\ (files path = Some (text ++ after) ->
  exists x t, (forall r, walky read show mpi wd files args r <->
      r = Ran (repeat (txt "Nearest Neighbour solution weight: " ++ show x ++ LF ++ txt "Nearest Neighbour solution: " ++ show_list t ++ LF) (processes wd p)) Done) /\
    is_tour n t /\ (Rabs (r64 x - true_length ps t) <= allowed n)%R /\
    forall q, is_tour n q -> (true_length ps t <= (INR (ceil_log2 n) + 1) / 2 * (true_length ps q + INR n / 2 ^ 31))%R).
Proof.
  intros p Hfit Hw. destruct pipeline_facts as (text & g & m & w & E & Eg & Hread & Hdoc & Hdim & _ & Hsz & Htour). exists text. split; [exact E|]. intros Hf.
  assert (H50 : (Z.of_nat n <= 2 ^ 50)%Z) by (assert (2 ^ 53 = 8 * 2 ^ 50)%Z by reflexivity; set (P := (2 ^ 50)%Z) in *; clearbody P; nia).
  destruct (C60_generated n (map parse_usize rest) draws wd p Hd H50 Hap Hn Hfit) as (g' & m' & w' & x & t & Eg' & Hdoc' & Hdim' & Ho & Ht & Hx & Hfac).
  assert (g' = g) by congruence. subst g'. assert (m' = m) by (destruct Hdoc as (_ & E1 & _), Hdoc' as (_ & E2 & _); congruence). subst m'.
  assert (Hww : forall q, is_tour n q -> tour_cost w' q = tour_cost w q).
  { intros q Hq. apply (tour_cost_ext n); [|exact Hq]. intros i j Hi Hj. destruct Hdoc as (_ & _ & V & _), Hdoc' as (_ & _ & V' & _). apply (values_fun m w' w V' V); rewrite Hdim; assumption. }
  exists x, t. destruct (Htour t Ht) as (T1 & T2). split; [|split; [exact Ht|split]].
  - intros r. rewrite (walky_on text g _ _ E Hf Hread Hw Ho r). cbn [printed ended]. rewrite map_repeat. cbn [flat_map]. rewrite app_nil_r. unfold line_text, line_of. rewrite <- !app_assoc. reflexivity.
  - rewrite Hww in Hx by exact Ht. destruct (rounded_close 1 n x _ ltac:(lia) ltac:(lia) ltac:(apply T2) Hx) as [_ Hr].
    assert (H0 : (0 <= tour_cost w t)%Z) by (apply (tour_ge0 w n); [apply Hsz|exact Ht]). specialize (Hr H0). pose proof allowed_covers.
    apply Rabs_le_inv in Hr. apply Rabs_le_inv in T1. apply Rabs_le. lra.
  - intros q Hq. specialize (Hfac q Hq). rewrite !Hww in Hfac by assumption. destruct (Htour q Hq) as (Q1 & _). destruct n_facts as ((N1 & N2) & _).
    assert (L2 : 1 <= ceil_log2 n) by (unfold ceil_log2; apply Nat.log2_up_pos; lia). apply le_INR in L2. cbn in L2.
    eapply (slack_real _ _ _ _ _ (INR n - 1)); [lra|lra|lra| |exact T1|exact Q1].
    apply IZR_le in Hfac. rewrite !mult_IZR, !plus_IZR, !mult_IZR, minus_IZR, <- !INR_IZR_INZ in Hfac. exact Hfac.
Qed.

Lemma pipeline_christofides : written mpi (ApproxCmd Christofides SingleThreaded None) path args ->
  exists text, generator_stdout show (arg :: rest) draws = Ok text /\ (files path = Some (text ++ after) ->
  exists x t, (forall r, walky read show mpi wd files args r <-> r = Ran [txt "Christofides solution weight: " ++ show x ++ LF] Done) /\
    is_tour n t /\ (Rabs (r64 x - true_length ps t) <= allowed n)%R /\
    forall q, is_tour n q -> (true_length ps t <= INR n / 2 * (true_length ps q + INR n / 2 ^ 31))%R).
Proof.
  intros Hw. destruct pipeline_facts as (text & g & m & w & E & Eg & Hread & Hdoc & Hdim & _ & Hsz & Htour). exists text. split; [exact E|]. intros Hf.
  destruct (C47_generated_partial n (map parse_usize rest) draws wd Hd Hsmall Hap Hn) as (g' & m' & w' & x & t & Eg' & Hdoc' & Hdim' & Ho & Ht & Hx & Hfac).
  assert (g' = g) by congruence. subst g'. assert (m' = m) by (destruct Hdoc as (_ & E1 & _), Hdoc' as (_ & E2 & _); congruence). subst m'.
  assert (Hww : forall q, is_tour n q -> tour_cost w' q = tour_cost w q).
  { intros q Hq. apply (tour_cost_ext n); [|exact Hq]. intros i j Hi Hj. destruct Hdoc as (_ & _ & V & _), Hdoc' as (_ & _ & V' & _). apply (values_fun m w' w V' V); rewrite Hdim; assumption. }
  exists x, t. destruct (Htour t Ht) as (T1 & T2). split; [|split; [exact Ht|split]].
  - intros r. rewrite (walky_on text g _ _ E Hf Hread Hw Ho r). cbn [printed ended map flat_map]. rewrite app_nil_r. unfold line_text, line_of. rewrite <- app_assoc. reflexivity.
  - rewrite Hww in Hx by exact Ht. destruct (rounded_close 1 n x _ ltac:(lia) ltac:(lia) ltac:(apply T2) Hx) as [_ Hr].
    assert (H0 : (0 <= tour_cost w t)%Z) by (apply (tour_ge0 w n); [apply Hsz|exact Ht]). specialize (Hr H0). pose proof allowed_covers.
    apply Rabs_le_inv in Hr. apply Rabs_le_inv in T1. apply Rabs_le. lra.
  - intros q Hq. specialize (Hfac q Hq). rewrite !Hww in Hfac by assumption. destruct (Htour q Hq) as (Q1 & _). destruct n_facts as ((N1 & N2) & _).
    eapply (slack_real _ _ _ _ _ (INR n - 2)); [lra|lra|lra| |exact T1|exact Q1].
    apply IZR_le in Hfac. rewrite !mult_IZR, !plus_IZR, !mult_IZR, minus_IZR, <- !INR_IZR_INZ in Hfac. exact Hfac.
Qed.
(** ** The other exact runs *)
(** What [near] and [almost] of C61 and C62 mean for the true lengths. *)
Lemma drift_real w k x p : sized w n (2 ^ 1079) -> (forall q, is_tour n q -> (Rabs (IZR (tour_cost w q) * unit - true_length ps q) <= 151 * INR n * u)%R) ->
  (0 <= k <= 2)%Z -> is_tour n p -> near (drift n (2 ^ 1079)) x (tour_cost w p) ->
  (Rabs (r64 x - true_length ps p) <= allowed n)%R /\
  (almost k w n (2 ^ 1079) p -> forall q, is_tour n q -> (true_length ps p <= IZR k * true_length ps q + 2 * allowed n)%R).
Proof.
  intros Hsz Htour Hk Ht Hx. destruct n_facts as ((N1 & N2) & U1 & U2).
  assert (HW : (IZR (2 ^ 1079) * unit = 32)%R) by (change (2 ^ 1079)%Z with (Zpower radix2 1079); rewrite IZR_Zpower by lia; rewrite <- bpow_plus; reflexivity).
  pose proof (Htour p Ht) as T. apply Rabs_le_inv in T. rewrite allowed_is.
  assert (0 <= INR n ^ 2)%R by (apply pow_le; lra). assert (0 <= INR n ^ 3)%R by (apply pow_le; lra).
  assert (P1 : (32 * ((INR n + 3) ^ 2 * (INR n + 1) * u) + 151 * INR n * u <= 128 * (INR n + 4) ^ 3 * u)%R).
  { replace (32 * ((INR n + 3) ^ 2 * (INR n + 1) * u) + 151 * INR n * u)%R with ((32 * ((INR n + 3) ^ 2 * (INR n + 1)) + 151 * INR n) * u)%R by ring. apply Rmult_le_compat_r; [lra|]. ring_simplify. nra. }
  assert (P2 : (64 * ((INR n + 3) ^ 2 * (INR n + 1) * u) + 453 * INR n * u <= 2 * (128 * (INR n + 4) ^ 3 * u))%R).
  { replace (64 * ((INR n + 3) ^ 2 * (INR n + 1) * u) + 453 * INR n * u)%R with ((64 * ((INR n + 3) ^ 2 * (INR n + 1)) + 453 * INR n) * u)%R by ring. replace (2 * (128 * (INR n + 4) ^ 3 * u))%R with (256 * (INR n + 4) ^ 3 * u)%R by ring. apply Rmult_le_compat_r; [lra|]. ring_simplify. nra. }
  split.
  - destruct (C61_in_reals n (2 ^ 1079)%Z (tour_cost w p) x (tour_cost w p) Hx ltac:(enough (0 <= drift n (2 ^ 1079))%Z by lia; unfold drift; apply Z.mul_nonneg_nonneg; [nia|apply Z.pow_nonneg; lia])) as (_ & H1 & _).
    rewrite HW, u_is in H1. fold (r64 x) in H1. apply Rabs_le_inv in H1. apply Rabs_le. lra.
  - intros Hopt q Hq. specialize (Hopt q Hq). destruct (C61_in_reals n (2 ^ 1079)%Z (k * tour_cost w q) x (tour_cost w p) Hx Hopt) as (_ & _ & H1).
    rewrite HW, u_is, mult_IZR in H1. pose proof (Htour q Hq) as T'. apply Rabs_le_inv in T'.
    assert (K : (0 <= IZR k <= 2)%R) by (split; apply IZR_le; lia).
    assert (V : (0 <= 151 * INR n * u)%R) by (apply Rmult_le_pos; lra).
    set (v := (151 * INR n * u)%R) in *. assert (Hv : (453 * INR n * u = 3 * v)%R) by (unfold v; ring). rewrite Hv in P2. clearbody v.
    set (B := (IZR (tour_cost w q) * unit)%R) in *. replace (IZR k * IZR (tour_cost w q) * unit)%R with (IZR k * B)%R in H1 by (unfold B; ring). clearbody B.
    assert (IZR k * (B - true_length ps q) <= IZR k * v)%R by (apply Rmult_le_compat_l; lra). assert (IZR k * v <= 2 * v)%R by (apply Rmult_le_compat_r; lra). lra.
Qed.

Definition exact_text (x : C B64) (p : list nat) : text := txt "Best Cost: " ++ show x ++ LF ++ txt "Best Permutation: " ++ show_list p ++ LF.
Definition good (k : Z) (x : C B64) (p : list nat) : Prop :=
  is_tour n p /\ (Rabs (r64 x - true_length ps p) <= allowed n)%R /\
  forall q, is_tour n q -> (true_length ps p <= IZR k * true_length ps q + 2 * allowed n)%R.

Lemma walky_runs text g cmd : generator_stdout show (arg :: rest) draws = Ok text -> files path = Some (text ++ after) -> from_str read (text ++ after) = Some (generated_instance g) -> written mpi cmd path args ->
  forall r, walky read show mpi wd files args r <-> exists o, run wd cmd (Some g) o /\ r = Ran (map (flat_map (line_text show)) (printed o)) (ended o).
Proof. intros E Hf Hr Hw r. apply parse_args_written in Hw. unfold walky. rewrite Hw, Hf. cbn [obind]. rewrite (file_text text E). cbn [obind]. rewrite Hr. cbn [option_map generated_instance i_graph]. reflexivity. Qed.
Lemma exact_lines x p : flat_map (line_text show) [BestCost x; BestPermutation p] = exact_text x p.
Proof. cbn [flat_map]. unfold line_text, line_of, exact_text. rewrite app_nil_r, <- !app_assoc. reflexivity. Qed.

Lemma pipeline_pruned : forall a, In a [V4; V5; V6] -> written mpi (ExactCmd a SingleThreaded) path args ->
  exists text, generator_stdout show (arg :: rest) draws = Ok text /\ (files path = Some (text ++ after) ->
  exists x p, (forall r, walky read show mpi wd files args r <-> r = Ran [exact_text x p] Done) /\
    is_tour n p /\ (Rabs (r64 x - true_length ps p) <= allowed n)%R /\ (a = V5 -> good 2 x p)).
Proof.
  intros a Hin Hw. destruct pipeline_facts as (text & g & m & w & E & Eg & Hread & Hdoc & Hdim & _ & Hsz & Htour). exists text. split; [exact E|]. intros Hf.
  destruct (C62_exact_runs wd g m w (2 ^ 1079)%Z Hdoc ltac:(lia) ltac:(rewrite Hdim; exact Hsz)) as (H & _). rewrite Hdim in H.
  destruct (H a ltac:(cbn in *; tauto)) as (x & p & Ho & Ht & Hx & _ & Hopt). exists x, p. split.
  { intros r. rewrite (walky_on text g _ _ E Hf Hread Hw Ho r). cbn [printed ended map]. rewrite exact_lines. reflexivity. }
  destruct (drift_real w 2 x p Hsz (fun q Hq => proj1 (Htour q Hq)) ltac:(lia) Ht Hx) as [H1 H2]. split; [exact Ht|]. split; [exact H1|]. intros Ea. split; [exact Ht|]. split; [exact H1|auto].
Qed.

Lemma pipeline_threads : forall a, 1 <= w_threads wd -> written mpi (ExactCmd a MultiThreaded) path args ->
  exists text, generator_stdout show (arg :: rest) draws = Ok text /\ (files path = Some (text ++ after) ->
  (exists r, walky read show mpi wd files args r) /\
  forall r, walky read show mpi wd files args r -> exists x p, r = Ran [exact_text x p] Done /\ good 2 x p).
Proof.
  intros a Hth Hw. destruct pipeline_facts as (text & g & m & w & E & Eg & Hread & Hdoc & Hdim & _ & Hsz & Htour). exists text. split; [exact E|]. intros Hf.
  destruct (C62_exact_runs wd g m w (2 ^ 1079)%Z Hdoc ltac:(lia) ltac:(rewrite Hdim; exact Hsz)) as (_ & H & _). rewrite Hdim in H. destruct (H a Hth) as [(o & Ho) Hall].
  split; [eexists; apply (walky_runs text g _ E Hf Hread Hw); exists o; split; [exact Ho|reflexivity]|].
  intros r Hr. apply (walky_runs text g _ E Hf Hread Hw) in Hr. destruct Hr as (o' & Ho' & ->). destruct (Hall o' Ho') as (x & p & -> & Ht & Hx & Hopt). exists x, p. cbn [printed ended map]. rewrite exact_lines. split; [reflexivity|].
  destruct (drift_real w 2 x p Hsz (fun q Hq => proj1 (Htour q Hq)) ltac:(lia) Ht Hx) as [H1 H2]. split; [exact Ht|]. split; [exact H1|auto].
Qed.

Lemma pipeline_mpi : forall a, a = V0 /\ 2 <= w_size wd /\ enough_prefixes n (w_size wd - 1) \/ a = V1 /\ 2 <= w_size wd /\ 4 <= n -> written mpi (ExactCmd a MPI) path args ->
  exists text, generator_stdout show (arg :: rest) draws = Ok text /\ (files path = Some (text ++ after) ->
  (exists r, walky read show mpi wd files args r) /\
  forall r, walky read show mpi wd files args r -> (exists x p, r = Ran (repeat (exact_text x p) (w_size wd)) Done /\ good 2 x p) \/
    a = V1 /\ r = Ran (repeat [] (w_size wd)) Panicked).
Proof.
  intros a Hcase Hw. destruct pipeline_facts as (text & g & m & w & E & Eg & Hread & Hdoc & Hdim & _ & Hsz & Htour). exists text. split; [exact E|]. intros Hf.
  destruct (C62_exact_runs wd g m w (2 ^ 1079)%Z Hdoc ltac:(lia) ltac:(rewrite Hdim; exact Hsz)) as (_ & _ & Hst & Hdy). rewrite Hdim in Hst, Hdy.
  assert (H : (exists o, run wd (ExactCmd a MPI) (Some g) o) /\ forall o, run wd (ExactCmd a MPI) (Some g) o -> (exists x p, o = mkOut (repeat [BestCost x; BestPermutation p] (w_size wd)) Done /\
      is_tour n p /\ near (drift n (2 ^ 1079)) x (tour_cost w p) /\ almost 2 w n (2 ^ 1079) p) \/ a = V1 /\ o = mkOut (repeat [] (w_size wd)) Panicked).
  { destruct Hcase as [(-> & Hs' & Hen)|(-> & Hs' & H4)].
    - destruct (Hst Hs' Hen) as [He Hall]. split; [exact He|]. intros o Ho. left. exact (Hall o Ho).
    - destruct (Hdy H4 Hs') as [He Hall]. split; [exact He|]. intros o Ho. destruct (Hall o Ho) as [H|H]; [right; auto|left; exact H]. }
  destruct H as [(o & Ho) Hall].
  split; [eexists; apply (walky_runs text g _ E Hf Hread Hw); exists o; split; [exact Ho|reflexivity]|].
  intros r Hr. apply (walky_runs text g _ E Hf Hread Hw) in Hr. destruct Hr as (o' & Ho' & ->). destruct (Hall o' Ho') as [(x & p & -> & Ht & Hx & Hopt)|[-> ->]].
  - left. exists x, p. cbn [printed ended]. rewrite map_repeat, exact_lines. split; [reflexivity|].
    destruct (drift_real w 2 x p Hsz (fun q Hq => proj1 (Htour q Hq)) ltac:(lia) Ht Hx) as [H1 H2]. split; [exact Ht|]. split; [exact H1|auto].
  - right. split; [reflexivity|]. cbn [printed ended]. rewrite map_repeat. reflexivity.
Qed.
End Pipeline.

(** ** C66: the theorems *)
(** In all of them: the program tsp_generator is given the number of cities [arg] and writes [text]; the file [path]
    holds that text (and perhaps more text after it, such as a line feed); then walky is run with arguments that are
    a way to write the command.  [p] runs over the orders of the cities, and [true_length] is the true length of the
    tour through the generated points. *)
Definition generated_file (arg : text) (n : nat) (draws : nat -> Z) (content : text) : Prop :=
  random_bits draws /\ parse_usize arg = Some n /\ 3 <= n /\ ((Z.of_nat n + 3) ^ 2 * (Z.of_nat n + 1) <= 2 ^ 53)%Z /\
  apart (generated_points n draws) /\ exists rest text after, generator_stdout show_f64 (arg :: rest) draws = Ok text /\ content = text ++ after /\ utf8_text after.

(** A tour printed with its length: right up to [allowed], and at most [k] times the length of every tour. *)
Definition good_tour (k : R) (n : nat) (draws : nat -> Z) (x : C B64) (p : list nat) : Prop :=
  is_tour n p /\ (Rabs (r64 x - true_length (generated_points n draws) p) <= allowed n)%R /\
  forall q, is_tour n q -> (true_length (generated_points n draws) p <= k * true_length (generated_points n draws) q + 2 * allowed n)%R.

Theorem C66_exact : forall arg n draws content mpi wd files args path a,
  generated_file arg n draws content -> files path = Some content ->
  In a [V0; V1; V2; V3] -> written mpi (ExactCmd a SingleThreaded) path args ->
  exists x p, (forall r, walky (N := B64) read_f64 show_f64 mpi wd files args r <-> r = Ran [exact_text show_f64 x p] Done) /\ good_tour 1 n draws x p.
Proof.
  intros arg n draws content mpi wd files args path a (Hd & Ha & Hn & Hsm & Hap & rest & text & after & E & -> & Hu) Hf Hin Hw.
  destruct (pipeline_exact show_f64 read_f64 C68_characters draws arg n rest Hd Ha Hn Hsm Hap mpi wd files args path after Hu a Hin Hw) as (text' & E' & H).
  assert (text' = text) by congruence. subst text'. destruct (H Hf) as (x & p & H1 & H2 & H3 & H4). exists x, p. split; [exact H1|]. split; [exact H2|]. split; [exact H3|].
  intros q Hq. specialize (H4 q Hq). assert (0 <= allowed n)%R by (unfold allowed; apply Rmult_le_pos; [apply pow_le; pose proof (pos_INR n); lra|apply Rlt_le, Rinv_0_lt_compat, pow_lt; lra]). lra.
Qed.
Print Assumptions C66_exact.

(** V4 and V6 print a tour, V5 one of at most twice the least length (the counterexamples to more are those of C05 and C06). *)
Theorem C66_exact_pruned : forall arg n draws content mpi wd files args path a,
  generated_file arg n draws content -> files path = Some content ->
  In a [V4; V5; V6] -> written mpi (ExactCmd a SingleThreaded) path args ->
  exists x p, (forall r, walky (N := B64) read_f64 show_f64 mpi wd files args r <-> r = Ran [exact_text show_f64 x p] Done) /\
    is_tour n p /\ (Rabs (r64 x - true_length (generated_points n draws) p) <= allowed n)%R /\ (a = V5 -> good_tour 2 n draws x p).
Proof.
  intros arg n draws content mpi wd files args path a (Hd & Ha & Hn & Hsm & Hap & rest & text & after & E & -> & Hu) Hf Hin Hw.
  destruct (pipeline_pruned show_f64 read_f64 C68_characters draws arg n rest Hd Ha Hn Hsm Hap mpi wd files args path after Hu a Hin Hw) as (text' & E' & H).
  assert (text' = text) by congruence. subst text'. exact (H Hf).
Qed.
Print Assumptions C66_exact_pruned.

(** With several threads: under every schedule the program ends well and prints one tour, of at most twice the least
    length (C14). *)
Theorem C66_exact_threads : forall arg n draws content mpi wd files args path a,
  generated_file arg n draws content -> files path = Some content ->
  1 <= w_threads wd -> written mpi (ExactCmd a MultiThreaded) path args ->
  (exists r, walky (N := B64) read_f64 show_f64 mpi wd files args r) /\
  forall r, walky (N := B64) read_f64 show_f64 mpi wd files args r -> exists x p, r = Ran [exact_text show_f64 x p] Done /\ good_tour 2 n draws x p.
Proof.
  intros arg n draws content mpi wd files args path a (Hd & Ha & Hn & Hsm & Hap & rest & text & after & E & -> & Hu) Hf Hin Hw.
  destruct (pipeline_threads show_f64 read_f64 C68_characters draws arg n rest Hd Ha Hn Hsm Hap mpi wd files args path after Hu a Hin Hw) as (text' & E' & H).
  assert (text' = text) by congruence. subst text'. exact (H Hf).
Qed.
Print Assumptions C66_exact_threads.

(** With MPI: every process prints the same tour; V1 may panic instead after all work is done (C17). *)
Theorem C66_exact_mpi : forall arg n draws content mpi wd files args path a,
  generated_file arg n draws content -> files path = Some content ->
  a = V0 /\ 2 <= w_size wd /\ enough_prefixes n (w_size wd - 1) \/ a = V1 /\ 2 <= w_size wd /\ 4 <= n -> written mpi (ExactCmd a MPI) path args ->
  (exists r, walky (N := B64) read_f64 show_f64 mpi wd files args r) /\
  forall r, walky (N := B64) read_f64 show_f64 mpi wd files args r ->
    (exists x p, r = Ran (repeat (exact_text show_f64 x p) (w_size wd)) Done /\ good_tour 2 n draws x p) \/
    a = V1 /\ r = Ran (repeat [] (w_size wd)) Panicked.
Proof.
  intros arg n draws content mpi wd files args path a (Hd & Ha & Hn & Hsm & Hap & rest & text & after & E & -> & Hu) Hf Hin Hw.
  destruct (pipeline_mpi show_f64 read_f64 C68_characters draws arg n rest Hd Ha Hn Hsm Hap mpi wd files args path after Hu a Hin Hw) as (text' & E' & H).
  assert (text' = text) by congruence. subst text'. exact (H Hf).
Qed.
Print Assumptions C66_exact_mpi.

(** The lower bounds: one or more copies of one line, whose number is at most the length of every tour. *)
Theorem C66_lower_bound : forall arg n draws content mpi wd files args path a p,
  generated_file arg n draws content -> files path = Some content ->
  fitting wd n p -> written mpi (LowerBoundCmd a p) path args ->
  exists x stdout, (forall r, walky (N := B64) read_f64 show_f64 mpi wd files args r <-> r = Ran stdout Done) /\
    concat stdout <> [] /\
    (forall s, In s stdout -> exists k, s = concat (repeat (match a with OneTree => txt "1-tree lower bound: " | _ => txt "MST lower bound: " end ++ show_f64 x ++ LF) k)) /\
    forall q, is_tour n q -> (r64 x <= true_length (generated_points n draws) q + allowed n)%R.
Proof.
  intros arg n draws content mpi wd files args path a p (Hd & Ha & Hn & Hsm & Hap & rest & text & after & E & -> & Hu) Hf Hin Hw.
  destruct (pipeline_lower_bound show_f64 read_f64 C68_characters draws arg n rest Hd Ha Hn Hsm Hap mpi wd files args path after Hu a p Hin Hw) as (text' & E' & H).
  assert (text' = text) by congruence. subst text'. exact (H Hf).
Qed.
Print Assumptions C66_lower_bound.

(** Nearest neighbour: every process prints the same tour, which is at most [(ceil_log2 n + 1) / 2] times as long as any. *)
Theorem C66_nearest_neighbour : forall arg n draws content mpi wd files args path p,
  generated_file arg n draws content -> files path = Some content ->
  fitting wd n p -> written mpi (ApproxCmd NearestNeighbour p None) path args ->
  exists x t, (forall r, walky (N := B64) read_f64 show_f64 mpi wd files args r <->
      r = Ran (repeat (txt "Nearest Neighbour solution weight: " ++ show_f64 x ++ LF ++ txt "Nearest Neighbour solution: " ++ show_list t ++ LF) (processes wd p)) Done) /\
    is_tour n t /\ (Rabs (r64 x - true_length (generated_points n draws) t) <= allowed n)%R /\
    forall q, is_tour n q -> (true_length (generated_points n draws) t <= (INR (ceil_log2 n) + 1) / 2 * (true_length (generated_points n draws) q + INR n / 2 ^ 31))%R.
Proof.
  intros arg n draws content mpi wd files args path p (Hd & Ha & Hn & Hsm & Hap & rest & text & after & E & -> & Hu) Hf Hin Hw.
  destruct (pipeline_nearest_neighbour show_f64 read_f64 C68_characters draws arg n rest Hd Ha Hn Hsm Hap mpi wd files args path after Hu p Hin Hw) as (text' & E' & H).
  assert (text' = text) by congruence. subst text'. exact (H Hf).
Qed.
Print Assumptions C66_nearest_neighbour.

(** Christofides with one thread: the number printed is the length of some tour, at most [n / 2] times as long as any. *)
Theorem C66_christofides : forall arg n draws content mpi wd files args path,
  generated_file arg n draws content -> files path = Some content ->
  written mpi (ApproxCmd Christofides SingleThreaded None) path args ->
  exists x t, (forall r, walky (N := B64) read_f64 show_f64 mpi wd files args r <-> r = Ran [txt "Christofides solution weight: " ++ show_f64 x ++ LF] Done) /\
    is_tour n t /\ (Rabs (r64 x - true_length (generated_points n draws) t) <= allowed n)%R /\
    forall q, is_tour n q -> (true_length (generated_points n draws) t <= INR n / 2 * (true_length (generated_points n draws) q + INR n / 2 ^ 31))%R.
Proof.
  intros arg n draws content mpi wd files args path (Hd & Ha & Hn & Hsm & Hap & rest & text & after & E & -> & Hu) Hf Hw.
  destruct (pipeline_christofides show_f64 read_f64 C68_characters draws arg n rest Hd Ha Hn Hsm Hap mpi wd files args path after Hu Hw) as (text' & E' & H).
  assert (text' = text) by congruence. subst text'. exact (H Hf).
Qed.
Print Assumptions C66_christofides.

(** ** Non-vacuity *)
(** Three points; the file is what the generator writes for the argument 3. *)
Example C66_applies : exists content, generated_file (txt "3") 3 ex_draws content /\
  written false (ExactCmd V0 SingleThreaded) (txt "g.xml") [txt "exact"; txt "v0"; txt "g.xml"].
Proof.
  destruct (C66_generator_text show_f64 read_f64 (txt "3") 3 [] ex_draws [] C68_characters ex_draws_random eq_refl) as (text & g & E & _).
  exists (text ++ []). split; [|apply parse_args_written; reflexivity]. split; [exact ex_draws_random|]. split; [reflexivity|]. split; [lia|]. split; [lia|]. split; [apply C58_applies|].
  exists [], text, []. split; [exact E|]. split; [reflexivity|constructor].
Qed.
