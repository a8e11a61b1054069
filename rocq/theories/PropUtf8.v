(** C72: a file that is not text is refused.

    [files] gives the bytes of the file with a path ([None] if it cannot be opened or read); [utf8_text] (TextSpec.v)
    says that bytes are a sequence of characters of Unicode, each written in UTF-8. *)
From Coq Require Import Ascii String NArith Arith Bool List Lia.
From Verif Require Import Num Base Data Precond Text Xml TextSpec XmlProofs DecodeProofs Utf8 Utf8Proofs Cli Args ArgsSpec ArgsProofs PropText.
Import ListNotations.

(** The bytes are taken over unchanged if they are text, and refused otherwise. *)
Theorem C72_text : forall bytes,
  (forall s, read_to_string bytes = Some s <-> s = bytes /\ utf8_text bytes) /\ (read_to_string bytes = None <-> ~ utf8_text bytes).
Proof.
  intros bytes. unfold read_to_string. pose proof (valid_iff bytes) as H. destruct (valid_utf8 bytes).
  - split; [|split; [discriminate|intros Hn; destruct Hn; apply H; reflexivity]]. intros s. split; [intros E; injection E as <-; split; [reflexivity|apply H; reflexivity]|intros [-> _]; reflexivity].
  - assert (Hn : ~ utf8_text bytes) by (intros Hu; apply H in Hu; discriminate). split; [|tauto]. intros s. split; [discriminate|intros [_ Hu]; destruct (Hn Hu)].
Qed.
Print Assumptions C72_text.

(** Every command on a file that is missing or not text: nothing is printed, and the program reports an error, in every process. *)
Theorem C72_refused : forall (N : Num) read show mpi wd files args cmd path,
  written mpi cmd path args -> (forall bytes, files path = Some bytes -> ~ utf8_text bytes) ->
  forall res, walky (N := N) read show mpi wd files args res <->
    res = Ran (repeat [] (match cmd with ExactCmd _ p | ApproxCmd _ p _ | LowerBoundCmd _ p => processes wd p end)) Failed.
Proof.
  intros N read show mpi wd files args cmd path Ha Hf res. apply parse_args_written in Ha. unfold walky. rewrite Ha.
  replace (obind (files path) read_to_string) with (@None text); [|destruct (files path) as [bytes|]; [|reflexivity]; symmetry; apply C72_text, Hf; reflexivity]. cbn [obind option_map].
  assert (Hrun : forall o, run (N := N) wd cmd None o <-> o = mkOut (repeat [] (match cmd with ExactCmd _ p | ApproxCmd _ p _ | LowerBoundCmd _ p => processes wd p end)) Failed).
  { intros o. destruct cmd as [a q|a q lb|a q]; reflexivity. }
  assert (Hrep : forall c, map (flat_map (line_text show)) (repeat [] c) = repeat [] c) by (induction c as [|c IH]; [reflexivity|cbn; f_equal; exact IH]).
  split.
  - intros (o & Ho & ->). apply Hrun in Ho. subst o. cbn [printed ended]. rewrite Hrep. reflexivity.
  - intros ->. eexists. split; [apply Hrun; reflexivity|]. cbn [printed ended]. rewrite Hrep. reflexivity.
Qed.
Print Assumptions C72_refused.

(** Every command on a file that is text runs on what that text says. *)
Theorem C72_accepted : forall (N : Num) read show mpi wd files args cmd path bytes,
  written mpi cmd path args -> files path = Some bytes -> utf8_text bytes ->
  forall res, walky (N := N) read show mpi wd files args res <->
    exists o, run wd cmd (option_map i_graph (from_str read bytes)) o /\ res = Ran (map (fun ls => flat_map (line_text show) ls) (printed o)) (ended o).
Proof.
  intros N read show mpi wd files args cmd path bytes Ha Hf Hu res. apply parse_args_written in Ha. unfold walky. rewrite Ha, Hf. cbn [obind].
  replace (read_to_string bytes) with (Some bytes); [reflexivity|]. symmetry. apply C72_text. auto.
Qed.
Print Assumptions C72_accepted.

Lemma cons_eq (x y : ascii) (s t : list ascii) : x :: s = y :: t -> x = y /\ s = t.
Proof. intros H. injection H as -> ->. auto. Qed.
Lemma text_cases u : utf8_text u -> u = [] \/ exists n x y, character_code n /\ utf8_of n x /\ u = x ++ y.
Proof. intros [|n x y Hn Hx Hy]; [left; reflexivity|]. right. exists n, x, y. auto. Qed.
(** Files that are not text.  A character of another encoding (a byte above 127 before one below 128, as an accented letter in
    Latin-1): *)
Theorem C72_other_encoding : forall s c d t, utf8_text s -> (128 <= N_of_ascii c)%N -> (N_of_ascii d < 128)%N -> ~ utf8_text (s ++ c :: d :: t).
Proof.
  intros s c d t Hs Hc Hd H. apply (proj1 (utf8_app s _ Hs)) in H. destruct (text_cases _ H) as [E|(n & x & y & Hn & (bytes & -> & Hb) & E)]; [discriminate|].
  assert (Hbig : forall k, (128 <= k < 256)%N -> d <> ascii_of_N k) by (intros k Hk ->; rewrite of_byte in Hd by lia; lia). unfold character_code in Hn.
  destruct Hb as [[H1 ->]|[(a & b & H1 & H2 & H3 & ->)|[(a & b & e & H1 & H2 & H3 & H4 & ->)|(a & b & e & f & H1 & H2 & H3 & H4 & H5 & ->)]]]; cbn [map app] in E.
  - injection E as E _. rewrite E in Hc. rewrite of_byte in Hc by lia. lia.
  - injection E as _ E _. apply (Hbig (128 + b)%N); [lia|auto].
  - injection E as _ E _. apply (Hbig (128 + b)%N); [lia|auto].
  - injection E as _ E _. apply (Hbig (128 + b)%N); [lia|auto].
Qed.
Print Assumptions C72_other_encoding.

(** a character that is cut off at the end of the file: *)
Theorem C72_cut_character : forall s n a b, utf8_text s -> character_code n -> utf8_of n (a ++ b) -> a <> [] -> b <> [] -> ~ utf8_text (s ++ a).
Proof.
  intros s n a b Hs Hn Hc Ha Hb H. apply (proj1 (utf8_app s _ Hs)) in H. apply valid_iff in H. revert H. apply not_true_iff_false.
  destruct Hc as (bytes & E & Hbytes). unfold character_code in Hn.
  destruct Hbytes as [[H1 ->]|[(p & q & H1 & H2 & H3 & ->)|[(p & q & e & H1 & H2 & H3 & H4 & ->)|(p & q & e & f & H1 & H2 & H3 & H4 & H5 & ->)]]]; cbn [map] in E.
  - destruct a as [|x [|y a]]; [contradiction| |discriminate]. cbn [app] in E. destruct b; [contradiction|discriminate].
  - destruct a as [|x [|y a]]; [contradiction| |].
    + apply cons_eq in E; destruct E as [-> _]. cbn [valid_utf8]. rewrite (in_false 0 127) by lia. reflexivity.
    + destruct a; [|discriminate]. destruct b; [contradiction|discriminate].
  - destruct a as [|x [|y [|z a]]]; [contradiction| | |].
    + apply cons_eq in E; destruct E as [-> _]. cbn [valid_utf8]. rewrite (in_false 0 127) by lia. reflexivity.
    + apply cons_eq in E; destruct E as [-> E]; apply cons_eq in E; destruct E as [-> _]. cbn [valid_utf8]. rewrite (in_false 0 127), (in_false 194 223) by lia. reflexivity.
    + destruct a; [|discriminate]. destruct b; [contradiction|discriminate].
  - destruct a as [|x [|y [|z [|w a]]]]; [contradiction| | | |].
    + apply cons_eq in E; destruct E as [-> _]. cbn [valid_utf8]. rewrite (in_false 0 127) by lia. reflexivity.
    + apply cons_eq in E; destruct E as [-> E]; apply cons_eq in E; destruct E as [-> _]. cbn [valid_utf8]. rewrite (in_false 0 127), (in_false 194 223) by lia. reflexivity.
    + apply cons_eq in E; destruct E as [-> E]; apply cons_eq in E; destruct E as [-> E]; apply cons_eq in E; destruct E as [-> _]. cbn [valid_utf8]. rewrite (in_false 0 127), (in_false 194 223), (in_false 224 239) by lia. reflexivity.
    + destruct a; [|discriminate]. destruct b; [contradiction|discriminate].
Qed.
Print Assumptions C72_cut_character.

(** and the bytes 192, 193 and 245 to 255, which are in no text. *)
Theorem C72_never_bytes : forall s c t, N_of_ascii c = 192%N \/ N_of_ascii c = 193%N \/ (245 <= N_of_ascii c)%N -> ~ utf8_text (s ++ c :: t).
Proof.
  intros s c t Hc H. assert (Hin : In c (s ++ c :: t)) by (apply in_or_app; right; left; reflexivity). revert H Hin. generalize (s ++ c :: t). clear s t. intros s H. induction H as [|n x y Hn (bytes & -> & Hb) Hy IH]; [intros []|].
  intros Hin. apply in_app_or in Hin. destruct Hin as [Hin|Hin]; [|exact (IH Hin)]. apply in_map_iff in Hin. destruct Hin as (k & <- & Hk). unfold character_code in Hn.
  assert (K : (k < 256)%N /\ k <> 192%N /\ k <> 193%N /\ (k < 245)%N).
  { destruct Hb as [[H1 ->]|[(a & b & H1 & H2 & H3 & ->)|[(a & b & e & H1 & H2 & H3 & H4 & ->)|(a & b & e & f & H1 & H2 & H3 & H4 & H5 & ->)]]]; cbn [In] in Hk;
    repeat destruct Hk as [<-|Hk]; try contradiction; lia. }
  rewrite of_byte in Hc by lia. lia.
Qed.
Print Assumptions C72_never_bytes.

(** Text followed by text is text, and where text is cut between characters
    both parts are text. *)
Theorem C72_parts : forall s t, utf8_text s -> (utf8_text (s ++ t) <-> utf8_text t).
Proof. exact utf8_app. Qed.
Print Assumptions C72_parts.

(** ** Non-vacuity *)
(** A file with a city name in UTF-8 is text, the same in Latin-1 is not; nor is one that ends within a character. *)
Definition ex_utf8 : text := txt "<name>Z" ++ map ascii_of_N [195; 188]%N ++ txt "rich</name>" ++ map ascii_of_N [240; 159; 152; 128]%N.
Definition ex_latin1 : text := txt "<name>Z" ++ map ascii_of_N [252]%N ++ txt "rich</name>".
Example C72_applies : utf8_text ex_utf8 /\ ~ utf8_text ex_latin1 /\ ~ utf8_text (firstn 21 ex_utf8) /\ ~ utf8_text (map ascii_of_N [237; 160; 128]%N) /\
  read_to_string ex_utf8 = Some ex_utf8 /\ read_to_string ex_latin1 = None /\
  utf8_of 128512 (map ascii_of_N [240; 159]%N ++ map ascii_of_N [152; 128]%N) /\ character_code 128512.
Proof.
  assert (F : forall s, valid_utf8 s = false -> ~ utf8_text s) by (intros s H Hu; apply valid_iff in Hu; congruence).
  split; [apply valid_iff; vm_compute; reflexivity|]. split; [apply F; vm_compute; reflexivity|]. split; [apply F; vm_compute; reflexivity|]. split; [apply F; vm_compute; reflexivity|].
  split; [vm_compute; reflexivity|]. split; [vm_compute; reflexivity|]. split; [|unfold character_code; lia].
  exists [240; 159; 152; 128]%N. split; [reflexivity|]. right. right. right. exists 0%N, 31%N, 24%N, 0%N. repeat split; lia.
Qed.
