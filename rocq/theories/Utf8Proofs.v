(** The byte table of [valid_utf8] accepts exactly the texts: sequences of characters of Unicode, each in its UTF-8 form. *)
From Coq Require Import Ascii String NArith Arith Bool List Lia.
From Verif Require Import Text Xml TextSpec Utf8.
Import ListNotations.
Local Open Scope N_scope.

Lemma byte_in_iff lo hi c : byte_in lo hi c = true <-> lo <= N_of_ascii c <= hi.
Proof. unfold byte_in. rewrite andb_true_iff, !N.leb_le. reflexivity. Qed.
Lemma byte_lt c : N_of_ascii c < 256.
Proof. apply N_ascii_bounded. Qed.
Lemma byte_eq c k : N_of_ascii c = k -> ascii_of_N k = c.
Proof. intros <-. apply ascii_N_embedding. Qed.

Lemma strong_text (P : text -> Prop) : (forall s, (forall t, (length t < length s)%nat -> P t) -> P s) -> forall s, P s.
Proof.
  intros H s. assert (G : forall n t, (length t < n)%nat -> P t).
  { induction n as [|n IH]; intros t Ht; [lia|]. apply H. intros t' Ht'. apply IH. lia. }
  apply (G (S (length s))). lia.
Qed.

Ltac bytes := repeat match goal with
  | H : (if ?b then _ else _) = true |- _ => let E := fresh "E" in destruct b eqn:E
  | H : (_ && _)%bool = true |- _ => apply andb_true_iff in H; destruct H
  | H : byte_in _ _ _ = true |- _ => apply byte_in_iff in H
  | H : continuation _ = true |- _ => apply byte_in_iff in H
  | H : byte_in _ _ _ = false |- _ => apply not_true_iff_false in H; rewrite byte_in_iff in H
  end.

Lemma valid_sound : forall s, valid_utf8 s = true -> utf8_text s.
Proof.
  apply (strong_text (fun s => valid_utf8 s = true -> utf8_text s)). intros [|a s1] IH H; [constructor|].
  cbn [valid_utf8] in H. destruct (byte_in 0 127 a) eqn:Ea.
  { apply byte_in_iff in Ea. apply (u8_char (N_of_ascii a) [a] s1); [unfold character_code; lia| |apply IH; [cbn; lia|exact H]].
    exists [N_of_ascii a]. split; [cbn; rewrite ascii_N_embedding; reflexivity|]. left. split; [lia|reflexivity]. }
  assert (Ha : 128 <= N_of_ascii a). { apply not_true_iff_false in Ea. rewrite byte_in_iff in Ea. lia. }
  destruct s1 as [|b s2]; [discriminate|]. destruct (byte_in 194 223 a) eqn:Ea2.
  { apply andb_true_iff in H. destruct H as [Hb H]. apply byte_in_iff in Hb, Ea2.
    apply (u8_char ((N_of_ascii a - 192) * 64 + (N_of_ascii b - 128)) [a; b] s2); [unfold character_code; lia| |apply IH; [cbn; lia|exact H]].
    exists [N_of_ascii a; N_of_ascii b]. split; [cbn; rewrite !ascii_N_embedding; reflexivity|]. right. left.
    exists (N_of_ascii a - 192), (N_of_ascii b - 128). split; [lia|]. split; [lia|]. split; [lia|]. f_equal; [lia|f_equal; lia]. }
  destruct s2 as [|c s3]; [discriminate|]. destruct (byte_in 224 239 a) eqn:Ea3.
  { apply andb_true_iff in H. destruct H as [H Hr]. apply andb_true_iff in H. destruct H as [Hb Hc]. apply byte_in_iff in Hb, Hc, Ea3.
    set (x := N_of_ascii a) in *. set (y := N_of_ascii b) in *. set (z := N_of_ascii c) in *.
    assert (Hy : 128 <= y <= 191 /\ (x = 224 -> 160 <= y) /\ (x = 237 -> y <= 159)).
    { destruct (byte_in 224 224 a) eqn:E1, (byte_in 237 237 a) eqn:E2; bytes; unfold x, y; lia. }
    apply (u8_char ((x - 224) * 4096 + (y - 128) * 64 + (z - 128)) [a; b; c] s3); [unfold character_code; lia| |apply IH; [cbn; lia|exact Hr]].
    exists [x; y; z]. split; [unfold x, y, z; cbn; rewrite !ascii_N_embedding; reflexivity|]. right. right. left.
    exists (x - 224), (y - 128), (z - 128). split; [lia|]. split; [lia|]. split; [lia|]. split; [lia|]. f_equal; [lia|]. f_equal; [lia|]. f_equal; lia. }
  destruct s3 as [|d s4]; [discriminate|].
  rewrite !andb_true_iff in H. destruct H as [[[[Ha4 Hb] Hc] Hd] Hr]. apply byte_in_iff in Ha4, Hb, Hc, Hd.
  set (x := N_of_ascii a) in *. set (y := N_of_ascii b) in *. set (z := N_of_ascii c) in *. set (w := N_of_ascii d) in *.
  assert (Hy : 128 <= y <= 191 /\ (x = 240 -> 144 <= y) /\ (x = 244 -> y <= 143)).
  { destruct (byte_in 240 240 a) eqn:E1, (byte_in 244 244 a) eqn:E2; bytes; unfold x, y; lia. }
  apply (u8_char ((x - 240) * 262144 + (y - 128) * 4096 + (z - 128) * 64 + (w - 128)) [a; b; c; d] s4); [unfold character_code; lia| |apply IH; [cbn; lia|exact Hr]].
  exists [x; y; z; w]. split; [unfold x, y, z, w; cbn; rewrite !ascii_N_embedding; reflexivity|]. right. right. right.
  exists (x - 240), (y - 128), (z - 128), (w - 128). split; [lia|]. split; [lia|]. split; [lia|]. split; [lia|]. split; [lia|].
  f_equal; [lia|]. f_equal; [lia|]. f_equal; [lia|]. f_equal; lia.
Qed.

Lemma of_byte k : k < 256 -> N_of_ascii (ascii_of_N k) = k.
Proof. apply N_ascii_embedding. Qed.
Lemma in_true lo hi k : k < 256 -> lo <= k <= hi -> byte_in lo hi (ascii_of_N k) = true.
Proof. intros H1 H2. apply byte_in_iff. rewrite of_byte by assumption. exact H2. Qed.
Lemma in_false lo hi k : k < 256 -> k < lo \/ hi < k -> byte_in lo hi (ascii_of_N k) = false.
Proof. intros H1 H2. apply not_true_iff_false. rewrite byte_in_iff, of_byte by assumption. lia. Qed.

Lemma valid_char n s t : character_code n -> utf8_of n s -> valid_utf8 (s ++ t) = valid_utf8 t.
Proof.
  intros Hn (bytes & -> & H). unfold character_code in Hn. destruct H as [[H1 ->]|[(a & b & H1 & H2 & H3 & ->)|[(a & b & c & H1 & H2 & H3 & H4 & ->)|(a & b & c & d & H1 & H2 & H3 & H4 & H5 & ->)]]]; cbn [map app valid_utf8].
  - rewrite in_true by lia. reflexivity.
  - rewrite in_false by lia. rewrite in_true by lia. unfold continuation. rewrite in_true by lia. reflexivity.
  - rewrite (in_false 0 127) by lia. rewrite (in_false 194 223) by lia. rewrite (in_true 224 239) by lia. unfold continuation. rewrite (in_true 128 191 (128 + c)) by lia.
    assert (E : byte_in (if byte_in 224 224 (ascii_of_N (224 + a)) then 160 else 128) (if byte_in 237 237 (ascii_of_N (224 + a)) then 159 else 191) (ascii_of_N (128 + b)) = true).
    { apply in_true; [lia|]. destruct (N.eq_dec a 0) as [->|Ha]; [|destruct (N.eq_dec a 13) as [->|Ha']].
      - rewrite (in_true 224 224), (in_false 237 237) by lia. lia.
      - rewrite (in_false 224 224), (in_true 237 237) by lia. lia.
      - rewrite (in_false 224 224), (in_false 237 237) by lia. lia. }
    rewrite E. reflexivity.
  - rewrite (in_false 0 127) by lia. rewrite (in_false 194 223) by lia. rewrite (in_false 224 239) by lia. unfold continuation. rewrite (in_true 240 244) by lia. rewrite (in_true 128 191 (128 + c)), (in_true 128 191 (128 + d)) by lia.
    assert (E : byte_in (if byte_in 240 240 (ascii_of_N (240 + a)) then 144 else 128) (if byte_in 244 244 (ascii_of_N (240 + a)) then 143 else 191) (ascii_of_N (128 + b)) = true).
    { apply in_true; [lia|]. destruct (N.eq_dec a 0) as [->|Ha]; [|destruct (N.eq_dec a 4) as [->|Ha']].
      - rewrite (in_true 240 240), (in_false 244 244) by lia. lia.
      - rewrite (in_false 240 240), (in_true 244 244) by lia. lia.
      - rewrite (in_false 240 240), (in_false 244 244) by lia. lia. }
    rewrite E. reflexivity.
Qed.

Lemma valid_iff s : valid_utf8 s = true <-> utf8_text s.
Proof.
  split; [apply valid_sound|]. induction 1 as [|n s t Hn Hs Ht IH]; [reflexivity|]. rewrite (valid_char n s t Hn Hs). exact IH.
Qed.

Lemma utf8_app s t : utf8_text s -> (utf8_text (s ++ t) <-> utf8_text t).
Proof.
  intros Hs. rewrite <- !valid_iff. induction Hs as [|n s s' Hn Hc Hs IH]; [reflexivity|]. rewrite <- app_assoc, (valid_char n s _ Hn Hc). exact IH.
Qed.

Lemma ascii_text s : forallb (fun c => N_of_ascii c <? 128) s = true -> utf8_text s.
Proof.
  intros H. apply valid_iff. induction s as [|c s IH]; [reflexivity|]. cbn [forallb] in H. apply andb_true_iff in H. destruct H as [Hc H]. apply N.ltb_lt in Hc.
  cbn [valid_utf8]. replace (byte_in 0 127 c) with true by (symmetry; apply byte_in_iff; lia). apply IH. exact H.
Qed.
