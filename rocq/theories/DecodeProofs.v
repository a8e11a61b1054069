(** The reader accepts exactly the elements that TextSpec.v describes.  (Proofs.) *)
From Coq Require Import Ascii String DecimalString DecimalFacts DecimalPos DecimalN NArith Arith Bool List Lia.
From Verif Require Import Num Base Data Precond Text Xml TextSpec XmlProofs.
Import ListNotations.
Local Open Scope char_scope.

(** ** Attributes *)
Definition attr_state (st : astate) (s : text) (l : list (text * text)) : Prop :=
  match st with
  | ANext => attrs_written l s
  | AName acc => exists n b d q v l' s', s = n ++ b ++ txt "=" ++ d ++ [q] ++ v ++ [q] ++ s' /\ (forall c, In c n -> is_space c = false /\ c <> "=") /\
      blank b = true /\ blank d = true /\ is_quote q = true /\ ~ In q v /\ attrs_written l' s' /\ l = (rev acc ++ n, v) :: l'
  | AEq name => exists b d q v l' s', s = b ++ txt "=" ++ d ++ [q] ++ v ++ [q] ++ s' /\
      blank b = true /\ blank d = true /\ is_quote q = true /\ ~ In q v /\ attrs_written l' s' /\ l = (name, v) :: l'
  | AQuote name => exists d q v l' s', s = d ++ [q] ++ v ++ [q] ++ s' /\
      blank d = true /\ is_quote q = true /\ ~ In q v /\ attrs_written l' s' /\ l = (name, v) :: l'
  | AValue name q acc => exists v l' s', s = v ++ [q] ++ s' /\ ~ In q v /\ attrs_written l' s' /\ l = (name, rev acc ++ v) :: l'
  end.
Lemma aw_space c l s : is_space c = true -> attrs_written l s -> attrs_written l (c :: s).
Proof.
  intros Hc H. destruct H as [s Hs|a n b d q v l s Ha Hn Hb Hd Hq Hv H].
  - constructor. cbn. rewrite Hc. exact Hs.
  - change (c :: a ++ n ++ b ++ txt "=" ++ d ++ [q] ++ v ++ [q] ++ s) with ((c :: a) ++ n ++ b ++ txt "=" ++ d ++ [q] ++ v ++ [q] ++ s). constructor; try assumption. cbn. rewrite Hc. exact Ha.
Qed.
Lemma attributes_sound s : forall st l, attributes_from st s = Some l -> attr_state st s l.
Proof.
  induction s as [|c s IH]; intros st l H.
  - destruct st; try discriminate. injection H as <-. constructor. reflexivity.
  - cbn [attributes_from] in H. destruct st as [|acc|name|name|name q acc].
    + destruct (is_space c) eqn:Ec; [apply aw_space; [exact Ec|exact (IH ANext l H)]|]. destruct (Ascii.eqb c "=") eqn:Ee; [discriminate|].
      apply IH in H. destruct H as (n & b & d & q & v & l' & s' & -> & Hn & Hb & Hd & Hq & Hv & Hs & ->). cbn [rev app].
      apply (aw_cons [] (c :: n) b d q v l' s'); try assumption; [reflexivity|]. split; [discriminate|]. intros x [<-|Hx]; [|auto]. split; [exact Ec|]. apply Ascii.eqb_neq. exact Ee.
    + destruct (Ascii.eqb c "=") eqn:Ee.
      * apply Ascii.eqb_eq in Ee. subst c. apply IH in H. destruct H as (d & q & v & l' & s' & -> & Hd & Hq & Hv & Hs & ->).
        exists [], [], d, q, v, l', s'. rewrite app_nil_r. repeat (split; [first [reflexivity|assumption|intros x []]|]). reflexivity.
      * destruct (is_space c) eqn:Ec.
        -- apply IH in H. destruct H as (b & d & q & v & l' & s' & -> & Hb & Hd & Hq & Hv & Hs & ->).
           exists [], (c :: b), d, q, v, l', s'. rewrite app_nil_r. split; [reflexivity|]. split; [intros x []|]. split; [cbn; rewrite Ec; exact Hb|]. auto 10.
        -- apply IH in H. destruct H as (n & b & d & q & v & l' & s' & -> & Hn & Hb & Hd & Hq & Hv & Hs & ->).
           exists (c :: n), b, d, q, v, l', s'. cbn [rev]. rewrite <- app_assoc. split; [reflexivity|]. split.
           { intros x [<-|Hx]; [|auto]. split; [exact Ec|]. apply Ascii.eqb_neq. exact Ee. }
           auto 10.
    + destruct (is_space c) eqn:Ec.
      * apply IH in H. destruct H as (b & d & q & v & l' & s' & -> & Hb & Hd & Hq & Hv & Hs & ->).
        exists (c :: b), d, q, v, l', s'. split; [reflexivity|]. split; [cbn; rewrite Ec; exact Hb|]. auto 10.
      * destruct (Ascii.eqb c "=") eqn:Ee; [|discriminate]. apply Ascii.eqb_eq in Ee. subst c. apply IH in H. destruct H as (d & q & v & l' & s' & -> & Hd & Hq & Hv & Hs & ->).
        exists [], d, q, v, l', s'. split; [reflexivity|]. split; [reflexivity|]. auto 10.
    + destruct (is_space c) eqn:Ec.
      * apply IH in H. destruct H as (d & q & v & l' & s' & -> & Hd & Hq & Hv & Hs & ->).
        exists (c :: d), q, v, l', s'. split; [reflexivity|]. split; [cbn; rewrite Ec; exact Hd|]. auto 10.
      * destruct (is_quote c) eqn:Eq; [|discriminate]. apply IH in H. destruct H as (v & l' & s' & -> & Hv & Hs & ->).
        exists [], c, v, l', s'. split; [reflexivity|]. split; [reflexivity|]. auto 10.
    + destruct (Ascii.eqb c q) eqn:Eq.
      * apply Ascii.eqb_eq in Eq. subst q. destruct (attributes_from ANext s) as [l'|] eqn:E; [|discriminate]. injection H as <-. apply IH in E.
        exists [], l', s. rewrite app_nil_r. split; [reflexivity|]. split; [intros []|]. auto.
      * apply IH in H. destruct H as (v & l' & s' & -> & Hv & Hs & ->). exists (c :: v), l', s'. cbn [rev]. rewrite <- app_assoc. split; [reflexivity|].
        split; [|auto]. intros [->|Hi]; [rewrite Ascii.eqb_refl in Eq; discriminate|contradiction].
Qed.
Lemma quote_not q : is_quote q = true -> is_space q = false /\ Ascii.eqb q "=" = false.
Proof. destruct q as [[] [] [] [] [] [] [] []]; try discriminate; split; reflexivity. Qed.
Lemma from_value name q v s : ~ In q v -> forall acc, attributes_from (AValue name q acc) (v ++ q :: s) = option_map (cons (name, rev acc ++ v)) (attributes_from ANext s).
Proof.
  intros Hv. induction v as [|c v IH]; intros acc.
  - cbn. rewrite Ascii.eqb_refl, app_nil_r. reflexivity.
  - apply notin_char in Hv. destruct Hv as [H1 H2]. cbn [app attributes_from]. rewrite H1, IH by assumption. cbn [rev]. rewrite <- app_assoc. reflexivity.
Qed.
Lemma from_quote name q d s : is_quote q = true -> blank d = true -> attributes_from (AQuote name) (d ++ q :: s) = attributes_from (AValue name q []) s.
Proof.
  intros Hq. unfold blank. induction d as [|c d IH]; intros Hd; cbn [app attributes_from].
  - destruct (quote_not q Hq) as [-> _]. rewrite Hq. reflexivity.
  - cbn in Hd. apply andb_true_iff in Hd. destruct Hd as [-> Hd]. auto.
Qed.
Lemma from_eq name b s : blank b = true -> attributes_from (AEq name) (b ++ "=" :: s) = attributes_from (AQuote name) s.
Proof.
  unfold blank. induction b as [|c d IH]; intros Hd; cbn [app attributes_from]; [reflexivity|].
  cbn in Hd. apply andb_true_iff in Hd. destruct Hd as [-> Hd]. auto.
Qed.
Lemma from_name b s n : blank b = true -> (forall c, In c n -> is_space c = false /\ c <> "=") -> forall acc,
  attributes_from (AName acc) (n ++ b ++ "=" :: s) = attributes_from (AQuote (rev acc ++ n)) s.
Proof.
  intros Hb. induction n as [|c n IH]; intros Hn acc.
  - rewrite app_nil_r. cbn [app]. destruct b as [|c b]; [reflexivity|]. pose proof Hb as Hb'. cbn in Hb. apply andb_true_iff in Hb. destruct Hb as [Hc Hb]. cbn [app attributes_from].
    replace (Ascii.eqb c "=") with false by (destruct c as [[] [] [] [] [] [] [] []]; try reflexivity; discriminate). rewrite Hc. apply from_eq. exact Hb.
  - destruct (Hn c (or_introl eq_refl)) as [H1 H2]. apply Ascii.eqb_neq in H2. cbn [app attributes_from]. rewrite H1, H2, IH by (intros; apply Hn; right; assumption). cbn [rev]. rewrite <- app_assoc. reflexivity.
Qed.
Lemma from_blank s : blank s = true -> attributes_from ANext s = Some [].
Proof. unfold blank. induction s as [|c s IH]; [reflexivity|]. cbn. rewrite andb_true_iff. intros [-> H]. auto. Qed.
Lemma from_space a s : blank a = true -> attributes_from ANext (a ++ s) = attributes_from ANext s.
Proof. unfold blank. induction a as [|c a IH]; [reflexivity|]. cbn [forallb]. rewrite andb_true_iff. intros [H1 H2]. cbn [app attributes_from]. rewrite H1. auto. Qed.
Lemma attributes_complete l s : attrs_written l s -> attributes_from ANext s = Some l.
Proof.
  induction 1 as [s Hs|a n b d q v l s Ha [Hne Hn] Hb Hd Hq Hv H IH]; [apply from_blank; exact Hs|].
  change (txt "=") with ["="]. cbn [app]. rewrite from_space by exact Ha. destruct n as [|c n]; [contradiction|]. destruct (Hn c (or_introl eq_refl)) as [H1 H2]. apply Ascii.eqb_neq in H2.
  cbn [app attributes_from]. rewrite H1, H2. rewrite (from_name b (d ++ q :: v ++ q :: s) n Hb (fun x Hx => Hn x (or_intror Hx))).
  rewrite from_quote by assumption. rewrite from_value by assumption. rewrite IH. reflexivity.
Qed.
Lemma distinct_NoDup l : distinct l = true <-> NoDup l.
Proof.
  induction l as [|x l IH]; [split; [constructor|reflexivity]|]. cbn. rewrite andb_true_iff, negb_true_iff, IH. split.
  - intros [H1 H2]. constructor; [|exact H2]. intros Hin. apply not_true_iff_false in H1. apply H1. apply existsb_exists. exists x. split; [exact Hin|apply text_eqb_refl].
  - intros H. inversion H as [|y m Hni Hnd]. subst. split; [|exact Hnd]. apply not_true_iff_false. intros E. apply existsb_exists in E. destruct E as (y & Hy & E). apply text_eqb_spec in E. subst y. contradiction.
Qed.
Lemma attributes_iff s l : attributes s = Some l <-> has_attrs l s.
Proof.
  unfold attributes, has_attrs. split.
  - destruct (attributes_from ANext s) as [l'|] eqn:E; [|discriminate]. destruct (distinct (map fst l')) eqn:D; [|discriminate]. intros H. injection H as <-.
    split; [exact (attributes_sound s ANext l' E)|apply distinct_NoDup, D].
  - intros [H1 H2]. rewrite (attributes_complete l s H1). apply distinct_NoDup in H2. rewrite H2. reflexivity.
Qed.

(** ** Escapes *)
Lemma entity_iff name c : entity name = Some c <-> In (c, name) references.
Proof.
  unfold entity, references. split.
  - repeat (let E := fresh in destruct (text_eqb name (txt _)) eqn:E; [apply text_eqb_spec in E; subst name; intros H; injection H as <-; cbn; tauto|clear E]). discriminate.
  - cbn [In]. intros H. repeat (destruct H as [H|H]; [injection H as <- <-; reflexivity|]). destruct H.
Qed.
Lemma reference_chars c name : In (c, name) references -> ~ In ";" name.
Proof. intros H Hi. unfold references in H. cbn [In] in H. repeat (destruct H as [H|H]; [injection H as <- <-; cbn in Hi; intuition discriminate|]). destruct H. Qed.
Lemma digit_iff c d : In (c, d) hexadecimal <-> digit_value c = d /\ (d < 16)%N.
Proof.
  split.
  - unfold hexadecimal. cbn [In]. intros H. repeat (destruct H as [H|H]; [injection H as <- <-; split; reflexivity|]). destruct H.
  - intros [<- H]. revert H. destruct c as [[] [] [] [] [] [] [] []]; try discriminate; intros _; cbn; tauto.
Qed.
Lemma radix_snoc base c s : forall acc, radix base acc (s ++ [c]) = match radix base acc s with Some n => if (digit_value c <? base)%N then Some (base * n + digit_value c)%N else None | None => None end.
Proof. induction s as [|x s IH]; intros acc; [reflexivity|]. cbn [app radix]. destruct (digit_value x <? base)%N; [apply IH|reflexivity]. Qed.
Lemma radix_iff base n s : (base <= 16)%N -> radix base 0 s = Some n <-> digits_of base n s.
Proof.
  intros Hb. split.
  - revert n. induction s as [|c s IH] using rev_ind; intros n H; [injection H as <-; constructor|]. rewrite radix_snoc in H. destruct (radix base 0 s) as [m|]; [|discriminate].
    destruct (digit_value c <? base)%N eqn:E; [|discriminate]. injection H as <-. apply N.ltb_lt in E. apply dig_snoc; [auto|apply digit_iff; split; [reflexivity|lia]|exact E].
  - induction 1 as [|n s c d H IH Hc Hd]; [reflexivity|]. rewrite radix_snoc, IH. apply digit_iff in Hc. destruct Hc as [-> _]. apply N.ltb_lt in Hd. rewrite Hd. reflexivity.
Qed.
Lemma utf8_iff n t : utf8 n = t <-> utf8_of n t.
Proof.
  unfold utf8, utf8_of. split.
  - intros <-. eexists. split; [reflexivity|]. destruct (N.ltb_spec n 128) as [H1|H1]; [left; auto|right]. destruct (N.ltb_spec n 2048) as [H2|H2]; [left|right].
    { exists (n / 64)%N, (n mod 64)%N. pose proof (N.div_mod n 64 ltac:(lia)). pose proof (N.mod_lt n 64 ltac:(lia)). repeat split; try lia. }
    assert (E1 : (n / 4096 = n / 64 / 64)%N) by (rewrite N.div_div by lia; reflexivity). assert (E2 : (n / 262144 = n / 64 / 64 / 64)%N) by (rewrite !N.div_div by lia; reflexivity). rewrite E2, E1.
    pose proof (N.div_mod n 64 ltac:(lia)). pose proof (N.mod_lt n 64 ltac:(lia)). pose proof (N.div_mod (n / 64) 64 ltac:(lia)). pose proof (N.mod_lt (n / 64) 64 ltac:(lia)).
    pose proof (N.div_mod (n / 64 / 64) 64 ltac:(lia)). pose proof (N.mod_lt (n / 64 / 64) 64 ltac:(lia)).
    destruct (N.ltb_spec n 65536) as [H9|H9]; [left|right].
    + exists (n / 64 / 64)%N, (n / 64 mod 64)%N, (n mod 64)%N. repeat split; try lia.
    + exists (n / 64 / 64 / 64)%N, (n / 64 / 64 mod 64)%N, (n / 64 mod 64)%N, (n mod 64)%N. repeat split; try lia.
  - intros (bytes & -> & H). f_equal. destruct H as [[H ->]|[(a & b & H & E & Hb & ->)|[(a & b & c & H & E & Hb & Hc & ->)|(a & b & c & d & H & E & Hb & Hc & Hd & ->)]]].
    + apply N.ltb_lt in H. rewrite H. reflexivity.
    + destruct (N.ltb_spec n 128); [lia|]. destruct (N.ltb_spec n 2048); [|lia].
      rewrite <- (N.div_unique n 64 a b) by lia. rewrite <- (N.mod_unique n 64 a b) by lia. reflexivity.
    + destruct (N.ltb_spec n 128); [lia|]. destruct (N.ltb_spec n 2048); [lia|]. destruct (N.ltb_spec n 65536); [|lia].
      rewrite <- (N.div_unique n 4096 a (b * 64 + c)) by lia. rewrite <- (N.div_unique n 64 (a * 64 + b) c) by lia. rewrite <- (N.mod_unique n 64 (a * 64 + b) c) by lia.
      rewrite <- (N.mod_unique (a * 64 + b) 64 a b) by lia. reflexivity.
    + destruct (N.ltb_spec n 128); [lia|]. destruct (N.ltb_spec n 2048); [lia|]. destruct (N.ltb_spec n 65536); [lia|].
      rewrite <- (N.div_unique n 262144 a (b * 4096 + c * 64 + d)) by lia. rewrite <- (N.div_unique n 4096 (a * 64 + b) (c * 64 + d)) by lia.
      rewrite <- (N.div_unique n 64 (a * 4096 + b * 64 + c) d) by lia. rewrite <- (N.mod_unique n 64 (a * 4096 + b * 64 + c) d) by lia.
      rewrite <- (N.mod_unique (a * 64 + b) 64 a b) by lia. rewrite <- (N.mod_unique (a * 4096 + b * 64 + c) 64 (a * 64 + b) c) by lia. reflexivity.
Qed.
Lemma character_iff n t : character n = Some t <-> scalar n /\ utf8_of n t.
Proof.
  unfold character, scalar. rewrite <- utf8_iff. destruct (N.eqb_spec n 0), (N.leb_spec 55296 n), (N.ltb_spec n 57344), (N.leb_spec 1114112 n); cbn [orb andb];
    (split; [intros E; first [discriminate E|injection E as <-; split; [lia|reflexivity]]|intros [E <-]; first [reflexivity|exfalso; lia]]).
Qed.
Definition stands_for (t name : text) : Prop := (exists c, t = [c] /\ In (c, name) references) \/ exists n, number_reference n name /\ scalar n /\ utf8_of n t.
Lemma digits_chars base n s : digits_of base n s -> forall c, In c s -> digit_value c <> 16%N.
Proof.
  induction 1 as [|n s c d H IH Hc Hd]; intros x Hx; [destruct Hx|]. apply in_app_or in Hx. destruct Hx as [Hx|[<-|[]]]; [auto|]. apply digit_iff in Hc. lia.
Qed.
Lemma number_chars n r : number_reference n r -> (forall c r', r = c :: r' -> c = "#") /\ r <> [] /\ ~ In ";" r.
Proof.
  intros [(d & -> & _ & H)|(d & -> & _ & H)]; (split; [intros c r' E; injection E as <- _; reflexivity|]; split; [discriminate|]); intros Hi; cbn in Hi;
    repeat (destruct Hi as [E|Hi]; [discriminate E|]); apply (digits_chars _ _ _ H _ Hi); reflexivity.
Qed.
Lemma entity_hash r : entity ("#" :: r) = None.
Proof. reflexivity. Qed.
Lemma reference_iff name t : reference name = Some t <-> stands_for t name.
Proof.
  unfold reference, stands_for. split.
  - destruct (entity name) as [c|] eqn:E; [intros H; injection H as <-; left; exists c; split; [reflexivity|apply entity_iff, E]|]. clear E.
    destruct name as [|c r]; [discriminate|]. destruct (Ascii.eqb_spec c "#") as [->|Hc]; [|destruct c as [[] [] [] [] [] [] [] []]; try discriminate; contradiction].
    intros H. right.
    assert (Hcase : (exists h n, r = "x" :: h /\ length h <= 6 /\ radix 16 0 h = Some n /\ character n = Some t) \/ (exists n, length r <= 7 /\ radix 10 0 r = Some n /\ character n = Some t)).
    { destruct r as [|x h]; [discriminate|]. destruct (Ascii.eqb_spec x "x") as [->|Hx].
      - left. destruct (Nat.leb_spec (length h) 6); [|discriminate]. destruct (radix 16 0 h) as [n|] eqn:En; [|discriminate]. eauto 6.
      - right. assert (H' : (if Nat.leb (length (x :: h)) 7 then match radix 10 0 (x :: h) with Some n => character n | None => None end else None) = Some t)
          by (rewrite <- H; destruct x as [[] [] [] [] [] [] [] []]; try reflexivity; contradiction). clear H. rename H' into H.
        destruct (Nat.leb_spec (length (x :: h)) 7); [|discriminate]. destruct (radix 10 0 (x :: h)) as [n|] eqn:En; [|discriminate]. eauto 6. }
    destruct Hcase as [(h & n & -> & L & En & Ec)|(n & L & En & Ec)]; exists n; (split; [|apply character_iff, Ec]).
    + right. exists h. split; [reflexivity|]. split; [exact L|]. apply radix_iff; [lia|exact En].
    + left. exists r. split; [reflexivity|]. split; [exact L|]. apply radix_iff; [lia|exact En].
  - intros [(c & -> & Hin)|(n & [(d & -> & L & Hd)|(d & -> & L & Hd)] & Hs)]; [apply entity_iff in Hin; rewrite Hin; reflexivity|..]; apply character_iff in Hs.
    + change (txt "#" ++ d) with ("#" :: d). rewrite entity_hash. pose proof (digits_chars _ _ _ Hd) as Hc. apply radix_iff in Hd; [|lia].
      apply Nat.leb_le in L. destruct d as [|x h]; [cbn in Hd; injection Hd as <-; discriminate Hs|]. assert (Hx : x <> "x") by (intros ->; apply (Hc "x"); [left; reflexivity|reflexivity]).
      transitivity (if Nat.leb (length (x :: h)) 7 then match radix 10 0 (x :: h) with Some n => character n | None => None end else None).
      * destruct x as [[] [] [] [] [] [] [] []]; try reflexivity; contradiction.
      * rewrite L, Hd. exact Hs.
    + change (txt "#x" ++ d) with ("#" :: "x" :: d). rewrite entity_hash. apply radix_iff in Hd; [|lia]. apply Nat.leb_le in L. rewrite L, Hd. exact Hs.
Qed.
Lemma stands_chars t name : stands_for t name -> ~ In ";" name.
Proof. intros [(c & _ & H)|(n & H & _)]; [exact (reference_chars c name H)|apply (number_chars n name H)]. Qed.
Lemma esc_stands t r s v : stands_for t r -> escaped s v -> escaped (t ++ s) (txt "&" ++ r ++ txt ";" ++ v).
Proof. intros [(c & -> & H)|(n & H1 & H2 & H3)] Hs; [apply (esc_reference c r s v H Hs)|exact (esc_number n r t s v H1 H2 H3 Hs)]. Qed.

Lemma unescape_sound v : forall s, (unescape_from None v = Some s -> escaped s v) /\
  forall acc, unescape_from (Some acc) v = Some s -> exists r t s' v', v = r ++ txt ";" ++ v' /\ s = t ++ s' /\ stands_for t (rev acc ++ r) /\ escaped s' v'.
Proof.
  induction v as [|c v IH]; intros s.
  - split; [intros H; injection H as <-; constructor|discriminate].
  - split.
    + cbn [unescape_from]. destruct (Ascii.eqb c "&") eqn:E.
      * apply Ascii.eqb_eq in E. subst c. intros H. apply (IH s) in H. destruct H as (r & t & s' & v' & -> & -> & Hr & He). exact (esc_stands t r s' v' Hr He).
      * destruct (unescape_from None v) as [s'|] eqn:Ev; [|discriminate]. intros H. injection H as <-. apply esc_char; [apply Ascii.eqb_neq, E|]. apply (IH s'). reflexivity.
    + intros acc. cbn [unescape_from]. destruct (Ascii.eqb c ";") eqn:E.
      * apply Ascii.eqb_eq in E. subst c. destruct (reference (rev acc)) as [t|] eqn:Ee; [|discriminate]. destruct (unescape_from None v) as [s'|] eqn:Ev; [|discriminate]. intros H. injection H as <-.
        exists [], t, s', v. rewrite app_nil_r. split; [reflexivity|]. split; [reflexivity|]. split; [apply reference_iff, Ee|]. apply (IH s'). reflexivity.
      * intros H. apply (IH s) in H. destruct H as (r & x & s' & v' & -> & -> & Hr & He). exists (c :: r), x, s', v'. split; [reflexivity|]. split; [reflexivity|]. split; [|exact He].
        cbn [rev] in Hr. rewrite <- app_assoc in Hr. exact Hr.
Qed.
Lemma unescape_name r v t : ~ In ";" r -> forall acc, reference (rev acc ++ r) = Some t ->
  unescape_from (Some acc) (r ++ ";" :: v) = option_map (app t) (unescape_from None v).
Proof.
  intros Hr. induction r as [|x r IH]; intros acc H.
  - rewrite app_nil_r in H. cbn [app unescape_from]. change (Ascii.eqb ";" ";") with true. cbn match. rewrite H. reflexivity.
  - apply notin_char in Hr. destruct Hr as [H1 H2]. cbn [app unescape_from]. rewrite H1. apply IH; [exact H2|]. cbn [rev]. rewrite <- app_assoc. exact H.
Qed.
Lemma unescape_iff v s : unescape v = Some s <-> escaped s v.
Proof.
  split; [apply unescape_sound|]. unfold unescape.
  assert (Hst : forall t r s v, stands_for t r -> unescape_from None v = Some s -> unescape_from None (txt "&" ++ r ++ txt ";" ++ v) = Some (t ++ s)).
  { intros t r s0 v0 Hr IH. change (txt "&" ++ r ++ txt ";" ++ v0) with ("&" :: r ++ ";" :: v0). cbn [unescape_from]. change (Ascii.eqb "&" "&") with true. cbn match.
    rewrite (unescape_name r v0 t (stands_chars t r Hr) []); [rewrite IH; reflexivity|]. apply reference_iff, Hr. }
  induction 1 as [|c s v Hc H IH|c r s v Hr H IH|n r t s v H1 H2 H3 H IH]; [reflexivity|..].
  - apply Ascii.eqb_neq in Hc. cbn [unescape_from]. rewrite Hc, IH. reflexivity.
  - apply (Hst [c] r s v); [left; eauto|exact IH].
  - apply Hst; [right; eauto|exact IH].
Qed.

(** ** Numbers *)
Fixpoint zeros (k : nat) (d : Decimal.uint) : Decimal.uint := match k with O => d | S k => Decimal.D0 (zeros k d) end.
Lemma zeros_text k d : list_ascii_of_string (NilEmpty.string_of_uint (zeros k d)) = repeat "0" k ++ list_ascii_of_string (NilEmpty.string_of_uint d).
Proof. induction k as [|k IH]; [reflexivity|]. cbn. rewrite IH. reflexivity. Qed.
Lemma zeros_value k d : N.of_uint (zeros k d) = N.of_uint d.
Proof. induction k as [|k IH]; [reflexivity|]. exact IH. Qed.
Lemma zeros_head d : exists k, d = zeros k (Decimal.nzhead d).
Proof. induction d as [|d [k IH]|d|d|d|d|d|d|d|d|d]; try (exists 0; reflexivity). exists (S k). cbn. rewrite <- IH. reflexivity. Qed.
Lemma zeros_norm d : d <> Decimal.Nil -> exists k, d = zeros k (Decimal.unorm d).
Proof.
  intros Hd. destruct (zeros_head d) as (k & E). unfold Decimal.unorm. destruct (Decimal.nzhead d) eqn:En; try (exists k; exact E).
  destruct k as [|k]; [contradiction|]. exists k. rewrite E. clear. induction k as [|k IH]; [reflexivity|]. cbn in *. f_equal. exact IH.
Qed.
Lemma string_nonnil d : d <> Decimal.Nil -> NilZero.string_of_uint d = NilEmpty.string_of_uint d.
Proof. destruct d; [contradiction|reflexivity..]. Qed.
Lemma zeros_nonnil k d : d <> Decimal.Nil -> zeros k d <> Decimal.Nil.
Proof. destruct k; [auto|discriminate]. Qed.
Lemma show_nat_text n : show_nat n = list_ascii_of_string (NilEmpty.string_of_uint (N.to_uint (N.of_nat n))).
Proof. unfold show_nat, txt. rewrite string_nonnil by apply to_uint_nonnil. reflexivity. Qed.
Lemma parse_iff bound s n : parse_unsigned bound s = Some n <-> numeral bound n s.
Proof.
  unfold parse_unsigned, numeral. split.
  - set (digits := match s with "+" :: s' => s' | _ => s end).
    assert (Hs : exists plus : text, (plus = [] \/ plus = txt "+") /\ s = plus ++ digits).
    { destruct s as [|c s]; [exists []; auto|]. destruct (Ascii.eqb c "+") eqn:E.
      - apply Ascii.eqb_eq in E. subst c. exists (txt "+"). auto.
      - exists []. split; [auto|]. unfold digits. destruct c as [[] [] [] [] [] [] [] []]; try reflexivity. discriminate. }
    destruct Hs as (plus & Hplus & Es). destruct (NilZero.uint_of_string (string_of_list_ascii digits)) as [d|] eqn:E; [|discriminate].
    destruct (N.of_uint d <? bound)%N eqn:L; [|discriminate]. intros H. injection H as <-. apply N.ltb_lt in L. rewrite N2Nat.id. split; [exact L|].
    assert (Hd : d <> Decimal.Nil) by (intros ->; exact (NilZero.uint_of_string_nonnil _ E)). destruct (zeros_norm d Hd) as (k & Ek).
    exists plus, k. split; [exact Hplus|]. rewrite Es. f_equal. rewrite show_nat_text, N2Nat.id, DecimalN.Unsigned.to_of, <- zeros_text, <- Ek.
    apply NilZero.sus in E. rewrite string_nonnil in E by exact Hd. rewrite E, list_ascii_of_string_of_list_ascii. reflexivity.
  - intros (L & plus & k & Hplus & ->). set (t := repeat "0" k ++ show_nat n).
    assert (Ht : t = list_ascii_of_string (NilEmpty.string_of_uint (zeros k (N.to_uint (N.of_nat n))))) by (unfold t; rewrite zeros_text, show_nat_text; reflexivity).
    assert (Hhead : exists c t', t = c :: t' /\ Ascii.eqb c "+" = false).
    { unfold t. destruct k as [|k]; [|eexists _, _; split; reflexivity]. destruct (show_nat_head n) as (c & s & E & Hc). exists c, s. split; [exact E|].
      destruct c as [[] [] [] [] [] [] [] []]; try reflexivity. discriminate. }
    destruct Hhead as (c & t' & Ec & Hc).
    assert (G : parse_unsigned bound (plus ++ t) = match NilZero.uint_of_string (string_of_list_ascii t) with
      | Some d => if (N.of_uint d <? bound)%N then Some (N.to_nat (N.of_uint d)) else None | None => None end).
    { destruct Hplus as [->| ->]; [|reflexivity]. cbn [app]. clear -Ec Hc. clearbody t. subst t. unfold parse_unsigned. destruct c as [[] [] [] [] [] [] [] []]; try reflexivity. discriminate. }
    unfold parse_unsigned in G. rewrite G. clear G.
    assert (Hnn : zeros k (N.to_uint (N.of_nat n)) <> Decimal.Nil) by (apply zeros_nonnil, to_uint_nonnil).
    rewrite Ht, string_of_list_ascii_of_string, <- string_nonnil, NilZero.usu by exact Hnn.
    rewrite zeros_value, DecimalN.Unsigned.of_to. apply N.ltb_lt in L. rewrite L, Nat2N.id. reflexivity.
Qed.

(** ** Content *)
Lemma trim_start_all s : blank s = true -> trim_start s = [].
Proof. intros H. rewrite <- (app_nil_r s). rewrite trim_start_blank by exact H. reflexivity. Qed.
Lemma no_bits_iff bits : no_bits bits = true <-> blank_bits bits.
Proof.
  unfold no_bits, blank_bits. induction bits as [|[s|s] bits IH]; cbn [cut_start].
  - split; [intros _ b []|reflexivity].
  - destruct (blank s) eqn:B.
    + rewrite IH. split; intros H b Hb; [destruct Hb as [<-|Hb]; [eauto|auto]|apply H; right; exact Hb].
    + split; [discriminate|]. intros H. destruct (H (Raw s) (or_introl eq_refl)) as (s' & E & Hs). injection E as <-. congruence.
  - split; [discriminate|]. intros H. destruct (H (CData s) (or_introl eq_refl)) as (s' & E & _). discriminate.
Qed.
Lemma no_bits_not bits : no_bits bits = false <-> ~ blank_bits bits.
Proof. rewrite <- no_bits_iff. destruct (no_bits bits); split; congruence. Qed.
Lemma solid_iff kids ks : solid kids = ks <-> spaced ks kids.
Proof.
  split.
  - revert ks. induction kids as [|[name attrs sub|s] kids IH]; intros ks H.
    + cbn in H. subst ks. constructor.
    + unfold solid in *. cbn in H. subst ks. constructor. apply IH. reflexivity.
    + unfold solid in *. cbn [filter] in H. destruct (no_bits s) eqn:B; cbn [negb] in H; subst ks; [apply sp_space; [apply no_bits_iff, B|]|apply sp_text; [apply no_bits_not, B|]]; auto.
  - induction 1 as [|s ks kids B H IH|s ks kids B H IH|name attrs sub ks kids H IH]; unfold solid in *; cbn [filter]; [reflexivity|apply no_bits_iff in B|apply no_bits_not in B|]; rewrite ?B; cbn [negb]; rewrite ?IH; reflexivity.
Qed.
Lemma trim_start_split s : exists a, s = a ++ trim_start s /\ blank a = true.
Proof.
  induction s as [|c s (a & E & B)]; [exists []; auto|]. cbn [trim_start]. destruct (is_space c) eqn:Ec; [|exists []; auto].
  exists (c :: a). cbn. rewrite Ec, <- E. auto.
Qed.
Lemma trim_start_head s c s' : trim_start s = c :: s' -> is_space c = false.
Proof. induction s as [|x s IH]; [discriminate|]. cbn. destruct (is_space x) eqn:E; [exact IH|]. intros H. injection H as <- _. exact E. Qed.
Lemma trim_end_split s : exists b, s = trim_end s ++ b /\ blank b = true.
Proof.
  unfold trim_end. destruct (trim_start_split (rev s)) as (a & E & B). exists (rev a). rewrite <- rev_app_distr, <- E, rev_involutive, blank_rev. auto.
Qed.
Lemma written_iff bits s : text_of bits = Some s <-> written_as s bits.
Proof.
  split.
  - revert s. induction bits as [|[v|v] bits IH]; cbn [text_of]; intros s H.
    + injection H as <-. constructor.
    + destruct (unescape v) as [t|] eqn:E; [|discriminate]. destruct (text_of bits) as [t'|]; [|discriminate]. injection H as <-. constructor; [apply unescape_iff, E|auto].
    + destruct (text_of bits) as [t'|]; [|discriminate]. injection H as <-. constructor. auto.
  - induction 1 as [|s v s' bits He H IH|s s' bits H IH]; cbn [text_of]; [reflexivity| |rewrite IH; reflexivity]. apply unescape_iff in He. rewrite He, IH. reflexivity.
Qed.
Lemma trim_end_last s : forall c s', trim_end s = s' ++ [c] -> is_space c = false.
Proof. intros c s' H. unfold trim_end in H. apply (f_equal (@rev ascii)) in H. rewrite rev_involutive, rev_app_distr in H. cbn in H. exact (trim_start_head _ c _ H). Qed.
Lemma trim_end_after v b : blank b = true -> (forall c v', v = v' ++ [c] -> is_space c = false) -> trim_end (v ++ b) = v.
Proof.
  intros Hb Hv. unfold trim_end. rewrite rev_app_distr, trim_start_blank by (rewrite blank_rev; assumption). rewrite trim_start_inside; [apply rev_involutive|].
  destruct (rev v) as [|c x] eqn:E; [reflexivity|]. apply (f_equal (@rev ascii)) in E. rewrite rev_involutive in E. cbn in E. exact (Hv c (rev x) E).
Qed.
Lemma cut_end_snoc bits b : cut_end (bits ++ [b]) = bits ++ [match b with Raw s => Raw (trim_end s) | CData s => CData s end].
Proof.
  induction bits as [|x bits IH]; [destruct b; reflexivity|]. cbn [app]. rewrite <- IH. clear IH. destruct (bits ++ [b]) as [|y l] eqn:E; [destruct bits; discriminate|]. destruct x; reflexivity.
Qed.
Lemma ends_iff core mid : mid <> [] -> cut_end mid = core <-> ends_with core mid.
Proof.
  intros Hne. split.
  - intros <-. destruct (exists_last Hne) as (bits & [s|s] & ->); rewrite cut_end_snoc; [|constructor].
    destruct (trim_end_split s) as (b & E & B). rewrite E at 2. apply en_raw; [exact B|apply trim_end_last].
  - intros [s bits|v b bits Hb Hv]; rewrite cut_end_snoc; [reflexivity|]. rewrite trim_end_after by assumption. reflexivity.
Qed.
Lemma starts_iff bits mid : mid <> [] -> cut_start bits = mid <-> exists blanks rest, bits = blanks ++ rest /\ blank_bits blanks /\ starts_with mid rest.
Proof.
  intros Hne. split.
  - intros <-. induction bits as [|[s|s] bits IH]; [contradiction| |].
    + cbn [cut_start] in *. destruct (blank s) eqn:B.
      * destruct (IH Hne) as (blanks & rest & -> & H1 & H2). exists (Raw s :: blanks), rest. split; [reflexivity|]. split; [|exact H2]. intros b [<-|Hb]; eauto.
      * exists [], (Raw s :: bits). split; [reflexivity|]. split; [intros b []|]. destruct (trim_start_split s) as (a & E & Ba). destruct (trim_start s) as [|c v] eqn:Es.
        { rewrite app_nil_r in E. congruence. }
        rewrite E. apply st_raw; [exact Ba|]. exact (trim_start_head s c v Es).
    + exists [], (CData s :: bits). split; [reflexivity|]. split; [intros b []|constructor].
  - intros (blanks & rest & -> & Hb & Hs). induction blanks as [|b blanks IH].
    + cbn [app]. destruct Hs as [s bits|a c v bits Ha Hc]; [reflexivity|]. cbn [cut_start].
      assert (B : blank (a ++ c :: v) = false) by (unfold blank; rewrite forallb_app; cbn [forallb]; rewrite Hc; apply andb_false_r). rewrite B.
      rewrite trim_start_blank by exact Ha. cbn [trim_start]. rewrite Hc. reflexivity.
    + destruct (Hb b (or_introl eq_refl)) as (s & -> & Bs). cbn [app cut_start]. rewrite Bs. apply IH. intros b' Hb'. apply Hb. right. exact Hb'.
Qed.
Lemma starts_nonempty mid rest : starts_with mid rest -> mid <> [].
Proof. destruct 1; discriminate. Qed.
Lemma says_iff s bits : (no_bits bits = false /\ text_value bits = Some s) <-> says s bits.
Proof.
  unfold says, no_bits, text_value. split.
  - intros [Hn H]. apply written_iff in H. destruct (cut_start bits) as [|b mid] eqn:E; [discriminate|]. apply starts_iff in E; [|discriminate]. destruct E as (blanks & rest & E1 & E2 & E3).
    exists blanks, rest, (b :: mid), (cut_end (b :: mid)). split; [exact E1|]. split; [exact E2|]. split; [exact E3|]. split; [apply ends_iff; [discriminate|reflexivity]|exact H].
  - intros (blanks & rest & mid & core & E & Hb & Hs & He & Hw). pose proof (starts_nonempty _ _ Hs) as Hne.
    rewrite (proj2 (starts_iff bits mid Hne)) by eauto. apply (ends_iff core mid Hne) in He. rewrite He. split; [destruct mid; [contradiction|reflexivity]|apply written_iff, Hw].
Qed.
Lemma string_iff s k : string_value k = Some s <-> text_element s k.
Proof.
  unfold string_value, text_element. split.
  - destruct k as [name attrs kids|]; [|discriminate]. intros H. exists name, attrs, kids. split; [reflexivity|]. destruct (solid kids) as [|[nm at_ sub|raw] [|k' ks]] eqn:E; try discriminate.
    + injection H as <-. left. split; [apply solid_iff, E|reflexivity].
    + right. exists raw. split; [apply solid_iff, E|apply says_iff]. split; [|exact H].
      assert (Hi : In (Text raw) (solid kids)) by (rewrite E; left; reflexivity). unfold solid in Hi. apply filter_In in Hi. destruct Hi as [_ Hi]. apply negb_true_iff, Hi.
  - intros (name & attrs & kids & -> & [[H ->]|(raw & H & Hs)]); apply solid_iff in H; rewrite H; [reflexivity|]. apply says_iff, Hs.
Qed.
Lemma u32_iff n k : u32_value k = Some n <-> number_element (2 ^ 32) n k.
Proof.
  unfold u32_value, number_element. split.
  - destruct (string_value k) as [s|] eqn:E; [|discriminate]. intros H. exists s. split; [apply string_iff, E|apply parse_iff, H].
  - intros (s & H1 & H2). apply string_iff in H1. rewrite H1. apply parse_iff, H2.
Qed.
Lemma texts_iff s kids : texts kids = [s] <-> exists before bits after, kids = before ++ Text bits :: after /\ no_bits bits = false /\
  (forall bits', In (Text bits') (before ++ after) -> blank_bits bits') /\ text_value bits = s.
Proof.
  assert (Hz : forall l, texts l = [] <-> forall s, In (Text s) l -> blank_bits s).
  { induction l as [|[name attrs sub|x] l IH]; [split; [intros _ s' []|reflexivity]|..]; unfold texts in *; cbn [flat_map app].
    - rewrite IH. split; intros H s' Hs; [destruct Hs as [E|Hs]; [discriminate|auto]|apply H; right; exact Hs].
    - destruct (no_bits x) eqn:B; cbn [app].
      + apply no_bits_iff in B. rewrite IH. split; intros H s' Hs; [destruct Hs as [E|Hs]; [injection E as <-; exact B|auto]|apply H; right; exact Hs].
      + split; [discriminate|]. intros H. specialize (H x (or_introl eq_refl)). apply no_bits_iff in H. congruence. }
  split.
  - induction kids as [|[name attrs sub|x] kids IH]; [discriminate|..]; intros H.
    + destruct (IH H) as (before & raw & after & -> & B & Hb & E). exists (Elem name attrs sub :: before), raw, after. split; [reflexivity|]. split; [exact B|]. split; [|exact E].
      intros s' [E'|Hs]; [discriminate|auto].
    + unfold texts in H. cbn [flat_map] in H. destruct (no_bits x) eqn:B; cbn [app] in H.
      * apply no_bits_iff in B. destruct (IH H) as (before & raw & after & -> & B' & Hb & E). exists (Text x :: before), raw, after. split; [reflexivity|]. split; [exact B'|]. split; [|exact E].
        intros s' [E'|Hs]; [injection E' as <-; exact B|auto].
      * injection H as E H. exists [], x, kids. split; [reflexivity|]. split; [exact B|]. split; [apply Hz, H|exact E].
  - intros (before & raw & after & -> & B & Hb & E). unfold texts. rewrite flat_map_app. cbn [flat_map]. rewrite B.
    change (texts before ++ [text_value raw] ++ texts after = [s]).
    rewrite (proj2 (Hz before)), (proj2 (Hz after)) by (intros s' Hs; apply Hb, in_or_app; auto). rewrite E. reflexivity.
Qed.
Lemma named_iff name k : named name k = true <-> exists attrs sub, k = Elem name attrs sub.
Proof.
  destruct k as [n attrs sub|]; cbn; [|split; [discriminate|intros (a & b & H); discriminate]]. rewrite text_eqb_spec.
  split; [intros ->; eauto|intros (a & b & H); congruence].
Qed.
Lemma filter_none {A} (f : A -> bool) l : filter f l = [] <-> forall x, In x l -> f x = false.
Proof.
  induction l as [|x l IH]; [split; [intros _ x []|reflexivity]|]. cbn. destruct (f x) eqn:E.
  - split; [discriminate|]. intros H. specialize (H x (or_introl eq_refl)). congruence.
  - rewrite IH. split; intros H y Hy; [destruct Hy as [<-|Hy]; auto|apply H; auto].
Qed.
Lemma filter_one {A} (f : A -> bool) l k : filter f l = [k] <-> exists before after, l = before ++ k :: after /\ f k = true /\ forall x, In x (before ++ after) -> f x = false.
Proof.
  split.
  - induction l as [|x l IH]; [discriminate|]. cbn. destruct (f x) eqn:E.
    + intros H. injection H as -> H. exists [], l. split; [reflexivity|]. split; [exact E|]. apply filter_none, H.
    + intros H. destruct (IH H) as (before & after & -> & Hk & Hn). exists (x :: before), after. split; [reflexivity|]. split; [exact Hk|]. intros y [<-|Hy]; auto.
  - intros (before & after & -> & Hk & Hn). rewrite filter_app. cbn. rewrite Hk.
    rewrite (proj2 (filter_none f before)), (proj2 (filter_none f after)) by (intros y Hy; apply Hn, in_or_app; auto). reflexivity.
Qed.
Lemma field_iff name kids k : field name kids = Some k <-> the_child name kids k.
Proof.
  unfold field, the_child. split.
  - destruct (filter (named name) kids) as [|k' [|]] eqn:E; try discriminate. intros H. injection H as ->. apply filter_one in E. destruct E as (before & after & E & Hk & Hn).
    apply named_iff in Hk. destruct Hk as (attrs & sub & Hk). exists attrs, sub, before, after. split; [exact Hk|]. split; [exact E|]. intros a s Hi. specialize (Hn _ Hi).
    assert (named name (Elem name a s) = true) by (apply named_iff; eauto). congruence.
  - intros (attrs & sub & before & after & Hk & E & Hn). rewrite (proj2 (filter_one (named name) kids k)); [reflexivity|]. exists before, after. split; [exact E|]. split; [apply named_iff; eauto|].
    intros x Hx. apply not_true_iff_false. intros H. apply named_iff in H. destruct H as (a & s & ->). exact (Hn a s Hx).
Qed.
Lemma all_some_iff {A B} (f : A -> option B) l bs : all_some f l = Some bs <-> Forall2 (fun b a => f a = Some b) bs l.
Proof.
  split.
  - revert bs. induction l as [|x l IH]; cbn; intros bs H; [injection H as <-; constructor|]. destruct (f x) as [y|] eqn:E; [|discriminate]. cbn in H.
    destruct (all_some f l) as [ys|] eqn:E2; [|discriminate]. injection H as <-. constructor; [assumption|]. apply IH. reflexivity.
  - induction 1 as [|b a bs l Hba H IH]; [reflexivity|]. cbn. rewrite Hba. cbn. rewrite IH. reflexivity.
Qed.
Lemma Forall2_iff {A B} (P Q : A -> B -> Prop) l m : (forall a b, P a b <-> Q a b) -> Forall2 P l m <-> Forall2 Q l m.
Proof. intros H. split; induction 1; constructor; try apply H; assumption. Qed.
Lemma items_iff {B} (f : node -> option B) (R : B -> node -> Prop) kids bs : (forall b k, f k = Some b <-> R b k) ->
  items f kids = Some bs <-> exists ks, spaced ks kids /\ bs <> [] /\ Forall2 R bs ks.
Proof.
  intros Hf. unfold items. split.
  - intros H. exists (solid kids). split; [apply solid_iff; reflexivity|]. destruct (solid kids) as [|k ks] eqn:E; [discriminate|]. apply all_some_iff in H.
    split; [intros ->; inversion H|]. eapply Forall2_iff; [|exact H]. intros b a. symmetry. apply Hf.
  - intros (ks & Hs & Hne & HF). apply solid_iff in Hs. rewrite Hs. destruct ks as [|k ks]; [inversion HF; subst; contradiction|]. apply all_some_iff. eapply Forall2_iff; [|exact HF]. intros b a. apply Hf.
Qed.

Section Decode.
Context {N : Num}.
Variable read : text -> option (C N).

Lemma cost_iff ats v : NoDup (map fst ats) -> filter (fun a : text * text => text_eqb (fst a) (txt "cost")) ats = [(txt "cost", v)] <-> In (txt "cost", v) ats.
Proof.
  intros Hnd. rewrite filter_one. split; [intros (b & a & -> & _); apply in_elt|]. intros H. apply in_split in H. destruct H as (b & a & ->). exists b, a. split; [reflexivity|].
  split; [apply text_eqb_refl|]. intros x Hx. apply text_eqb_neq. intros E. rewrite map_app in Hnd. cbn [map fst] in Hnd. apply NoDup_remove_2 in Hnd. apply Hnd. rewrite <- map_app, <- E. apply in_map, Hx.
Qed.
Lemma edge_iff e k : decode_edge read k = Some e <-> edge_element read e k.
Proof.
  unfold decode_edge, edge_element. split.
  - destruct k as [name attrs kids|]; [|discriminate]. destruct (attributes attrs) as [ats|] eqn:Ea; [|discriminate]. apply attributes_iff in Ea. cbn [obind].
    destruct (filter (fun a : text * text => text_eqb (fst a) (txt "cost")) ats) as [|[nm v] [|]] eqn:Ef; try discriminate. destruct (texts kids) as [|s [|]] eqn:Et; try discriminate.
    destruct (unescape v) as [cost|] eqn:Eu; [|discriminate]. cbn [obind]. destruct (read cost) as [c|] eqn:Er; [|discriminate]. cbn [obind].
    destruct s as [num|]; [|discriminate]. cbn [obind]. destruct (parse_usize num) as [to|] eqn:Ep; [|discriminate]. cbn [obind]. intros H. injection H as <-.
    assert (Hnm : nm = txt "cost"). { assert (Hin : In (nm, v) (filter (fun a : text * text => text_eqb (fst a) (txt "cost")) ats)) by (rewrite Ef; left; reflexivity). apply filter_In in Hin. apply text_eqb_spec, Hin. } subst nm.
    apply cost_iff in Ef; [|apply Ea]. apply texts_iff in Et. destruct Et as (before & raw & after & Ek & B & Hb & Es).
    exists name, attrs, ats, v, cost, kids, before, raw, after, num. cbn [e_cost e_to]. split; [reflexivity|]. split; [exact Ea|]. split; [exact Ef|]. split; [apply unescape_iff, Eu|].
    split; [exact Er|]. split; [exact Ek|]. split; [exact Hb|]. split; [apply says_iff; split; [exact B|exact Es]|apply parse_iff, Ep].
  - intros (name & attrs & ats & v & cost & kids & before & raw & after & num & -> & Ha & Hin & Hv & Hr & Hk & Hb & Hs & Hn). apply says_iff in Hs. destruct Hs as [B Hs].
    rewrite (proj2 (attributes_iff attrs ats) Ha). cbn [obind]. rewrite (proj2 (cost_iff ats v (proj2 Ha)) Hin).
    rewrite (proj2 (texts_iff (Some num) kids)) by (exists before, raw, after; auto). rewrite (proj2 (unescape_iff v cost) Hv). cbn [obind]. rewrite Hr. cbn [obind].
    unfold parse_usize. rewrite (proj2 (parse_iff _ num (e_to e)) Hn). cbn [obind]. destruct e; reflexivity.
Qed.
Lemma vertex_iff v k : decode_vertex read k = Some v <-> vertex_element read v k.
Proof.
  unfold decode_vertex, vertex_element. split.
  - destruct k as [name attrs kids|]; [|discriminate]. destruct (attributes attrs) as [ats|] eqn:Ea; [|discriminate]. apply attributes_iff in Ea. cbn [obind]. intros H.
    apply (items_iff _ (edge_element read) _ _ edge_iff) in H. destruct H as (ks & H). exists name, attrs, ats, kids, ks. tauto.
  - intros (name & attrs & ats & kids & ks & -> & Ha & H). rewrite (proj2 (attributes_iff attrs ats) Ha). cbn [obind]. apply (items_iff _ (edge_element read) _ _ edge_iff). exists ks. exact H.
Qed.
Lemma graph_iff g k : decode_graph read k = Some g <-> graph_element read g k.
Proof.
  unfold decode_graph, graph_element. split.
  - destruct k as [name attrs kids|]; [|discriminate]. destruct (attributes attrs) as [ats|] eqn:Ea; [|discriminate]. apply attributes_iff in Ea. cbn [obind]. intros H.
    apply (items_iff _ (vertex_element read) _ _ vertex_iff) in H. destruct H as (ks & H). exists name, attrs, ats, kids, ks. tauto.
  - intros (name & attrs & ats & kids & ks & -> & Ha & H). rewrite (proj2 (attributes_iff attrs ats) Ha). cbn [obind]. apply (items_iff _ (vertex_element read) _ _ vertex_iff). exists ks. exact H.
Qed.
Lemma obind_iff {A B} (x : option A) (f : A -> option B) b : obind x f = Some b <-> exists a, x = Some a /\ f a = Some b.
Proof. destruct x as [a|]; cbn; [split; [eauto|intros (a' & E & H); congruence]|split; [discriminate|intros (a' & E & _); discriminate]]. Qed.
Lemma all_texts kids : (exists l, all_some (fun t : option text => t) (texts kids) = Some l) <-> forall bits, In (Text bits) kids -> blank_bits bits \/ exists s, says s bits.
Proof.
  induction kids as [|[name attrs sub|x] kids IH]; [split; [intros _ s []|exists []; reflexivity]|..].
  - change (texts (Elem name attrs sub :: kids)) with (texts kids). rewrite IH. split; intros H s Hs; [destruct Hs as [E|Hs]; [discriminate|auto]|apply H; right; exact Hs].
  - change (texts (Text x :: kids)) with ((if no_bits x then [] else [text_value x]) ++ texts kids). destruct (no_bits x) eqn:B; cbn [app].
    + rewrite IH. split; intros H s Hs; [destruct Hs as [E|Hs]; [injection E as <-; left; apply no_bits_iff, B|auto]|apply H; right; exact Hs].
    + cbn [all_some]. split.
      * intros (l & H) s Hs. destruct (text_value x) as [t|] eqn:E; [|discriminate]. cbn [obind] in H. destruct (all_some _ (texts kids)) as [l'|] eqn:El; [|discriminate].
        destruct Hs as [E'|Hs]; [injection E' as <-; right; exists t; apply says_iff; auto|]. apply IH; [eauto|exact Hs].
      * intros H. destruct (H x (or_introl eq_refl)) as [Hb|(t & Ht)]; [apply no_bits_iff in Hb; congruence|]. apply says_iff in Ht. destruct Ht as [_ ->]. cbn [obind].
        destruct (proj2 IH) as (l & ->); [intros s Hs; apply H; right; exact Hs|]. exists (t :: l). reflexivity.
Qed.
Lemma document_iff i k : decode_instance read k = Some i <-> document read i k.
Proof.
  unfold decode_instance, document. split.
  - destruct k as [root attrs kids|]; [|discriminate]. rewrite obind_iff. intros (ats & Ha & H). apply attributes_iff in Ha.
    apply obind_iff in H. destruct H as (l & Hl & H). assert (Ht : forall bits, In (Text bits) kids -> blank_bits bits \/ exists s, says s bits) by (apply all_texts; eauto).
    apply obind_iff in H. destruct H as (name & H1 & H). apply obind_iff in H1. destruct H1 as (k1 & F1 & V1).
    apply obind_iff in H. destruct H as (source & H1 & H). apply obind_iff in H1. destruct H1 as (k2 & F2 & V2).
    apply obind_iff in H. destruct H as (description & H1 & H). apply obind_iff in H1. destruct H1 as (k3 & F3 & V3).
    apply obind_iff in H. destruct H as (dp & H1 & H). apply obind_iff in H1. destruct H1 as (k4 & F4 & V4).
    apply obind_iff in H. destruct H as (ig & H1 & H). apply obind_iff in H1. destruct H1 as (k5 & F5 & V5).
    apply obind_iff in H. destruct H as (g & H1 & H). apply obind_iff in H1. destruct H1 as (k6 & F6 & V6). injection H as <-.
    apply field_iff in F1, F2, F3, F4, F5, F6. apply string_iff in V1, V2, V3. apply u32_iff in V4, V5. apply graph_iff in V6.
    exists root, attrs, ats, kids, k1, k2, k3, k4, k5, k6. cbn [i_name i_source i_description i_double_precision i_ignored_digits i_graph]. tauto.
  - intros (root & attrs & ats & kids & k1 & k2 & k3 & k4 & k5 & k6 & -> & Ha & F1 & V1 & F2 & V2 & F3 & V3 & F4 & V4 & F5 & V5 & F6 & V6 & Ht).
    apply all_texts in Ht. destruct Ht as (l & Hl). apply field_iff in F1, F2, F3, F4, F5, F6. apply string_iff in V1, V2, V3. apply u32_iff in V4, V5. apply graph_iff in V6.
    rewrite (proj2 (attributes_iff attrs ats) Ha). cbn [obind]. rewrite Hl. cbn [obind]. rewrite F1, F2, F3, F4, F5, F6. cbn [obind]. rewrite V1, V2, V3, V4, V5, V6. cbn [obind]. destruct i; reflexivity.
Qed.

(** Documents are read as what they say, other elements are errors. *)
Lemma from_str_iff p k pro r i : well_spelled p -> meaning p = [k] -> (forall s, k <> Text s) -> prologue pro ->
  from_str read (pro ++ spell p ++ r) = Some i <-> document read i k.
Proof.
  intros Hw Hk Ht Hp. unfold from_str. destruct (spell_lt p k Hw Hk Ht) as (x & E & Hx). pose proof (element_spell p k r Hw Hk Ht) as He. rewrite E in *. cbn [app] in *.
  rewrite (element_prologue pro (x ++ r) Hp (Hx r)), He. apply document_iff.
Qed.
Lemma from_str_cut p k pro s r : well_spelled p -> meaning p = [k] -> (forall s, k <> Text s) -> prologue pro ->
  s ++ r = pro ++ spell p -> r <> [] -> from_str read s = None.
Proof. intros Hw Hk Ht Hp E Hr. unfold from_str. rewrite (element_cut p k pro s r Hw Hk Ht Hp E Hr). reflexivity. Qed.

(** what is read never has a vertex without edges *)
Lemma from_str_nonempty xml i : from_str read xml = Some i -> i_graph i <> [] /\ ~ In [] (i_graph i).
Proof.
  unfold from_str. rewrite obind_iff. intros (k & _ & H). apply document_iff in H.
  destruct H as (root & attrs & ats & kids & k1 & k2 & k3 & k4 & k5 & k6 & _ & _ & _ & _ & _ & _ & _ & _ & _ & _ & _ & _ & _ & (gn & ga & gats & gk & gks & _ & _ & _ & Hg & HF) & _).
  split; [exact Hg|]. intros Hin. clear Hg. induction HF as [|v k' g ks Hv HF IH]; [destruct Hin|]. destruct Hin as [->|Hin]; [|auto].
  destruct Hv as (vn & va & vats & vk & vks & _ & _ & _ & Hv & _). contradiction.
Qed.
End Decode.
