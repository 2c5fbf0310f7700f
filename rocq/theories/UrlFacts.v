(** Lemmas about [UrlEncoded]: encoded pairs are parsed back. *)

From Verif Require Import Base BaseFacts Utf8 Utf8Facts UrlEncoded FormSpec.
Local Open Scope N_scope.

Lemma hex_char_digit c d : hex_char c d <-> hex_digit c = Some d.
Proof.
  unfold hex_char, hex_digit, within. split.
  - intros [[H ->]|[[H ->]|[H ->]]];
      repeat match goal with |- context [?a <=? ?b] => destruct (N.leb_spec a b); try lia end; reflexivity.
  - repeat match goal with |- context [?a <=? ?b] => destruct (N.leb_spec a b) end; cbn;
      intros [= <-] || intros [=]; lia.
Qed.

Lemma hex_char_not_plus c d : hex_char c d -> c <> 43 /\ c <> 38 /\ c <> 61.
Proof. unfold hex_char. lia. Qed.

Lemma decode_app reserved bs e r : In 43 reserved -> In 37 reserved ->
  Forall2 (writes_byte reserved) bs e ->
  percent_decode (replace_plus (concat e ++ r)) = bs ++ percent_decode (replace_plus r).
Proof.
  intros P1 P2. induction 1 as [|b p bs e W _ IH]; [reflexivity|].
  cbn [concat app]. rewrite <- app_assoc. destruct W as [N| ->|h l dh dl Hh Hl E].
  - cbn. assert (b <> 43) by (intros ->; auto). assert (b <> 37) by (intros ->; auto).
    destruct (N.eqb_spec b c_plus); [contradiction|]. destruct (N.eqb_spec b c_percent); [contradiction|].
    f_equal. exact IH.
  - cbn. f_equal. exact IH.
  - destruct (hex_char_not_plus _ _ Hh) as (N1 & _). destruct (hex_char_not_plus _ _ Hl) as (N2 & _).
    cbn. destruct (N.eqb_spec h c_plus); [contradiction|]. destruct (N.eqb_spec l c_plus); [contradiction|].
    apply hex_char_digit in Hh. apply hex_char_digit in Hl. rewrite Hh, Hl. f_equal; [|exact IH].
    rewrite E. lia.
Qed.

Lemma decode_text reserved s e : In 43 reserved -> In 37 reserved -> Forall scalar s ->
  writes_text reserved s e -> decode e = s.
Proof.
  intros P1 P2 Sc (parts & W & ->). unfold decode.
  pose proof (decode_app reserved (utf8 s) parts [] P1 P2 W) as D. rewrite app_nil_r in D. cbn [replace_plus map percent_decode] in D.
  rewrite app_nil_r in D. rewrite D. apply lossy_utf8. exact Sc.
Qed.

Lemma written_byte_not reserved b e c : writes_byte reserved b e -> In c reserved -> c <> 43 -> c <> 37 ->
  (c = 38 \/ c = 61) -> ~ In c e.
Proof.
  intros W R N1 N2 C I. destruct W as [N| ->|h l dh dl Hh Hl E].
  - destruct I as [<-|[]]. contradiction.
  - destruct I as [<-|[]]. contradiction.
  - apply hex_char_not_plus in Hh. apply hex_char_not_plus in Hl. destruct I as [<-|[<-|[<-|[]]]]; [contradiction| |]; lia.
Qed.

Lemma written_text_not reserved s e c : writes_text reserved s e -> In c reserved ->
  (c = 38 \/ c = 61) -> ~ In c e.
Proof.
  intros (parts & W & ->) R C I. apply in_concat in I as (p & Ip & Ic).
  assert (exists b, writes_byte reserved b p) as [b Wb].
  { clear -W Ip. induction W; [contradiction|]. destruct Ip as [<-|Ip]; eauto. }
  revert Ic. eapply written_byte_not; eauto; destruct C as [->| ->]; discriminate.
Qed.

Lemma split_first_app sep a b : ~ In sep a -> split_first sep (a ++ sep :: b) = (a, Some b).
Proof.
  induction a as [|x a IH]; cbn; intros N.
  - rewrite N.eqb_refl. reflexivity.
  - destruct (N.eqb_spec x sep) as [->|]; [tauto|]. rewrite IH by tauto. reflexivity.
Qed.

Lemma parse_pair_written p e : Forall scalar (fst p) -> Forall scalar (snd p) -> writes_pair p e ->
  parse_pair e = p /\ e <> [] /\ ~ In 38 e.
Proof.
  intros S1 S2 (name & val & W1 & W2 & ->). split; [|split].
  - unfold parse_pair. cbn [app]. change 61 with c_eq. rewrite split_first_app.
    2:{ eapply written_text_not; [exact W1| |auto]; cbn; auto. }
    cbn [or_empty]. erewrite (decode_text _ (fst p)), (decode_text _ (snd p)); try eassumption; cbn; auto.
    destruct p; reflexivity.
  - destruct name; discriminate.
  - rewrite !in_app_iff. intros [I|[[F|[]]|I]]; [|discriminate F|].
    + revert I. eapply written_text_not; [exact W1| |auto]; cbn; auto.
    + revert I. eapply written_text_not; [exact W2| |auto]; cbn; auto.
Qed.

Lemma split_join_amp parts : parts <> [] -> (forall e, In e parts -> ~ In 38 e) ->
  split_on c_amp (join_amp parts) = parts.
Proof.
  induction parts as [|a [|b r] IH]; intros Ne N; [congruence| |].
  - cbn [join_amp]. apply split_on_nosep. apply N. left. reflexivity.
  - change (join_amp (a :: b :: r)) with (a ++ c_amp :: join_amp (b :: r)).
    rewrite split_on_app by (apply N; left; reflexivity).
    rewrite IH; [reflexivity|discriminate|]. intros e I. apply N. right. exact I.
Qed.

Lemma parse_encoded ps q : (forall p, In p ps -> Forall scalar (fst p) /\ Forall scalar (snd p)) ->
  encodes ps q -> parse q = ps.
Proof.
  intros Sc (parts & W & ->). unfold parse. destruct ps as [|p0 ps0].
  { inversion W; subst. reflexivity. }
  assert (K : map parse_pair parts = p0 :: ps0 /\ forall e, In e parts -> e <> [] /\ ~ In 38 e).
  { clear -W Sc. induction W as [|p e ps parts Wp W IH]; [split; [reflexivity|contradiction]|].
    destruct (Sc p) as [S1 S2]; [left; reflexivity|].
    destruct (parse_pair_written p e S1 S2 Wp) as (E & Ne & Na).
    destruct IH as (E' & K). { intros x I. apply Sc. right. exact I. }
    split; [cbn; rewrite E, E'; reflexivity|]. intros x [<-|I]; auto. }
  destruct K as (E & K). rewrite split_join_amp.
  - rewrite <- E. f_equal. clear -K. induction parts as [|a r IH]; [reflexivity|]. cbn.
    destruct a as [|c a]; [destruct (K []); [left; reflexivity|congruence]|]. cbn. f_equal. apply IH.
    intros e I. apply K. right. exact I.
  - destruct parts; [discriminate E|discriminate].
  - intros e I. apply K. exact I.
Qed.

(** ** The standard serializer is an encoding *)

Lemma hex_capital_char d : d < 16 -> hex_char (hex_capital d) d.
Proof. intros L. unfold hex_char, hex_capital. destruct (N.ltb_spec d 10); lia. Qed.

Lemma standard_byte_writes reserved b : b < 256 ->
  (forall x, In x reserved -> x = 38 \/ x = 61 \/ x = 43 \/ x = 37) -> writes_byte reserved b (standard_byte b).
Proof.
  intros L R. unfold standard_byte.
  match goal with |- context [if ?t then [b] else _] => destruct t eqn:E end.
  - apply wb_plain. intros I. apply R in I. destruct I as [->|[->|[->| ->]]]; discriminate E.
  - destruct (N.eqb_spec b 32) as [->|]; [apply wb_space; reflexivity|].
    apply (wb_hex reserved b _ _ (b / 16) (b mod 16)).
    + apply hex_capital_char. apply N.div_lt_upper_bound; lia.
    + apply hex_capital_char. apply N.mod_lt. discriminate.
    + apply N.div_mod. discriminate.
Qed.

Lemma utf8_char_bytes c b : scalar c -> In b (utf8_char c) -> b < 256.
Proof.
  unfold scalar, utf8_char. intros S.
  assert (M : forall x, 128 + x mod 64 < 256) by (intros x; pose proof (N.mod_lt x 64); lia).
  destruct (N.ltb_spec c 128); [intros [<-|[]]; lia|].
  destruct (N.ltb_spec c 2048).
  { assert (c / 64 < 32) by (apply N.div_lt_upper_bound; lia). intros [<-|[<-|[]]]; [lia|apply M]. }
  destruct (N.ltb_spec c 65536).
  { assert (c / 4096 < 16) by (apply N.div_lt_upper_bound; lia). intros [<-|[<-|[<-|[]]]]; [lia|apply M|apply M]. }
  assert (c / 262144 < 8) by (apply N.div_lt_upper_bound; lia).
  intros [<-|[<-|[<-|[<-|[]]]]]; [lia|apply M|apply M|apply M].
Qed.

Lemma utf8_bytes s b : Forall scalar s -> In b (utf8 s) -> b < 256.
Proof.
  induction 1 as [|c s Sc _ IH]; cbn; [contradiction|]. intros I. apply in_app_iff in I as [I|I]; [|auto].
  eapply utf8_char_bytes; eauto.
Qed.

Lemma standard_text_writes reserved s : Forall scalar s ->
  (forall x, In x reserved -> x = 38 \/ x = 61 \/ x = 43 \/ x = 37) -> writes_text reserved s (standard_text s).
Proof.
  intros Sc R. exists (map standard_byte (utf8 s)). split.
  - assert (K : forall b, In b (utf8 s) -> b < 256) by (intros; eapply utf8_bytes; eauto).
    induction (utf8 s) as [|b l IH]; constructor.
    + apply standard_byte_writes; [apply K; left; reflexivity|exact R].
    + apply IH. intros x I. apply K. right. exact I.
  - unfold standard_text. apply flat_map_concat_map.
Qed.

Lemma standard_encodes ps : (forall p, In p ps -> Forall scalar (fst p) /\ Forall scalar (snd p)) ->
  encodes ps (standard ps).
Proof.
  intros Sc. exists (map (fun p => standard_text (fst p) ++ [61] ++ standard_text (snd p)) ps).
  split; [|reflexivity]. induction ps as [|p ps IH]; constructor.
  - destruct (Sc p) as [S1 S2]; [left; reflexivity|].
    exists (standard_text (fst p)), (standard_text (snd p)). split; [|split; [|reflexivity]];
      (apply standard_text_writes; [assumption|]); intros x I; cbn in I; intuition subst; auto.
  - apply IH. intros x I. apply Sc. right. exact I.
Qed.
