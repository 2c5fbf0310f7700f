(** Proofs about JSON texts: what [lex] makes of the text of a document. *)

From Coq Require Import String Lia ZArith.
From Verif Require Import Base BaseFacts Utf8 Utf8Facts RouteTrie Http Form AppSpec AppLemmas2 ReplyLemmas Json JsonSpec.
Local Open Scope list_scope.

Scheme writes_mind := Minimality for writes Sort Prop
  with elements_mind := Minimality for elements Sort Prop
  with members_mind := Minimality for members Sort Prop.
Combined Scheme writes_mutind from writes_mind, elements_mind, members_mind.

(** ** Blanks *)

Lemma skip_space w b : space w -> skip (w ++ b) = skip b.
Proof.
  intros S. induction S as [|x w I S IH]; [reflexivity|]. cbn [app skip].
  destruct I as [<-|[<-|[<-|[<-|[]]]]]; exact IH.
Qed.

Lemma skip_all w : space w -> skip w = [].
Proof. intros S. rewrite <- (app_nil_r w), skip_space by exact S. reflexivity. Qed.

Definition blank (x : N) : bool := (x =? 32)%N || (x =? 10)%N || (x =? 9)%N || (x =? 13)%N.

Lemma skip_step x b : skip (x :: b) = if blank x then skip b else x :: b.
Proof. reflexivity. Qed.

Lemma blank_in x : blank x = true <-> In x [32; 9; 10; 13]%N.
Proof.
  unfold blank. rewrite !Bool.orb_true_iff, !N.eqb_eq. cbn [In].
  split; [intros [[[->| ->]| ->]| ->]; auto|intros [<-|[<-|[<-|[<-|[]]]]]; auto].
Qed.

Lemma skip_split b : exists w, space w /\ b = w ++ skip b.
Proof.
  induction b as [|x b (w & S & E)]; [exists []; split; [constructor|reflexivity]|].
  rewrite skip_step. destruct (blank x) eqn:B; [|exists []; split; [constructor|reflexivity]].
  exists (x :: w). split; [constructor; [apply blank_in; exact B|exact S]|]. cbn. f_equal. exact E.
Qed.

Lemma skip_head b x r : skip b = x :: r -> blank x = false.
Proof.
  induction b as [|y b IH]; [discriminate|]. rewrite skip_step. destruct (blank y) eqn:B; [exact IH|].
  intros E. injection E as -> _. exact B.
Qed.

Lemma skip_idem b : skip (skip b) = skip b.
Proof. destruct (skip b) as [|x r] eqn:E; [reflexivity|]. rewrite skip_step, (skip_head _ _ _ E). reflexivity. Qed.

Lemma skip_space_head w x r : space w -> blank x = false -> skip (w ++ x :: r) = x :: r.
Proof. intros S B. rewrite skip_space by exact S. rewrite skip_step, B. reflexivity. Qed.

Lemma skip_nil b : skip b = [] -> space b.
Proof.
  intros E. destruct (skip_split b) as (w & S & Q). rewrite E, app_nil_r in Q. rewrite Q. exact S.
Qed.

(** ** Strings *)

Definition puts {A B} (l : list A) (o : option (list A * B)) : option (list A * B) := fold_right put o l.

Lemma puts_some {A B} (l l' : list A) (r : B) : puts l (Some (l', r)) = Some (l ++ l', r).
Proof. induction l as [|x l IH]; [reflexivity|]. cbn [puts fold_right]. fold (puts l (Some (l', r))). rewrite IH. reflexivity. Qed.

Lemma lex_plain bs r : Forall (fun x => (32 <= x)%N /\ x <> 34%N /\ x <> 92%N) bs ->
  lex_str (bs ++ r) = puts (map PByte bs) (lex_str r).
Proof.
  intros A. induction A as [|x bs (L & N1 & N2) A IH]; [reflexivity|]. cbn [app lex_str map puts fold_right].
  rewrite (proj2 (N.eqb_neq x 34) N1), (proj2 (N.eqb_neq x 92) N2).
  replace (x <? 32)%N with false by (symmetry; apply N.ltb_ge; exact L). rewrite IH. reflexivity.
Qed.

Lemma utf8_char_plain c : scalar c -> (32 <= c)%N -> c <> 34%N -> c <> 92%N ->
  Forall (fun x => (32 <= x)%N /\ x <> 34%N /\ x <> 92%N) (utf8_char c).
Proof.
  intros S L N1 N2. unfold utf8_char.
  destruct (N.ltb_spec c 128); [repeat constructor; auto|].
  destruct (N.ltb_spec c 2048); [|destruct (N.ltb_spec c 65536)];
    repeat match goal with |- context [(?a / ?b)%N] => generalize (a / b)%N | |- context [(?a mod ?b)%N] => generalize (a mod b)%N end;
    intros; repeat constructor; lia.
Qed.

Lemma hex_val_digit x d : hex_digit x d -> hex_val x = Some d.
Proof.
  unfold hex_val, within. intros [[L ->]|[L [->| ->]]].
  - replace (48 <=? 48 + d)%N with true by (symmetry; apply N.leb_le; lia).
    replace (48 + d <=? 57)%N with true by (symmetry; apply N.leb_le; lia). cbn [andb]. f_equal. lia.
  - replace (48 <=? 55 + d)%N with true by (symmetry; apply N.leb_le; lia).
    replace (55 + d <=? 57)%N with false by (symmetry; apply N.leb_gt; lia).
    replace (65 <=? 55 + d)%N with true by (symmetry; apply N.leb_le; lia).
    replace (55 + d <=? 70)%N with true by (symmetry; apply N.leb_le; lia). cbn [andb]. f_equal. lia.
  - replace (48 <=? 87 + d)%N with true by (symmetry; apply N.leb_le; lia).
    replace (87 + d <=? 57)%N with false by (symmetry; apply N.leb_gt; lia).
    replace (65 <=? 87 + d)%N with true by (symmetry; apply N.leb_le; lia).
    replace (87 + d <=? 70)%N with false by (symmetry; apply N.leb_gt; lia).
    replace (97 <=? 87 + d)%N with true by (symmetry; apply N.leb_le; lia).
    replace (87 + d <=? 102)%N with true by (symmetry; apply N.leb_le; lia). cbn [andb]. f_equal. lia.
Qed.

Lemma within_iff lo hi x : within lo hi x = true <-> (lo <= x <= hi)%N.
Proof. unfold within. rewrite Bool.andb_true_iff, !N.leb_le. reflexivity. Qed.

Lemma within_no lo hi x : within lo hi x = false <-> ~ (lo <= x <= hi)%N.
Proof. rewrite <- within_iff. destruct (within lo hi x); split; intuition discriminate. Qed.

Lemma digit_hex_val x d : hex_val x = Some d -> hex_digit x d.
Proof.
  unfold hex_val, hex_digit. destruct (within 48 57 x) eqn:A; [apply within_iff in A; intros E; injection E as <-; lia|].
  destruct (within 65 70 x) eqn:B; [apply within_iff in B; intros E; injection E as <-; lia|].
  destruct (within 97 102 x) eqn:C; [apply within_iff in C; intros E; injection E as <-; lia|discriminate].
Qed.

Lemma hex4_word n h : hex_word n h -> exists x1 x2 x3 x4, h = [x1; x2; x3; x4] /\ hex4 x1 x2 x3 x4 = Some n.
Proof.
  intros (x1 & x2 & x3 & x4 & d1 & d2 & d3 & d4 & -> & H1 & H2 & H3 & H4 & ->).
  exists x1, x2, x3, x4. split; [reflexivity|]. unfold hex4.
  rewrite (hex_val_digit _ _ H1), (hex_val_digit _ _ H2), (hex_val_digit _ _ H3), (hex_val_digit _ _ H4). f_equal. lia.
Qed.

Lemma word_hex4 n x1 x2 x3 x4 : hex4 x1 x2 x3 x4 = Some n -> hex_word n [x1; x2; x3; x4] /\ (n < 65536)%N.
Proof.
  unfold hex4. destruct (hex_val x1) as [d1|] eqn:E1; [|discriminate]. destruct (hex_val x2) as [d2|] eqn:E2; [|discriminate].
  destruct (hex_val x3) as [d3|] eqn:E3; [|discriminate]. destruct (hex_val x4) as [d4|] eqn:E4; [|discriminate].
  intros E. injection E as <-. apply digit_hex_val in E1, E2, E3, E4. split.
  - exists x1, x2, x3, x4, d1, d2, d3, d4. repeat (split; [first [reflexivity|assumption]|]). lia.
  - assert (D : forall x d, hex_digit x d -> (d < 16)%N) by (intros x d [[? _]|[? _]]; lia).
    apply D in E1, E2, E3, E4. lia.
Qed.

Lemma short_letter c x : In (c, x) letters <-> short_escape x = Some c.
Proof.
  unfold short_escape, letters. cbn [In]. split.
  - intros I. repeat (destruct I as [E|I]; [injection E as <- <-; reflexivity|]). destruct I.
  - repeat (match goal with |- context [N.eqb x ?k] => destruct (N.eqb_spec x k) as [->|] end;
      [intros E; injection E as <-; tauto|]). discriminate.
Qed.

Lemma letter_not_u c x : In (c, x) letters -> N.eqb x 117 = false.
Proof. unfold letters. cbn [In]. intros I. repeat (destruct I as [E|I]; [injection E as <- <-; reflexivity|]). destruct I. Qed.

Lemma letter_scalar c x : In (c, x) letters -> scalar c.
Proof. unfold letters. cbn [In]. intros I. repeat (destruct I as [E|I]; [injection E as <- <-; left; lia|]). destruct I. Qed.

Lemma string_scalar s b : string_text s b -> Forall scalar s.
Proof.
  induction 1; constructor; auto.
  - eapply letter_scalar; eassumption.
  - subst c. right. lia.
Qed.

Lemma unescape_bytes bs ps : unescape (map PByte bs ++ ps) = option_map (app bs) (unescape ps).
Proof.
  induction bs as [|b bs IH]; cbn [map app unescape]; [destruct (unescape ps); reflexivity|].
  rewrite IH. destruct (unescape ps); reflexivity.
Qed.

Lemma scalar_not_surrogate c : scalar c -> within 56320 57343 c = false /\ within 55296 56319 c = false.
Proof. intros S. rewrite !within_no. destruct S; lia. Qed.

Lemma lex_string s b : string_text s b ->
  forall r, exists ps, lex_str (b ++ 34%N :: r) = Some (ps, r) /\ unescape ps = Some (utf8 s).
Proof.
  induction 1 as [|c s b S L N1 N2 T IH|c x s b I T IH|c h s b S H T IH|c hi lo h h' s b Hi Lo C H H' T IH]; intros r.
  - exists []. split; reflexivity.
  - destruct (IH r) as (ps & E & U). exists (map PByte (utf8_char c) ++ ps). split.
    + rewrite <- app_assoc, (lex_plain _ _ (utf8_char_plain c S L N1 N2)), E. apply puts_some.
    + rewrite unescape_bytes, U. reflexivity.
  - destruct (IH r) as (ps & E & U). exists (PChar c :: ps). split.
    + cbn [app lex_str]. change (N.eqb 92 34) with false. change (N.eqb 92 92) with true. cbn iota beta.
      rewrite (letter_not_u _ _ I), (proj1 (short_letter c x) I), E. reflexivity.
    + cbn [unescape]. rewrite U. reflexivity.
  - destruct (IH r) as (ps & E & U). destruct (hex4_word _ _ H) as (x1 & x2 & x3 & x4 & -> & X).
    exists (PHex c :: ps). split.
    + cbn [app lex_str]. change (N.eqb 92 34) with false. change (N.eqb 92 92) with true. change (N.eqb 117 117) with true.
      cbn iota beta. rewrite X, E. reflexivity.
    + cbn [unescape]. destruct (scalar_not_surrogate c S) as [-> ->]. rewrite U. reflexivity.
  - destruct (IH r) as (ps & E & U). destruct (hex4_word _ _ H) as (x1 & x2 & x3 & x4 & -> & X).
    destruct (hex4_word _ _ H') as (y1 & y2 & y3 & y4 & -> & Y).
    exists (PHex hi :: PHex lo :: ps). split.
    + cbn [app lex_str]. change (N.eqb 92 34) with false. change (N.eqb 92 92) with true. change (N.eqb 117 117) with true.
      cbn iota beta. rewrite X, Y, E. reflexivity.
    + cbn [unescape]. replace (within 56320 57343 hi) with false by (symmetry; apply within_no; lia).
      replace (within 55296 56319 hi) with true by (symmetry; apply within_iff; lia).
      replace (within 56320 57343 lo) with true by (symmetry; apply within_iff; lia).
      rewrite U. cbn [option_map utf8]. subst c. do 3 f_equal. lia.
Qed.

Lemma lex_string_of s b r : string_text s b -> exists ps, lex_str (b ++ 34%N :: r) = Some (ps, r) /\ string_of ps = Some s.
Proof.
  intros T. destruct (lex_string s b T r) as (ps & E & U). exists ps. split; [exact E|].
  unfold string_of. rewrite U. apply from_utf8_utf8. exact (string_scalar _ _ T).
Qed.

(** ** Numbers *)

Definition no_digit (r : bytes) : Prop := match r with [] => True | x :: _ => is_digit x = false end.
Definition no_more (r : bytes) : Prop :=
  match r with [] => True | x :: _ => is_digit x = false /\ x <> 46%N /\ x <> 101%N /\ x <> 69%N end.

Lemma is_digit_iff x : is_digit x = true <-> digit_char x.
Proof. apply within_iff. Qed.

Lemma digits_row ds r : Forall digit_char ds -> no_digit r -> digits (ds ++ r) = (ds, r).
Proof.
  intros A N. induction A as [|x ds D A IH].
  - cbn [app]. destruct r as [|x r]; [reflexivity|]. cbn [digits]. cbn in N. rewrite N. reflexivity.
  - cbn [app digits]. rewrite (proj2 (is_digit_iff x) D), IH. reflexivity.
Qed.

Lemma digits_split b ds r : digits b = (ds, r) -> b = ds ++ r /\ Forall digit_char ds /\ no_digit r.
Proof.
  revert ds r. induction b as [|x b IH]; intros ds r E; cbn [digits] in E.
  - injection E as <- <-. repeat split. constructor.
  - destruct (is_digit x) eqn:D.
    + destruct (digits b) as [ds' r'] eqn:E'. injection E as <- <-. destruct (IH _ _ eq_refl) as (-> & A & N).
      repeat split; [|exact N]. constructor; [apply is_digit_iff; exact D|exact A].
    + injection E as <- <-. repeat split; [constructor|]. cbn. exact D.
Qed.

Lemma digits_num_value ds : digits_num ds = digits_value ds.
Proof.
  unfold digits_num, digits_value. generalize 0%N. induction ds as [|x ds IH]; intros a; [reflexivity|].
  cbn [fold_left]. rewrite IH. f_equal. lia.
Qed.

Lemma dec_digits n : Forall digit_char (dec n) /\ dec n <> [] /\ digits_num (dec n) = n /\
  (forall r, dec n = 48%N :: r -> r = []).
Proof.
  destruct (dec_numeral n) as (NE & D & Z & V). repeat split.
  - apply Forall_forall. exact D.
  - exact NE.
  - rewrite digits_num_value. exact V.
  - exact Z.
Qed.

Lemma lex_int_dec n r : no_digit r -> lex_int (dec n ++ r) = Some (dec n, r).
Proof.
  intros N. destruct (dec_digits n) as (D & NE & _ & Z). pose proof (digits_row _ _ D N) as Q. unfold lex_int.
  unfold bytes, str, char in *. rewrite Q.
  destruct (dec n) as [|x ds] eqn:E; [destruct (NE eq_refl)|].
  destruct (N.eqb_spec x 48) as [->|NX]; [|reflexivity]. rewrite (Z ds eq_refl). reflexivity.
Qed.

Lemma lex_int_exact b ds r : lex_int b = Some (ds, r) -> b = ds ++ r /\ no_digit r /\ exists n, ds = dec n.
Proof.
  unfold lex_int. destruct (digits b) as [[|x ds'] r'] eqn:E; [discriminate|].
  destruct (digits_split _ _ _ E) as (-> & A & N).
  destruct (N.eqb x 48 && negb (is_empty ds')) eqn:Z; [discriminate|]. intros Q. injection Q as <- <-.
  split; [reflexivity|]. split; [exact N|]. exists (digits_value (x :: ds')).
  eapply numeral_unique; [|apply dec_numeral]. split; [discriminate|]. split; [|split; [|reflexivity]].
  - apply Forall_forall. exact A.
  - intros s Q. injection Q as -> ->. destruct s as [|y s]; [reflexivity|]. discriminate Z.
Qed.

Lemma lex_frac_text fr r : fraction fr -> no_digit r -> (fr = [] -> match r with x :: _ => x <> 46%N | [] => True end) ->
  lex_frac (fr ++ r) = Some (fr, r).
Proof.
  intros [->|(ds & (NE & D) & ->)] N S.
  - specialize (S eq_refl). cbn [app]. unfold lex_frac. destruct r as [|x r]; [reflexivity|].
    destruct (N.eqb_spec x 46) as [->|]; [destruct (S eq_refl)|reflexivity].
  - cbn [app]. unfold lex_frac. change (N.eqb 46 46) with true. cbn iota. rewrite (digits_row _ _ D N).
    destruct ds; [destruct (NE eq_refl)|reflexivity].
Qed.

Lemma lex_frac_exact b fr r : lex_frac b = Some (fr, r) -> b = fr ++ r /\ fraction fr.
Proof.
  unfold lex_frac. destruct b as [|x b]; [intros E; injection E as <- <-; split; [reflexivity|left; reflexivity]|].
  destruct (N.eqb_spec x 46) as [->|]; [|intros E; injection E as <- <-; split; [reflexivity|left; reflexivity]].
  destruct (digits b) as [[|d ds] r'] eqn:E; [discriminate|]. destruct (digits_split _ _ _ E) as (-> & A & _).
  intros Q. injection Q as <- <-. split; [reflexivity|]. right. exists (d :: ds). split; [split; [discriminate|exact A]|reflexivity].
Qed.

Lemma digit_no_sign x : digit_char x -> ((x =? 43)%N || (x =? 45)%N) = false.
Proof. intros D. unfold digit_char in D. apply Bool.orb_false_iff. split; apply N.eqb_neq; lia. Qed.

Lemma lex_exp_text ex r : exponent ex -> no_more r -> lex_exp (ex ++ r) = Some (ex, r).
Proof.
  intros [->|(e & sg & ds & I & SG & (NE & D) & ->)] N.
  - cbn [app]. unfold lex_exp. destruct r as [|x r]; [reflexivity|]. destruct N as (_ & _ & N1 & N2).
    rewrite (proj2 (N.eqb_neq x 101) N1), (proj2 (N.eqb_neq x 69) N2). reflexivity.
  - assert (N0 : no_digit r) by (destruct r; [exact Logic.I|apply N]).
    assert (E : ((e =? 101)%N || (e =? 69)%N) = true) by (destruct I as [<-|[<-|[]]]; reflexivity).
    cbn [app]. unfold lex_exp. rewrite E, <- app_assoc.
    destruct SG as [<-|[<-|[<-|[]]]].
    + destruct ds as [|d ds]; [destruct (NE eq_refl)|]. cbn [app]. inversion D; subst.
      rewrite (digit_no_sign d) by assumption. change (d :: ds ++ r) with ((d :: ds) ++ r). rewrite (digits_row _ _ D N0). reflexivity.
    + cbn. rewrite (digits_row _ _ D N0). destruct ds; [destruct (NE eq_refl)|reflexivity].
    + cbn. rewrite (digits_row _ _ D N0). destruct ds; [destruct (NE eq_refl)|reflexivity].
Qed.

Lemma lex_exp_exact b ex r : lex_exp b = Some (ex, r) -> b = ex ++ r /\ exponent ex.
Proof.
  unfold lex_exp. destruct b as [|x b]; [intros E; injection E as <- <-; split; [reflexivity|left; reflexivity]|].
  destruct ((x =? 101)%N || (x =? 69)%N) eqn:X; [|intros E; injection E as <- <-; split; [reflexivity|left; reflexivity]].
  assert (I : In x [69; 101]%N).
  { apply Bool.orb_true_iff in X. rewrite !N.eqb_eq in X. cbn. destruct X; auto. }
  assert (SG : exists sg r0, (match b with
      | s :: r1 => if (s =? 43)%N || (s =? 45)%N then ([s], r1) else ([], b)
      | [] => ([], [])
      end) = (sg, r0) /\ In sg [[]; [43%N]; [45%N]] /\ b = sg ++ r0).
  { destruct b as [|s b]; [exists [], []; cbn; auto|]. destruct ((s =? 43)%N || (s =? 45)%N) eqn:S.
    - exists [s], b. split; [reflexivity|]. split; [|reflexivity]. apply Bool.orb_true_iff in S. rewrite !N.eqb_eq in S.
      cbn. destruct S as [->| ->]; auto.
    - exists [], (s :: b). cbn. auto. }
  destruct SG as (sg & r0 & -> & ISG & ->).
  destruct (digits r0) as [[|d ds] r'] eqn:E; [discriminate|]. destruct (digits_split _ _ _ E) as (-> & A & _).
  intros Q. injection Q as <- <-. split; [cbn [app]; rewrite <- app_assoc; reflexivity|]. right.
  exists x, sg, (d :: ds). repeat split; auto. discriminate.
Qed.

Lemma lex_num_text neg n tl r : number_tail tl -> no_more r -> lex_num neg (dec n ++ tl ++ r) = Some (RNum neg (dec n) tl, r).
Proof.
  intros (fr & ex & FR & EX & ->) N. unfold lex_num.
  assert (N0 : no_digit r) by (destruct r; [exact Logic.I|apply N]).
  assert (NEX : no_digit (ex ++ r)).
  { destruct EX as [->|(e & sg & ds & [<-|[<-|[]]] & _ & _ & ->)]; [exact N0| |]; reflexivity. }
  rewrite lex_int_dec.
  2: { destruct FR as [->|(ds & _ & ->)]; [exact NEX|reflexivity]. }
  rewrite <- app_assoc, (lex_frac_text fr (ex ++ r) FR NEX).
  2: { intros ->. destruct EX as [->|(e & sg & ds & [<-|[<-|[]]] & _ & _ & ->)]; [|discriminate|discriminate].
       cbn [app]. destruct r as [|x r]; [exact Logic.I|]. apply N. }
  rewrite (lex_exp_text ex r EX N). reflexivity.
Qed.

Lemma lex_num_exact neg b v r : lex_num neg b = Some (v, r) ->
  exists n tl, v = RNum neg (dec n) tl /\ number_tail tl /\ b = dec n ++ tl ++ r.
Proof.
  unfold lex_num. destruct (lex_int b) as [[ds r0]|] eqn:E0; [|discriminate]. destruct (lex_int_exact _ _ _ E0) as (-> & _ & n & ->).
  destruct (lex_frac r0) as [[fr r1]|] eqn:E1; [|discriminate]. destruct (lex_frac_exact _ _ _ E1) as (-> & FR).
  destruct (lex_exp r1) as [[ex r2]|] eqn:E2; [|discriminate]. destruct (lex_exp_exact _ _ _ E2) as (-> & EX).
  intros Q. injection Q as <- <-. exists n, (fr ++ ex). split; [reflexivity|]. split; [exists fr, ex; auto|].
  rewrite <- app_assoc. reflexivity.
Qed.
