(** Proofs about JSON texts: [lex] finds exactly the documents written, and what it finds
    does not change when text is added. *)

From Coq Require Import String Lia ZArith.
From Verif Require Import Base BaseFacts Utf8 Utf8Facts RouteTrie Http Form AppSpec AppLemmas2 ReplyLemmas UrlLemmas Json JsonSpec JsonLemmas.
Local Open Scope list_scope.

(** The tree of a document. *)
Inductive shape : json -> raw -> Prop :=
| sh_null : shape JNull RNull
| sh_bool b : shape (JBool b) (RBool b)
| sh_num neg n tl : shape (JNum neg n tl) (RNum neg (dec n) tl)
| sh_str s ps : string_of ps = Some s -> shape (JStr s) (RStr ps)
| sh_arr l rs : Forall2 shape l rs -> shape (JArr l) (RArr rs)
| sh_obj l rs : Forall2 (fun m p => string_of (fst p) = Some (fst m) /\ shape (snd m) (snd p)) l rs ->
    shape (JObj l) (RObj rs).

(** ** Steps of the parser *)

Lemma lex_skip n b : lex (S n) b = lex (S n) (skip b).
Proof. cbn [lex]. rewrite skip_idem. reflexivity. Qed.

Lemma lex_space n w b : space w -> lex (S n) (w ++ b) = lex (S n) b.
Proof. intros S. rewrite lex_skip, skip_space by exact S. symmetry. apply lex_skip. Qed.

Lemma lex_digit n x r : digit_char x -> lex (S n) (x :: r) = lex_num false (x :: r).
Proof.
  intros D. unfold digit_char in D. cbn [lex]. rewrite skip_step.
  replace (blank x) with false.
  2: { symmetry. unfold blank. rewrite !(proj2 (N.eqb_neq _ _)) by lia. reflexivity. }
  replace (x =? 110)%N with false by (symmetry; apply N.eqb_neq; lia).
  replace (x =? 116)%N with false by (symmetry; apply N.eqb_neq; lia).
  replace (x =? 102)%N with false by (symmetry; apply N.eqb_neq; lia).
  replace (x =? 45)%N with false by (symmetry; apply N.eqb_neq; lia).
  replace (is_digit x) with true by (symmetry; apply is_digit_iff; exact D). reflexivity.
Qed.

Lemma lex_elements_step n b : lex_elements (S n) b =
  match lex n b with
  | None => None
  | Some (v, r) =>
      match skip r with
      | [] => None
      | y :: r1 => if N.eqb y 93 then Some ([v], r1) else if N.eqb y 44 then put v (lex_elements n r1) else None
      end
  end.
Proof. reflexivity. Qed.

Lemma lex_members_step n b : lex_members (S n) b =
  match skip b with
  | [] => None
  | x :: r =>
      if N.eqb x 34 then
        match lex_str r with
        | None => None
        | Some (k, r0) =>
            match skip r0 with
            | [] => None
            | z :: r1 =>
                if N.eqb z 58 then
                  match lex n r1 with
                  | None => None
                  | Some (v, r2) =>
                      match skip r2 with
                      | [] => None
                      | y :: r3 => if N.eqb y 125 then Some ([(k, v)], r3)
                                   else if N.eqb y 44 then put (k, v) (lex_members n r3) else None
                      end
                  end
                else None
            end
        end
      else None
  end.
Proof. reflexivity. Qed.

Lemma lex_open n r : lex (S n) (91%N :: r) =
  match skip r with
  | [] => None
  | y :: r1 => if N.eqb y 93 then Some (RArr [], r1)
               else match lex_elements n r with Some (l, r') => Some (RArr l, r') | None => None end
  end.
Proof. reflexivity. Qed.

Lemma lex_brace n r : lex (S n) (123%N :: r) =
  match skip r with
  | [] => None
  | y :: r1 => if N.eqb y 125 then Some (RObj [], r1)
               else match lex_members n r with Some (l, r') => Some (RObj l, r') | None => None end
  end.
Proof. reflexivity. Qed.

Lemma lex_quote n r : lex (S n) (34%N :: r) = match lex_str r with Some (ps, r') => Some (RStr ps, r') | None => None end.
Proof. reflexivity. Qed.

(** ** Texts are found *)

Lemma blank_no_more x : blank x = true -> is_digit x = false /\ x <> 46%N /\ x <> 101%N /\ x <> 69%N.
Proof. intros B. apply blank_in in B. destruct B as [<-|[<-|[<-|[<-|[]]]]]; repeat split; discriminate. Qed.

Lemma no_more_space w r : space w -> no_more r -> no_more (w ++ r).
Proof. intros S N. destruct S as [|x w I S]; [exact N|]. apply blank_no_more, blank_in. exact I. Qed.

(** The first character of a text. *)
Definition opens (b : bytes) : Prop :=
  exists x r, b = x :: r /\ blank x = false /\ x <> 93%N /\ x <> 125%N.

Lemma writes_opens j b : writes j b -> opens b.
Proof.
  intros W. destruct W; try (eexists; eexists; split; [reflexivity|repeat split; discriminate]).
  destruct neg; [eexists; eexists; split; [reflexivity|repeat split; discriminate]|].
  destruct (dec_digits n) as (D & NE & _). cbn [app]. destruct (dec n) as [|x ds] eqn:E; [destruct (NE eq_refl)|].
  exists x, (ds ++ tl). split; [reflexivity|]. inversion D as [|? ? DC]; subst. unfold digit_char in DC.
  repeat split; try (intros ->; lia). unfold blank. rewrite !(proj2 (N.eqb_neq _ _)) by lia. reflexivity.
Qed.

Lemma opens_skip w b r : space w -> opens b -> exists x r', skip (w ++ b ++ r) = x :: r' /\ N.eqb x 93 = false /\ N.eqb x 125 = false.
Proof.
  intros S (x & r' & -> & B & N1 & N2). exists x, (r' ++ r). split; [|split; apply N.eqb_neq; assumption].
  cbn [app]. apply skip_space_head; assumption.
Qed.

Lemma elements_opens l b : elements l b -> forall r, exists x r', skip (b ++ r) = x :: r' /\ N.eqb x 93 = false /\ N.eqb x 125 = false.
Proof.
  intros E r. destruct E; repeat rewrite <- app_assoc; eapply opens_skip; eauto using writes_opens.
Qed.

Lemma members_opens l b : members l b -> forall r, exists x r', skip (b ++ r) = x :: r' /\ N.eqb x 93 = false /\ N.eqb x 125 = false.
Proof.
  intros E r. destruct E; rewrite <- app_assoc; cbn [app]; rewrite skip_space_head by (auto; reflexivity);
    eexists; eexists; split; [reflexivity|split; reflexivity|reflexivity|split; reflexivity].
Qed.

Definition stops (j : json) (r : bytes) : Prop := is_number j -> no_more r.

Lemma lex_complete :
  (forall j b, writes j b -> forall n r, 2 * length b <= n -> stops j r ->
     exists v, lex (S n) (b ++ r) = Some (v, r) /\ shape j v) /\
  (forall l b, elements l b -> forall n r, 2 * length b + 1 <= n ->
     exists vs, lex_elements (S n) (b ++ 93%N :: r) = Some (vs, r) /\ Forall2 shape l vs) /\
  (forall l b, members l b -> forall n r, 2 * length b + 1 <= n ->
     exists vs, lex_members (S n) (b ++ 125%N :: r) = Some (vs, r) /\
       Forall2 (fun m p => string_of (fst p) = Some (fst m) /\ shape (snd m) (snd p)) l vs).
Proof.
  apply writes_mutind.
  - intros n r _ _. exists RNull. split; [reflexivity|constructor].
  - intros n r _ _. exists (RBool true). split; [reflexivity|constructor].
  - intros n r _ _. exists (RBool false). split; [reflexivity|constructor].
  - intros neg n tl T m r _ S. exists (RNum neg (dec n) tl). split; [|constructor]. specialize (S Logic.I).
    pose proof (lex_num_text neg n tl r T S) as E. destruct neg; cbn [app] in *; repeat rewrite <- app_assoc.
    + exact E.
    + destruct (dec_digits n) as (D & NE & _). unfold bytes, str, char in *.
      destruct (dec n) as [|x ds]; [destruct (NE eq_refl)|]. cbn [app] in *.
      inversion D; subst. rewrite lex_digit by assumption. exact E.
  - intros s b T n r _ _. destruct (lex_string_of s b r T) as (ps & E & S). exists (RStr ps). split; [|constructor; exact S].
    cbn [app]. rewrite lex_quote. rewrite <- app_assoc. cbn [app]. rewrite E. reflexivity.
  - intros w S n r _ _. exists (RArr []). split; [|constructor; constructor].
    cbn [app]. rewrite lex_open. rewrite <- app_assoc. cbn [app]. rewrite skip_space_head by (auto; reflexivity). reflexivity.
  - intros l b E IH n r L _. cbn [app]. rewrite lex_open. rewrite <- app_assoc. cbn [app].
    destruct (elements_opens l b E (93%N :: r)) as (x & r' & -> & -> & _).
    cbn [length] in L. rewrite app_length in L. cbn [length] in L. destruct n as [|n]; [lia|].
    destruct (IH n r) as (vs & -> & SH); [lia|]. exists (RArr vs). split; [reflexivity|constructor; exact SH].
  - intros w S n r _ _. exists (RObj []). split; [|constructor; constructor].
    cbn [app]. rewrite lex_brace. rewrite <- app_assoc. cbn [app]. rewrite skip_space_head by (auto; reflexivity). reflexivity.
  - intros l b E IH n r L _. cbn [app]. rewrite lex_brace. rewrite <- app_assoc. cbn [app].
    destruct (members_opens l b E (125%N :: r)) as (x & r' & -> & _ & ->).
    cbn [length] in L. rewrite app_length in L. cbn [length] in L. destruct n as [|n]; [lia|].
    destruct (IH n r) as (vs & -> & SH); [lia|]. exists (RObj vs). split; [reflexivity|constructor; exact SH].
  - intros w j b w' S W IH S' n r L. repeat rewrite <- app_assoc. rewrite lex_elements_step.
    repeat rewrite app_length in L. destruct n as [|n]; [lia|]. rewrite lex_space by exact S.
    destruct (IH n (w' ++ 93%N :: r)) as (v & -> & SH); [lia| |].
    { intros _. apply no_more_space; [exact S'|repeat split; discriminate]. }
    rewrite skip_space_head by (auto; reflexivity). exists [v]. split; [reflexivity|repeat constructor; exact SH].
  - intros w j b w' l c S W IH S' E IH' n r L. repeat (rewrite <- app_assoc; cbn [app]). rewrite lex_elements_step.
    repeat (rewrite app_length in L; cbn [length] in L). destruct n as [|n]; [lia|]. rewrite lex_space by exact S.
    destruct (IH n (w' ++ 44%N :: c ++ 93%N :: r)) as (v & -> & SH); [lia| |].
    { intros _. apply no_more_space; [exact S'|repeat split; discriminate]. }
    rewrite skip_space_head by (auto; reflexivity). change (N.eqb 44 93) with false. change (N.eqb 44 44) with true. cbn iota.
    destruct (IH' n r) as (vs & -> & SHS); [lia|]. exists (v :: vs). split; [reflexivity|constructor; assumption].
  - intros w k kb w1 w2 j b w3 S T S1 S2 W IH S3 n r L. repeat (rewrite <- app_assoc; cbn [app]). rewrite lex_members_step.
    rewrite skip_space_head by (auto; reflexivity). change (N.eqb 34 34) with true. cbn iota.
    destruct (lex_string_of k kb (w1 ++ 58%N :: w2 ++ b ++ w3 ++ 125%N :: r) T) as (ps & -> & KS).
    rewrite skip_space_head by (auto; reflexivity). change (N.eqb 58 58) with true. cbn iota.
    repeat (rewrite app_length in L; cbn [length] in L). destruct n as [|n]; [lia|]. rewrite lex_space by exact S2.
    destruct (IH n (w3 ++ 125%N :: r)) as (v & -> & SH); [lia| |].
    { intros _. apply no_more_space; [exact S3|repeat split; discriminate]. }
    rewrite skip_space_head by (auto; reflexivity). exists [(ps, v)]. split; [reflexivity|repeat constructor; assumption].
  - intros w k kb w1 w2 j b w3 l c S T S1 S2 W IH S3 E IH' n r L. repeat (rewrite <- app_assoc; cbn [app]). rewrite lex_members_step.
    rewrite skip_space_head by (auto; reflexivity). change (N.eqb 34 34) with true. cbn iota.
    destruct (lex_string_of k kb (w1 ++ 58%N :: w2 ++ b ++ w3 ++ 44%N :: c ++ 125%N :: r) T) as (ps & -> & KS).
    rewrite skip_space_head by (auto; reflexivity). change (N.eqb 58 58) with true. cbn iota.
    repeat (rewrite app_length in L; cbn [length] in L). destruct n as [|n]; [lia|]. rewrite lex_space by exact S2.
    destruct (IH n (w3 ++ 44%N :: c ++ 125%N :: r)) as (v & -> & SH); [lia| |].
    { intros _. apply no_more_space; [exact S3|repeat split; discriminate]. }
    rewrite skip_space_head by (auto; reflexivity). change (N.eqb 44 125) with false. change (N.eqb 44 44) with true. cbn iota.
    destruct (IH' n r) as (vs & -> & SHS); [lia|]. exists ((ps, v) :: vs).
    split; [reflexivity|constructor; [split; assumption|assumption]].
Qed.

(** ** What is found is written *)

(** Trees all of whose strings mean something. *)
Inductive strict : raw -> Prop :=
| sr_null : strict RNull
| sr_bool b : strict (RBool b)
| sr_num neg ds tl : strict (RNum neg ds tl)
| sr_str ps : string_of ps <> None -> strict (RStr ps)
| sr_arr l : Forall strict l -> strict (RArr l)
| sr_obj l : Forall (fun p => string_of (fst p) <> None /\ strict (snd p)) l -> strict (RObj l).

(** The text of parts of a string. *)
Inductive texts : list piece -> bytes -> Prop :=
| tx_end : texts [] []
| tx_byte x ps b : (32 <= x)%N -> x <> 34%N -> x <> 92%N -> texts ps b -> texts (PByte x :: ps) (x :: b)
| tx_char c x ps b : In (c, x) letters -> texts ps b -> texts (PChar c :: ps) (92%N :: x :: b)
| tx_hex n h ps b : hex_word n h -> (n < 65536)%N -> texts ps b -> texts (PHex n :: ps) (92%N :: 117%N :: h ++ b).

Lemma put_some {A B} (x : A) (o : option (list A * B)) l r : put x o = Some (l, r) -> exists l', o = Some (l', r) /\ l = x :: l'.
Proof. destruct o as [[l' r']|]; [|discriminate]. intros E. injection E as <- <-. exists l'. auto. Qed.

Lemma lex_str_texts_len k : forall b ps r, length b <= k -> lex_str b = Some (ps, r) -> exists c, b = c ++ 34%N :: r /\ texts ps c.
Proof.
  induction k as [|k IH]; intros b ps r L E; (destruct b as [|x b]; [discriminate|]); cbn [length] in L; [lia|].
  cbn [lex_str] in E. destruct (N.eqb_spec x 34) as [->|N34]; [injection E as <- <-; exists []; split; [reflexivity|constructor]|].
  destruct (N.eqb_spec x 92) as [->|N92].
  - destruct b as [|e b]; [discriminate|]. destruct (N.eqb_spec e 117) as [->|N117].
    + destruct b as [|h1 [|h2 [|h3 [|h4 b]]]]; try discriminate.
      destruct (hex4 h1 h2 h3 h4) as [n|] eqn:X; [|discriminate]. destruct (word_hex4 _ _ _ _ _ X) as [HW HL].
      destruct (put_some _ _ _ _ E) as (ps' & E' & ->). destruct (IH b ps' r ltac:(cbn [length] in L; lia) E') as (c & -> & T).
      exists (92%N :: 117%N :: [h1; h2; h3; h4] ++ c). split; [reflexivity|constructor; assumption].
    + destruct (short_escape e) as [c|] eqn:X; [|discriminate]. apply short_letter in X.
      destruct (put_some _ _ _ _ E) as (ps' & E' & ->). destruct (IH b ps' r ltac:(cbn [length] in L; lia) E') as (c' & -> & T).
      exists (92%N :: e :: c'). split; [reflexivity|constructor; assumption].
  - destruct (N.ltb_spec x 32) as [|GE]; [discriminate|].
    destruct (put_some _ _ _ _ E) as (ps' & E' & ->). destruct (IH b ps' r ltac:(lia) E') as (c & -> & T).
    exists (x :: c). split; [reflexivity|constructor; assumption].
Qed.

Lemma lex_str_texts b ps r : lex_str b = Some (ps, r) -> exists c, b = c ++ 34%N :: r /\ texts ps c.
Proof. exact (lex_str_texts_len (length b) b ps r (le_n _)). Qed.

Definition cont (x : N) : Prop := (128 <= x <= 191)%N.

Lemma utf8_char_bytes c : scalar c -> exists x t, utf8_char c = x :: t /\ ~ cont x /\ Forall cont t /\ (c < 128 -> x = c /\ t = [])%N.
Proof.
  intros S. unfold utf8_char, cont.
  assert (M : forall a, (128 <= 128 + a mod 64 <= 191)%N) by (intros a; pose proof (N.mod_lt a 64 ltac:(discriminate)); lia).
  destruct (N.ltb_spec c 128); [exists c, []; repeat split; auto; lia|].
  destruct (N.ltb_spec c 2048); [|destruct (N.ltb_spec c 65536)]; eexists; eexists; split; try reflexivity.
  all: split; [match goal with |- context [(?a / ?b)%N] => generalize (a / b)%N; lia end|].
  all: split; [repeat constructor; apply M|lia].
Qed.

Lemma from_utf8_char c u s : scalar c -> from_utf8 (utf8_char c ++ u) = Some s -> exists s', s = c :: s' /\ from_utf8 u = Some s'.
Proof.
  intros S. unfold from_utf8. rewrite (parts_char c u S). cbn [all_some].
  destruct (all_some (utf8_parts u)) as [s'|]; [|discriminate]. intros E. injection E as <-. exists s'. auto.
Qed.

Lemma hex_scalar n : (n < 65536)%N -> within 56320 57343 n = false -> within 55296 56319 n = false -> scalar n.
Proof. rewrite !within_no. unfold scalar. lia. Qed.

Lemma surrogate_scalar hi lo : within 55296 56319 hi = true -> within 56320 57343 lo = true ->
  scalar ((hi - 55296) * 1024 + (lo - 56320) + 65536)%N.
Proof. rewrite !within_iff. unfold scalar. lia. Qed.

(** The first piece, if it stands for a character: what follows, and its text. *)
Lemma unescape_raw ps b t z : texts ps b -> Forall cont t -> unescape ps = Some (t ++ z) ->
  exists ps' b', ps = map PByte t ++ ps' /\ b = t ++ b' /\ texts ps' b' /\ unescape ps' = Some z.
Proof.
  revert ps b. induction t as [|y t IH]; intros ps b T A U; [exists ps, b; auto|].
  inversion A as [|? ? CY A']; subst.
  assert (NC : forall c u, scalar c -> utf8_char c ++ u <> (y :: t) ++ z).
  { intros c u S F. destruct (utf8_char_bytes c S) as (x & t' & E & NX & _). rewrite E in F. injection F as F _. subst x. exact (NX CY). }
  destruct T as [|x ps b L N1 N2 T|c x ps b I T|n h ps b HW HL T]; cbn [unescape] in U.
  - discriminate.
  - destruct (unescape ps) as [u|] eqn:E; [|discriminate]. cbn in U. injection U as -> ->.
    destruct (IH ps b T A' E) as (ps' & b' & -> & -> & T' & U'). exists ps', b'. auto.
  - destruct (unescape ps) as [u|] eqn:E; [|discriminate]. injection U as U. destruct (NC c u (letter_scalar _ _ I) U).
  - destruct (within 56320 57343 n) eqn:W1; [discriminate|]. destruct (within 55296 56319 n) eqn:W2.
    + destruct ps as [|[|c|m] ps]; try discriminate. destruct (within 56320 57343 m) eqn:W3; [|discriminate].
      destruct (unescape ps) as [u|] eqn:E; [|discriminate]. injection U as U. destruct (NC _ u (surrogate_scalar _ _ W2 W3) U).
    + destruct (unescape ps) as [u|] eqn:E; [|discriminate]. injection U as U. destruct (NC n u (hex_scalar n HL W1 W2) U).
Qed.

Lemma from_utf8_cons x u s : from_utf8 (x :: u) = Some s ->
  exists c s' r, s = c :: s' /\ scalar c /\ x :: u = utf8_char c ++ r /\ from_utf8 r = Some s'.
Proof.
  intros E. destruct (parts_cases (x :: u) ltac:(discriminate)) as [(c & r & S & B & P)|(p & r & _ & _ & P)].
  - rewrite B in E. destruct (from_utf8_char c r s S E) as (s' & -> & E'). exists c, s', r. auto.
  - unfold from_utf8 in E. rewrite P in E. discriminate.
Qed.

Lemma texts_string k : forall ps b u s, length ps <= k -> texts ps b -> unescape ps = Some u -> from_utf8 u = Some s -> string_text s b.
Proof.
  induction k as [|k IH]; intros ps b u s L T U S.
  - destruct T; cbn [length] in L; try lia. injection U as <-. injection S as <-. constructor.
  - destruct T as [|x ps b LX N1 N2 T|c x ps b I T|n h ps b HW HL T]; cbn [unescape length] in U, L.
    + injection U as <-. injection S as <-. constructor.
    + destruct (unescape ps) as [u'|] eqn:E; [|discriminate]. injection U as <-.
      destruct (from_utf8_cons x u' s S) as (c & s' & r & -> & SC & EB & S').
      destruct (utf8_char_bytes c SC) as (x' & t & EC & NX & CT & LOW). rewrite EC in EB. injection EB as <- ->.
      destruct (unescape_raw ps b t r T CT E) as (ps' & b' & -> & -> & T' & U').
      rewrite app_length in L. pose proof (IH ps' b' r s' ltac:(lia) T' U' S') as ST.
      change (x :: t ++ b') with ((x :: t) ++ b'). rewrite <- EC.
      destruct (N.lt_ge_cases c 128) as [LT|GE].
      * destruct (LOW LT) as [-> _]. constructor; assumption.
      * constructor; try assumption; lia.
    + destruct (unescape ps) as [u'|] eqn:E; [|discriminate]. injection U as <-.
      destruct (from_utf8_char c u' s (letter_scalar _ _ I) S) as (s' & -> & S').
      constructor; [exact I|]. exact (IH ps b u' s' ltac:(lia) T E S').
    + destruct (within 56320 57343 n) eqn:W1; [discriminate|]. destruct (within 55296 56319 n) eqn:W2.
      * destruct ps as [|[|c|m] ps]; try discriminate. destruct (within 56320 57343 m) eqn:W3; [|discriminate].
        destruct (unescape ps) as [u'|] eqn:E; [|discriminate]. injection U as <-.
        destruct (from_utf8_char _ u' s (surrogate_scalar _ _ W2 W3) S) as (s' & -> & S').
        inversion T as [| | |m' h' ps' b' HW' HL' T' Q1 Q2]; subst. cbn [length] in L.
        apply within_iff in W2, W3. apply (st_pair _ n m); try assumption; try lia.
        exact (IH ps b' u' s' ltac:(lia) T' E S').
      * destruct (unescape ps) as [u'|] eqn:E; [|discriminate]. injection U as <-.
        destruct (from_utf8_char n u' s (hex_scalar n HL W1 W2) S) as (s' & -> & S').
        apply st_hex; [exact (hex_scalar n HL W1 W2)|exact HW|]. exact (IH ps b u' s' ltac:(lia) T E S').
Qed.

Lemma lex_str_sound b ps r s : lex_str b = Some (ps, r) -> string_of ps = Some s -> exists c, b = c ++ 34%N :: r /\ string_text s c.
Proof.
  intros E S. destruct (lex_str_texts _ _ _ E) as (c & -> & T). exists c. split; [reflexivity|].
  unfold string_of in S. destruct (unescape ps) as [u|] eqn:U; [|discriminate].
  exact (texts_string (length ps) ps c u s (le_n _) T U S).
Qed.

Lemma ident_exact w b r : ident w b = Some r -> b = w ++ r.
Proof.
  revert b. induction w as [|x w IH]; intros b E; [injection E as <-; reflexivity|].
  destruct b as [|y b]; [discriminate|]. cbn [ident] in E. destruct (N.eqb_spec x y) as [->|]; [|discriminate].
  cbn. f_equal. apply IH. exact E.
Qed.

Lemma option_map_pair {A B} (v v' : A) (o : option B) r : option_map (pair v) o = Some (v', r) -> v' = v /\ o = Some r.
Proof. destruct o; [|discriminate]. intros E. injection E as <- <-. auto. Qed.

(** The cases of [lex]. *)
Lemma lex_cases n b v r : lex (S n) b = Some (v, r) ->
  exists w x t, space w /\ b = w ++ x :: t /\ blank x = false /\
  ((x = 110%N /\ v = RNull /\ ident (lit "ull") t = Some r) \/
   (x = 116%N /\ v = RBool true /\ ident (lit "rue") t = Some r) \/
   (x = 102%N /\ v = RBool false /\ ident (lit "alse") t = Some r) \/
   (x = 45%N /\ lex_num true t = Some (v, r)) \/
   (digit_char x /\ lex_num false (x :: t) = Some (v, r)) \/
   (x = 34%N /\ exists ps, v = RStr ps /\ lex_str t = Some (ps, r)) \/
   (x = 91%N /\ exists w', v = RArr [] /\ space w' /\ t = w' ++ 93%N :: r) \/
   (x = 91%N /\ exists l y t', v = RArr l /\ skip t = y :: t' /\ y <> 93%N /\ lex_elements n t = Some (l, r)) \/
   (x = 123%N /\ exists w', v = RObj [] /\ space w' /\ t = w' ++ 125%N :: r) \/
   (x = 123%N /\ exists l y t', v = RObj l /\ skip t = y :: t' /\ y <> 125%N /\ lex_members n t = Some (l, r))).
Proof.
  intros E. cbn [lex] in E. destruct (skip_split b) as (w & S & B). destruct (skip b) as [|x t] eqn:K; [discriminate|].
  exists w, x, t. split; [exact S|]. split; [exact B|]. split; [exact (skip_head _ _ _ K)|].
  destruct (N.eqb_spec x 110) as [->|_]; [apply option_map_pair in E; tauto|].
  destruct (N.eqb_spec x 116) as [->|_]; [apply option_map_pair in E; tauto|].
  destruct (N.eqb_spec x 102) as [->|_]; [apply option_map_pair in E; tauto|].
  destruct (N.eqb_spec x 45) as [->|_]; [tauto|].
  destruct (is_digit x) eqn:D; [apply is_digit_iff in D; tauto|].
  destruct (N.eqb_spec x 34) as [->|_].
  { destruct (lex_str t) as [[ps r']|] eqn:T; [|discriminate]. injection E as <- <-. do 5 right. left. split; [reflexivity|]. exists ps. auto. }
  destruct (N.eqb_spec x 91) as [->|_].
  { destruct (skip t) as [|y t'] eqn:T; [discriminate|]. destruct (N.eqb_spec y 93) as [->|NY].
    - injection E as <- <-. destruct (skip_split t) as (w' & S' & B'). rewrite T in B'. do 6 right. left. split; [reflexivity|]. exists w'. auto.
    - destruct (lex_elements n t) as [[l r']|] eqn:EL; [|discriminate]. injection E as <- <-. do 7 right. left. split; [reflexivity|].
      exists l, y, t'. auto. }
  destruct (N.eqb_spec x 123) as [->|_]; [|discriminate].
  destruct (skip t) as [|y t'] eqn:T; [discriminate|]. destruct (N.eqb_spec y 125) as [->|NY].
  - injection E as <- <-. destruct (skip_split t) as (w' & S' & B'). rewrite T in B'. do 8 right. left. split; [reflexivity|]. exists w'. auto.
  - destruct (lex_members n t) as [[l r']|] eqn:EL; [|discriminate]. injection E as <- <-. do 9 right. split; [reflexivity|].
    exists l, y, t'. auto.
Qed.

Lemma skip_cons b x r : skip b = x :: r -> exists w, space w /\ b = w ++ x :: r.
Proof. intros E. destruct (skip_split b) as (w & S & B). exists w. rewrite E in B. auto. Qed.

Definition entry_shape (m : str * json) (p : list piece * raw) : Prop := string_of (fst p) = Some (fst m) /\ shape (snd m) (snd p).
Definition entry_strict (p : list piece * raw) : Prop := string_of (fst p) <> None /\ strict (snd p).

Lemma lex_sound n :
  (forall b v r, lex n b = Some (v, r) -> strict v ->
     exists w j c, b = w ++ c ++ r /\ space w /\ writes j c /\ shape j v) /\
  (forall b l r, lex_elements n b = Some (l, r) -> Forall strict l ->
     exists js c, b = c ++ 93%N :: r /\ elements js c /\ Forall2 shape js l) /\
  (forall b l r, lex_members n b = Some (l, r) -> Forall entry_strict l ->
     exists js c, b = c ++ 125%N :: r /\ members js c /\ Forall2 entry_shape js l).
Proof.
  induction n as [|n (IH & IHE & IHM)]; [split; [|split]; discriminate|]. split; [|split].
  - intros b v r E ST. destruct (lex_cases n b v r E) as (w & x & t & S & -> & _ & C).
    destruct C as [(-> & -> & I)|[(-> & -> & I)|[(-> & -> & I)|[(-> & I)|[(D & I)|[(-> & ps & -> & I)|
      [(-> & w' & -> & S' & ->)|[(-> & l & y & t' & -> & _ & _ & I)|[(-> & w' & -> & S' & ->)|(-> & l & y & t' & -> & _ & _ & I)]]]]]]]]].
    + apply ident_exact in I. subst t. exists w, JNull, (lit "null"). repeat split; [exact S|constructor|constructor].
    + apply ident_exact in I. subst t. exists w, (JBool true), (lit "true"). repeat split; [exact S|constructor|constructor].
    + apply ident_exact in I. subst t. exists w, (JBool false), (lit "false"). repeat split; [exact S|constructor|constructor].
    + destruct (lex_num_exact _ _ _ _ I) as (m & tl & -> & T & ->). exists w, (JNum true m tl), (45%N :: dec m ++ tl).
      split; [cbn [app]; rewrite <- app_assoc; reflexivity|]. split; [exact S|]. split; [exact (w_num true m tl T)|constructor].
    + destruct (lex_num_exact _ _ _ _ I) as (m & tl & -> & T & EQ). exists w, (JNum false m tl), (dec m ++ tl).
      split; [rewrite EQ, <- app_assoc; reflexivity|]. split; [exact S|]. split; [exact (w_num false m tl T)|constructor].
    + inversion ST as [| | |? NN| |]; subst. destruct (string_of ps) as [s|] eqn:SO; [|destruct (NN eq_refl)].
      destruct (lex_str_sound _ _ _ _ I SO) as (c & -> & T). exists w, (JStr s), (34%N :: c ++ [34%N]).
      split; [cbn [app]; rewrite <- app_assoc; reflexivity|]. split; [exact S|]. split; [constructor; exact T|constructor; exact SO].
    + exists w, (JArr []), (91%N :: w' ++ [93%N]).
      split; [cbn [app]; rewrite <- app_assoc; reflexivity|]. split; [exact S|]. split; [constructor; exact S'|constructor; constructor].
    + inversion ST as [| | | |? SL|]; subst. destruct (IHE _ _ _ I SL) as (js & c & -> & EL & SH).
      exists w, (JArr js), (91%N :: c ++ [93%N]).
      split; [cbn [app]; rewrite <- app_assoc; reflexivity|]. split; [exact S|]. split; [apply w_arr; exact EL|constructor; exact SH].
    + exists w, (JObj []), (123%N :: w' ++ [125%N]).
      split; [cbn [app]; rewrite <- app_assoc; reflexivity|]. split; [exact S|]. split; [constructor; exact S'|constructor; constructor].
    + inversion ST as [| | | | |? SL]; subst. destruct (IHM _ _ _ I SL) as (js & c & -> & EL & SH).
      exists w, (JObj js), (123%N :: c ++ [125%N]).
      split; [cbn [app]; rewrite <- app_assoc; reflexivity|]. split; [exact S|]. split; [apply w_obj; exact EL|constructor; exact SH].
  - intros b l r E ST. rewrite lex_elements_step in E. destruct (lex n b) as [[v r0]|] eqn:LV; [|discriminate].
    destruct (skip r0) as [|y r1] eqn:K; [discriminate|]. destruct (skip_cons _ _ _ K) as (w' & S' & ->).
    destruct (N.eqb_spec y 93) as [->|_]; [|destruct (N.eqb_spec y 44) as [->|_]; [|discriminate]].
    + injection E as <- <-. inversion ST; subst. destruct (IH _ _ _ LV) as (w & j & c & -> & S & W & SH); [assumption|].
      exists [j], (w ++ c ++ w'). split; [rewrite <- !app_assoc; reflexivity|]. split; [constructor; assumption|repeat constructor; exact SH].
    + destruct (put_some _ _ _ _ E) as (l' & E' & ->). inversion ST; subst.
      destruct (IH _ _ _ LV) as (w & j & c & -> & S & W & SH); [assumption|].
      destruct (IHE _ _ _ E') as (js & c' & -> & EL & SHS); [assumption|].
      exists (j :: js), (w ++ c ++ w' ++ 44%N :: c'). split; [rewrite <- !app_assoc; reflexivity|].
      split; [constructor; assumption|constructor; assumption].
  - intros b l r E ST. rewrite lex_members_step in E. destruct (skip b) as [|x t] eqn:K0; [discriminate|].
    destruct (skip_cons _ _ _ K0) as (w & S & ->). destruct (N.eqb_spec x 34) as [->|_]; [|discriminate].
    destruct (lex_str t) as [[k r0]|] eqn:LS; [|discriminate].
    destruct (skip r0) as [|z r1] eqn:K1; [discriminate|]. destruct (skip_cons _ _ _ K1) as (w1 & S1 & ->).
    destruct (N.eqb_spec z 58) as [->|_]; [|discriminate].
    destruct (lex n r1) as [[v r2]|] eqn:LV; [|discriminate].
    destruct (skip r2) as [|y r3] eqn:K3; [discriminate|]. destruct (skip_cons _ _ _ K3) as (w3 & S3 & ->).
    destruct (N.eqb_spec y 125) as [->|_]; [|destruct (N.eqb_spec y 44) as [->|_]; [|discriminate]].
    + injection E as <- <-. inversion ST as [|? ? [KN VS] _]; subst. cbn [fst snd] in KN, VS.
      destruct (string_of k) as [ks|] eqn:SO; [|destruct (KN eq_refl)].
      destruct (lex_str_sound _ _ _ _ LS SO) as (kb & -> & T).
      destruct (IH _ _ _ LV VS) as (w2 & j & c & -> & S2 & W & SH).
      exists [(ks, j)], (w ++ 34%N :: kb ++ 34%N :: w1 ++ 58%N :: w2 ++ c ++ w3).
      split; [repeat (rewrite <- app_assoc; cbn [app]); reflexivity|]. split; [constructor; assumption|].
      repeat constructor; assumption.
    + destruct (put_some _ _ _ _ E) as (l' & E' & ->). inversion ST as [|? ? [KN VS] ST']; subst. cbn [fst snd] in KN, VS.
      destruct (string_of k) as [ks|] eqn:SO; [|destruct (KN eq_refl)].
      destruct (lex_str_sound _ _ _ _ LS SO) as (kb & -> & T).
      destruct (IH _ _ _ LV VS) as (w2 & j & c & -> & S2 & W & SH).
      destruct (IHM _ _ _ E' ST') as (js & c' & -> & EL & SHS).
      exists ((ks, j) :: js), (w ++ 34%N :: kb ++ 34%N :: w1 ++ 58%N :: w2 ++ c ++ w3 ++ 44%N :: c').
      split; [repeat (rewrite <- app_assoc; cbn [app]); reflexivity|]. split; [constructor; assumption|].
      constructor; [split; assumption|assumption].
Qed.
