(** Proofs about [loose_text]: what every type requires of a text, and what is enough for a
    member that is ignored. *)

From Coq Require Import String Lia ZArith.
From Verif Require Import Base BaseFacts Utf8 RouteTrie Http Form AppSpec Json JsonSpec AppLemmas2 ReplyLemmas JsonLemmas JsonLemmas2 JsonLemmas3.
Local Open Scope list_scope.

Scheme loose_min := Minimality for loose Sort Prop
  with loose_elements_min := Minimality for loose_elements Sort Prop
  with loose_members_min := Minimality for loose_members Sort Prop.
Combined Scheme loose_mutind from loose_min, loose_elements_min, loose_members_min.

Lemma skip_head x r : blank x = false -> skip (x :: r) = x :: r.
Proof. intros B. exact (skip_space_head [] x r (Forall_nil _) B). Qed.

Lemma texts_loose ps b : texts ps b -> loose_string b.
Proof. induction 1; econstructor; eassumption. Qed.

Lemma lex_str_loose b ps r : lex_str b = Some (ps, r) -> exists c, b = c ++ 34%N :: r /\ loose_string c.
Proof. intros E. destruct (lex_str_texts _ _ _ E) as (c & -> & T). exists c. split; [reflexivity|exact (texts_loose _ _ T)]. Qed.

Lemma loose_lex_str b r : loose_string b -> exists ps, lex_str (b ++ 34%N :: r) = Some (ps, r).
Proof.
  induction 1 as [|x b L N1 N2 T (ps & IH)|c x b I T (ps & IH)|n h b HW T (ps & IH)].
  - exists []. reflexivity.
  - exists (PByte x :: ps). cbn [app lex_str]. rewrite (proj2 (N.eqb_neq x 34) N1), (proj2 (N.eqb_neq x 92) N2).
    replace (x <? 32)%N with false by (symmetry; apply N.ltb_ge; exact L). rewrite IH. reflexivity.
  - exists (PChar c :: ps). cbn [app lex_str]. change (N.eqb 92 34) with false. change (N.eqb 92 92) with true. cbn iota.
    rewrite (letter_not_u _ _ I), (proj1 (short_letter c x) I), IH. reflexivity.
  - destruct (hex4_word _ _ HW) as (x1 & x2 & x3 & x4 & -> & E). exists (PHex n :: ps).
    cbn [app lex_str]. change (N.eqb 92 34) with false. change (N.eqb 92 92) with true. change (N.eqb 117 117) with true. cbn iota.
    rewrite E, IH. reflexivity.
Qed.

(** ** Whatever is found is loose *)

Lemma lex_loose n :
  (forall b v r, lex n b = Some (v, r) -> exists w c, b = w ++ c ++ r /\ space w /\ loose c) /\
  (forall b l r, lex_elements n b = Some (l, r) -> exists c, b = c ++ 93%N :: r /\ loose_elements c) /\
  (forall b l r, lex_members n b = Some (l, r) -> exists c, b = c ++ 125%N :: r /\ loose_members c).
Proof.
  induction n as [|n (IH & IHE & IHM)]; [split; [|split]; discriminate|]. split; [|split].
  - intros b v r E. destruct (lex_cases n b v r E) as (w & x & t & S & -> & _ & C).
    destruct C as [(-> & -> & I)|[(-> & -> & I)|[(-> & -> & I)|[(-> & I)|[(D & I)|[(-> & ps & -> & I)|
      [(-> & w' & -> & S' & ->)|[(-> & l & y & t' & -> & _ & _ & I)|[(-> & w' & -> & S' & ->)|(-> & l & y & t' & -> & _ & _ & I)]]]]]]]]].
    + apply ident_exact in I. subst t. exists w, (lit "null"). repeat split; [exact S|constructor].
    + apply ident_exact in I. subst t. exists w, (lit "true"). repeat split; [exact S|constructor].
    + apply ident_exact in I. subst t. exists w, (lit "false"). repeat split; [exact S|constructor].
    + destruct (lex_num_exact _ _ _ _ I) as (m & tl & -> & T & ->). exists w, (45%N :: dec m ++ tl).
      split; [cbn [app]; rewrite <- app_assoc; reflexivity|]. split; [exact S|exact (lo_num true m tl T)].
    + destruct (lex_num_exact _ _ _ _ I) as (m & tl & -> & T & EQ). exists w, (dec m ++ tl).
      split; [rewrite EQ, <- app_assoc; reflexivity|]. split; [exact S|exact (lo_num false m tl T)].
    + destruct (lex_str_loose _ _ _ I) as (c & -> & T). exists w, (34%N :: c ++ [34%N]).
      split; [cbn [app]; rewrite <- app_assoc; reflexivity|]. split; [exact S|constructor; exact T].
    + exists w, (91%N :: w' ++ [93%N]). split; [cbn [app]; rewrite <- app_assoc; reflexivity|]. split; [exact S|constructor; exact S'].
    + destruct (IHE _ _ _ I) as (c & -> & EL). exists w, (91%N :: c ++ [93%N]).
      split; [cbn [app]; rewrite <- app_assoc; reflexivity|]. split; [exact S|apply lo_arr; exact EL].
    + exists w, (123%N :: w' ++ [125%N]). split; [cbn [app]; rewrite <- app_assoc; reflexivity|]. split; [exact S|constructor; exact S'].
    + destruct (IHM _ _ _ I) as (c & -> & EL). exists w, (123%N :: c ++ [125%N]).
      split; [cbn [app]; rewrite <- app_assoc; reflexivity|]. split; [exact S|apply lo_obj; exact EL].
  - intros b l r E. rewrite lex_elements_step in E. destruct (lex n b) as [[v r0]|] eqn:LV; [|discriminate].
    destruct (skip r0) as [|y r1] eqn:K; [discriminate|]. destruct (skip_cons _ _ _ K) as (w' & S' & ->).
    destruct (IH _ _ _ LV) as (w & c & -> & S & W).
    destruct (N.eqb_spec y 93) as [->|_]; [|destruct (N.eqb_spec y 44) as [->|_]; [|discriminate]].
    + injection E as <- <-. exists (w ++ c ++ w'). split; [rewrite <- !app_assoc; reflexivity|constructor; assumption].
    + destruct (put_some _ _ _ _ E) as (l' & E' & ->). destruct (IHE _ _ _ E') as (c' & -> & EL).
      exists (w ++ c ++ w' ++ 44%N :: c'). split; [rewrite <- !app_assoc; reflexivity|constructor; assumption].
  - intros b l r E. rewrite lex_members_step in E. destruct (skip b) as [|x t] eqn:K0; [discriminate|].
    destruct (skip_cons _ _ _ K0) as (w & S & ->). destruct (N.eqb_spec x 34) as [->|_]; [|discriminate].
    destruct (lex_str t) as [[k r0]|] eqn:LS; [|discriminate].
    destruct (skip r0) as [|z r1] eqn:K1; [discriminate|]. destruct (skip_cons _ _ _ K1) as (w1 & S1 & ->).
    destruct (N.eqb_spec z 58) as [->|_]; [|discriminate].
    destruct (lex n r1) as [[v r2]|] eqn:LV; [|discriminate].
    destruct (skip r2) as [|y r3] eqn:K3; [discriminate|]. destruct (skip_cons _ _ _ K3) as (w3 & S3 & ->).
    destruct (lex_str_loose _ _ _ LS) as (kb & -> & T). destruct (IH _ _ _ LV) as (w2 & c & -> & S2 & W).
    destruct (N.eqb_spec y 125) as [->|_]; [|destruct (N.eqb_spec y 44) as [->|_]; [|discriminate]].
    + injection E as <- <-. exists (w ++ 34%N :: kb ++ 34%N :: w1 ++ 58%N :: w2 ++ c ++ w3).
      split; [repeat (rewrite <- app_assoc; cbn [app]); reflexivity|constructor; assumption].
    + destruct (put_some _ _ _ _ E) as (l' & E' & ->). destruct (IHM _ _ _ E') as (c' & -> & EL).
      exists (w ++ 34%N :: kb ++ 34%N :: w1 ++ 58%N :: w2 ++ c ++ w3 ++ 44%N :: c').
      split; [repeat (rewrite <- app_assoc; cbn [app]); reflexivity|constructor; assumption].
Qed.

(** ** Whatever is loose is found *)

Lemma loose_opens b : loose b -> opens b.
Proof.
  intros W. destruct W; try (eexists; eexists; split; [reflexivity|repeat split; discriminate]).
  destruct neg; [eexists; eexists; split; [reflexivity|repeat split; discriminate]|].
  exact (writes_opens (JNum false n tl) _ (w_num false n tl H)).
Qed.

Lemma loose_elements_opens b : loose_elements b -> forall r, exists x r', skip (b ++ r) = x :: r' /\ N.eqb x 93 = false /\ N.eqb x 125 = false.
Proof. intros E r. destruct E; repeat rewrite <- app_assoc; eapply opens_skip; eauto using loose_opens. Qed.

Lemma loose_members_opens b : loose_members b -> forall r, exists x r', skip (b ++ r) = x :: r' /\ N.eqb x 93 = false /\ N.eqb x 125 = false.
Proof.
  intros E r. destruct E; rewrite <- app_assoc; cbn [app]; rewrite skip_space_head by (auto; reflexivity);
    eexists; eexists; split; [reflexivity|split; reflexivity|reflexivity|split; reflexivity].
Qed.

Lemma loose_lex :
  (forall b, loose b -> forall n r, 2 * length b <= n -> no_more r -> exists v, lex (S n) (b ++ r) = Some (v, r)) /\
  (forall b, loose_elements b -> forall n r, 2 * length b + 1 <= n -> exists vs, lex_elements (S n) (b ++ 93%N :: r) = Some (vs, r)) /\
  (forall b, loose_members b -> forall n r, 2 * length b + 1 <= n -> exists vs, lex_members (S n) (b ++ 125%N :: r) = Some (vs, r)).
Proof.
  apply loose_mutind.
  - intros n r _ _. exists RNull. reflexivity.
  - intros n r _ _. exists (RBool true). reflexivity.
  - intros n r _ _. exists (RBool false). reflexivity.
  - intros neg n tl T m r L S. destruct (proj1 lex_complete (JNum neg n tl) _ (w_num neg n tl T) m r L) as (v & E & _); [intros _; exact S|].
    exists v. exact E.
  - intros b T n r _ _. destruct (loose_lex_str b r T) as (ps & E). exists (RStr ps).
    cbn [app]. rewrite lex_quote. rewrite <- app_assoc. cbn [app]. rewrite E. reflexivity.
  - intros w S n r _ _. exists (RArr []).
    cbn [app]. rewrite lex_open. rewrite <- app_assoc. cbn [app]. rewrite skip_space_head by (auto; reflexivity). reflexivity.
  - intros b E IH n r L _. cbn [app]. rewrite lex_open. rewrite <- app_assoc. cbn [app].
    destruct (loose_elements_opens b E (93%N :: r)) as (x & r' & -> & -> & _).
    cbn [length] in L. rewrite app_length in L. cbn [length] in L. destruct n as [|n]; [lia|].
    destruct (IH n r) as (vs & ->); [lia|]. exists (RArr vs). reflexivity.
  - intros w S n r _ _. exists (RObj []).
    cbn [app]. rewrite lex_brace. rewrite <- app_assoc. cbn [app]. rewrite skip_space_head by (auto; reflexivity). reflexivity.
  - intros b E IH n r L _. cbn [app]. rewrite lex_brace. rewrite <- app_assoc. cbn [app].
    destruct (loose_members_opens b E (125%N :: r)) as (x & r' & -> & _ & ->).
    cbn [length] in L. rewrite app_length in L. cbn [length] in L. destruct n as [|n]; [lia|].
    destruct (IH n r) as (vs & ->); [lia|]. exists (RObj vs). reflexivity.
  - intros w b w' S W IH S' n r L. repeat rewrite <- app_assoc. rewrite lex_elements_step.
    repeat rewrite app_length in L. destruct n as [|n]; [lia|]. rewrite lex_space by exact S.
    destruct (IH n (w' ++ 93%N :: r)) as (v & ->); [lia|apply no_more_space; [exact S'|repeat split; discriminate]|].
    rewrite skip_space_head by (auto; reflexivity). exists [v]. reflexivity.
  - intros w b w' c S W IH S' E IH' n r L. repeat (rewrite <- app_assoc; cbn [app]). rewrite lex_elements_step.
    repeat (rewrite app_length in L; cbn [length] in L). destruct n as [|n]; [lia|]. rewrite lex_space by exact S.
    destruct (IH n (w' ++ 44%N :: c ++ 93%N :: r)) as (v & ->); [lia|apply no_more_space; [exact S'|repeat split; discriminate]|].
    rewrite skip_space_head by (auto; reflexivity). change (N.eqb 44 93) with false. change (N.eqb 44 44) with true. cbn iota.
    destruct (IH' n r) as (vs & ->); [lia|]. exists (v :: vs). reflexivity.
  - intros w kb w1 w2 b w3 S T S1 S2 W IH S3 n r L. repeat (rewrite <- app_assoc; cbn [app]). rewrite lex_members_step.
    rewrite skip_space_head by (auto; reflexivity). change (N.eqb 34 34) with true. cbn iota.
    destruct (loose_lex_str kb (w1 ++ 58%N :: w2 ++ b ++ w3 ++ 125%N :: r) T) as (ps & ->).
    rewrite skip_space_head by (auto; reflexivity). change (N.eqb 58 58) with true. cbn iota.
    repeat (rewrite app_length in L; cbn [length] in L). destruct n as [|n]; [lia|]. rewrite lex_space by exact S2.
    destruct (IH n (w3 ++ 125%N :: r)) as (v & ->); [lia|apply no_more_space; [exact S3|repeat split; discriminate]|].
    rewrite skip_space_head by (auto; reflexivity). exists [(ps, v)]. reflexivity.
  - intros w kb w1 w2 b w3 c S T S1 S2 W IH S3 E IH' n r L. repeat (rewrite <- app_assoc; cbn [app]). rewrite lex_members_step.
    rewrite skip_space_head by (auto; reflexivity). change (N.eqb 34 34) with true. cbn iota.
    destruct (loose_lex_str kb (w1 ++ 58%N :: w2 ++ b ++ w3 ++ 44%N :: c ++ 125%N :: r) T) as (ps & ->).
    rewrite skip_space_head by (auto; reflexivity). change (N.eqb 58 58) with true. cbn iota.
    repeat (rewrite app_length in L; cbn [length] in L). destruct n as [|n]; [lia|]. rewrite lex_space by exact S2.
    destruct (IH n (w3 ++ 44%N :: c ++ 125%N :: r)) as (v & ->); [lia|apply no_more_space; [exact S3|repeat split; discriminate]|].
    rewrite skip_space_head by (auto; reflexivity). change (N.eqb 44 125) with false. change (N.eqb 44 44) with true. cbn iota.
    destruct (IH' n r) as (vs & ->); [lia|]. exists ((ps, v) :: vs). reflexivity.
Qed.

(** A text that means something is loose. *)
Lemma string_text_loose s b : string_text s b -> loose_string b.
Proof. intros T. destruct (lex_string s b T []) as (ps & E & _). destruct (lex_str_loose _ _ _ E) as (c & Q & L).
  apply app_inj_tail in Q. destruct Q as [-> _]. exact L. Qed.

Lemma writes_loose : (forall j b, writes j b -> loose b) /\ (forall l b, elements l b -> loose_elements b) /\
  (forall l b, members l b -> loose_members b).
Proof.
  apply writes_mutind; intros; eauto using string_text_loose, lo_null, lo_true, lo_false, lo_num, lo_str, lo_arr0, lo_arr, lo_obj0, lo_obj,
    le_last, le_more, lm_last, lm_more.
Qed.

Lemma json_loose j b : json_text j b -> loose_text b.
Proof. intros (w & c & w' & S & S' & W & ->). exists w, c, w'. repeat split; try assumption. exact (proj1 writes_loose _ _ W). Qed.

Lemma dec_exact s n : s = dec n <-> numeral s n.
Proof. split; [intros ->; apply dec_numeral|]. intros H. exact (numeral_unique _ _ _ H (dec_numeral n)). Qed.

Section Loose.
  Context {F : Type}.
  Context (float_lit : bytes -> option F) (float_int : Z -> F) (zero_float : bool).
  Notation from_slice := (from_slice float_lit float_int zero_float).

  Lemma reads_loose t b v : from_slice t b = Some v -> loose_text b.
  Proof.
    unfold Json.from_slice. destruct (lex _ b) as [[x r]|] eqn:E; [|discriminate].
    destruct (skip r) as [|y r'] eqn:K; [|discriminate]. intros _.
    destruct (proj1 (lex_loose _) _ _ _ E) as (w & c & -> & S & L). exists w, c, r.
    split; [exact S|]. split; [apply skip_nil; exact K|]. split; [exact L|reflexivity].
  Qed.

  (** An object with one member that no field is for. *)
  Lemma ignored_member (fs : list (str * option (jval F) * jty F)) k kb b :
    string_text k kb -> ~ In k (map (fun f => fst (fst f)) fs) ->
    loose_text b -> from_slice (JTStruct false fs) (123%N :: 34%N :: kb ++ 34%N :: 58%N :: b ++ [125%N]) =
      from_slice (JTStruct false fs) (lit "{}").
  Proof.
    intros TK NK (w & c & w' & S & S' & L & ->).
    assert (M : lex (2 + 2 * length (123%N :: 34%N :: kb ++ 34%N :: 58%N :: (w ++ c ++ w') ++ [125%N]))
                  (123%N :: 34%N :: kb ++ 34%N :: 58%N :: (w ++ c ++ w') ++ [125%N]) =
                match lex_members (1 + 2 * length (123%N :: 34%N :: kb ++ 34%N :: 58%N :: (w ++ c ++ w') ++ [125%N]))
                        (34%N :: kb ++ 34%N :: 58%N :: (w ++ c ++ w') ++ [125%N]) with
                | Some (l, r) => Some (RObj l, r) | None => None end).
    { cbn [plus]. rewrite lex_brace. rewrite (skip_head 34%N) by reflexivity. reflexivity. }
    unfold Json.from_slice. rewrite M. clear M.
    set (n := 2 * length _). assert (LN : 2 * length c + 1 <= n).
    { unfold n. cbn [length]. repeat (rewrite app_length; cbn [length]). lia. }
    cbn [plus]. rewrite lex_members_step.
    rewrite (skip_head 34%N) by reflexivity. change (N.eqb 34 34) with true. cbn iota.
    destruct (lex_string_of k kb (58%N :: (w ++ c ++ w') ++ [125%N]) TK) as (ps & -> & KS).
    rewrite (skip_head 58%N) by reflexivity. change (N.eqb 58 58) with true. cbn iota.
    destruct n as [|n]; [lia|]. repeat rewrite <- app_assoc. rewrite lex_space by exact S.
    destruct (proj1 loose_lex c L n (w' ++ [125%N])) as (v & E); [lia|apply no_more_space; [exact S'|repeat split; discriminate]|].
    unfold bytes, str, char in *. rewrite E. rewrite skip_space_head by (auto; reflexivity). change (N.eqb 125 125) with true. cbn iota.
    cbn [skip is_empty]. change (lex (2 + 2 * length (lit "{}")) (lit "{}")) with (Some (RObj [], @nil N)). cbn [skip is_empty].
    cbn [read]. change (enter max_depth) with (Some 127). cbn iota. cbn [set_fields]. rewrite KS. cbn [andb].
    match goal with |- context [set_field k v ?rs ?ss] => assert (SF : set_field k v rs ss = Some ss) end.
    { clear - NK. induction fs as [|[[n0 df] t0] fs IH]; [reflexivity|]. cbn [map] in *. cbn [set_field].
      cbn [r_name]. rewrite (proj2 (str_eqb_neq k n0)) by (intros ->; apply NK; left; reflexivity).
      rewrite IH; [reflexivity|]. intros I. apply NK. right. exact I. }
    rewrite SF. reflexivity.
  Qed.
End Loose.
