(** The errors of numbers and values. *)

From Coq Require Import String ZArith.
From Verif Require Import Base BaseFacts Utf8 RouteTrie UrlEncoded Http Form AppSpec AppLemmas2 FormSpec FormLemmas FormLemmas2.
From Verif Require Import Adjacent AdjacentSpec ErrorSpec.
Local Open Scope string_scope.
Local Open Scope list_scope.

(** ** Numbers *)

Section Ints.
  Local Open Scope Z_scope.

  Definition pos_says (hi acc : Z) (s : str) (m : str) : Prop :=
    exists pre c post, s = pre ++ c :: post /\ all_digits pre /\ run acc pre <= hi /\
      ((~ (48 <= c <= 57)%N /\ m = int_invalid) \/ ((48 <= c <= 57)%N /\ hi < run acc (pre ++ [c]) /\ m = int_large)).

  Lemma run_cons acc c s : run acc (c :: s) = run (acc * 10 + Z.of_N (c - 48)) s.
  Proof. reflexivity. Qed.

  Lemma digit_none c : digit c = None <-> ~ (48 <= c <= 57)%N.
  Proof.
    split.
    - intros E R. assert (X : digit c = Some (Z.of_N (c - 48))) by (apply digit_spec; auto). congruence.
    - intros N. destruct (digit c) eqn:E; [|reflexivity]. apply digit_spec in E as [R _]. contradiction.
  Qed.

  Lemma digits_cons c s : (48 <= c <= 57)%N -> all_digits s -> all_digits (c :: s).
  Proof. intros R D x [<-|I]; [exact R|apply D; exact I]. Qed.

  Lemma parse_pos_says hi s : forall acc m, 0 <= acc <= hi -> parse_pos hi acc s = inr m <-> pos_says hi acc s m.
  Proof.
    induction s as [|c s IH]; intros acc m A; cbn [parse_pos].
    { split; [intros [=]|]. intros (pre & c & post & E & _). destruct pre; discriminate E. }
    destruct (digit c) as [d|] eqn:D.
    - apply digit_spec in D as [R ->].
      assert (Here : hi < acc * 10 + Z.of_N (c - 48) -> int_large = m <-> pos_says hi acc (c :: s) m).
      { intros L. split.
        - intros <-. exists [], c, s. split; [reflexivity|]. split; [intros x []|]. split; [unfold run; cbn; lia|]. right.
          split; [exact R|]. split; [|reflexivity]. cbn [app]. rewrite run_cons. unfold run. cbn. lia.
        - intros (pre & c' & post & E & Dg & L' & K). destruct pre as [|x pre].
          + injection E as <- <-. destruct K as [[N _]|(_ & _ & ->)]; [contradiction|reflexivity].
          + injection E as <- ->. rewrite run_cons in L'.
            pose proof (run_mono pre (acc * 10 + Z.of_N (c - 48)) ltac:(lia)). lia. }
      destruct (Z.ltb_spec hi (acc * 10)).
      { rewrite <- Here by lia. split; intros E; congruence. }
      destruct (Z.ltb_spec hi (acc * 10 + Z.of_N (c - 48))).
      { rewrite <- Here by lia. split; intros E; congruence. }
      rewrite IH by lia. split.
      + intros (pre & c' & post & -> & Dg & L & K). exists (c :: pre), c', post. split; [reflexivity|].
        split; [apply digits_cons; assumption|]. split; [exact L|exact K].
      + intros (pre & c' & post & E & Dg & L & K). destruct pre as [|x pre].
        * injection E as <- <-. destruct K as [[N _]|(_ & L' & _)]; [contradiction|]. cbn [app] in L'. rewrite run_cons in L'.
          unfold run in L'. cbn in L'. lia.
        * injection E as <- ->. exists pre, c', post. split; [reflexivity|]. split; [intros y I; apply Dg; right; exact I|].
          split; [exact L|exact K].
    - apply digit_none in D. split.
      + intros [= <-]. exists [], c, s. split; [reflexivity|]. split; [intros x []|]. split; [unfold run; cbn; lia|]. auto.
      + intros (pre & c' & post & E & Dg & L & K). destruct pre as [|x pre].
        * injection E as <- <-. destruct K as [[_ ->]|(N & _)]; [reflexivity|contradiction].
        * injection E as <- ->. exfalso. apply D. apply Dg. left. reflexivity.
  Qed.

  Definition neg_says (lo acc : Z) (s : str) (m : str) : Prop :=
    exists pre c post, s = pre ++ c :: post /\ all_digits pre /\ lo <= - run acc pre /\
      ((~ (48 <= c <= 57)%N /\ m = int_invalid) \/ ((48 <= c <= 57)%N /\ - run acc (pre ++ [c]) < lo /\ m = int_small)).

  Lemma parse_neg_says lo s : forall acc m, 0 <= acc <= - lo -> parse_neg lo (- acc) s = inr m <-> neg_says lo acc s m.
  Proof.
    induction s as [|c s IH]; intros acc m A; cbn [parse_neg].
    { split; [intros [=]|]. intros (pre & c & post & E & _). destruct pre; discriminate E. }
    destruct (digit c) as [d|] eqn:D.
    - apply digit_spec in D as [R ->].
      assert (Here : - (acc * 10 + Z.of_N (c - 48)) < lo -> int_small = m <-> neg_says lo acc (c :: s) m).
      { intros L. split.
        - intros <-. exists [], c, s. split; [reflexivity|]. split; [intros x []|]. split; [unfold run; cbn; lia|]. right.
          split; [exact R|]. split; [|reflexivity]. cbn [app]. rewrite run_cons. unfold run. cbn. lia.
        - intros (pre & c' & post & E & Dg & L' & K). destruct pre as [|x pre].
          + injection E as <- <-. destruct K as [[N _]|(_ & _ & ->)]; [contradiction|reflexivity].
          + injection E as <- ->. rewrite run_cons in L'.
            pose proof (run_mono pre (acc * 10 + Z.of_N (c - 48)) ltac:(lia)). lia. }
      destruct (Z.ltb_spec (- acc * 10) lo).
      { rewrite <- Here by lia. split; intros E; congruence. }
      destruct (Z.ltb_spec (- acc * 10 - Z.of_N (c - 48)) lo).
      { rewrite <- Here by lia. split; intros E; congruence. }
      replace (- acc * 10 - Z.of_N (c - 48)) with (- (acc * 10 + Z.of_N (c - 48))) by lia.
      rewrite IH by lia. split.
      + intros (pre & c' & post & -> & Dg & L & K). exists (c :: pre), c', post. split; [reflexivity|].
        split; [apply digits_cons; assumption|]. split; [exact L|exact K].
      + intros (pre & c' & post & E & Dg & L & K). destruct pre as [|x pre].
        * injection E as <- <-. destruct K as [[N _]|(_ & L' & _)]; [contradiction|]. cbn [app] in L'. rewrite run_cons in L'.
          unfold run in L'. cbn in L'. lia.
        * injection E as <- ->. exists pre, c', post. split; [reflexivity|]. split; [intros y I; apply Dg; right; exact I|].
          split; [exact L|exact K].
    - apply digit_none in D. split.
      + intros [= <-]. exists [], c, s. split; [reflexivity|]. split; [intros x []|]. split; [unfold run; cbn; lia|]. auto.
      + intros (pre & c' & post & E & Dg & L & K). destruct pre as [|x pre].
        * injection E as <- <-. destruct K as [[_ ->]|(N & _)]; [reflexivity|contradiction].
        * injection E as <- ->. exfalso. apply D. apply Dg. left. reflexivity.
  Qed.

  Lemma digits_snoc s c : all_digits (s ++ [c]) <-> all_digits s /\ (48 <= c <= 57)%N.
  Proof.
    unfold all_digits. split.
    - intros D. split; [intros x I|]; apply D; apply in_app_iff; [left; exact I|right; left; reflexivity].
    - intros [D R] x I. apply in_app_iff in I as [I|[<-|[]]]; [apply D; exact I|exact R].
  Qed.

  Lemma range_max t : 0 <= i_max t /\ forall z, 0 <= z -> in_range t z <-> z <= i_max t.
  Proof.
    unfold i_max, in_range. destruct (i_signed t).
    - pose proof (Z.pow_pos_nonneg 2 (Z.pos (i_bits t) - 1) ltac:(lia) ltac:(lia)). split; [lia|]. intros. lia.
    - pose proof (Z.pow_pos_nonneg 2 (Z.pos (i_bits t)) ltac:(lia) ltac:(lia)). split; [lia|]. intros. lia.
  Qed.

  Lemma range_min t : i_signed t = true -> 0 <= - i_min t /\ forall z, z <= 0 -> in_range t z <-> i_min t <= z.
  Proof.
    intros Sg. unfold i_min, in_range. rewrite Sg.
    pose proof (Z.pow_pos_nonneg 2 (Z.pos (i_bits t) - 1) ltac:(lia) ltac:(lia)). split; [lia|]. intros. lia.
  Qed.

  (** The two loops in the words of [ErrorSpec]. *)
  Definition loop_says (t : ity) (neg : bool) (ds : str) (m : str) : Prop :=
    exists pre c post, ds = pre ++ c :: post /\ all_digits pre /\ in_range t (number neg pre) /\
      ((~ (48 <= c <= 57)%N /\ m = int_invalid) \/
       ((48 <= c <= 57)%N /\ ~ in_range t (number neg (pre ++ [c])) /\ m = if neg then int_small else int_large)).

  Lemma pos_loop t ds m : parse_pos (i_max t) 0 ds = inr m <-> loop_says t false ds m.
  Proof.
    destruct (range_max t) as [M0 Mr]. rewrite parse_pos_says by lia. unfold pos_says, loop_says, number.
    split; intros (pre & c & post & E & Dg & L & K); exists pre, c, post; (split; [exact E|]); (split; [exact Dg|]);
      rewrite run_value in L || rewrite run_value; rewrite Mr in * by lia; (split; [exact L|]);
      (destruct K as [K|(R & B & ->)]; [left; exact K|right]); (split; [exact R|]); (split; [|reflexivity]);
      rewrite ?run_value in *; rewrite ?Mr in * by lia; lia.
  Qed.

  Lemma neg_loop t ds m : i_signed t = true -> parse_neg (i_min t) 0 ds = inr m <-> loop_says t true ds m.
  Proof.
    intros Sg. destruct (range_min t Sg) as [M0 Mr]. change 0 with (- 0) at 1. rewrite parse_neg_says by lia.
    unfold neg_says, loop_says, number.
    split; intros (pre & c & post & E & Dg & L & K); exists pre, c, post; (split; [exact E|]); (split; [exact Dg|]);
      rewrite run_value in L || rewrite run_value; rewrite Mr in * by lia; (split; [exact L|]);
      (destruct K as [K|(R & B & ->)]; [left; exact K|right]); (split; [exact R|]); (split; [|reflexivity]);
      rewrite ?run_value in *; rewrite ?Mr in * by lia; lia.
  Qed.

  Lemma loop_int t s neg ds m : sign_off t s neg ds -> loop_says t neg ds m -> int_says t s m.
  Proof.
    intros S (pre & c & post & -> & Dg & R & [[N ->]|(Rc & B & ->)]).
    - eapply is_invalid; eauto.
    - eapply is_beyond; eauto. apply digits_snoc. auto.
  Qed.

  Lemma sign_off_det t s neg neg' ds ds' : sign_off t s neg ds -> sign_off t s neg' ds' -> neg = neg' /\ ds = ds'.
  Proof.
    destruct neg, neg'; cbn.
    - intros [_ ->] [_ [= ->]]. auto.
    - intros [Sg ->] [[=]|(<- & _ & N)]. exfalso. exact (N Sg _ eq_refl).
    - intros [->|(<- & _ & N)] [Sg E]; [discriminate E|]. exfalso. exact (N Sg _ E).
    - intros [->|(<- & N & _)] [E|(E & N' & _)].
      + injection E as ->. auto.
      + exfalso. exact (N' _ eq_refl).
      + exfalso. exact (N _ E).
      + auto.
  Qed.

  Lemma int_loop t s neg ds m : sign_off t s neg ds -> ds <> [] -> int_says t s m -> loop_says t neg ds m \/ (m = int_invalid /\ exists c, s = [c] /\ (c = 43 \/ c = 45)%N).
  Proof.
    intros S Ne J. destruct J as [|c K|s neg' pre c post S' Dg R N|s neg' pre c post S' Dg R B].
    - exfalso. destruct neg; cbn in S; [destruct S as [_ E]; discriminate E|]. destruct S as [E|(E & _)]; [discriminate E|congruence].
    - right. split; [reflexivity|]. eauto.
    - left. destruct (sign_off_det _ _ _ _ _ _ S S') as [<- ->]. exists pre, c, post. auto 8.
    - left. destruct (sign_off_det _ _ _ _ _ _ S S') as [<- ->]. apply digits_snoc in Dg as [Dg Rc]. exists pre, c, post. auto 9.
  Qed.

  Lemma parse_int_says t s m : parse_int t s = inr m <-> int_says t s m.
  Proof.
    destruct s as [|c r]; cbn [parse_int].
    { split; [intros [= <-]; constructor|]. intros J. inversion J as [|x K E|x neg pre y post S|x neg pre y post S]; [reflexivity| |]; exfalso.
      - destruct neg; cbn in S; [destruct S as [_ E]; discriminate E|]. destruct S as [E|(E & _)]; [discriminate E|destruct pre; discriminate E].
      - destruct neg; cbn in S; [destruct S as [_ E]; discriminate E|]. destruct S as [E|(E & _)]; [discriminate E|destruct pre; discriminate E]. }
    destruct (((c =? 43) || (c =? 45))%N && is_empty r) eqn:Alone.
    { apply andb_true_iff in Alone as [C Em]. destruct r; [|discriminate Em].
      assert (C' : (c = 43 \/ c = 45)%N) by (apply orb_prop in C as [C|C]; apply N.eqb_eq in C; auto).
      split; [intros [= <-]; apply is_sign; exact C'|]. intros J. f_equal.
      assert (K : forall neg pre y post, sign_off t [c] neg (pre ++ y :: post) -> pre = [] /\ y = c).
      { intros neg pre y post S. destruct neg; cbn in S.
        - destruct S as [_ E]. injection E as _ E. destruct pre; discriminate E.
        - destruct S as [E|(E & _)]; [injection E as _ E; destruct pre; discriminate E|].
          destruct pre as [|z pre]; [injection E as <- _; auto|]. injection E as _ E. destruct pre; discriminate E. }
      inversion J as [|x K' E|x neg pre y post S Dg R N|x neg pre y post S Dg]; subst; [reflexivity|reflexivity|].
      apply K in S as [-> ->]. exfalso. specialize (Dg c (or_introl eq_refl)). destruct C'; subst; lia. }
    assert (Ex : forall neg ds, sign_off t (c :: r) neg ds -> ds <> [] -> loop_says t neg ds m <-> int_says t (c :: r) m).
    { intros neg ds S Ne. split; [apply loop_int; exact S|]. intros J.
      destruct (int_loop _ _ _ _ _ S Ne J) as [L|(_ & x & [= -> ->] & K)]; [exact L|]. exfalso.
      cbn [is_empty] in Alone. rewrite andb_true_r in Alone. apply orb_false_elim in Alone as [A B].
      destruct K; subst; [discriminate A|discriminate B]. }
    destruct (N.eqb_spec c 43) as [->|N1].
    { cbn [orb andb] in Alone. destruct r as [|c' r]; [discriminate Alone|].
      rewrite pos_loop. apply (Ex false); [left; reflexivity|discriminate]. }
    destruct (N.eqb_spec c 45) as [->|N2]; cbn [andb].
    - destruct (i_signed t) eqn:Sg.
      + cbn [orb andb] in Alone. destruct r as [|c' r]; [discriminate Alone|].
        rewrite neg_loop by exact Sg. apply (Ex true); [split; [exact Sg|reflexivity]|discriminate].
      + rewrite pos_loop. apply (Ex false); [|discriminate]. right. split; [reflexivity|]. split; [discriminate|congruence].
    - rewrite pos_loop. apply (Ex false); [|discriminate]. right. split; [reflexivity|]. split; intros; congruence.
  Qed.
End Ints.

(** ** Values *)

Section Values.
  Context {F : Type} (pf : bool -> str -> F + str) (msg : mismatch -> str).
  Notation value := (value F).
  Notation de := (de pf msg).
  Notation reads := (reads pf).
  Notation reads_all := (reads_all pf).
  Notation reads_each := (reads_each pf).
  Notation complains := (complains pf msg).

  (** What an element reader has to do for type [t]. *)
  Definition critic (t : vty) (d : list str -> out value * list str) : Prop :=
    forall l e i, l <> [] -> full l -> d l = (Fail e, i) -> exists m, e = FMessage m /\ complains t l m.

  Lemma each_app ts1 ts2 l vs1 m vs2 r : reads_each ts1 l vs1 m -> reads_each ts2 m vs2 r -> reads_each (ts1 ++ ts2) l (vs1 ++ vs2) r.
  Proof.
    revert l vs1. induction ts1 as [|t ts1 IH]; intros l vs1 A B; inversion A; subst; [exact B|]. cbn. econstructor; eauto.
  Qed.

  Lemma visit_vec_critic t d : calm full d -> reader pf t d -> critic t d -> forall fuel (first : bool) (l : list str) e i,
    l <> [] -> full l -> visit_vec d fuel first l = (Fail e, i) ->
    exists m n vs l', e = FMessage m /\ reads_each (repeat t n) (if first then l else tl l) vs l' /\ complains t l' m.
  Proof.
    intros C R Cr. induction fuel as [|n IH]; intros first l e i Ne Fl; [discriminate|].
    cbn [visit_vec]. pose proof (next_calm full d first l full_closed C Ne Fl) as K.
    destruct (next_element d first l) as [[[v|]|e'|p] i'].
    - destruct K as (m & E & Nm & Ed & Ni & Si).
      assert (Sm : suffix m l) by (destruct first; [subst; apply suffix_refl|destruct E as [E _]; rewrite E; apply suffix_cons, suffix_refl]).
      assert (M : (if first then l else tl l) = m) by (destruct first; [auto|destruct E as [E _]; rewrite E; reflexivity]).
      rewrite M. assert (Fm : full m) by (eapply full_closed; eauto).
      assert (Fi : full i') by (eapply full_closed; eauto).
      pose proof (R m Nm Fm) as Rm. rewrite Ed in Rm. specialize (IH false i').
      destruct (visit_vec d n false i') as [[vs|e'|p] j]; cbn; intros X; try discriminate X. injection X as -> ->.
      destruct (IH e i Ni Fi eq_refl) as (m' & k & vs & l' & -> & Re & Co).
      exists m', (S k), (v :: vs), l'. split; [reflexivity|]. split; [|exact Co]. cbn [repeat]. econstructor; eauto.
    - discriminate.
    - destruct K as ((m & E & Nm & Ed) & _).
      assert (M : (if first then l else tl l) = m) by (destruct first; [auto|destruct E as [E _]; rewrite E; reflexivity]).
      rewrite M. assert (Sm : suffix m l) by (destruct first; [subst; apply suffix_refl|destruct E as [E _]; rewrite E; apply suffix_cons, suffix_refl]).
      intros [= -> ->]. destruct (Cr m e i Nm (full_closed _ _ Sm Fl) Ed) as (m' & -> & Co).
      exists m', 0, [], m. split; [reflexivity|]. split; [constructor|exact Co].
    - discriminate.
  Qed.

  Lemma visit_tuple_critic ts : forall ds n (first : bool) (l : list str) e i, Forall (calm full) ds -> Forall2 (reader pf) ts ds ->
    Forall2 critic ts ds -> l <> [] -> full l -> visit_tuple msg ds n first l = (Fail e, i) ->
    exists m ts1 t ts2 vs l', e = FMessage m /\ ts = ts1 ++ t :: ts2 /\ reads_each ts1 (if first then l else tl l) vs l' /\
      (complains t l' m \/ l' = [] /\ m = msg (MLength (n + length ts1))).
  Proof.
    induction ts as [|t ts IH]; intros ds n first l e i Fc F2 F3 Ne Fl; inversion F2; subst; cbn [visit_tuple]; [discriminate|].
    rename y into d. rename l' into ds'. inversion Fc as [|? ? C Fc']; subst. inversion F3 as [|? ? ? ? Cr F3']; subst.
    pose proof (next_calm full d first l full_closed C Ne Fl) as K.
    destruct (next_element d first l) as [[[v|]|e'|p] i'].
    - destruct K as (m & E & Nm & Ed & Ni & Si).
      assert (Sm : suffix m l) by (destruct first; [subst; apply suffix_refl|destruct E as [E _]; rewrite E; apply suffix_cons, suffix_refl]).
      assert (M : (if first then l else tl l) = m) by (destruct first; [auto|destruct E as [E _]; rewrite E; reflexivity]).
      rewrite M. assert (Fm : full m) by (eapply full_closed; eauto).
      assert (Fi : full i') by (eapply full_closed; eauto).
      pose proof (H1 m Nm Fm) as Rm. rewrite Ed in Rm.
      specialize (IH ds' (S n) false i').
      destruct (visit_tuple msg ds' (S n) false i') as [[vs|e'|p] j]; cbn; intros X; try discriminate X. injection X as -> ->.
      destruct (IH e i Fc' H3 F3' Ni Fi eq_refl) as (m' & ts1 & t' & ts2 & vs & l' & -> & -> & Re & Co).
      exists m', (t :: ts1), t', ts2, (v :: vs), l'. split; [reflexivity|]. split; [reflexivity|]. split; [econstructor; eauto|].
      cbn [length]. rewrite Nat.add_succ_r. exact Co.
    - destruct K as (-> & L & ->). intros [= <- <-]. destruct l as [|x [|y l]]; try discriminate L. cbn [tl].
      exists (msg (MLength n)), [], t, ts, [], []. split; [reflexivity|]. split; [reflexivity|]. split; [constructor|].
      right. split; [reflexivity|]. cbn [length]. rewrite Nat.add_0_r. reflexivity.
    - destruct K as ((m & E & Nm & Ed) & _).
      assert (M : (if first then l else tl l) = m) by (destruct first; [auto|destruct E as [E _]; rewrite E; reflexivity]).
      rewrite M. assert (Sm : suffix m l) by (destruct first; [subst; apply suffix_refl|destruct E as [E _]; rewrite E; apply suffix_cons, suffix_refl]).
      intros [= -> ->]. destruct (Cr m e i Nm (full_closed _ _ Sm Fl) Ed) as (m' & -> & Co).
      exists m', [], t, ts, [], m. split; [reflexivity|]. split; [reflexivity|]. split; [constructor|]. left. exact Co.
    - discriminate.
  Qed.

  Lemma de_critic t : critic t (de t).
  Proof.
    induction t as [it| | |w| | | |t IH|t IH|t IH|ts IH|names|] using vty_ind'; intros l e i Ne Fl; cbn [Form.de];
      (destruct l as [|s l]; [congruence|]); (assert (Ns : s <> []) by (inversion Fl; assumption)).
    - cbn [from_string]. destruct (parse_int it s) as [z|m] eqn:E; intros [= <- _]. exists m. split; [reflexivity|].
      constructor. apply parse_int_says. exact E.
    - intros [= <- _]. eexists. split; [reflexivity|]. constructor.
    - cbn [from_string]. unfold parse_bool. destruct (BaseFacts.str_eqb_spec s (lit "true")) as [|N1]; [discriminate|].
      destruct (BaseFacts.str_eqb_spec s (lit "false")) as [|N2]; [discriminate|]. intros [= <- _]. eexists. split; [reflexivity|].
      constructor; assumption.
    - cbn [from_string]. destruct (pf w s) as [z|m] eqn:E; intros [= <- _]. exists m. split; [reflexivity|]. constructor. exact E.
    - destruct s; [congruence|discriminate].
    - discriminate.
    - destruct s; [congruence|discriminate].
    - destruct s as [|c s]; [congruence|]. cbn beta iota. specialize (IH (((c :: s) : str) :: l)). destruct (de t (((c :: s) : str) :: l)) as [[v|e'|p] j]; cbn; intros X; try discriminate X.
      injection X as -> ->. destruct (IH e i Ne Fl eq_refl) as (m & -> & Co). exists m. split; [reflexivity|]. constructor. exact Co.
    - specialize (IH (s :: l)). destruct (de t (s :: l)) as [[v|e'|p] j]; cbn; intros X; try discriminate X.
      injection X as -> ->. destruct (IH e i Ne Fl eq_refl) as (m & -> & Co). exists m. split; [reflexivity|]. constructor. exact Co.
    - pose proof (visit_vec_critic t (de t) (de_calm pf msg t) (de_reader pf msg t) IH (S (S (length (s :: l)))) true (s :: l)) as K.
      destruct (visit_vec _ _ _ _) as [[v|e'|p] j]; cbn [omap]; intros X; try discriminate X. injection X as -> ->.
      destruct (K e i Ne Fl eq_refl) as (m & n & vs & l' & -> & Re & Co). exists m. split; [reflexivity|]. econstructor; eauto.
    - pose proof (visit_tuple_critic ts (map de ts) 0 true (s :: l)) as K.
      assert (F1 : Forall (calm full) (map de ts)) by (apply Forall_map, Forall_forall; intros; apply de_calm).
      assert (F2 : Forall2 (reader pf) ts (map de ts)).
      { clear. induction ts; constructor; [apply de_reader|assumption]. }
      assert (F3 : Forall2 critic ts (map de ts)) by (clear -IH; induction IH; constructor; auto).
      destruct (visit_tuple _ _ _ _ _) as [[v|e'|p] j]; cbn [omap]; intros X; try discriminate X. injection X as -> ->.
      destruct (K e i F1 F2 F3 Ne Fl eq_refl) as (m & ts1 & t & ts2 & vs & l' & -> & -> & Re & [Co|[-> ->]]); exists m || eexists; (split; [reflexivity|]).
      + eapply co_tuple; eauto.
      + apply (co_short pf msg ts1 t ts2 (s :: l) vs); [discriminate|exact Re].
    - intros [= <- _]. eexists. split; [reflexivity|]. constructor.
    - intros [= <- _]. eexists. split; [reflexivity|]. constructor.
  Qed.

  (** There is one complaint, and only if nothing is read. *)
  Lemma complains_nonempty t l m : complains t l m -> l <> [].
  Proof.
    induction 1; try discriminate; auto.
    - intros ->. destruct n as [|n]; inversion H; subst; [congruence|]. eapply reads_nonempty; eauto.
    - intros ->. inversion H; subst; [congruence|]. eapply reads_nonempty; eauto.
  Qed.

  Lemma each_det ts l vs r : reads_each ts l vs r -> forall vs' r', reads_each ts l vs' r' -> vs = vs' /\ r = r'.
  Proof.
    induction 1 as [|t ts l v m vs r R1 R2 IH]; intros vs' r' R; inversion R as [|? ? ? ? ? ? ? A B]; subst; [auto|].
    destruct (reads_det pf _ _ _ _ R1 _ _ A) as [<- <-]. destruct (IH _ _ B) as [<- <-]. auto.
  Qed.

  Lemma each_split ts1 ts2 l vs r : reads_each (ts1 ++ ts2) l vs r ->
    exists vs1 m vs2, reads_each ts1 l vs1 m /\ reads_each ts2 m vs2 r.
  Proof.
    revert l vs. induction ts1 as [|t ts1 IH]; intros l vs R; [exists [], l, vs; split; [constructor|exact R]|].
    cbn in R. inversion R as [|? ? ? ? ? ? ? A B]; subst. destruct (IH _ _ B) as (vs1 & m' & vs2 & C & D).
    exists (v :: vs1), m', vs2. split; [econstructor; eauto|exact D].
  Qed.

  Lemma all_each t l vs : reads_all t l vs -> reads_each (repeat t (length vs)) l vs [].
  Proof. induction 1; cbn; econstructor; eauto. Qed.

  Lemma repeat_add {A} (x : A) a b : repeat x (a + b) = repeat x a ++ repeat x b.
  Proof. induction a; cbn; congruence. Qed.

  (** Reading some of the texts and then complaining excludes reading further. *)
  Lemma stuck ts1 t ts2 l vs l' : reads_each ts1 l vs l' -> (forall v r, ~ reads t l' v r) ->
    forall vs' r, ~ reads_each (ts1 ++ t :: ts2) l vs' r.
  Proof.
    intros A N vs' r R. apply each_split in R as (vs1 & m & vs2 & B & C). destruct (each_det _ _ _ _ A _ _ B) as [<- <-].
    inversion C; subst. eapply N; eauto.
  Qed.

  Lemma reads_nil t v r : ~ reads t [] v r.
  Proof. intros R. apply reads_nonempty in R. congruence. Qed.

  Lemma complains_reads t l m : complains t l m -> forall v r, ~ reads t l v r.
  Proof.
    induction 1 as [it s r m I|s r|s r N1 N2|w s r m E|t l m C IH|t l m C IH|t n l vs l' m R C IH|ts1 t ts2 l vs l' m R C IH|ts1 t ts2 l vs Nl R|names s r|s r];
      intros v r' Rd.
    - inversion Rd as [? ? ? ? Sc| | | | |]; subst. inversion Sc; subst.
      match goal with H : int_text _ _ _ |- _ => apply parse_int_spec in H end. apply parse_int_says in I. congruence.
    - inversion Rd as [? ? ? ? Sc| | | | |]; subst. inversion Sc.
    - inversion Rd as [? ? ? ? Sc| | | | |]; subst. inversion Sc; subst; congruence.
    - inversion Rd as [? ? ? ? Sc| | | | |]; subst. inversion Sc; subst; congruence.
    - inversion Rd as [? ? ? ? Sc| ? ? ? ? R2| | | |]; subst; [inversion Sc|]. eapply IH; eauto.
    - inversion Rd as [? ? ? ? Sc| | ? ? ? ? R2| | |]; subst; [inversion Sc|]. eapply IH; eauto.
    - inversion Rd as [? ? ? ? Sc| | | ? ? vs' Ne Ra| |]; subst; [inversion Sc|]. apply all_each in Ra.
      pose proof (complains_nonempty _ _ _ C) as Nl. destruct (Nat.lt_ge_cases n (length vs')) as [L|L].
      + replace (length vs') with (n + S (length vs' - S n)) in Ra by lia. rewrite repeat_add in Ra. cbn [repeat] in Ra.
        exact (stuck _ _ _ _ _ _ R IH _ _ Ra).
      + replace n with (length vs' + (n - length vs')) in R by lia. rewrite repeat_add in R.
        apply each_split in R as (vs1 & k & vs2 & A & B). destruct (each_det _ _ _ _ A _ _ Ra) as [-> ->].
        destruct (n - length vs'); inversion B; subst; [congruence|]. eapply reads_nil; eauto.
    - inversion Rd as [? ? ? ? Sc| | | |t0 ts0 l0 vs' r0 Re|]; subst; [inversion Sc| |].
      + match goal with H : _ :: _ = _ |- _ => rewrite H in Re end. exact (stuck _ _ _ _ _ _ R IH _ _ Re).
      + destruct ts1; discriminate.
    - inversion Rd as [? ? ? ? Sc| | | |t0 ts0 l0 vs' r0 Re|]; subst; [inversion Sc| |].
      + match goal with H : _ :: _ = _ |- _ => rewrite H in Re end. exact (stuck _ _ _ _ _ _ R (reads_nil t) _ _ Re).
      + destruct ts1; discriminate.
    - inversion Rd as [? ? ? ? Sc| | | | |]; subst. inversion Sc.
    - inversion Rd as [? ? ? ? Sc| | | | |]; subst. inversion Sc.
  Qed.

  (** The two ways to get stuck in a list of components, one after the other. *)
  Lemma same_split ts1 t ts2 ts1' t' ts2' l vs l' vs' l'' :
    ts1 ++ t :: ts2 = ts1' ++ t' :: ts2' -> reads_each ts1 l vs l' -> reads_each ts1' l vs' l'' ->
    (forall v r, ~ reads t l' v r) -> (forall v r, ~ reads t' l'' v r) -> ts1 = ts1' /\ t = t' /\ l' = l''.
  Proof.
    intros E A B N N'. destruct (Nat.lt_trichotomy (length ts1) (length ts1')) as [L|[L|L]].
    - exfalso. assert (exists x, ts1' = ts1 ++ t :: x) as [x ->].
      { clear -E L. revert ts1' E L. induction ts1 as [|a ts1 IH]; intros [|b ts1'] E L; cbn in *; try lia.
        - injection E as -> _. exists ts1'. reflexivity.
        - injection E as -> E. destruct (IH _ E ltac:(lia)) as [x ->]. exists x. reflexivity. }
      exact (stuck _ _ _ _ _ _ A N _ _ B).
    - assert (ts1 = ts1' /\ t = t') as [-> ->].
      { clear -E L. revert ts1' E L. induction ts1 as [|a ts1 IH]; intros [|b ts1'] E L; cbn in *; try lia.
        - injection E as -> _. auto.
        - injection E as -> E. destruct (IH _ E ltac:(lia)) as [-> ->]. auto. }
      destruct (each_det _ _ _ _ A _ _ B) as [_ ->]. auto.
    - exfalso. assert (exists x, ts1 = ts1' ++ t' :: x) as [x ->].
      { symmetry in E. clear -E L. revert ts1 E L. induction ts1' as [|a ts1' IH]; intros [|b ts1] E L; cbn in *; try lia.
        - injection E as -> _. exists ts1. reflexivity.
        - injection E as -> E. destruct (IH _ E ltac:(lia)) as [x ->]. exists x. reflexivity. }
      exact (stuck _ _ _ _ _ _ B N' _ _ A).
  Qed.

  Lemma complains_det t l m : complains t l m -> forall m', complains t l m' -> m = m'.
  Proof.
    induction 1 as [it s r m I|s r|s r N1 N2|w s r m E|t l m C IH|t l m C IH|t n l vs l' m R C IH|ts1 t ts2 l vs l' m R C IH|ts1 t ts2 l vs Nl R|names s r|s r];
      intros m2 C2.
    - inversion C2; subst. apply parse_int_says in I. match goal with H : int_says _ _ _ |- _ => apply parse_int_says in H end. congruence.
    - inversion C2; reflexivity.
    - inversion C2; reflexivity.
    - inversion C2; congruence.
    - inversion C2; subst. auto.
    - inversion C2; subst. auto.
    - inversion C2 as [| | | | | |t0 n0 l0 vs0 l0' m0 R0 C0| | | |]; subst.
      pose proof (complains_reads _ _ _ C) as X1. pose proof (complains_reads _ _ _ C0) as X2.
      set (big := n + n0). assert (Sp : repeat t n ++ t :: repeat t (big - n) = repeat t n0 ++ t :: repeat t (big - n0)).
      { change (t :: repeat t (big - n)) with (repeat t (S (big - n))). change (t :: repeat t (big - n0)) with (repeat t (S (big - n0))).
        rewrite <- !repeat_add. f_equal. unfold big. lia. }
      destruct (same_split _ _ _ _ _ _ _ _ _ _ _ Sp R R0 X1 X2) as (_ & _ & <-). auto.
    - pose proof (complains_reads _ _ _ C) as X1.
      inversion C2 as [| | | | | | |ts1' t' ts2' l0 vs0 l0' m0 R0 C0 E|ts1' t' ts2' l0 vs0 Nl R0 E| |]; subst.
      + pose proof (complains_reads _ _ _ C0) as X2. symmetry in E.
        destruct (same_split _ _ _ _ _ _ _ _ _ _ _ E R R0 X1 X2) as (_ & <- & <-). auto.
      + symmetry in E. destruct (same_split _ _ _ _ _ _ _ _ _ _ _ E R R0 X1 (reads_nil t')) as (_ & _ & ->).
        exfalso. exact (complains_nonempty _ _ _ C eq_refl).
    - inversion C2 as [| | | | | | |ts1' t' ts2' l0 vs0 l0' m0 R0 C0 E|ts1' t' ts2' l0 vs0 Nl' R0 E| |]; subst.
      + pose proof (complains_reads _ _ _ C0) as X2. symmetry in E.
        destruct (same_split _ _ _ _ _ _ _ _ _ _ _ E R R0 (reads_nil t) X2) as (_ & _ & <-).
        exfalso. exact (complains_nonempty _ _ _ C0 eq_refl).
      + symmetry in E. destruct (same_split _ _ _ _ _ _ _ _ _ _ _ E R R0 (reads_nil t) (reads_nil t')) as (<- & _). reflexivity.
    - inversion C2; reflexivity.
    - inversion C2; reflexivity.
  Qed.

  Lemma de_complains t l m : full l -> fst (de t l) = Fail (FMessage m) /\ l <> [] <-> complains t l m.
  Proof.
    intros Fl. split.
    - intros [E Ne]. destruct (de t l) as [o i] eqn:D. cbn in E. subst o.
      destruct (de_critic t l _ i Ne Fl D) as (m' & [= <-] & C). exact C.
    - intros C. pose proof (complains_nonempty _ _ _ C) as Ne. split; [|exact Ne].
      pose proof (de_calm pf msg t l Ne Fl) as Ca. pose proof (de_reader pf msg t l Ne Fl) as R.
      destruct (de t l) as [[v|e|p] i] eqn:D; [|cbn|contradiction].
      + exfalso. eapply complains_reads; eauto.
      + destruct (de_critic t l e i Ne Fl D) as (m' & -> & C'). rewrite (complains_det _ _ _ C _ C'). reflexivity.
  Qed.

  Lemma de_content_says t s m : de_content (F:=F) msg t s = Fail (FMessage m) <-> unparsed_says msg t s m.
  Proof.
    induction t; cbn [de_content];
      try (split; [intros [= <-]; first [apply us_int128|apply us_string; exact I]|intros U; inversion U; subst; try contradiction; reflexivity]; fail).
    - destruct s as [|c [|c' s]]; (split; [intros E|intros U]); try discriminate E; try injection E as <-; try (apply us_char; intros x Ex; discriminate Ex).
      + inversion U; subst; [reflexivity|contradiction].
      + inversion U as [|? N| | | |? ? N]; subst; [exfalso; exact (N c eq_refl)|contradiction].
      + inversion U; subst; [reflexivity|contradiction].
    - destruct (de_content msg t s) as [v|e|p] eqn:D; cbn [omap]; (split; [intros E|intros U]); try discriminate E.
      + inversion U as [| | |? ? ? U'| |]; subst; [apply IHt in U'; discriminate U'|contradiction].
      + injection E as ->. constructor. apply IHt. reflexivity.
      + inversion U as [| | |? ? ? U'| |]; subst; [apply IHt in U'; congruence|contradiction].
      + inversion U as [| | |? ? ? U'| |]; subst; [apply IHt in U'; discriminate U'|contradiction].
    - destruct (de_content msg t s) as [v|e|p] eqn:D; cbn [omap]; (split; [intros E|intros U]); try discriminate E.
      + inversion U as [| | | |? ? ? U'|]; subst; [apply IHt in U'; discriminate U'|contradiction].
      + injection E as ->. constructor. apply IHt. reflexivity.
      + inversion U as [| | | |? ? ? U'|]; subst; [apply IHt in U'; congruence|contradiction].
      + inversion U as [| | | |? ? ? U'|]; subst; [apply IHt in U'; discriminate U'|contradiction].
    - assert (X : existsb (str_eqb s) names = true <-> In s names).
      { rewrite existsb_exists. split; [intros (x & I & E); apply str_eqb_eq in E; subst; exact I|].
        intros I. exists s. split; [exact I|apply str_eqb_refl]. }
      destruct (existsb (str_eqb s) names); (split; [intros E|intros U]); try discriminate E.
      + inversion U as [| |? ? N| | |]; subst; [exfalso; apply N, X; reflexivity|contradiction].
      + injection E as <-. apply us_enum. intros I. apply X in I. discriminate I.
      + inversion U; subst; [reflexivity|contradiction].
  Qed.

  Lemma de_content_fails t s e : de_content (F:=F) msg t s = Fail e -> exists m, e = FMessage m.
  Proof.
    induction t; cbn [de_content]; try (intros [= <-]; eauto; fail); try discriminate.
    - destruct s as [|c [|c' s]]; try discriminate; intros [= <-]; eauto.
    - destruct (de_content msg t s); cbn; intros X; try discriminate X. injection X as ->. auto.
    - destruct (de_content msg t s); cbn; intros X; try discriminate X. injection X as ->. auto.
    - destruct (existsb _ _); [discriminate|]. intros [= <-]. eauto.
  Qed.
End Values.
