(** Proofs about reading documents: [read] gives the value that [fits] describes. *)

From Coq Require Import String Lia ZArith.
From Verif Require Import Base BaseFacts Utf8 Utf8Facts RouteTrie Http Form AppSpec Json JsonSpec JsonLemmas JsonLemmas2 JsonLemmas3.
Local Open Scope list_scope.

Arguments members_named {A} k l : simpl never.

(** ** Induction *)

Section JsonInd.
  Variable P : json -> Prop.
  Hypothesis (HN : P JNull) (HB : forall b, P (JBool b)) (HM : forall neg n tl, P (JNum neg n tl)) (HS : forall s, P (JStr s)).
  Hypothesis (HA : forall l, Forall P l -> P (JArr l)) (HO : forall l, Forall (fun m => P (snd m)) l -> P (JObj l)).
  Fixpoint json_ind' (j : json) : P j :=
    match j with
    | JNull => HN | JBool b => HB b | JNum neg n tl => HM neg n tl | JStr s => HS s
    | JArr l => HA l ((fix go l := match l return Forall P l with [] => Forall_nil _ | x :: r => Forall_cons x (json_ind' x) (go r) end) l)
    | JObj l => HO l ((fix go l := match l return Forall (fun m : str * json => P (snd m)) l with
                                   | [] => Forall_nil _
                                   | x :: r => @Forall_cons _ (fun m : str * json => P (snd m)) x r (json_ind' (snd x)) (go r) end) l)
    end.
End JsonInd.

(** ** Maps *)

Lemma named_app {A} k (l l' : list (str * A)) : members_named k (l ++ l') = members_named k l ++ members_named k l'.
Proof. unfold members_named. rewrite filter_app, map_app. reflexivity. Qed.

Lemma named_one {A} k k' (x : A) : members_named k [(k', x)] = if str_eqb k' k then [x] else [].
Proof. unfold members_named. cbn. destruct (str_eqb k' k); reflexivity. Qed.

Lemma named_none {A} k (l : list (str * A)) : members_named k l = [] <-> ~ In k (map fst l).
Proof.
  unfold members_named. induction l as [|[k' x] l IH]; [cbn; tauto|]. cbn [filter map fst].
  destruct (str_eqb_spec k' k) as [->|N]; cbn [map].
  - split; [discriminate|]. intros NI. destruct NI. left. reflexivity.
  - rewrite IH. cbn [In]. intuition.
Qed.

Definition insert_all {B} (kys : list (str * B)) (acc : list (str * B)) : list (str * B) :=
  fold_left (fun acc m => ainsert str_eqb (fst m) (snd m) acc) kys acc.

Lemma ainsert_keys {B} k (y : B) acc : forall k', In k' (map fst (ainsert str_eqb k y acc)) <-> k' = k \/ In k' (map fst acc).
Proof.
  induction acc as [|[k0 y0] acc IH]; intros k'; cbn [ainsert map fst In]; [intuition|].
  destruct (str_eqb_spec k k0) as [->|N]; cbn [map fst In]; [intuition|]. rewrite IH. intuition.
Qed.

Lemma ainsert_nodup {B} k (y : B) acc : NoDup (map fst acc) -> NoDup (map fst (ainsert str_eqb k y acc)).
Proof.
  induction acc as [|[k0 y0] acc IH]; intros D; cbn [ainsert map fst]; [repeat constructor; intros []|].
  cbn [map fst] in D. inversion D as [|? ? NI D']; subst.
  destruct (str_eqb_spec k k0) as [->|N]; cbn [map fst]; constructor; auto.
  intros I. apply ainsert_keys in I. destruct I as [->|I]; [destruct (N eq_refl)|exact (NI I)].
Qed.

Lemma ainsert_in {B} k (y : B) acc k' y' : NoDup (map fst acc) -> In (k', y') (ainsert str_eqb k y acc) ->
  (k' = k /\ y' = y) \/ (k' <> k /\ In (k', y') acc).
Proof.
  induction acc as [|[k0 y0] acc IH]; cbn [ainsert map fst]; intros D I.
  - destruct I as [E|[]]. injection E as <- <-. auto.
  - inversion D as [|? ? NI D']; subst. destruct (str_eqb_spec k k0) as [->|N].
    + destruct I as [E|I]; [injection E as <- <-; auto|]. right. split; [|right; exact I].
      intros ->. apply NI. apply in_map_iff. exists (k0, y'). auto.
    + destruct I as [E|I]; [injection E as <- <-; right; split; [congruence|left; reflexivity]|].
      destruct (IH D' I) as [?|[? ?]]; [auto|right; split; [assumption|right; assumption]].
Qed.

Lemma insert_all_holds {B} (kys : list (str * B)) : holds_last eq kys (insert_all kys []).
Proof.
  unfold holds_last. induction kys as [|[k y] kys (D & K & L)] using rev_ind.
  - split; [constructor|]. split; [intros k; reflexivity|]. intros k y [].
  - unfold insert_all in *. rewrite fold_left_app. cbn [fold_left fst snd].
    set (acc := fold_left (fun acc m => ainsert str_eqb (fst m) (snd m) acc) kys []) in *.
    split; [apply ainsert_nodup; exact D|]. split.
    + intros k'. rewrite ainsert_keys, map_app, in_app_iff, K. cbn [map fst In]. intuition.
    + intros k' y' I. destruct (ainsert_in _ _ _ _ _ D I) as [[-> ->]|[N I']].
      * exists y. split; [|reflexivity]. exists (members_named k kys). rewrite named_app, named_one, str_eqb_refl. reflexivity.
      * destruct (L k' y' I') as (x & (l0 & E) & ->). exists y'. split; [|reflexivity]. exists l0.
        rewrite named_app, named_one, (proj2 (str_eqb_neq k k') (fun E => N (eq_sym E))), app_nil_r. exact E.
Qed.

Lemma insert_all_distinct {B} (kys acc : list (str * B)) : NoDup (map fst (acc ++ kys)) -> insert_all kys acc = acc ++ kys.
Proof.
  revert acc. induction kys as [|[k y] kys IH]; intros acc D; [rewrite app_nil_r; reflexivity|].
  unfold insert_all in *. cbn [fold_left fst snd].
  assert (E : ainsert str_eqb k y acc = acc ++ [(k, y)]).
  { rewrite map_app in D. cbn [map fst] in D. apply NoDup_remove_2 in D.
    assert (NI : ~ In k (map fst acc)) by (intros I; apply D, in_or_app; auto). clear - NI.
    induction acc as [|[k0 y0] acc IH]; [reflexivity|]. cbn [ainsert app]. cbn [map fst In] in NI.
    rewrite (proj2 (str_eqb_neq k k0)) by intuition. f_equal. apply IH. intuition. }
  rewrite E, IH; rewrite <- app_assoc; [reflexivity|exact D].
Qed.

Lemma all_read_some {A B} (f : A -> option B) l ys : all_read f l = Some ys <-> Forall2 (fun x y => f x = Some y) l ys.
Proof.
  revert ys. induction l as [|x l IH]; intros ys; cbn [all_read].
  - split; [intros E; injection E as <-; constructor|intros E; inversion E; reflexivity].
  - destruct (f x) as [y|] eqn:E.
    + change ((fix go (l0 : list A) : option (list B) := match l0 with
             | [] => Some [] | x0 :: r => match f x0 with Some y0 => option_map (cons y0) (go r) | None => None end end) l) with (all_read f l).
      split.
      * destruct (all_read f l) as [ys'|]; [|discriminate]. intros Q. injection Q as <-. constructor; [exact E|]. apply IH. reflexivity.
      * intros Q. inversion Q as [|? y' ? ys' E' Q']; subst. rewrite (proj2 (IH ys') Q'). cbn. congruence.
    + split; [discriminate|]. intros Q. inversion Q; subst. congruence.
Qed.

Lemma read_map_some {A} (rd : raw -> option A) l : forall acc m, read_map rd l acc = Some m <->
  exists ks ys, Forall2 (fun p k => string_of (fst p) = Some k) l ks /\ Forall2 (fun p y => rd (snd p) = Some y) l ys /\
    m = insert_all (combine ks ys) acc.
Proof.
  induction l as [|[k x] l IH]; intros acc m.
  - cbn [read_map]. split.
    + intros E. injection E as <-. exists [], []. repeat split; constructor.
    + intros (ks & ys & K & Y & ->). inversion K; inversion Y; subst. reflexivity.
  - change (read_map rd ((k, x) :: l) acc) with
      (match string_of k with Some k' => match rd x with Some y => read_map rd l (ainsert str_eqb k' y acc) | None => None end | None => None end).
    destruct (string_of k) as [k'|] eqn:EK.
    2: { split; [discriminate|]. intros (ks & ys & K & _). inversion K; subst. cbn in *. congruence. }
    destruct (rd x) as [y|] eqn:EY.
    2: { split; [discriminate|]. intros (ks & ys & _ & Y & _). inversion Y; subst. cbn in *. congruence. }
    rewrite IH. split.
    + intros (ks & ys & K & Y & ->). exists (k' :: ks), (y :: ys). repeat split; [constructor; assumption|constructor; assumption].
    + intros (ks & ys & K & Y & ->). inversion K as [|? k0 ? ks0 K1 K2]; inversion Y as [|? y0 ? ys0 Y1 Y2]; subst. cbn [fst snd] in *.
      exists ks0, ys0. repeat split; [exact K2|exact Y2|]. cbn [combine]. unfold insert_all. cbn [fold_left fst snd]. congruence.
Qed.

Lemma keys_unique (l : list (list piece * raw)) js ks : Forall2 entry_shape js l -> Forall2 (fun p k => string_of (fst p) = Some k) l ks -> ks = map fst js.
Proof.
  intros S. revert ks. induction S as [|m p js l [K _] S IH]; intros ks F; inversion F; subst; [reflexivity|].
  cbn [map]. f_equal; [congruence|]. apply IH. assumption.
Qed.

Lemma keys_read (l : list (list piece * raw)) js : Forall2 entry_shape js l -> Forall2 (fun p k => string_of (fst p) = Some k) l (map fst js).
Proof. induction 1 as [|m p js l [K _] S IH]; cbn [map]; constructor; assumption. Qed.

(** ** Depth *)

Lemma enter_some d d' : enter d = Some d' -> d = S d' /\ 0 < d'.
Proof. destruct d as [|[|d]]; try discriminate. intros E. injection E as <-. split; [reflexivity|lia]. Qed.

Lemma enter_ok d : 1 < d -> enter d = Some (pred d).
Proof. destruct d as [|[|d]]; intros L; [lia|lia|reflexivity]. Qed.

Lemma depth_elem l j : In j l -> depth j < depth (JArr l).
Proof.
  cbn [depth]. intros I. apply le_n_S. induction l as [|x l IH]; [destruct I|]. cbn [fold_right].
  destruct I as [->|I]; [lia|]. specialize (IH I). lia.
Qed.

Lemma depth_member l m : In m l -> depth (snd m) < depth (JObj l).
Proof.
  cbn [depth]. intros I. apply le_n_S. induction l as [|x l IH]; [destruct I|]. cbn [fold_right].
  destruct I as [->|I]; [lia|]. specialize (IH I). lia.
Qed.

Section Reading.
  Context {F : Type}.
  Context (float_lit : bytes -> option F) (zero_float : bool).
  Notation num := (num F). Notation doc := (doc F). Notation jval := (jval F). Notation jty := (jty F).
  Notation number := (number float_lit zero_float).
  Notation denotes := (denotes float_lit zero_float).
  Notation doc_of := (doc_of float_lit zero_float).
  Notation doc_fits := (doc_fits float_lit zero_float).

  (** ** Numbers *)

  Lemma number_denotes neg n tl x : number neg (dec n) tl = Some x <-> denotes neg n tl x.
  Proof.
    unfold Json.number. destruct (dec_digits n) as (_ & _ & -> & _).
    destruct tl as [|y tl]; cbn [is_empty].
    - rewrite app_nil_r. destruct neg; cbn [app].
      + destruct (N.eqb_spec n 0) as [->|NZ]; cbn [andb].
        * destruct zero_float eqn:Z; split.
          -- change (dec 0) with (lit "0"). change (45%N :: lit "0") with (lit "-0").
             destruct (float_lit (lit "-0")) eqn:E; [|discriminate]. intros Q. injection Q as <-. apply den_zero_float; [reflexivity|assumption].
          -- intros D. inversion D; subst; try lia; try congruence; try (match goal with H : [] <> [] |- _ => destruct (H eq_refl) end). change (45%N :: dec 0) with (lit "-0").
             match goal with H : float_lit _ = Some _ |- _ => exact (f_equal (option_map NFloat) H) end.
          -- intros Q. injection Q as <-. apply den_zero; reflexivity.
          -- intros D. inversion D; subst; try lia; try congruence; try (match goal with H : [] <> [] |- _ => destruct (H eq_refl) end). reflexivity.
        * destruct (N.leb_spec n (2 ^ 63)) as [LE|GT]; split.
          -- intros Q. injection Q as <-. constructor. lia.
          -- intros D. inversion D; subst; try lia; try congruence; try (match goal with H : [] <> [] |- _ => destruct (H eq_refl) end).
          -- destruct (float_lit (45%N :: dec n)) eqn:E; [|discriminate]. intros Q. injection Q as <-. apply den_small; assumption.
          -- intros D. inversion D; subst; try lia; try congruence; try (match goal with H : [] <> [] |- _ => destruct (H eq_refl) end).
             match goal with H : float_lit _ = Some _ |- _ => exact (f_equal (option_map NFloat) H) end.
      + destruct (N.ltb_spec n (2 ^ 64)) as [LT|GE]; split.
        * intros Q. injection Q as <-. constructor. exact LT.
        * intros D. inversion D; subst; try lia; try congruence; try (match goal with H : [] <> [] |- _ => destruct (H eq_refl) end).
        * destruct (float_lit (dec n)) eqn:E; [|discriminate]. intros Q. injection Q as <-. apply den_large; assumption.
        * intros D. inversion D; subst; try lia; try congruence; try (match goal with H : [] <> [] |- _ => destruct (H eq_refl) end).
          match goal with H : float_lit _ = Some _ |- _ => exact (f_equal (option_map NFloat) H) end.
    - split.
      + destruct (float_lit _) eqn:E; [|discriminate]. intros Q. injection Q as <-. apply den_float; [discriminate|exact E].
      + intros D. inversion D; subst; try congruence. match goal with H : float_lit _ = Some _ |- _ => exact (f_equal (option_map NFloat) H) end.
  Qed.

  (** ** [serde_json::Value] *)

  Lemma doc_fits_arr l d : doc_fits (JArr l) d <-> exists ds, d = DArr ds /\ Forall2 doc_fits l ds.
  Proof.
    cbn [JsonSpec.doc_fits]. split; intros (ds & E & A); exists ds; (split; [exact E|]); clear E d; revert ds A.
    - induction l as [|x l IH]; intros [|y ds] A; try (destruct A; fail); constructor; [apply A|apply IH; apply A].
    - induction l as [|x l IH]; intros ds A; inversion A; subst; [exact I|]. split; [assumption|]. apply IH. assumption.
  Qed.

  Lemma doc_fits_obj l d : doc_fits (JObj l) d <->
    exists ys m, d = DObj m /\ Forall2 (fun x y => doc_fits (snd x) y) l ys /\ holds_last eq (combine (map fst l) ys) m.
  Proof.
    cbn [JsonSpec.doc_fits].
    assert (X : forall ys, (fix all (l0 : list (str * json)) (ys0 : list doc) {struct l0} : Prop :=
             match l0 with
             | [] => match ys0 with [] => True | _ :: _ => False end
             | (_, x) :: l' => match ys0 with [] => False | y :: ys' => doc_fits x y /\ all l' ys' end
             end) l ys <-> Forall2 (fun x y => doc_fits (snd x) y) l ys).
    { induction l as [|[k x] l IH]; intros [|y ys]; split; intros A; try (inversion A; fail); try constructor; auto.
      - apply A.
      - apply IH. apply A.
      - inversion A; subst; assumption.
      - inversion A; subst. apply IH. assumption. }
    split; intros (ys & m & E & A & HL); exists ys, m; (split; [exact E|]); (split; [apply X; exact A|exact HL]).
  Qed.

  Lemma doc_of_sound j : forall r d x, shape j r -> doc_of r d = Some x -> doc_fits j x.
  Proof.
    induction j as [| | | |l IH|l IH] using json_ind'; intros r d x S E; inversion S; subst; cbn [Json.doc_of] in E.
    - injection E as <-. reflexivity.
    - injection E as <-. reflexivity.
    - destruct (number neg (dec n) tl) as [y|] eqn:N; [|discriminate]. injection E as <-. exists y. split; [apply number_denotes; exact N|reflexivity].
    - match goal with H : string_of _ = Some _ |- _ => rewrite H in E end. injection E as <-. reflexivity.
    - destruct (enter d) as [d'|]; [|discriminate]. destruct (all_read _ rs) as [ds|] eqn:A; [|discriminate]. injection E as <-.
      apply all_read_some in A. apply doc_fits_arr. exists ds. split; [reflexivity|].
      match goal with H : Forall2 shape l rs |- _ => revert IH ds A; induction H as [|j r0 l rs SJ SL IHL] end; intros IH ds A; inversion A; subst.
      + constructor.
      + inversion IH as [|? ? IHJ IH']; subst. constructor; [eapply IHJ; eassumption|]. apply IHL; [constructor; assumption|exact IH'|assumption].
    - destruct (enter d) as [d'|]; [|discriminate]. destruct (read_map _ rs []) as [m|] eqn:A; [|discriminate]. injection E as <-.
      apply read_map_some in A. destruct A as (ks & ys & K & Y & ->). apply doc_fits_obj. exists ys, (insert_all (combine ks ys) []).
      assert (SL : Forall2 entry_shape l rs) by assumption. rewrite (keys_unique _ _ _ SL K).
      split; [reflexivity|]. split; [|apply insert_all_holds]. clear - SL IH Y.
      revert IH ys Y. induction SL as [|j r0 l rs [_ SJ] SL IHL]; intros IH ys Y; inversion Y; subst.
      + constructor.
      + inversion IH as [|? ? IHJ IH']; subst. constructor; [eapply IHJ; eassumption|]. apply IHL; [exact IH'|assumption].
  Qed.

  Lemma doc_of_defined j : forall r d x, shape j r -> depth j < d -> doc_fits j x -> exists y, doc_of r d = Some y.
  Proof.
    induction j as [| | | |l IH|l IH] using json_ind'; intros r d x S L E; inversion S; subst; cbn [Json.doc_of].
    - eexists. reflexivity.
    - eexists. reflexivity.
    - destruct E as (y & D & ->). apply number_denotes in D. rewrite D. eexists. reflexivity.
    - match goal with H : string_of _ = Some _ |- _ => rewrite H end. eexists. reflexivity.
    - apply doc_fits_arr in E. destruct E as (ds & -> & A). rewrite enter_ok by (cbn [depth] in L; lia).
      assert (B : exists ys, Forall2 (fun x y => doc_of x (pred d) = Some y) rs ys).
      { assert (LE : forall j, In j l -> depth j < pred d) by (intros j I; pose proof (depth_elem l j I); lia). clear L.
        match goal with H : Forall2 shape l rs |- _ => revert IH ds A LE; clear S; induction H as [|j r0 l rs SJ SL IHL] end; intros IH ds A LE; inversion A; subst.
        - exists []. constructor.
        - inversion IH as [|? ? IHJ IH']; subst.
          destruct (IHJ r0 (pred d) y SJ (LE j (or_introl eq_refl)) ltac:(assumption)) as (z & Z).
          destruct (IHL IH' l' ltac:(assumption) ltac:(intros; apply LE; right; assumption)) as (ys & YS).
          exists (z :: ys). constructor; assumption. }
      destruct B as (ys & B). apply all_read_some in B. rewrite B. eexists. reflexivity.
    - apply doc_fits_obj in E. destruct E as (ds & m & -> & A & _). rewrite enter_ok by (cbn [depth] in L; lia).
      assert (SL : Forall2 entry_shape l rs) by assumption.
      assert (B : exists ys, Forall2 (fun p y => doc_of (snd p) (pred d) = Some y) rs ys).
      { assert (LE : forall j, In j l -> depth (snd j) < pred d) by (intros j I; pose proof (depth_member l j I); lia). clear L S.
        repeat match goal with H : Forall2 _ l rs |- _ => lazymatch H with SL => fail | _ => clear H end end.
        revert IH ds A LE. induction SL as [|j r0 l rs [_ SJ] SL IHL]; intros IH ds A LE; inversion A; subst.
        - exists []. constructor.
        - inversion IH as [|? ? IHJ IH']; subst.
          destruct (IHJ (snd r0) (pred d) y SJ (LE j (or_introl eq_refl)) ltac:(assumption)) as (z & Z).
          destruct (IHL IH' l' ltac:(assumption) ltac:(intros; apply LE; right; assumption)) as (ys & YS).
          exists (z :: ys). constructor; assumption. }
      destruct B as (ys & B).
      assert (RM : read_map (fun x => doc_of x (pred d)) rs [] = Some (insert_all (combine (map fst l) ys) [])).
      { apply read_map_some. exists (map fst l), ys. split; [apply keys_read; exact SL|]. split; [exact B|reflexivity]. }
      rewrite RM. eexists. reflexivity.
  Qed.

  (** A [Value] skips nothing, and is not too deep. *)
  Lemma doc_of_strict r : forall d x, doc_of r d = Some x -> strict r.
  Proof.
    revert r. fix REC 1. intros [|b|neg ds tl|ps|l|l] d x E; cbn [Json.doc_of] in E.
    - constructor.
    - constructor.
    - constructor.
    - constructor. destruct (string_of ps); discriminate.
    - constructor. destruct (enter d) as [d'|]; [|discriminate].
      destruct (all_read _ l) as [ys|] eqn:A; [|discriminate]. clear E x. revert ys A.
      induction l as [|y l IH]; intros ys A; [constructor|]. apply all_read_some in A.
      inversion A as [|? z ? zs Z ZS]; subst. constructor; [exact (REC y d' z Z)|]. apply (IH zs). apply all_read_some. exact ZS.
    - constructor. destruct (enter d) as [d'|]; [|discriminate].
      destruct (read_map _ l []) as [ys|] eqn:A; [|discriminate]. clear E x. revert A. generalize (@nil (str * doc)). revert ys.
      induction l as [|[k y] l IH]; intros ys acc A; [constructor|]. cbn [read_map] in A.
      destruct (string_of k) as [k'|] eqn:K; [|discriminate]. destruct (doc_of y d') as [z|] eqn:Z; [|discriminate].
      constructor; [split; [cbn; rewrite K; discriminate|exact (REC y d' z Z)]|]. exact (IH _ _ A).
  Qed.

  Lemma doc_of_depth j : forall r d x, shape j r -> 0 < d -> doc_of r d = Some x -> depth j < d.
  Proof.
    induction j as [| | | |l IH|l IH] using json_ind'; intros r d x S P E; inversion S; subst; cbn [Json.doc_of] in E; try exact P.
    - destruct (enter d) as [d'|] eqn:EN; [|discriminate]. destruct (enter_some _ _ EN) as [-> P'].
      destruct (all_read _ rs) as [ds|] eqn:A; [|discriminate]. clear E. cbn [depth]. apply le_n_S.
      apply all_read_some in A.
      match goal with H : Forall2 shape l rs |- _ => revert IH ds A; clear S; induction H as [|j r0 l rs SJ SL IHL] end; intros IH ds A; inversion A; subst; cbn [fold_right].
      + lia.
      + inversion IH as [|? ? IHJ IH']; subst. specialize (IHL IH' _ ltac:(eassumption)).
        pose proof (IHJ _ _ _ SJ P' ltac:(eassumption)). lia.
    - destruct (enter d) as [d'|] eqn:EN; [|discriminate]. destruct (enter_some _ _ EN) as [-> P'].
      destruct (read_map _ rs []) as [m|] eqn:A; [|discriminate]. clear E. cbn [depth]. apply le_n_S.
      apply read_map_some in A. destruct A as (ks & ys & K & A & _). clear K ks.
      match goal with H : Forall2 _ l rs |- _ => revert IH ys A; clear S; induction H as [|j r0 l rs [_ SJ] SL IHL] end; intros IH ys A; inversion A; subst; cbn [fold_right].
      + lia.
      + inversion IH as [|? ? IHJ IH']; subst. specialize (IHL IH' _ ltac:(eassumption)).
        pose proof (IHJ _ _ _ SJ P' ltac:(eassumption)). lia.
  Qed.
End Reading.
