(** Enums, flattened fields, targets that read anything. *)

From Coq Require Import String ZArith.
From Verif Require Import Base BaseFacts Utf8 RouteTrie UrlEncoded UrlSpec UrlLemmas Http Form AppSpec FormSpec.
From Verif Require Import FormLemmas FormLemmas2 FormLemmas3 FormWitness.
Local Open Scope string_scope.
Local Open Scope list_scope.

Section More.
  Context {F : Type} (parse_float : bool -> str -> F + str) (serde_msg : mismatch -> str).
  Notation parse_queries := (parse_queries parse_float serde_msg).
  Notation field_value := (field_value parse_float).
  Notation gives := (gives parse_float).
  Notation reads := (reads parse_float).

  Section Orders.
  Context (it1 it2 : list entry -> list entry) (I1 : iteration it1) (I2 : iteration it2).

  (** C43 *)
  Lemma any_overflows on_empty q ps : form_pairs q ps -> (exists k, values_of k ps <> []) ->
    parse_queries it1 it2 (TgAny on_empty) q = Panics PStack.
  Proof.
    intros P [k N]. apply parse_spec in P. subst ps. pose proof (handed_grouped it1 it2 q I1 I2) as G.
    unfold Form.parse_queries. fold (handed it1 it2 q). rewrite any_target.
    destruct (handed it1 it2 q) eqn:E; [|reflexivity]. exfalso. apply N. eapply grouped_nil; [exact G|reflexivity].
  Qed.

  (** C68 *)
  Lemma enum_unread t l v r : enum_type t -> ~ reads t l v r.
  Proof.
    intros E. revert l v r. induction E; intros l v r R; inversion R; subst;
      try (match goal with H : scalar_text _ _ _ _ |- _ => inversion H end; fail); try (eapply IHE; eauto; fail).
    match goal with H : reads_all _ _ _ _ |- _ => inversion H; subst end; [congruence|eapply IHE; eauto].
  Qed.

  Lemma enum_field_fails fs deny q ps f : form_pairs q ps -> NoDup (map f_name fs) -> In f fs -> enum_type (f_type f) ->
    values_of (f_name f) ps <> [] -> exists e, parse_queries it1 it2 (TgStruct fs deny) q = Fail e.
  Proof.
    intros P Nf If Et N. apply parse_spec in P. subst ps.
    destruct (struct_or_error parse_float serde_msg it1 it2 I1 I2 fs deny q Nf) as [[l E]|K]; [|exact K].
    apply (struct_result parse_float serde_msg it1 it2 I1 I2) in E as [F2 _]; [|exact Nf].
    exfalso. clear -F2 If Et N. induction F2 as [|g v fs l W _ IH]; [contradiction|]. destruct If as [->|If]; [|auto].
    destruct W as [[_ [r R]]|[X _]]; [|contradiction]. eapply enum_unread; eauto.
  Qed.

  Lemma enum_map_fails t q ps : form_pairs q ps -> enum_type t -> (exists k, values_of k ps <> []) ->
    exists e, parse_queries it1 it2 (TgMap KString t) q = Fail e.
  Proof.
    intros P Et [k N]. apply parse_spec in P. subst ps.
    pose proof (map_queries parse_float serde_msg it1 it2 I1 I2 t q) as K.
    destruct (parse_queries it1 it2 (TgMap KString t) q) as [r|e|p]; [|eauto|contradiction].
    destruct K as (m & -> & _ & A & B). destruct (B k N) as [v I]. destruct (A _ _ I) as [_ [r R]].
    exfalso. eapply enum_unread; eauto.
  Qed.

  (** C69 *)
  Lemma flat_result fs inner q ps r : form_pairs q ps -> apart fs inner ->
    parse_queries it1 it2 (TgFlat fs inner) q = Done r ->
    exists l r', r = RFlat l r' /\ Forall2 (field_value ps) fs l /\ flat_value ps (map f_name fs) inner r'.
  Proof.
    intros P Ap E. apply parse_spec in P. subst ps.
    pose proof (flat_target parse_float serde_msg (parse q) _ fs inner (handed_grouped it1 it2 q I1 I2) Ap) as K.
    unfold Form.parse_queries in E. fold (handed it1 it2 q) in E. rewrite E in K. exact K.
  Qed.

  Lemma flat_found fs inner q ps l r : form_pairs q ps -> apart fs inner ->
    Forall2 (field_value ps) fs l -> flat_value ps (map f_name fs) inner r ->
    exists r', parse_queries it1 it2 (TgFlat fs inner) q = Done (RFlat l r') /\ same_value (F:=F) (RFlat l r) (RFlat l r').
  Proof.
    intros P Ap F2 Fv. apply parse_spec in P. subst ps.
    pose proof (flat_target parse_float serde_msg (parse q) _ fs inner (handed_grouped it1 it2 q I1 I2) Ap) as K.
    unfold Form.parse_queries. fold (handed it1 it2 q).
    destruct (from_cow_map parse_float serde_msg (TgFlat fs inner) (handed it1 it2 q)) as [x|e|p]; [|exfalso; eapply K; eauto|contradiction].
    destruct K as (l' & r' & -> & K1 & K2).
    rewrite (Forall2_det (field_value (parse q)) fs l' l) by (try assumption; intros f v v'; apply field_value_det).
    exists r'. split; [reflexivity|]. eapply flat_value_det; eauto.
  Qed.

  Lemma text_plain t s r v : text_type t -> gives t (s :: r) v <-> plain t s v.
  Proof.
    intros T. revert v. induction T; intros v; split; intros H.
    - destruct H as [x R]. inversion R; subst. match goal with H : scalar_text _ _ _ _ |- _ => inversion H; subst end. constructor.
    - inversion H; subst. exists r. constructor. constructor.
    - destruct H as [x R]. inversion R; subst; [match goal with H : scalar_text _ _ _ _ |- _ => inversion H end|].
      constructor. apply IHT. eexists; eassumption.
    - inversion H; subst. match goal with H : plain _ _ _ |- _ => apply IHT in H as [x R] end. exists x. constructor. exact R.
    - destruct H as [x R]. inversion R; subst; [match goal with H : scalar_text _ _ _ _ |- _ => inversion H end|].
      constructor. apply IHT. eexists; eassumption.
    - inversion H; subst. match goal with H : plain _ _ _ |- _ => apply IHT in H as [x R] end. exists x. constructor. exact R.
  Qed.

  Lemma text_value ps f v : text_type (f_type f) -> field_value ps f v <-> plain_value ps f v.
  Proof.
    intros T. unfold FormSpec.field_value, plain_value. split.
    - intros [[N G]|K]; [|right; exact K]. left. destruct (values_of (f_name f) ps) as [|s r]; [congruence|].
      exists s, r. split; [reflexivity|]. eapply text_plain; eauto.
    - intros [(s & r & V & P)|K]; [|right; exact K]. left. rewrite V. split; [discriminate|]. apply text_plain; assumption.
  Qed.

  Lemma flat_same fs gs q l l' : NoDup (map f_name (fs ++ gs)) -> (forall g, In g gs -> text_type (f_type g)) ->
    length l = length fs ->
    parse_queries it1 it2 (TgFlat fs (FlatStruct gs)) q = Done (RFlat l (RStruct l')) <->
    parse_queries it1 it2 (TgStruct (fs ++ gs) false) q = Done (RStruct (l ++ l')).
  Proof.
    intros Nd T Le. rewrite (struct_result parse_float serde_msg it1 it2 I1 I2) by exact Nd.
    assert (P : form_pairs q (parse q)) by (apply parse_spec; reflexivity).
    assert (V : forall l', Forall2 (field_value (parse q)) gs l' <-> Forall2 (plain_value (parse q)) gs l').
    { clear -T. intros l'. split; intros F2; induction F2; constructor.
      1,3: apply text_value; [apply T; left; reflexivity|assumption].
      all: apply IHF2; intros g I; apply T; right; exact I. }
    split.
    - intros E. apply (flat_result fs (FlatStruct gs) q _ _ P Nd) in E as (x & y & [= <- <-] & F2 & z & [= <-] & Fz).
      split; [|intros [=]]. apply Forall2_app; [exact F2|]. apply V. exact Fz.
    - intros [F2 _]. apply Forall2_app_inv_l in F2 as (a & b & Fa & Fb & E).
      assert (La : length fs = length a) by (clear -Fa; induction Fa; cbn; congruence).
      assert (l = a /\ l' = b) as [-> ->].
      { clear -E Le La. rewrite La in Le. clear La. revert a Le E.
        induction l as [|x l IH]; intros [|y a] Le E; cbn in *; try discriminate Le; [auto|].
        injection E as -> E. destruct (IH a) as [-> ->]; auto. }
      destruct (flat_found fs (FlatStruct gs) q _ a (RStruct b) P Nd Fa) as (r' & Er & Sv).
      { exists b. split; [reflexivity|]. apply V. exact Fb. }
      rewrite Er. cbn in Sv. rewrite Sv. reflexivity.
  Qed.
  End Orders.


  Lemma w_stack it1 it2 {X} : iteration it1 -> iteration it2 ->
    exists tg (c : context X) p, ctx_query_params parse_float serde_msg it1 it2 tg c = inl (inr p).
  Proof.
    intros I1 I2. exists (TgAny (inr FNone)), (context_new (Request GET (lit "/") (Some (lit "a=1")) [] [] body_empty) []), PStack.
    unfold ctx_query_params. cbn [ctx_request context_new rq_query].
    rewrite (any_overflows it1 it2 I1 I2 _ _ (parse (utf8 (lit "a=1")))).
    - reflexivity.
    - apply parse_spec. reflexivity.
    - exists (lit "a"). vm_compute. discriminate.
  Qed.

  Lemma w_enum it1 it2 : iteration it1 -> iteration it2 ->
    exists k names s q e, In s names /\ encodes [(k, s)] q /\
      parse_queries it1 it2 (TgStruct [Field k (TEnum names) None] false) q = Fail e.
  Proof.
    intros I1 I2.
    assert (E : exists e, parse_queries it1 it2 (TgStruct [Field (lit "sort") (TEnum [lit "asc"; lit "desc"]) None] false)
                            (utf8 (lit "sort=asc")) = Fail e).
    { eapply (enum_field_fails it1 it2 I1 I2); [apply parse_spec; reflexivity|repeat constructor; auto|left; reflexivity|constructor|].
      vm_compute. discriminate. }
    destruct E as [e E]. exists (lit "sort"), [lit "asc"; lit "desc"], (lit "asc"), (utf8 (lit "sort=asc")), e.
    split; [left; reflexivity|]. split; [|exact E].
    change (utf8 (lit "sort=asc")) with (standard [(lit "sort", lit "asc")]). apply UrlFacts.standard_encodes.
    intros p [<-|[]]. split; repeat constructor.
  Qed.

  Lemma w_flat it1 it2 : iteration it1 -> iteration it2 ->
    exists fs gs q l e, NoDup (map f_name (fs ++ gs)) /\
      parse_queries it1 it2 (TgStruct (fs ++ gs) false) q = Done (RStruct l) /\
      parse_queries it1 it2 (TgFlat fs (FlatStruct gs)) q = Fail e.
  Proof.
    intros I1 I2. set (fs := [Field (F:=F) (lit "name") TString None]). set (gs := [Field (F:=F) (lit "page") (TInt i32) None]).
    set (q := utf8 (lit "name=x&page=2")).
    assert (Nd : NoDup (map f_name (fs ++ gs))) by (repeat constructor; cbn; intuition discriminate).
    assert (P : form_pairs q [(lit "name", lit "x"); (lit "page", lit "2")]) by (apply parse_spec; vm_compute; reflexivity).
    assert (E : exists e, parse_queries it1 it2 (TgFlat fs (FlatStruct gs)) q = Fail e).
    { destruct (parse_queries it1 it2 (TgFlat fs (FlatStruct gs)) q) as [r|e|p] eqn:E; [|eauto|].
      - exfalso. apply (flat_result it1 it2 I1 I2 fs (FlatStruct gs) _ _ _ P Nd) in E as (l & r' & -> & _ & x & -> & F2).
        inversion F2 as [|? ? ? ? W _]; subst. destruct W as [(s & r & V & Pl)|[V _]]; [inversion Pl|discriminate V].
      - exfalso. eapply (queries_total parse_float serde_msg it1 it2 I1 I2); [|exact E]. discriminate. }
    destruct E as [e E]. exists fs, gs, q, [VString (lit "x"); VInt 2], e. split; [exact Nd|]. split; [|exact E].
    apply (struct_result parse_float serde_msg it1 it2 I1 I2); [exact Nd|]. split; [|intros [=]].
    apply parse_spec in P. rewrite P. constructor; [|constructor; [|constructor]].
    - left. split; [discriminate|]. exists []. repeat constructor.
    - left. split; [discriminate|]. exists []. constructor. constructor. apply parse_int_spec. reflexivity.
  Qed.
End More.
