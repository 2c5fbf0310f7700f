(** Reading a struct with [?] in a handler: its values, or the error to the client. *)

From Coq Require Import String.
From Verif Require Import Base Utf8 UrlEncoded RouteTrie Router TableSpec PropSpec Http Form App AppSpec FormSpec UserSpec.
From Verif Require Import AppLemmas AppLemmas2 AppLemmas3 AppLemmas4 FormLemmas FormLemmas2 FormLemmas3 UserLemmas UrlSpec UrlLemmas.
Local Open Scope list_scope.

Section Structs.
  Context {X U A F : Type} (pf : bool -> str -> F + str) (msg : mismatch -> str) (it1 it2 : list entry -> list entry).
  Notation handler := (handler X U A).
  Notation middleware := (middleware X U A).

  Lemma query_or_error (l : list (op handler middleware)) t st rq rest ps fs deny qs :
    form_pairs (utf8 (match rq_query rq with Some q => q | None => [] end)) qs ->
    iteration it1 -> iteration it2 -> built l t ->
    reaches l rq (with_query pf msg it1 it2 (TgStruct fs deny) rest) ps -> NoDup (map f_name fs) ->
    exists c, (forall n, pget n (ctx_params c) = first_binding ps n) /\ starts rq (ctx_params c) st c /\
      ((exists vs, Forall2 (field_value pf qs) fs vs /\
          (deny = true -> forall k, values_of k qs <> [] -> In k (map f_name fs)) /\
          handles (serve t st rq) (rest (RStruct vs) c)) \/
       (~ (exists vs, Forall2 (field_value pf qs) fs vs /\
             (deny = true -> forall k, values_of k qs <> [] -> In k (map f_name fs))) /\
        exists e, ctx_query_params pf msg it1 it2 (TgStruct fs deny) c = inr e /\
                  fails_with (serve t st rq) (error_text e))).
  Proof.
    intros Q I1 I2 B R Nd. apply parse_spec in Q. subst qs.
    destruct (reaches_serve l t st rq _ ps B R) as (c & S & Ep & E). rewrite E.
    exists c. split; [exact Ep|]. split; [exact S|]. destruct S as (_ & _ & _ & _ & Eq & _).
    set (q := utf8 _). unfold with_query, ctx_query_params. rewrite Eq. fold q.
    pose proof (struct_result pf msg it1 it2 I1 I2 fs deny q) as K.
    destruct (struct_or_error pf msg it1 it2 I1 I2 fs deny q Nd) as [[vs Es]|[e Es]]; rewrite Es; cbn [queries_result].
    - left. exists vs. destruct (proj1 (K vs Nd) Es) as [Fv Dn]. split; [exact Fv|]. split; [exact Dn|]. apply handles_finish.
    - right. split.
      + intros (vs & Fv & Dn). rewrite (proj2 (K vs Nd) (conj Fv Dn)) in Es. discriminate Es.
      + exists (EForm e). split; [reflexivity|]. apply fails_finish.
  Qed.

  Lemma form_or_error (l : list (op handler middleware)) t st rq rest ps fs deny qs :
    form_pairs (body_bytes (rq_body rq)) qs ->
    iteration it1 -> iteration it2 -> built l t ->
    reaches l rq (with_form pf msg it1 it2 (TgStruct fs deny) rest) ps ->
    broken (rq_body rq) = false -> one_chunk (rq_body rq) -> NoDup (map f_name fs) ->
    exists c c', (forall n, pget n (ctx_params c) = first_binding ps n) /\ starts rq (ctx_params c) st c /\
      same_but_body c c' /\ rq_body (ctx_request c') = body_empty /\
      ((exists vs, Forall2 (field_value pf qs) fs vs /\
          (deny = true -> forall k, values_of k qs <> [] -> In k (map f_name fs)) /\
          handles (serve t st rq) (rest (RStruct vs) c')) \/
       (~ (exists vs, Forall2 (field_value pf qs) fs vs /\
             (deny = true -> forall k, values_of k qs <> [] -> In k (map f_name fs))) /\
        exists e, fst (ctx_form pf msg it1 it2 (TgStruct fs deny) c) = inr e /\
                  fails_with (serve t st rq) (error_text e))).
  Proof.
    intros Q I1 I2 B R Br Oc Nd. apply parse_spec in Q. subst qs.
    destruct (reaches_serve l t st rq _ ps B R) as (c & S & Ep & E). rewrite E.
    exists c, (set_rq_body body_empty c). split; [exact Ep|]. split; [exact S|]. split; [repeat split|]. split; [reflexivity|].
    destruct S as (_ & _ & _ & _ & _ & _ & Eb & _).
    unfold with_form, ctx_form, read_body, take_body. rewrite Eb.
    pose proof (one_chunk_read (X:=X) (fun b => queries_result (parse_queries pf msg it1 it2 (TgStruct fs deny) b)) c) as O.
    unfold read_body, take_body in O. rewrite Eb in O. cbn [fst] in O |- *. rewrite O by assumption.
    set (q := body_bytes (rq_body rq)).
    pose proof (struct_result pf msg it1 it2 I1 I2 fs deny q) as K.
    destruct (struct_or_error pf msg it1 it2 I1 I2 fs deny q Nd) as [[vs Es]|[e Es]]; rewrite Es; cbn [queries_result].
    - left. exists vs. destruct (proj1 (K vs Nd) Es) as [Fv Dn]. split; [exact Fv|]. split; [exact Dn|]. apply handles_finish.
    - right. split.
      + intros (vs & Fv & Dn). rewrite (proj2 (K vs Nd) (conj Fv Dn)) in Es. discriminate Es.
      + exists (EForm e). split; [reflexivity|]. apply fails_finish.
  Qed.
End Structs.
