(** The lemmas of [FormLemmas3] for the pairs of the specification. *)

From Coq Require Import String ZArith.
From Verif Require Import Base Utf8 UrlEncoded UrlSpec UrlLemmas Http Form App AppSpec FormSpec UserSpec.
From Verif Require Import RouteTrie Router TableSpec PropSpec AppLemmas4 FormLemmas FormLemmas2 FormLemmas3 UserLemmas.
Local Open Scope string_scope.
Local Open Scope list_scope.

Local Ltac by_pairs L :=
  intros; match goal with P : form_pairs _ ?x |- _ => apply parse_spec in P; subst x end; eapply L; eassumption.

Lemma grouped_queries_pairs : forall (F : Type) (pf : bool -> str -> F + str) msg it1 it2,
  iteration it1 -> iteration it2 -> forall q ps, form_pairs q ps -> exists m,
  parse_queries pf msg it1 it2 (TgMap KString (TVec TString)) q = Done (RMap m) /\ NoDup (map fst m) /\
  forall k v, In (k, v) m <-> values_of k ps <> [] /\ v = VSeq (map VString (values_of k ps)).
Proof. by_pairs (@grouped_queries). Qed.

Lemma order_irrelevant_pairs : forall (F : Type) (pf : bool -> str -> F + str) msg it1 it2 it3 it4 tg q ps, form_pairs q ps ->
  iteration it1 -> iteration it2 -> iteration it3 -> iteration it4 ->
  match tg with TgStruct fs _ => NoDup (map f_name fs) | TgFlat fs inner => apart fs inner | _ => True end ->
  (tg = TgString -> one_key ps) ->
  same_outcome (parse_queries pf msg it1 it2 tg q) (parse_queries pf msg it3 it4 tg q).
Proof. by_pairs (@order_irrelevant). Qed.

Lemma struct_result_pairs : forall (F : Type) (pf : bool -> str -> F + str) msg it1 it2,
  iteration it1 -> iteration it2 -> forall fs deny q l ps, form_pairs q ps -> NoDup (map f_name fs) ->
  parse_queries pf msg it1 it2 (TgStruct fs deny) q = Done (RStruct l) <->
  Forall2 (field_value pf ps) fs l /\
  (deny = true -> forall k, values_of k ps <> [] -> In k (map f_name fs)).
Proof. by_pairs (@struct_result). Qed.

Lemma struct_missing_field_pairs : forall (F : Type) (pf : bool -> str -> F + str) msg it1 it2,
  iteration it1 -> iteration it2 -> forall fs deny q pre f post ps, form_pairs q ps -> NoDup (map f_name fs) ->
  (deny = true -> forall k, values_of k ps <> [] -> In k (map f_name fs)) ->
  (forall g, In g fs -> values_of (f_name g) ps <> [] ->
     exists v, gives pf (f_type g) (values_of (f_name g) ps) v) ->
  fs = pre ++ f :: post -> (forall g, In g pre -> exists v, field_value pf ps g v) ->
  required f -> values_of (f_name f) ps = [] ->
  parse_queries pf msg it1 it2 (TgStruct fs deny) q = Fail (FMessage (lit "missing field `" ++ f_name f ++ lit "`")).
Proof. by_pairs (@struct_missing_field). Qed.

Lemma map_result_only_pairs : forall (F : Type) (pf : bool -> str -> F + str) msg it1 it2,
  iteration it1 -> iteration it2 -> forall t q r ps, form_pairs q ps ->
  parse_queries pf msg it1 it2 (TgMap KString t) q = Done r -> exists m, r = RMap m /\ map_of pf ps t m.
Proof. intros F pf msg it1 it2 I1 I2; by_pairs (@map_result_only F pf msg it1 it2 I1 I2). Qed.

Lemma map_result_pairs : forall (F : Type) (pf : bool -> str -> F + str) msg it1 it2,
  iteration it1 -> iteration it2 -> forall t q m ps, form_pairs q ps -> map_of pf ps t m ->
  exists m', parse_queries pf msg it1 it2 (TgMap KString t) q = Done (RMap m') /\ Permutation m m'.
Proof. by_pairs (@map_result). Qed.

Lemma struct_scalar_pairs : forall (F : Type) (pf : bool -> str -> F + str) msg it1 it2,
  iteration it1 -> iteration it2 -> forall fs deny q l f v s rest ps, form_pairs q ps -> NoDup (map f_name fs) ->
  parse_queries pf msg it1 it2 (TgStruct fs deny) q = Done (RStruct l) -> In (f, v) (combine fs l) ->
  values_of (f_name f) ps = s :: rest ->
  is_scalar (f_type f) -> scalar_text pf (f_type f) s v.
Proof. intros F pf msg it1 it2 I1 I2; by_pairs (@struct_scalar F pf msg it1 it2 I1 I2). Qed.

Lemma struct_vec_pairs : forall (F : Type) (pf : bool -> str -> F + str) msg it1 it2,
  iteration it1 -> iteration it2 -> forall fs deny q l f v t ps, form_pairs q ps -> NoDup (map f_name fs) ->
  parse_queries pf msg it1 it2 (TgStruct fs deny) q = Done (RStruct l) -> In (f, v) (combine fs l) ->
  values_of (f_name f) ps <> [] -> f_type f = TVec t -> is_scalar t ->
  exists vs, v = VSeq vs /\ Forall2 (scalar_text pf t) (values_of (f_name f) ps) vs.
Proof. intros F pf msg it1 it2 I1 I2; by_pairs (@struct_vec F pf msg it1 it2 I1 I2). Qed.

Lemma struct_rejects_pairs : forall (F : Type) (pf : bool -> str -> F + str) msg it1 it2,
  iteration it1 -> iteration it2 -> forall fs deny q f s ps, form_pairs q ps -> NoDup (map f_name fs) ->
  In f fs -> In s (values_of (f_name f) ps) ->
  (is_scalar (f_type f) /\ (exists rest, values_of (f_name f) ps = s :: rest) /\ (forall v, ~ scalar_text pf (f_type f) s v) \/
   exists t, f_type f = TVec t /\ is_scalar t /\ forall v, ~ scalar_text pf t s v) ->
  exists e, parse_queries pf msg it1 it2 (TgStruct fs deny) q = Fail e.
Proof. by_pairs (@struct_rejects). Qed.

Lemma query_read_pairs : forall (X U A F : Type) (pf : bool -> str -> F + str) msg it1 it2
    (l : list (op (handler X U A) (middleware X U A))) t st rq rest ps fs deny vs qs,
  form_pairs (utf8 (match rq_query rq with Some q => q | None => [] end)) qs ->
  iteration it1 -> iteration it2 -> built l t ->
  reaches l rq (with_query pf msg it1 it2 (TgStruct fs deny) rest) ps ->
  NoDup (map f_name fs) -> Forall2 (field_value pf qs) fs vs ->
  (deny = true -> forall k, values_of k qs <> [] -> In k (map f_name fs)) ->
  exists c, (forall n', pget n' (ctx_params c) = first_binding ps n') /\ starts rq (ctx_params c) st c /\ handles (serve t st rq) (rest (RStruct vs) c).
Proof. intros X U A F pf msg it1 it2; by_pairs (@query_read X U A F pf msg it1 it2). Qed.

Lemma missing_in_query_pairs : forall (X U A F : Type) (pf : bool -> str -> F + str) msg it1 it2
    (l : list (op (handler X U A) (middleware X U A))) t st rq rest ps fs deny pre f post qs,
  form_pairs (utf8 (match rq_query rq with Some q => q | None => [] end)) qs ->
  iteration it1 -> iteration it2 -> built l t ->
  reaches l rq (with_query pf msg it1 it2 (TgStruct fs deny) rest) ps ->
  NoDup (map f_name fs) ->
  (deny = true -> forall k, values_of k qs <> [] -> In k (map f_name fs)) ->
  (forall g, In g fs -> values_of (f_name g) qs <> [] -> exists v, gives pf (f_type g) (values_of (f_name g) qs) v) ->
  fs = pre ++ f :: post -> (forall g, In g pre -> exists v, field_value pf qs g v) ->
  required f -> values_of (f_name f) qs = [] ->
  fails_with (serve t st rq) (lit "missing field `" ++ f_name f ++ lit "`").
Proof. intros X U A F pf msg it1 it2; by_pairs (@missing_in_query X U A F pf msg it1 it2). Qed.

Lemma form_read_pairs : forall (X U A F : Type) (pf : bool -> str -> F + str) msg it1 it2
    (l : list (op (handler X U A) (middleware X U A))) t st rq rest ps fs deny vs qs,
  form_pairs (body_bytes (rq_body rq)) qs ->
  iteration it1 -> iteration it2 -> built l t ->
  reaches l rq (with_form pf msg it1 it2 (TgStruct fs deny) rest) ps ->
  broken (rq_body rq) = false -> one_chunk (rq_body rq) ->
  NoDup (map f_name fs) -> Forall2 (field_value pf qs) fs vs ->
  (deny = true -> forall k, values_of k qs <> [] -> In k (map f_name fs)) ->
  exists c c', (forall n, pget n (ctx_params c) = first_binding ps n) /\ starts rq (ctx_params c) st c /\ same_but_body c c' /\ rq_body (ctx_request c') = body_empty /\
    handles (serve t st rq) (rest (RStruct vs) c').
Proof. intros X U A F pf msg it1 it2; by_pairs (@form_read X U A F pf msg it1 it2). Qed.

Lemma missing_in_form_pairs : forall (X U A F : Type) (pf : bool -> str -> F + str) msg it1 it2
    (l : list (op (handler X U A) (middleware X U A))) t st rq rest ps fs deny pre f post qs,
  form_pairs (body_bytes (rq_body rq)) qs ->
  iteration it1 -> iteration it2 -> built l t ->
  reaches l rq (with_form pf msg it1 it2 (TgStruct fs deny) rest) ps ->
  broken (rq_body rq) = false -> one_chunk (rq_body rq) ->
  NoDup (map f_name fs) ->
  (deny = true -> forall k, values_of k qs <> [] -> In k (map f_name fs)) ->
  (forall g, In g fs -> values_of (f_name g) qs <> [] -> exists v, gives pf (f_type g) (values_of (f_name g) qs) v) ->
  fs = pre ++ f :: post -> (forall g, In g pre -> exists v, field_value pf qs g v) ->
  required f -> values_of (f_name f) qs = [] ->
  fails_with (serve t st rq) (lit "missing field `" ++ f_name f ++ lit "`").
Proof. intros X U A F pf msg it1 it2; by_pairs (@missing_in_form X U A F pf msg it1 it2). Qed.

Lemma query_grouped : forall (F : Type) (pf : bool -> str -> F + str) msg it1 it2 (X : Type) (c : context X),
  iteration it1 -> iteration it2 ->
  exists ps m, form_pairs (utf8 (match rq_query (ctx_request c) with Some q => q | None => [] end)) ps /\
    ctx_query_params pf msg it1 it2 (TgMap KString (TVec TString)) c = inl (inl (RMap m)) /\ NoDup (map fst m) /\
    forall k v, In (k, v) m <-> values_of k ps <> [] /\ v = VSeq (map VString (values_of k ps)).
Proof.
  intros F pf msg it1 it2 X c I1 I2. set (q := utf8 _). destruct (pairs_exist q) as (ps & P & _).
  destruct (grouped_queries_pairs F pf msg it1 it2 I1 I2 q ps P) as (m & E & N & K).
  exists ps, m. split; [exact P|]. split; [|split; [exact N|exact K]]. unfold ctx_query_params. fold q. rewrite E. reflexivity.
Qed.
