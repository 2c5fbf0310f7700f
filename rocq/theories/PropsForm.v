(** Properties C41-C48, C50, C51, C59, C65, C68-C70: query strings, forms and their deserializer.

    [form_pairs q ps]: [ps] are the pairs of the data [q], well-formed or not
    ([UrlSpec]); [values_of k ps] the non-empty
    values of key [k], in order; [gives t l v]: the texts [l] are read as value [v] of
    type [t]; [field_value ps f v]: field [f] of a struct gets value [v]; [map_of ps t m]:
    [m] is the map of all keys; [read_from src tg c]: the result of [query_params] or
    [form]; [has_data src c q]: [q] is the query string, or the body in one chunk.  All are
    defined in [FormSpec].  [it1], [it2] are the orders in which the hash maps are
    iterated. *)

From Coq Require Import String ZArith.
From Verif Require Import Base Utf8 RouteTrie Router TableSpec PropSpec UrlEncoded Http Form AppSpec FormSpec.
From Verif Require Import RouteFacts RouteLemmas RouteLemmas2 RouteWitness UrlFacts FormLemmas FormLemmas2 FormLemmas3 FormWitness AppLemmas4 UrlSpec UrlLemmas FormLemmas4 FormLemmas5 FormLemmas6 MoreLemmas.
Local Open Scope string_scope.
Local Open Scope list_scope.

(** * C40: chunks of a form *)

Theorem C40_form_refuted : forall (F : Type) (pf : bool -> str -> F + str) msg (X : Type) (c : context X),
  exists it1 it2 tg c1 c2,
    iteration it1 /\ iteration it2 /\ same_but_body c c1 /\ same_but_body c c2 /\
    body_bytes (rq_body (ctx_request c1)) = body_bytes (rq_body (ctx_request c2)) /\
    broken (rq_body (ctx_request c1)) = false /\ broken (rq_body (ctx_request c2)) = false /\
    fst (ctx_form pf msg it1 it2 tg c1) <> fst (ctx_form pf msg it1 it2 tg c2).
Proof. exact (@w_form_chunks). Qed.
Print Assumptions C40_form_refuted.

(** * C41: grouping *)

(** Observed by reading the data as a map from strings to lists of strings. *)
Theorem C41_grouping : forall (F : Type) (pf : bool -> str -> F + str) msg it1 it2,
  iteration it1 -> iteration it2 -> forall (X : Type) src (c : context X) q, has_data src c q ->
  forall ps, form_pairs q ps -> exists m,
  read_from pf msg it1 it2 src (TgMap KString (TVec TString)) c = inl (inl (RMap m)) /\ NoDup (map fst m) /\
  forall k v, In (k, v) m <-> values_of k ps <> [] /\ v = VSeq (map VString (values_of k ps)).
Proof. exact (@grouped_api). Qed.
Print Assumptions C41_grouping.

Example C41_example : exists ps, form_pairs (utf8 (lit "a=1&b=2&a=&&a=3&c&c=")) ps /\
  values_of (lit "a") ps = [lit "1"; lit "3"] /\ values_of (lit "c") ps = [].
Proof. eexists. split; [apply parse_spec; reflexivity|]. split; reflexivity. Qed.

(** * C42: order of iteration *)

(** Refuted for targets that are a plain string: the result is one of the keys. *)
Theorem C42_refuted : forall (F : Type) (pf : bool -> str -> F + str) msg,
  exists s it1 it2 it3 it4 k k',
    iteration it1 /\ iteration it2 /\ iteration it3 /\ iteration it4 /\ k <> k' /\
    forall (X : Type) src (c : context X), has_data src c (utf8 s) ->
      read_from pf msg it1 it2 src TgString c = inl (inl (RKey k)) /\
      read_from pf msg it3 it4 src TgString c = inl (inl (RKey k')).
Proof. exact (@w_order_api). Qed.
Print Assumptions C42_refuted.

(** Which keys: any of those with a value, depending on the orders... *)
Theorem C42_any_key : forall (F : Type) (pf : bool -> str -> F + str) msg (X : Type) src (c : context X) q ps k,
  has_data src c q -> form_pairs q ps ->
  ((exists it1 it2, iteration it1 /\ iteration it2 /\ read_from pf msg it1 it2 src TgString c = inl (inl (RKey k))) <->
   values_of k ps <> []).
Proof. exact (@string_keys). Qed.
Print Assumptions C42_any_key.

Example C42_any_key_example : exists ps, form_pairs (utf8 (lit "a=1&b=2&c=")) ps /\
  has_data FromBody (sent (lit "a=1&b=2&c=")) (utf8 (lit "a=1&b=2&c=")) /\ values_of (lit "b") ps = [lit "2"] /\
  iteration (@rev (bytes * bytes)) /\
  read_from no_float no_msg (fun l => l) (fun l => l) FromBody TgString (sent (lit "a=1&b=2&c=")) = inl (inl (RKey (lit "a"))) /\
  read_from no_float no_msg (fun l => l) (@rev _) FromBody TgString (sent (lit "a=1&b=2&c=")) = inl (inl (RKey (lit "b"))).
Proof.
  eexists. split; [apply parse_spec; reflexivity|]. split; [apply sent_data; discriminate|]. split; [reflexivity|].
  split; [apply iteration_rev|]. split; vm_compute; reflexivity.
Qed.

(** ... and an error if there is none. *)
Theorem C42_no_key : forall (F : Type) (pf : bool -> str -> F + str) msg (X : Type) src (c : context X) q ps it1 it2,
  has_data src c q -> form_pairs q ps -> iteration it1 -> iteration it2 -> (forall k, values_of k ps = []) ->
  read_from pf msg it1 it2 src TgString c = inr (EForm FNone).
Proof. exact (@string_none). Qed.
Print Assumptions C42_no_key.

Example C42_keys_example : exists ps qs, form_pairs (utf8 (lit "a=1&b=2&c=")) ps /\ form_pairs (utf8 (lit "c=")) qs /\
  values_of (lit "a") ps <> [] /\ values_of (lit "b") ps <> [] /\ forall k, values_of k qs = [].
Proof.
  eexists. eexists. split; [apply parse_spec; reflexivity|]. split; [apply parse_spec; reflexivity|].
  split; [discriminate|]. split; [discriminate|]. intros k. unfold values_of. cbn. rewrite andb_false_r. reflexivity.
Qed.

(** All other targets (the fields of a struct, flattened ones included, have distinct names).  Missing: strings, when the
    data has more than one key. *)
Theorem C42_partial : forall (F : Type) (pf : bool -> str -> F + str) msg it1 it2 it3 it4 tg
    (X : Type) src (c : context X) q ps, has_data src c q -> form_pairs q ps ->
  iteration it1 -> iteration it2 -> iteration it3 -> iteration it4 ->
  match tg with TgStruct fs _ => NoDup (map f_name fs) | TgFlat fs inner => apart fs inner | _ => True end ->
  (tg = TgString -> one_key ps) ->
  same_reading (read_from pf msg it1 it2 src tg c) (read_from pf msg it3 it4 src tg c).
Proof. exact (@order_api). Qed.
Print Assumptions C42_partial.

Example C42_example : iteration (@rev entry) /\
  NoDup (map f_name [Field (F:=unit) (lit "a") (TInt i32) None; Field (lit "b") (TVec TString) None]).
Proof.
  split; [apply iteration_rev|]. repeat constructor; cbn; intuition discriminate.
Qed.

(** * C43: no panic *)

(** Refuted: types that read keys by [deserialize_any] - untagged and internally tagged
    enums, [IgnoredAny] - recurse without end. *)
Theorem C43_refuted : forall (F : Type) (pf : bool -> str -> F + str) msg it1 it2 (X : Type),
  iteration it1 -> iteration it2 ->
  exists tg (c : context X) p, ctx_query_params pf msg it1 it2 tg c = inl (inr p).
Proof. exact (fun F pf msg it1 it2 X => @w_stack F pf msg it1 it2 X). Qed.
Print Assumptions C43_refuted.

(** In fact always, as soon as there is a non-empty value... *)
Theorem C43_overflow_partial : forall (F : Type) (pf : bool -> str -> F + str) msg it1 it2,
  iteration it1 -> iteration it2 -> forall (X : Type) src (c : context X) q, has_data src c q ->
  forall on_empty ps, form_pairs q ps -> (exists k, values_of k ps <> []) ->
  read_from pf msg it1 it2 src (TgAny on_empty) c = inl (inr PStack).
Proof. exact (@overflow_api). Qed.
Print Assumptions C43_overflow_partial.

Example C43_overflow_example : exists ps, form_pairs (utf8 (lit "a=&b=x")) ps /\ values_of (lit "b") ps <> [] /\
  has_data FromQuery (asked (lit "a=&b=x")) (utf8 (lit "a=&b=x")) /\
  read_from no_float no_msg (fun l => l) (@rev _) FromQuery (TgAny (inr FNone)) (asked (lit "a=&b=x")) = inl (inr PStack).
Proof.
  eexists. split; [apply parse_spec; reflexivity|]. split; [discriminate|]. split; [apply asked_data|]. vm_compute. reflexivity.
Qed.

(** ... because no depth of calls is enough. *)
Theorem C43_endless_partial : forall (F : Type) (pf : bool -> str -> F + str) msg depth es,
  es <> [] -> de_any pf msg depth true es = None.
Proof. exact (@de_any_endless). Qed.
Print Assumptions C43_endless_partial.

Example C43_endless_example : de_any no_float no_msg 100 true [(lit "b", [lit "x"])] = None.
Proof. vm_compute. reflexivity. Qed.

(** All other targets. *)
Theorem C43_partial : forall (F : Type) (pf : bool -> str -> F + str) msg it1 it2,
  iteration it1 -> iteration it2 -> forall (X : Type) src tg (c : context X) p, (forall e, tg <> TgAny e) ->
  read_from pf msg it1 it2 src tg c <> inl (inr p).
Proof. exact (@total_api). Qed.
Print Assumptions C43_partial.

Example C43_example :
  ctx_query_params (F:=unit) (fun _ _ => inr []) (fun _ => []) (fun l => l) (fun l => l)
    (TgMap KString (TVec (TOption TString)))
    (context_new (Request (X:=unit) GET (lit "/") (Some (lit "a=&a=x&a=")) [] [] body_empty) []) =
  inl (inl (RMap [(lit "a", VSeq [VSome (VString (lit "x"))])])).
Proof. reflexivity. Qed.

(** * C44: [from_cow_map] *)

Theorem C44_refuted : forall (F : Type) (pf : bool -> str -> F + str) msg,
  exists (tg : target F) es p, NoDup (map fst es) /\ from_cow_map pf msg tg es = Panics p.
Proof. exact (@w_panic_empty_list). Qed.
Print Assumptions C44_refuted.

(** Even when no list is empty. *)
Theorem C44_nonempty_lists_refuted : forall (F : Type) (pf : bool -> str -> F + str) msg,
  exists (tg : target F) es p, NoDup (map fst es) /\ (forall k vs, In (k, vs) es -> vs <> []) /\
    from_cow_map pf msg tg es = Panics p.
Proof. exact (@w_panic_option). Qed.
Print Assumptions C44_nonempty_lists_refuted.

(** No panic if no list is empty, and no text is empty.  Missing: empty lists, and
    empty texts for options and units inside of sequences; [TgAny] (see C43). *)
Theorem C44_texts_partial : forall (F : Type) (pf : bool -> str -> F + str) msg tg es p, (forall e, tg <> TgAny e) ->
  (forall k vs, In (k, vs) es -> vs <> [] /\ forall s, In s vs -> s <> []) ->
  from_cow_map pf msg tg es <> Panics p.
Proof. exact (@full_map_total). Qed.
Print Assumptions C44_texts_partial.

Example C44_texts_example :
  (forall k vs, In (k, vs) [(lit "a", [lit "x"; lit "y"]); (lit "b", [lit "1"])] -> vs <> [] /\ forall s, In s vs -> s <> []) /\
  from_cow_map no_float no_msg (TgMap KString (TVec (TOption TString))) [(lit "a", [lit "x"; lit "y"]); (lit "b", [lit "1"])] =
  Done (RMap [(lit "a", VSeq [VSome (VString (lit "x")); VSome (VString (lit "y"))]); (lit "b", VSeq [VSome (VString (lit "1"))])]).
Proof.
  split; [|vm_compute; reflexivity].
  intros k vs [[= <- <-]|[[= <- <-]|[]]]; (split; [discriminate|]); intros s Hs; cbn in Hs; intuition (subst; discriminate).
Qed.

(** No panic if no list is empty, and options and units are not inside of sequences. *)
Theorem C44_types_partial : forall (F : Type) (pf : bool -> str -> F + str) msg tg es p, (forall e, tg <> TgAny e) ->
  (forall k vs, In (k, vs) es -> vs <> []) -> target_options_outside tg ->
  from_cow_map pf msg tg es <> Panics p.
Proof. exact (@outside_map_total). Qed.
Print Assumptions C44_types_partial.

Example C44_example :
  target_options_outside (F:=unit) (TgStruct [Field (lit "a") (TOption (TVec (TInt u8))) None] true) /\
  (forall k vs, In (k, vs) [(lit "a", [lit ""; lit "5"])] -> vs <> []).
Proof. split; [intros f [<-|[]]; exact Logic.I|]. intros k vs [[= <- <-]|[]]. discriminate. Qed.

(** * C45: structs *)

Theorem C45_struct : forall (F : Type) (pf : bool -> str -> F + str) msg it1 it2,
  iteration it1 -> iteration it2 -> forall (X : Type) src (c : context X) q, has_data src c q ->
  forall fs deny l ps, form_pairs q ps -> NoDup (map f_name fs) ->
  read_from pf msg it1 it2 src (TgStruct fs deny) c = inl (inl (RStruct l)) <->
  Forall2 (field_value pf ps) fs l /\
  (deny = true -> forall k, values_of k ps <> [] -> In k (map f_name fs)).
Proof. exact (@struct_api). Qed.
Print Assumptions C45_struct.

Example C45_struct_example :
  let fs := [Field (F:=unit) (lit "id") (TInt i32) None; Field (lit "tags") (TVec TString) None] in
  exists ps, form_pairs (utf8 (lit "tags=a&id=5&tags=b")) ps /\ NoDup (map f_name fs) /\
  Forall2 (field_value no_float ps) fs [VInt 5; VSeq [VString (lit "a"); VString (lit "b")]] /\
  (forall k, values_of k ps <> [] -> In k (map f_name fs)) /\
  read_from no_float no_msg (fun l => l) (@rev _) FromBody (TgStruct fs true) (sent (lit "tags=a&id=5&tags=b")) =
  inl (inl (RStruct [VInt 5; VSeq [VString (lit "a"); VString (lit "b")]])).
Proof.
  intros fs. exists [(lit "tags", lit "a"); (lit "id", lit "5"); (lit "tags", lit "b")].
  split; [apply parse_spec; reflexivity|]. split; [repeat constructor; cbn; intuition discriminate|]. split.
  - constructor; [|constructor; [|constructor]]; left; (split; [discriminate|]).
    + exists []. apply rd_scalar, st_int, parse_int_spec. reflexivity.
    + exists []. apply rd_vec; [discriminate|]. repeat (eapply ra_cons; [apply rd_scalar, st_string|]). apply ra_nil.
  - split; [|vm_compute; reflexivity]. intros k. unfold values_of. cbn [filter fst snd].
    destruct (BaseFacts.str_eqb_spec k (lit "tags")) as [->|]; [right; left; reflexivity|].
    destruct (BaseFacts.str_eqb_spec k (lit "id")) as [->|]; [left; reflexivity|]. intros K. contradiction K. reflexivity.
Qed.

Theorem C45_struct_or_error : forall (F : Type) (pf : bool -> str -> F + str) msg it1 it2,
  iteration it1 -> iteration it2 -> forall (X : Type) src (c : context X) q, has_data src c q ->
  forall fs deny, NoDup (map f_name fs) ->
  (exists l, read_from pf msg it1 it2 src (TgStruct fs deny) c = inl (inl (RStruct l))) \/
  (exists e, read_from pf msg it1 it2 src (TgStruct fs deny) c = inr (EForm e)).
Proof. exact (@struct_or_error_api). Qed.
Print Assumptions C45_struct_or_error.

Example C45_error_example :
  let fs := [Field (F:=unit) (lit "id") (TInt i32) None] in
  NoDup (map f_name fs) /\ has_data FromQuery (asked (lit "id=x")) (utf8 (lit "id=x")) /\
  read_from no_float no_msg (fun l => l) (fun l => l) FromQuery (TgStruct fs false) (asked (lit "id=x")) =
  inr (EForm (FMessage int_invalid)).
Proof. split; [repeat constructor; auto|]. split; [apply asked_data|]. vm_compute. reflexivity. Qed.

(** The error names the first required field that is absent, if all present fields
    can be read. *)
Theorem C45_missing_field : forall (F : Type) (pf : bool -> str -> F + str) msg it1 it2,
  iteration it1 -> iteration it2 -> forall (X : Type) src (c : context X) q, has_data src c q ->
  forall fs deny pre f post ps, form_pairs q ps -> NoDup (map f_name fs) ->
  (deny = true -> forall k, values_of k ps <> [] -> In k (map f_name fs)) ->
  (forall g, In g fs -> values_of (f_name g) ps <> [] ->
     exists v, gives pf (f_type g) (values_of (f_name g) ps) v) ->
  fs = pre ++ f :: post -> (forall g, In g pre -> exists v, field_value pf ps g v) ->
  required f -> values_of (f_name f) ps = [] ->
  read_from pf msg it1 it2 src (TgStruct fs deny) c =
  inr (EForm (FMessage (lit "missing field `" ++ f_name f ++ lit "`"))).
Proof. exact (@missing_field_api). Qed.
Print Assumptions C45_missing_field.

Example C45_missing_example :
  let f := Field (F:=unit) (lit "id") (TInt i32) None in
  let pre := [Field (F:=unit) (lit "a") (TOption TString) None] in let post := [Field (F:=unit) (lit "z") TString None] in
  exists ps, form_pairs (utf8 (lit "z=y&id=")) ps /\ NoDup (map f_name (pre ++ f :: post)) /\
  (forall k, values_of k ps <> [] -> In k (map f_name (pre ++ f :: post))) /\
  (forall g, In g (pre ++ f :: post) -> values_of (f_name g) ps <> [] ->
     exists v, gives no_float (f_type g) (values_of (f_name g) ps) v) /\
  (forall g, In g pre -> exists v, field_value no_float ps g v) /\ required f /\ values_of (f_name f) ps = [] /\
  read_from no_float no_msg (fun l => l) (fun l => l) FromQuery (TgStruct (pre ++ f :: post) true) (asked (lit "z=y&id=")) =
  inr (EForm (FMessage (lit "missing field `id`"))).
Proof.
  intros f pre post. exists [(lit "z", lit "y"); (lit "id", [])].
  split; [apply parse_spec; reflexivity|]. split; [repeat constructor; cbn; intuition discriminate|]. split.
  { intros k. unfold values_of. cbn [filter fst snd]. rewrite Bool.andb_false_r.
    destruct (BaseFacts.str_eqb_spec k (lit "z")) as [->|]; [right; right; left; reflexivity|]. intros K. contradiction K. reflexivity. }
  split.
  { intros g [<-|[<-|[<-|[]]]] N; try (contradiction N; reflexivity).
    exists (VString (lit "y")), []. apply rd_scalar, st_string. }
  split.
  { intros g [<-|[]]. exists VNone. right. split; [reflexivity|]. right. split; [reflexivity|]. split; [exists TString; reflexivity|reflexivity]. }
  split; [split; [reflexivity|intros t; discriminate]|]. split; [reflexivity|]. vm_compute. reflexivity.
Qed.

(** Maps with string keys. *)
Theorem C45_map : forall (F : Type) (pf : bool -> str -> F + str) msg it1 it2,
  iteration it1 -> iteration it2 -> forall (X : Type) src (c : context X) q, has_data src c q ->
  forall t r ps, form_pairs q ps ->
  read_from pf msg it1 it2 src (TgMap KString t) c = inl (inl r) -> exists m, r = RMap m /\ map_of pf ps t m.
Proof. exact (@map_api). Qed.
Print Assumptions C45_map.

Example C45_map_example : exists ps, form_pairs (utf8 (lit "a=1&b=2&a=9")) ps /\
  read_from no_float no_msg (@rev _) (fun l => l) FromBody (TgMap KString (TInt u8)) (sent (lit "a=1&b=2&a=9")) =
  inl (inl (RMap [(lit "b", VInt 2); (lit "a", VInt 1)])).
Proof. eexists. split; [apply parse_spec; reflexivity|]. vm_compute. reflexivity. Qed.

Theorem C45_map_found : forall (F : Type) (pf : bool -> str -> F + str) msg it1 it2,
  iteration it1 -> iteration it2 -> forall (X : Type) src (c : context X) q, has_data src c q ->
  forall t m ps, form_pairs q ps -> map_of pf ps t m ->
  exists m', read_from pf msg it1 it2 src (TgMap KString t) c = inl (inl (RMap m')) /\ Permutation m m'.
Proof. exact (@map_found_api). Qed.
Print Assumptions C45_map_found.

Example C45_map_found_example : exists ps, form_pairs (utf8 (lit "a=1&b=2&a=9")) ps /\
  map_of no_float ps (TInt u8) [(lit "a", VInt 1); (lit "b", VInt 2)].
Proof.
  exists [(lit "a", lit "1"); (lit "b", lit "2"); (lit "a", lit "9")]. split; [apply parse_spec; reflexivity|].
  split; [repeat constructor; cbn; intuition discriminate|]. split.
  - intros k v [[= <- <-]|[[= <- <-]|[]]]; (split; [discriminate|]); eexists; apply rd_scalar, st_int, parse_int_spec; reflexivity.
  - intros k. unfold values_of. cbn [filter fst snd].
    destruct (BaseFacts.str_eqb_spec k (lit "a")) as [->|]; [intros _; eexists; left; reflexivity|].
    destruct (BaseFacts.str_eqb_spec k (lit "b")) as [->|]; [intros _; eexists; right; left; reflexivity|]. intros K. contradiction K. reflexivity.
Qed.

Example C45_example :
  let fs := [Field (F:=unit) (lit "id") (TInt i32) None; Field (lit "tags") (TVec TString) None;
             Field (lit "note") (TOption TString) None; Field (lit "page") (TInt u8) (Some (VInt 1))] in
  let q := utf8 (lit "tags=a+b&x=1&id=-5&tags=c%26d&id=9") in
  NoDup (map f_name fs) /\
  parse_queries (fun _ _ => inr []) (fun _ => []) (@rev _) (fun l => l) (TgStruct fs false) q =
  Done (RStruct [VInt (-5); VSeq [VString (lit "a b"); VString (lit "c&d")]; VNone; VInt 1]) /\
  parse_queries (fun _ _ => inr []) (fun _ => []) (@rev _) (fun l => l) (TgStruct fs false) (utf8 (lit "id=1")) =
  Fail (FMessage (lit "missing field `tags`")).
Proof.
  intros fs q. split; [repeat constructor; cbn; intuition discriminate|]. split; vm_compute; reflexivity.
Qed.

(** * C46: scalars and sequences *)

Theorem C46_first_value : forall (F : Type) (pf : bool -> str -> F + str) msg it1 it2,
  iteration it1 -> iteration it2 -> forall (X : Type) src (c : context X) q, has_data src c q ->
  forall fs deny l f v s rest ps, form_pairs q ps -> NoDup (map f_name fs) ->
  read_from pf msg it1 it2 src (TgStruct fs deny) c = inl (inl (RStruct l)) -> In (f, v) (combine fs l) ->
  values_of (f_name f) ps = s :: rest ->
  is_scalar (f_type f) -> scalar_text pf (f_type f) s v.
Proof. exact (@scalar_api). Qed.
Print Assumptions C46_first_value.

Example C46_first_example :
  let fs := [Field (F:=unit) (lit "n") (TInt u8) None; Field (lit "b") TBool None] in
  exists ps, form_pairs (utf8 (lit "n=7&b=true&n=x")) ps /\ NoDup (map f_name fs) /\
  read_from no_float no_msg (fun l => l) (fun l => l) FromQuery (TgStruct fs false) (asked (lit "n=7&b=true&n=x")) =
  inl (inl (RStruct [VInt 7; VBool true])) /\
  values_of (lit "n") ps = [lit "7"; lit "x"] /\ is_scalar (TInt u8) /\ scalar_text no_float (TInt u8) (lit "7") (VInt 7).
Proof.
  eexists. split; [apply parse_spec; reflexivity|]. split; [repeat constructor; cbn; intuition discriminate|].
  split; [vm_compute; reflexivity|]. split; [reflexivity|]. split; [exact Logic.I|]. apply st_int, parse_int_spec. reflexivity.
Qed.

Theorem C46_all_values : forall (F : Type) (pf : bool -> str -> F + str) msg it1 it2,
  iteration it1 -> iteration it2 -> forall (X : Type) src (c : context X) q, has_data src c q ->
  forall fs deny l f v t ps, form_pairs q ps -> NoDup (map f_name fs) ->
  read_from pf msg it1 it2 src (TgStruct fs deny) c = inl (inl (RStruct l)) -> In (f, v) (combine fs l) ->
  values_of (f_name f) ps <> [] -> f_type f = TVec t -> is_scalar t ->
  exists vs, v = VSeq vs /\ Forall2 (scalar_text pf t) (values_of (f_name f) ps) vs.
Proof. exact (@vec_api). Qed.
Print Assumptions C46_all_values.

Example C46_all_example :
  let fs := [Field (F:=unit) (lit "n") (TVec TBool) None] in
  exists ps, form_pairs (utf8 (lit "n=true&x=1&n=false")) ps /\ NoDup (map f_name fs) /\
  read_from no_float no_msg (fun l => l) (fun l => l) FromBody (TgStruct fs false) (sent (lit "n=true&x=1&n=false")) =
  inl (inl (RStruct [VSeq [VBool true; VBool false]])) /\
  values_of (lit "n") ps = [lit "true"; lit "false"] /\ is_scalar TBool.
Proof.
  eexists. split; [apply parse_spec; reflexivity|]. split; [repeat constructor; auto|].
  split; [vm_compute; reflexivity|]. split; [reflexivity|]. exact Logic.I.
Qed.

(** A text that cannot be read, as the first value of a scalar or any value of a
    vector, is an error. *)
Theorem C46_unreadable : forall (F : Type) (pf : bool -> str -> F + str) msg it1 it2,
  iteration it1 -> iteration it2 -> forall (X : Type) src (c : context X) q, has_data src c q ->
  forall fs deny f s ps, form_pairs q ps -> NoDup (map f_name fs) ->
  In f fs -> In s (values_of (f_name f) ps) ->
  (is_scalar (f_type f) /\ (exists rest, values_of (f_name f) ps = s :: rest) /\ (forall v, ~ scalar_text pf (f_type f) s v) \/
   exists t, f_type f = TVec t /\ is_scalar t /\ forall v, ~ scalar_text pf t s v) ->
  exists e, read_from pf msg it1 it2 src (TgStruct fs deny) c = inr (EForm e).
Proof. exact (@rejects_api). Qed.
Print Assumptions C46_unreadable.

Example C46_example :
  let fs := [Field (F:=unit) (lit "n") (TVec (TInt u8)) None] in
  let q s := parse_queries (fun _ _ => inr []) (fun _ => []) (fun l => l) (fun l => l) (TgStruct fs false) (utf8 (lit s)) in
  q "n=1&n=255" = Done (RStruct [VSeq [VInt 1; VInt 255]]) /\
  q "n=1&n=256" = Fail (FMessage (lit "number too large to fit in target type")).
Proof. split; vm_compute; reflexivity. Qed.

(** * C47: integers *)

(** [str::parse], used for form fields and for path parameters. *)
Theorem C47_parse : forall t s z, parse_int t s = inl z <-> int_text t s z.
Proof. exact parse_int_spec. Qed.
Print Assumptions C47_parse.

Example C47_parse_example : int_text u8 (lit "+255") 255 /\ parse_int u8 (lit "+255") = inl 255%Z.
Proof.
  split; [|reflexivity]. exists (lit "255"). split; [discriminate|]. split.
  { intros c [<-|[<-|[<-|[]]]]; split; discriminate. }
  split; [split; [discriminate|reflexivity]|]. left. split; [right; reflexivity|reflexivity].
Qed.

Theorem C47_param : forall (X : Type) t key (c : context X) z,
  ctx_param (fun s => match parse_int t s with inl z => Some z | inr _ => None end) key c = inl z <->
  exists s, pget key (ctx_params c) = Some s /\ int_text t s z.
Proof. exact (@int_param). Qed.
Print Assumptions C47_param.

Example C47_param_example :
  let c := context_new (X:=unit) (Request GET (lit "/u/-12") None [] [] body_empty) [(lit "id", lit "-12")] in
  pget (lit "id") (ctx_params c) = Some (lit "-12") /\ int_text i32 (lit "-12") (-12) /\
  ctx_param (fun s => match parse_int i32 s with inl z => Some z | inr _ => None end) (lit "id") c = inl (-12)%Z.
Proof. split; [reflexivity|]. split; [apply parse_int_spec; reflexivity|reflexivity]. Qed.

(** Every number written the usual way and encoded is read back. *)
Theorem C47_round_trip : forall (F : Type) (pf : bool -> str -> F + str) msg it1 it2 t k z,
  iteration it1 -> iteration it2 -> Forall scalar k -> in_range t z ->
  forall (X : Type) src (c : context X) q, has_data src c q -> encodes [(k, written z)] q ->
  read_from pf msg it1 it2 src (TgStruct [Field k (TInt t) None] false) c = inl (inl (RStruct [VInt z])).
Proof. exact (@w_int_api). Qed.
Print Assumptions C47_round_trip.

Example C47_example : written (-128) = lit "-128" /\ in_range (Ity true 8) (-128) /\ ~ in_range (Ity true 8) 128 /\
  encodes [(lit "n", written (-128))] (utf8 (lit "n=-128")) /\
  parse_int (Ity true 8) (lit "+007") = inl 7%Z /\ parse_int u8 (lit "-0") = inr int_invalid.
Proof.
  split; [reflexivity|]. split; [split; [discriminate|reflexivity]|]. split; [intros [_ H]; discriminate H|].
  split; [|split; reflexivity].
  change (utf8 (lit "n=-128")) with (standard [(lit "n", written (-128))]). apply standard_encodes.
  intros p [<-|[]]. split; [repeat constructor|apply written_scalar].
Qed.

(** * C48: encoding *)

Theorem C48_round_trip : forall ps q,
  (forall p, In p ps -> Forall scalar (fst p) /\ Forall scalar (snd p)) -> encodes ps q -> parse q = ps.
Proof. exact parse_encoded. Qed.
Print Assumptions C48_round_trip.

Example C48_round_example : let ps := [(lit "a b", lit "c&d")] in
  (forall p, In p ps -> Forall scalar (fst p) /\ Forall scalar (snd p)) /\ encodes ps (utf8 (lit "%61+b=c%26d")).
Proof.
  split; [intros p [<-|[]]; split; repeat constructor|]. exists [utf8 (lit "%61+b=c%26d")]. split; [|reflexivity].
  constructor; [|constructor]. exists (utf8 (lit "%61+b")), (utf8 (lit "c%26d")). split; [|split; [|reflexivity]].
  - exists [[37; 54; 49]; [43]; [98]]%N. split; [|reflexivity]. constructor.
    { apply (wb_hex _ _ 54 49 6 1); [left|left|reflexivity]; split; try reflexivity; split; discriminate. }
    constructor; [apply wb_space; reflexivity|]. constructor; [|constructor].
    apply wb_plain. intros [E|[E|[E|[E|[]]]]]; discriminate.
  - exists [[99]; [37; 50; 54]; [100]]%N. split; [|reflexivity]. constructor.
    { apply wb_plain. intros [E|[E|[E|[]]]]; discriminate. }
    constructor; [apply (wb_hex _ _ 50 54 2 6); [left|left|reflexivity]; split; try reflexivity; split; discriminate|].
    constructor; [|constructor]. apply wb_plain. intros [E|[E|[E|[]]]]; discriminate.
Qed.

(** The standard serializer is such an encoding. *)
Theorem C48_standard : forall ps,
  (forall p, In p ps -> Forall scalar (fst p) /\ Forall scalar (snd p)) -> encodes ps (standard ps).
Proof. exact standard_encodes. Qed.
Print Assumptions C48_standard.

Example C48_standard_example : standard [(lit "a b", lit "c&d"); (lit "x", [])] = utf8 (lit "a+b=c%26d&x=").
Proof. reflexivity. Qed.

(** From the client to the handler: the pairs posted in one chunk are read as the map
    of their non-empty values by key. *)
Theorem C48_posted : forall (F : Type) (pf : bool -> str -> F + str) msg it1 it2 (X : Type) (c : context X) ps,
  iteration it1 -> iteration it2 ->
  (forall p, In p ps -> Forall scalar (fst p) /\ Forall scalar (snd p)) ->
  broken (rq_body (ctx_request c)) = false -> one_chunk (rq_body (ctx_request c)) ->
  encodes ps (body_bytes (rq_body (ctx_request c))) ->
  exists m, fst (ctx_form pf msg it1 it2 (TgMap KString (TVec TString)) c) = inl (inl (RMap m)) /\ NoDup (map fst m) /\
    forall k v, In (k, v) m <-> values_of k ps <> [] /\ v = VSeq (map VString (values_of k ps)).
Proof. exact (@posted). Qed.
Print Assumptions C48_posted.

Example C48_posted_example : let ps := [(lit "a b", lit "c&d"); (lit "x", []); (lit "a b", lit "e")] in
  let c := sent (lit "a+b=c%26d&x=&a+b=e") in
  encodes ps (body_bytes (rq_body (ctx_request c))) /\ one_chunk (rq_body (ctx_request c)) /\
  fst (ctx_form no_float no_msg (fun l => l) (fun l => l) (TgMap KString (TVec TString)) c) =
  inl (inl (RMap [(lit "a b", VSeq [VString (lit "c&d"); VString (lit "e")])])).
Proof.
  intros ps c. split.
  - change (body_bytes (rq_body (ctx_request c))) with (standard ps). apply standard_encodes.
    intros p [<-|[<-|[<-|[]]]]; split; repeat constructor.
  - split; [|vm_compute; reflexivity]. destruct (sent_data (lit "a+b=c%26d&x=&a+b=e")) as (_ & H & _); [discriminate|exact H].
Qed.

Example C48_example : let ps := [(lit "a&b", [8364; 32; 43]%N); ([], lit "=%")] in
  standard ps = utf8 (lit "a%26b=%E2%82%AC+%2B&=%3D%25") /\ parse (standard ps) = ps /\
  parse (utf8 (lit "a%26b=%e2%82%ac%20%2b&==%25")) = ps.
Proof. repeat split; vm_compute; reflexivity. Qed.

(** * C65: data that is not well-formed *)

(** The data of every request is read as pairs, by the rules of [UrlSpec]: malformed
    escapes stay, ill-formed UTF-8 is replaced. *)
Theorem C65_query : forall (F : Type) (pf : bool -> str -> F + str) msg it1 it2 (X : Type) (c : context X),
  iteration it1 -> iteration it2 ->
  exists ps m, form_pairs (utf8 (match rq_query (ctx_request c) with Some q => q | None => [] end)) ps /\
    ctx_query_params pf msg it1 it2 (TgMap KString (TVec TString)) c = inl (inl (RMap m)) /\ NoDup (map fst m) /\
    forall k v, In (k, v) m <-> values_of k ps <> [] /\ v = VSeq (map VString (values_of k ps)).
Proof. exact (@query_grouped). Qed.
Print Assumptions C65_query.

Example C65_query_example :
  ctx_query_params no_float no_msg (fun l => l) (fun l => l) (TgMap KString (TVec TString)) (asked (lit "a%2=100%&&=x&b%zz=%ff")) =
  inl (inl (RMap [(lit "a%2", VSeq [VString (lit "100%")]); ([], VSeq [VString (lit "x")]); (lit "b%zz", VSeq [VString [65533%N]])])).
Proof. vm_compute. reflexivity. Qed.

(** The rules are complete and consistent. *)
Theorem C65_pairs : forall q, exists ps, form_pairs q ps /\ forall ps', form_pairs q ps' -> ps' = ps.
Proof. exact pairs_exist. Qed.
Print Assumptions C65_pairs.

Example C65_pairs_example : form_pairs (utf8 (lit "&%4=+&")) [(lit "%4", lit " ")] /\
  ~ form_pairs (utf8 (lit "&%4=+&")) [([], []); (lit "%4", lit " ")].
Proof.
  split; [apply parse_spec; reflexivity|]. intros H. apply parse_spec in H. discriminate H.
Qed.

Theorem C65_parse : forall q ps, parse q = ps <-> form_pairs q ps.
Proof. exact parse_spec. Qed.
Print Assumptions C65_parse.

(** "a%2=100%&b%zz=%ff%E2%82x&=&c" *)
Example C65_example : form_pairs (utf8 (lit "a%2=100%&b%zz=%ff%E2%82x&=&c"))
  [(lit "a%2", lit "100%"); (lit "b%zz", [65533; 65533; 120]%N); ([], []); (lit "c", [])].
Proof. apply parse_spec. vm_compute. reflexivity. Qed.

(** * C50: sequences of options *)

Theorem C50_refuted : forall (F : Type) (pf : bool -> str -> F + str) msg,
  exists k l r,
    from_cow_map pf msg (TgMap KString (TVec (TOption TString))) [(k, l)] = Done (RMap [(k, VSeq r)]) /\
    length r <> length l.
Proof. exact (@w_lost_element). Qed.
Print Assumptions C50_refuted.

(** What happens: the text after each empty one is skipped. *)
Theorem C50_skipped_partial : forall (F : Type) (pf : bool -> str -> F + str) msg k l,
  from_cow_map pf msg (TgMap KString (TVec (TOption TString))) [(k, l)] =
  match skipping l with
  | Some r => Done (RMap [(k, VSeq (map option_value r))])
  | None => Panics PIndex
  end.
Proof. exact (@skipping_result). Qed.
Print Assumptions C50_skipped_partial.

Example C50_skipped_example : 
  from_cow_map no_float no_msg (TgMap KString (TVec (TOption TString))) [(lit "k", [lit "a"; []; lit "b"; lit "c"])] =
  Done (RMap [(lit "k", VSeq [VSome (VString (lit "a")); VNone; VSome (VString (lit "c"))])]).
Proof. vm_compute. reflexivity. Qed.

(** True without empty texts. *)
Theorem C50_partial : forall (F : Type) (pf : bool -> str -> F + str) msg k l,
  l <> [] -> (forall s, In s l -> s <> []) ->
  from_cow_map pf msg (TgMap KString (TVec (TOption TString))) [(k, l)] =
  Done (RMap [(k, VSeq (map (fun s => VSome (VString s)) l))]).
Proof. exact (@no_empty_options). Qed.
Print Assumptions C50_partial.

Example C50_example : skipping [lit "a"; []; lit "b"; lit "c"] = Some [Some (lit "a"); None; Some (lit "c")] /\
  skipping [lit "a"; []] = None.
Proof. split; reflexivity. Qed.

(** * C51: keys of maps *)

Theorem C51_refuted : forall (F : Type) (pf : bool -> str -> F + str) msg,
  exists es e, NoDup (map fst es) /\
    (forall k vs, In (k, vs) es -> (exists z, int_text i32 k z) /\ vs <> []) /\
    from_cow_map pf msg (TgMap KNumber TString) es = Fail e.
Proof. exact (@w_number_key). Qed.
Print Assumptions C51_refuted.

(** In fact always, unless there is no entry, and for all the other types of keys as well.
    String keys work ([C45_map]). *)
Theorem C51_never_partial : forall (F : Type) (pf : bool -> str -> F + str) msg es kt t,
  kt <> KString -> es <> [] -> exists e, from_cow_map pf msg (TgMap kt t) es = Fail e.
Proof. exact (@number_keys_fail). Qed.
Print Assumptions C51_never_partial.

Example C51_never_example : from_cow_map no_float no_msg (TgMap KNumber TString) [(lit "7", [lit "x"]); (lit "8", [lit "y"])] =
  Fail (FMessage []).
Proof. vm_compute. reflexivity. Qed.

(** * C68: enums *)

(** Refuted: a field whose type is an enum of unit variants does not read their names. *)
Theorem C68_refuted : forall (F : Type) (pf : bool -> str -> F + str) msg it1 it2,
  iteration it1 -> iteration it2 -> exists k names s q, In s names /\ encodes [(k, s)] q /\
  forall (X : Type) src (c : context X), has_data src c q ->
  exists e, read_from pf msg it1 it2 src (TgStruct [Field k (TEnum names) None] false) c = inr (EForm e).
Proof. exact (@w_enum_api). Qed.
Print Assumptions C68_refuted.

(** In fact never: enums are read only when their key is absent. *)
Theorem C68_field_partial : forall (F : Type) (pf : bool -> str -> F + str) msg it1 it2,
  iteration it1 -> iteration it2 -> forall (X : Type) src (c : context X) q, has_data src c q ->
  forall fs deny ps f, form_pairs q ps -> NoDup (map f_name fs) ->
  In f fs -> enum_type (f_type f) -> values_of (f_name f) ps <> [] ->
  exists e, read_from pf msg it1 it2 src (TgStruct fs deny) c = inr (EForm e).
Proof. exact (@enum_field_api). Qed.
Print Assumptions C68_field_partial.

Example C68_field_example :
  let f := Field (F:=unit) (lit "sort") (TVec (TEnum [lit "asc"; lit "desc"])) None in
  exists ps, form_pairs (utf8 (lit "page=1&sort=asc")) ps /\ enum_type (f_type f) /\ values_of (f_name f) ps <> [] /\
  read_from no_float no_msg (fun l => l) (fun l => l) FromQuery (TgStruct [f] false) (asked (lit "page=1&sort=asc")) =
  inr (EForm (FMessage [])).
Proof. eexists. split; [apply parse_spec; reflexivity|]. split; [repeat constructor|]. split; [discriminate|]. vm_compute. reflexivity. Qed.

Theorem C68_map_partial : forall (F : Type) (pf : bool -> str -> F + str) msg it1 it2,
  iteration it1 -> iteration it2 -> forall (X : Type) src (c : context X) q, has_data src c q ->
  forall t ps, form_pairs q ps -> enum_type t -> (exists k, values_of k ps <> []) ->
  exists e, read_from pf msg it1 it2 src (TgMap KString t) c = inr (EForm e).
Proof. exact (@enum_map_api). Qed.
Print Assumptions C68_map_partial.

Example C68_example :
  let sort := TOption (TEnum [lit "asc"; lit "desc"]) in
  let fs := [Field (F:=unit) (lit "sort") sort None] in
  let q s := parse_queries (fun _ _ => inr []) (fun _ => []) (fun l => l) (fun l => l) (TgStruct fs false) (utf8 (lit s)) in
  enum_type sort /\ q "sort=asc" = Fail (FMessage []) /\ q "sort=" = Done (RStruct [VNone]).
Proof. split; [repeat constructor|]. split; vm_compute; reflexivity. Qed.

(** * C69: flattened fields

    [apart]: no two fields, flattened or not, have the same name.  [flat_value ps names
    inner r]: the flattened field gets value [r]; nothing is parsed ([plain]). *)

(** Refuted: an integer field is read in a struct, but not if it is in a flattened one. *)
Theorem C69_refuted : forall (F : Type) (pf : bool -> str -> F + str) msg it1 it2,
  iteration it1 -> iteration it2 -> exists fs gs q l, NoDup (map f_name (fs ++ gs)) /\
  forall (X : Type) src (c : context X), has_data src c q ->
  read_from pf msg it1 it2 src (TgStruct (fs ++ gs) false) c = inl (inl (RStruct l)) /\
  exists e, read_from pf msg it1 it2 src (TgFlat fs (FlatStruct gs)) c = inr (EForm e).
Proof. exact (@w_flat_api). Qed.
Print Assumptions C69_refuted.

(** True if the flattened fields are texts. *)
Theorem C69_texts_partial : forall (F : Type) (pf : bool -> str -> F + str) msg it1 it2,
  iteration it1 -> iteration it2 -> forall (X : Type) src (c : context X) q, has_data src c q ->
  forall fs gs l l',
  NoDup (map f_name (fs ++ gs)) -> (forall g, In g gs -> text_type (f_type g)) -> length l = length fs ->
  read_from pf msg it1 it2 src (TgFlat fs (FlatStruct gs)) c = inl (inl (RFlat l (RStruct l'))) <->
  read_from pf msg it1 it2 src (TgStruct (fs ++ gs) false) c = inl (inl (RStruct (l ++ l'))).
Proof. exact (@flat_texts_api). Qed.
Print Assumptions C69_texts_partial.

Example C69_texts_example :
  let fs := [Field (F:=unit) (lit "id") (TInt i32) None] in let gs := [Field (F:=unit) (lit "q") TString None] in
  let c := sent (lit "q=a&id=7&x=y") in
  NoDup (map f_name (fs ++ gs)) /\ (forall g, In g gs -> text_type (f_type g)) /\
  read_from no_float no_msg (fun l => l) (fun l => l) FromBody (TgFlat fs (FlatStruct gs)) c =
    inl (inl (RFlat [VInt 7] (RStruct [VString (lit "a")]))) /\
  read_from no_float no_msg (fun l => l) (fun l => l) FromBody (TgStruct (fs ++ gs) false) c =
    inl (inl (RStruct [VInt 7; VString (lit "a")])).
Proof.
  split; [repeat constructor; cbn; intuition discriminate|].
  split; [intros g [<-|[]]; repeat constructor|]. split; vm_compute; reflexivity.
Qed.

(** What is read in general. *)
Theorem C69_result_partial : forall (F : Type) (pf : bool -> str -> F + str) msg it1 it2,
  iteration it1 -> iteration it2 -> forall (X : Type) src (c : context X) q, has_data src c q ->
  forall fs inner ps r, form_pairs q ps -> apart fs inner ->
  read_from pf msg it1 it2 src (TgFlat fs inner) c = inl (inl r) ->
  exists l r', r = RFlat l r' /\ Forall2 (field_value pf ps) fs l /\ flat_value ps (map f_name fs) inner r'.
Proof. exact (@flat_result_api). Qed.
Print Assumptions C69_result_partial.

Example C69_result_example :
  let fs := [Field (F:=unit) (lit "id") (TInt i32) None] in
  exists ps, form_pairs (utf8 (lit "q=a&id=7&q=b")) ps /\ apart fs (FlatMap TString) /\
  read_from no_float no_msg (fun l => l) (fun l => l) FromQuery (TgFlat fs (FlatMap TString)) (asked (lit "q=a&id=7&q=b")) =
    inl (inl (RFlat [VInt 7] (RMap [(lit "q", VString (lit "a"))]))).
Proof.
  eexists. split; [apply parse_spec; reflexivity|]. split; [repeat constructor; cbn; auto|]. vm_compute. reflexivity.
Qed.

Theorem C69_found_partial : forall (F : Type) (pf : bool -> str -> F + str) msg it1 it2,
  iteration it1 -> iteration it2 -> forall (X : Type) src (c : context X) q, has_data src c q ->
  forall fs inner ps l r, form_pairs q ps -> apart fs inner ->
  Forall2 (field_value pf ps) fs l -> flat_value ps (map f_name fs) inner r ->
  exists r', read_from pf msg it1 it2 src (TgFlat fs inner) c = inl (inl (RFlat l r')) /\
    same_value (F:=F) (RFlat l r) (RFlat l r').
Proof. exact (@flat_found_api). Qed.
Print Assumptions C69_found_partial.

Example C69_example :
  let fs := [Field (F:=unit) (lit "id") (TInt i32) None] in
  let gs := [Field (F:=unit) (lit "q") TString None; Field (lit "lang") (TOption TString) None] in
  let p tg s := parse_queries (fun _ _ => inr []) (fun _ => []) (fun l => l) (@rev _) tg (utf8 (lit s)) in
  NoDup (map f_name (fs ++ gs)) /\ (forall g, In g gs -> text_type (f_type g)) /\
  p (TgFlat fs (FlatStruct gs)) "q=a&q=b&id=7&x=y" = Done (RFlat [VInt 7] (RStruct [VString (lit "a"); VNone])) /\
  p (TgFlat fs (FlatMap TString)) "q=a&q=b&id=7&x=y" =
    Done (RFlat [VInt 7] (RMap [(lit "x", VString (lit "y")); (lit "q", VString (lit "a"))])).
Proof.
  split; [repeat constructor; cbn; intuition discriminate|].
  split; [intros g [<-|[<-|[]]]; repeat constructor|]. split; vm_compute; reflexivity.
Qed.

(** * C70: forms and query strings *)

Theorem C70_alike : forall (F : Type) (pf : bool -> str -> F + str) msg it1 it2 tg (X Y : Type) (c : context X) (d : context Y),
  broken (rq_body (ctx_request d)) = false -> one_chunk (rq_body (ctx_request d)) ->
  body_bytes (rq_body (ctx_request d)) = utf8 (query_text c) ->
  fst (ctx_form pf msg it1 it2 tg d) = ctx_query_params pf msg it1 it2 tg c.
Proof. exact (@alike). Qed.
Print Assumptions C70_alike.

Example C70_example :
  let c := context_new (Request (X:=unit) GET (lit "/") (Some (lit "a=1")) [] [] body_empty) [] in
  let d := context_new (Request (X:=unit) POST (lit "/") None [] [] (Body [[]; utf8 (lit "a=1")] false)) [] in
  has_data FromQuery c (utf8 (lit "a=1")) /\ has_data FromBody d (utf8 (lit "a=1")) /\
  fst (ctx_form (F:=unit) (fun _ _ => inr []) (fun _ => []) (fun l => l) (fun l => l) (TgMap KString (TInt u8)) d) =
  inl (inl (RMap [(lit "a", VInt 1)])).
Proof.
  split; [reflexivity|]. split; [|reflexivity]. split; [reflexivity|]. split; [|reflexivity].
  right. exists [[]], (utf8 (lit "a=1")), []. split; [reflexivity|]. intros y [[<-|[]]|[]]. reflexivity.
Qed.

(** * C59: percent-encoding in paths *)

Theorem C59_refuted : exists (t : trie nat nat) r s e,
  built [ORoute GET (lit "/u/:id") 0] t /\ search_route t (lit "/u/" ++ e) = LSome r /\
  writes_text [38; 43; 37; 47]%N s (utf8 e) /\ pget (lit "id") (rr_params r) = Some e /\ e <> s.
Proof. exact w_encoded_param. Qed.
Print Assumptions C59_refuted.

(** Parameters hold the segments as written in the request.  Missing: decoding. *)
Theorem C59_raw_partial : forall (H M : Type) (l : list (op H M)) t p m h path b,
  built l t -> registered l p (CRoute m h) -> no_star p -> seg_match p (segments path) b ->
  exists r, search_route t path = LSome r /\ rr_get_route r m = Some (Route m h) /\
            forall n, pget n (rr_params r) = first_binding b n.
Proof. exact (@found_route). Qed.
Print Assumptions C59_raw_partial.

Example C59_raw_example : exists t, @built nat nat [ORoute GET (lit "/u/:id") 0] t /\
  registered (M:=nat) [ORoute GET (lit "/u/:id") 0] [lit "u"; lit ":id"] (CRoute GET 0) /\ no_star [lit "u"; lit ":id"] /\
  seg_match [lit "u"; lit ":id"] (segments (lit "/u/a%20b")) [(lit "id", lit "a%20b")] /\
  exists r, search_route t (lit "/u/a%20b") = LSome r /\ pget (lit "id") (rr_params r) = Some (lit "a%20b").
Proof.
  eexists. split; [apply built_check; [reflexivity|vm_compute; reflexivity]|]. split; [vm_compute; tauto|].
  split; [intros [E|[E|[]]]; discriminate|]. split.
  - vm_compute. apply sm_lit; [split; [discriminate|intros [? E]; discriminate]|]. apply sm_par. apply sm_nil.
  - eexists. split; vm_compute; reflexivity.
Qed.
