(** Property C97: structs whose fields have aliases read from JSON bodies.

    [from_slice_alias fl fi zf deny fs b]: serde_json's [from_slice] for such a struct, [deny]
    if it has [deny_unknown_fields]; [ctx_read_json_alias]: [Context::json] for it;
    [jname_of f n]: [n] is the name or an alias of [f]; [jdifferent fs]: no two fields have a
    name in common; [jrenamed fs m m']: [m'] is the member [m] under the own name of the field
    it names; [without_aliases deny fs]: the struct without the aliases ([JsonAliasSpec]);
    [json_text j b]: [b] is a text of the document [j]; [loose_text b]: [b] follows the grammar
    of JSON, the contents of its strings aside ([JsonSpec]). *)

From Coq Require Import String ZArith.
From Verif Require Import Base Utf8 RouteTrie Http Form AppSpec Json JsonSpec JsonAlias JsonAliasSpec.
From Verif Require Import JsonAliasLemmas JsonAliasWitness.
Local Open Scope string_scope.
Local Open Scope list_scope.

(** * C97: a body with aliases is read like the body with the names of the fields *)

Theorem C97 : forall (F : Type) (fl : bytes -> option F) (fi : Z -> F) (zf deny : bool) (fs : list (jafield F)),
  jdifferent fs -> forall l l' b b', json_text (JObj l) b -> json_text (JObj l') b' -> Forall2 (jrenamed fs) l l' ->
  from_slice_alias fl fi zf deny fs b = from_slice fl fi zf (without_aliases deny fs) b'.
Proof. exact (@alias_renamed). Qed.
Print Assumptions C97.

(** [{"labels":[true],"ident":7}] is [{"tags":[true],"id":7}]. *)
Example C97_example : forall F (fl : bytes -> option F) fi zf,
  let l := [(lit "labels", JArr [JBool true]); (lit "ident", JNum false 7 [])] in
  let l' := [(lit "tags", JArr [JBool true]); (lit "id", JNum false 7 [])] in
  jdifferent (jlabelled F) /\ json_text (JObj l) (lit "{""labels"":[true],""ident"":7}") /\
  json_text (JObj l') (lit "{""tags"":[true],""id"":7}") /\ Forall2 (jrenamed (jlabelled F)) l l' /\
  from_slice_alias fl fi zf true (jlabelled F) (lit "{""labels"":[true],""ident"":7}") =
    Some (JVStruct [(lit "id", JVInt 7); (lit "tags", JVSeq [JVBool true])]) /\
  from_slice fl fi zf (without_aliases true (jlabelled F)) (lit "{""labels"":[true],""ident"":7}") = None.
Proof.
  intros F fl fi zf l l'. split; [apply jlabelled_different|]. split; [|split; [|split; [|split; reflexivity]]].
  - exact (two_text (lit "labels") _ _ (lit "ident") _ _ eq_refl eq_refl yes_text seven_text).
  - exact (two_text (lit "tags") _ _ (lit "id") _ _ eq_refl eq_refl yes_text seven_text).
  - constructor; [|constructor; [|constructor]]; (split; [reflexivity|]); left.
    + eexists. split; [right; left; reflexivity|]. split; [right; right; left; reflexivity|reflexivity].
    + eexists. split; [left; reflexivity|]. split; [right; left; reflexivity|reflexivity].
Qed.

(** A field given twice, under whichever of its names, is an error. *)
Theorem C97_twice : forall (F : Type) (fl : bytes -> option F) (fi : Z -> F) (zf deny : bool) (fs : list (jafield F)),
  jdifferent fs -> forall f n x n' x' l1 l2 l3 b, In f fs -> jname_of f n -> jname_of f n' ->
  json_text (JObj (l1 ++ (n, x) :: l2 ++ (n', x') :: l3)) b -> from_slice_alias fl fi zf deny fs b = None.
Proof. exact (@alias_twice_json). Qed.
Print Assumptions C97_twice.

Example C97_twice_example : forall F, exists f, In f (jlabelled F) /\ jname_of f (lit "tag") /\ jname_of f (lit "labels") /\
  json_text (JObj ([] ++ (lit "tag", JArr [JBool true]) :: [] ++ (lit "labels", JArr [JBool true]) :: []))
    (lit "{""tag"":[true],""labels"":[true]}").
Proof.
  intros F. eexists. split; [right; left; reflexivity|]. split; [right; left; reflexivity|]. split; [right; right; left; reflexivity|].
  exact (two_text (lit "tag") _ _ (lit "labels") _ _ eq_refl eq_refl yes_text yes_text).
Qed.

(** Documents other than objects, arrays among them, are read as without the aliases. *)
Theorem C97_array : forall (F : Type) (fl : bytes -> option F) (fi : Z -> F) (zf deny : bool) (fs : list (jafield F)),
  forall j b, json_text j b -> (forall l, j <> JObj l) ->
  from_slice_alias fl fi zf deny fs b = from_slice fl fi zf (without_aliases deny fs) b.
Proof. exact (@alias_array). Qed.
Print Assumptions C97_array.

Example C97_array_example : forall F (fl : bytes -> option F) fi zf,
  json_text (JArr [JBool true]) (lit "[true]") /\
  from_slice_alias fl fi zf true [JAField (lit "on") [lit "enabled"] None JTBool] (lit "[true]") = Some (JVStruct [(lit "on", JVBool true)]).
Proof.
  intros F fl fi zf. split; [|reflexivity]. exists [], (lit "[true]"), []. split; [constructor|]. split; [constructor|]. split; [exact yes_text|reflexivity].
Qed.

(** Nothing is read from bytes that do not follow the grammar, as in [C85_grammar_partial]. *)
Theorem C97_grammar : forall (F : Type) (fl : bytes -> option F) (fi : Z -> F) (zf deny : bool) (fs : list (jafield F)) b v,
  from_slice_alias fl fi zf deny fs b = Some v -> loose_text b.
Proof. exact (@alias_grammar). Qed.
Print Assumptions C97_grammar.

(** The document of [C97_example], and the same one with a bracket too many. *)
Example C97_grammar_example : forall F (fl : bytes -> option F) fi zf,
  (exists v, from_slice_alias fl fi zf false (jlabelled F) (lit "{""labels"":[true],""ident"":7} ") = Some v) /\
  from_slice_alias fl fi zf false (jlabelled F) (lit "{""labels"":[true],""ident"":7}}") = None.
Proof. intros F fl fi zf. split; [eexists; reflexivity|reflexivity]. Qed.

(** Without aliases it is the struct of [C82] for any bytes, also those that are no JSON text. *)
Theorem C97_none : forall (F : Type) (fl : bytes -> option F) (fi : Z -> F) (zf deny : bool) (fs : list (jafield F)) b,
  (forall f, In f fs -> ja_aliases f = []) ->
  from_slice_alias fl fi zf deny fs b = from_slice fl fi zf (without_aliases deny fs) b.
Proof. exact (@alias_none). Qed.
Print Assumptions C97_none.

Example C97_none_example : forall F (fl : bytes -> option F) fi zf,
  let fs := [JAField (lit "on") [] None JTBool] in
  (forall f : jafield F, In f fs -> ja_aliases f = []) /\
  from_slice_alias fl fi zf false fs (lit "{""on"":true}") = Some (JVStruct [(lit "on", JVBool true)]) /\
  from_slice_alias fl fi zf false fs (lit "{""on"":true") = None.
Proof. intros F fl fi zf fs. split; [intros f [<-|[]]; reflexivity|split; reflexivity]. Qed.

(** What a handler gets from a body in one chunk. *)
Theorem C97_handler : forall (F : Type) (fl : bytes -> option F) (fi : Z -> F) (zf deny : bool) (fs : list (jafield F)),
  jdifferent fs -> forall (X Y : Type) msg (c : context X) (c' : context Y) l l',
  broken (rq_body (ctx_request c)) = false -> one_chunk (rq_body (ctx_request c)) ->
  broken (rq_body (ctx_request c')) = false -> one_chunk (rq_body (ctx_request c')) ->
  json_text (JObj l) (body_bytes (rq_body (ctx_request c))) -> json_text (JObj l') (body_bytes (rq_body (ctx_request c'))) ->
  Forall2 (jrenamed fs) l l' -> forall v,
  fst (ctx_read_json_alias fl fi zf msg deny fs c) = inl v <->
  fst (ctx_read_json fl fi zf msg (without_aliases deny fs) c') = inl v.
Proof. exact (@json_alias_api). Qed.
Print Assumptions C97_handler.

Example C97_handler_example : forall F (fl : bytes -> option F) fi zf X (x : X) msg,
  let c b := context_new (Request POST (lit "/") None [] [(1%N, x)] (Body [b] false)) [] in
  let b := lit "{""labels"":[true],""ident"":7}" in
  let b' := lit "{""tags"":[true],""id"":7}" in
  (forall b, broken (rq_body (ctx_request (c b))) = false /\ one_chunk (rq_body (ctx_request (c b)))) /\
  json_text (JObj [(lit "labels", JArr [JBool true]); (lit "ident", JNum false 7 [])]) (body_bytes (rq_body (ctx_request (c b)))) /\
  json_text (JObj [(lit "tags", JArr [JBool true]); (lit "id", JNum false 7 [])]) (body_bytes (rq_body (ctx_request (c b')))) /\
  fst (ctx_read_json_alias fl fi zf msg false (jlabelled F) (c b)) =
    inl (JVStruct [(lit "id", JVInt 7); (lit "tags", JVSeq [JVBool true])]).
Proof.
  intros F fl fi zf X x msg c b b'. split; [|split; [|split; [|reflexivity]]].
  - intros b0. split; [reflexivity|]. right. exists [], b0, []. split; [reflexivity|]. intros y [[]|[]].
  - exact (two_text (lit "labels") _ _ (lit "ident") _ _ eq_refl eq_refl yes_text seven_text).
  - exact (two_text (lit "tags") _ _ (lit "id") _ _ eq_refl eq_refl yes_text seven_text).
Qed.

Theorem C97_handler_twice : forall (F : Type) (fl : bytes -> option F) (fi : Z -> F) (zf deny : bool) (fs : list (jafield F)),
  jdifferent fs -> forall (X : Type) msg (c : context X) f n x n' x' l1 l2 l3,
  broken (rq_body (ctx_request c)) = false -> one_chunk (rq_body (ctx_request c)) ->
  In f fs -> jname_of f n -> jname_of f n' ->
  json_text (JObj (l1 ++ (n, x) :: l2 ++ (n', x') :: l3)) (body_bytes (rq_body (ctx_request c))) ->
  fst (ctx_read_json_alias fl fi zf msg deny fs c) = inr (EJson (msg (body_bytes (rq_body (ctx_request c))))).
Proof. exact (@json_alias_twice). Qed.
Print Assumptions C97_handler_twice.

(** Also if both names are given the same value; the names are those of
    [C97_twice_example]. *)
Example C97_handler_twice_example : forall F (fl : bytes -> option F) fi zf X (x : X) msg,
  let b := lit "{""tag"":[true],""labels"":[true]}" in
  let c := context_new (Request POST (lit "/") None [] [(1%N, x)] (Body [b] false)) [] in
  broken (rq_body (ctx_request c)) = false /\ one_chunk (rq_body (ctx_request c)) /\
  json_text (JObj ([] ++ (lit "tag", JArr [JBool true]) :: [] ++ (lit "labels", JArr [JBool true]) :: []))
    (body_bytes (rq_body (ctx_request c))) /\
  fst (ctx_read_json_alias fl fi zf msg false (jlabelled F) c) = inr (EJson (msg b)).
Proof.
  intros F fl fi zf X x msg b c. split; [reflexivity|]. split; [|split; [|reflexivity]].
  - right. exists [], b, []. split; [reflexivity|]. intros y [[]|[]].
  - exact (two_text (lit "tag") _ _ (lit "labels") _ _ eq_refl eq_refl yes_text yes_text).
Qed.
