(** Property C95 and an addition to C42: structs whose fields have aliases as the target of [query_params] and
    [form].

    [alias_from src fs deny c]: what a handler gets; [name_of f n]: [n] is the name or an
    alias of [f]; [present ps n]: the pairs [ps] have values for [n]; [alias_value ps f v]:
    [v] is the value of [f], read from the only one of its names that is present, or its
    default if none is; [renamed fs p p']: [p'] is the pair [p] with the own name of the field
    its key names; [twice ps f]: two names of [f] are present; [different fs]: no two
    fields have a name in common ([AliasSpec]). *)

From Coq Require Import String ZArith.
From Verif Require Import Base Utf8 RouteTrie UrlEncoded Http Form AppSpec FormSpec UrlSpec Alias AliasSpec.
From Verif Require Import BaseFacts UrlLemmas FormWitness AliasLemmas AliasLemmas2 AliasWitness.
Local Open Scope string_scope.
Local Open Scope list_scope.

(** * C95: a field is read from whichever of its names is there *)

Theorem C95_struct : forall (F : Type) (pf : bool -> str -> F + str) msg fs, different fs -> forall it1 it2,
  iteration it1 -> iteration it2 -> forall (X : Type) src (c : context X) q, has_data src c q ->
  forall deny l ps, form_pairs q ps ->
  alias_from pf msg it1 it2 src fs deny c = inl (inl (RStruct l)) <->
  Forall2 (alias_value pf ps) fs l /\ (deny = true -> forall k, present ps k -> exists f, In f fs /\ name_of f k).
Proof. exact (@alias_struct_api). Qed.
Print Assumptions C95_struct.

(** [labelled] is [{ #[serde(alias = "ident")] id: i32,
    #[serde(alias = "tag", alias = "labels")] tags: Vec<String> }]. *)
Example C95_struct_example : different labelled /\
  has_data FromQuery (asked (lit "tag=a&ident=5&tag=b")) (utf8 (lit "tag=a&ident=5&tag=b")) /\
  (exists ps, form_pairs (utf8 (lit "tag=a&ident=5&tag=b")) ps /\
     Forall2 (alias_value no_float ps) labelled [VInt 5; VSeq [VString (lit "a"); VString (lit "b")]] /\
     forall k, present ps k -> exists f, In f labelled /\ name_of f k) /\
  alias_from no_float no_msg (fun l => l) (@rev _) FromQuery labelled true (asked (lit "tag=a&ident=5&tag=b")) =
  inl (inl (RStruct [VInt 5; VSeq [VString (lit "a"); VString (lit "b")]])).
Proof.
  assert (E : alias_from no_float no_msg (fun l => l) (@rev _) FromQuery labelled true (asked (lit "tag=a&ident=5&tag=b")) =
  inl (inl (RStruct [VInt 5; VSeq [VString (lit "a"); VString (lit "b")]]))) by (vm_compute; reflexivity).
  split; [apply labelled_different|]. split; [apply asked_data|]. split; [|exact E].
  eexists. split; [apply parse_spec; reflexivity|].
  destruct (proj1 (C95_struct _ no_float no_msg labelled labelled_different _ _ iteration_id iteration_rev _ FromQuery _ _ (asked_data _) true _ _
    (proj1 (parse_spec _ _) eq_refl)) E) as [V K].
  split; [exact V|exact (K eq_refl)].
Qed.

(** Never a panic. *)
Theorem C95_or_error : forall (F : Type) (pf : bool -> str -> F + str) msg fs, different fs -> forall it1 it2,
  iteration it1 -> iteration it2 -> forall (X : Type) src (c : context X) q, has_data src c q -> forall deny,
  (exists l, alias_from pf msg it1 it2 src fs deny c = inl (inl (RStruct l))) \/
  (exists e, alias_from pf msg it1 it2 src fs deny c = inr (EForm e)).
Proof. exact (@alias_or_error_api). Qed.
Print Assumptions C95_or_error.

Example C95_or_error_example : different labelled /\ has_data FromBody (sent (lit "ident=x&tag=a")) (utf8 (lit "ident=x&tag=a")) /\
  alias_from no_float no_msg (fun l => l) (fun l => l) FromBody labelled false (sent (lit "ident=x&tag=a")) =
  inr (EForm (FMessage (lit "invalid digit found in string"))).
Proof. split; [apply labelled_different|]. split; [apply sent_data; discriminate|]. vm_compute. reflexivity. Qed.

(** A field given under two names is an error, also if it is a sequence: the values are not
    put together, and none is dropped. *)
Theorem C95_twice : forall (F : Type) (pf : bool -> str -> F + str) msg fs, different fs -> forall it1 it2,
  iteration it1 -> iteration it2 -> forall (X : Type) src (c : context X) q, has_data src c q ->
  forall deny f ps, form_pairs q ps -> In f fs -> twice ps f ->
  exists e, alias_from pf msg it1 it2 src fs deny c = inr (EForm e).
Proof. exact (@alias_twice_error_api). Qed.
Print Assumptions C95_twice.

Example C95_twice_example : exists ps f, form_pairs (utf8 (lit "id=5&tag=a&labels=b&id=6")) ps /\ In f labelled /\ twice ps f /\
  f_name (a_field f) = lit "tags" /\
  (forall n, n = lit "id" \/ n = lit "tag" \/ n = lit "labels" <-> present ps n) /\
  alias_from no_float no_msg (fun l => l) (fun l => l) FromQuery labelled false (asked (lit "id=5&tag=a&labels=b&id=6")) =
  inr (EForm (FMessage (lit "duplicate field `tags`"))).
Proof.
  eexists. exists (AField (Field (lit "tags") (TVec TString) None) [lit "tag"; lit "labels"]).
  split; [apply parse_spec; reflexivity|]. split; [right; left; reflexivity|]. split.
  { exists (lit "tag"), (lit "labels"). split; [right; left; reflexivity|]. split; [right; right; left; reflexivity|].
    repeat split; discriminate. }
  split; [reflexivity|]. split; [|vm_compute; reflexivity].
  intros n. split.
  - intros [->|[->| ->]]; discriminate.
  - intros P. apply values_some in P as (s & [[= <- <-]|[[= <- <-]|[[= <- <-]|[[= <- <-]|[]]]]] & _); auto.
Qed.

(** What it says, if nothing else is wrong: the field's own name. *)
Theorem C95_twice_text : forall (F : Type) (pf : bool -> str -> F + str) msg fs, different fs -> forall it1 it2,
  iteration it1 -> iteration it2 -> forall (X : Type) src (c : context X) q, has_data src c q ->
  forall deny f ps, form_pairs q ps -> In f fs -> twice ps f ->
  (deny = true -> forall k, present ps k -> exists g, In g fs /\ name_of g k) ->
  (forall g n, In g fs -> name_of g n -> present ps n -> exists v, gives pf (f_type (a_field g)) (values_of n ps) v) ->
  (forall g, In g fs -> twice ps g -> g = f) ->
  alias_from pf msg it1 it2 src fs deny c =
  inr (EForm (FMessage (lit "duplicate field `" ++ f_name (a_field f) ++ lit "`"))).
Proof. exact (@alias_twice_api). Qed.
Print Assumptions C95_twice_text.

Example C95_twice_text_example : let ps := [(lit "id", lit "5"); (lit "ident", lit "6"); (lit "x", lit "1")] in
  let f := AField (F:=unit) (Field (lit "id") (TInt i32) None) [lit "ident"] in
  form_pairs (utf8 (lit "id=5&ident=6&x=1")) ps /\ In f labelled /\ twice ps f /\
  (forall g n, In g labelled -> name_of g n -> present ps n -> exists v, gives no_float (f_type (a_field g)) (values_of n ps) v) /\
  (forall g, In g labelled -> twice ps g -> g = f).
Proof.
  intros ps f. assert (Z : forall n, In n [lit "tags"; lit "tag"; lit "labels"] -> ~ present ps n).
  { intros n I P. apply values_some in P as (s & [[= <- <-]|[[= <- <-]|[[= <- <-]|[]]]] & _); cbn in I; intuition discriminate. }
  split; [apply parse_spec; reflexivity|]. split; [left; reflexivity|]. split.
  { exists (lit "id"), (lit "ident"). split; [left; reflexivity|]. split; [right; left; reflexivity|]. repeat split; discriminate. }
  split.
  - intros g n [<-|[<-|[]]] N P.
    + destruct N as [->|[<-|[]]]; (eexists; exists []; apply rd_scalar, st_int, FormLemmas.parse_int_spec; reflexivity).
    + destruct (Z n); [|exact P]. destruct N as [->|[<-|[<-|[]]]]; cbn; auto.
  - intros g [<-|[<-|[]]]; [reflexivity|]. intros (n & n' & N & _ & _ & P & _).
    destruct (Z n); [|exact P]. destruct N as [->|[<-|[<-|[]]]]; cbn; auto.
Qed.

(** Aliases change nothing for data without them, the errors included. *)
Theorem C95_own_names : forall (F : Type) (pf : bool -> str -> F + str) msg fs, different fs -> forall it1 it2,
  iteration it1 -> iteration it2 -> forall (X : Type) src (c : context X) q, has_data src c q ->
  forall deny ps, form_pairs q ps -> (forall f n, In f fs -> In n (a_aliases f) -> ~ present ps n) ->
  alias_from pf msg it1 it2 src fs deny c = read_from pf msg it1 it2 src (TgStruct (map a_field fs) deny) c.
Proof. exact (@alias_own_api). Qed.
Print Assumptions C95_own_names.

Example C95_own_names_example : exists ps, form_pairs (utf8 (lit "id=5&tags=a&ident=")) ps /\
  (forall f n, In f labelled -> In n (a_aliases f) -> ~ present ps n) /\
  alias_from no_float no_msg (fun l => l) (fun l => l) FromQuery labelled false (asked (lit "id=5&tags=a&ident=")) =
  inl (inl (RStruct [VInt 5; VSeq [VString (lit "a")]])).
Proof.
  eexists. split; [apply parse_spec; reflexivity|]. split; [|vm_compute; reflexivity].
  intros f n [<-|[<-|[]]] I P; apply values_some in P as (s & [[= <- <-]|[[= <- <-]|[[= <- <-]|[]]]] & N); cbn in I; try (intuition discriminate).
Qed.

(** A struct with aliases is read like the one without them from data in which the aliases
    are replaced, the errors included (in one of the orders of the hash maps). *)
Theorem C95_renamed : forall (F : Type) (pf : bool -> str -> F + str) msg fs, different fs -> forall it1 it2,
  iteration it1 -> iteration it2 -> forall (X : Type) src (c : context X) q, has_data src c q -> forall ps, form_pairs q ps ->
  (forall f, In f fs -> ~ twice ps f) -> forall ps', Forall2 (renamed fs) ps ps' ->
  forall (Y : Type) src' (c' : context Y) q', has_data src' c' q' -> form_pairs q' ps' ->
  exists it3 it4, iteration it3 /\ iteration it4 /\
  forall deny, alias_from pf msg it1 it2 src fs deny c = read_from pf msg it3 it4 src' (TgStruct (map a_field fs) deny) c'.
Proof. exact (@alias_renamed_api). Qed.
Print Assumptions C95_renamed.

Example C95_renamed_example : exists ps ps', form_pairs (utf8 (lit "ident=5x&tag=a&y=1")) ps /\
  form_pairs (utf8 (lit "id=5x&tags=a&y=1")) ps' /\ (forall f, In f labelled -> ~ twice ps f) /\ Forall2 (renamed labelled) ps ps' /\
  alias_from no_float no_msg (fun l => l) (fun l => l) FromQuery labelled false (asked (lit "ident=5x&tag=a&y=1")) =
  inr (EForm (FMessage (lit "invalid digit found in string"))).
Proof.
  eexists. eexists. split; [apply parse_spec; reflexivity|]. split; [apply parse_spec; reflexivity|]. split.
  { intros f I (n & n' & N & N' & Nn & P & P'). apply Nn.
    apply values_some in P as (s & [[= <- <-]|[[= <- <-]|[[= <- <-]|[]]]] & _);
    apply values_some in P' as (s & [[= <- <-]|[[= <- <-]|[[= <- <-]|[]]]] & _); try reflexivity; exfalso;
    destruct I as [<-|[<-|[]]]; unfold name_of in *; cbn in *; intuition discriminate. }
  split; [|vm_compute; reflexivity]. constructor; [|constructor; [|constructor; [|constructor]]]; (split; [reflexivity|]).
  - left. eexists. split; [left; reflexivity|]. split; [right; left; reflexivity|reflexivity].
  - left. eexists. split; [right; left; reflexivity|]. split; [right; left; reflexivity|reflexivity].
  - right. split; [|reflexivity]. intros f [<-|[<-|[]]]; unfold name_of; cbn; intuition discriminate.
Qed.

(** * C42: the order of the hash maps does not matter *)

Theorem C42_alias_partial : forall (F : Type) (pf : bool -> str -> F + str) msg fs, different fs -> forall it1 it2 it3 it4,
  iteration it1 -> iteration it2 -> iteration it3 -> iteration it4 ->
  forall (X : Type) src (c : context X) q, has_data src c q -> forall deny,
  same_reading (alias_from pf msg it1 it2 src fs deny c) (alias_from pf msg it3 it4 src fs deny c).
Proof. exact (@alias_order_api). Qed.
Print Assumptions C42_alias_partial.

Example C42_alias_example :
  alias_from no_float no_msg (fun l => l) (fun l => l) FromQuery labelled false (asked (lit "ident=5&tag=a&tag=b")) =
  inl (inl (RStruct [VInt 5; VSeq [VString (lit "a"); VString (lit "b")]])) /\
  alias_from no_float no_msg (@rev _) (fun l => l) FromQuery labelled false (asked (lit "ident=5&tag=a&tag=b")) =
  inl (inl (RStruct [VInt 5; VSeq [VString (lit "a"); VString (lit "b")]])).
Proof. split; vm_compute; reflexivity. Qed.
