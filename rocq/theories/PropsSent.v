(** Property C89: structs sent in a query or a form.

    [sent_as pf fs vs ps]: the pairs [ps] are the struct with the fields [fs] and the values [vs], as a client writes it:
    numbers in decimal, [None] left out, one pair per element of a vector or tuple.  [comes_back ps f v]: the texts of the
    field are not empty, or it gets [v] without any ([SentSpec]).  [read_from], [has_data], [encodes] are in [FormSpec]. *)

From Coq Require Import String ZArith.
From Verif Require Import Base Utf8 RouteTrie Http Form App AppSpec UrlSpec FormSpec UserSpec Wire WireSpec SentSpec.
From Verif Require Import FormLemmas UrlFacts FormWitness WireLemmas SentLemmas.
Local Open Scope string_scope.
Local Open Scope list_scope.

(** * C89: a struct sent in a query or a form comes back as it was *)

(** Refuted: [Some("")] comes back as [None]... *)
Theorem C89_refuted : forall (F : Type) (pf : bool -> str -> F + str) msg it1 it2, iteration it1 -> iteration it2 ->
  exists fs v v' ps q, NoDup (map f_name fs) /\ sent_as pf fs [v] ps /\ encodes ps q /\ v <> v' /\
    forall (X : Type) src (c : context X), has_data src c q ->
      read_from pf msg it1 it2 src (TgStruct fs false) c = inl (inl (RStruct [v'])).
Proof. exact (@some_lost). Qed.
Print Assumptions C89_refuted.

(** ... a vector with an empty string comes back without it... *)
Theorem C89_element_refuted : forall (F : Type) (pf : bool -> str -> F + str) msg it1 it2, iteration it1 -> iteration it2 ->
  exists fs v v' ps q, NoDup (map f_name fs) /\ sent_as pf fs [VSeq v] ps /\ encodes ps q /\ length v <> length v' /\
    forall (X : Type) src (c : context X), has_data src c q ->
      read_from pf msg it1 it2 src (TgStruct fs false) c = inl (inl (RStruct [VSeq v'])).
Proof. exact (@element_lost). Qed.
Print Assumptions C89_element_refuted.

(** ... and an empty string or an empty vector in a field without default is always an error. *)
Theorem C89_empty_refuted : forall (F : Type) (pf : bool -> str -> F + str) msg it1 it2, iteration it1 -> iteration it2 ->
  forall (X : Type) src (c : context X) q, has_data src c q -> forall k t v deny ps, Forall scalar k ->
  sent_as pf [Field k t None] [v] ps -> encodes ps q ->
  (t = TString /\ v = VString [] \/ exists t', t = TVec t' /\ v = VSeq []) ->
  read_from pf msg it1 it2 src (TgStruct [Field k t None] deny) c = inr (EForm (FMessage (lit "missing field `" ++ k ++ lit "`"))).
Proof. exact (@empty_missing). Qed.
Print Assumptions C89_empty_refuted.

Example C89_empty_example :
  sent_as no_float [Field (lit "name") TString None] [VString []] [(lit "name", [])] /\
  encodes [(lit "name", [])] (utf8 (lit "name=")) /\
  sent_as no_float [Field (lit "name") (TVec TBool) None] [VSeq []] [] /\ encodes [] [].
Proof.
  split; [|split; [|split]].
  - split; [constructor; [apply sd_one; constructor|constructor]|intros p [<-|[]]; left; reflexivity].
  - change (utf8 (lit "name=")) with (standard [(lit "name", [])]). apply standard_encodes.
    intros p [<-|[]]. split; repeat (constructor; [left; reflexivity|]); constructor.
  - split; [constructor; [apply sd_vec; constructor|constructor]|intros p []].
  - exists []. split; [constructor|reflexivity].
Qed.

(** Exactly the structs come back whose fields all do. *)
Theorem C89_partial : forall (F : Type) (pf : bool -> str -> F + str) msg it1 it2, iteration it1 -> iteration it2 ->
  forall (X : Type) src (c : context X) q, has_data src c q ->
  forall fs deny vs ps, NoDup (map f_name fs) -> sent_as pf fs vs ps ->
  (forall p, In p ps -> Forall scalar (fst p) /\ Forall scalar (snd p)) -> encodes ps q ->
  (read_from pf msg it1 it2 src (TgStruct fs deny) c = inl (inl (RStruct vs)) <-> Forall2 (comes_back ps) fs vs).
Proof. exact (@struct_back). Qed.
Print Assumptions C89_partial.

(** Pairs in another order than the fields, a vector in two pieces, an option left out. *)
Example C89_example :
  let fs := [Field (F:=unit) (lit "id") (TInt i32) None; Field (lit "tags") (TVec TString) None; Field (lit "page") (TOption (TInt u8)) None] in
  let vs := [VInt (-5); VSeq [VString (lit "a&b"); VString (lit "c")]; VNone] in
  let ps := [(lit "tags", lit "a&b"); (lit "id", lit "-5"); (lit "tags", lit "c")] in
  NoDup (map f_name fs) /\ sent_as no_float fs vs ps /\ Forall2 (comes_back ps) fs vs /\
  (forall p, In p ps -> Forall scalar (fst p) /\ Forall scalar (snd p)) /\
  encodes ps (utf8 (lit "tags=a%26b&id=-5&tags=c")) /\
  read_from no_float no_msg (fun l => l) (fun l => l) FromQuery (TgStruct fs true) (asked (lit "tags=a%26b&id=-5&tags=c")) = inl (inl (RStruct vs)).
Proof.
  cbv zeta. assert (Sc : forall p, In p [(lit "tags", lit "a&b"); (lit "id", lit "-5"); (lit "tags", lit "c")] -> Forall scalar (fst p) /\ Forall scalar (snd p)).
  { intros p [<-|[<-|[<-|[]]]]; split; repeat (constructor; [left; reflexivity|]); constructor. }
  split; [repeat constructor; cbn; intuition discriminate|]. split; [split|split; [|split; [exact Sc|split; [|vm_compute; reflexivity]]]].
  - constructor; [|constructor; [|constructor; [|constructor]]].
    + apply sd_one. apply (so_int _ i32 (-5)). split; [discriminate|reflexivity].
    + apply sd_vec. repeat constructor.
    + apply sd_none.
  - intros p [<-|[<-|[<-|[]]]]; cbn; auto.
  - constructor; [|constructor; [|constructor; [|constructor]]].
    + left. split; [discriminate|]. intros s [<-|[]]. discriminate.
    + left. split; [discriminate|]. intros s [<-|[<-|[]]]; discriminate.
    + right. split; [intros s []|]. right. split; reflexivity.
  - change (utf8 (lit "tags=a%26b&id=-5&tags=c")) with (standard [(lit "tags", lit "a&b"); (lit "id", lit "-5"); (lit "tags", lit "c")]).
    apply standard_encodes. exact Sc.
Qed.

(** From the request line: such a struct is what [query_params] gives. *)
Theorem C89_requested_partial : forall (F : Type) (pf : bool -> str -> F + str) msg it1 it2 (X : Type) other ms m (p q : str) headers b ps fs deny vs,
  iteration it1 -> iteration it2 ->
  In (ms, m) known_methods -> (exists r, p = c_slash :: r) -> Forall path_char p ->
  (forall x, In x ps -> Forall scalar (fst x) /\ Forall scalar (snd x)) -> encodes ps q -> Forall query_char q ->
  (N.of_nat (length (p ++ 63%N :: q)) <= 65534)%N ->
  NoDup (map f_name fs) -> sent_as pf fs vs ps -> Forall2 (comes_back ps) fs vs ->
  exists rq : request X, arrives other ms (p ++ 63%N :: q) headers b = Some rq /\ rq_method rq = m /\ rq_path rq = p /\
    forall c : context X, rq_query (ctx_request c) = rq_query rq ->
      ctx_query_params pf msg it1 it2 (TgStruct fs deny) c = inl (inl (RStruct vs)).
Proof. exact (@struct_sent). Qed.
Print Assumptions C89_requested_partial.

Example C89_requested_example : forall X other headers b,
  arrives (X:=X) other (lit "GET") (lit "/find?id=7&q=a+b") headers b = Some (Request GET (lit "/find") (Some (lit "id=7&q=a+b")) headers [] b) /\
  sent_as no_float [Field (lit "id") (TInt u8) None; Field (lit "q") TString None] [VInt 7; VString (lit "a b")]
    [(lit "id", lit "7"); (lit "q", lit "a b")] /\
  ctx_query_params no_float no_msg (fun l => l) (fun l => l) (TgStruct [Field (lit "id") (TInt u8) None; Field (lit "q") TString None] true)
    (asked (lit "id=7&q=a+b")) = inl (inl (RStruct [VInt 7; VString (lit "a b")])).
Proof.
  intros. split; [reflexivity|]. split; [split|vm_compute; reflexivity].
  - constructor; [|constructor; [|constructor]]; apply sd_one; [apply (so_int _ u8 7); split; [discriminate|reflexivity]|constructor].
  - intros p [<-|[<-|[]]]; cbn; auto.
Qed.
