(** Properties C86, C87: header names given as text.

    [names_header], [same_name], [last_under], [first_under], [values_under], [received_text] and
    [client_gets_text] are specified in [NamesSpec]; [header_name], [header_get] and
    [header_get_all] are what the http crate makes of names given as text, [append_lines] what
    hyper makes of header lines ([Names]).  [q]: whether the release of http takes quotes in names. *)

From Coq Require Import String Lia.
From Verif Require Import Base Utf8 RouteTrie Router TableSpec PropSpec Http App AppSpec ReplySpec Names NamesSpec Wire.
From Verif Require Import RouteFacts RouteLemmas RouteWitness AppLemmas AppWitness NamesLemmas.
Local Open Scope string_scope.
Local Open Scope list_scope.

(** * C86: responses *)

(** Names are tokens; they stand for the same header if they differ in case only. *)
Theorem C86_names : forall q (k : str),
  (header_name q k <> None <-> names_header q k) /\
  forall k', names_header q k -> names_header q k' -> (header_name q k = header_name q k' <-> same_name k k').
Proof. exact header_names. Qed.
Print Assumptions C86_names.

Example C86_names_example : names_header false (lit "X-Id") /\ same_name (lit "X-Id") (lit "x-ID") /\
  header_name false (lit "X-Id") = header_name false (lit "x-ID") /\ header_name true (lit "a b") = None.
Proof.
  destruct (header_names false (lit "X-Id")) as [N S]. destruct (header_names false (lit "x-ID")) as [N' _].
  assert (A : names_header false (lit "X-Id")) by (apply N; discriminate).
  assert (B : names_header false (lit "x-ID")) by (apply N'; discriminate).
  split; [exact A|]. split; [apply (S _ A B); reflexivity|]. split; reflexivity.
Qed.

(** A handler that writes its reply in whatever way is answered with each header under its
    name in lower case, with the last value written under any spelling of it; it panics
    exactly if some name is not a token (or some value cannot be sent). *)
Theorem C86_received : forall (X U A : Type) q (l : list (op (handler X U A) (middleware X U A))) t st (rq : request X) ts ps s bl,
  built l t -> resolves (table_of l) (segments (rq_path rq)) ts ps ->
  handler_for (rq_method rq) (routes_at (table_of l) ts) = Some (reply (header_name q) s bl) ->
  (forall m, In m (mws_for (table_of l) ts) -> exists d, m = logger d) -> proper s -> Forall in_lower (typed_in s bl) ->
  client_gets_text q (serve t st rq) s bl.
Proof. exact (@text_received). Qed.
Print Assumptions C86_received.

(** A type written by hand over the one of the text, in another spelling. *)
Example C86_example : forall X U A : Type,
  let s := HBuild (RStatic (lit "<p>")) in
  let bl := [BHeadersStr [(lit "Content-TYPE", lit "text/html"); (lit "X-Id", lit "1")]; BHeader (lit "x-id") (lit "2")] in
  let h := @reply X U A (header_name true) s bl in
  let l := [@OService (handler X U A) (middleware X U A) (logger true); ORoute GET (lit "/a") h] in
  (exists t ts ps, built l t /\ resolves (table_of l) (segments (lit "/a")) ts ps /\
    handler_for GET (routes_at (table_of l) ts) = Some h /\ mws_for (table_of l) ts = [logger true]) /\
  proper s /\ Forall in_lower (typed_in s bl) /\
  names_header false (lit "Content-TYPE") /\ ~ names_header true (lit "a b") /\ ~ names_header true [] /\
  last_under (lit "content-type") [(lit "Content-Type", lit "1"); (lit "x", lit "2"); (lit "CONTENT-type", lit "3")] (lit "3").
Proof. exact names_example. Qed.

Theorem C86_any_router : forall (X U A : Type) q (t : trie (handler X U A) (middleware X U A)) st (rq : request X) r m s bl,
  search_route t (rq_path rq) = LSome r -> rr_get_route r (rq_method rq) = Some (Route m (reply (header_name q) s bl)) ->
  (forall m, In m (rr_mws r) -> exists d, m = logger d) -> proper s -> Forall in_lower (typed_in s bl) ->
  client_gets_text q (serve t st rq) s bl.
Proof. exact (@text_received_any). Qed.
Print Assumptions C86_any_router.

(** So of two values under two spellings the client gets one. *)
Example C86_spellings : forall X U A : Type,
  let s := HBuild RUnit in
  let bl := [BHeaderStr (lit "X-Id") (lit "1"); BHeaderStr (lit "x-id") (lit "2")] in
  exists t : trie (handler X U A) (middleware X U A),
    built [ORoute GET (lit "/a") (reply (header_name false) s bl)] t /\
    forall st, runs (serve t st (get_req (lit "/a"))) [] (Value (HttpResponse 200%N [(lit "x-id", lit "2")] (Body [] false))).
Proof. exact spellings. Qed.

(** * C87: requests *)

(** The lines whose names are tokens are taken. *)
Theorem C87_lines : forall lines : list (str * str),
  (exists hs, append_lines lines = Some hs) <-> (forall x, In x lines -> names_header false (fst x)).
Proof. exact lines_taken. Qed.
Print Assumptions C87_lines.

Example C87_lines_example : append_lines [(lit "Host", lit "a"); (lit "X-Tag", [])] <> None /\
  append_lines [(lit "Host", lit "a"); (lit "X Tag", lit "b")] = None.
Proof. split; [discriminate|reflexivity]. Qed.

(** The handler of the request gets, under any spelling of a name, the value of the first
    line with this name, and the values of all of them in order. *)
Theorem C87_read : forall (X : Type) q other m target b lines hs (rq : request X) ps st (c : context X),
  append_lines lines = Some hs -> arrives other m target hs b = Some rq -> starts rq ps st c ->
  forall k,
  (forall v, header_get q k (rq_headers (ctx_request c)) = Some v <-> names_header q k /\ first_under k lines v) /\
  (names_header q k -> values_under k lines (header_get_all q k (rq_headers (ctx_request c)))).
Proof. exact headers_read. Qed.
Print Assumptions C87_read.

Example C87_example :
  let lines := [(lit "Host", lit "a"); (lit "X-Tag", lit "1"); (lit "x-TAG", lit "2")] in
  exists hs, append_lines lines = Some hs /\
    (exists rq : request unit, arrives (fun _ => None) (lit "GET") (lit "/a") hs body_empty = Some rq /\
       starts rq [] None (context_new rq [])) /\
    header_get true (lit "X-TAG") hs = Some (lit "1") /\ header_get_all true (lit "x-tag") hs = [lit "1"; lit "2"] /\
    header_get true (lit "x tag") hs = None.
Proof.
  eexists. split; [reflexivity|]. split; [|repeat split; reflexivity].
  eexists. split; [reflexivity|]. repeat split.
Qed.
