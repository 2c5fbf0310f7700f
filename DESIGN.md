# Formal model of obsidian-rs/obsidian in Rocq (Coq 8.16.1)

## 1. Layout

All files are in `rocq/theories/` (logical name `Verif`). Model and specification files contain no proofs; the
`Props*.v` files contain only the property theorems, each closed by `exact`, with `Print Assumptions` and an
`Example` meeting the hypotheses.

| file | content |
|---|---|
| **model** | |
| `Base.v` | strings as lists of Unicode scalar values with UTF-8 byte lengths, byte slicing that can panic, `split('/')`, hash maps as association lists |
| `Utf8.v` | UTF-8 encoding, strict decoding (`from_utf8`), lossy decoding |
| `RouteTrie.v` | `src/router/route_trie.rs`, `src/router/resource.rs`, `src/router/route.rs` |
| `Messages.v` | the texts of the panics of `route_trie.rs` |
| `Router.v` | `src/router.rs` (registration API, histories of calls), `App::scope` |
| `Http.v` | `response.rs`, `response_body.rs`, `responder.rs`, `obsidian_error.rs`, `context.rs` (all but query parsing) |
| `App.v` | `app.rs` (request handling), `middleware.rs`, `logger.rs`, `handler.rs`, static file handlers of `router.rs` |
| `AppCalls.v` | the `App` value of `app.rs` and the calls on it, the server made of it |
| `Names.v` | header names given as text, as the `http` crate reads and looks them up |
| `Wire.v` | request lines as the `http` crate reads them: target, method |
| `Server.v` | `App::listen`: connections and requests in flight at the same time |
| `Cost.v` | the lookup functions of `RouteTrie.v` with a count of the loop turns, and with a limited stack; number of nodes of a trie |
| `UrlEncoded.v` | `form_urlencoded::parse` of the `url` crate |
| `Form.v` | `req_deserializer.rs`, `Context::parse_queries`, `query_params`, `form`, and the serde visitors they meet |
| `JsonAlias.v` | structs whose fields have aliases as target of `json` |
| `Alias.v` | structs whose fields have aliases as target of `query_params` and `form` |
| `Adjacent.v` | enums with a tag and a content as target of `query_params` and `form` |
| `Json.v` | `serde_json::from_slice` and `to_string` as `Context::json`, `build_json` and `Response::json` use them |
| **specification** | |
| `TableSpec.v` | routing: tables of registered paths, ambiguity, resolution. No reference to the trie |
| `PropSpec.v` | vocabulary of the routing properties |
| `TextSpec.v` | the text of a path, tables of texts, readings of a request |
| `AloneSpec.v` | the requests that reach the only route of a router |
| `CostSpec.v` | numbers of calls and segments, length of the longest path |
| `AppSpec.v` | runs of programs, the onion of middlewares, replies, builder calls |
| `FormSpec.v` | encodings of pairs, values of a key, readings of texts by types, struct and map results |
| `UrlSpec.v` | what url-encoded data of any form, valid or not, means |
| `UserSpec.v` | what handlers that read a parameter, the query, a form or JSON do with the result; methods of the API, paths that can be requested, middlewares that add typed data |
| `ReplySpec.v` | the ways of writing a reply, what is written, what is received |
| `LogSpec.v` | the lines of the Logger and how it ends |
| `AppCallsSpec.v` | the registrations among the calls on an app, the state set last |
| `NamesSpec.v` | tokens, names up to case, what is received for names as spelled by the handler |
| `WireSpec.v` | the grammar of targets, known methods |
| `PathSpec.v` | pieces of paths, names of files |
| `JsonAliasSpec.v` | members of objects under the own names of the fields |
| `AliasSpec.v` | the value of a field with several names |
| `AdjacentSpec.v` | the variant named by a tag and its content |
| `ErrorSpec.v` | what the error of a query or form may say |
| `JsonSpec.v` | JSON texts (the grammar of RFC 8259 with all renderings), the value a type makes of a document, values of a type |
| `SentSpec.v` | the pairs a client writes for a struct |
| `ThroughSpec.v` | middlewares that hand on their input, return errors, only look on |
| `DataSpec.v` | middlewares that give or hand on typed data |
| `MessageSpec.v` | what the panic of a rejected registration may say |
| `GuardSpec.v` | guards: refused requests, requests at or below a path, wildcards above it |
| `ServerSpec.v` | conversations of single connections, fairness |
| **proofs** | |
| `BaseFacts.v`, `Utf8Facts.v`, `Trie*.v`, `Route*.v`, `OwnPath.v`, `Rewalk.v`, `Text*.v`, `App*Lemmas*.v`, `Url*.v`, `FormLemmas*.v`, `UserLemmas*.v`, `AliasLemmas*.v`, `AliasWitness.v`, `JsonAliasLemmas.v`, `JsonAliasWitness.v`, `PathLemmas.v`, `ContentLemmas.v`, `OneLineLemmas.v`, `AloneLemmas.v`, `StaticLemmas.v`, `StarLemmas.v`, `MoreLemmas.v`, `ReplyLemmas*.v`, `CostLemmas*.v`, `ServerLemmas.v`, `AppCallsLemmas.v`, `WireLemmas.v`, `AdjacentLemmas.v`, `ErrorLemmas*.v`, `JsonLemmas*.v`, `NamesLemmas.v`, `LineLemmas.v`, `SentLemmas.v`, `ThroughLemmas.v`, `BackLemmas.v`, `BackReply.v`, `GuardLemmas.v`, `DataLemmas.v` | lemmas |
| `RouteWitness.v`, `TextWitness.v`, `AppWitness.v`, `FormWitness.v`, `UserWitness.v`, `ThroughWitness.v`, `GuardWitness.v`, `DataWitness.v`, `ErrorWitness.v` | witnesses of refutations, example data |
| `Conformance.v`, `ConformanceApps.v`, `ConformanceMain.v`, `ConformanceJson.v` | the unit tests of the repository, the routes of `examples/main.rs` and the small examples on the model |
| **properties** | |
| `PropsRouting.v` | C01-C24, C52-C54 |
| `PropsApp.v`, `PropsStatic.v` | C25-C40, C55-C58, C60-C62 |
| `PropsForm.v` | C40 (forms), C41-C48, C50, C51, C59, C65, C68-C70 |
| `PropsUser.v` | C63, C64, C94 |
| `PropsReach.v` | C71-C74 |
| `PropsText.v` | routing, `App::default` and static files and request handling for every accepted router (C05, C06, C13-C17, C20-C22, C25, C28-C32, C35, C54, C60-C63) |
| `PropsCost.v` | C66, C75, C76 |
| `PropsReply.v` | C77 |
| `PropsServer.v` | C49, C67 |
| `PropsCalls.v` | C78 |
| `PropsWire.v` | C79, C80 |
| `PropsAdjacent.v` | C81, C43 (these enums) |
| `PropsAlias.v` | C95, C42 (these structs) |
| `PropsOneLine.v` | C96 |
| `PropsJsonAlias.v` | C97 |
| `PropsContent.v` | C58 (which contents) |
| `PropsPath.v` | C10, C35 (what `segments` and `join_slash` in the statements are) |
| `PropsError.v` | C91 |
| `PropsJson.v` | C82-C85 |
| `PropsNames.v` | C86, C87 |
| `PropsSent.v` | C89 |
| `PropsThrough.v` | C64 behind middlewares |
| `PropsBack.v` | C92; C35, C77 and C86 behind middlewares |
| `PropsGuard.v` | C90 |
| `PropsData.v` | C32, C73 behind middlewares |
| `PropsMessage.v` | C93, and C01 and C52 with colons anywhere |
| `PropsLine.v` | C88 (composes request line, router, chain, state, headers) |

## 2. How each property is modelled and proved

**Routing (C01-C24, C52-C54).** A route table is specified as a list of registrations (segment list, content). Paths
are flattened to token strings (characters, parameters, star). The trie has a denotation: the set of token strings at
which it has nodes, with their values. Invariant: node keys non-empty, children start with different tokens, a
parameter child is an only child, `*` is last. Proof: (1) one insertion step changes the denotation as specified or
panics exactly on a token conflict; (2) induction over segments, then over histories (nested for mounts): the trie
represents the table; (3) induction over the trie: lookup equals the declarative resolution on tables. The named
properties are corollaries; those the code violates get a `_refuted` theorem with a concrete history as witness, and
the strongest true variant is proved beside it (`_partial`).

A colon inside a segment is an ordinary character until the trie splits right before it; then it starts a parameter.
The exact resolution of lookups (C01, C07, C08, C52 and the theorems about `built` tables) is about histories in which
no path ends or branches off right before such a colon (`colons_apart`, `tidy` in `TableSpec.v`; with colons only at
segment starts this always holds, `clean`). C06, C08 and C23 refute the rest. For all accepted histories it is proved

* that a route answers the requests its own path describes (C03, C04, C09, C19; `OwnPath.v`: the way of a path through
  the trie, which insertions only refine);
* that the trie is a radix trie on texts of paths, their segments without slashes (`TextSpec.v`, `TextRep.v`,
  `TextInv.v`): every lookup hands out the routes registered on one text and the middlewares on its beginnings
  (`PropsText.v`, theorems `*_any_colons`), also after calls whose panics were caught (C54). `caught_table`, the table
  of C54, asks the model which calls panic;
* that mounting gives the very trie of the direct registrations (C18, `Rewalk.v`).

**Texts of panics (C93).** `Messages.v` goes the way of an insertion through the trie again and gives the text of the
panic. `MessageSpec.v` knows only the paths registered before. The link is that the nodes of the trie are exactly the
texts at which registered paths branch or end a segment (`spots_are`, `MessageCuts.v`). The same link gives
`C01_any_colons` and `C52_any_colons`: without a clash, and with colons anywhere, a call is accepted exactly when its
place is free, and rejected for the reason it deserves.

**Request pipeline (C25-C34, C55, C60-C62).** Handlers and middlewares are arbitrary programs (`comp`) over a context;
their observable actions are printing, reading files and user actions with arbitrary answers. A middleware may also
call `next` any number of times, and may leave out following middlewares (`mprog`). Panics are outcomes. Theorems are
about all runs (`runs prog trace outcome`). Induction over the middleware list and the middleware's program.

**Guards (C90).** "No handler is run" is stated as: the server does what the middlewares do around any handler at all
(`no_handler`). The middlewares before the guard are assumed to leave out nothing and to hand on their input, so that
the guard sees the request. Which middlewares are found for a request below the guard follows from the resolution of
lookups (C07).

**Error texts (C91).** `ErrorSpec.v` describes the faults of the data without following the deserializer: `complains t l m`
(the texts of a value), `struct_says`, `target_says`, `adjacent_says`. Soundness: every order of the hash maps reports a
fault. Completeness: for every fault there is an order that puts its key first (`first_entry`, `two_entries`), so the
relation lists nothing that cannot happen. Missing fields are named only if there is no other fault.

**Replies (C77).** `ReplySpec.v` lists the ways in which a handler can write a reply and gives, call by call, the status,
bytes and header lines written (`written`), with the files read on the way as events. The proof follows the calls one by
one and then the chain of loggers and `resolve_endpoint`; the JSON text of a byte vector is unique, so both directions
hold. A handler that passes on a response it did not write (`HBuild (RResponse r)`) is left out: its body could be a
stream that breaks.

**Calls on an app, request lines (C78-C80).** An app is its router and its state; the calls are proved to build the router
of the registrations alone. The scan of a target is proved equal to its grammar; with the escapes of C48 this takes a
client's pairs from the request line to `query_params`.

**Static files (C35-C37, C56-C58).** The file system is an arbitrary function from path text to bytes or error text.

**Context and forms (C38-C48, C50, C51).** Target types are a Gallina datatype; the deserializer is modelled with its
mutable slice and its panics, the serde visitors of std and derived types as the visitor each type uses. Hash map
iteration is an arbitrary permutation. The url-encoded parser is proved against a relation `encodes` that allows any
choice of escapes.

**JSON (C82-C85).** `from_slice` is modelled as a scanner that gives a raw tree (strings as undecoded pieces, numbers as
digits) and a reader per type that walks the tree; serde_json does both in one pass, but what a type skips is only
scanned in either. `JsonSpec.v` relates documents to bytes by the grammar. The scanner is proved complete (mutual
induction over the grammar) and, for trees all of whose strings decode, sound (induction over the fuel); the reader is
proved against `fits` by induction over the type, and `fits` gives at most one value per document, up to the order of
the entries of maps (`JsonLemmas8.v`). `loose_text` is the grammar without the contents of strings; the scanner accepts
exactly such texts (`JsonLemmas9.v`). For chunks: a text that is read still is after more bytes, unless it is
a number.

**Concurrency (C49).** A labelled transition system of connections with all schedules. Its executions are proved to be
exactly the interleavings of the conversations of single connections. Handlers may influence one another through
user actions (shared state of the user), whose answers are arbitrary; with constant answers the response is unique.

Handlers are finite programs, so progress (C67) is well-founded induction on the program of the request in flight;
endless runs are functions from step numbers to steps and states.

**Cost (C66, C75, C76).** The lookup functions are repeated with a counter, and with a limit of nested calls (`Cost.v`),
and proved to give the same results. For any calls, also failing ones, each adds at most one leaf, one node per segment
and one more for a split, and no way down the trie is longer than the longest path (`CostLemmas2.v`).

The status of every property is in `MANIFEST.json`; "partial" means the statement in `properties.jsonl` is false of the
code (there is a `_refuted` theorem) and restricted variants are proved, the note says which.

## 3. Trusted base

* Coq 8.16.1's kernel (and `coqchk`).
* `Print Assumptions` reports "Closed under the global context" for every theorem of the `Props*.v` files: no axioms.
  `coqchk` lists seven entries `Coq.ssr.ssrunder.Under_rel.*`, which come from a functor parameter of a standard
  library file that is loaded but not used by any theorem.
* That the model describes the code. Every definition cites the lines it models. Nothing was compiled or run, but the
  unit tests of the repository, replayed on the model, pass (`Conformance.v`; tests, not proofs).

### What is modelled

| source | modelled | not modelled |
|---|---|---|
| `route_trie.rs` | everything: insertion of routes, middlewares, routers, lookup; byte slicing at char boundaries; every panic, as a tag per reason (`RouteTrie.v`) and as its text (`Messages.v`) | `Debug` impls |
| `router.rs`, `resource.rs`, `route.rs` | everything | |
| `app.rs` | registration methods, `App::default`, app state, `listen` (service per connection), `resolve_endpoint`, `page_not_found`, `EndpointExecutor::next` | port binding, start-up banner; the arm that calls `internal_server_error`, never taken (the builder gets a `StatusCode` and its headers through `headers_mut`, so it cannot fail); a middleware that builds an `EndpointExecutor` with the remaining middlewares reordered, or awaits several calls of `next` at once |
| `middleware.rs`, `logger.rs`, `handler.rs` | everything; the duration printed by `Logger` in debug builds is a constant line | colours |
| `context.rs` | everything; request headers as a list of names and values (`Names.v` reads them) | none |
| `response.rs`, `response_body.rs`, `responder.rs`, `obsidian_error.rs` | everything | |
| `req_deserializer.rs` | `from_cow_map`, both deserializers, sequence and map access, errors | aliases beside flattened fields and of variants, several flattened fields in one struct, flattened enums, structs inside of field values (all rejected by the deserializer, one case `TMismatch`) |
| tests, `examples` | replayed in `Conformance.v`, `ConformanceApps.v`, `ConformanceMain.v` (every route of `main.rs`) and `ConformanceJson.v` | |

### What is assumed about libraries

* Rust std: `str::split`, slicing, `str::parse` for integers and bools as documented (modelled); float parsing is an
  arbitrary function; `HashMap` as a finite map with arbitrary iteration order.
* `http`: `HeaderValue::from_static` panics unless all bytes are visible ASCII, space or tab; `HeaderMap::insert`
  replaces; header name parsing is an arbitrary partial function there, and that of http 0.2 in `Names.v` (where the releases
  differ about quotes in names, both are covered; a `HeaderName` is its text in lower case); `Extensions` is a map by type (types are numbered);
  `Uri::path` is empty, `*`, or a slash followed by the characters listed in `path_char` (http 0.2 rejects requests with
  others). `Wire.v` models `Uri` for targets that begin with a slash (or are `*`) and `Method::from_bytes` as in http 0.2;
  other targets are an arbitrary function. What hyper's own parser rejects before is not modelled: `arrives` is what a
  request line that gets through it becomes.
* `hyper`: `aggregate` collects the non-empty chunks or fails; one service per connection, requests of an HTTP/1
  connection one after the other; a panic in a service ends the connection (HTTP/2: the stream).
* `serde`: derived `Deserialize` of structs (fields in order, duplicates rejected, missing fields None, default or
  error), flattened fields (unknown entries are collected as `Content::String`, which is never parsed), the buffering of
  untagged and internally tagged enums, the two orders of adjacently tagged enums, aliases of fields, std visitors.
* `serde_json` 1.0 (`Json.v`): bools, integers of at most 64 bits, floats, strings, options, vectors, maps with text keys,
  structs (with defaults, with or without `deny_unknown_fields`), `Value`, units, `char`, tuples and arrays, enums tagged
  by name with all four kinds of variants; the limit of 128 levels. Not: 128-bit integers, borrowed data, flattened
  fields, aliases (but see `JsonAlias.v`: those of the fields of a struct that is the whole body), other taggings, other
  keys than strings. The
  conversions of number texts and integers to floats and of floats to texts are arbitrary functions, so is whether `-0`
  is a float; texts of errors are arbitrary. Maps are lists of entries in order of insertion (hash or sorted order is not
  modelled). Other types: in C40, C64 and the others about `json` in general the parser is an arbitrary function.
* `url`/`form_urlencoded`: modelled function by function in `UrlEncoded.v`.
* `async_std::fs::read_to_string`: text, or an error text (any, for files that are not UTF-8).
* Async code is modelled by its sequence of actions; futures may be dropped by disconnection between actions (`Server.v`).
* Memory and recursion depth are unbounded (C75 and C76 bound what lookups and tries need); recursion that does not
  end is a panic (`PStack`; in reality the process aborts).

Loops are structural recursion; where Coq needs a measure (`visit_vec`, `visit_struct`, `visit_entries`) a fuel larger
than the input is given.

## 4. Findings

Behaviour of the code that contradicts what a user would expect, each proved (`_refuted` theorems):

* C02: `/users` and `/user/:id` cannot be registered together (rejected as ambiguous in either order).
* C05, C53: routers mounted at a path ending in `*` are unreachable or shadow other routes. Their routes are found only by
  requests that write the `*` themselves, right behind a literal: `/a*/y` for `/y` mounted at `/a/*`.
* C06: segment ends are not marked in the trie: a router with only `/a/b` also answers `/ab`. A router with `/ac` and
  `/a:b` answers `/a/c/y` with `/ac`: the failed attempt with the parameter `:b` has consumed `y`.
* C08: `/ac` and `/a:b` are accepted in either order; which of them answers `/a/c` depends on the order.
* C14: a middleware on `/admin` also runs for `/administrator` if both are registered.
* C16: below the root, middlewares run innermost first.
* C17: `use_service_to("/", m)` silently drops `m`.
* C19: mounting a router at `/` discards everything registered before.
* C22: `/:id/*` does not answer `/5`; `/*` does not answer `/`.
* C23: a colon in the middle of a segment becomes a parameter after a split.
* C24: registering a duplicate route panics after the old handler has been replaced.
* C30: of two headers with the same name (Set-Cookie) only the last is sent.
* C31: `Logger` panics when a handler succeeds without response (otherwise this gives an empty 200).
* C36: static handlers pass `..` segments to the file system (path traversal). No directory served under a plain path is
  safe: any file above it can be requested (`C36_always`).
* C37: static handlers of mounted routers skip the wrong number of segments.
* C40: `form` and `json` parse only the first chunk of the body.
* C42: `query_params::<String>()` gives a key that depends on the hash order.
* C43: an untagged or internally tagged enum (or `IgnoredAny`) as target of `query_params`/`form` recurses without end
  on any data that is not empty: `deserialize_any` of `FormDeserializer` gives itself to the key's seed, which calls
  `deserialize_any` again. The stack overflow aborts the server.
* C44: `from_cow_map` panics on empty value lists, and on an empty last text of a `Vec<Option<T>>`.
* C50: in a `Vec<Option<T>>` the text after an empty one is skipped.
* C51: maps with integer or bool keys always fail.
* C56: an absolute static directory loses its leading slash.
* C57: `use_static("a/b")` answers `/ab/secret` with the file `ab/secret`.
* C58: files that are not UTF-8 are answered 404.
* C59: percent-encoded path parameters are not decoded.
* C61: a header value that is not visible ASCII panics.
* C63: requests without a handler are not logged by the `Logger` of `App::default`; a response with an invalid header
  is logged as sent although the request then panics.
* C68: a field or map value that is an enum is never read: every text is an error.
* C69: in flattened structs integers, bools, floats and sequences are never read.
* C83: a JSON number in two chunks is read from the first: `12` and `3` give 12. Whatever follows a readable first chunk is
  not looked at.
* C84: `Some(None)` and `Some(())` answered as JSON and posted back are `None`.
* C85: members that a struct ignores may contain bytes that are not UTF-8 and `\u` escapes of half a surrogate pair, at
  any depth. The rest of the grammar is enforced for every type, and for ignored members nothing more is.
* C81: enums with a tag and a content: whether a number is read as content depends on the random order of the hash map.
* C89: `Some("")` sent in a query or form comes back as `None`, empty strings disappear from vectors, an empty string or
  vector in a field without default is an error (`missing field`).
* C90: a request below a guarded path for which nothing is registered there is answered by a wildcard above the guard,
  without the guard (a directory served with `use_static_to("/files", …)` and a guard at "/files/private").
* C94: `form_with_param` and `json_with_param` always panic (`unimplemented!()`).
* C71: HEAD and OPTIONS requests get 404 everywhere; no route can be registered for them.
* C72: routes with a space or a non-ASCII letter are accepted but no request can reach them (no percent-decoding).
* C74: static files with such characters in their names cannot be fetched.

## 5. Tests of the theorems

`seeded/LOG.jsonl`: wrong edits of the model tried in a scratch copy, with the theorems that failed. A theorem counts as
failed if its proof, or that of a lemma it depends on, no longer goes through (found by admitting the failing lemmas and
reading `Print Assumptions`; the first entries were computed from names of lemmas and list too many).

`seeded/AUTO.jsonl`: edits made mechanically (another operator, number, letter or branch), with the place at which the build
fails. Those that survived were all looked at: a text of an error and the target `*` (the theorems C91 and C79_other were added
and now fail, S01-S04 in the log), branches no input reaches (the names of duplicate fields in `Adjacent.v`: the map given to it
has no duplicate keys; a failure inside `de_any`), or a name used in examples only (`u8`).
