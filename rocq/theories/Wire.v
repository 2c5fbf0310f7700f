(** Model of what hyper 0.14 and http 0.2 make of the request line before the service of
    src/app.rs 153-158 gets the request: the method and the target ([req.method()],
    [req.uri().path()], [uri().query()], used by app.rs 155, 222 and context.rs 141).

    Not code of the repository.  Targets in absolute form or naming an authority only
    ("http://host/a", "host:80") are read by an arbitrary function [other]; hyper answers
    requests that it cannot read with 400 by itself. *)

From Coq Require Import String.
From Verif Require Import Base Utf8 RouteTrie Http.
Local Open Scope list_scope.

(** http, uri/path.rs: the bytes accepted in a path... *)
Definition path_byte (b : N) : bool :=
  ((b =? 33) || ((36 <=? b) && (b <=? 59)) || (b =? 61) || ((64 <=? b) && (b <=? 95)) ||
   ((97 <=? b) && (b <=? 122)) || (b =? 124) || (b =? 126) || (b =? 34) || (b =? 123) || (b =? 125))%N.
(** ... and in a query. *)
Definition query_byte (b : N) : bool :=
  ((b =? 33) || ((36 <=? b) && (b <=? 59)) || (b =? 61) || ((63 <=? b) && (b <=? 126)))%N.

(** [PathAndQuery::from_shared], first loop: the path, and what follows a '?'. *)
Fixpoint scan_path (s : bytes) : option (bytes * option bytes) :=
  match s with
  | [] => Some ([], None)
  | b :: r =>
      if N.eqb b 63 then Some ([], Some r)
      else if N.eqb b 35 then Some ([], None)
      else if path_byte b then
        match scan_path r with Some (p, q) => Some (b :: p, q) | None => None end
      else None
  end.

(** Second loop: the query, up to a '#'. *)
Fixpoint scan_query (s : bytes) : option bytes :=
  match s with
  | [] => Some []
  | b :: r =>
      if query_byte b then match scan_query r with Some q => Some (b :: q) | None => None end
      else if N.eqb b 35 then Some []
      else None
  end.

(** [PathAndQuery::from_shared], then [path] and [query]. *)
Definition path_and_query (s : bytes) : option (str * option str) :=
  match scan_path s with
  | None => None
  | Some (p, q) =>
      let path := if is_empty p then [c_slash] else p in
      match q with
      | None => Some (path, None)
      | Some r => match scan_query r with Some q => Some (path, Some q) | None => None end
      end
  end.

(** [Uri::from_shared], then [path] and [query]. *)
Definition uri_of (other : bytes -> option (str * option str)) (s : bytes) : option (str * option str) :=
  if (65534 <? N.of_nat (length s))%N then None
  else match s with
       | [] => None
       | b :: r =>
           if N.eqb b c_slash then (if is_empty r then Some ([c_slash], None) else path_and_query s)
           else if N.eqb b c_star && is_empty r then Some ([c_star], None)
           else other s
       end.

(** http, method.rs: bytes of an extension method. *)
Definition token_byte (b : N) : bool :=
  contains b (lit "!#$%&'*+-.0123456789ABCDEFGHIJKLMNOPQRSTUVWXYZ^_`abcdefghijklmnopqrstuvwxyz|~").

(** [Method::from_bytes]. *)
Definition method_of (s : bytes) : option method :=
  if str_eqb s (lit "GET") then Some GET
  else if str_eqb s (lit "PUT") then Some PUT
  else if str_eqb s (lit "POST") then Some POST
  else if str_eqb s (lit "HEAD") then Some HEAD
  else if str_eqb s (lit "PATCH") then Some PATCH
  else if str_eqb s (lit "TRACE") then Some TRACE
  else if str_eqb s (lit "DELETE") then Some DELETE
  else if str_eqb s (lit "OPTIONS") then Some OPTIONS
  else if str_eqb s (lit "CONNECT") then Some CONNECT
  else if negb (is_empty s) && forallb token_byte s then Some (EXT s)
  else None.

(** hyper, proto/h1/role.rs: the request handed to the service, if any. *)
Definition arrives {X} (other : bytes -> option (str * option str)) (m target : bytes)
    (headers : list (hname * str)) (b : body) : option (request X) :=
  match method_of m, uri_of other target with
  | Some m, Some (path, query) => Some (Request m path query headers [] b)
  | _, _ => None
  end.
