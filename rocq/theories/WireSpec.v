(** How a request line is read. *)

From Coq Require Import String.
From Verif Require Import Base Utf8 RouteTrie Http UserSpec.
Local Open Scope list_scope.

(** Characters accepted in a query: visible ASCII but for the quote, '#', '<' and '>'. *)
Definition query_char (c : char) : Prop :=
  (33 <= c <= 126)%N /\ ~ In c (lit "#<>") /\ c <> 34%N.

(** An optional fragment. *)
Definition fragment (s : str) : Prop := s = [] \/ exists f, s = 35%N :: f.

(** The target is the path, then, if there is a query, '?' and the query, then a fragment,
    which nobody gets to see. *)
Definition target_is (target path : str) (query : option str) : Prop :=
  (exists r, path = c_slash :: r) /\ Forall path_char path /\
  exists f, fragment f /\
  match query with
  | None => target = path ++ f
  | Some q => Forall query_char q /\ target = path ++ 63%N :: q ++ f
  end.

(** The methods with a name of their own. *)
Definition known_methods : list (str * method) :=
  [(lit "GET", GET); (lit "POST", POST); (lit "PUT", PUT); (lit "PATCH", PATCH); (lit "DELETE", DELETE);
   (lit "HEAD", HEAD); (lit "OPTIONS", OPTIONS); (lit "CONNECT", CONNECT); (lit "TRACE", TRACE)].
