(** Vocabulary for middlewares that guard a path. *)

From Coq Require Import String.
From Verif Require Import Base Utf8 RouteTrie Router TableSpec PropSpec Http App AppSpec.
Local Open Scope list_scope.

Section Guard.
  Context {X U A : Type}.

  (** A context of the request. *)
  Definition of_request (rq : request X) (c : context X) : Prop :=
    rq_method (ctx_request c) = rq_method rq /\ rq_path (ctx_request c) = rq_path rq /\
    rq_query (ctx_request c) = rq_query rq /\ rq_headers (ctx_request c) = rq_headers rq /\
    rq_body (ctx_request c) = rq_body rq.

  (** The middleware does not call [next] for this request, whatever else the context says. *)
  Definition refuses (g : middleware X U A) (rq : request X) : Prop :=
    forall c, of_request rq c -> forall tr n c' k, ~ goes (g c) tr (Calls n c' k).

  (** The request is at or below the path [p]. *)
  Definition at_or_below (p : list str) (rq : request X) : Prop :=
    exists R1 R2 b, segments (rq_path rq) = R1 ++ R2 /\ seg_match p R1 b.

  (** [q] is written like a part of [p] that ends before [p] does. *)
  Definition above (q p : list str) : Prop :=
    exists p1 p2, p = p1 ++ p2 /\ p2 <> [] /\ flat q = flat p1.

  (** All the program does is to answer 404. *)
  Definition not_found (prog : comp U A http_response) : Prop :=
    forall tr o, runs prog tr o <->
      tr = [] /\ o = Value (HttpResponse 404%N [] (Body [utf8 (lit "404 Not Found")] false)).

  (** What the program does does not depend on a handler: it does what the middlewares
      [mws] make of the request, whatever they are put around. *)
  Definition no_handler (prog : comp U A http_response) (mws : list (middleware X U A)) (c : context X) : Prop :=
    forall h, handles prog (next mws h c).
End Guard.
