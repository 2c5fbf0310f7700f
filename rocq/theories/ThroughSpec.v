(** Vocabulary for handlers that read input behind middlewares. *)

From Coq Require Import String.
From Verif Require Import Base Utf8 RouteTrie Router TableSpec PropSpec Http App AppSpec.
Local Open Scope list_scope.

Section Through.
  Context {X U A : Type}.
  Notation context := (context X).
  Notation middleware := (middleware X U A).
  Notation mprog := (mprog X U A).

  (** The contexts agree on what a handler can read as input: parameters and request.
      Typed data and the response may differ. *)
  Definition same_input (c c' : context) : Prop :=
    ctx_params c' = ctx_params c /\
    rq_method (ctx_request c') = rq_method (ctx_request c) /\
    rq_path (ctx_request c') = rq_path (ctx_request c) /\
    rq_query (ctx_request c') = rq_query (ctx_request c) /\
    rq_headers (ctx_request c') = rq_headers (ctx_request c) /\
    rq_body (ctx_request c') = rq_body (ctx_request c).

  (** Whatever the middleware does and however often it calls [next], it does so with the
      input it was given. *)
  Fixpoint hands_input (c : context) (p : mprog) : Prop :=
    match p with
    | MDone _ | MCrash _ => True
    | MNext _ c' k => same_input c c' /\ forall r, hands_input c (k r)
    | MPrint _ k => hands_input c k
    | MRead _ k => forall r, hands_input c (k r)
    | MAsk _ k => forall a, hands_input c (k a)
    end.
  Definition keeps_input (m : middleware) : Prop := forall c, hands_input c (m c).

  (** The middleware calls [next], and an error of it is what it returns. *)
  Definition returns_errors (m : middleware) : Prop :=
    forall c tr s, goes (m c) tr s -> exists n c' k, s = Calls n c' k /\
      forall e tr' s', goes (k (inr e)) tr' s' -> s' = Returns (inr e).

  (** The program does what the middlewares [mws] do around a handler that does nothing
      but fail with [e]; if they return errors, every run ends with a 500 and [text]. *)
  Definition fails_behind (mws : list middleware) (c : context) (prog : comp U A http_response) (e : oerror) (text : str) : Prop :=
    handles prog (next mws (fun _ => Ret (inr e)) c) /\
    (Forall returns_errors mws -> forall tr o, runs prog tr o ->
       exists b, body_bytes b = utf8 text /\ broken b = false /\ o = Value (HttpResponse 500%N [] b)).

  (** The middleware only looks on: it calls [next] once with the input it was given, and
      returns what comes back, be it an error or a context with a response. *)
  Definition hands_back (m : middleware) : Prop :=
    forall c tr s, goes (m c) tr s -> exists c' k, s = Calls 0 c' k /\ same_input c c' /\
      forall r tr' s', answered r -> goes (k r) tr' s' -> s' = Returns r.

  (** The program ends with the reply to a run of [h], on a context with the input of [c];
      nothing else but the actions of middlewares is done before and after. *)
  Definition answers_as (h : handler X U A) (c : context) (prog : comp U A http_response) : Prop :=
    forall tr o, runs prog tr o -> exists c' t1 t2 t3, tr = t1 ++ t2 ++ t3 /\ same_input c c' /\
      ((exists r, runs (h c') t2 (Value r) /\ replies r o) \/ (exists p, runs (h c') t2 (Panicked p) /\ o = Panicked p)).

  (** The context without the body of the request. *)
  Definition emptied (c : context) : context :=
    let r := ctx_request c in
    Context (Request (rq_method r) (rq_path r) (rq_query r) (rq_headers r) (rq_ext r) body_empty) (ctx_params c) (ctx_response c).
End Through.
