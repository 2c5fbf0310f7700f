(** Handlers as users write them: reading input with [?], then going on. *)

From Coq Require Import String.
From Verif Require Import Base Utf8 RouteTrie Router TableSpec PropSpec Http Form App AppSpec FormSpec.
Local Open Scope list_scope.

Section User.
  Context {X U A : Type}.
  Notation handler := (handler X U A).

  (** [let x: T = ctx.param(n)?; rest]. *)
  Definition with_param {T} (parse : str -> option T) (n : str) (rest : T -> handler) : handler :=
    fun c => match ctx_param parse n c with inl x => rest x c | inr e => Ret (inr e) end.

  (** [let x: T = ctx.form_with_param()?; rest], and the same with JSON. *)
  Definition with_form_param {T} (rest : T -> handler) : handler :=
    fun c => match form_with_param c with inl (inl x) => rest x c | inl (inr p) => Crash p | inr e => Ret (inr e) end.
  Definition with_json_param {T} (rest : T -> handler) : handler :=
    fun c => match json_with_param c with inl (inl x) => rest x c | inl (inr p) => Crash p | inr e => Ret (inr e) end.

  (** A middleware that adds a value to the typed data: [ctx.add(x); next(ctx)]. *)
  Definition adder (e : N * X) : middleware X U A := fun c => MNext 0 (ctx_add (fst e) (snd e) c) MDone.

  Context {F : Type} (parse_float : bool -> str -> F + str) (serde_msg : mismatch -> str).

  (** [let x: T = ctx.json().await?; rest]. *)
  Definition with_json {T} (from_slice : bytes -> T + str) (rest : T -> handler) : handler :=
    fun c => match ctx_json from_slice c with
             | (inl x, c') => rest x c'
             | (inr e, _) => Ret (inr e)
             end.

  (** [let x: T = ctx.query_params()?; rest]. *)
  Definition with_query (it1 it2 : list entry -> list entry) (tg : target F) (rest : tvalue F -> handler) : handler :=
    fun c => match ctx_query_params parse_float serde_msg it1 it2 tg c with
             | inl (inl x) => rest x c
             | inl (inr p) => Crash p
             | inr e => Ret (inr e)
             end.

  (** [let x: T = ctx.form().await?; rest]. *)
  Definition with_form (it1 it2 : list entry -> list entry) (tg : target F) (rest : tvalue F -> handler) : handler :=
    fun c => match ctx_form parse_float serde_msg it1 it2 tg c with
             | (inl (inl x), c') => rest x c'
             | (inl (inr p), _) => Crash p
             | (inr e, _) => Ret (inr e)
             end.
End User.

(** All the program does is to send a 500 with this text. *)
Definition fails_with {U A} (prog : comp U A http_response) (text : str) : Prop :=
  exists b, body_bytes b = utf8 text /\ broken b = false /\
    forall tr o, runs prog tr o <-> tr = [] /\ o = Value (HttpResponse 500%N [] b).

(** A request of the server that reaches handler [h], without middlewares on the way,
    with path parameters [ps]. *)
Definition reaches {X U A} (l : list (op (handler X U A) (middleware X U A))) (rq : request X) (h : handler X U A)
    (ps : list (str * str)) : Prop :=
  exists ts, resolves (table_of l) (segments (rq_path rq)) ts ps /\
    handler_for (rq_method rq) (routes_at (table_of l) ts) = Some h /\ mws_for (table_of l) ts = [].

(** [x] is the last value of type [ty] in the list. *)
Definition latest {X} (ty : N) (l : list (N * X)) (x : X) : Prop :=
  exists l1 l2, l = l1 ++ (ty, x) :: l2 /\ forall y, ~ In (ty, y) l2.

(** ** Requests over HTTP *)

(** The methods for which routes can be registered: router.rs 51-69. *)
Definition api_method (m : method) : Prop := In m [GET; POST; PUT; PATCH; DELETE].
Definition api_only {H M} (l : list (op H M)) : Prop := forall p m h, registered l p (CRoute m h) -> api_method m.

(** Characters that the crate http 0.2 accepts in the path of a request ([PathAndQuery]):
    those of RFC 3986 and some more; letters, digits, '%', '/', but no space, no '?', no
    '#', nothing outside ASCII. *)
Definition path_char (c : char) : Prop :=
  In c (lit "!$%&'()*+,-./0123456789:;=@ABCDEFGHIJKLMNOPQRSTUVWXYZ[\]^_abcdefghijklmnopqrstuvwxyz|~{}") \/ c = 34%N.

(** The paths a handler or the router can be given: [Uri::path]. *)
Definition deliverable (path : str) : Prop :=
  path = [] \/ path = [c_star] \/ exists r, path = c_slash :: r /\ Forall path_char r.

(** Every character of the literal segments of a path can be requested. *)
Definition plain_path (p : list str) : Prop :=
  forall s c, In s p -> (forall r, s <> c_colon :: r) -> In c s -> path_char c.

(** What a request path for the file [rel] may consist of. *)
Definition file_segments (rel : list str) : Prop :=
  forall s, In s rel -> s <> [] /\ ~ In c_slash s.
