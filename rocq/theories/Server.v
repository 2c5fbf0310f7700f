(** Model of [App::listen] (src/app.rs 143-203): many requests in flight at once.

    A connection here is an HTTP/1 connection, which handles one request after the
    other, or one stream of an HTTP/2 connection, which handles one request.  hyper
    and the executor decide which connection makes the next step and when; all their
    choices are possible steps.  Not modelled: binding of the port, the start-up
    message, limits and timeouts of hyper, partial sending of responses. *)

From Verif Require Import Base RouteTrie Router Http App AppSpec.
Local Open Scope list_scope.

Section Server.
  Context {X U A : Type}.
  Notation handler := (handler X U A).
  Notation middleware := (middleware X U A).
  Notation comp := (comp U A).

  (** app.rs 149-154: the service of one connection owns a copy of router and app state. *)
  Record service := Service { sv_router : trie handler middleware; sv_state : option (N * X) }.

  (** app.rs 149-151: [make_service_fn]: the clones made for a new connection. *)
  Definition make_service (app : service) : service := Service (sv_router app) (sv_state app).

  (** app.rs 154-158: [service_fn]: the future of one request. *)
  Definition call_service (s : service) (rq : request X) : comp http_response :=
    serve (sv_router s) (sv_state s) rq.

  (** What a connection is doing. *)
  Inductive conn :=
  | Unconnected
  | Waiting (s : service)                              (* between requests *)
  | Running (s : service) (c : comp http_response)     (* a request is being handled *)
  | Closed.

  (** What can happen on a connection; [Receive] is app.rs 154, [Act], [Answer] and [Break] are the polls of
      the future of app.rs 157. *)
  Inductive label :=
  | Accept                          (* the client connects *)
  | Receive (rq : request X)        (* a request has arrived *)
  | Act (e : event U A)             (* its future is polled and does something *)
  | Answer (r : http_response)      (* its future is ready, the response is sent *)
  | Break (p : panic)               (* its future panics *)
  | Disconnect.                     (* the client is gone: a future is dropped *)

  (** One action of the future of app.rs 157. *)
  Inductive acts : comp http_response -> event U A -> comp http_response -> Prop :=
  | act_print l k : acts (Print l k) (EvPrint l) k
  | act_read path k res : acts (Read path k) (EvRead path res) (k res)
  | act_ask u k a : acts (Ask u k) (EvAsk u a) (k a).

  (** The steps of one connection of the server [app].  A panic ends the connection. *)
  Inductive conn_step (app : service) : conn -> label -> conn -> Prop :=
  | cs_accept : conn_step app Unconnected Accept (Waiting (make_service app))
  | cs_receive s rq : conn_step app (Waiting s) (Receive rq) (Running s (call_service s rq))
  | cs_act s c e c' : acts c e c' -> conn_step app (Running s c) (Act e) (Running s c')
  | cs_answer s r : conn_step app (Running s (Ret r)) (Answer r) (Waiting s)
  | cs_break s p : conn_step app (Running s (Crash p)) (Break p) Closed
  | cs_gone s : conn_step app (Waiting s) Disconnect Closed
  | cs_dropped s c : conn_step app (Running s c) Disconnect Closed.

  (** The state [s] with the connection [i] in state [v]. *)
  Definition update (s : nat -> conn) (i : nat) (v : conn) : nat -> conn :=
    fun j => if Nat.eqb j i then v else s j.

  (** [execution app log s]: the server has made the steps of [log], each by the
      connection with the number beside it, and is in state [s]. *)
  Inductive execution (app : service) : list (nat * label) -> (nat -> conn) -> Prop :=
  | ex_start : execution app [] (fun _ => Unconnected)
  | ex_step log s i l v : execution app log s -> conn_step app (s i) l v ->
      execution app (log ++ [(i, l)]) (update s i v).

  (** [endless app ev st]: a server that never stops; its step number [n] is [ev n],
      taken in state [st n]. *)
  Definition endless (app : service) (ev : nat -> nat * label) (st : nat -> nat -> conn) : Prop :=
    (forall i, st 0 i = Unconnected) /\
    forall n, conn_step app (st n (fst (ev n))) (snd (ev n)) (st (S n) (fst (ev n))) /\
      forall j, j <> fst (ev n) -> st (S n) j = st n j.
End Server.

Arguments service : clear implicits.
Arguments conn : clear implicits.
Arguments label : clear implicits.
