(** Model of src/app.rs (request handling), src/middleware.rs,
    src/middleware/logger.rs, src/router/handler.rs and of the static file handlers
    of src/router.rs.

    A middleware may call [next] any number of times, each time on the executor it was
    given or, made from the public fields of that one, on an executor without the first
    of the remaining middlewares.  Not modelled: executors made with remaining middlewares
    in another order (a handler or middlewares of its own are part of its program),
    several calls of [next] awaited at the same time, futures dropped half-way.  Connections, TLS and the hyper server are not modelled: a
    request is handled by [serve]; a panic ends it without response. *)

From Coq Require Import String.
From Verif Require Import Base Utf8 RouteTrie Router Http.
Local Open Scope list_scope.

(** The [Response<Body>] handed to hyper (app.rs 216). *)
Record http_response := HttpResponse {
  h_status : status;
  h_headers : list (hname * str);   (* HeaderMap, one value per name *)
  h_body : body }.

(** [HeaderMap::get] (http): what a client finds under a name. *)
Definition header (k : hname) (r : http_response) : option str := aget str_eqb k (h_headers r).

Section App.
  Context {X U A : Type}.
  Notation context := (context X).
  Notation result := (result X).
  Notation request := (request X).
  Notation comp := (comp U A).

  (** handler.rs 10-23: a handler is a function from contexts to futures. *)
  Definition handler := context -> comp result.

  (** The program of a middleware.  [MNext n c k]: it calls [next] with context [c] on
      the executor it was given, or (app.rs 294-303) on [EndpointExecutor::new] of the
      fields of that one, without the first [n] middlewares; it goes on with [k]. *)
  Inductive mprog :=
  | MDone (r : result)
  | MNext (n : nat) (c : context) (k : result -> mprog)
  | MPrint (l : line) (k : mprog)
  | MRead (path : str) (k : str + str -> mprog)
  | MAsk (u : U) (k : A -> mprog)
  | MCrash (p : panic).

  (** middleware.rs 10-16: [handle]. *)
  Definition middleware := context -> mprog.

  (** The program of [handle] (app.rs 308) run with [nx] as the effect of [MNext]. *)
  Fixpoint exec (nx : nat -> context -> comp result) (p : mprog) : comp result :=
    match p with
    | MDone r => Ret r
    | MNext n c k => bind (nx n c) (fun r => exec nx (k r))
    | MPrint l k => Print l (exec nx k)
    | MRead path k => Read path (fun r => exec nx (k r))
    | MAsk u k => Ask u (fun a => exec nx (k a))
    | MCrash p => Crash p
    end.

  (** app.rs 305-312: [EndpointExecutor::next], on the executor without the first [n]
      middlewares. *)
  Fixpoint next_from (n : nat) (mws : list middleware) (h : handler) (c : context) : comp result :=
    match mws with
    | [] => h c
    | current :: all_next =>
        match n with
        | 0 => exec (fun n c' => next_from n all_next h c') (current c)
        | S n' => next_from n' all_next h c
        end
    end.

  (** app.rs 305-312: [EndpointExecutor::next]. *)
  Definition next (mws : list middleware) (h : handler) (c : context) : comp result := next_from 0 mws h c.

  (** [HeaderValue::from_static] (app.rs 245): panics unless every byte is visible ASCII or tab. *)
  Definition visible_char (c : char) : bool := (N.leb 32 c && N.ltb c 127) || N.eqb c 9.
  (** All characters, see [visible_char] (app.rs 245). *)
  Definition visible (s : str) : bool := forallb visible_char s.

  (** app.rs 243-246: [insert] of each header into the [HeaderMap]. *)
  Fixpoint insert_headers (l : list (hname * str)) (hm : list (hname * str)) : option (list (hname * str)) :=
    match l with
    | [] => Some hm
    | (k, v) :: r => if visible v then insert_headers r (ainsert str_eqb k v hm) else None
    end.

  (** app.rs 274-279: [page_not_found]. *)
  Definition page_not_found : http_response :=
    HttpResponse 404%N [] (body_from (utf8 (lit "404 Not Found"))).

  (** app.rs 237-267: from the result of the chain to the response.  The builder
      cannot fail here: status and header values are already valid. *)
  Definition finish (r : result) : comp http_response :=
    match r with
    | inl ctx =>
        match ctx_response ctx with
        | Some response =>
            match insert_headers (match res_headers response with Some l => l | None => [] end) [] with
            | Some hm => Ret (HttpResponse (res_status response) hm (res_body response))
            | None => Crash PHeaderValue
            end
        | None => Ret (HttpResponse 200%N [] (body_from []))
        end
    | inr err => Ret (HttpResponse 500%N [] (body_from (utf8 (error_text err))))
    end.

  (** app.rs 212-271: [resolve_endpoint]; the app state comes with the number of its type. *)
  Definition resolve_endpoint (rq : request) (route_value : option (@route_result handler middleware))
      (app_state : option (N * X)) : comp http_response :=
    match route_value with
    | Some rv =>
        match rr_get_route rv (rq_method rq) with
        | None => Ret page_not_found
        | Some route =>
            let c := context_new rq (rr_params rv) in
            let c := match app_state with Some (ty, s) => ctx_add ty s c | None => c end in
            bind (next (rr_mws rv) (r_handler route) c) finish
        end
    | None => Ret page_not_found
    end.

  (** app.rs 153-159: the service of one request. *)
  Definition serve (t : trie handler middleware) (app_state : option (N * X)) (rq : request)
    : comp http_response :=
    match search_route t (rq_path rq) with
    | LPanic p => Crash p
    | LNone => resolve_endpoint rq None app_state
    | LSome rv => resolve_endpoint rq (Some rv) app_state
    end.

  (** logger.rs 33-47: what [Logger] does with the result of [next]. *)
  Definition logger_after (r : result) : mprog :=
    match r with
    | inl c' =>
        match ctx_response c' with
        | Some res => MPrint (LSent (res_status res)) (MDone (inl c'))
        | None => MCrash PUnwrapNone
        end
    | inr e => MPrint (LError (error_text e)) (MDone (inr e))
    end.

  (** logger.rs 21-48: [Logger]; [debug] is [cfg(debug_assertions)]. *)
  Definition logger (debug : bool) : middleware := fun c =>
    MPrint (LRequest (rq_method (ctx_request c)) (rq_path (ctx_request c)) (rq_query (ctx_request c)))
      (if debug then MPrint LDebug (MNext 0 c logger_after) else MNext 0 c logger_after).

  (** app.rs 48-53: [App::new]: the calls it makes on the router. *)
  Definition app_new : list (op handler middleware) := [].
  (** app.rs 33-41: [App::default]. *)
  Definition app_default (debug : bool) : list (op handler middleware) := [OService (logger debug)].

  (** router.rs 115-145: [static_virtual_file_handler]. *)
  Definition static_virtual_file_handler (virtual_path dir_path : str) : handler := fun c =>
    let dir := segments dir_path in
    let rel := skipn (length (segments virtual_path)) (segments (rq_path (ctx_request c))) in
    bind (file (join_slash (dir ++ rel)) response_ok) (fun r => Ret (b_ok (build_res c (RResponse r)))).

  (** router.rs 147-158: [static_dir_file_handler]. *)
  Definition static_dir_file_handler : handler := fun c =>
    bind (file (join_slash (segments (rq_path (ctx_request c)))) response_ok)
      (fun r => Ret (b_ok (build_res c (RResponse r)))).

  (** router.rs 82-90: [use_static_to]: the registration it makes. *)
  Definition use_static_to (virtual_path dir_path : str) : op handler middleware :=
    ORoute GET (virtual_path ++ [c_slash; c_star]) (static_virtual_file_handler virtual_path dir_path).
  (** router.rs 93-98: [use_static]. *)
  Definition use_static (dir_path : str) : op handler middleware :=
    ORoute GET (dir_path ++ [c_slash; c_star]) static_dir_file_handler.
End App.

Arguments handler : clear implicits.
Arguments mprog : clear implicits.
Arguments middleware : clear implicits.
