(** Model of src/router/response.rs, response_body.rs, responder.rs,
    src/error/obsidian_error.rs and of src/context.rs (all but query parsing).

    What runs asynchronously is a [comp]: a program whose observable actions are
    printing, reading a file, and the actions [U] of user code (answered by an [A]).

    Not modelled: HTTP version, limits on the number and length of headers, request
    headers beyond being carried along, trailers, non-UTF-8 file names. *)

From Coq Require Import String Decimal.
From Verif Require Import Base Utf8 RouteTrie.
Local Open Scope list_scope.

(** ** Bodies *)

(** [hyper::Body] (response.rs 10): the data chunks it delivers; [broken] if the transport then fails. *)
Record body := Body { chunks : list bytes; broken : bool }.

(** [Body::empty] (response_body.rs 9). *)
Definition body_empty : body := Body [] false.
(** [Body::from] of hyper (response_body.rs 15, 21, 28); empty data gives an empty body. *)
Definition body_from (b : bytes) : body :=
  match b with [] => body_empty | _ => Body [b] false end.

(** What a receiver of the body gets in the end. *)
Definition body_bytes (b : body) : bytes := concat (chunks b).

(** [hyper::body::aggregate] (context.rs 179, 244): fails if the transport fails,
    otherwise the non-empty chunks. *)
Definition aggregate (b : body) : option (list bytes) :=
  if broken b then None else Some (filter (fun c => negb (is_empty c)) (chunks b)).
(** [Buf::chunk] of the aggregated body (context.rs 186, 251). *)
Definition buf_chunk (l : list bytes) : bytes :=
  match l with [] => [] | c :: _ => c end.

(** ** JSON of byte vectors: [serde_json::to_string] of a [Vec<u8>] *)

(** Decimal digits as characters (std). *)
Fixpoint uint_chars (d : Decimal.uint) : str :=
  match d with
  | Nil => []
  | D0 d => 48%N :: uint_chars d
  | D1 d => 49%N :: uint_chars d
  | D2 d => 50%N :: uint_chars d
  | D3 d => 51%N :: uint_chars d
  | D4 d => 52%N :: uint_chars d
  | D5 d => 53%N :: uint_chars d
  | D6 d => 54%N :: uint_chars d
  | D7 d => 55%N :: uint_chars d
  | D8 d => 56%N :: uint_chars d
  | D9 d => 57%N :: uint_chars d
  end.

(** [n.to_string()]. *)
Definition dec (n : N) : str := uint_chars (N.to_uint n).

(** The elements of a JSON array of bytes, with commas (serde_json; response_body.rs 27). *)
Fixpoint json_items (v : bytes) : str :=
  match v with
  | [] => []
  | [x] => dec x
  | x :: r => dec x ++ 44%N :: json_items r
  end.
(** [serde_json::to_string] of a [Vec<u8>] (response_body.rs 27, responder.rs 72). *)
Definition json_of_bytes (v : bytes) : str := 91%N :: json_items v ++ [93%N].

(** ** Responses *)

(** response_body.rs 7-35: the types implementing [ResponseBody]. *)
Inductive rbody := BUnit | BStatic (s : str) | BString (s : str) | BBytes (v : bytes).

(** response_body.rs 7-35: [into_body] ([to_string] of a [Vec<u8>] cannot fail). *)
Definition into_body (b : rbody) : body :=
  match b with
  | BUnit => body_empty
  | BStatic s => body_from (utf8 s)
  | BString s => body_from (utf8 s)
  | BBytes v => body_from (utf8 (json_of_bytes v))
  end.

(** [HeaderName] (response.rs 12): its canonical (lower-case) text. *)
Definition hname := str.
(** [StatusCode] (response.rs 11). *)
Definition status := N.

(** [header::CONTENT_TYPE] (response.rs 84). *)
Definition content_type : hname := lit "content-type".

(** response.rs 9-13. *)
Record response := Response {
  res_body : body;
  res_status : status;
  res_headers : option (list (hname * str)) }.

(** response.rs 16-22: [Response::new]. *)
Definition response_new (b : rbody) : response := Response (into_body b) 200%N None.

(** response.rs 48-51: [set_status]; 44-46 [with_status]. *)
Definition set_status (s : status) (r : response) : response :=
  Response (res_body r) s (res_headers r).

(** response.rs 53-56: [set_body]. *)
Definition set_body (b : rbody) (r : response) : response :=
  Response (into_body b) (res_status r) (res_headers r).

(** response.rs 87-93: [set_headers]; 96-98 [with_headers]. *)
Definition set_headers (l : list (hname * str)) (r : response) : response :=
  Response (res_body r) (res_status r)
    (match res_headers r with Some x => Some (x ++ l) | None => Some l end).

(** response.rs 58-64: [set_header]; 67-69 [with_header]. *)
Definition set_header (k : hname) (v : str) (r : response) : response :=
  Response (res_body r) (res_status r)
    (match res_headers r with Some x => Some (x ++ [(k, v)]) | None => Some [(k, v)] end).

(** response.rs 83-85: [set_content_type]. *)
Definition set_content_type (v : str) (r : response) : response := set_header content_type v r.

(** [HeaderName::from_bytes] is the argument [parse_name]; [unwrap] panics on [None].
    response.rs 71-76: [set_header_str]; 79-81 [with_header_str]. *)
Definition set_header_str (parse_name : str -> option hname) (k v : str) (r : response)
  : response + panic :=
  match parse_name k with
  | Some n => inl (set_header n v r)
  | None => inr PUnwrapNone
  end.

(** response.rs 101-104: the [map] of [set_headers_str]. *)
Fixpoint parse_names (parse_name : str -> option hname) (l : list (str * str))
  : option (list (hname * str)) :=
  match l with
  | [] => Some []
  | (k, v) :: r =>
      match parse_name k with
      | None => None
      | Some n => match parse_names parse_name r with
                  | Some l' => Some ((n, v) :: l')
                  | None => None
                  end
      end
  end.

(** response.rs 100-111: [set_headers_str]; 114-116 [with_headers_str]. *)
Definition set_headers_str (parse_name : str -> option hname) (l : list (str * str)) (r : response)
  : response + panic :=
  match parse_names parse_name l with
  | Some l' => inl (set_headers l' r)
  | None => inr PUnwrapNone
  end.

(** response.rs 118-120: [html]. *)
Definition html (b : rbody) (r : response) : response :=
  set_body b (set_content_type (lit "text/html") r).

(** response.rs 122-130: [json]; the argument is the outcome of
    [serde_json::to_string] on the value: its JSON text, or the error text. *)
Definition json (ser : str + str) (r : response) : response :=
  match ser with
  | inl val => set_body (BString val) (set_content_type (lit "application/json") r)
  | inr err => set_status 500%N (set_body (BString err) (set_content_type (lit "application/json") r))
  end.

(** response.rs 144-146: [ok]. *)
Definition response_ok : response := set_status 200%N (response_new BUnit).
(** response.rs 148-150: [created]. *)
Definition response_created : response := set_status 201%N (response_new BUnit).
(** response.rs 152-154: [internal_server_error]. *)
Definition response_internal_server_error : response := set_status 500%N (response_new BUnit).

(** responder.rs 36-113: the types implementing [Responder]. *)
Inductive responder :=
| RResponse (r : response)
| RString (s : str)
| RStatic (s : str)
| RUnit
| RWithStatus (s : status) (b : rbody)   (* (StatusCode, T) *)
| RBytes (v : bytes)
| RStatus (s : status)
| ROptString (o : option str)
| ROptStatic (o : option str).

(** responder.rs 7-12: [with_status] of types that are bodies. *)
Definition rb_with_status (b : rbody) (s : status) : response := set_status s (response_new b).
(** responder.rs 14-19: [with_header]. *)
Definition rb_with_header (b : rbody) (k : hname) (v : str) : response := set_header k v (response_new b).
(** responder.rs 21-26: [with_headers]. *)
Definition rb_with_headers (b : rbody) (l : list (hname * str)) : response := set_headers l (response_new b).
(** responder.rs 28-33: [with_headers_str]. *)
Definition rb_with_headers_str (parse_name : str -> option hname) (b : rbody) (l : list (str * str))
  : response + panic := set_headers_str parse_name l (response_new b).

(** The content type of responder.rs 44. *)
Definition text_plain : str := lit "text/plain; charset=utf-8".

(** responder.rs 36-113: [respond_to]. *)
Definition respond_to (x : responder) : response :=
  match x with
  | RResponse r => r
  | RString s => set_content_type text_plain (response_new (BString s))
  | RStatic s => set_content_type text_plain (response_new (BString s))
  | RUnit => response_new BUnit
  | RWithStatus s b => set_status s (response_new b)
  | RBytes v => rb_with_status (BString (json_of_bytes v)) 200%N
  | RStatus s => rb_with_status BUnit s
  | ROptString (Some s) | ROptStatic (Some s) => set_content_type text_plain (response_new (BString s))
  | ROptString None | ROptStatic None => rb_with_status (BString (lit "Not Found")) 404%N
  end.

(** ** Errors *)

(** req_deserializer.rs 406-409: [Error] of the form deserializer. *)
Inductive form_error := FMessage (msg : str) | FNone.

(** req_deserializer.rs 423-430. *)
Definition form_error_text (e : form_error) : str :=
  match e with
  | FMessage msg => msg
  | FNone => lit "Input should not be None"
  end.

(** obsidian_error.rs 11-17: [ObsidianError]; a JSON error is its display text. *)
Inductive oerror :=
| EParam (msg : str) | EJson (text : str) | EForm (e : form_error) | EGeneral (msg : str) | ENone.

(** obsidian_error.rs 19-31: [Display]. *)
Definition error_text (e : oerror) : str :=
  match e with
  | EParam msg => msg
  | EJson text => text
  | EForm err => form_error_text err
  | EGeneral msg => msg
  | ENone => lit "Input should not be None"
  end.

(** ** Contexts *)

Section Context.
  (** [X]: the values held as typed data. *)
  Context {X : Type}.

  (** [Request<Body>] (context.rs 23) with its [Extensions]: one value per type; types are numbers. *)
  Record request := Request {
    rq_method : method;
    rq_path : str;              (* uri().path() *)
    rq_query : option str;      (* uri().query() *)
    rq_headers : list (hname * str);
    rq_ext : list (N * X);
    rq_body : body }.

  (** context.rs 22-26. *)
  Record context := Context {
    ctx_request : request;
    ctx_params : params;
    ctx_response : option response }.

  (** context.rs 29-35: [Context::new]. *)
  Definition context_new (rq : request) (ps : params) : context := Context rq ps None.

  (** context.rs 63-65: [extensions_mut] (assignment). *)
  Definition set_ext (l : list (N * X)) (c : context) : context :=
    let rq := ctx_request c in
    Context (Request (rq_method rq) (rq_path rq) (rq_query rq) (rq_headers rq) l (rq_body rq))
      (ctx_params c) (ctx_response c).

  (** [*request.body_mut() = b], context.rs 261. *)
  Definition set_rq_body (b : body) (c : context) : context :=
    let rq := ctx_request c in
    Context (Request (rq_method rq) (rq_path rq) (rq_query rq) (rq_headers rq) (rq_ext rq) b)
      (ctx_params c) (ctx_response c).

  (** context.rs 68-70: [add]. *)
  Definition ctx_add (ty : N) (x : X) (c : context) : context :=
    set_ext (ainsert N.eqb ty x (rq_ext (ctx_request c))) c.

  (** context.rs 73-75: [get]. *)
  Definition ctx_get (ty : N) (c : context) : option X := aget N.eqb ty (rq_ext (ctx_request c)).

  (** context.rs 78-80: [get_mut], and the assignment of [f] of the value found;
      [None] when there is no value of the type. *)
  Definition ctx_get_mut (ty : N) (f : X -> X) (c : context) : option context :=
    match ctx_get ty c with
    | Some x => Some (ctx_add ty (f x) c)
    | None => None
    end.

  (** context.rs 105-111: [param]; [parse] is [FromStr] of the target type. *)
  Definition ctx_param {T} (parse : str -> option T) (key : str) (c : context) : T + oerror :=
    match pget key (ctx_params c) with
    | None => inr ENone
    | Some v => match parse v with
                | Some x => inl x
                | None => inr (EParam (lit "Failed to parse param " ++ key))
                end
    end.

  (** context.rs 260-262: [take_body]. *)
  Definition take_body (c : context) : body * context :=
    (rq_body (ctx_request c), set_rq_body body_empty c).

  (** context.rs 176-187 and 241-252: [form] and [json] differ in the parser only;
      [parse] is [parse_queries], or [serde_json::from_slice] with its error. *)
  Definition read_body {T} (parse : bytes -> T + oerror) (c : context) : (T + oerror) * context :=
    let '(b, c') := take_body c in
    (match aggregate b with
     | None => inr ENone
     | Some buf => parse (buf_chunk buf)
     end, c').

  (** context.rs 241-252: [json]. *)
  Definition ctx_json {T} (from_slice : bytes -> T + str) (c : context) : (T + oerror) * context :=
    read_body (fun b => match from_slice b with inl x => inl x | inr e => inr (EJson e) end) c.

  (** context.rs 190-192: [form_with_param]. *)
  Definition form_with_param {T} (c : context) : (T + panic) + oerror := inl (inr PUnimplemented).
  (** context.rs 255-257: [json_with_param]. *)
  Definition json_with_param {T} (c : context) : (T + panic) + oerror := inl (inr PUnimplemented).

  (** context.rs 269-275: [response], [response_mut] (assignment). *)
  Definition set_response (r : option response) (c : context) : context :=
    Context (ctx_request c) (ctx_params c) r.

  (** context.rs 319-327: [ResponseBuilder]. *)
  Record builder := Builder { b_ctx : context; b_response : response }.

  (** context.rs 278-280: [build]. *)
  Definition build_res (c : context) (x : responder) : builder := Builder c (respond_to x).
  (** context.rs 283-285: [build_json]. *)
  Definition build_json (c : context) (ser : str + str) : builder := Builder c (json ser response_ok).

  (** context.rs 330-333: [with_status]. *)
  Definition with_status (s : status) (b : builder) : builder := Builder (b_ctx b) (set_status s (b_response b)).
  (** context.rs 336-339: [with_header]. *)
  Definition with_header (k : hname) (v : str) (b : builder) : builder :=
    Builder (b_ctx b) (set_header k v (b_response b)).
  (** context.rs 347-350: [with_headers]. *)
  Definition with_headers (l : list (hname * str)) (b : builder) : builder :=
    Builder (b_ctx b) (set_headers l (b_response b)).
  (** context.rs 342-345: [with_header_str]. *)
  Definition with_header_str (parse_name : str -> option hname) (k v : str) (b : builder) : builder + panic :=
    match set_header_str parse_name k v (b_response b) with
    | inl r => inl (Builder (b_ctx b) r)
    | inr p => inr p
    end.
  (** context.rs 352-355: [with_headers_str]. *)
  Definition with_headers_str (parse_name : str -> option hname) (l : list (str * str)) (b : builder)
    : builder + panic :=
    match set_headers_str parse_name l (b_response b) with
    | inl r => inl (Builder (b_ctx b) r)
    | inr p => inr p
    end.

  (** handler.rs 7: [ContextResult]. *)
  Definition result : Type := context + oerror.

  (** context.rs 357-360: [ok]. *)
  Definition b_ok (b : builder) : result := inl (set_response (Some (b_response b)) (b_ctx b)).
End Context.

Arguments request : clear implicits.
Arguments context : clear implicits.
Arguments builder : clear implicits.
Arguments result : clear implicits.

(** ** Programs *)

(** Lines printed by the framework (logger.rs 28, 31, 36, 44, response.rs 136) or by user code. *)
Inductive line :=
| LRequest (m : method) (path : str) (query : option str) | LDebug | LSent (s : status) | LError (text : str)
| LDbg (text : str) | LOther (text : str).

Section Comp.
  Context {U A : Type}.

  (** The future of a handler (handler.rs 12), as the sequence of its observable actions. *)
  Inductive comp (T : Type) :=
  | Ret (x : T)
  | Print (l : line) (k : comp T)
  | Read (path : str) (k : str + str -> comp T)   (* fs::read_to_string: text, or error text *)
  | Ask (u : U) (k : A -> comp T)                 (* an action of user code *)
  | Crash (p : panic).

  (** [.await] on a future, and what follows. *)
  Fixpoint bind {S T} (c : comp S) (f : S -> comp T) : comp T :=
    match c with
    | Ret _ x => f x
    | Print _ l k => Print _ l (bind k f)
    | Read _ path k => Read _ path (fun r => bind (k r) f)
    | Ask _ u k => Ask _ u (fun a => bind (k a) f)
    | Crash _ p => Crash _ p
    end.

  (** response.rs 132-141: [file]. *)
  Definition file (path : str) (r : response) : comp response :=
    Read _ path (fun res =>
      match res with
      | inl content => Ret _ (set_body (BString content) r)
      | inr err => Print _ (LDbg err) (Ret _ (set_status 404%N (set_body (BString err) r)))
      end).

  (** context.rs 288-290: [build_file]. *)
  Definition build_file {X} (c : context X) (path : str) : comp (builder X) :=
    bind (file path response_ok) (fun r => Ret _ (Builder c r)).
End Comp.

Arguments comp : clear implicits.
Arguments Ret {U A T} x.
Arguments Print {U A T} l k.
Arguments Read {U A T} path k.
Arguments Ask {U A T} u k.
Arguments Crash {U A T} p.
