(** Handlers that write a reply: how they may do it, and what the reply then is. *)

From Coq Require Import String.
From Verif Require Import Base Utf8 RouteTrie Router TableSpec PropSpec Http App AppSpec.
Local Open Scope string_scope.
Local Open Scope list_scope.

(** A first [Response]: [Response::new(b)], the utilities, and the methods of a body
    that turn it into a response. *)
Inductive rstart :=
| SNew (b : rbody) | SOk | SCreated | SInternal
| SStatus (b : rbody) (s : status)
| SHeader (b : rbody) (k : hname) (v : str)
| SHeaders (b : rbody) (l : list (hname * str))
| SHeadersStr (b : rbody) (l : list (str * str)).

(** A call on a [Response]; [CJson] has the outcome of the JSON serialisation. *)
Inductive rcall :=
| CStatus (s : status) | CBody (b : rbody)
| CHeader (k : hname) (v : str) | CHeaderStr (k v : str) | CType (v : str)
| CHeaders (l : list (hname * str)) | CHeadersStr (l : list (str * str))
| CHtml (b : rbody) | CJson (ser : str + str) | CFile (path : str).

(** How a handler starts: [ctx.build(x)], [ctx.build_json(v)], [ctx.build_file(path)],
    or [ctx.build(r)] for a response it has written (so [x] is not a response). *)
Inductive hstart :=
| HBuild (x : responder) | HJson (ser : str + str) | HFile (path : str)
| HResponse (s : rstart) (l : list rcall).
Definition proper (s : hstart) : Prop := forall r, s <> HBuild (RResponse r).

Section Programs.
  Context {X U A : Type} (parse_name : str -> option hname).

  Definition or_crash {T} (r : T + panic) : comp U A T := match r with inl x => Ret x | inr p => Crash p end.

  Definition first (s : rstart) : comp U A response :=
    match s with
    | SNew b => Ret (response_new b)
    | SOk => Ret response_ok
    | SCreated => Ret response_created
    | SInternal => Ret response_internal_server_error
    | SStatus b s => Ret (rb_with_status b s)
    | SHeader b k v => Ret (rb_with_header b k v)
    | SHeaders b l => Ret (rb_with_headers b l)
    | SHeadersStr b l => or_crash (rb_with_headers_str parse_name b l)
    end.

  Definition rcall_run (r : response) (k : rcall) : comp U A response :=
    match k with
    | CStatus s => Ret (set_status s r)
    | CBody b => Ret (set_body b r)
    | CHeader k v => Ret (set_header k v r)
    | CHeaderStr k v => or_crash (set_header_str parse_name k v r)
    | CType v => Ret (set_content_type v r)
    | CHeaders l => Ret (set_headers l r)
    | CHeadersStr l => or_crash (set_headers_str parse_name l r)
    | CHtml b => Ret (html b r)
    | CJson ser => Ret (json ser r)
    | CFile path => file path r
    end.

  Fixpoint rcalls (r : response) (l : list rcall) : comp U A response :=
    match l with
    | [] => Ret r
    | k :: l' => bind (rcall_run r k) (fun r' => rcalls r' l')
    end.

  Definition hstart_run (c : context X) (s : hstart) : comp U A (builder X) :=
    match s with
    | HBuild x => Ret (build_res c x)
    | HJson ser => Ret (build_json c ser)
    | HFile path => build_file c path
    | HResponse s l => bind (bind (first s) (fun r => rcalls r l)) (fun r => Ret (build_res c (RResponse r)))
    end.

  (** The handler [|ctx| async { start.call()...call().ok() }]. *)
  Definition reply (s : hstart) (l : list bcall) : handler X U A := fun c =>
    bind (hstart_run c s) (fun b => bind (or_crash (calls parse_name b l)) (fun b' => Ret (b_ok b'))).
End Programs.

(** ** What is written *)

(** The reply as the client will see it: status, bytes, header lines as written. *)
Record look := Look { lk_status : status; lk_body : bytes; lk_headers : list (hname * str) }.

(** The bytes of a body. *)
Inductive body_is : rbody -> bytes -> Prop :=
| bi_unit : body_is BUnit []
| bi_static s : body_is (BStatic s) (utf8 s)
| bi_string s : body_is (BString s) (utf8 s)
| bi_bytes v text : json_array v text -> body_is (BBytes v) (utf8 text).

Definition text_type : list (hname * str) := [(lit "content-type", lit "text/plain; charset=utf-8")].
Definition html_type : list (hname * str) := [(lit "content-type", lit "text/html")].
Definition json_type : list (hname * str) := [(lit "content-type", lit "application/json")].

Section Written.
  Context {U A : Type} (parse_name : str -> option hname).

  (** The names of [l] are valid, and with them it is the header list [hs]. *)
  Definition headers_of (l : list (str * str)) (hs : list (hname * str)) : Prop :=
    Forall2 (fun kv h => parse_name (fst kv) = Some (fst h) /\ snd h = snd kv) l hs.

  Inductive first_is : rstart -> look -> Prop :=
  | fi_new b x : body_is b x -> first_is (SNew b) (Look 200%N x [])
  | fi_ok : first_is SOk (Look 200%N [] [])
  | fi_created : first_is SCreated (Look 201%N [] [])
  | fi_internal : first_is SInternal (Look 500%N [] [])
  | fi_status b s x : body_is b x -> first_is (SStatus b s) (Look s x [])
  | fi_header b k v x : body_is b x -> first_is (SHeader b k v) (Look 200%N x [(k, v)])
  | fi_headers b l x : body_is b x -> first_is (SHeaders b l) (Look 200%N x l)
  | fi_headers_str b l x hs : body_is b x -> headers_of l hs -> first_is (SHeadersStr b l) (Look 200%N x hs).

  (** [call_is tr k a b]: the call [k] turns [a] into [b], while [tr] happens. *)
  Inductive call_is : list (event U A) -> rcall -> look -> look -> Prop :=
  | ci_status s s' x hs : call_is [] (CStatus s') (Look s x hs) (Look s' x hs)
  | ci_body b s x x' hs : body_is b x' -> call_is [] (CBody b) (Look s x hs) (Look s x' hs)
  | ci_header k v s x hs : call_is [] (CHeader k v) (Look s x hs) (Look s x (hs ++ [(k, v)]))
  | ci_header_str k v n s x hs : parse_name k = Some n ->
      call_is [] (CHeaderStr k v) (Look s x hs) (Look s x (hs ++ [(n, v)]))
  | ci_type v s x hs : call_is [] (CType v) (Look s x hs) (Look s x (hs ++ [(lit "content-type", v)]))
  | ci_headers l s x hs : call_is [] (CHeaders l) (Look s x hs) (Look s x (hs ++ l))
  | ci_headers_str l hs' s x hs : headers_of l hs' -> call_is [] (CHeadersStr l) (Look s x hs) (Look s x (hs ++ hs'))
  | ci_html b s x x' hs : body_is b x' -> call_is [] (CHtml b) (Look s x hs) (Look s x' (hs ++ html_type))
  | ci_json text s x hs : call_is [] (CJson (inl text)) (Look s x hs) (Look s (utf8 text) (hs ++ json_type))
  | ci_json_error err s x hs :
      call_is [] (CJson (inr err)) (Look s x hs) (Look 500%N (utf8 err) (hs ++ json_type))
  | ci_file path text s x hs :
      call_is [EvRead path (inl text)] (CFile path) (Look s x hs) (Look s (utf8 text) hs)
  | ci_file_error path err s x hs :
      call_is [EvRead path (inr err); EvPrint (LDbg err)] (CFile path) (Look s x hs) (Look 404%N (utf8 err) hs).

  Inductive calls_are : list (event U A) -> list rcall -> look -> look -> Prop :=
  | ca_nil a : calls_are [] [] a a
  | ca_cons tr k a b tr' l c : call_is tr k a b -> calls_are tr' l b c -> calls_are (tr ++ tr') (k :: l) a c.

  Inductive responder_is : responder -> look -> Prop :=
  | ri_string s : responder_is (RString s) (Look 200%N (utf8 s) text_type)
  | ri_static s : responder_is (RStatic s) (Look 200%N (utf8 s) text_type)
  | ri_unit : responder_is RUnit (Look 200%N [] [])
  | ri_with s b x : body_is b x -> responder_is (RWithStatus s b) (Look s x [])
  | ri_bytes v text : json_array v text -> responder_is (RBytes v) (Look 200%N (utf8 text) [])
  | ri_status s : responder_is (RStatus s) (Look s [] [])
  | ri_some s : responder_is (ROptString (Some s)) (Look 200%N (utf8 s) text_type)
  | ri_some_static s : responder_is (ROptStatic (Some s)) (Look 200%N (utf8 s) text_type)
  | ri_none : responder_is (ROptString None) (Look 404%N (utf8 (lit "Not Found")) [])
  | ri_none_static : responder_is (ROptStatic None) (Look 404%N (utf8 (lit "Not Found")) []).

  Inductive start_is : list (event U A) -> hstart -> look -> Prop :=
  | si_build x a : responder_is x a -> start_is [] (HBuild x) a
  | si_json ser a : calls_are [] [CJson ser] (Look 200%N [] []) a -> start_is [] (HJson ser) a
  | si_file tr path a : calls_are tr [CFile path] (Look 200%N [] []) a -> start_is tr (HFile path) a
  | si_response tr s l a b : first_is s a -> calls_are tr l a b -> start_is tr (HResponse s l) b.

  (** The calls of the builder, as calls on a response. *)
  Definition on_response (k : bcall) : rcall :=
    match k with
    | BStatus s => CStatus s | BHeader k v => CHeader k v | BHeaderStr k v => CHeaderStr k v
    | BHeaders l => CHeaders l | BHeadersStr l => CHeadersStr l
    end.

  (** [written tr s l a]: the handler [reply s l] writes [a], while [tr] happens. *)
  Definition written (tr : list (event U A)) (s : hstart) (l : list bcall) (a : look) : Prop :=
    exists b, start_is tr s b /\ calls_are [] (map on_response l) b a.

  (** The header names given as text. *)
  Definition rnames (k : rcall) : list str :=
    match k with CHeaderStr k _ => [k] | CHeadersStr l => map fst l | _ => [] end.
  Definition names_in (s : hstart) (l : list bcall) : list str :=
    match s with
    | HResponse (SHeadersStr _ l0) l' => map fst l0 ++ flat_map rnames l'
    | HResponse _ l' => flat_map rnames l'
    | _ => []
    end ++ flat_map names l.
End Written.

(** The response sent to the client is [a]: of several values of a header the last. *)
Definition received (a : look) (r : http_response) : Prop :=
  h_status r = lk_status a /\ body_bytes (h_body r) = lk_body a /\ broken (h_body r) = false /\
  NoDup (map fst (h_headers r)) /\
  (forall k v, In (k, v) (h_headers r) <-> last_value k (lk_headers a) = Some v).

(** All header values can be sent. *)
Definition sendable (a : look) : Prop := forall k v, In (k, v) (lk_headers a) -> header_text v.

(** [client_gets prog s bl]: [prog] sends what [reply s bl] writes.  Its runs, up to the
    lines of loggers, send what is written; or panic, either because a header value that
    is written cannot be sent or because of an invalid header name.  And whatever can be
    written (for any content of the files read) is sent by some run. *)
Section Gets.
  Context {U A : Type} (parse_name : str -> option hname).

  Definition client_gets (prog : comp U A http_response) (s : hstart) (bl : list bcall) : Prop :=
    (forall tr o, runs prog tr o ->
       (exists a r, written parse_name (unlogged tr) s bl a /\ sendable a /\ o = Value r /\ received a r) \/
       (exists a, written parse_name (unlogged tr) s bl a /\ ~ sendable a /\ o = Panicked PHeaderValue) \/
       (o = Panicked PUnwrapNone /\ exists n, In n (names_in s bl) /\ parse_name n = None)) /\
    (forall tr a, written parse_name tr s bl a ->
       (forall n, In n (names_in s bl) -> parse_name n <> None) /\
       exists tr', unlogged tr' = tr /\
         (sendable a -> exists r, runs prog tr' (Value r) /\ received a r) /\
         (~ sendable a -> runs prog tr' (Panicked PHeaderValue))).

End Gets.
