(** Vocabulary for the properties of request handling: runs of programs and the
    onion of middlewares.  Nothing here refers to [next] or [serve]. *)

From Coq Require Import String.
From Verif Require Import Base Utf8 RouteTrie Router TableSpec PropSpec Http App.
Local Open Scope list_scope.

Section Runs.
  Context {U A : Type}.

  (** What an observer sees of a program: the lines printed, the files read with
      what was read, the user actions with their answers, in order. *)
  Inductive event :=
  | EvPrint (l : line)
  | EvRead (path : str) (res : str + str)
  | EvAsk (u : U) (a : A).

  Inductive outcome (T : Type) := Value (x : T) | Panicked (p : panic).
  Arguments Value {T} x.
  Arguments Panicked {T} p.

  (** [runs c tr o]: one possible complete run of [c]. *)
  Inductive runs {T} : comp U A T -> list event -> outcome T -> Prop :=
  | run_ret x : runs (Ret x) [] (Value x)
  | run_crash p : runs (Crash p) [] (Panicked p)
  | run_print l k tr o : runs k tr o -> runs (Print l k) (EvPrint l :: tr) o
  | run_read path k res tr o : runs (k res) tr o -> runs (Read path k) (EvRead path res :: tr) o
  | run_ask u k a tr o : runs (k a) tr o -> runs (Ask u k) (EvAsk u a :: tr) o.

  (** Two programs with the same runs. *)
  Definition same_runs {T} (c d : comp U A T) : Prop := forall tr o, runs c tr o <-> runs d tr o.

  (** A file system: the bytes of each path, or the text of the error of opening it.
      [fs_ok fs tr]: the files read during [tr] are those of [fs]; reading a file
      that is not UTF-8 as a string is an error. *)
  Definition fs_ok (fs : str -> bytes + str) (tr : list event) : Prop :=
    forall path res, In (EvRead path res) tr ->
      match fs path with
      | inl b => match from_utf8 b with
                 | Some s => res = inl s
                 | None => exists e, res = inr e
                 end
      | inr e => res = inr e
      end.
End Runs.

Arguments event : clear implicits.
Arguments Value {T} x.
Arguments Panicked {T} p.

Section Onion.
  Context {X U A : Type}.
  Notation context := (context X).
  Notation result := (result X).
  Notation mprog := (mprog X U A).
  Notation middleware := (middleware X U A).
  Notation handler := (handler X U A).
  Notation events := (list (event U A)).

  (** [goes p tr s]: [p] does [tr] and then returns, calls [next] (leaving out [n]
      middlewares) to go on with [k], or panics. *)
  Inductive stop := Returns (r : result) | Calls (n : nat) (c : context) (k : result -> mprog) | Dies (p : panic).

  Inductive goes : mprog -> events -> stop -> Prop :=
  | go_done r : goes (MDone r) [] (Returns r)
  | go_next n c k : goes (MNext n c k) [] (Calls n c k)
  | go_crash p : goes (MCrash p) [] (Dies p)
  | go_print l k tr s : goes k tr s -> goes (MPrint l k) (EvPrint l :: tr) s
  | go_read path k res tr s : goes (k res) tr s -> goes (MRead path k) (EvRead path res :: tr) s
  | go_ask u k a tr s : goes (k a) tr s -> goes (MAsk u k) (EvAsk u a :: tr) s.

  (** ** Any middlewares

      [chain h mws c tr o]: a request with context [c] passes the middlewares [mws]
      towards handler [h] with outcome [o].  [proceeds h mws p tr s]: like [goes], but
      after any number of calls of [next] that returned. *)
  Inductive chain (h : handler) : list middleware -> context -> events -> outcome result -> Prop :=
  | ch_handler c t o : runs (h c) t o -> chain h [] c t o
  | ch_returns m mws c t r : proceeds h mws (m c) t (Returns r) -> chain h (m :: mws) c t (Value r)
  | ch_dies m mws c t p : proceeds h mws (m c) t (Dies p) -> chain h (m :: mws) c t (Panicked p)
  | ch_inner m mws c t1 n c' k t2 p : proceeds h mws (m c) t1 (Calls n c' k) ->
      chain h (skipn n mws) c' t2 (Panicked p) -> chain h (m :: mws) c (t1 ++ t2) (Panicked p)
  with proceeds (h : handler) : list middleware -> mprog -> events -> stop -> Prop :=
  | pr_goes mws p t s : goes p t s -> proceeds h mws p t s
  | pr_again mws p t1 n c k t2 r t3 s : goes p t1 (Calls n c k) -> chain h (skipn n mws) c t2 (Value r) ->
      proceeds h mws (k r) t3 s -> proceeds h mws p (t1 ++ t2 ++ t3) s.

  (** [active h mws c tr mws' c']: after [tr] there are the middlewares [mws'] left,
      entered with context [c'], because every middleware before has called [next] and is
      waiting for it. *)
  Inductive active (h : handler) : list middleware -> context -> events -> list middleware -> context -> Prop :=
  | ac_here mws c : active h mws c [] mws c
  | ac_in m mws c t1 n c' k t2 mws' c'' : proceeds h mws (m c) t1 (Calls n c' k) ->
      active h (skipn n mws) c' t2 mws' c'' -> active h (m :: mws) c (t1 ++ t2) mws' c''.

  (** ** Middlewares that call [next] once *)

  (** The passage of a request through one middleware that calls [next] once. *)
  Record passage := Passage {
    p_in : context;                 (* the context it is given *)
    p_before : events;              (* what it does before calling [next] *)
    p_out : context;                (* the context it hands on *)
    p_cont : result -> mprog;       (* what it does after [next] *)
    p_inner : result;               (* the result it gets back *)
    p_after : events;               (* what it does then *)
    p_result : result }.            (* the result it returns *)

  Definition passes (m : middleware) (p : passage) : Prop :=
    goes (m (p_in p)) (p_before p) (Calls 0 (p_out p) (p_cont p)) /\
    goes (p_cont p (p_inner p)) (p_after p) (Returns (p_result p)).

  (** [wrapped mws c r tr cc rr tc]: the middlewares [mws], each calling [next] once, are
      entered in list order with context [c] and left in reverse order with result
      [r]; inside, something gets context [cc], does [tc] and returns [rr]; [tr] is
      all that happens. *)
  Definition wrapped (mws : list middleware) (c : context) (r : result) (tr : events)
      (cc : context) (rr : result) (tc : events) : Prop :=
    exists ps, Forall2 passes mws ps /\
      tr = concat (map p_before ps) ++ tc ++ concat (map p_after (rev ps)) /\
      c :: map p_out ps = map p_in ps ++ [cc] /\
      r :: map p_inner ps = map p_result ps ++ [rr].

  (** The middleware calls [next] at most once, leaving out nothing. *)
  Definition at_most_once (m : middleware) : Prop :=
    forall c tr n c' k, goes (m c) tr (Calls n c' k) ->
      n = 0 /\ forall r tr' n' c'' k', ~ goes (k r) tr' (Calls n' c'' k').

  (** Every completed run of the middleware calls [next], exactly once ... *)
  Definition calls_next (m : middleware) : Prop :=
    at_most_once m /\ forall c tr r, ~ goes (m c) tr (Returns r).

  (** ... or none does. *)
  Definition never_calls_next (m : middleware) : Prop :=
    forall c tr n c' k, ~ goes (m c) tr (Calls n c' k).

  (** No call leaves out a middleware. *)
  Fixpoint no_skip (p : mprog) : Prop :=
    match p with
    | MDone _ | MCrash _ => True
    | MNext n _ k => n = 0 /\ forall r, no_skip (k r)
    | MPrint _ k => no_skip k
    | MRead _ k => forall r, no_skip (k r)
    | MAsk _ k => forall a, no_skip (k a)
    end.
  Definition never_skips (m : middleware) : Prop := forall c, no_skip (m c).
End Onion.

(** The last value given to a name in a header list. *)
Fixpoint last_value (k : hname) (l : list (hname * str)) : option str :=
  match l with
  | [] => None
  | (k', v) :: r => match last_value k r with
                    | Some w => Some w
                    | None => if str_eqb k k' then Some v else None
                    end
  end.

Definition header_list (r : response) : list (hname * str) :=
  match res_headers r with Some l => l | None => [] end.

(** Header values that [HeaderValue::from_static] accepts: visible ASCII, space, tab. *)
Definition header_text (v : str) : Prop := forall c, In c v -> (32 <= c /\ c < 127)%N \/ c = 9%N.

(** The context a matched request starts with: the request itself, the given
    parameters, no response; with the app state added to the typed data, if set. *)
Definition starts {X} (rq : request X) (ps : params) (st : option (N * X)) (c : context X) : Prop :=
  ctx_params c = ps /\ ctx_response c = None /\
  rq_method (ctx_request c) = rq_method rq /\ rq_path (ctx_request c) = rq_path rq /\
  rq_query (ctx_request c) = rq_query rq /\ rq_headers (ctx_request c) = rq_headers rq /\
  rq_body (ctx_request c) = rq_body rq /\
  match st with
  | None => rq_ext (ctx_request c) = rq_ext rq
  | Some (ty, x) => ctx_get ty c = Some x /\
                    forall ty', ty' <> ty -> ctx_get ty' c = aget N.eqb ty' (rq_ext rq)
  end.

(** The reply to the result of a chain. *)
Inductive replies {X} : result X -> outcome http_response -> Prop :=
| rp_error e b : body_bytes b = utf8 (error_text e) -> broken b = false ->
    replies (inr e) (Value (HttpResponse 500%N [] b))
| rp_empty c b : ctx_response c = None -> body_bytes b = [] -> broken b = false ->
    replies (inl c) (Value (HttpResponse 200%N [] b))
| rp_response c r hm : ctx_response c = Some r ->
    (forall k v, In (k, v) (header_list r) -> header_text v) ->
    NoDup (map fst hm) ->
    (forall k v, In (k, v) hm <-> last_value k (header_list r) = Some v) ->
    replies (inl c) (Value (HttpResponse (res_status r) hm (res_body r)))
| rp_bad_header c r k v : ctx_response c = Some r ->
    In (k, v) (header_list r) -> ~ header_text v ->
    replies (inl c) (Panicked PHeaderValue).

(** [handles prog chain]: [prog] does what [chain] does and ends with the reply to
    its result; a panic of the chain ends it without reply. *)
Definition handles {X U A} (prog : comp U A http_response) (chain : comp U A (result X)) : Prop :=
  (forall tr o, runs prog tr o ->
     (exists r, runs chain tr (Value r) /\ replies r o) \/
     (exists p, runs chain tr (Panicked p) /\ o = Panicked p)) /\
  (forall tr r, runs chain tr (Value r) -> exists o, runs prog tr o /\ replies r o) /\
  (forall tr p, runs chain tr (Panicked p) -> runs prog tr (Panicked p)).

(** The lines printed by [Logger]; a trace without them. *)
Definition logger_line (l : line) : bool :=
  match l with LRequest _ _ _ | LDebug | LSent _ | LError _ => true | LDbg _ | LOther _ => false end.
Definition unlogged {U A} (tr : list (event U A)) : list (event U A) :=
  filter (fun e => match e with EvPrint l => negb (logger_line l) | _ => true end) tr.

(** ** Decimal numerals *)

Definition digits_value (s : str) : N := fold_left (fun a c => (10 * a + (c - 48))%N) s 0%N.

(** [s] is the decimal numeral of [n], without leading zeros. *)
Definition numeral (s : str) (n : N) : Prop :=
  s <> [] /\ (forall c, In c s -> (48 <= c <= 57)%N) /\
  (forall r, s = 48%N :: r -> r = []) /\ digits_value s = n.

(** [text] is the JSON array of the numbers [v]. *)
Definition json_array (v : list N) (text : str) : Prop :=
  exists items, Forall2 numeral items v /\
    text = 91%N :: (match items with
                    | [] => []
                    | i :: r => i ++ flat_map (fun x => 44%N :: x) r
                    end) ++ [93%N].

(** ** Building responses *)

(** A call on a [ResponseBuilder]. *)
Inductive bcall :=
| BStatus (s : status)
| BHeader (k : hname) (v : str)
| BHeaderStr (k v : str)
| BHeaders (l : list (hname * str))
| BHeadersStr (l : list (str * str)).

Section Calls.
  Context {X : Type} (parse_name : str -> option hname).

  Definition call (b : builder X) (k : bcall) : builder X + panic :=
    match k with
    | BStatus s => inl (with_status s b)
    | BHeader k v => inl (with_header k v b)
    | BHeaderStr k v => with_header_str parse_name k v b
    | BHeaders l => inl (with_headers l b)
    | BHeadersStr l => with_headers_str parse_name l b
    end.

  Fixpoint calls (b : builder X) (l : list bcall) : builder X + panic :=
    match l with
    | [] => inl b
    | k :: r => match call b k with inl b' => calls b' r | inr p => inr p end
    end.

  (** The names given as text to a call, the headers it adds (given that its names
      parse), the status it sets. *)
  Definition names (k : bcall) : list str :=
    match k with BHeaderStr k _ => [k] | BHeadersStr l => map fst l | _ => [] end.
  Definition named (l : list (str * str)) : list (hname * str) :=
    flat_map (fun kv => match parse_name (fst kv) with Some n => [(n, snd kv)] | None => [] end) l.
  Definition adds (k : bcall) : list (hname * str) :=
    match k with
    | BStatus _ => []
    | BHeader k v => [(k, v)]
    | BHeaderStr k v => named [(k, v)]
    | BHeaders l => l
    | BHeadersStr l => named l
    end.
  Definition sets (s : status) (k : bcall) : status := match k with BStatus s' => s' | _ => s end.
End Calls.

(** ** Files *)

(** Lexical resolution of '.' and '..' from the inside of a directory: [None] when
    the path climbs above the directory at some point. *)
Fixpoint descend (acc : list str) (l : list str) : option (list str) :=
  match l with
  | [] => Some acc
  | s :: r =>
      if str_eqb s [46; 46]%N then match acc with [] => None | _ :: acc' => descend acc' r end
      else if str_eqb s [46]%N then descend acc r
      else descend (s :: acc) r
  end.

Definition stays_inside (rel : list str) : Prop := descend [] rel <> None.

(** The reply of a static route that has read the file at [path]. *)
Definition file_reply (fs : str -> bytes + str) (path : str) (st : status) (b : body) : Prop :=
  match fs path with
  | inl content => match from_utf8 content with
                   | Some _ => st = 200%N /\ body_bytes b = content
                   | None => st = 404%N
                   end
  | inr err => st = 404%N /\ body_bytes b = utf8 err
  end.

Section ServesFile.
  Context {X U A : Type}.

  (** What a handler serving the file at [path] does: one read; the content with
      status 200, or the error text with status 404; the request is left alone. *)
  Definition serves_file (h : handler X U A) (c : context X) (path : str) : Prop :=
    forall tr o, runs (h c) tr o <->
      (exists content r, tr = [EvRead path (inl content)] /\
         o = Value (inl (Context (ctx_request c) (ctx_params c) (Some r))) /\
         r = Response (body_from (utf8 content)) 200%N None) \/
      (exists err r, tr = [EvRead path (inr err); EvPrint (LDbg err)] /\
         o = Value (inl (Context (ctx_request c) (ctx_params c) (Some r))) /\
         r = Response (body_from (utf8 err)) 404%N None).
End ServesFile.

(** ** Chains that always produce a response *)

Section Answers.
  Context {X U A : Type}.

  Definition answered (r : result X) : Prop := forall c, r = inl c -> ctx_response c <> None.

  (** The handler never succeeds without setting a response ... *)
  Definition answers (h : handler X U A) : Prop :=
    forall c tr r, runs (h c) tr (Value r) -> answered r.

  (** ... nor does the middleware, given that what it calls does not. *)
  Fixpoint keeps (p : mprog X U A) : Prop :=
    match p with
    | MDone r => answered r
    | MNext _ _ k => forall r, answered r -> keeps (k r)
    | MPrint _ k => keeps k
    | MRead _ k => forall r, keeps (k r)
    | MAsk _ k => forall a, keeps (k a)
    | MCrash _ => True
    end.
  Definition keeps_answer (m : middleware X U A) : Prop := forall c, keeps (m c).
End Answers.

(** ** Responses and bodies *)

(** Status, body and content type of a response without further headers. *)
Definition sends (r : response) (st : status) (body : bytes) (ct : option str) : Prop :=
  res_status r = st /\ body_bytes (res_body r) = body /\ broken (res_body r) = false /\
  header_list r = match ct with Some t => [(lit "content-type", t)] | None => [] end.

(** The contexts agree on everything but the body. *)
Definition same_but_body {X} (c c' : context X) : Prop :=
  ctx_params c' = ctx_params c /\ ctx_response c' = ctx_response c /\
  rq_method (ctx_request c') = rq_method (ctx_request c) /\
  rq_path (ctx_request c') = rq_path (ctx_request c) /\
  rq_query (ctx_request c') = rq_query (ctx_request c) /\
  rq_headers (ctx_request c') = rq_headers (ctx_request c) /\
  rq_ext (ctx_request c') = rq_ext (ctx_request c).

(** At most one chunk is non-empty. *)
Definition one_chunk (b : body) : Prop :=
  chunks b = [] \/ exists l1 x l2, chunks b = l1 ++ x :: l2 /\ (forall y, In y l1 \/ In y l2 -> y = []).

(** ** Servers *)

(** A plain GET request. *)
Definition get_req {X} (path : str) : request X := Request GET path None [] [] body_empty.

(** The server of the calls [l] answers a GET request for [req] with a handler that
    serves the file at [path]. *)
Definition reads_path {X U A} (l : list (op (handler X U A) (middleware X U A))) (req path : str) : Prop :=
  exists t rv h, built l t /\ search_route t req = LSome rv /\ rr_get_route rv GET = Some (Route GET h) /\
    forall c : context X, rq_path (ctx_request c) = req -> serves_file h c path.
