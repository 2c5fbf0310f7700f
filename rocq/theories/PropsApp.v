(** Properties C25-C34, C38-C40, C55, C60-C62: handling of requests.

    The statements use the model ([Http], [App]) and the specifications ([TableSpec],
    [PropSpec], [AppSpec]).  [X] is the type of typed data, [U] and [A] are the
    actions of user code and their answers: handlers and middlewares are arbitrary
    programs over them. *)

From Coq Require Import String.
From Verif Require Import Base Utf8 RouteTrie Router TableSpec PropSpec Http App AppSpec.
From Verif Require Import RouteFacts RouteLemmas RouteWitness AppLemmas AppLemmas2 AppLemmas3 AppLemmas4 AppWitness LogSpec MoreLemmas.
Local Open Scope string_scope.
Local Open Scope list_scope.

Local Ltac matched path req h :=
  apply one_matched; assert (L : forall H M (x : H), @one_route H M path req x) by (intros; one); apply L.

(** * C25: unknown paths and methods *)

Theorem C25_not_found : forall (X U A : Type) (l : list (op (handler X U A) (middleware X U A))) t st (rq : request X),
  built l t ->
  (forall ts ps, resolves (table_of l) (segments (rq_path rq)) ts ps ->
     handler_for (rq_method rq) (routes_at (table_of l) ts) = None) ->
  forall tr o, runs (serve t st rq) tr o <->
    tr = [] /\ o = Value (HttpResponse 404%N [] (Body [utf8 (lit "404 Not Found")] false)).
Proof. exact (@unmatched_404). Qed.
Print Assumptions C25_not_found.

Example C25_example : let l : list (op (handler unit unit unit) (middleware unit unit unit)) :=
    [OService deny; ORoute POST (lit "/a") no_answer] in
  exists t, built l t /\
    forall ts ps, resolves (table_of l) (segments (lit "/a")) ts ps ->
      handler_for GET (routes_at (table_of l) ts) = None.
Proof.
  intros l. eexists. assert (B : built l (fst (build l))) by built_by. split; [exact B|].
  intros ts ps R. destruct (some_lookup l _ (lit "/a") ts ps B R) as (r & E & (_ & D & _)).
  assert (K : match search_route (fst (build l)) (lit "/a") with LSome r => rr_get_route r GET = None | _ => True end)
    by (vm_compute; reflexivity).
  rewrite E, D in K. destruct (handler_for GET (routes_at (table_of l) ts)); [discriminate K|reflexivity].
Qed.

(** For any router at all, in terms of the lookup. *)
Theorem C25_any_router : forall (X U A : Type) (t : trie (handler X U A) (middleware X U A)) st (rq : request X),
  (forall r, search_route t (rq_path rq) = LSome r -> rr_get_route r (rq_method rq) = None) ->
  forall tr o, runs (serve t st rq) tr o <->
    tr = [] /\ o = Value (HttpResponse 404%N [] (Body [utf8 (lit "404 Not Found")] false)).
Proof. exact (@any_404). Qed.
Print Assumptions C25_any_router.

Example C25_any_example : let t := fst (build [@ORoute (handler unit unit unit) (middleware unit unit unit) GET (lit "/ac") no_answer;
    ORoute POST (lit "/a:b") no_answer]) in
  (forall r, search_route t (lit "/a:b") = LSome r -> rr_get_route r GET = None) /\
  (exists r, search_route t (lit "/a:b") = LSome r) /\ forall r, search_route t (lit "/x") <> LSome r.
Proof.
  intros t. split; [|split].
  - intros r E. vm_compute in E. injection E as <-. reflexivity.
  - eexists. vm_compute. reflexivity.
  - intros r E. vm_compute in E. discriminate E.
Qed.

(** * C26: the onion of middlewares *)

(** The runs of [next], whatever the middlewares do. *)
Theorem C26_chain : forall (X U A : Type) (mws : list (middleware X U A)) (h : handler X U A) c tr o,
  runs (next mws h c) tr o <-> chain h mws c tr o.
Proof. exact (@chain_runs). Qed.
Print Assumptions C26_chain.

Example C26_chain_example : forall X U A (c : context X) e,
  runs (next [retry; bypass; deny; around (lit "b") (lit "B")] (fun _ => @Ret U A _ (inr e)) c)
    [EvPrint (LOther (lit "b")); EvPrint (LOther (lit "B")); EvPrint (LOther (lit "b")); EvPrint (LOther (lit "B"))]
    (Value (inr e)).
Proof. intros X U A c e. cbn -[lit]. repeat apply run_print. apply run_ret. Qed.

(** Middlewares that call [next] at most once.  Every completed run of a chain: either
    all middlewares are passed and the handler is run, or some middleware answers
    itself, inside those before it. *)
Theorem C26_once : forall (X U A : Type) (mws : list (middleware X U A)) (h : handler X U A) c tr r,
  Forall at_most_once mws ->
  (runs (next mws h c) tr (Value r) <->
   (exists cc rr tc, wrapped mws c r tr cc rr tc /\ runs (h cc) tc (Value rr)) \/
   (exists pre m post cc rr tc, mws = pre ++ m :: post /\ wrapped pre c r tr cc rr tc /\ goes (m cc) tc (Returns rr))).
Proof. exact (@chain_value). Qed.
Print Assumptions C26_once.

Example C26_once_example : forall X U A (c : context X),
  Forall at_most_once [@around X U A (lit "a") (lit "A"); deny; around (lit "b") (lit "B")] /\
  exists r, runs (next [around (lit "a") (lit "A"); deny; around (lit "b") (lit "B")] (@no_answer X U A) c)
    [EvPrint (LOther (lit "a")); EvPrint (LOther (lit "A"))] (Value r).
Proof.
  intros X U A c. split.
  - constructor; [apply around_calls|]. constructor; [|constructor; [apply around_calls|constructor]].
    intros c0 tr n c' k G. destruct (@deny_stops X U A _ _ _ _ _ G).
  - eexists. cbn -[lit]. repeat apply run_print. apply run_ret.
Qed.

Theorem C26_onion : forall (X U A : Type) (mws : list (middleware X U A)) (h : handler X U A) c tr r,
  Forall calls_next mws ->
  (runs (next mws h c) tr (Value r) <->
   exists cc rr tc, wrapped mws c r tr cc rr tc /\ runs (h cc) tc (Value rr)).
Proof. exact (@onion). Qed.
Print Assumptions C26_onion.

Example C26_example : forall X U A (c : context X),
  Forall calls_next [@around X U A (lit "a") (lit "A"); around (lit "b") (lit "B")] /\
  runs (next [around (lit "a") (lit "A"); around (lit "b") (lit "B")] (@no_answer X U A) c)
    [EvPrint (LOther (lit "a")); EvPrint (LOther (lit "b")); EvPrint (LOther (lit "B")); EvPrint (LOther (lit "A"))]
    (Value (inl c)).
Proof.
  intros X U A c. split; [repeat (constructor; [apply around_calls|]); constructor|].
  cbn -[lit]. repeat apply run_print. apply run_ret.
Qed.

(** * C27: a middleware that does not call [next] *)

Theorem C27_stops : forall (X U A : Type) pre (m : middleware X U A) post (h : handler X U A) c tr r,
  Forall calls_next pre -> never_calls_next m ->
  (runs (next (pre ++ m :: post) h c) tr (Value r) <->
   exists cc rr tc, wrapped pre c r tr cc rr tc /\ goes (m cc) tc (Returns rr)).
Proof. exact (@stopped). Qed.
Print Assumptions C27_stops.

Example C27_stops_example : forall X U A (c : context X),
  Forall calls_next [@around X U A (lit "a") (lit "A"); around (lit "b") (lit "B")] /\ never_calls_next (@deny X U A) /\
  exists r, runs (next ([around (lit "a") (lit "A"); around (lit "b") (lit "B")] ++ deny :: [retry]) (@no_answer X U A) c)
    [EvPrint (LOther (lit "a")); EvPrint (LOther (lit "b")); EvPrint (LOther (lit "B")); EvPrint (LOther (lit "A"))] (Value r).
Proof.
  intros X U A c. split; [repeat (constructor; [apply around_calls|]); constructor|]. split; [apply deny_stops|].
  eexists. cbn -[lit]. repeat apply run_print. apply run_ret.
Qed.

(** What comes after it makes no difference at all, panics included (a middleware before
    it could leave it out). *)
Theorem C27_rest_irrelevant : forall (X U A : Type) pre (m : middleware X U A) post post' (h h' : handler X U A) c,
  Forall never_skips pre -> never_calls_next m -> same_runs (next (pre ++ m :: post) h c) (next (pre ++ m :: post') h' c).
Proof. exact (@stopped_rest). Qed.
Print Assumptions C27_rest_irrelevant.

Example C27_example : forall X U A (c : context X),
  never_calls_next (@deny X U A) /\ Forall calls_next [@around X U A (lit "a") (lit "A")] /\
  Forall never_skips [@around X U A (lit "a") (lit "A"); retry] /\
  exists r, runs (next [around (lit "a") (lit "A"); deny; around (lit "b") (lit "B")] (@no_answer X U A) c)
    [EvPrint (LOther (lit "a")); EvPrint (LOther (lit "A"))] (Value (inl r)) /\
    option_map res_status (ctx_response r) = Some 403%N.
Proof.
  intros X U A c. split; [apply deny_stops|]. split; [repeat (constructor; [apply around_calls|]); constructor|].
  split; [constructor; [apply around_no_skip|]; constructor; [apply retry_no_skip|constructor]|]. eexists. split; [cbn -[lit]; repeat apply run_print; apply run_ret|reflexivity].
Qed.

(** * C60: a matched request, end to end *)

Theorem C60_end_to_end : forall (X U A : Type) (l : list (op (handler X U A) (middleware X U A))) t st (rq : request X) ts ps h,
  built l t -> resolves (table_of l) (segments (rq_path rq)) ts ps ->
  handler_for (rq_method rq) (routes_at (table_of l) ts) = Some h ->
  exists pm c, (forall n, pget n pm = first_binding ps n) /\ starts rq pm st c /\
    handles (serve t st rq) (next (mws_for (table_of l) ts) h c).
Proof. exact (@end_to_end). Qed.
Print Assumptions C60_end_to_end.

(** The hypotheses of this theorem and of C28, C29, C30, C32, C61. *)
Example C60_example : forall X U A, let l := [@ORoute (handler X U A) (middleware X U A) GET (lit "/users/:id") no_answer] in
  exists t ts ps, built l t /\ resolves (table_of l) (segments (lit "/users/7")) ts ps /\
    handler_for GET (routes_at (table_of l) ts) = Some no_answer.
Proof. intros X U A l. matched (lit "/users/:id") (lit "/users/7") (@no_answer X U A). Qed.

(** For any router at all, in terms of the lookup. *)
Theorem C60_any_router : forall (X U A : Type) (t : trie (handler X U A) (middleware X U A)) st (rq : request X) r m h,
  search_route t (rq_path rq) = LSome r -> rr_get_route r (rq_method rq) = Some (Route m h) ->
  exists c, starts rq (rr_params r) st c /\ handles (serve t st rq) (next (rr_mws r) h c).
Proof. exact (@any_handled). Qed.
Print Assumptions C60_any_router.

Example C60_any_example : forall X U A, let t := fst (build [@ORoute (handler X U A) (middleware X U A) GET (lit "/ac") no_answer;
    OServiceTo (lit "/a:b") deny; ORoute POST (lit "/a:b/x") no_answer]) in
  exists r, search_route t (lit "/a:b/x") = LSome r /\ rr_get_route r POST = Some (Route POST no_answer) /\ rr_mws r = [deny].
Proof.
  intros X U A t. assert (L : forall H M (h h' : H) (m : M), exists r,
    search_route (fst (build [ORoute GET (lit "/ac") h; OServiceTo (lit "/a:b") m; ORoute POST (lit "/a:b/x") h'])) (lit "/a:b/x") = LSome r /\
    rr_get_route r POST = Some (Route POST h') /\ rr_mws r = [m]).
  { intros H M h h' m. eexists. split; [vm_compute; reflexivity|]. split; vm_compute; reflexivity. }
  apply L.
Qed.

(** For any accepted registrations (colons anywhere) and a request that matches the path
    of a route: its handler is run, below all the middlewares on the way. *)
Theorem C60_own_route : forall (X U A : Type) (l : list (op (handler X U A) (middleware X U A))) t st (rq : request X) p b h,
  build l = (t, None) -> registered l p (CRoute (rq_method rq) h) -> no_star p -> seg_match p (segments (rq_path rq)) b ->
  exists pm mws c, (forall n, pget n pm = first_binding b n) /\
    (forall q q' mw, p = q ++ q' -> registered l q (CMw mw) -> In mw mws) /\
    starts rq pm st c /\ handles (serve t st rq) (next mws h c).
Proof. exact (@own_handled). Qed.
Print Assumptions C60_own_route.

Example C60_own_example : let l := [@ORoute (handler unit unit unit) (middleware unit unit unit) GET (lit "/ac") no_answer;
    OServiceTo (lit "/a:b") deny; ORoute GET (lit "/a:b/:id") no_answer] in
  (exists t, build l = (t, None)) /\ registered l [lit "a:b"; lit ":id"] (CRoute GET no_answer) /\
  seg_match [lit "a:b"; lit ":id"] (segments (lit "/a:b/7")) [(lit "id", lit "7")].
Proof.
  intros l. split; [eexists; vm_compute; reflexivity|]. split; [right; right; left; reflexivity|].
  change (seg_match [lit "a:b"; c_colon :: lit "id"] [lit "a:b"; lit "7"] [(lit "id", lit "7")]).
  constructor; [split; [discriminate|intros [r E]; discriminate]|]. constructor. constructor.
Qed.

(** * C28: errors *)

Theorem C28_error : forall (X U A : Type) (l : list (op (handler X U A) (middleware X U A))) t st (rq : request X) ts ps h,
  built l t -> resolves (table_of l) (segments (rq_path rq)) ts ps ->
  handler_for (rq_method rq) (routes_at (table_of l) ts) = Some h ->
  exists pm c, (forall n, pget n pm = first_binding ps n) /\ starts rq pm st c /\
    forall tr e, runs (next (mws_for (table_of l) ts) h c) tr (Value (inr e)) ->
      exists b, body_bytes b = utf8 (error_text e) /\ broken b = false /\
        forall o, runs (serve t st rq) tr o <-> o = Value (HttpResponse 500%N [] b).
Proof. exact (@error_500). Qed.
Print Assumptions C28_error.

Example C28_example : exists t,
  built [@ORoute (handler unit unit unit) (middleware unit unit unit) GET (lit "/a") (fun _ => Ret (inr (EGeneral (lit "no"))))] t /\
  runs (serve t None (get_req (lit "/a"))) [] (Value (HttpResponse 500%N [] (Body [utf8 (lit "no")] false))).
Proof. eexists. split; [built_by|]. vm_compute. apply run_ret. Qed.

(** * C29: responses *)

Theorem C29_response : forall (X U A : Type) (l : list (op (handler X U A) (middleware X U A))) t st (rq : request X) ts ps h,
  built l t -> resolves (table_of l) (segments (rq_path rq)) ts ps ->
  handler_for (rq_method rq) (routes_at (table_of l) ts) = Some h ->
  exists pm c, (forall n, pget n pm = first_binding ps n) /\ starts rq pm st c /\
    forall tr c' r, runs (next (mws_for (table_of l) ts) h c) tr (Value (inl c')) -> ctx_response c' = Some r ->
      (forall k v, In (k, v) (header_list r) -> header_text v) ->
      exists hm, NoDup (map fst hm) /\
        (forall k v, In (k, v) hm <-> last_value k (header_list r) = Some v) /\
        forall o, runs (serve t st rq) tr o <-> o = Value (HttpResponse (res_status r) hm (res_body r)).
Proof. exact (@response_delivered). Qed.
Print Assumptions C29_response.

Example C29_example : let r := Response (Body [[1; 2]]%N false) 201%N
    (Some [(lit "x-a", lit "1"); (lit "x-b", lit "2"); (lit "x-a", lit "3")]) in
  exists t hm, built [@ORoute (handler unit unit unit) (middleware unit unit unit) GET (lit "/a") (answer_with r)] t /\
    runs (serve t None (get_req (lit "/a"))) [] (Value (HttpResponse 201%N hm (Body [[1; 2]]%N false))) /\
    hm = [(lit "x-a", lit "3"); (lit "x-b", lit "2")].
Proof. eexists. eexists. split; [built_by|]. split; [vm_compute; apply run_ret|reflexivity]. Qed.

Theorem C29_no_response : forall (X U A : Type) (l : list (op (handler X U A) (middleware X U A))) t st (rq : request X) ts ps h,
  built l t -> resolves (table_of l) (segments (rq_path rq)) ts ps ->
  handler_for (rq_method rq) (routes_at (table_of l) ts) = Some h ->
  exists pm c, (forall n, pget n pm = first_binding ps n) /\ starts rq pm st c /\
    forall tr c', runs (next (mws_for (table_of l) ts) h c) tr (Value (inl c')) -> ctx_response c' = None ->
      exists b, body_bytes b = [] /\ broken b = false /\
        forall o, runs (serve t st rq) tr o <-> o = Value (HttpResponse 200%N [] b).
Proof. exact (@no_response_empty). Qed.
Print Assumptions C29_no_response.

Example C29_no_example : exists t,
  built [@ORoute (handler unit unit unit) (middleware unit unit unit) GET (lit "/a") no_answer] t /\
  runs (serve t None (get_req (lit "/a"))) [] (Value (HttpResponse 200%N [] (Body [] false))).
Proof. eexists. split; [built_by|]. vm_compute. apply run_ret. Qed.

(** * C30: every header added reaches the client *)

Theorem C30_refuted : forall X U A : Type,
  exists (h : handler X U A) r k v t resp,
    (forall c, h c = Ret (inl (set_response (Some r) c))) /\
    In (k, v) (header_list r) /\ (forall k v, In (k, v) (header_list r) -> header_text v) /\
    @built _ (middleware X U A) [ORoute GET (lit "/") h] t /\
    runs (serve t None (get_req (lit "/"))) [] (Value resp) /\
    ~ In (k, v) (h_headers resp).
Proof. exact w_header_lost. Qed.
Print Assumptions C30_refuted.

(** True when no name is used twice. *)
Theorem C30_partial : forall (X U A : Type) (l : list (op (handler X U A) (middleware X U A))) t st (rq : request X) ts ps h,
  built l t -> resolves (table_of l) (segments (rq_path rq)) ts ps ->
  handler_for (rq_method rq) (routes_at (table_of l) ts) = Some h ->
  exists pm c, (forall n, pget n pm = first_binding ps n) /\ starts rq pm st c /\
    forall tr c' r o k v, runs (next (mws_for (table_of l) ts) h c) tr (Value (inl c')) -> ctx_response c' = Some r ->
      (forall k v, In (k, v) (header_list r) -> header_text v) -> NoDup (map fst (header_list r)) ->
      runs (serve t st rq) tr o -> In (k, v) (header_list r) ->
      exists resp, o = Value resp /\ In (k, v) (h_headers resp).
Proof. exact (@distinct_headers). Qed.
Print Assumptions C30_partial.

Example C30_example : let r := Response (Body [[1; 2]]%N false) 201%N (Some [(lit "x-a", lit "1"); (lit "set-cookie", lit "2")]) in
  (forall k v, In (k, v) (header_list r) -> header_text v) /\ NoDup (map fst (header_list r)) /\
  exists t hm, built [@ORoute (handler unit unit unit) (middleware unit unit unit) GET (lit "/:id") (answer_with r)] t /\
    runs (serve t None (get_req (lit "/a"))) [] (Value (HttpResponse 201%N hm (Body [[1; 2]]%N false))) /\
    In (lit "x-a", lit "1") hm /\ In (lit "set-cookie", lit "2") hm.
Proof.
  intros r. split; [|split].
  - intros k v [E|[E|[]]]; injection E as <- <-; intros c [<-|[]]; left; split; reflexivity || discriminate.
  - repeat constructor; cbn; intuition discriminate.
  - eexists. eexists. split; [built_by|]. split; [vm_compute; apply run_ret|]. vm_compute. auto.
Qed.

(** * C61: delivering a response never panics *)

Theorem C61_refuted : exists (h : handler unit unit unit) r t,
  (forall c, h c = Ret (inl (set_response (Some r) c))) /\
  @built _ (middleware unit unit unit) [ORoute GET (lit "/") h] t /\
  runs (serve t None (get_req (lit "/"))) [] (Panicked PHeaderValue).
Proof. exact w_header_panics. Qed.
Print Assumptions C61_refuted.

(** Exactly the responses with such a header value panic: with [C29_response], which
    covers all the others. *)
Theorem C61_partial : forall (X U A : Type) (l : list (op (handler X U A) (middleware X U A))) t st (rq : request X) ts ps h,
  built l t -> resolves (table_of l) (segments (rq_path rq)) ts ps ->
  handler_for (rq_method rq) (routes_at (table_of l) ts) = Some h ->
  exists pm c, (forall n, pget n pm = first_binding ps n) /\ starts rq pm st c /\
    forall tr c' r k v, runs (next (mws_for (table_of l) ts) h c) tr (Value (inl c')) -> ctx_response c' = Some r ->
      In (k, v) (header_list r) -> ~ header_text v ->
      forall o, runs (serve t st rq) tr o <-> o = Panicked PHeaderValue.
Proof. exact (@bad_header). Qed.
Print Assumptions C61_partial.

Example C61_example : let r := Response body_empty 200%N (Some [(lit "x-a", lit "1"); (lit "x-name", [74; 233]%N)]) in
  In (lit "x-name", [74; 233]%N) (header_list r) /\ ~ header_text [74; 233]%N /\
  exists t, built [@ORoute (handler unit unit unit) (middleware unit unit unit) GET (lit "/a") (answer_with r)] t /\
    runs (serve t None (get_req (lit "/a"))) [] (Panicked PHeaderValue).
Proof.
  intros r. split; [right; left; reflexivity|]. split.
  - intros T. destruct (T 233%N) as [[_ L]|E]; [right; left; reflexivity|discriminate L|discriminate E].
  - eexists. split; [built_by|]. vm_compute. apply run_crash.
Qed.

(** * C31: the Logger *)

Theorem C31_refuted : forall (X U A : Type) (d : bool),
  exists (h : handler X U A) t1 t2 resp tr,
    @built _ (middleware X U A) [ORoute GET (lit "/") h] t1 /\
    built [OService (logger d); ORoute GET (lit "/") h] t2 /\
    runs (serve t1 None (get_req (lit "/"))) [] (Value resp) /\ h_status resp = 200%N /\
    runs (serve t2 None (get_req (lit "/"))) tr (Panicked PUnwrapNone).
Proof. exact w_logger_panics. Qed.
Print Assumptions C31_refuted.

(** What the Logger does, for every chain: its lines around the run of what follows it,
    whose result it returns; it panics where that succeeds without a response. *)
Theorem C31_exact : forall (X U A : Type) d post (h : handler X U A) c tr o,
  runs (next (logger d :: post) h c) tr o <->
  exists tr0 o0 lines, runs (next post h c) tr0 o0 /\ log_after o0 lines o /\ tr = log_before d c ++ tr0 ++ lines.
Proof. exact (@logger_exact). Qed.
Print Assumptions C31_exact.

Example C31_exact_example : forall c : context unit,
  runs (next [logger false] (@no_answer unit unit unit) c) (log_before false c) (Panicked PUnwrapNone) \/
  ctx_response c <> None.
Proof.
  intros c. destruct (ctx_response c) as [r|] eqn:E; [right; discriminate|left].
  apply C31_exact. exists [], (Value (inl c)), []. split; [apply run_ret|]. split; [apply la_none, E|]. rewrite !app_nil_r. reflexivity.
Qed.

(** True of chains in which what follows the Logger never succeeds without setting a
    response, while what precedes it does not leave out middlewares: the same results
    and effects, but for the Logger's own lines. *)
Theorem C31_partial : forall (X U A : Type) d pre post (h : handler X U A) c tr o,
  Forall never_skips pre ->
  (forall c0 tr' c', runs (next post h c0) tr' (Value (inl c')) -> ctx_response c' <> None) ->
  (runs (next (pre ++ post) h c) tr o ->
     exists tr', runs (next (pre ++ logger d :: post) h c) tr' o /\ unlogged tr' = unlogged tr) /\
  (runs (next (pre ++ logger d :: post) h c) tr o ->
     exists tr', runs (next (pre ++ post) h c) tr' o /\ unlogged tr' = unlogged tr).
Proof. exact (@logger_transparent). Qed.
Print Assumptions C31_partial.

Example C31_partial_example : forall c : context unit,
  Forall never_skips [@around unit unit unit (lit "a") (lit "A")] /\
  (forall c0 tr' c', runs (next [deny] (@no_answer unit unit unit) c0) tr' (Value (inl c')) -> ctx_response c' <> None) /\
  exists tr r, runs (next ([around (lit "a") (lit "A")] ++ logger true :: [deny]) (@no_answer unit unit unit) c) tr (Value (inl r)) /\
    unlogged tr = [EvPrint (LOther (lit "a")); EvPrint (LOther (lit "A"))].
Proof.
  intros c. split; [constructor; [apply around_no_skip|constructor]|]. split.
  - intros c0 tr' c' R. cbn in R. inversion R; subst. discriminate.
  - eexists. eexists. split; [cbn -[lit]; repeat apply run_print; apply run_ret|reflexivity].
Qed.

(** [App::default] against [App::new]: the same calls on both give servers with the
    same replies, if handlers and middlewares do not succeed without a response. *)
Theorem C31_default_partial : forall (X U A : Type) d (l : list (op (handler X U A) (middleware X U A))) t,
  built l t -> no_root_mount l ->
  (forall p m h, registered l p (CRoute m h) -> answers h) ->
  (forall p mw, registered l p (CMw mw) -> keeps_answer mw) ->
  exists t', built (app_default d ++ l) t' /\ forall st rq,
    (forall tr o, runs (serve t st rq) tr o ->
       exists tr', runs (serve t' st rq) tr' o /\ unlogged tr' = unlogged tr) /\
    (forall tr o, runs (serve t' st rq) tr o ->
       exists tr', runs (serve t st rq) tr' o /\ unlogged tr' = unlogged tr).
Proof. exact (@default_transparent). Qed.
Print Assumptions C31_default_partial.

Example C31_example : answers (@answer_with unit unit unit response_ok) /\ keeps_answer (@around unit unit unit (lit "a") (lit "b")) /\
  keeps_answer (@deny unit unit unit) /\ keeps_answer (@retry unit unit unit) /\ never_skips (@retry unit unit unit).
Proof.
  split; [|split; [|split; [|split]]].
  - intros c tr r R. apply runs_ret in R as [_ E]. injection E as ->. intros c' E. injection E as <-. discriminate.
  - intros c r Ar. exact Ar.
  - intros c c' E. injection E as <-. discriminate.
  - intros c [r|e] Ar; [exact Ar|]. intros r' Ar'. exact Ar'.
  - apply retry_no_skip.
Qed.

(** * C62: the first root middleware wraps every matched request *)

Theorem C62_root_middleware : forall (X U A : Type) (mw : middleware X U A) (l : list (op (handler X U A) (middleware X U A))) t,
  built l t -> no_root_mount l ->
  exists t', built (OService mw :: l) t' /\ forall st rq,
    (exists ts ps h pm c, resolves (table_of l) (segments (rq_path rq)) ts ps /\
       handler_for (rq_method rq) (routes_at (table_of l) ts) = Some h /\
       (forall n, pget n pm = first_binding ps n) /\ starts rq pm st c /\
       handles (serve t st rq) (next (mws_for (table_of l) ts) h c) /\
       handles (serve t' st rq) (next (mw :: mws_for (table_of l) ts) h c)) \/
    (forall tr o,
       (runs (serve t st rq) tr o <-> tr = [] /\ o = Value (HttpResponse 404%N [] (Body [utf8 (lit "404 Not Found")] false))) /\
       (runs (serve t' st rq) tr o <-> tr = [] /\ o = Value (HttpResponse 404%N [] (Body [utf8 (lit "404 Not Found")] false)))).
Proof. exact (@root_wraps). Qed.
Print Assumptions C62_root_middleware.

Example C62_example : exists t t', @built (handler unit unit unit) (middleware unit unit unit) [ORoute GET (lit "/a") no_answer] t /\
  built [OService deny; ORoute GET (lit "/a") no_answer] t' /\
  (exists resp, runs (@serve unit unit unit t' None (@get_req unit (lit "/a"))) [] (Value resp) /\ h_status resp = 403%N) /\
  (exists resp, runs (@serve unit unit unit t' None (@get_req unit (lit "/b"))) [] (Value resp) /\ h_status resp = 404%N).
Proof.
  eexists. eexists. split; [built_by|]. split; [built_by|].
  split; eexists; (split; [vm_compute; apply run_ret|reflexivity]).
Qed.

(** * C55: panics *)

(** A panic of the chain comes from the handler or from a middleware, which may have
    called [next] before; every middleware before it is waiting for [next] and none of
    them goes on: nothing happens after the panic. *)
Theorem C55_panic : forall (X U A : Type) (mws : list (middleware X U A)) (h : handler X U A) c tr p,
  runs (next mws h c) tr (Panicked p) <->
  exists mws' c' t1 t2, active h mws c t1 mws' c' /\ tr = t1 ++ t2 /\
    match mws' with
    | [] => runs (h c') t2 (Panicked p)
    | m :: rest => proceeds h rest (m c') t2 (Dies p)
    end.
Proof. exact (@chain_panic). Qed.
Print Assumptions C55_panic.

Example C55_example : forall X U A (c : context X),
  runs (next [around (lit "a") (lit "A")] (fun _ => @Crash U A _ PUnwrapNone) c) [EvPrint (LOther (lit "a"))] (Panicked PUnwrapNone).
Proof. intros X U A c. cbn -[lit]. apply run_print. apply run_crash. Qed.

(** * C32: the app state *)

Theorem C32_app_state : forall (X U A : Type) (l : list (op (handler X U A) (middleware X U A))) t st (rq : request X) ts ps h,
  built l t -> resolves (table_of l) (segments (rq_path rq)) ts ps ->
  handler_for (rq_method rq) (routes_at (table_of l) ts) = Some h ->
  exists pm c, handles (serve t st rq) (next (mws_for (table_of l) ts) h c) /\
    (forall n, pget n pm = first_binding ps n) /\ ctx_params c = pm /\
    (forall ty x, st = Some (ty, x) -> ctx_get ty c = Some x /\
       forall ty', ty' <> ty -> ctx_get ty' c = aget N.eqb ty' (rq_ext rq)) /\
    (st = None -> forall ty, ctx_get ty c = aget N.eqb ty (rq_ext rq)).
Proof. exact (@app_state). Qed.
Print Assumptions C32_app_state.

(** A handler that answers with the state it finds. *)
Example C32_example : let h : handler str unit unit := fun c =>
    Ret (b_ok (build_res c (ROptString (ctx_get 5%N c)))) in
  exists t hm, built [@ORoute _ (middleware str unit unit) GET (lit "/a") h] t /\
    runs (serve t (Some (5%N, lit "state")) (Request GET (lit "/a") None [] [(5%N, lit "old")] body_empty)) []
      (Value (HttpResponse 200%N hm (Body [utf8 (lit "state")] false))).
Proof.
  assert (L : forall H M (h : H), exists t : trie H M, built [ORoute GET (lit "/a") h] t /\
    search_route t (lit "/a") = LSome (RR (RV [] [(GET, Route GET h)]) [])).
  { intros H M h. eexists. split; [built_by|]. vm_compute. reflexivity. }
  cbv zeta. destruct (L (handler str unit unit) (middleware str unit unit)
    (fun c => Ret (b_ok (build_res c (ROptString (ctx_get 5%N c)))))) as (t & B & S).
  exists t. eexists. split; [exact B|]. unfold serve. cbn [rq_path]. rewrite S. clear. vm_compute. apply run_ret.
Qed.

(** * C33: building responses *)

Theorem C33_builder : forall (parse_name : str -> option hname) (X : Type) (c : context X) x l,
  match calls parse_name (build_res c x) l with
  | inl b => exists c', b_ok b = inl c' /\ ctx_request c' = ctx_request c /\ ctx_params c' = ctx_params c /\
      exists r, ctx_response c' = Some r /\
        res_status r = fold_left sets l (res_status (respond_to x)) /\
        res_body r = res_body (respond_to x) /\
        header_list r = header_list (respond_to x) ++ flat_map (adds parse_name) l
  | inr p => p = PUnwrapNone /\ exists k n, In k l /\ In n (names k) /\ parse_name n = None
  end.
Proof. exact (fun pn X => @built_response X pn). Qed.
Print Assumptions C33_builder.

Example C33_example : exists b,
  calls Some (build_res (context_new (@get_req unit (lit "/")) []) (RString (lit "x")))
    [BStatus 201%N; BHeaderStr (lit "a") (lit "1"); BStatus 202%N; BHeaders [(lit "b", lit "2")]] = inl b /\
  res_status (b_response b) = 202%N /\
  header_list (b_response b) = [(lit "content-type", lit "text/plain; charset=utf-8"); (lit "a", lit "1"); (lit "b", lit "2")].
Proof. eexists. split; [reflexivity|]. split; reflexivity. Qed.

Theorem C33_response : forall r,
  (forall s, res_status (set_status s r) = s /\ res_body (set_status s r) = res_body r /\
     header_list (set_status s r) = header_list r) /\
  (forall b, res_status (set_body b r) = res_status r /\ header_list (set_body b r) = header_list r /\
     res_body (set_body b r) = res_body (response_new b)) /\
  (forall k v, res_status (set_header k v r) = res_status r /\ res_body (set_header k v r) = res_body r /\
     header_list (set_header k v r) = header_list r ++ [(k, v)]) /\
  (forall l, res_status (set_headers l r) = res_status r /\ res_body (set_headers l r) = res_body r /\
     header_list (set_headers l r) = header_list r ++ l).
Proof. exact response_laws. Qed.
Print Assumptions C33_response.

Example C33_response_example : let r := set_header (lit "a") (lit "2") (set_status 404%N (set_header (lit "a") (lit "1") response_ok)) in
  res_status r = 404%N /\ header_list r = [(lit "a", lit "1"); (lit "a", lit "2")].
Proof. split; reflexivity. Qed.

(** * C34: responders *)

Theorem C34_responders :
  (forall s, sends (respond_to (RString s)) 200%N (utf8 s) (Some (lit "text/plain; charset=utf-8"))) /\
  (forall s, sends (respond_to (RStatic s)) 200%N (utf8 s) (Some (lit "text/plain; charset=utf-8"))) /\
  sends (respond_to RUnit) 200%N [] None /\
  (forall st, sends (respond_to (RStatus st)) st [] None) /\
  (forall st s, sends (respond_to (RWithStatus st (BString s))) st (utf8 s) None /\
                sends (respond_to (RWithStatus st (BStatic s))) st (utf8 s) None) /\
  (forall st, sends (respond_to (RWithStatus st BUnit)) st [] None) /\
  (forall st v, exists text, json_array v text /\ sends (respond_to (RWithStatus st (BBytes v))) st (utf8 text) None) /\
  (forall v, exists text, json_array v text /\ sends (respond_to (RBytes v)) 200%N (utf8 text) None) /\
  (forall s, sends (respond_to (ROptString (Some s))) 200%N (utf8 s) (Some (lit "text/plain; charset=utf-8")) /\
             sends (respond_to (ROptStatic (Some s))) 200%N (utf8 s) (Some (lit "text/plain; charset=utf-8"))) /\
  sends (respond_to (ROptString None)) 404%N (utf8 (lit "Not Found")) None /\
  sends (respond_to (ROptStatic None)) 404%N (utf8 (lit "Not Found")) None /\
  (forall r, respond_to (RResponse r) = r).
Proof. exact responders. Qed.
Print Assumptions C34_responders.

Example C34_example : sends (respond_to (RBytes [0; 10; 255]%N)) 200%N (utf8 (lit "[0,10,255]")) None.
Proof. unfold sends. vm_compute. auto. Qed.

Theorem C34_html_json : forall r,
  (forall s, let r' := html (BString s) r in
     res_status r' = res_status r /\ body_bytes (res_body r') = utf8 s /\
     header_list r' = header_list r ++ [(lit "content-type", lit "text/html")]) /\
  (forall text, let r' := json (inl text) r in
     res_status r' = res_status r /\ body_bytes (res_body r') = utf8 text /\
     header_list r' = header_list r ++ [(lit "content-type", lit "application/json")]) /\
  (forall err, let r' := json (inr err) r in
     res_status r' = 500%N /\ body_bytes (res_body r') = utf8 err /\
     header_list r' = header_list r ++ [(lit "content-type", lit "application/json")]).
Proof. exact html_json. Qed.
Print Assumptions C34_html_json.

Example C34_json_example : let r := json (inl (lit "{}")) (set_status 201%N (set_header (lit "x") (lit "1") response_ok)) in
  res_status r = 201%N /\ body_bytes (res_body r) = utf8 (lit "{}") /\
  header_list r = [(lit "x", lit "1"); (lit "content-type", lit "application/json")].
Proof. split; [|split]; reflexivity. Qed.

(** * C38: [param] *)

Theorem C38_param : forall (X T : Type) (parse : str -> option T) key (c : context X),
  (forall v x, pget key (ctx_params c) = Some v -> parse v = Some x -> ctx_param parse key c = inl x) /\
  (forall v, pget key (ctx_params c) = Some v -> parse v = None ->
     ctx_param parse key c = inr (EParam (lit "Failed to parse param " ++ key))) /\
  (pget key (ctx_params c) = None -> ctx_param parse key c = inr ENone).
Proof. exact (@param_cases). Qed.
Print Assumptions C38_param.

Example C38_example : let c := context_new (@get_req unit (lit "/")) [(lit "id", lit "x")] in
  ctx_param Some (lit "id") c = inl (lit "x") /\
  ctx_param (fun _ => @None nat) (lit "id") c = inr (EParam (lit "Failed to parse param id")) /\
  ctx_param Some (lit "no") c = inr ENone.
Proof. split; [|split]; reflexivity. Qed.

(** * C39: the body is consumed once *)

Theorem C39_body_once : forall (X T T' : Type) (parse : bytes -> T + oerror) (parse' : bytes -> T' + oerror) (c : context X),
  let c' := snd (read_body parse c) in
  same_but_body c c' /\ body_bytes (rq_body (ctx_request c')) = [] /\ fst (read_body parse' c') = parse' [].
Proof. exact (@body_once). Qed.
Print Assumptions C39_body_once.

Example C39_example : let c := context_new (Request POST (lit "/") None [] [(1%N, 2)] (Body [lit "a=b"] false)) [] in
  fst (read_body (fun b => inl b) c) = inl (lit "a=b") /\
  fst (read_body (fun b => inl b) (snd (read_body (fun b => @inl _ oerror b) c))) = inl [].
Proof. split; reflexivity. Qed.

Theorem C39_taken_once : forall (X T : Type) (parse : bytes -> T + oerror) (c : context X),
  let '(b, c') := take_body c in
  b = rq_body (ctx_request c) /\ same_but_body c c' /\ body_bytes (rq_body (ctx_request c')) = [] /\
  fst (read_body parse c') = parse [].
Proof. exact (@taken_once). Qed.
Print Assumptions C39_taken_once.

Example C39_taken_example : let c := context_new (Request POST (lit "/") None [] [(1%N, 2)] (Body [lit "a"; lit "b"] false)) [] in
  fst (take_body c) = Body [lit "a"; lit "b"] false /\ fst (read_body (fun b => @inl _ oerror b) (snd (take_body c))) = inl [].
Proof. split; reflexivity. Qed.

(** * C40: chunks *)

(** Refuted for every parser that tells some data from an extension of it. *)
Theorem C40_refuted : forall (X T : Type) (parse : bytes -> T + oerror) (d e : bytes) (c : context X),
  d <> [] -> parse d <> parse (d ++ e) ->
  exists c1 c2, same_but_body c c1 /\ same_but_body c c2 /\
    body_bytes (rq_body (ctx_request c1)) = d ++ e /\ body_bytes (rq_body (ctx_request c2)) = d ++ e /\
    broken (rq_body (ctx_request c1)) = false /\ broken (rq_body (ctx_request c2)) = false /\
    fst (read_body parse c1) <> fst (read_body parse c2).
Proof. exact (@chunking_matters). Qed.
Print Assumptions C40_refuted.

(** True when at most one chunk is not empty. *)
Theorem C40_partial : forall (X T : Type) (parse : bytes -> T + oerror) (c : context X),
  let b := rq_body (ctx_request c) in
  broken b = false -> one_chunk b -> fst (read_body parse c) = parse (body_bytes b).
Proof. exact (@one_chunk_read). Qed.
Print Assumptions C40_partial.

Example C40_example : one_chunk (Body [[]; [1; 2]; []]%N false) /\
  (fun b => @inl bytes oerror b) [1%N] <> (fun b => @inl bytes oerror b) ([1] ++ [2])%N.
Proof.
  split; [|discriminate]. right. exists [[]], [1; 2]%N, [[]]. split; [reflexivity|].
  intros y [[<-|[]]|[<-|[]]]; reflexivity.
Qed.

(** What is read in general: the first non-empty chunk. *)
Theorem C40_first_chunk_partial : forall (X T : Type) (parse : bytes -> T + oerror) (c : context X),
  let b := rq_body (ctx_request c) in
  (broken b = true -> fst (read_body parse c) = inr ENone) /\
  (broken b = false -> (forall x, In x (chunks b) -> x = []) -> fst (read_body parse c) = parse []) /\
  (forall l1 x l2, broken b = false -> chunks b = l1 ++ x :: l2 -> x <> [] -> (forall y, In y l1 -> y = []) ->
     fst (read_body parse c) = parse x).
Proof. exact (@read_first). Qed.
Print Assumptions C40_first_chunk_partial.

Example C40_first_example : let c := context_new (Request (X:=unit) POST (lit "/") None [] [] (Body [[]; lit "12"; lit "3"] false)) [] in
  fst (read_body (fun b => @inl _ oerror b) c) = inl (lit "12").
Proof. reflexivity. Qed.
