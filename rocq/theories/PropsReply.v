(** Property C77: what a handler writes is what the client receives.

    The ways of writing a reply and what is written by them are specified in [ReplySpec];
    [parse_name] is [HeaderName::from_bytes]. *)

From Coq Require Import String.
From Verif Require Import Base Utf8 RouteTrie Router TableSpec PropSpec Http App AppSpec ReplySpec.
From Verif Require Import RouteFacts RouteLemmas RouteWitness AppLemmas AppWitness ReplyLemmas ReplyLemmas2.
Local Open Scope string_scope.
Local Open Scope list_scope.

Theorem C77_received : forall (X U A : Type) (parse_name : str -> option hname)
    (l : list (op (handler X U A) (middleware X U A))) t st (rq : request X) ts ps s bl,
  built l t -> resolves (table_of l) (segments (rq_path rq)) ts ps ->
  handler_for (rq_method rq) (routes_at (table_of l) ts) = Some (reply parse_name s bl) ->
  (forall m, In m (mws_for (table_of l) ts) -> exists d, m = logger d) -> proper s ->
  client_gets parse_name (serve t st rq) s bl.
Proof. exact (@reply_received). Qed.
Print Assumptions C77_received.

(** A handler behind a logger: [Response::created().json(..)], then two headers of the
    same name; what it writes, and what is received. *)
Example C77_example : forall X U A : Type,
  let s := HResponse SCreated [CJson (inl (lit "{}")); CFile (lit "motd"); CHeaderStr (lit "x-a") (lit "1")] in
  let bl := [BHeader (lit "x-a") (lit "2"); BStatus 202%N] in
  let h := @reply X U A Some s bl in
  let l := [@OService (handler X U A) (middleware X U A) (logger true); ORoute POST (lit "/things/:id") h] in
  exists t ts ps rv,
    (built l t /\ resolves (table_of l) (segments (lit "/things/7")) ts ps /\
     handler_for POST (routes_at (table_of l) ts) = Some h /\ mws_for (table_of l) ts = [logger true] /\ proper s) /\
    (search_route t (lit "/things/7") = LSome rv /\ rr_get_route rv POST = Some (Route POST h) /\ rr_mws rv = [logger true]) /\
    written Some [EvRead (U:=U) (A:=A) (lit "motd") (inl (lit "hi"))] s bl
      (Look 202%N (utf8 (lit "hi")) [(lit "content-type", lit "application/json"); (lit "x-a", lit "1"); (lit "x-a", lit "2")]).
Proof.
  intros X U A s bl h l.
  assert (L : forall H M (h : H) (m : M), let l := [OService m; ORoute POST (lit "/things/:id") h] in
    exists t ts ps rv, (built l t /\ resolves (table_of l) (segments (lit "/things/7")) ts ps /\
      handler_for POST (routes_at (table_of l) ts) = Some h /\ mws_for (table_of l) ts = [m]) /\
      (search_route t (lit "/things/7") = LSome rv /\ rr_get_route rv POST = Some (Route POST h) /\ rr_mws rv = [m])).
  { clear. intros H M h m l.
    assert (E : exists t rv, built l t /\ search_route t (lit "/things/7") = LSome rv /\
      rr_get_route rv POST = Some (Route POST h) /\ rr_mws rv = [m]).
    { eexists; eexists; split; [built_by|]; split; [vm_compute; reflexivity|]; split; vm_compute; reflexivity. }
    destruct E as (t & rv & B & E & G & W). destruct (lookup_some _ t _ rv B E) as (ts & ps & R & (D1 & D & _)).
    exists t, ts, ps, rv. split; [|auto]. split; [exact B|]. split; [exact R|]. split; [|congruence].
    specialize (D POST). rewrite G in D. destruct (handler_for POST (routes_at (table_of l) ts)) as [h'|]; [|discriminate D].
    injection D as ->. reflexivity. }
  destruct (L (handler X U A) (middleware X U A) h (logger true)) as (t & ts & ps & rv & (B & R & HF & MW) & SR).
  exists t, ts, ps, rv. split; [|split].
  - repeat (split; [assumption|]). discriminate.
  - exact SR.
  - eexists. split; [eapply si_response; [apply fi_created|]|].
    + eapply (ca_cons _ []); [apply ci_json|]. eapply (ca_cons _ [_]); [apply ci_file|].
      eapply (ca_cons _ [] _ _ _ []); [apply ci_header_str; reflexivity|]. apply ca_nil.
    + eapply (ca_cons _ []); [apply ci_header|]. eapply (ca_cons _ [] _ _ _ []); [apply ci_status|]. apply ca_nil.
Qed.

(** For any router at all, in terms of the lookup. *)
Theorem C77_any_router : forall (X U A : Type) (parse_name : str -> option hname)
    (t : trie (handler X U A) (middleware X U A)) st (rq : request X) r m s bl,
  search_route t (rq_path rq) = LSome r -> rr_get_route r (rq_method rq) = Some (Route m (reply parse_name s bl)) ->
  (forall m, In m (rr_mws r) -> exists d, m = logger d) -> proper s ->
  client_gets parse_name (serve t st rq) s bl.
Proof. exact (@reply_received_any). Qed.
Print Assumptions C77_any_router.

(** A router outside the theorem above: there is a boundary before a colon inside a
    segment. *)
Example C77_any_router_example : forall X U A : Type,
  let h := @reply X U A Some (HBuild (RStatic (lit "hi"))) [BStatus 202%N] in
  let l := [@ORoute (handler X U A) (middleware X U A) GET (lit "/ac") no_answer; ORoute GET (lit "/a:b") h] in
  exists t rv, build l = (t, None) /\ search_route t (lit "/a/zz") = LSome rv /\
    rr_get_route rv GET = Some (Route GET h) /\ rr_mws rv = [] /\ proper (HBuild (RStatic (lit "hi"))) /\
    written (U:=U) (A:=A) Some [] (HBuild (RStatic (lit "hi"))) [BStatus 202%N] (Look 202%N (utf8 (lit "hi")) text_type).
Proof.
  intros X U A h l.
  assert (L : forall H M (h0 h : H), let l : list (op H M) := [ORoute GET (lit "/ac") h0; ORoute GET (lit "/a:b") h] in
    exists t rv, build l = (t, None) /\ search_route t (lit "/a/zz") = LSome rv /\
      rr_get_route rv GET = Some (Route GET h) /\ rr_mws rv = []).
  { clear. intros H M h0 h l. eexists. eexists. split; [vm_compute; reflexivity|]. split; [vm_compute; reflexivity|].
    split; vm_compute; reflexivity. }
  destruct (L (handler X U A) (middleware X U A) no_answer h) as (t & rv & B & S & G & W).
  exists t, rv. repeat (split; [assumption|]). split; [intros r E; discriminate E|].
  eexists. split; [apply si_build, ri_static|].
  eapply (ca_cons _ [] _ _ _ []); [apply ci_status|]. apply ca_nil.
Qed.
