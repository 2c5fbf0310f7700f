(** Property C88: from the request line to the handler.

    [verbs]: the registering methods of [App] by the method of the request line
    ([AppCallsSpec]); [target_is target p query]: the target of the request line stands for
    the path and the query ([WireSpec]); [first_under k lines v]: [v] is the value of the
    first header line named [k] ([NamesSpec]). *)

From Coq Require Import String.
From Verif Require Import Base BaseFacts Utf8 RouteTrie Router TableSpec PropSpec Http App Server UserSpec AppCalls AppCallsSpec.
From Verif Require Import Wire WireSpec Names NamesSpec NamesLemmas AppWitness AppSpec LineLemmas.
Local Open Scope string_scope.
Local Open Scope list_scope.

Theorem C88_request_line : forall (X U A : Type) q other (l : list (acall X U A)) verb f path h a ty target p query lines hs body b,
  run_acalls new_app l = (a, None) -> no_root_mount (registrations l) ->
  In (verb, f) verbs -> In (f path h) l -> no_star (segments path) ->
  target_is target p query -> (N.of_nat (length target) <= 65534)%N -> seg_match (segments path) (segments p) b ->
  append_lines lines = Some hs ->
  exists rq c mws, arrives other verb target hs body = Some rq /\
    handles (call_service (make_service (listen ty a)) rq) (next mws h c) /\
    (forall m, In (app_use_service m) l -> In m mws) /\
    (forall m above rest, In (app_use_service_to above m) l -> segments path = segments above ++ rest ->
       segments above <> [] -> In m mws) /\
    (forall n, pget n (ctx_params c) = first_binding b n) /\
    rq_path (ctx_request c) = p /\ rq_query (ctx_request c) = query /\ rq_body (ctx_request c) = body /\
    (forall k v, header_get q k (rq_headers (ctx_request c)) = Some v <-> names_header q k /\ first_under k lines v) /\
    ctx_response c = None /\
    (forall x, last_state l (Some x) -> ctx_get ty c = Some x).
Proof. exact (@request_line). Qed.
Print Assumptions C88_request_line.

(** "PATCH /a/7?x=1#f" to an app with two middlewares on the way and a state. *)
Example C88_example : forall (X U A : Type) (m1 m2 : middleware X U A) (h h' : handler X U A) x,
  let l := [app_use_service m1; app_patch (lit "/a/:id") h; SetState x; app_use_service_to (lit "a") m2; app_get (lit "/a/:id") h'] in
  (exists a, run_acalls new_app l = (a, None)) /\ no_root_mount (registrations l) /\
  In (lit "PATCH", app_patch) (@verbs X U A) /\ In (app_patch (lit "/a/:id") h) l /\ no_star (segments (lit "/a/:id")) /\
  target_is (lit "/a/7?x=1#f") (lit "/a/7") (Some (lit "x=1")) /\
  seg_match (segments (lit "/a/:id")) (segments (lit "/a/7")) [(lit "id", lit "7")] /\
  (exists hs, append_lines [(lit "Host", lit "localhost"); (lit "ACCEPT", lit "*/*")] = Some hs) /\
  segments (lit "/a/:id") = segments (lit "a") ++ [lit ":id"] /\ last_state l (Some x).
Proof.
  intros X U A m1 m2 h h' x l. split; [|split; [|split; [|split; [|split; [|split; [|split; [|split; [|split]]]]]]]].
  - assert (L : forall H M (h h' : H) (m1 m2 : M), exists t, build [OService m1; ORoute PATCH (lit "/a/:id") h; OServiceTo (lit "a") m2; ORoute GET (lit "/a/:id") h'] = (t, None)).
    { clear. intros. eexists. vm_compute. reflexivity. }
    destruct (L _ _ h h' m1 m2) as [t B]. destruct (run_acalls new_app l) as [a p] eqn:R.
    destruct (AppCallsLemmas.app_calls _ _ _ R) as [B' _]. change (registrations l) with [OService m1; ORoute PATCH (lit "/a/:id") h; OServiceTo (lit "a") m2; ORoute GET (lit "/a/:id") h'] in B'.
    rewrite B in B'. injection B' as _ <-. exists a. reflexivity.
  - intros o I (path & sub & -> & E). cbn in I. repeat (destruct I as [I|I]; [discriminate I|]). destruct I.
  - cbn. auto 10.
  - right. left. reflexivity.
  - intros I. vm_compute in I. intuition discriminate.
  - apply (WireLemmas.uri_spec (fun _ => None)); [vm_compute; eauto|vm_compute; discriminate|vm_compute; reflexivity].
  - change (seg_match [lit "a"; c_colon :: lit "id"] [lit "a"; lit "7"] [(lit "id", lit "7")]).
    apply sm_lit; [|apply sm_par, sm_nil]. split; [vm_compute; discriminate|intros (r & E); vm_compute in E; discriminate E].
  - eexists. vm_compute. reflexivity.
  - reflexivity.
  - exists [app_use_service m1; app_patch (lit "/a/:id") h], [app_use_service_to (lit "a") m2; app_get (lit "/a/:id") h'].
    split; [reflexivity|]. intros y I. cbn in I. repeat (destruct I as [I|I]; [discriminate I|]). destruct I.
Qed.
