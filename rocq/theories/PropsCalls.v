(** Property C78: the app a user builds.

    [run_acalls new_app l = (a, p)]: the calls [l] on [App::new()] give the app [a], and
    [p] is the panic that ended them, if any ([AppCalls]).  [registrations l] are the
    calls of [l] that are not [set_app_state]; [last_state l s]: [s] is the state set
    last ([AppCallsSpec]). *)

From Coq Require Import String.
From Verif Require Import Base Utf8 RouteTrie Router TableSpec PropSpec Http App AppSpec Server AppCalls AppCallsSpec.
From Verif Require Import RouteFacts RouteWitness RouteLemmas AppLemmas AppCallsLemmas.
Local Open Scope string_scope.
Local Open Scope list_scope.

(** The router is the one its registrations build, and the state the one set last. *)
Theorem C78_calls : forall (X U A : Type) (l : list (acall X U A)) a p, run_acalls new_app l = (a, p) ->
  build (registrations l) = (app_router a, p) /\ (p = None -> last_state l (app_data a)).
Proof. exact (@app_calls). Qed.
Print Assumptions C78_calls.

(** The calls end at the duplicate: "/c" is not registered. *)
Example C78_panic_example : exists a,
  run_acalls (@new_app unit unit unit) [app_get (lit "/a") (fun c => Ret (inl c)); SetState tt; app_get (lit "/a") (fun c => Ret (inl c));
    app_get (lit "/c") (fun c => Ret (inl c))] = (a, Some PDuplicate) /\
  search_route (app_router a) (lit "/c") = LNone.
Proof. eexists. split; vm_compute; reflexivity. Qed.

(** [App::default()] is an app whose first registration is the Logger. *)
Theorem C78_default : forall (X U A : Type) d (l : list (acall X U A)) a p, run_acalls (default_app d) l = (a, p) ->
  build (OService (logger d) :: registrations l) = (app_router a, p) /\ (p = None -> last_state l (app_data a)).
Proof. exact (@default_app_calls). Qed.
Print Assumptions C78_default.

Example C78_default_example : forall (X U A : Type) (h : handler X U A) x d,
  exists a, run_acalls (default_app d) [app_get (lit "/a") h; SetState x] = (a, None) /\ app_data a = Some x.
Proof.
  intros X U A h x d.
  assert (L : forall H M (m : M) (h : H), exists t, build [OService m; ORoute GET (lit "/a") h] = (t, None)).
  { clear. intros. eexists. vm_compute. reflexivity. }
  destruct (L _ _ (@logger X U A d) h) as [t B]. destruct (run_acalls (default_app d) [app_get (lit "/a") h; SetState x]) as [a p] eqn:R.
  destruct (default_app_calls _ _ _ _ R) as [B' S]. change (registrations _) with [@ORoute _ (middleware X U A) GET (lit "/a") h] in B'.
  rewrite B in B'. injection B' as _ <-. exists a. split; [reflexivity|].
  eapply last_state_fun; [exact (S eq_refl)|]. exists [app_get (lit "/a") h], []. split; [reflexivity|]. intros y [].
Qed.

(** What each call of [App] adds to the table of its registrations, and so (C78_calls with
    the theorems about tables) to what the app answers. *)
Theorem C78_tables : forall (X U A : Type) (l : list (acall X U A)),
  let T := table_of (registrations l) in
  let with_call c := table_of (registrations (l ++ [c])) in
  (forall path h,
     with_call (app_get path h) = T ++ [(segments path, CRoute GET h)] /\
     with_call (app_post path h) = T ++ [(segments path, CRoute POST h)] /\
     with_call (app_put path h) = T ++ [(segments path, CRoute PUT h)] /\
     with_call (app_patch path h) = T ++ [(segments path, CRoute PATCH h)] /\
     with_call (app_delete path h) = T ++ [(segments path, CRoute DELETE h)]) /\
  (forall m, with_call (app_use_service m) = T ++ [([], CMw m)]) /\
  (forall path m, segments path <> [] -> with_call (app_use_service_to path m) = T ++ [(segments path, CMw m)]) /\
  (forall path sub, segments path <> [] ->
     with_call (app_use_router path sub) = T ++ (segments path, CNode) :: with_prefix (segments path) (table_of sub) /\
     with_call (app_scope path sub) = T ++ (segments path, CNode) :: with_prefix (segments path) (table_of sub)) /\
  (forall v d, with_call (app_use_static_to v d) = T ++ [(segments v ++ [s_star], CRoute GET (static_virtual_file_handler v d))]) /\
  (forall d, with_call (app_use_static d) = T ++ [(segments d ++ [s_star], CRoute GET static_dir_file_handler)]).
Proof. exact (@app_tables). Qed.
Print Assumptions C78_tables.

Example C78_tables_example : forall (X U A : Type) (h : handler X U A) (m : middleware X U A),
  let l := [app_use_service m; app_scope (lit "admin") [ORoute GET (lit "x") h]; app_use_router (lit "/v1/") [OServiceTo (lit "y") m; ORoute PUT (lit "y") h];
            app_use_service_to (lit "v1/y/z") m; app_delete (lit "/") h; app_use_static_to (lit "files") (lit "/srv"); app_use_static (lit "css")] in
  snd (run_acalls new_app l) = None /\
  table_of (registrations l) =
    [([], CMw m); ([lit "admin"], CNode); ([lit "admin"; lit "x"], CRoute GET h); ([lit "v1"], CNode); ([lit "v1"; lit "y"], CMw m);
     ([lit "v1"; lit "y"], CRoute PUT h); ([lit "v1"; lit "y"; lit "z"], CMw m); ([], CRoute DELETE h);
     ([lit "files"; lit "*"], CRoute GET (static_virtual_file_handler (lit "files") (lit "/srv"))); ([lit "css"; lit "*"], CRoute GET static_dir_file_handler)].
Proof.
  intros X U A h m l. split; [|reflexivity].
  assert (L : forall H M (m : M) (h s d : H), snd (build [OService m; ORouter (lit "/admin") [ORoute GET (lit "x") h]; ORouter (lit "/v1/") [OServiceTo (lit "y") m; ORoute PUT (lit "y") h];
    OServiceTo (lit "v1/y/z") m; ORoute DELETE (lit "/") h; ORoute GET (lit "files/*") s; ORoute GET (lit "css/*") d]) = None) by (intros; vm_compute; reflexivity).
  destruct (run_acalls new_app l) as [a p] eqn:R. destruct (app_calls _ _ _ R) as [B _].
  specialize (L _ _ m h (static_virtual_file_handler (lit "files") (lit "/srv")) static_dir_file_handler).
  apply (f_equal snd) in B. cbn [snd] in *. rewrite <- B. exact L.
Qed.

(** Where the state is set among the registrations, and how often, does not matter. *)
Theorem C78_order : forall (X U A : Type) (l l' : list (acall X U A)) a s, run_acalls new_app l = (a, None) ->
  registrations l' = registrations l -> last_state l s -> last_state l' s -> run_acalls new_app l' = (a, None).
Proof. exact (@app_calls_same). Qed.
Print Assumptions C78_order.

Example C78_order_example : forall (X U A : Type) (h : handler X U A) x y,
  let l := [SetState x; app_get (lit "/a") h; SetState y] in let l' := [SetState y; app_get (lit "/a") h] in
  (exists a, run_acalls new_app l = (a, None)) /\ registrations l' = registrations l /\
  last_state l (Some y) /\ last_state l' (Some y).
Proof.
  intros X U A h x y l l'. split.
  - assert (L : forall H M (h : H), exists t, @build H M [ORoute GET (lit "/a") h] = (t, None)) by (intros; eexists; vm_compute; reflexivity).
    destruct (L _ (middleware X U A) h) as [t B]. destruct (run_acalls new_app l) as [a p] eqn:R. exists a.
    destruct (app_calls _ _ _ R) as [B' _]. change (registrations l) with [@ORoute _ (middleware X U A) GET (lit "/a") h] in B'.
    rewrite B in B'. injection B' as _ <-. reflexivity.
  - split; [reflexivity|]. split.
    + exists [SetState x; app_get (lit "/a") h], []. split; [reflexivity|]. intros z [].
    + exists [], [app_get (lit "/a") h]. split; [reflexivity|]. intros z [I|[]]. discriminate I.
Qed.

(** On every connection of the server, a request that resolves to a route finds the
    state set last, under its type, next to what the request brought along. *)
Theorem C78_served : forall (X U A : Type) (l : list (acall X U A)) a ty (rq : request X) ts ps h,
  run_acalls new_app l = (a, None) -> all_tidy [] (registrations l) ->
  resolves (table_of (registrations l)) (segments (rq_path rq)) ts ps ->
  handler_for (rq_method rq) (routes_at (table_of (registrations l)) ts) = Some h ->
  exists pm c, handles (call_service (make_service (listen ty a)) rq) (next (mws_for (table_of (registrations l)) ts) h c) /\
    (forall n, pget n pm = first_binding ps n) /\ ctx_params c = pm /\
    (forall x, last_state l (Some x) -> ctx_get ty c = Some x) /\
    (forall ty', ty' <> ty \/ last_state l None -> ctx_get ty' c = aget N.eqb ty' (rq_ext rq)).
Proof. exact (@app_served). Qed.
Print Assumptions C78_served.

(** State set before, between and after the routes; "/b" finds the last. *)
Example C78_example : forall (X U A : Type) (ha hb : handler X U A) x y,
  let l := [SetState x; app_get (lit "/a") ha; SetState y; app_post (lit "/b") hb] in
  let l' := [app_get (lit "/a") ha; app_post (lit "/b") hb; SetState y] in
  exists a, run_acalls new_app l = (a, None) /\ run_acalls new_app l' = (a, None) /\ app_data a = Some y /\
    registrations l' = registrations l /\ last_state l (Some y) /\ last_state l' (Some y) /\
    all_tidy [] (registrations l) /\
    exists ts ps, resolves (table_of (registrations l)) (segments (lit "/b")) ts ps /\
    handler_for POST (routes_at (table_of (registrations l)) ts) = Some hb.
Proof.
  intros X U A ha hb x y l l'.
  assert (L : forall H M (ha hb : H), let r : list (op H M) := [ORoute GET (lit "/a") ha; ORoute POST (lit "/b") hb] in
    exists t rv, built r t /\ search_route t (lit "/b") = LSome rv /\ rr_get_route rv POST = Some (Route POST hb)).
  { clear. intros H M ha hb r. eexists; eexists; split; [built_by|]; split; vm_compute; reflexivity. }
  destruct (L _ (middleware X U A) ha hb) as (t & rv & B & E & G). clear L. cbv zeta in B.
  change [ORoute GET (lit "/a") ha; ORoute POST (lit "/b") hb] with (registrations l) in B.
  assert (Q : exists a, run_acalls new_app l = (a, None)).
  { destruct (run_acalls new_app l) as [a p] eqn:R. exists a. f_equal. destruct (app_calls _ _ _ R) as [Bu _].
    destruct B as [_ Bu']. rewrite Bu' in Bu. injection Bu as _ <-. reflexivity. }
  assert (L1 : last_state l (Some y)).
  { exists [SetState x; app_get (lit "/a") ha], [app_post (lit "/b") hb]. split; [reflexivity|]. intros z [I|[]]. discriminate I. }
  assert (L2 : last_state l' (Some y)).
  { exists [app_get (lit "/a") ha; app_post (lit "/b") hb], []. split; [reflexivity|]. intros z []. }
  destruct Q as [a Q]. exists a. split; [exact Q|]. split; [eapply app_calls_same; [exact Q|reflexivity|exact L1|exact L2]|].
  split. { destruct (app_calls _ _ _ Q) as [_ S]. symmetry. exact (last_state_fun _ _ _ L1 (S eq_refl)). }
  split; [reflexivity|]. split; [exact L1|]. split; [exact L2|]. split; [exact (proj1 B)|].
  destruct (lookup_some _ t _ rv B E) as (ts & ps & R & (_ & D & _)). exists ts, ps. split; [exact R|].
  specialize (D POST). rewrite G in D. destruct (handler_for POST (routes_at (table_of (registrations l)) ts)) as [h'|]; [|discriminate D].
  injection D as ->. reflexivity.
Qed.
