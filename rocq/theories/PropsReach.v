(** Properties C71 to C74: methods, request paths as they arrive over HTTP, typed data,
    names of static files.

    [built], [registered] are defined in [PropSpec]; [resolves], [handler_for], [mws_for]
    in [TableSpec]; [runs], [handles], [starts], [reads_path] in [AppSpec]; [api_only],
    [path_char], [deliverable], [plain_path], [adder], [latest] in [UserSpec]. *)

From Coq Require Import String.
From Verif Require Import Form FormSpec Base Utf8 RouteTrie Router TableSpec PropSpec Http App AppSpec UserSpec.
From Verif Require Import RouteFacts RouteLemmas RouteWitness AppLemmas AppWitness UserLemmas UserLemmas2 UserWitness TextServed.
Local Open Scope string_scope.
Local Open Scope list_scope.

(** * C71: HEAD is answered like GET *)

(** Refuted: 404 to HEAD where GET gets 200. *)
Theorem C71_refuted : forall X U A : Type,
  exists (l : list (op (handler X U A) (middleware X U A))) t path get head,
    built l t /\ api_only l /\
    runs (serve t None (Request GET path None [] [] body_empty)) [] (Value get) /\ h_status get = 200%N /\
    runs (serve t None (Request HEAD path None [] [] body_empty)) [] (Value head) /\ h_status head = 404%N.
Proof. exact (@w_head). Qed.
Print Assumptions C71_refuted.

(** What happens instead: every method but the five of the API gets 404, and neither
    middlewares nor handlers run. *)
Theorem C71_other_methods : forall (X U A : Type) (l : list (op (handler X U A) (middleware X U A))) t st (rq : request X),
  build l = (t, None) -> api_only l -> ~ api_method (rq_method rq) ->
  forall tr o, runs (serve t st rq) tr o <->
    tr = [] /\ o = Value (HttpResponse 404%N [] (Body [utf8 (lit "404 Not Found")] false)).
Proof. exact (@other_methods_text). Qed.
Print Assumptions C71_other_methods.

Example C71_example : forall X U A, let l : list (op (handler X U A) (middleware X U A)) :=
    [OService (logger true); ORoute GET (lit "/a") no_answer; ORoute POST (lit "/a") no_answer] in
  (exists t, built l t) /\ api_only l /\ ~ api_method HEAD /\ ~ api_method OPTIONS /\ ~ api_method (EXT (lit "PURGE")).
Proof.
  intros X U A l. split; [apply head_built|]. split; [apply head_api|].
  repeat split; intros [E|[E|[E|[E|[E|[]]]]]]; discriminate E.
Qed.

(** * C72: every accepted route can be requested *)

(** Refuted: a route with a space in it. *)
Theorem C72_refuted :
  exists (l : list (op nat nat)) t p h,
    built l t /\ no_star_mount l /\ registered l p (CRoute GET h) /\
    forall path r, deliverable path -> search_route t path = LSome r -> rr_get_route r GET <> Some (Route GET h).
Proof. exact w_space_route. Qed.
Print Assumptions C72_refuted.

(** No request finds a route with a literal character that cannot be sent in a path. *)
Theorem C72_unreachable : forall (H M : Type) (l : list (op H M)) t p m h s c,
  built l t -> (forall q m', registered l q (CRoute m' h) -> flat q = flat p) ->
  In s p -> (forall r, s <> c_colon :: r) -> In c s -> ~ path_char c ->
  forall path r, deliverable path -> search_route t path = LSome r -> rr_get_route r m <> Some (Route m h).
Proof. exact (@unreachable). Qed.
Print Assumptions C72_unreachable.

(** A route with a space in it. *)
Example C72_unreachable_example : let l : list (op nat nat) := [ORoute GET (lit "/my page/:id") 7] in
  let p := [lit "my page"; lit ":id"] in
  (exists t, built l t) /\ (forall q m', registered l q (CRoute m' 7) -> flat q = flat p) /\
  In (lit "my page") p /\ (forall r, lit "my page" <> c_colon :: r) /\ In 32%N (lit "my page") /\ ~ path_char 32%N.
Proof.
  intros l p. split; [eexists; built_by|]. split.
  { intros q m' R. vm_compute in R. repeat (destruct R as [R|R]; [injection R; intros; subst; reflexivity || discriminate R|]). destruct R. }
  split; [left; reflexivity|]. split; [intros r E; discriminate E|]. split; [vm_compute; auto|].
  apply not_path_char. reflexivity.
Qed.

(** Every route whose literal characters can be sent is found by some request, unless a
    router is mounted at a path ending in '*' (C53). *)
Theorem C72_partial : forall (H M : Type) (l : list (op H M)) t p m h,
  build l = (t, None) -> no_star_mount l -> registered l p (CRoute m h) -> plain_path p ->
  exists path r b, deliverable path /\ seg_match p (segments path) b /\ search_route t path = LSome r /\
    rr_get_route r m = Some (Route m h).
Proof. exact (@reachable). Qed.
Print Assumptions C72_partial.

(** A route that can be reached (a parameter may have any name), characters that can be
    sent and some that cannot. *)
Example C72_example : plain_path [lit "users"; lit ":my id"; lit "a%20b"] /\
  path_char 37%N /\ ~ path_char 32%N /\ ~ path_char 233%N /\ ~ path_char 63%N /\
  deliverable (lit "/users/7") /\ ~ deliverable (lit "/a b").
Proof.
  split; [exact plain_example|]. split; [apply is_path_char; reflexivity|].
  do 3 (split; [apply not_path_char; reflexivity|]). split.
  - right. right. exists (lit "users/7"). split; [reflexivity|]. apply Forall_forall. intros c I. apply is_path_char.
    vm_compute in I. repeat (destruct I as [<-|I]; [reflexivity|]). destruct I.
  - intros D. apply (not_path_char 32%N eq_refl). apply (deliverable_chars _ _ D). vm_compute. auto.
Qed.

(** * C73: typed data *)

(** Behind middlewares that add values, the handler finds for each type the value added
    last, or what the context started with (the app state, else the data of the request). *)
Theorem C73_added : forall (X U A : Type) (l : list (op (handler X U A) (middleware X U A))) t st (rq : request X) ts ps h adds,
  built l t -> resolves (table_of l) (segments (rq_path rq)) ts ps ->
  handler_for (rq_method rq) (routes_at (table_of l) ts) = Some h ->
  mws_for (table_of l) ts = map (@adder X U A) adds ->
  exists c0 c, (forall n, pget n (ctx_params c0) = first_binding ps n) /\ starts rq (ctx_params c0) st c0 /\ handles (serve t st rq) (h c) /\
    ctx_params c = ctx_params c0 /\ ctx_response c = None /\
    rq_method (ctx_request c) = rq_method rq /\ rq_path (ctx_request c) = rq_path rq /\
    rq_query (ctx_request c) = rq_query rq /\ rq_headers (ctx_request c) = rq_headers rq /\
    rq_body (ctx_request c) = rq_body rq /\
    forall ty, (forall x, latest ty adds x -> ctx_get ty c = Some x) /\
               ((forall x, ~ In (ty, x) adds) -> ctx_get ty c = ctx_get ty c0).
Proof. exact (@typed_data). Qed.
Print Assumptions C73_added.

Example C73_example : let l : list (op (handler nat unit unit) (middleware nat unit unit)) :=
    [OService (adder (1%N, 5)); OServiceTo (lit "/a") (adder (1%N, 6)); OServiceTo (lit "/a/b") (adder (2%N, 7));
     ORoute GET (lit "/a/b") no_answer] in
  exists t, built l t /\ exists ts ps, resolves (table_of l) (segments (lit "/a/b")) ts ps /\
    handler_for GET (routes_at (table_of l) ts) = Some no_answer /\
    mws_for (table_of l) ts = map (@adder nat unit unit) [(1%N, 5); (2%N, 7); (1%N, 6)] /\
    latest 1%N [(1%N, 5); (2%N, 7); (1%N, 6)] 6.
Proof. exact data_example. Qed.

(** [get_mut] changes the value of its type only, and finds nothing exactly if [get] does. *)
Theorem C73_get_mut : forall (X : Type) ty (f : X -> X) (c : context X),
  match ctx_get_mut ty f c with
  | Some c' => exists x, ctx_get ty c = Some x /\ ctx_get ty c' = Some (f x) /\
                 (forall ty', ty' <> ty -> ctx_get ty' c' = ctx_get ty' c)
  | None => ctx_get ty c = None
  end.
Proof. exact (@get_mut_laws). Qed.
Print Assumptions C73_get_mut.

(** A context with values of two types, one of them changed. *)
Example C73_get_mut_example : let c : context nat := ctx_add 2%N 7 (ctx_add 1%N 5 (context_new (get_req (lit "/")) [])) in
  exists c', ctx_get_mut 1%N S c = Some c' /\ ctx_get 1%N c' = Some 6 /\ ctx_get 2%N c' = Some 7 /\
    ctx_get_mut 3%N S c = None.
Proof. eexists. split; [reflexivity|]. vm_compute. auto. Qed.

(** * C74: every file below the directory can be fetched *)

(** Refuted: a file with a space in its name is never read. *)
Theorem C74_refuted : forall X U A : Type,
  exists v d f t, f <> [] /\ ~ In c_slash f /\ built [@use_static_to X U A v d] t /\
    forall st (rq : request X) tr o r, deliverable (rq_path rq) -> runs (serve t st rq) tr o ->
      ~ In (EvRead (join_slash (segments d ++ [f])) r) tr.
Proof. exact (@w_space_file). Qed.
Print Assumptions C74_refuted.

(** Files with other characters in their names (below the directory) are never read. *)
Theorem C74_names : forall (X U A : Type) v d t st (rq : request X) rel tr o r,
  built [@use_static_to X U A v d] t -> deliverable (rq_path rq) -> file_segments rel ->
  runs (serve t st rq) tr o -> In (EvRead (join_slash (segments d ++ rel)) r) tr ->
  forall s c, In s rel -> In c s -> path_char c.
Proof. exact (@static_names). Qed.
Print Assumptions C74_names.

(** A file in a directory below is read: both names consist of characters of paths. *)
Example C74_names_example : exists t r (rq : request unit) tr o,
  built [@use_static_to unit unit unit (lit "/files") (lit "public")] t /\
  deliverable (rq_path rq) /\ file_segments [lit "img"; lit "a.png"] /\ runs (serve t None rq) tr o /\
  In (EvRead (join_slash (segments (lit "public") ++ [lit "img"; lit "a.png"])) r) tr.
Proof.
  destruct (@serve_one unit unit unit (lit "/files/*") (lit "/files/img/a.png")
              (static_virtual_file_handler (lit "/files") (lit "public")) None) as (t & ps & B & E).
  { assert (L : forall H M (h : H), @one_route H M (lit "/files/*") (lit "/files/img/a.png") h) by (intros; one). apply L. }
  exists t, (inl (lit "png")), (get_req (lit "/files/img/a.png")). eexists. eexists.
  split; [exact B|]. split.
  { right. right. exists (lit "files/img/a.png"). split; [reflexivity|]. apply Forall_forall. intros c I.
    apply is_path_char. vm_compute in I. repeat (destruct I as [<-|I]; [reflexivity|]). destruct I. }
  split; [intros s [<-|[<-|[]]]; (split; [discriminate|vm_compute; intuition discriminate])|]. split.
  - rewrite E. unfold static_virtual_file_handler, file. cbn [bind].
    apply run_read with (res := inl (lit "png")). cbn [bind]. apply run_ret.
  - left. vm_compute. reflexivity.
Qed.

(** All others can be requested. *)
Theorem C74_partial : forall (X U A : Type) v d t rel,
  built [@use_static_to X U A v d] t -> plain_path (segments v) ->
  rel <> [] -> file_segments rel -> (forall s c, In s rel -> In c s -> path_char c) ->
  exists req, deliverable req /\ @reads_path X U A [use_static_to v d] req (join_slash (segments d ++ rel)).
Proof. exact (@static_reachable). Qed.
Print Assumptions C74_partial.

Example C74_example : forall X U A,
  (exists t, built [@use_static_to X U A (lit "/files") (lit "public")] t) /\ plain_path (segments (lit "/files")) /\
  file_segments [lit "img"; lit "a.png"] /\ (forall s c, In s [lit "img"; lit "a.png"] -> In c s -> path_char c) /\
  file_segments [lit "my file.txt"] /\ ~ path_char 32%N.
Proof. exact (@files_example). Qed.
