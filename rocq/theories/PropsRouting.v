(** Properties C01-C24, C52-C54: routing.

    The statements use [Base], the model ([RouteTrie], [Router]) and the
    specification ([TableSpec], [PropSpec], [text] of [TextSpec]).  [H] and [M] are the types of handlers
    and middlewares.  [ex] is the example router of [RouteWitness]. *)

From Coq Require Import String.
From Verif Require Import Base RouteTrie Router TableSpec PropSpec.
From Verif Require Import RouteFacts RouteLemmas RouteLemmas2 RouteLemmas3 RouteLemmas4 OwnPath Rewalk TextSpec TextStar TextMore RouteWitness.
From Verif Require Import AloneSpec AloneLemmas StarLemmas MoreLemmas.
Local Open Scope string_scope.
Local Open Scope list_scope.

Local Ltac reg := vm_compute; tauto.
Local Ltac lit_seg := split; [discriminate|intros [? E]; discriminate].

(** * C01: when registration is accepted *)

Theorem C01_route_accepted : forall (H M : Type) (l : list (op H M)) t m path h,
  let p := segments path in
  built l t -> colons_apart (table_of l ++ [(p, CNode)]) ->
  (snd (run_op t (ORoute m path h)) = None <->
   star_ok p /\ (forall q c, registered l q c -> ~ ambiguous p q) /\
   ~ exists q h', registered l q (CRoute m h') /\ flat q = flat p).
Proof. exact (@route_accepted_iff). Qed.
Print Assumptions C01_route_accepted.

Example C01_route_example : built ex ex_t /\ colons_apart (table_of ex ++ [(segments (lit "/users"), CNode)]) /\
  snd (run_op ex_t (ORoute GET (lit "/users") 9)) = None /\
  colons_apart (table_of ex ++ [(segments (lit "/users/me"), CNode)]) /\
  snd (run_op ex_t (ORoute GET (lit "/users/me") 9)) = Some PAmbiguous /\
  colons_apart (table_of ex ++ [(segments (lit "/users/:id"), CNode)]) /\
  snd (run_op ex_t (ORoute GET (lit "/users/:id") 9)) = Some PDuplicate.
Proof.
  split; [exact ex_built|].
  do 2 (split; [apply apartb_sound; vm_compute; reflexivity|]; split; [vm_compute; reflexivity|]).
  split; [apply apartb_sound; vm_compute; reflexivity|vm_compute; reflexivity].
Qed.

Theorem C01_middleware_accepted : forall (H M : Type) (l : list (op H M)) t path mw,
  let p := segments path in
  built l t -> colons_apart (table_of l ++ [(p, CNode)]) ->
  (snd (run_op t (OServiceTo path mw)) = None <->
   star_ok p /\ (forall q c, registered l q c -> ~ ambiguous p q)).
Proof. exact (@service_accepted_iff). Qed.
Print Assumptions C01_middleware_accepted.

Example C01_middleware_example : built ex ex_t /\ colons_apart (table_of ex ++ [(segments (lit "/files/img"), CNode)]) /\
  snd (run_op ex_t (OServiceTo (lit "/files/img") 9)) = None /\
  colons_apart (table_of ex ++ [(segments (lit "/users/me"), CNode)]) /\
  snd (run_op ex_t (OServiceTo (lit "/users/me") 9)) = Some PAmbiguous /\
  colons_apart (table_of ex ++ [(segments (lit "/*/b"), CNode)]) /\
  snd (run_op ex_t (OServiceTo (lit "/*/b") 9)) = Some PStarNotLast.
Proof.
  split; [exact ex_built|].
  do 2 (split; [apply apartb_sound; vm_compute; reflexivity|]; split; [vm_compute; reflexivity|]).
  split; [apply apartb_sound; vm_compute; reflexivity|vm_compute; reflexivity].
Qed.

Theorem C01_mount_accepted : forall (H M : Type) (l : list (op H M)) t path sub,
  let p := segments path in
  built l t -> colons_apart (table_of l ++ [(p, CNode)]) -> all_tidy [] sub -> p <> [] ->
  (snd (run_op t (ORouter path sub)) = None <->
   snd (build sub) = None /\ star_ok p /\ (forall q c, registered l q c -> ~ ambiguous p q) /\
   (forall q c, registered l q c -> c <> CNode -> flat q <> flat p) /\
   ~ exists q c, registered l q c /\ strict_prefix (flat p) (flat q)).
Proof. exact (@mount_accepted_iff). Qed.
Print Assumptions C01_mount_accepted.

Example C01_mount_example : let sub := [@ORoute nat nat GET (lit "/x") 9] in
  built ex ex_t /\ all_tidy [] sub /\ segments (lit "/about") <> [] /\
  colons_apart (table_of ex ++ [(segments (lit "/about"), CNode)]) /\
  snd (run_op ex_t (ORouter (lit "/about") sub)) = Some PMountConflict /\
  colons_apart (table_of ex ++ [(segments (lit "/about/us/all"), CNode)]) /\
  snd (run_op ex_t (ORouter (lit "/about/us/all") sub)) = None.
Proof.
  split; [exact ex_built|]. split; [apply (built_check _ (fst (build [ORoute GET (lit "/x") 9]))); vm_compute; reflexivity|].
  split; [discriminate|].
  split; [apply apartb_sound; vm_compute; reflexivity|]. split; [vm_compute; reflexivity|].
  split; [apply apartb_sound; vm_compute; reflexivity|vm_compute; reflexivity].
Qed.

Theorem C01_root_mount_accepted : forall (H M : Type) (t : trie H M) path sub,
  segments path = [] -> snd (build sub) = None ->
  run_op t (ORouter path sub) = (fst (build sub), None).
Proof. exact (@root_mount_accepted). Qed.
Print Assumptions C01_root_mount_accepted.

Example C01_root_mount_example : segments (lit "//") = [] /\ snd (build [@ORoute nat nat GET (lit "/x") 9]) = None /\
  (exists r, search_route ex_t (lit "/users/7") = LSome r) /\
  search_route (fst (run_op ex_t (ORouter (lit "//") [ORoute GET (lit "/x") 9]))) (lit "/users/7") = LNone.
Proof. split; [reflexivity|]. split; [reflexivity|]. split; [eexists; vm_compute; reflexivity|vm_compute; reflexivity]. Qed.

Theorem C01_history_accepted : forall (H M : Type) (l : list (op H M)),
  all_tidy [] l -> (snd (build l) = None <-> all_accepted [] l).
Proof. exact (@history_accepted_iff). Qed.
Print Assumptions C01_history_accepted.

Example C01_example : built ex ex_t /\
  snd (run_op ex_t (ORoute GET (lit "/users") 9)) = None /\
  snd (run_op ex_t (ORoute GET (lit "/users/:id") 9)) = Some PDuplicate /\
  snd (run_op ex_t (ORoute GET (lit "/users/me") 9)) = Some PAmbiguous /\
  snd (run_op ex_t (ORouter (lit "/about") [ORoute GET (lit "/x") 9])) = Some PMountConflict /\
  snd (run_op ex_t (OServiceTo (lit "/a*b") 9)) = Some PStarInName /\
  snd (run_op ex_t (OServiceTo (lit "/*/b") 9)) = Some PStarNotLast.
Proof. split; [exact ex_built|]. vm_compute. auto 10. Qed.

(** * C02: routes that no request matches both of can be registered together *)

Theorem C02_refuted :
  exists path path' : str,
    star_ok (segments path) /\ star_ok (segments path') /\
    colon_ok (segments path) /\ colon_ok (segments path') /\
    (forall R b b', seg_match (segments path) R b -> ~ seg_match (segments path') R b') /\
    forall (H M : Type) m m' (h h' : H),
      snd (build [@ORoute H M m path h; ORoute m' path' h']) = Some PAmbiguous /\
      snd (build [@ORoute H M m' path' h'; ORoute m path h]) = Some PAmbiguous.
Proof. exact w_unmatched_pair_rejected. Qed.
Print Assumptions C02_refuted.

(** Exactly the pairs that do not part at a parameter can be registered together. *)
Theorem C02_exact : forall (H M : Type) m m' path path' (h h' : H),
  star_ok (segments path) -> star_ok (segments path') ->
  colons_apart [(segments path, CNode : content H M); (segments path', CNode)] ->
  (exists t, built [@ORoute H M m path h; ORoute m' path' h'] t) <->
  ~ ambiguous (segments path) (segments path') /\ (m = m' -> flat (segments path) <> flat (segments path')).
Proof. exact (@two_routes_exact). Qed.
Print Assumptions C02_exact.

(** A pair of each kind. *)
Example C02_exact_example :
  let apart a b := star_ok (segments a) /\ star_ok (segments b) /\
                   colons_apart [(segments a, CNode : content nat nat); (segments b, CNode)] in
  let both a b := snd (build [@ORoute nat nat GET a 1; ORoute GET b 2]) in
  apart (lit "/u/:id/posts") (lit "/u/:id/*") /\ both (lit "/u/:id/posts") (lit "/u/:id/*") = None /\
  apart (lit "/u/:id") (lit "/u/me") /\ both (lit "/u/:id") (lit "/u/me") = Some PAmbiguous /\
  apart (lit "/a/b") (lit "/ab") /\ both (lit "/a/b") (lit "/ab") = Some PDuplicate.
Proof.
  assert (P : forall a b, star_check (length (segments a)) 0 (segments a) = None ->
      star_check (length (segments b)) 0 (segments b) = None ->
      apartb [(segments a, CNode : content nat nat); (segments b, CNode)] = true ->
      star_ok (segments a) /\ star_ok (segments b) /\ colons_apart [(segments a, CNode : content nat nat); (segments b, CNode)]).
  { intros a b A B C. split; [apply TrieBuild.star_check_spec; exact A|]. split; [apply TrieBuild.star_check_spec; exact B|].
    apply apartb_sound. exact C. }
  cbv zeta. do 2 (split; [apply P; vm_compute; reflexivity|]; split; [vm_compute; reflexivity|]).
  split; [apply P; vm_compute; reflexivity|vm_compute; reflexivity].
Qed.

(** True of paths that first differ in two literal segments neither of which is the
    beginning of the other.  Missing: when one is the beginning of the other, and when
    they first differ in a parameter. *)
Theorem C02_literals_partial : forall (H M : Type) m m' path path' (h h' : H) u s v s' v',
  star_ok (segments path) -> star_ok (segments path') ->
  colons_apart [(segments path, CNode : content H M); (segments path', CNode)] ->
  segments path = u ++ s :: v -> segments path' = u ++ s' :: v' ->
  literal_seg s -> literal_seg s' -> ~ prefix s s' -> ~ prefix s' s ->
  (exists t, built [@ORoute H M m path h; ORoute m' path' h'] t) /\
  (exists t, built [@ORoute H M m' path' h'; ORoute m path h] t).
Proof. exact (@literals_register). Qed.
Print Assumptions C02_literals_partial.

Example C02_literals_example :
  star_ok (segments (lit "/u/:id/posts/:post")) /\ star_ok (segments (lit "/u/:id/likes/:like")) /\
  colons_apart [(segments (lit "/u/:id/posts/:post"), CNode : content nat nat); (segments (lit "/u/:id/likes/:like"), CNode)] /\
  segments (lit "/u/:id/posts/:post") = [lit "u"; lit ":id"] ++ lit "posts" :: [lit ":post"] /\
  segments (lit "/u/:id/likes/:like") = [lit "u"; lit ":id"] ++ lit "likes" :: [lit ":like"] /\
  literal_seg (lit "posts") /\ literal_seg (lit "likes") /\ ~ prefix (lit "posts") (lit "likes") /\ ~ prefix (lit "likes") (lit "posts").
Proof.
  split; [apply TrieBuild.star_check_spec; reflexivity|]. split; [apply TrieBuild.star_check_spec; reflexivity|].
  split; [apply apartb_sound; vm_compute; reflexivity|].
  split; [reflexivity|]. split; [reflexivity|]. split; [lit_seg|]. split; [lit_seg|].
  split; intros [r E]; discriminate.
Qed.

(** True of paths without parameters and with different texts.  Missing: paths with
    parameters ([C02_exact] says exactly which are accepted). *)
Theorem C02_partial : forall (H M : Type) m m' path path' (h h' : H),
  star_ok (segments path) -> star_ok (segments path') ->
  colons_apart [(segments path, CNode : content H M); (segments path', CNode)] ->
  no_par (segments path) -> no_par (segments path') ->
  (m = m' -> flat (segments path) <> flat (segments path')) ->
  (exists t, built [@ORoute H M m path h; ORoute m' path' h'] t) /\
  (exists t, built [@ORoute H M m' path' h'; ORoute m path h] t).
Proof. exact (@param_free_register). Qed.
Print Assumptions C02_partial.

Example C02_example :
  no_par (segments (lit "/users/all")) /\ no_par (segments (lit "/users/*")) /\
  flat (segments (lit "/users/all")) <> flat (segments (lit "/users/*")).
Proof.
  split; [intros s I; vm_compute in I; intuition (subst; destruct H; discriminate)|].
  split; [intros s I; vm_compute in I; intuition (subst; destruct H; discriminate)|].
  vm_compute. discriminate.
Qed.

(** * C03, C04: routes are found *)

Theorem C03_literal_route_found : forall (H M : Type) (l : list (op H M)) t p m h path,
  build l = (t, None) -> registered l p (CRoute m h) -> literal p -> segments path = p ->
  exists r, search_route t path = LSome r /\ rr_get_route r m = Some (Route m h) /\
            forall n, pget n (rr_params r) = None.
Proof. exact (@literal_path_found). Qed.
Print Assumptions C03_literal_route_found.

Example C03_example : registered ex [lit "about"; lit "us"] (CRoute GET 5) /\ literal [lit "about"; lit "us"] /\
  exists r, search_route ex_t (lit "//about/us/") = LSome r /\ rr_get_route r GET = Some (Route GET 5).
Proof.
  split; [reg|]. split; [intros s [<-|[<-|[]]]; lit_seg|]. eexists. split; vm_compute; reflexivity.
Qed.

(** A router where a path branches off right before a colon inside a segment: the text
    [:b] becomes a node of its own, yet "/a:b" still answers its own path. *)
Example C03_colon_example :
  let l : list (op nat nat) := [ORoute GET (lit "/ac") 2; ORoute GET (lit "/a:b") 1; OServiceTo (lit "/a:b") 3; ORoute GET (lit "/a:b/:id") 4] in
  exists t, build l = (t, None) /\ registered l [lit "a:b"] (CRoute GET 1) /\ literal [lit "a:b"] /\
    ~ colons_apart (table_of l) /\
    (exists r, search_route t (lit "/a:b") = LSome r /\ rr_get_route r GET = Some (Route GET 1)) /\
    exists r, search_route t (lit "/a:b/7") = LSome r /\ rr_get_route r GET = Some (Route GET 4) /\
      pget (lit "id") (rr_params r) = Some (lit "7") /\ rr_mws r = [3].
Proof.
  eexists. split; [vm_compute; reflexivity|]. split; [reg|]. split; [intros s [<-|[]]; lit_seg|].
  split; [exact w_not_apart|].
  split; eexists; repeat (split; [vm_compute; reflexivity|]); vm_compute; reflexivity.
Qed.

Theorem C04_parameter_route_found : forall (H M : Type) (l : list (op H M)) t p m h path b,
  build l = (t, None) -> registered l p (CRoute m h) -> no_star p -> seg_match p (segments path) b ->
  exists r, search_route t path = LSome r /\ rr_get_route r m = Some (Route m h) /\
            forall n, pget n (rr_params r) = first_binding b n.
Proof. exact (@own_route). Qed.
Print Assumptions C04_parameter_route_found.

Example C04_example :
  let p := [lit "api"; lit "v1"; lit ":k"; lit "x"; lit ":k"] in
  registered ex p (CRoute GET 6) /\ no_star p /\
  seg_match p (segments (lit "/api/v1/u/x/w")) [(lit "k", lit "u"); (lit "k", lit "w")] /\
  exists r, search_route ex_t (lit "/api/v1/u/x/w") = LSome r /\ pget (lit "k") (rr_params r) = Some (lit "u").
Proof.
  split; [reg|]. split; [intros I; vm_compute in I; intuition discriminate|]. split.
  - change (seg_match [lit "api"; lit "v1"; c_colon :: lit "k"; lit "x"; c_colon :: lit "k"]
             [lit "api"; lit "v1"; lit "u"; lit "x"; lit "w"] [(lit "k", lit "u"); (lit "k", lit "w")]).
    repeat (constructor; try lit_seg).
  - eexists. split; vm_compute; reflexivity.
Qed.

(** * C05: wildcards *)

Theorem C05_wildcard_found : forall (H M : Type) (l : list (op H M)) t q c path b,
  built l t -> no_star_mount l ->
  registered l (q ++ [s_star]) c -> seg_match (q ++ [s_star]) (segments path) b ->
  exists p c' b' r, search_route t path = LSome r /\ registered l p c' /\ c' <> CNode /\
    strict_prefix (flat q) (flat p) /\ delivers (table_of l) (flat p) b' r.
Proof. exact (@wildcard_found). Qed.
Print Assumptions C05_wildcard_found.

Example C05_example : no_star_mount ex /\ registered ex ([lit "files"] ++ [s_star]) (CRoute GET 3) /\
  seg_match ([lit "files"] ++ [s_star]) (segments (lit "/files/a/b")) [] /\
  exists r, search_route ex_t (lit "/files/a/b") = LSome r /\ rr_get_route r GET = Some (Route GET 3).
Proof.
  split; [intros p I J; vm_compute in I; intuition; try discriminate; repeat match goal with X : _ = (_, CNode) |- _ => injection X as <- end; vm_compute in J; intuition discriminate|].
  split; [reg|]. split.
  - apply sm_lit; [lit_seg|]. apply sm_star. discriminate.
  - eexists. split; vm_compute; reflexivity.
Qed.

(** Without the condition on mounts the claim is false. *)
Theorem C05_star_mount_refuted :
  exists (l : list (op nat nat)) t q h path b,
    built l t /\ registered l (q ++ [s_star]) (CRoute GET h) /\ no_star q /\
    seg_match (q ++ [s_star]) (segments path) b /\ search_route t path = LNone.
Proof. exact w_star_mount_shadows. Qed.
Print Assumptions C05_star_mount_refuted.

(** * C06: what a request may be answered by *)

Theorem C06_refuted :
  exists (l : list (op nat nat)) t path r p h,
    built l t /\ search_route t path = LSome r /\ rr_get_route r GET = Some (Route GET h) /\
    (forall p' c, registered l p' c -> p' = p /\ c = CRoute GET h) /\
    forall b, ~ seg_match p (segments path) b.
Proof. exact w_slash_confusion. Qed.
Print Assumptions C06_refuted.

(** True up to the position of slashes between literal pieces.  Missing: the
    segment boundaries. *)
Theorem C06_partial : forall (H M : Type) (l : list (op H M)) t path r,
  built l t -> search_route t path = LSome r ->
  exists p c b, registered l p c /\ c <> CNode /\ delivers (table_of l) (flat p) b r /\
                loose_match (flat p) (segments path) b.
Proof. exact (@found_loose). Qed.
Print Assumptions C06_partial.

(** The request "/aboutus" is answered by the route "/about/us". *)
Example C06_example : built ex ex_t /\ registered ex [lit "about"; lit "us"] (CRoute GET 5) /\
  loose_match (flat [lit "about"; lit "us"]) (segments (lit "/aboutus")) [] /\
  exists r, search_route ex_t (lit "/aboutus") = LSome r /\ rr_get_route r GET = Some (Route GET 5).
Proof.
  split; [exact ex_built|]. split; [reg|]. split; [|eexists; split; vm_compute; reflexivity].
  apply (lm_lit 97%N (map Ch (lit "boutus")) [] [] []). constructor.
Qed.

(** A router with a single route: the requests it answers, exactly ([alone], AloneSpec). *)
Theorem C06_one_route : forall (H M : Type) m path (h : H) (t : trie H M) req, build [ORoute m path h] = (t, None) ->
  (forall r, search_route t req = LSome r -> exists b, alone (segments path) (segments req) b) /\
  (forall b, alone (segments path) (segments req) b -> exists r, search_route t req = LSome r /\
     rr_get_route r m = Some (Route m h) /\ rr_mws r = [] /\ forall n, pget n (rr_params r) = first_binding b n).
Proof. exact (@single_route). Qed.
Print Assumptions C06_one_route.

Example C06_one_example :
  alone (segments (lit "/a/b/:c")) (segments (lit "/ab/x")) [(lit "c", lit "x")] /\
  alone (segments (lit "/a/b/:c")) (segments (lit "/ab:c")) [] /\
  forall b, ~ alone (segments (lit "/ab")) (segments (lit "/a/b")) b.
Proof. exact alone_example. Qed.

(** * C07: lookup is the specified resolution *)

Theorem C07_lookup_resolution : forall (H M : Type) (l : list (op H M)) t path r,
  built l t -> search_route t path = LSome r ->
  exists ts ps, resolves (table_of l) (segments path) ts ps /\ delivers (table_of l) ts ps r.
Proof. exact (@lookup_some). Qed.
Print Assumptions C07_lookup_resolution.

Example C07_lookup_example : built ex ex_t /\ exists r, search_route ex_t (lit "/users/7") = LSome r /\
  rr_get_route r POST = Some (Route POST 2) /\ rr_mws r = [100; 102; 101] /\ pget (lit "id") (rr_params r) = Some (lit "7").
Proof. split; [exact ex_built|]. eexists. repeat (split; [vm_compute; reflexivity|]). vm_compute. reflexivity. Qed.

Theorem C07_resolution_lookup : forall (H M : Type) (l : list (op H M)) t path ts ps,
  built l t -> resolves (table_of l) (segments path) ts ps ->
  exists r, search_route t path = LSome r /\ delivers (table_of l) ts ps r.
Proof. exact (@some_lookup). Qed.
Print Assumptions C07_resolution_lookup.

Local Lemma users_resolves {H M} (T : table H M) c s : In ([lit "users"; lit ":id"], c) T -> has_value T (flat [lit "users"; lit ":id"]) ->
  resolves T [lit "users"; s] (flat [lit "users"; lit ":id"]) [(lit "id", s)].
Proof.
  intros I N. apply res_exact. split.
  - apply (rd_lit T [] 117%N (map Ch (lit "sers")) [s] [Par (lit "id")]).
    + right. left. exists [lit "users"; lit ":id"], c, 1. split; [exact I|reflexivity].
    + apply (rd_par T _ (lit "id") s [] [] []); [|apply rd_nil].
      right. left. exists [lit "users"; lit ":id"], c, 2. split; [exact I|reflexivity].
  - exact N.
Qed.

Example C07_resolution_example : built ex ex_t /\
  resolves (table_of ex) (segments (lit "/users/7")) (flat [lit "users"; lit ":id"]) [(lit "id", lit "7")].
Proof.
  split; [exact ex_built|]. apply (users_resolves _ (CRoute GET 1)); [reg|left; vm_compute; discriminate].
Qed.

Theorem C07_lookup_none : forall (H M : Type) (l : list (op H M)) t path,
  built l t ->
  (search_route t path = LNone <-> forall ts ps, ~ resolves (table_of l) (segments path) ts ps).
Proof. exact (@none_lookup). Qed.
Print Assumptions C07_lookup_none.

Example C07_none_example : built ex ex_t /\ search_route ex_t (lit "/user") = LNone /\ search_route ex_t (lit "/user/s/7") = LNone.
Proof. split; [exact ex_built|]. split; vm_compute; reflexivity. Qed.

Theorem C07_resolution_unique : forall (H M : Type) (l : list (op H M)) t R ts ps ts' ps',
  built l t -> resolves (table_of l) R ts ps -> resolves (table_of l) R ts' ps' -> ts = ts' /\ ps = ps'.
Proof. exact (@resolution_unique). Qed.
Print Assumptions C07_resolution_unique.

Example C07_example : built ex ex_t /\ search_route ex_t (lit "/nope") = LNone /\
  exists r, search_route ex_t (lit "/users/7") = LSome r.
Proof. split; [exact ex_built|]. split; [vm_compute; reflexivity|]. eexists. vm_compute. reflexivity. Qed.

(** * C08: registration order *)

Theorem C08_partial : forall (H M : Type) (l l' : list (op H M)) t t' path,
  built l t -> built l' t' -> Permutation l l' -> no_root_mount l -> single_mws l ->
  same_lookup (search_route t path) (search_route t' path).
Proof. exact (@permuted_same_lookup). Qed.
Print Assumptions C08_partial.

Example C08_example :
  let l := [ORoute GET (lit "/a/:x") 1; OServiceTo (lit "/a") 2; ORoute GET (lit "/b/*") 3; ORoute PUT (lit "/a/:x") 4] in
  (exists t, built l t) /\ (exists t, built (rev l) t) /\ Permutation l (rev l) /\ no_root_mount l /\ single_mws l.
Proof.
  split; [eexists; built_by|]. split; [eexists; built_by|]. split; [apply Permutation_rev|]. split.
  - intros o I (path & sub & -> & _). vm_compute in I. intuition discriminate.
  - intros ts. unfold mws_at. change (length ((if toks_eq_dec (flat [lit "a"]) ts then [2] else []) ++ []) <= 1).
    destruct (toks_eq_dec (flat [lit "a"]) ts); cbn; auto.
Qed.

(** The condition in [built] is needed: where a path branches off right before a colon
    inside a segment, the order of two calls decides which of them answers. *)
Theorem C08_refuted :
  exists (l l' : list (op nat nat)) t t' path,
    build l = (t, None) /\ build l' = (t', None) /\ Permutation l l' /\ no_root_mount l /\ single_mws l /\
    Forall not_router l /\ ~ same_lookup (search_route t path) (search_route t' path).
Proof. exact w_order_decides. Qed.
Print Assumptions C08_refuted.

(** Without mounts, a permutation of an accepted sequence is accepted too. *)
Theorem C08_accepted_partial : forall (H M : Type) (l l' : list (op H M)) t,
  Forall not_router l -> Permutation l l' -> built l t -> exists t', built l' t'.
Proof. exact (@permuted_built). Qed.
Print Assumptions C08_accepted_partial.

Example C08_accepted_example :
  let l := [ORoute GET (lit "/a/:x") 1; OServiceTo (lit "/a") 2; OService 5; ORoute GET (lit "/b/*") 3; ORoute PUT (lit "/a/:x") 4] in
  Forall not_router l /\ Permutation l (rev l) /\ exists t, built l t.
Proof. split; [repeat constructor|]. split; [apply Permutation_rev|]. eexists. built_by. Qed.

(** * C09: later registrations do not disturb a route *)

Theorem C09_later_calls_keep : forall (H M : Type) (l l2 : list (op H M)) t p m h path b,
  build (l ++ l2) = (t, None) -> registered l p (CRoute m h) ->
  (forall o, In o l2 -> ~ root_mount o) -> no_star p -> seg_match p (segments path) b ->
  exists r, search_route t path = LSome r /\ rr_get_route r m = Some (Route m h) /\
            forall n, pget n (rr_params r) = first_binding b n.
Proof. exact (@later_keep). Qed.
Print Assumptions C09_later_calls_keep.

Example C09_example : ex = firstn 3 ex ++ skipn 3 ex /\
  registered (firstn 3 ex) [lit "users"; lit ":id"] (CRoute GET 1) /\
  forall o, In o (skipn 3 ex) -> ~ root_mount o.
Proof.
  split; [reflexivity|]. split; [reg|].
  intros o I (path & sub & -> & E). repeat (destruct I as [I|I]; [try discriminate I; injection I as <- <-; discriminate E|]). destruct I.
Qed.

(** * C10: redundant slashes *)

Theorem C10_redundant_slashes : forall (H M : Type) (t : trie H M) m h mw a b sub,
  same_path a b ->
  run_op t (ORoute m a h) = run_op t (ORoute m b h) /\
  run_op t (OServiceTo a mw) = run_op t (OServiceTo b mw) /\
  run_op t (ORouter a sub) = run_op t (ORouter b sub) /\
  search_route t a = search_route t b.
Proof. exact (@op_same_path). Qed.
Print Assumptions C10_redundant_slashes.

Example C10_example : same_path (lit "//a///b/") (lit "a/b").
Proof.
  apply (sp_trans _ (lit "/a///b/")); [apply sp_lead|]. apply (sp_trans _ (lit "a///b/")); [apply sp_lead|].
  apply (sp_trans _ (lit "a///b")); [apply (sp_trail (lit "a///b"))|].
  apply (sp_trans _ (lit "a//b")); [apply (sp_double (lit "a") (lit "/b"))|apply (sp_double (lit "a") (lit "b"))].
Qed.

(** * C11, C12: panics *)

Theorem C11_lookup_never_panics : forall (H M : Type) (t : trie H M) path p, search_route t path <> LPanic p.
Proof. exact (@lookup_no_panic). Qed.
Print Assumptions C11_lookup_never_panics.

Example C11_example : exists r, search_route ex_t [233; 47; 8364; 47; 128512]%N = r.
Proof. eexists. vm_compute. reflexivity. Qed.

Theorem C12_documented_panics : forall (H M : Type) (t : trie H M) o p,
  snd (run_op t o) = Some p ->
  p = PStarInName \/ p = PStarNotLast \/ p = PAmbiguous \/ p = PDuplicate \/ p = PMountConflict.
Proof. exact (@registration_panics). Qed.
Print Assumptions C12_documented_panics.

Example C12_example : snd (run_op ex_t (ORoute GET (47 :: lit "users/" ++ [233])%N 9)) = Some PAmbiguous /\
  snd (run_op ex_t (ORoute GET [233; 47]%N 9)) = None.
Proof. split; vm_compute; reflexivity. Qed.

(** * C13-C17: middlewares *)

Theorem C13_applied_middlewares : forall (H M : Type) (l : list (op H M)) t path r,
  built l t -> search_route t path = LSome r ->
  exists p c b, registered l p c /\ c <> CNode /\ resolves (table_of l) (segments path) (flat p) b /\
                Permutation (rr_mws r) (mws_on_prefix (table_of l) (flat p)).
Proof. exact (@found_middlewares). Qed.
Print Assumptions C13_applied_middlewares.

Example C13_example : exists r, search_route ex_t (lit "/users/7") = LSome r /\ rr_mws r = [100; 102; 101] /\
  mws_on_prefix (table_of ex) (flat [lit "users"; lit ":id"]) = [100; 101; 102].
Proof. eexists. split; [vm_compute; reflexivity|]. split; vm_compute; reflexivity. Qed.

Theorem C14_refuted :
  exists (l : list (op nat nat)) t path r p mw,
    built l t /\ search_route t path = LSome r /\ In mw (rr_mws r) /\
    (forall p' c, registered l p' (CMw c) -> p' = p /\ c = mw) /\
    forall R1 R2 b, segments path = R1 ++ R2 -> ~ seg_match p R1 b.
Proof. exact w_middleware_beyond_segment. Qed.
Print Assumptions C14_refuted.

(** A middleware applies only below the text of its path.  Missing: segment
    boundaries, unless ... *)
Theorem C14_partial : forall (H M : Type) (l : list (op H M)) t path r mw,
  built l t -> search_route t path = LSome r -> In mw (rr_mws r) ->
  exists p q c b, registered l p (CMw mw) /\ registered l q c /\ c <> CNode /\
    prefix (flat p) (flat q) /\ resolves (table_of l) (segments path) (flat q) b.
Proof. exact (@applied_middleware). Qed.
Print Assumptions C14_partial.

Example C14_applied_example : built ex ex_t /\ exists r, search_route ex_t (lit "/users/7") = LSome r /\ In 101 (rr_mws r) /\
  registered ex [lit "users"] (CMw 101) /\ registered ex [lit "users"; lit ":id"] (CRoute GET 1) /\
  prefix (flat [lit "users"]) (flat [lit "users"; lit ":id"]).
Proof.
  split; [exact ex_built|]. eexists. split; [vm_compute; reflexivity|]. split; [vm_compute; auto|]. split; [reg|]. split; [reg|].
  exists [Par (lit "id")]. reflexivity.
Qed.

(** ... no registered path extends the text of another one in mid-segment. *)
Theorem C14_segments_partial : forall (H M : Type) (l : list (op H M)) t path r mw p m h b,
  built l t ->
  (forall p1 c1 p2 c2, registered l p1 c1 -> registered l p2 c2 -> prefix (flat p1) (flat p2) -> prefix p1 p2) ->
  registered l p (CRoute m h) -> no_star p -> seg_match p (segments path) b ->
  search_route t path = LSome r -> In mw (rr_mws r) ->
  exists q R1 R2 b1, registered l q (CMw mw) /\ segments path = R1 ++ R2 /\ seg_match q R1 b1.
Proof. exact (@applied_middleware_segments). Qed.
Print Assumptions C14_segments_partial.

Example C14_example :
  let l : list (op nat nat) := [OServiceTo (lit "/admin") 7; ORoute GET (lit "/admin/:x") 1; ORoute GET (lit "/bdmin") 2] in
  (exists t, built l t) /\
  forall p1 c1 p2 c2, registered l p1 c1 -> registered l p2 c2 -> prefix (flat p1) (flat p2) -> prefix p1 p2.
Proof.
  split; [eexists; built_by|]. intros p1 c1 p2 c2 I J P. apply is_prefix_spec in P.
  vm_compute in I, J. destruct I as [I|[I|[I|[]]]], J as [J|[J|[J|[]]]]; injection I as <- <-; injection J as <- <-;
    vm_compute in P; try discriminate P; solve [exists []; reflexivity|eexists; reflexivity].
Qed.

Theorem C15_middleware_order : forall (H M : Type) (l : list (op H M)) t path r,
  built l t -> search_route t path = LSome r ->
  exists p c b, registered l p c /\ c <> CNode /\ resolves (table_of l) (segments path) (flat p) b /\
                rr_mws r = mws_for (table_of l) (flat p).
Proof. exact (@found_middleware_order). Qed.
Print Assumptions C15_middleware_order.

Example C15_example : mws_for (table_of ex) (flat [lit "users"; lit ":id"]) = [100; 102; 101].
Proof. vm_compute. reflexivity. Qed.

Theorem C16_refuted :
  exists (l : list (op nat nat)) t path r p1 p2 m1 m2,
    built l t /\ search_route t path = LSome r /\
    registered l p1 (CMw m1) /\ registered l p2 (CMw m2) /\ strict_prefix p1 p2 /\
    m1 <> m2 /\ rr_mws r = [m2; m1].
Proof. exact w_inner_before_outer. Qed.
Print Assumptions C16_refuted.

(** True of the root middlewares only: they come first. *)
Theorem C16_partial : forall (H M : Type) (l : list (op H M)) t path r,
  built l t -> search_route t path = LSome r ->
  exists rest, rr_mws r = mws_at (table_of l) [] ++ rest.
Proof. exact (@found_root_first). Qed.
Print Assumptions C16_partial.

Example C16_root_example : built ex ex_t /\ mws_at (table_of ex) [] = [100] /\
  exists r, search_route ex_t (lit "/users/7") = LSome r /\ rr_mws r = [100] ++ [102; 101].
Proof. split; [exact ex_built|]. split; [vm_compute; reflexivity|]. eexists. split; vm_compute; reflexivity. Qed.

(** Below the root it is always the other way round. *)
Theorem C16_inner_first : forall (H M : Type) (l : list (op H M)) t path r p1 p2 m1 m2,
  built l t -> search_route t path = LSome r ->
  registered l p1 (CMw m1) -> registered l p2 (CMw m2) -> flat p1 <> [] -> strict_prefix (flat p1) (flat p2) ->
  exists p b, resolves (table_of l) (segments path) (flat p) b /\ delivers (table_of l) (flat p) b r /\
    (prefix (flat p2) (flat p) -> exists x y z, rr_mws r = x ++ m2 :: y ++ m1 :: z).
Proof. exact (@found_inner_first). Qed.
Print Assumptions C16_inner_first.

Example C16_example : exists p1 p2, registered ex p1 (CMw 101) /\ registered ex p2 (CMw 102) /\
  flat p1 <> [] /\ strict_prefix (flat p1) (flat p2).
Proof.
  exists [lit "users"], [lit "users"; lit ":id"]. split; [reg|]. split; [reg|]. split; [discriminate|].
  exists (Par (lit "id")), []. reflexivity.
Qed.

Theorem C17_refuted :
  exists (l : list (op nat nat)) t1 t2 path mw r1 r2,
    segments path = [] /\ built (l ++ [OServiceTo path mw]) t1 /\ built (l ++ [OService mw]) t2 /\
    search_route t1 path = LSome r1 /\ search_route t2 path = LSome r2 /\
    ~ In mw (rr_mws r1) /\ In mw (rr_mws r2).
Proof. exact w_root_path_middleware_dropped. Qed.
Print Assumptions C17_refuted.

(** [use_service_to] with a root path changes nothing at all. *)
Theorem C17_root_path_ignored : forall (H M : Type) (t : trie H M) path mw,
  segments path = [] -> run_op t (OServiceTo path mw) = (t, None).
Proof. exact (@root_path_ignored). Qed.
Print Assumptions C17_root_path_ignored.

Example C17_root_path_example : segments (lit "//") = [] /\
  exists r, search_route (fst (run_op ex_t (OServiceTo (lit "//") 7))) (lit "/users/5") = LSome r /\ rr_mws r = [100; 102; 101].
Proof. split; [reflexivity|]. eexists. split; vm_compute; reflexivity. Qed.

(** Every other middleware is effective. *)
Theorem C17_partial : forall (H M : Type) (l : list (op H M)) t path mw p q r,
  built (l ++ [OServiceTo p mw]) t -> segments p <> [] ->
  search_route t path = LSome r -> prefix (flat (segments p)) (flat q) ->
  (exists b, resolves (table_of (l ++ [OServiceTo p mw])) (segments path) (flat q) b) -> In mw (rr_mws r).
Proof. exact (@middleware_effective). Qed.
Print Assumptions C17_partial.

Example C17_example :
  exists t r b, built (ex ++ [OServiceTo (lit "/users") 7]) t /\ search_route t (lit "/users/5") = LSome r /\
    prefix (flat (segments (lit "/users"))) (flat [lit "users"; lit ":id"]) /\
    resolves (table_of (ex ++ [OServiceTo (lit "/users") 7])) (segments (lit "/users/5")) (flat [lit "users"; lit ":id"]) b /\
    rr_mws r = [100; 102; 101; 7].
Proof.
  eexists. eexists. exists [(lit "id", lit "5")]. split; [built_by|]. split; [vm_compute; reflexivity|].
  split; [exists [Par (lit "id")]; reflexivity|]. split; [|vm_compute; reflexivity].
  apply (users_resolves _ (CRoute GET 1)); [reg|left; vm_compute; discriminate].
Qed.

(** With colons anywhere: it applies at least to the requests of every route registered
    at or below its path. *)
Theorem C17_own_path_partial : forall (H M : Type) (l : list (op H M)) t p m h path b q q' mw r,
  build l = (t, None) -> registered l p (CRoute m h) -> no_star p -> seg_match p (segments path) b ->
  registered l q (CMw mw) -> p = q ++ q' -> search_route t path = LSome r -> In mw (rr_mws r).
Proof. exact (@own_middlewares). Qed.
Print Assumptions C17_own_path_partial.

(** A boundary before a colon inside a segment. *)
Example C17_own_path_example :
  let l : list (op nat nat) := [ORoute GET (lit "/ac") 2; ORoute GET (lit "/a:b/:id") 4; OServiceTo (lit "/a:b") 3] in
  exists t r, build l = (t, None) /\ registered l ([lit "a:b"] ++ [lit ":id"]) (CRoute GET 4) /\ no_star ([lit "a:b"] ++ [lit ":id"]) /\
    seg_match ([lit "a:b"] ++ [lit ":id"]) (segments (lit "/a:b/7")) [(lit "id", lit "7")] /\
    registered l [lit "a:b"] (CMw 3) /\ search_route t (lit "/a:b/7") = LSome r /\ rr_mws r = [3].
Proof.
  eexists. eexists. split; [vm_compute; reflexivity|]. split; [reg|]. split; [vm_compute; intuition discriminate|].
  split; [apply sm_lit; [lit_seg|]; apply (sm_par (lit "id")); apply sm_nil|]. split; [reg|]. split; vm_compute; reflexivity.
Qed.

Theorem C17_service_partial : forall (H M : Type) (l : list (op H M)) t path mw r,
  build (l ++ [OService mw]) = (t, None) -> search_route t path = LSome r -> In mw (rr_mws r).
Proof. exact (@text_service). Qed.
Print Assumptions C17_service_partial.

Example C17_service_example : exists t r, build (ex ++ [OService 7]) = (t, None) /\
  search_route t (lit "/api/sub/z") = LSome r /\ rr_mws r = [100; 7; 103].
Proof. eexists. eexists. split; [vm_compute; reflexivity|]. split; vm_compute; reflexivity. Qed.

(** * C18, C19: mounting *)

Theorem C18_mount_as_direct : forall (H M : Type) (l : list (op H M)) t path sub,
  let p := segments path in
  build (l ++ [ORouter path sub]) = (t, None) -> p <> [] -> no_star p -> table_of sub <> [] ->
  build (l ++ flat_map (under path) (counting sub)) = (t, None).
Proof. exact (@mount_counting). Qed.
Print Assumptions C18_mount_as_direct.

Example C18_example : exists sub, ex = firstn 9 ex ++ [ORouter (lit "/api") sub] /\ no_root_mount sub /\
  flat_map (under (lit "/api")) (counting sub) =
    [ORoute GET (lit "/api//v1/:k/x/:k") 6; OServiceTo (lit "/api") 103; ORouter (lit "/api//sub") [ORoute PUT (lit "z") 7]].
Proof.
  eexists. split; [reflexivity|]. split; [|reflexivity].
  intros o I (path & sub & -> & E). repeat (destruct I as [I|I]; [try discriminate I; injection I as <- <-; discriminate E|]). destruct I.
Qed.

(** The calls that count are all of them, unless a router is mounted at the root. *)
Theorem C18_counting : forall (H M : Type) (l : list (op H M)) t,
  (build l = (t, None) -> build (counting l) = (t, None)) /\ (no_root_mount l -> counting l = l).
Proof. exact (fun H M l t => conj (@counting_builds H M l t) (@counting_all H M l)). Qed.
Print Assumptions C18_counting.

(** A router mounted at the root of the mounted one: its calls count, not those before. *)
Example C18_root_example :
  let sub := [@ORoute nat nat GET (lit "/x") 1; ORouter (lit "/") [ORoute GET (lit "/y") 2]; ORoute GET (lit "/z") 3] in
  (exists t, build [ORouter (lit "/a") sub] = (t, None)) /\
  flat_map (under (lit "/a")) (counting sub) = [ORoute GET (lit "/a//y") 2; ORoute GET (lit "/a//z") 3].
Proof. cbv zeta. split; [eexists; vm_compute; reflexivity|reflexivity]. Qed.

(** [App::scope(name, ...)] is [use_router(name, ...)], so the same holds of it. *)
Theorem C18_scope : forall (H M : Type) (l : list (op H M)) t name sub,
  run_op t (OScope name sub) = run_op t (ORouter name sub) /\
  (build (l ++ [OScope name sub]) = (t, None) -> segments name <> [] -> no_star (segments name) ->
   table_of sub <> [] -> build (l ++ flat_map (under name) (counting sub)) = (t, None)).
Proof. exact (fun H M l t name sub => conj (scope_mounts t name sub) (@scope_direct H M l t name sub)). Qed.
Print Assumptions C18_scope.

Example C18_scope_example : let l := [ORoute GET (lit "/adm") 1] in let sub := [@ORoute nat nat GET (lit "users") 2; OService 3] in
  (exists t, build (l ++ [OScope (lit "admin") sub]) = (t, None)) /\ no_star (segments (lit "admin")) /\
  table_of sub <> [] /\
  flat_map (under (lit "admin")) (counting sub) = [ORoute GET (lit "admin/users") 2; OServiceTo (lit "admin") 3].
Proof.
  cbv zeta. split; [eexists; vm_compute; reflexivity|]. split; [vm_compute; intuition discriminate|].
  split; [discriminate|reflexivity].
Qed.

(** The two restrictions are needed.  A router can be mounted at a path that ends in '*',
    below which nothing can be registered directly... *)
Example C18_star : let sub := [@ORoute nat nat GET (lit "/x") 1] in
  (exists t, build [ORouter (lit "/a/*") sub] = (t, None)) /\
  forall t, build (flat_map (under (lit "/a/*")) (counting sub)) <> (t, None).
Proof. cbv zeta. split; [eexists; vm_compute; reflexivity|]. intros t E. vm_compute in E. discriminate E. Qed.

(** ... and a router without any entry splits the path of a later route. *)
Example C18_empty : let l := [@ORoute nat nat GET (lit "/abc") 1] in
  exists t t' r, build (ORouter (lit "/ab") [] :: l) = (t, None) /\ build l = (t', None) /\
    search_route t (lit "/ab/c") = LSome r /\ rr_get_route r GET = Some (Route GET 1) /\ search_route t' (lit "/ab/c") = LNone.
Proof. cbv zeta. do 3 eexists. split; [vm_compute; reflexivity|]. split; [vm_compute; reflexivity|]. vm_compute. auto. Qed.

Theorem C19_refuted :
  exists (l : list (op nat nat)) t t' path sub req r,
    built l t /\ built (l ++ [ORouter path sub]) t' /\
    search_route t req = LSome r /\ search_route t' req = LNone.
Proof. exact w_root_mount_discards. Qed.
Print Assumptions C19_refuted.

(** A router mounted at "/" takes the place of everything registered before, also for all
    calls that follow. *)
Theorem C19_root_forgets : forall (H M : Type) (l sub rest : list (op H M)) t0 t path,
  build l = (t0, None) -> build sub = (t, None) -> segments path = [] ->
  build (l ++ ORouter path sub :: rest) = build (sub ++ rest).
Proof. exact (@root_mount_forgets). Qed.
Print Assumptions C19_root_forgets.

Example C19_root_forgets_example :
  let sub := [@ORoute nat nat GET (lit "/b") 2] in
  (exists t0, build ex = (t0, None)) /\ (exists t, build sub = (t, None)) /\ segments (lit "//") = [].
Proof. cbv zeta. split; [|split]; [eexists; vm_compute; reflexivity..|reflexivity]. Qed.

(** A mount elsewhere than at "/" keeps every route found before (literal and
    parameter routes).  Missing: mounts at "/". *)
Theorem C19_partial : forall (H M : Type) (l : list (op H M)) path sub t p m h req b,
  build (l ++ [ORouter path sub]) = (t, None) -> segments path <> [] ->
  registered l p (CRoute m h) -> no_star p -> seg_match p (segments req) b ->
  exists r, search_route t req = LSome r /\ rr_get_route r m = Some (Route m h) /\
            forall n, pget n (rr_params r) = first_binding b n.
Proof. exact (@mount_keeps_all). Qed.
Print Assumptions C19_partial.

Example C19_example : (exists t, built (firstn 3 ex ++ [ORouter (lit "/admin") [ORoute GET (lit "/") 8]]) t) /\
  registered (firstn 3 ex) [lit "users"; lit ":id"] (CRoute GET 1).
Proof. split; [eexists; built_by|reg]. Qed.

(** * C20: methods *)

Theorem C20_methods_independent : forall (H M : Type) (l : list (op H M)) t t' m path h p c req,
  built l t -> built (l ++ [ORoute m path h]) t' ->
  segments path = p -> registered l p c -> c <> CNode ->
  match search_route t req, search_route t' req with
  | LNone, LNone => True
  | LSome r, LSome r' =>
      rr_mws r = rr_mws r' /\ (forall n, pget n (rr_params r) = pget n (rr_params r')) /\
      forall m', m' <> m -> rr_get_route r m' = rr_get_route r' m'
  | _, _ => False
  end.
Proof. exact (@methods_independent). Qed.
Print Assumptions C20_methods_independent.

Example C20_example : registered (firstn 3 ex) (segments (lit "users/:id/")) (CRoute GET 1) /\
  (exists t, built (firstn 3 ex) t) /\ (exists t, built (firstn 3 ex ++ [ORoute POST (lit "users/:id/") 2]) t).
Proof. split; [reg|]. split; eexists; built_by. Qed.

Theorem C20_only_registered_methods : forall (H M : Type) (l : list (op H M)) t path r m rt,
  built l t -> search_route t path = LSome r -> rr_get_route r m = Some rt ->
  exists p h b, registered l p (CRoute m h) /\ rt = Route m h /\
                resolves (table_of l) (segments path) (flat p) b.
Proof. exact (@method_registered). Qed.
Print Assumptions C20_only_registered_methods.

Example C20_only_example : built ex ex_t /\ exists r, search_route ex_t (lit "/users/7") = LSome r /\
  rr_get_route r POST = Some (Route POST 2) /\ rr_get_route r PUT = None.
Proof. split; [exact ex_built|]. eexists. split; [vm_compute; reflexivity|]. split; vm_compute; reflexivity. Qed.

(** * C21: precedence *)

Theorem C21_literal_over_wildcard : forall (H M : Type) (l : list (op H M)) t p m h q c path b b',
  built l t -> registered l p (CRoute m h) -> no_star p -> seg_match p (segments path) b ->
  registered l (q ++ [s_star]) c -> seg_match (q ++ [s_star]) (segments path) b' ->
  exists r, search_route t path = LSome r /\ rr_get_route r m = Some (Route m h) /\
    forall m' h', rr_get_route r m' = Some (Route m' h') ->
      exists p', registered l p' (CRoute m' h') /\ flat p' = flat p.
Proof. exact (@literal_over_wildcard). Qed.
Print Assumptions C21_literal_over_wildcard.

Example C21_literal_example :
  let l : list (op nat nat) := [ORoute GET (lit "/files/*") 1; ORoute GET (lit "/files/list") 2] in
  exists t r, built l t /\ registered l [lit "files"; lit "list"] (CRoute GET 2) /\ no_star [lit "files"; lit "list"] /\
    seg_match [lit "files"; lit "list"] (segments (lit "/files/list")) [] /\
    registered l ([lit "files"] ++ [s_star]) (CRoute GET 1) /\ seg_match ([lit "files"] ++ [s_star]) (segments (lit "/files/list")) [] /\
    search_route t (lit "/files/list") = LSome r /\ rr_get_route r GET = Some (Route GET 2).
Proof.
  eexists. eexists. split; [built_by|]. split; [reg|]. split; [vm_compute; intuition discriminate|].
  split; [apply sm_lit; [lit_seg|apply sm_lit; [lit_seg|apply sm_nil]]|]. split; [reg|].
  split; [apply sm_lit; [lit_seg|apply sm_star; discriminate]|]. split; vm_compute; reflexivity.
Qed.

Theorem C21_deepest_wildcard : forall (H M : Type) (l : list (op H M)) t q1 q2 c1 c2 path b1 b2,
  built l t -> no_star_mount l ->
  registered l (q2 ++ [s_star]) c2 ->
  seg_match (q1 ++ [s_star]) (segments path) b1 -> seg_match (q2 ++ [s_star]) (segments path) b2 ->
  registered l (q1 ++ [s_star]) c1 -> strict_prefix (flat q1) (flat q2) ->
  exists p c' b' r, search_route t path = LSome r /\ registered l p c' /\ c' <> CNode /\
    delivers (table_of l) (flat p) b' r /\ strict_prefix (flat q2) (flat p) /\ flat p <> flat (q1 ++ [s_star]).
Proof. exact (@deepest_wildcard). Qed.
Print Assumptions C21_deepest_wildcard.

Example C21_example : registered ex ([lit "files"] ++ [s_star]) (CRoute GET 3) /\
  registered ex ([lit "files"; lit "img"] ++ [s_star]) (CRoute GET 4) /\
  strict_prefix (flat [lit "files"]) (flat [lit "files"; lit "img"]) /\
  exists r, search_route ex_t (lit "/files/img/x/y") = LSome r /\ rr_get_route r GET = Some (Route GET 4).
Proof.
  split; [reg|]. split; [reg|]. split; [exists (Ch 105%N), [Ch 109%N; Ch 103%N]; vm_compute; reflexivity|].
  eexists. split; vm_compute; reflexivity.
Qed.

(** * C22: the bare prefix of a wildcard *)

Theorem C22_refuted :
  exists (l : list (op nat nat)) t q h path b,
    built l t /\ registered l (q ++ [s_star]) (CRoute GET h) /\ no_star q /\
    (forall p c, registered l p c -> p = q ++ [s_star]) /\
    seg_match q (segments path) b /\ search_route t path = LNone.
Proof. exact w_bare_prefix_unanswered. Qed.
Print Assumptions C22_refuted.

Theorem C22_root_refuted :
  exists (l : list (op nat nat)) t h path,
    built l t /\ registered l [s_star] (CRoute GET h) /\ (forall p c, registered l p c -> p = [s_star]) /\
    segments path = [] /\ search_route t path = LNone.
Proof. exact w_root_wildcard_unanswered. Qed.
Print Assumptions C22_root_refuted.

(** True when the last segment of the prefix is literal.  Missing: prefixes ending
    in a parameter, and the empty prefix; false for these, see [C22_never_otherwise]. *)
Theorem C22_partial : forall (H M : Type) (l : list (op H M)) t q s m h path b,
  built l t -> registered l (q ++ [s; s_star]) (CRoute m h) -> no_star q -> literal_seg s ->
  (forall p c, registered l p c -> c <> CNode -> flat p <> flat (q ++ [s])) ->
  seg_match (q ++ [s]) (segments path) b ->
  exists r, search_route t path = LSome r /\ rr_get_route r m = Some (Route m h) /\
            forall n, pget n (rr_params r) = first_binding b n.
Proof. exact (@wildcard_bare_prefix). Qed.
Print Assumptions C22_partial.

Example C22_example : registered ex ([] ++ [lit "files"; s_star]) (CRoute GET 3) /\
  (forall p c, registered ex p c -> c <> CNode -> flat p <> flat [lit "files"]) /\
  exists r, search_route ex_t (lit "/files") = LSome r /\ rr_get_route r GET = Some (Route GET 3).
Proof.
  split; [reg|]. split; [|eexists; split; vm_compute; reflexivity].
  intros p c I _. vm_compute in I. repeat (destruct I as [I|I]; [injection I as <- _; vm_compute; discriminate|]). destruct I.
Qed.

(** Never true otherwise: below an empty prefix, or one that ends in a parameter, the
    request of the prefix is not answered by the wildcard. *)
Theorem C22_never_otherwise : forall (H M : Type) (l : list (op H M)) t q c path b r,
  built l t -> registered l (q ++ [s_star]) c -> no_star q ->
  (q = [] \/ exists q' n, q = q' ++ [c_colon :: n]) -> seg_match q (segments path) b ->
  search_route t path = LSome r ->
  exists p c' b', registered l p c' /\ c' <> CNode /\ flat p <> flat (q ++ [s_star]) /\
                  delivers (table_of l) (flat p) b' r.
Proof. exact (@no_bare_prefix). Qed.
Print Assumptions C22_never_otherwise.

Example C22_never_example :
  let l : list (op nat nat) := [ORoute GET (lit "/:id/*") 1; ORoute POST (lit "/:id") 2] in
  exists t, built l t /\ registered l ([] ++ [lit ":id"; s_star]) (CRoute GET 1) /\
    seg_match [lit ":id"] (segments (lit "/5")) [(lit "id", lit "5")] /\
    exists r, search_route t (lit "/5") = LSome r /\ rr_get_route r GET = None.
Proof.
  eexists. split; [built_by|]. split; [reg|]. split.
  - apply (sm_par (lit "id") (lit "5")). constructor.
  - eexists. split; vm_compute; reflexivity.
Qed.

(** * C23: colons inside segments *)

Theorem C23_refuted :
  exists (l : list (op nat nat)) t path r p h v,
    build l = (t, None) /\ search_route t path = LSome r /\ rr_get_route r GET = Some (Route GET h) /\
    (forall p', registered l p' (CRoute GET h) -> p' = p) /\ literal p /\
    segments path <> p /\ pget (lit "b") (rr_params r) = Some v.
Proof. exact w_inner_colon. Qed.
Print Assumptions C23_refuted.

(** A route whose segments are literal (colons inside them allowed) answers its own path
    without binding anything, and where no call makes a boundary right before a colon
    inside a segment, parameters are only ever bound by segments that start with ':'.
    Missing: the second part for routers with such boundaries. *)
Theorem C23_partial : forall (H M : Type) (l : list (op H M)) t, build l = (t, None) ->
  (forall p m h path, registered l p (CRoute m h) -> literal p -> segments path = p ->
   exists r, search_route t path = LSome r /\ rr_get_route r m = Some (Route m h) /\
             forall n, pget n (rr_params r) = None) /\
  (all_tidy [] l -> forall path r n v, search_route t path = LSome r -> pget n (rr_params r) = Some v ->
   exists p c, registered l p c /\ In (c_colon :: n) p).
Proof. exact (fun H M l t B => conj (fun p m h path => @literal_path_found H M l t p m h path B) (fun A path r n v => @bound_names H M l t path r n v (conj A B))). Qed.
Print Assumptions C23_partial.

Example C23_example :
  exists t : trie nat nat, let l := [ORoute GET (lit "/docs/res:get") 1; ORoute GET (lit "/docs/res:list") 2; ORoute GET (lit "/other/:id") 3] in
  built l t /\ registered l [lit "docs"; lit "res:get"] (CRoute GET 1) /\ literal [lit "docs"; lit "res:get"] /\
  (exists r, search_route t (lit "/docs/res:get") = LSome r /\ rr_get_route r GET = Some (Route GET 1)) /\
  search_route t (lit "/docs/res/get") = LNone.
Proof.
  eexists. cbv zeta. split; [apply built_apart; [repeat constructor|vm_compute; reflexivity|vm_compute; reflexivity]|].
  split; [reg|]. split; [intros s [<-|[<-|[]]]; lit_seg|].
  split; [eexists; split; vm_compute; reflexivity|vm_compute; reflexivity].
Qed.

(** With a single route of one segment the claim holds in full. *)
Theorem C23_single_partial : forall (H M : Type) m path (h : H) s,
  segments path = [s] -> literal_seg s -> ~ In c_star s ->
  exists t, build [@ORoute H M m path h] = (t, None) /\
    forall req, (exists r, search_route t req = LSome r) <-> segments req = [s].
Proof. exact (@single_segment_exact). Qed.
Print Assumptions C23_single_partial.

Example C23_single_example : segments (lit "/a:b:c") = [lit "a:b:c"] /\ literal_seg (lit "a:b:c") /\ ~ In c_star (lit "a:b:c").
Proof. split; [reflexivity|]. split; [lit_seg|]. vm_compute. intuition discriminate. Qed.

(** * C24: rejected registrations *)

Theorem C24_refuted :
  exists (l : list (op nat nat)) t o t' pn path r h h',
    built l t /\ tidy (table_of l) o /\ run_op t o = (t', Some pn) /\
    registered l (segments path) (CRoute GET h) /\ literal (segments path) /\
    search_route t' path = LSome r /\ rr_get_route r GET = Some (Route GET h') /\ h <> h'.
Proof. exact w_duplicate_replaces. Qed.
Print Assumptions C24_refuted.

(** True unless the rejected call is a duplicate of the very route asked for. *)
Theorem C24_partial : forall (H M : Type) (l : list (op H M)) t o pn p m h path b,
  built l t -> tidy (table_of l) o -> snd (run_op t o) = Some pn -> (pn = PDuplicate -> ~ same_route o p m) ->
  registered l p (CRoute m h) -> no_star p -> seg_match p (segments path) b ->
  exists r, search_route (fst (run_op t o)) path = LSome r /\ rr_get_route r m = Some (Route m h) /\
            forall n, pget n (rr_params r) = first_binding b n.
Proof. exact (@rejected_call_keeps). Qed.
Print Assumptions C24_partial.

Example C24_kept_example : built ex ex_t /\ tidy (table_of ex) (@ORoute nat nat GET (lit "/users/me") 9) /\
  snd (run_op ex_t (ORoute GET (lit "/users/me") 9)) = Some PAmbiguous /\
  tidy (table_of ex) (@ORoute nat nat POST (lit "/users/:id") 9) /\
  snd (run_op ex_t (ORoute POST (lit "/users/:id") 9)) = Some PDuplicate /\
  ~ same_route (@ORoute nat nat POST (lit "/users/:id") 9) [lit "users"; lit ":id"] GET /\
  registered ex [lit "users"; lit ":id"] (CRoute GET 1) /\ no_star [lit "users"; lit ":id"] /\
  seg_match [lit "users"; lit ":id"] (segments (lit "/users/7")) [(lit "id", lit "7")].
Proof.
  split; [exact ex_built|]. do 2 (split; [apply tidy_check; vm_compute; reflexivity|]; split; [vm_compute; reflexivity|]).
  split; [intros (path & h & E & _); discriminate E|]. split; [reg|]. split; [vm_compute; intuition discriminate|].
  apply sm_lit; [lit_seg|]. apply (sm_par (lit "id")). apply sm_nil.
Qed.

(** The same without any condition on colons. *)
Theorem C24_any_colons_partial : forall (H M : Type) (l : list (op H M)) t o pn p m h path b,
  build l = (t, None) -> snd (run_op t o) = Some pn ->
  (pn = PDuplicate -> forall path' h', o = ORoute m path' h' -> text (segments path') <> text p) ->
  registered l p (CRoute m h) -> no_star p -> seg_match p (segments path) b ->
  exists r, search_route (fst (run_op t o)) path = LSome r /\ rr_get_route r m = Some (Route m h) /\
            forall n, pget n (rr_params r) = first_binding b n.
Proof. exact (@text_rejected_keeps). Qed.
Print Assumptions C24_any_colons_partial.

Example C24_any_colons_example :
  let l : list (op nat nat) := [ORoute GET (lit "/ac") 2; ORoute GET (lit "/a:b") 1] in
  exists t, build l = (t, None) /\ snd (run_op t (ORoute GET (lit "/ad") 3)) = Some PAmbiguous /\
    registered l [lit "a:b"] (CRoute GET 1) /\ no_star [lit "a:b"] /\ seg_match [lit "a:b"] (segments (lit "/a:b")) [] /\
    exists r, search_route (fst (run_op t (ORoute GET (lit "/ad") 3))) (lit "/a:b") = LSome r /\ rr_get_route r GET = Some (Route GET 1).
Proof.
  eexists. split; [vm_compute; reflexivity|]. split; [vm_compute; reflexivity|]. split; [reg|].
  split; [vm_compute; intuition discriminate|]. split; [apply sm_lit; [lit_seg|apply sm_nil]|].
  eexists. split; vm_compute; reflexivity.
Qed.

(** A rejected duplicate always replaces the handler. *)
Theorem C24_duplicate_replaces : forall (H M : Type) (l : list (op H M)) t p m h h' path req b,
  build l = (t, None) -> registered l p (CRoute m h) -> text (segments path) = text p -> no_star p -> seg_match p (segments req) b ->
  snd (run_op t (ORoute m path h')) = Some PDuplicate ->
  exists r, search_route (fst (run_op t (ORoute m path h'))) req = LSome r /\ rr_get_route r m = Some (Route m h') /\
            forall n, pget n (rr_params r) = first_binding b n.
Proof. exact (@text_duplicate_replaces). Qed.
Print Assumptions C24_duplicate_replaces.

Example C24_example : built ex ex_t /\ tidy (table_of ex) (@ORoute nat nat GET (lit "/users/me") 9) /\
  snd (run_op ex_t (ORoute GET (lit "/users/me") 9)) = Some PAmbiguous /\
  snd (run_op ex_t (ORoute GET (lit "/users/:id") 9)) = Some PDuplicate.
Proof. split; [exact ex_built|]. split; [apply tidy_check; vm_compute; reflexivity|]. split; vm_compute; reflexivity. Qed.

(** * C52: the reason of each panic *)

Theorem C52_panic_reason : forall (H M : Type) (l : list (op H M)) t o pn,
  built l t -> tidy (table_of l) o ->
  (snd (run_op t o) = Some pn <-> exists T', rejected (table_of l) o pn T').
Proof. exact (@panic_reason). Qed.
Print Assumptions C52_panic_reason.

Example C52_example : exists T', rejected (table_of ex) (@ORoute nat nat GET (lit "/users/me") 9) PAmbiguous T'.
Proof.
  apply (panic_reason ex ex_t _ PAmbiguous ex_built); [apply tidy_check|]; vm_compute; reflexivity.
Qed.

(** * C53: every accepted route can be reached *)

Theorem C53_refuted :
  exists (l : list (op nat nat)) t p h,
    built l t /\ registered l p (CRoute GET h) /\
    forall path r, search_route t path = LSome r -> rr_get_route r GET <> Some (Route GET h).
Proof. exact w_star_mount_never. Qed.
Print Assumptions C53_refuted.

(** Which routes this is about: no request without the character '*' finds a route that
    goes on after a '*' segment... *)
Theorem C53_after_star : forall (H M : Type) (l : list (op H M)) t q r m h,
  built l t -> registered l (q ++ s_star :: r) (CRoute m h) -> r <> [] ->
  (forall q' m', registered l q' (CRoute m' h) -> flat q' = flat (q ++ s_star :: r)) ->
  forall path res, search_route t path = LSome res -> rr_get_route res m = Some (Route m h) -> In c_star path.
Proof. exact (@star_unreached). Qed.
Print Assumptions C53_after_star.

(** A router mounted below "/a/*": its route is found when the request writes the '*'
    right behind the literal, and not otherwise. *)
Example C53_after_star_example :
  let l := [@ORouter nat nat (lit "/a/*") [ORoute GET (lit "/y") 2]] in
  built l (fst (build l)) /\ registered l ([lit "a"] ++ s_star :: [lit "y"]) (CRoute GET 2) /\
  (forall q' m', registered l q' (CRoute m' 2) -> flat q' = flat ([lit "a"] ++ s_star :: [lit "y"])) /\
  (exists r, search_route (fst (build l)) (lit "/a*/y") = LSome r /\ rr_get_route r GET = Some (Route GET 2)) /\
  search_route (fst (build l)) (lit "/a/x/y") = LNone.
Proof.
  cbv zeta. split; [built_by|]. split; [vm_compute; auto|]. split; [|split].
  - intros q m' I. vm_compute in I. destruct I as [I|[I|[]]]; [discriminate I|]. injection I as <- _. reflexivity.
  - eexists. split; vm_compute; reflexivity.
  - vm_compute. reflexivity.
Qed.

(** ... and no request at all when only parameters stand before the '*'. *)
Theorem C53_never_after_star : forall (H M : Type) (l : list (op H M)) t q r m h,
  built l t -> registered l (q ++ s_star :: r) (CRoute m h) -> r <> [] ->
  (forall s, In s q -> exists n, s = c_colon :: n) ->
  (forall q' m', registered l q' (CRoute m' h) -> flat q' = flat (q ++ s_star :: r)) ->
  forall path res, search_route t path = LSome res -> rr_get_route res m <> Some (Route m h).
Proof. exact (@pars_unreached). Qed.
Print Assumptions C53_never_after_star.

Example C53_never_example :
  let l := [@ORouter nat nat (lit "/:a/*") [ORoute GET (lit "/y") 2]] in
  built l (fst (build l)) /\ registered l ([lit ":a"] ++ s_star :: [lit "y"]) (CRoute GET 2) /\
  (forall s, In s [lit ":a"] -> exists n, s = c_colon :: n) /\
  (forall q' m', registered l q' (CRoute m' 2) -> flat q' = flat ([lit ":a"] ++ s_star :: [lit "y"])).
Proof.
  cbv zeta. split; [built_by|]. split; [vm_compute; auto|]. split; [intros s [<-|[]]; exists (lit "a"); reflexivity|].
  intros q m' I. vm_compute in I. destruct I as [I|[I|[]]]; [discriminate I|]. injection I as <- _. reflexivity.
Qed.

(** True when no router is mounted at a path ending in '*'. *)
Theorem C53_partial : forall (H M : Type) (l : list (op H M)) t p m h,
  build l = (t, None) -> no_star_mount l -> registered l p (CRoute m h) ->
  exists path r b, seg_match p (segments path) b /\ search_route t path = LSome r /\ rr_get_route r m = Some (Route m h).
Proof. exact (@route_reached_any). Qed.
Print Assumptions C53_partial.

Example C53_example : registered ex [lit "files"; s_star] (CRoute GET 3) /\
  exists path r, search_route ex_t path = LSome r /\ rr_get_route r GET = Some (Route GET 3).
Proof. split; [reg|]. exists (lit "/files/q"). eexists. split; vm_compute; reflexivity. Qed.

(** * C54: a router whose panics are caught stays consistent *)

Theorem C54_caught_panics : forall (H M : Type) (l : list (op H M)) U, caught [] l U ->
  (forall U', caught [] l U' -> U' = U) /\
  forall path,
    (exists ts ps r, resolves U (segments path) ts ps /\
       search_route (run_caught trie_new l) path = LSome r /\ delivers U ts ps r)
    \/ ((forall ts ps, ~ resolves U (segments path) ts ps) /\ search_route (run_caught trie_new l) path = LNone).
Proof. exact (@caught_lookup). Qed.
Print Assumptions C54_caught_panics.

Example C54_caught_example :
  let l : list (op nat nat) := [ORoute GET (lit "/a/:x") 1; ORoute GET (lit "/a/b") 2; ORoute GET (lit "/a/:x") 3; ORoute GET (lit "/b") 4] in
  (exists U, caught [] l U) /\
  (exists r, search_route (@run_caught nat nat trie_new l) (lit "/a/q") = LSome r /\ rr_get_route r GET = Some (Route GET 3)) /\
  exists r, search_route (@run_caught nat nat trie_new l) (lit "/b") = LSome r /\ rr_get_route r GET = Some (Route GET 4).
Proof.
  cbv zeta. split; [|split; eexists; (split; vm_compute; reflexivity)].
  apply clean_caught. apply Forall_forall. intros o I. apply cleanb_sound.
  repeat (destruct I as [<-|I]; [reflexivity|]). destruct I.
Qed.

(** [caught] only leaves out calls that make a boundary right before a colon inside a
    segment: with colons at the start of segments only, there is such a table. *)
Theorem C54_clean : forall (H M : Type) (l : list (op H M)), all_clean l -> exists U, caught [] l U.
Proof. exact (@clean_caught). Qed.
Print Assumptions C54_clean.

Example C54_example : all_clean [@ORoute nat nat GET (lit "/a/:x") 1; OServiceTo (lit "/:b") 2; ORouter (lit "/c/:d") [ORoute PUT (lit ":e/*") 3]].
Proof. repeat (constructor; [apply cleanb_sound; reflexivity|]). constructor. Qed.
