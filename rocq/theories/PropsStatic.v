(** Properties C35-C37, C56-C58: static files.

    [serves_file h c path] and [file_reply fs path status body] are defined in
    [AppSpec]; [fs] is the file system. *)

From Coq Require Import String.
From Verif Require Import Base BaseFacts Utf8 RouteTrie Router TableSpec PropSpec Http App AppSpec.
From Verif Require Import RouteFacts RouteLemmas RouteWitness AppLemmas AppLemmas2 AppLemmas3 AppLemmas4 AppWitness.
From Verif Require Import AloneSpec AloneLemmas UserSpec UserLemmas2 StaticLemmas MoreLemmas.
Local Open Scope string_scope.
Local Open Scope list_scope.
Local Ltac lit_seg := split; [discriminate|intros [? E]; discriminate].

(** * C35: the file served *)

(** In any server, whatever middlewares there are: the handler of [use_static_to v d],
    given a request whose path is [v] followed by [rest], reads [d/rest]. *)
Theorem C35_handler : forall (X U A : Type) v d (c : context X) pre rest b,
  no_star (segments v) -> seg_match (segments v) pre b ->
  segments (rq_path (ctx_request c)) = pre ++ rest ->
  serves_file (U:=U) (A:=A) (static_virtual_file_handler v d) c (join_slash (segments d ++ rest)).
Proof. exact (@static_matched). Qed.
Print Assumptions C35_handler.

(** A parameter in the virtual path. *)
Example C35_handler_example : no_star (segments (lit "/:user/files")) /\
  seg_match (segments (lit "/:user/files")) [lit "ann"; lit "files"] [(lit "user", lit "ann")] /\
  segments (rq_path (ctx_request (context_new (@get_req unit (lit "/ann/files/a/b.txt")) []))) =
    [lit "ann"; lit "files"] ++ [lit "a"; lit "b.txt"].
Proof.
  split; [vm_compute; intuition discriminate|]. split; [|vm_compute; reflexivity].
  apply (sm_par (lit "user")). apply sm_lit; [|apply sm_nil]. split; [discriminate|]. intros [r F]. discriminate F.
Qed.

(** The whole server, without middlewares, when nothing else is registered below [v]. *)
Theorem C35_served : forall (X U A : Type) (l : list (op (handler X U A) (middleware X U A))) t v d st (rq : request X) pre rest b fs tr o,
  built l t -> no_root_mount l -> no_star_mount l -> In (use_static_to v d) l ->
  (forall p c, registered l p c -> c <> CNode ->
     strict_prefix (flat (segments v)) (flat p) -> flat p = flat (segments v ++ [s_star])) ->
  (forall p mw, ~ registered l p (CMw mw)) ->
  rq_method rq = GET -> segments (rq_path rq) = pre ++ rest -> rest <> [] -> seg_match (segments v) pre b ->
  runs (serve t st rq) tr o -> fs_ok fs tr ->
  exists resp, o = Value resp /\ h_headers resp = [] /\
    file_reply fs (join_slash (segments d ++ rest)) (h_status resp) (h_body resp).
Proof. exact (@static_served). Qed.
Print Assumptions C35_served.

Example C35_example : let l := [@use_static_to unit unit unit (lit "/files") (lit "public")] in
  (exists t, built l t) /\ no_root_mount l /\ no_star_mount l /\
  (forall p c, registered l p c -> c <> CNode ->
     strict_prefix (flat (segments (lit "/files"))) (flat p) -> flat p = flat (segments (lit "/files") ++ [s_star])) /\
  (forall p mw, ~ registered l p (CMw mw)) /\
  segments (lit "/files/a/b.txt") = [lit "files"] ++ [lit "a"; lit "b.txt"] /\
  seg_match (segments (lit "/files")) [lit "files"] [].
Proof.
  intros l. assert (E : table_of l = [([lit "files"; s_star], CRoute GET (static_virtual_file_handler (lit "/files") (lit "public")))]) by reflexivity.
  split.
  { assert (L : forall H M (h : H), @one_route H M (lit "/files/*") (lit "/files/x") h) by (intros; one).
    destruct (L _ (middleware unit unit unit) (@static_virtual_file_handler unit unit unit (lit "/files") (lit "public"))) as (t & rv & B & _).
    exists t. exact B. }
  split; [intros o [<-|[]] (path & sub & F & _); discriminate F|].
  split; [intros p I; unfold registered in I; rewrite E in I; destruct I as [I|[]]; discriminate I|].
  split; [intros p c I; unfold registered in I; rewrite E in I; destruct I as [I|[]]; injection I as <- <-; reflexivity|].
  split; [intros p mw I; unfold registered in I; rewrite E in I; destruct I as [I|[]]; discriminate I|].
  split; [reflexivity|]. constructor; [|constructor]. split; [discriminate|]. intros [r F]. discriminate F.
Qed.

(** With this static directory alone: which file is read for which request, exactly. *)
Theorem C35_exact : forall (X U A : Type) v d t req file, build [@use_static_to X U A v d] = (t, None) ->
  (reads_path [@use_static_to X U A v d] req file <->
   file = join_slash (segments d ++ skipn (length (segments v)) (segments req)) /\
   exists b, alone (segments v ++ [s_star]) (segments req) b).
Proof. exact (@virtual_exact). Qed.
Print Assumptions C35_exact.

Example C35_exact_example :
  (forall X U A : Type, exists t, build [@use_static_to X U A (lit "/files") (lit "public")] = (t, None)) /\
  alone (segments (lit "/files") ++ [s_star]) (segments (lit "/files/a/b.txt")) [].
Proof.
  assert (L : forall H M (h : H), exists t : trie H M, build [ORoute GET (lit "/files/*") h] = (t, None)) by (intros; eexists; vm_compute; reflexivity).
  split; [intros X U A; apply L|].
  assert (E1 : segments (lit "/files") = [lit "files"] ++ []) by (vm_compute; reflexivity).
  assert (E2 : segments (lit "/files/a/b.txt") = [concat [lit "files"]] ++ [lit "a"; lit "b.txt"]) by (vm_compute; reflexivity).
  rewrite E1, E2. apply al_below, jn_lit; [|constructor].
  split; [discriminate|]. intros [r F]. discriminate F.
Qed.

(** * C36: the served directory is not left *)

Theorem C36_refuted : forall X U A : Type,
  exists v d req rel,
    @reads_path X U A [use_static_to v d] req (join_slash (segments d ++ rel)) /\ ~ stays_inside rel.
Proof. exact w_static_escape. Qed.
Print Assumptions C36_refuted.

(** True of requests without '..' segments. *)
Theorem C36_partial : forall (X U A : Type) v d (c : context X),
  ~ In (lit "..") (segments (rq_path (ctx_request c))) ->
  exists rel, serves_file (U:=U) (A:=A) (static_virtual_file_handler v d) c (join_slash (segments d ++ rel)) /\
    stays_inside rel.
Proof. exact (@static_inside). Qed.
Print Assumptions C36_partial.

Example C36_example : ~ In (lit "..") (segments (lit "/files/a/..b/.")) /\ stays_inside [lit "a"; lit ".."; lit "b"].
Proof. split; [vm_compute; intuition discriminate|discriminate]. Qed.

(** Every static directory can be left: every file with an ordinary name, reached by
    any number of '..' segments, can be requested. *)
Theorem C36_always : forall (X U A : Type) v d t n rel,
  built [@use_static_to X U A v d] t -> plain_path (segments v) ->
  rel <> [] -> file_segments rel -> (forall s c, In s rel -> In c s -> path_char c) ->
  exists req, deliverable req /\
    @reads_path X U A [use_static_to v d] req (join_slash (segments d ++ repeat (lit "..") n ++ rel)).
Proof. exact (@always_escapes). Qed.
Print Assumptions C36_always.

Example C36_always_example : ~ stays_inside (repeat (lit "..") 3 ++ [lit "etc"; lit "passwd"]) /\
  file_segments [lit "etc"; lit "passwd"] /\ (forall s c, In s [lit "etc"; lit "passwd"] -> In c s -> path_char c).
Proof.
  split; [intros F; apply F; reflexivity|]. split.
  - intros s [<-|[<-|[]]]; (split; [discriminate|vm_compute; intuition discriminate]).
  - intros s c [<-|[<-|[]]] J; repeat destruct J as [<-|J]; try destruct J; left; apply contains_In; reflexivity.
Qed.

(** * C37: static files of a mounted router *)

Theorem C37_refuted : forall X U A : Type,
  exists p v d rest path,
    @reads_path X U A [ORouter p [use_static_to v d]] (p ++ v ++ rest) path /\
    path <> join_slash (segments d ++ segments rest).
Proof. exact w_static_mounted. Qed.
Print Assumptions C37_refuted.

(** What is read instead, for a request of segments [pp] (mount path), [pv] (virtual
    path) and [rest]: as many segments as the mount path has are taken from the end of
    [pp ++ pv] and put before [rest]. *)
Theorem C37_partial : forall (X U A : Type) v d (c : context X) pp pv rest b,
  no_star (segments v) -> seg_match (segments v) pv b ->
  segments (rq_path (ctx_request c)) = pp ++ pv ++ rest ->
  exists u w, pp ++ pv = u ++ w /\ length w = length pp /\
    serves_file (U:=U) (A:=A) (static_virtual_file_handler v d) c (join_slash (segments d ++ w ++ rest)).
Proof. exact (@static_mounted). Qed.
Print Assumptions C37_partial.

Example C37_example : segments (lit "/app/files/x") = [lit "app"] ++ [lit "files"] ++ [lit "x"] /\
  seg_match (segments (lit "/files")) [lit "files"] [].
Proof. split; [reflexivity|]. constructor; [|constructor]. split; [discriminate|]. intros [r F]. discriminate F. Qed.

(** All that a router with one static directory reads, mounted anywhere but at the root. *)
Theorem C37_exact : forall (X U A : Type) p v d t req file,
  build [ORouter p [@use_static_to X U A v d]] = (t, None) -> segments p <> [] -> no_star (segments p) ->
  (reads_path [ORouter p [@use_static_to X U A v d]] req file <->
   file = join_slash (segments d ++ skipn (length (segments v)) (segments req)) /\
   exists b, alone (segments p ++ segments v ++ [s_star]) (segments req) b).
Proof. exact (@mounted_exact). Qed.
Print Assumptions C37_exact.

Example C37_exact_example : exists t, build [ORouter (lit "/app") [@use_static_to unit unit unit (lit "/files") (lit "./www")]] = (t, None) /\
  join_slash (segments (lit "./www") ++ skipn 1 (segments (lit "/app/files/x"))) = lit "./www/files/x" /\
  alone (segments (lit "/app") ++ segments (lit "/files") ++ [s_star]) (segments (lit "/app/files/x")) [].
Proof.
  assert (L : forall H M (h : H), exists t : trie H M,
    build [ORouter (lit "/app") [ORoute GET (lit "/files" ++ [c_slash; c_star]) h]] = (t, None)) by (intros; eexists; vm_compute; reflexivity).
  destruct (L _ (middleware unit unit unit) (@static_virtual_file_handler unit unit unit (lit "/files") (lit "./www"))) as [t B].
  exists t. split; [exact B|]. split; [reflexivity|].
  apply (al_below [lit "app"; lit "files"] [lit "app"; lit "files"]).
  apply (jn_lit (lit "app") []); [lit_seg|]. apply (jn_lit (lit "files") []); [lit_seg|]. exact jn_nil.
Qed.

(** So the file asked for is never the one read. *)
Theorem C37_never : forall (X U A : Type) p v d t req pp pv rest b b',
  build [ORouter p [@use_static_to X U A v d]] = (t, None) ->
  segments p <> [] -> no_star (segments p) -> no_star (segments v) ->
  seg_match (segments p) pp b -> seg_match (segments v) pv b' -> segments req = pp ++ pv ++ rest -> rest <> [] ->
  (exists file, reads_path [ORouter p [@use_static_to X U A v d]] req file) /\
  forall file, reads_path [ORouter p [@use_static_to X U A v d]] req file -> file <> join_slash (segments d ++ rest).
Proof. exact (@mounted_never). Qed.
Print Assumptions C37_never.

Example C37_never_example : exists t, build [ORouter (lit "/app") [@use_static_to unit unit unit (lit "/files") (lit "./www")]] = (t, None) /\
  seg_match (segments (lit "/app")) [lit "app"] [] /\ seg_match (segments (lit "/files")) [lit "files"] [] /\
  segments (lit "/app/files/x") = [lit "app"] ++ [lit "files"] ++ [lit "x"].
Proof.
  assert (L : forall H M (h : H), exists t : trie H M,
    build [ORouter (lit "/app") [ORoute GET (lit "/files" ++ [c_slash; c_star]) h]] = (t, None)) by (intros; eexists; vm_compute; reflexivity).
  destruct (L _ (middleware unit unit unit) (@static_virtual_file_handler unit unit unit (lit "/files") (lit "./www"))) as [t B].
  exists t. split; [exact B|].
  split; [constructor; [lit_seg|constructor]|]. split; [constructor; [lit_seg|constructor]|]. reflexivity.
Qed.

(** * C56: the directory given is the directory read *)

Theorem C56_refuted : forall X U A : Type,
  exists v d req rest path,
    @reads_path X U A [use_static_to v d] req path /\ req = v ++ rest /\ path <> d ++ rest.
Proof. exact w_static_absolute. Qed.
Print Assumptions C56_refuted.

(** A file outside the working directory can never be named by an absolute path: no
    static handler reads one. *)
Theorem C56_never_absolute : forall (X U A : Type) (h : handler X U A) (c : context X) tr o file r,
  (exists v d, h = static_virtual_file_handler v d) \/ h = static_dir_file_handler ->
  runs (h c) tr o -> In (EvRead file r) tr -> forall s, file <> c_slash :: s.
Proof. exact (@static_never_absolute). Qed.
Print Assumptions C56_never_absolute.

Example C56_never_absolute_example :
  exists tr o, runs (@static_virtual_file_handler unit unit unit (lit "/files") (lit "/srv/www")
                       (context_new (get_req (lit "/files//a.txt")) [])) tr o /\
    In (EvRead (lit "srv/www/a.txt") (inl (lit "text"))) tr.
Proof. eexists _, _. split; [eapply run_read with (res := inl (lit "text")), run_ret|left; vm_compute; reflexivity]. Qed.

(** True of relative directories written without redundant slashes. *)
Theorem C56_partial : forall (X U A : Type) v d (c : context X) pre rest b,
  no_star (segments v) -> seg_match (segments v) pre b -> segments (rq_path (ctx_request c)) = pre ++ rest ->
  segments d <> [] -> d = join_slash (segments d) -> rest <> [] ->
  serves_file (U:=U) (A:=A) (static_virtual_file_handler v d) c (d ++ [c_slash] ++ join_slash rest).
Proof. exact (@static_relative). Qed.
Print Assumptions C56_partial.

Example C56_example : let d := lit "static/www" in segments d <> [] /\ d = join_slash (segments d).
Proof. split; [discriminate|reflexivity]. Qed.

(** * C57: [use_static] serves only its directory *)

Theorem C57_refuted : forall X U A : Type,
  exists d req path,
    @reads_path X U A [use_static d] req path /\
    ~ In (lit "..") (segments req) /\ ~ exists rel, segments path = segments d ++ rel.
Proof. exact w_static_dir_escape. Qed.
Print Assumptions C57_refuted.

(** True of requests that match segment by segment. *)
Theorem C57_partial : forall (X U A : Type) (l : list (op (handler X U A) (middleware X U A))) t d st (rq : request X) rest fs tr o,
  built l t -> no_root_mount l -> no_star_mount l -> In (use_static d) l ->
  (forall p c, registered l p c -> c <> CNode ->
     strict_prefix (flat (segments d)) (flat p) -> flat p = flat (segments d ++ [s_star])) ->
  (forall p mw, ~ registered l p (CMw mw)) ->
  literal (segments d) -> rq_method rq = GET -> segments (rq_path rq) = segments d ++ rest -> rest <> [] ->
  ~ In (lit "..") rest ->
  runs (serve t st rq) tr o -> fs_ok fs tr ->
  stays_inside rest /\
  exists resp, o = Value resp /\ h_headers resp = [] /\
    file_reply fs (join_slash (segments d ++ rest)) (h_status resp) (h_body resp).
Proof. exact (@static_dir_inside). Qed.
Print Assumptions C57_partial.

Example C57_example : let l := [@use_static unit unit unit (lit "public")] in
  (exists t, built l t) /\ no_root_mount l /\ no_star_mount l /\
  (forall p c, registered l p c -> c <> CNode ->
     strict_prefix (flat (segments (lit "public"))) (flat p) -> flat p = flat (segments (lit "public") ++ [s_star])) /\
  (forall p mw, ~ registered l p (CMw mw)) /\ literal (segments (lit "public")) /\
  segments (lit "/public/a/b.txt") = segments (lit "public") ++ [lit "a"; lit "b.txt"] /\ ~ In (lit "..") [lit "a"; lit "b.txt"].
Proof.
  intros l. split.
  { assert (L : forall H M (h : H), @one_route H M (lit "public/*") (lit "/public/a") h) by (intros; one).
    destruct (L _ (middleware unit unit unit) (@static_dir_file_handler unit unit unit)) as (t & rv & B & _). exists t. exact B. }
  split; [intros o [<-|[]] (path & sub & E & _); discriminate E|].
  split; [intros p [I|[]]; discriminate I|].
  split; [intros p c [I|[]] _ _; injection I as <- _; reflexivity|].
  split; [intros p mw [I|[]]; discriminate I|].
  split; [intros s [<-|[]]; split; [discriminate|]; intros [r F]; discriminate F|].
  split; [reflexivity|]. vm_compute. intuition discriminate.
Qed.

(** With this directory alone: the file read is the one of the request's own path; the
    requests answered are those of [alone], where slashes inside the directory may be
    left out. *)
Theorem C57_exact : forall (X U A : Type) d t req file, build [@use_static X U A d] = (t, None) ->
  (reads_path [@use_static X U A d] req file <->
   file = join_slash (segments req) /\ exists b, alone (segments d ++ [s_star]) (segments req) b).
Proof. exact (@dir_exact). Qed.
Print Assumptions C57_exact.

Example C57_exact_example :
  (forall X U A : Type, exists t, build [@use_static X U A (lit "a/b")] = (t, None)) /\
  alone (segments (lit "a/b") ++ [s_star]) (segments (lit "/ab/secret")) [].
Proof.
  assert (L : forall H M (h : H), exists t : trie H M, build [ORoute GET (lit "a/b/*") h] = (t, None)) by (intros; eexists; vm_compute; reflexivity).
  split; [intros X U A; apply L|].
  assert (E1 : segments (lit "a/b") = [lit "a"; lit "b"] ++ []) by (vm_compute; reflexivity).
  assert (E2 : segments (lit "/ab/secret") = [concat [lit "a"; lit "b"]] ++ [lit "secret"]) by (vm_compute; reflexivity).
  rewrite E1, E2. apply al_below, jn_lit; [|constructor].
  split; [discriminate|]. intros [r F]. discriminate F.
Qed.

(** * C58: files are delivered byte for byte *)

Theorem C58_refuted : forall X U A : Type,
  exists v d req t fs content,
    @built _ (middleware X U A) [use_static_to v d] t /\
    (forall path, fs path = inl content) /\
    (exists tr resp, fs_ok fs tr /\ runs (serve t None (@get_req X req)) tr (Value resp)) /\
    forall tr resp, fs_ok fs tr -> runs (serve t None (@get_req X req)) tr (Value resp) -> h_status resp = 404%N.
Proof. exact w_static_binary. Qed.
Print Assumptions C58_refuted.

(** True of files that are UTF-8 text. *)
Theorem C58_partial : forall (X U A : Type) (l : list (op (handler X U A) (middleware X U A))) t v d st (rq : request X) pre rest b fs tr o s,
  built l t -> no_root_mount l -> no_star_mount l -> In (use_static_to v d) l ->
  (forall p c, registered l p c -> c <> CNode ->
     strict_prefix (flat (segments v)) (flat p) -> flat p = flat (segments v ++ [s_star])) ->
  (forall p mw, ~ registered l p (CMw mw)) ->
  rq_method rq = GET -> segments (rq_path rq) = pre ++ rest -> rest <> [] -> seg_match (segments v) pre b ->
  Forall scalar s -> fs (join_slash (segments d ++ rest)) = inl (utf8 s) ->
  runs (serve t st rq) tr o -> fs_ok fs tr ->
  exists resp, o = Value resp /\ h_status resp = 200%N /\ body_bytes (h_body resp) = utf8 s.
Proof. exact (@static_text). Qed.
Print Assumptions C58_partial.

Example C58_example : Forall scalar [104; 233; 8364; 128512]%N /\ utf8 [104; 233; 8364; 128512]%N <> [].
Proof. split; [|discriminate]. repeat (constructor; [unfold scalar; vm_compute; intuition congruence|]). constructor. Qed.
