(** Property C92, and C35, C77 and C86 behind middlewares.

    [hands_back m]: [m] calls [next] once with the input it was given and returns what comes
    back; [answers_as h c prog]: every run of [prog] ends with the reply to a run of [h] on
    the input of [c] ([ThroughSpec]); [adder] adds typed data ([UserSpec]). *)

From Coq Require Import String.
From Verif Require Import Base Utf8 RouteTrie Router TableSpec PropSpec TextSpec Http App AppSpec UserSpec ThroughSpec.
From Verif Require Import ReplySpec Names NamesSpec RouteWitness AppWitness TextWitness BackLemmas BackReply.
Local Open Scope string_scope.
Local Open Scope list_scope.

Local Ltac lit_seg := split; [discriminate|intros [? E]; discriminate].

(** * C92: middlewares that only look on *)

Theorem C92_onlookers : forall (X U A : Type) (l : list (op (handler X U A) (middleware X U A))) t st (rq : request X) p b h,
  build l = (t, None) -> registered l p (CRoute (rq_method rq) h) -> no_star p -> seg_match p (segments (rq_path rq)) b ->
  Forall hands_back (text_mws (table_of l) (text p)) -> answers h ->
  exists c, (forall n, pget n (ctx_params c) = first_binding b n) /\ starts rq (ctx_params c) st c /\
    answers_as h c (serve t st rq).
Proof. exact (@onlookers). Qed.
Print Assumptions C92_onlookers.

(** The Logger, and a middleware that adds typed data. *)
Example C92_example : let h := @answer_with nat unit unit response_ok in
  let p := [lit "a:b"; lit ":id"] in
  (forall d, hands_back (@logger nat unit unit d)) /\ hands_back (@adder nat unit unit (1%N, 5)) /\ answers h /\
  forall m : middleware nat unit unit, hands_back m -> let l := colons_of h m in
    (exists t, build l = (t, None)) /\ registered l p (CRoute GET h) /\ no_star p /\
    seg_match p (segments (lit "/a:b/7")) [(lit "id", lit "7")] /\ Forall hands_back (text_mws (table_of l) (text p)).
Proof.
  intros h p. split; [apply logger_back|]. split; [apply adder_back|]. split; [apply answer_answers|].
  intros m K l. destruct (colons_built h m) as ((t & B & _) & G & N & S & E). fold l p in B, G, N, S, E.
  split; [exists t; exact B|]. split; [exact G|]. split; [exact N|]. split; [exact S|]. rewrite E. constructor; [exact K|constructor].
Qed.

(** * C35: static files behind such middlewares *)

Theorem C35_behind : forall (X U A : Type) (l : list (op (handler X U A) (middleware X U A))) t v d st (rq : request X) pre rest b fs tr o,
  build l = (t, None) -> no_root_mount l -> no_star_mount l -> In (use_static_to v d) l ->
  (forall p c, registered l p c -> c <> CNode ->
     strict_prefix (text (segments v)) (text p) -> text p = text (segments v ++ [s_star])) ->
  Forall hands_back (text_mws (table_of l) (text (segments v ++ [s_star]))) ->
  rq_method rq = GET -> segments (rq_path rq) = pre ++ rest -> rest <> [] -> seg_match (segments v) pre b ->
  runs (serve t st rq) tr o -> fs_ok fs tr ->
  exists resp, o = Value resp /\ h_headers resp = [] /\
    file_reply fs (join_slash (segments d ++ rest)) (h_status resp) (h_body resp).
Proof. exact (@static_behind). Qed.
Print Assumptions C35_behind.

(** The Logger of [App::default], and one more middleware at /files. *)
Example C35_behind_example :
  let g : middleware nat unit unit := logger true in let a : middleware nat unit unit := adder (1%N, 5) in
  let l := [OService g; OServiceTo (lit "/files") a; use_static_to (lit "/files") (lit "public")] in
  (exists t, build l = (t, None)) /\ no_root_mount l /\ no_star_mount l /\
  (forall p c, registered l p c -> c <> CNode ->
     strict_prefix (text (segments (lit "/files"))) (text p) -> text p = text (segments (lit "/files") ++ [s_star])) /\
  text_mws (table_of l) (text (segments (lit "/files") ++ [s_star])) = [g; a] /\ Forall hands_back [g; a] /\
  segments (lit "/files/img/a.png") = [lit "files"] ++ [lit "img"; lit "a.png"] /\ seg_match (segments (lit "/files")) [lit "files"] [].
Proof.
  cbv zeta.
  assert (L : forall H M (m1 m2 : M) (h : H), (exists t : trie H M, build [OService m1; OServiceTo (lit "/files") m2;
      ORoute GET (lit "/files" ++ [c_slash; c_star]) h] = (t, None)) /\
      text_mws (table_of [OService m1; OServiceTo (lit "/files") m2; ORoute GET (lit "/files" ++ [c_slash; c_star]) h])
        (text (segments (lit "/files") ++ [s_star])) = [m1; m2]) by (intros; split; [eexists|]; vm_compute; reflexivity).
  split; [apply L|].
  split; [intros o [<-|[<-|[<-|[]]]] (path & sub & E & _); discriminate E|].
  split; [intros p [I|[I|[I|[]]]]; discriminate I|]. split.
  { intros p c [I|[I|[I|[]]]] _ (x & r & E); injection I as <- _; try reflexivity; vm_compute in E; discriminate E. }
  split; [apply L|]. split; [constructor; [apply logger_back|constructor; [apply adder_back|constructor]]|].
  split; [reflexivity|]. apply sm_lit; [lit_seg|apply sm_nil].
Qed.

Theorem C35_dir_behind : forall (X U A : Type) (l : list (op (handler X U A) (middleware X U A))) t d st (rq : request X) pre rest b fs tr o,
  build l = (t, None) -> no_root_mount l -> no_star_mount l -> In (use_static d) l ->
  (forall p c, registered l p c -> c <> CNode ->
     strict_prefix (text (segments d)) (text p) -> text p = text (segments d ++ [s_star])) ->
  Forall hands_back (text_mws (table_of l) (text (segments d ++ [s_star]))) ->
  rq_method rq = GET -> segments (rq_path rq) = pre ++ rest -> rest <> [] -> seg_match (segments d) pre b ->
  runs (serve t st rq) tr o -> fs_ok fs tr ->
  exists resp, o = Value resp /\ h_headers resp = [] /\
    file_reply fs (join_slash (pre ++ rest)) (h_status resp) (h_body resp).
Proof. exact (@dir_behind). Qed.
Print Assumptions C35_dir_behind.

Example C35_dir_behind_example :
  let g : middleware nat unit unit := logger false in let l := [OService g; use_static (lit "/public")] in
  (exists t, build l = (t, None)) /\ no_root_mount l /\ no_star_mount l /\
  (forall p c, registered l p c -> c <> CNode ->
     strict_prefix (text (segments (lit "/public"))) (text p) -> text p = text (segments (lit "/public") ++ [s_star])) /\
  text_mws (table_of l) (text (segments (lit "/public") ++ [s_star])) = [g] /\ Forall hands_back [g] /\
  segments (lit "/public/img/a.png") = [lit "public"] ++ [lit "img"; lit "a.png"] /\ seg_match (segments (lit "/public")) [lit "public"] [].
Proof.
  cbv zeta.
  assert (L : forall H M (m : M) (h : H), (exists t : trie H M, build [OService m; ORoute GET (lit "/public" ++ [c_slash; c_star]) h] = (t, None)) /\
      text_mws (table_of [OService m; ORoute GET (lit "/public" ++ [c_slash; c_star]) h]) (text (segments (lit "/public") ++ [s_star])) = [m])
    by (intros; split; [eexists|]; vm_compute; reflexivity).
  split; [apply L|].
  split; [intros o [<-|[<-|[]]] (path & sub & E & _); discriminate E|].
  split; [intros p [I|[I|[]]]; discriminate I|]. split.
  { intros p c [I|[I|[]]] _ (x & r & E); injection I as <- _; try reflexivity; vm_compute in E; discriminate E. }
  split; [apply L|]. split; [constructor; [apply logger_back|constructor]|].
  split; [reflexivity|]. apply sm_lit; [lit_seg|apply sm_nil].
Qed.

(** * C77, C86: what a handler writes, behind such middlewares *)

(** The run of the server is that of the handler ([t2]) between actions of the middlewares;
    the client receives what the handler wrote. *)
Theorem C77_behind : forall (X U A : Type) parse_name (l : list (op (handler X U A) (middleware X U A))) t st (rq : request X) p b s bl,
  build l = (t, None) -> registered l p (CRoute (rq_method rq) (reply parse_name s bl)) -> no_star p ->
  seg_match p (segments (rq_path rq)) b -> Forall hands_back (text_mws (table_of l) (text p)) -> proper s ->
  forall tr o, runs (serve t st rq) tr o -> exists t1 t2 t3, tr = t1 ++ t2 ++ t3 /\
    ((exists a r, written parse_name t2 s bl a /\ sendable a /\ o = Value r /\ received a r) \/
     (exists a, written parse_name t2 s bl a /\ ~ sendable a /\ o = Panicked PHeaderValue) \/
     (o = Panicked PUnwrapNone /\ exists n, In n (names_in s bl) /\ parse_name n = None)).
Proof. exact (@reply_behind). Qed.
Print Assumptions C77_behind.

Example C77_behind_example : let s := HBuild (RStatic (lit "<p>")) in
  let bl := [BStatus 201%N; BHeader (lit "x-id") (lit "2")] in
  let h := @reply nat unit unit Some s bl in let p := [lit "a:b"; lit ":id"] in
  forall m : middleware nat unit unit, hands_back m -> let l := colons_of h m in
  (exists t, build l = (t, None)) /\ registered l p (CRoute GET h) /\ no_star p /\
  seg_match p (segments (lit "/a:b/7")) [(lit "id", lit "7")] /\ Forall hands_back (text_mws (table_of l) (text p)) /\ proper s.
Proof.
  intros s bl h p m K l. destruct (colons_built h m) as ((t & B & _) & G & N & S & E). fold l p in B, G, N, S, E.
  split; [exists t; exact B|]. split; [exact G|]. split; [exact N|]. split; [exact S|].
  split; [rewrite E; constructor; [exact K|constructor]|]. discriminate.
Qed.

(** With header names given as text. *)
Theorem C86_behind : forall (X U A : Type) q (l : list (op (handler X U A) (middleware X U A))) t st (rq : request X) p b s bl,
  build l = (t, None) -> registered l p (CRoute (rq_method rq) (reply (header_name q) s bl)) -> no_star p ->
  seg_match p (segments (rq_path rq)) b -> Forall hands_back (text_mws (table_of l) (text p)) -> proper s ->
  Forall in_lower (typed_in s bl) ->
  forall tr o, runs (serve t st rq) tr o -> exists t1 t2 t3, tr = t1 ++ t2 ++ t3 /\
    ((exists a r, written Some t2 s bl a /\ (forall n, In n (names_in s bl) -> names_header q n) /\
        sendable a /\ o = Value r /\ received_text a r) \/
     (exists a, written Some t2 s bl a /\ (forall n, In n (names_in s bl) -> names_header q n) /\
        ~ sendable a /\ o = Panicked PHeaderValue) \/
     (o = Panicked PUnwrapNone /\ exists n, In n (names_in s bl) /\ ~ names_header q n)).
Proof. exact (@text_behind). Qed.
Print Assumptions C86_behind.

Example C86_behind_example : let s := HBuild (RStatic (lit "<p>")) in
  let bl := [BHeadersStr [(lit "Content-TYPE", lit "text/html"); (lit "X-Id", lit "1")]] in
  let h := @reply nat unit unit (header_name true) s bl in let p := [lit "a:b"; lit ":id"] in
  forall m : middleware nat unit unit, hands_back m -> let l := colons_of h m in
  (exists t, build l = (t, None)) /\ registered l p (CRoute GET h) /\ no_star p /\
  seg_match p (segments (lit "/a:b/7")) [(lit "id", lit "7")] /\ Forall hands_back (text_mws (table_of l) (text p)) /\ proper s /\
  Forall in_lower (typed_in s bl).
Proof.
  intros s bl h p m K l. destruct (colons_built h m) as ((t & B & _) & G & N & S & E). fold l p in B, G, N, S, E.
  split; [exists t; exact B|]. split; [exact G|]. split; [exact N|]. split; [exact S|].
  split; [rewrite E; constructor; [exact K|constructor]|]. split; [discriminate|]. constructor.
Qed.
