(** Additions to C58: which static files can be served.

    [utf8 s]: the bytes of the text [s]; [Forall scalar s]: it is a text; [fs]: the file
    system ([Utf8], [AppSpec]). *)

From Coq Require Import String.
From Verif Require Import Base Utf8 RouteTrie Router TableSpec PropSpec TextSpec Http App AppSpec.
From Verif Require Import RouteFacts RouteLemmas RouteWitness AppWitness ContentLemmas.
Local Open Scope string_scope.
Local Open Scope list_scope.

(** The decoder of the model accepts UTF-8 and nothing else. *)
Theorem C58_text : forall b s, from_utf8 b = Some s <-> Forall scalar s /\ b = utf8 s.
Proof. exact text_exact. Qed.
Print Assumptions C58_text.

(** The start of a PNG file is no text. *)
Example C58_text_example : from_utf8 [137; 80; 78; 71]%N = None /\ from_utf8 [195; 169]%N = Some [233%N].
Proof. split; reflexivity. Qed.

(** Full statement: every file that can be read is answered with its content.  Missing, since
    it is false: files that are not UTF-8, all of which are answered 404. *)
Theorem C58_content_partial : forall (X U A : Type) (l : list (op (handler X U A) (middleware X U A))) t v d st (rq : request X) pre rest b fs tr o content,
  build l = (t, None) -> no_root_mount l -> no_star_mount l -> In (use_static_to v d) l ->
  (forall p c, registered l p c -> c <> CNode ->
     strict_prefix (text (segments v)) (text p) -> text p = text (segments v ++ [s_star])) ->
  (forall p mw, ~ registered l p (CMw mw)) ->
  rq_method rq = GET -> segments (rq_path rq) = pre ++ rest -> rest <> [] -> seg_match (segments v) pre b ->
  fs (join_slash (segments d ++ rest)) = inl content ->
  runs (serve t st rq) tr o -> fs_ok fs tr ->
  exists resp, o = Value resp /\
    ((exists s, Forall scalar s /\ content = utf8 s) /\ h_status resp = 200%N /\ body_bytes (h_body resp) = content \/
     (forall s, Forall scalar s -> content <> utf8 s) /\ h_status resp = 404%N).
Proof. exact (@static_content). Qed.
Print Assumptions C58_content_partial.

(** Both kinds of contents, for the router and the request of [C35_example] ([PropsStatic]). *)
Example C58_content_example :
  (exists s, Forall scalar s /\ [195; 169]%N = utf8 s) /\ (forall s, Forall scalar s -> [137; 80; 78; 71]%N <> utf8 s) /\
  exists t, build [@use_static_to unit unit unit (lit "/files") (lit "public")] = (t, None) /\
  segments (lit "/files/a/b.png") = [lit "files"] ++ [lit "a"; lit "b.png"] /\ seg_match (segments (lit "/files")) [lit "files"] [].
Proof.
  split; [exists [233%N]; apply text_exact; reflexivity|].
  split; [intros s S E; pose proof (proj2 (text_exact _ _) (conj S E)) as Q; discriminate Q|].
  assert (L : forall H M (h : H), exists t : trie H M, build [ORoute GET (lit "/files" ++ [c_slash; c_star]) h] = (t, None)) by (intros; eexists; vm_compute; reflexivity).
  destruct (L _ (middleware unit unit unit) (@static_virtual_file_handler unit unit unit (lit "/files") (lit "public"))) as (t & B).
  exists t. split; [exact B|]. split; [reflexivity|]. constructor; [|constructor]. split; [discriminate|]. intros [r F]. discriminate F.
Qed.
