(** Lemmas about the contents of static files. *)

From Coq Require Import String Lia.
From Verif Require Import Base BaseFacts Utf8 Utf8Facts RouteTrie Router TableSpec PropSpec TextSpec Http App AppSpec UrlEncoded UrlSpec.
From Verif Require Import RouteFacts RouteLemmas AppLemmas AppLemmas2 AppLemmas3 AppLemmas4 TextRoot UrlLemmas.
Local Open Scope list_scope.

Lemma from_utf8_scalar : forall n b s, length b <= n -> from_utf8 b = Some s -> Forall scalar s.
Proof.
  unfold from_utf8. induction n as [|n IH]; intros b s L E.
  - destruct b; [|cbn in L; lia]. cbn in E. injection E as <-. constructor.
  - destruct b as [|x b']; [cbn in E; injection E as <-; constructor|].
    destruct (parts_cases (x :: b') ltac:(discriminate)) as [(c & r & S & Q & P)|(p & r & I & Q & P)]; rewrite P in E; cbn [all_some] in E; [|discriminate].
    destruct (all_some (utf8_parts r)) as [s'|] eqn:E'; [|discriminate]. injection E as <-. constructor; [exact S|]. apply (IH r); [|exact E'].
    apply (f_equal (@List.length N)) in Q. rewrite app_length in Q.
    assert (0 < length (utf8_char c)) by (unfold utf8_char; destruct (c <? 128)%N, (c <? 2048)%N, (c <? 65536)%N; cbn; lia). cbn [length] in *. lia.
Qed.

Lemma text_exact b s : from_utf8 b = Some s <-> Forall scalar s /\ b = utf8 s.
Proof.
  split.
  - intros E. split; [exact (from_utf8_scalar (length b) b s (le_n _) E)|]. symmetry. exact (from_utf8_exact b s E).
  - intros [S ->]. exact (from_utf8_utf8 s S).
Qed.

Section Content.
  Context {X U A : Type}.

  Lemma static_content (l : list (op (handler X U A) (middleware X U A))) t v d st (rq : request X) pre rest b fs tr o content :
    build l = (t, None) -> no_root_mount l -> no_star_mount l -> In (use_static_to v d) l ->
    (forall p c, registered l p c -> c <> CNode ->
       strict_prefix (text (segments v)) (text p) -> text p = text (segments v ++ [s_star])) ->
    (forall p mw, ~ registered l p (CMw mw)) ->
    rq_method rq = GET -> segments (rq_path rq) = pre ++ rest -> rest <> [] -> seg_match (segments v) pre b ->
    fs (join_slash (segments d ++ rest)) = inl content ->
    runs (serve t st rq) tr o -> fs_ok fs tr ->
    exists resp, o = Value resp /\
      ((exists s, Forall scalar s /\ content = utf8 s) /\ h_status resp = 200%N /\ body_bytes (h_body resp) = content \/
       (forall s, Forall scalar s -> content <> utf8 s) /\ h_status resp = 404%N).
  Proof.
    intros B N NM I Own NMw G E Nr S C R F.
    destruct (static_served_text l t v d st rq pre rest b fs tr o B N NM I Own NMw G E Nr S R F) as (resp & O & _ & Fr).
    exists resp. split; [exact O|]. unfold file_reply in Fr. rewrite C in Fr. destruct (from_utf8 content) as [s|] eqn:T.
    - left. split; [|exact Fr]. exists s. apply text_exact. exact T.
    - right. split; [|exact Fr]. intros s Sc Q. rewrite (proj2 (text_exact content s) (conj Sc Q)) in T. discriminate T.
  Qed.
End Content.
