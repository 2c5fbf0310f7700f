(** Lemmas about middlewares that only look on. *)

From Coq Require Import String.
From Verif Require Import Base BaseFacts Utf8 RouteTrie Router TableSpec PropSpec TextSpec Http App AppSpec UserSpec ThroughSpec.
From Verif Require Import Utf8Facts TrieDen TrieRep AppLemmas AppLemmas2 AppLemmas3 AppLemmas4 AppWitness UserLemmas2 TextServed TextRoot ThroughLemmas.
Local Open Scope list_scope.

Section Back.
  Context {X U A : Type}.
  Notation context := (context X).
  Notation handler := (handler X U A).
  Notation middleware := (middleware X U A).

  Lemma back_runs (mws : list middleware) (h : handler) : Forall hands_back mws ->
    forall c tr o, (forall c', same_input c c' -> forall t r, runs (h c') t (Value r) -> answered r) ->
    runs (next_from 0 mws h c) tr o ->
    exists c' t1 t2 t3, tr = t1 ++ t2 ++ t3 /\ same_input c c' /\ runs (h c') t2 o.
  Proof.
    intros K. induction K as [|m mws Km _ IH]; intros c tr o An R; cbn [next_from] in R.
    - exists c, [], tr, []. rewrite app_nil_r. split; [reflexivity|]. split; [apply input_refl|exact R].
    - apply runs_exec in R as [(r & -> & G)|[(p & -> & G)|(t1 & t2 & n & c' & k & -> & G & R)]];
        destruct (Km _ _ _ G) as (c2 & k2 & Es & S & Kk); [discriminate Es|discriminate Es|]. injection Es as -> <- <-.
      assert (An' : forall c3, same_input c' c3 -> forall t r, runs (h c3) t (Value r) -> answered r).
      { intros c3 S3. apply An. exact (input_trans _ _ _ S S3). }
      apply runs_bind in R as [(t3 & t4 & x & -> & R1 & R2)|(p & -> & R1)];
        destruct (IH _ _ _ An' R1) as (c3 & s1 & s2 & s3 & -> & S3 & Rh); pose proof (input_trans _ _ _ S S3) as S4.
      + pose proof (An _ S4 _ _ Rh) as Ax.
        apply runs_exec in R2 as [(r & -> & G2)|[(p & -> & G2)|(t5 & t6 & n2 & c4 & k3 & -> & G2 & R3)]];
          specialize (Kk _ _ _ Ax G2); [|discriminate Kk|discriminate Kk]. injection Kk as ->.
        exists c3, (t1 ++ s1), s2, (s3 ++ t4). rewrite <- !app_assoc. auto.
      + exists c3, (t1 ++ s1), s2, s3. rewrite <- !app_assoc. auto.
  Qed.

  Lemma back_answers (mws : list middleware) (h : handler) c prog : Forall hands_back mws ->
    (forall c', same_input c c' -> forall t r, runs (h c') t (Value r) -> answered r) ->
    handles prog (next mws h c) -> answers_as h c prog.
  Proof.
    intros K An (H1 & _) tr o R. destruct (H1 _ _ R) as [(r & R1 & P)|(p & R1 & ->)];
      destruct (back_runs mws h K c _ _ An R1) as (c' & t1 & t2 & t3 & E & S & Rh); exists c', t1, t2, t3; split; auto; split; eauto.
  Qed.

  Lemma logger_back d : hands_back (@logger X U A d).
  Proof.
    intros c tr s G. unfold logger in G. inversion G as [| | |l k t2 s2 G2 E1 E2 E3| |]; subst.
    assert (S : s = Calls 0 c logger_after).
    { destruct d; [inversion G2 as [| | |l k t3 s3 G3 E1 E2 E3| |]; subst; inversion G3; reflexivity|inversion G2; reflexivity]. }
    exists c, logger_after. split; [exact S|]. split; [apply input_refl|]. intros r tr' s' An G'. unfold logger_after in G'.
    destruct r as [c'|e].
    - destruct (ctx_response c') as [r|] eqn:E; [|exfalso; exact (An c' eq_refl E)].
      inversion G' as [| | |l k t3 s3 G3 E1 E2 E3| |]; subst. inversion G3; reflexivity.
    - inversion G' as [| | |l k t3 s3 G3 E1 E2 E3| |]; subst. inversion G3; reflexivity.
  Qed.

  (** C92 *)
  Lemma onlookers (l : list (op handler middleware)) t st (rq : request X) p b h : build l = (t, None) ->
    registered l p (CRoute (rq_method rq) h) -> no_star p -> seg_match p (segments (rq_path rq)) b ->
    Forall hands_back (text_mws (table_of l) (text p)) -> answers h ->
    exists c, (forall n, pget n (ctx_params c) = first_binding b n) /\ starts rq (ctx_params c) st c /\ answers_as h c (serve t st rq).
  Proof.
    intros B I NS SM K An. destruct (own_chain l t st rq p b _ B I NS SM) as (pm & c & Pm & St & Hd). exists c.
    pose proof St as (Ep & _). rewrite Ep. split; [exact Pm|]. split; [exact St|].
    apply (back_answers (text_mws (table_of l) (text p))); [exact K| |exact Hd]. intros c' _ tr r. apply An.
  Qed.

  (** ** Static files *)

  Lemma file_answered (h : handler) c path tr r : serves_file h c path -> runs (h c) tr (Value r) -> answered r.
  Proof.
    intros S R. apply S in R as [(content & res & _ & Er & _)|(err & res & _ & Er & _)]; injection Er as ->;
      intros c' [= <-]; discriminate.
  Qed.

  Lemma file_replied (h : handler) c path fs tr o : serves_file h c path -> fs_ok fs tr ->
    (exists r, runs (h c) tr (Value r) /\ replies r o) \/ (exists p, runs (h c) tr (Panicked p) /\ o = Panicked p) ->
    exists resp, o = Value resp /\ h_headers resp = [] /\ file_reply fs path (h_status resp) (h_body resp).
  Proof.
    intros S F [(r & R1 & P)|(p & R1 & _)].
    - apply S in R1 as [(content & res & -> & Er & ->)|(err & res & -> & Er & ->)]; injection Er as ->.
      + inversion P as [| |c' r' hm H1 H2 H3 H4 H5 H6|c' r' k v H1 H2 H3]; subst; cbn in *; [congruence| |injection H1 as <-; destruct H2].
        injection H1 as <-. cbn in *. eexists. split; [reflexivity|]. cbn [h_headers h_status h_body].
        specialize (F path (inl content) (or_introl eq_refl)). unfold file_reply. split.
        * destruct hm as [|[k v] hm]; [reflexivity|]. specialize (proj1 (H4 k v) (or_introl eq_refl)). discriminate.
        * destruct (fs path) as [by_|e]; [|discriminate F]. destruct (from_utf8 by_) as [s|] eqn:Eu; [|destruct F; discriminate].
          injection F as ->. split; [reflexivity|]. rewrite body_from_bytes. apply from_utf8_exact. exact Eu.
      + inversion P as [| |c' r' hm H1 H2 H3 H4 H5 H6|c' r' k v H1 H2 H3]; subst; cbn in *; [congruence| |injection H1 as <-; destruct H2].
        injection H1 as <-. cbn in *. eexists. split; [reflexivity|]. cbn [h_headers h_status h_body].
        specialize (F path (inr err) (or_introl eq_refl)). unfold file_reply. split.
        * destruct hm as [|[k v] hm]; [reflexivity|]. specialize (proj1 (H4 k v) (or_introl eq_refl)). discriminate.
        * destruct (fs path) as [by_|e].
          -- destruct (from_utf8 by_) as [s|] eqn:Eu; [discriminate F|reflexivity].
          -- injection F as ->. split; [reflexivity|]. apply body_from_bytes.
    - apply S in R1 as [(content & res & _ & Er & _)|(err & res & _ & Er & _)]; discriminate Er.
  Qed.

  Lemma wildcard_behind (l : list (op handler middleware)) t q h path file b st (rq : request X) fs tr o :
    build l = (t, None) -> no_star_mount l -> registered l (q ++ [s_star]) (CRoute GET h) ->
    (forall p c, registered l p c -> c <> CNode -> strict_prefix (text q) (text p) -> text p = text (q ++ [s_star])) ->
    Forall hands_back (text_mws (table_of l) (text (q ++ [s_star]))) ->
    rq_method rq = GET -> rq_path rq = path -> seg_match (q ++ [s_star]) (segments path) b ->
    (forall c, rq_path (ctx_request c) = path -> serves_file h c file) ->
    runs (serve t st rq) tr o -> fs_ok fs tr ->
    exists resp, o = Value resp /\ h_headers resp = [] /\ file_reply fs file (h_status resp) (h_body resp).
  Proof.
    intros B NM I Own K G <- S SF R F.
    destruct (wildcard_own_text l t q h (rq_path rq) b B NM I Own S) as (rv & Es & Eg & Em). rewrite <- G in Eg.
    destruct (serve_runs t st rq rv _ Es Eg) as (c & St & Hd). rewrite Em in Hd. cbn [r_handler] in Hd.
    pose proof St as (_ & _ & _ & Sp & _).
    assert (Sf : forall c', same_input c c' -> serves_file h c' file).
    { intros c' (_ & _ & Ec & _). apply SF. congruence. }
    assert (Aa : answers_as h c (serve t st rq)).
    { eapply back_answers; [exact K| |exact Hd]. intros c' S' t' r'. apply file_answered with (path := file). apply Sf, S'. }
    destruct (Aa _ _ R) as (c' & t1 & t2 & t3 & -> & S' & Q).
    apply (file_replied h c' file fs t2); [apply Sf, S'| |exact Q].
    intros pa re J. apply F. apply in_app_iff. right. apply in_app_iff. left. exact J.
  Qed.

  Lemma static_behind (l : list (op handler middleware)) t v d st (rq : request X) pre rest b fs tr o :
    build l = (t, None) -> no_root_mount l -> no_star_mount l -> In (use_static_to v d) l ->
    (forall p c, registered l p c -> c <> CNode ->
       strict_prefix (text (segments v)) (text p) -> text p = text (segments v ++ [s_star])) ->
    Forall hands_back (text_mws (table_of l) (text (segments v ++ [s_star]))) ->
    rq_method rq = GET -> segments (rq_path rq) = pre ++ rest -> rest <> [] -> seg_match (segments v) pre b ->
    runs (serve t st rq) tr o -> fs_ok fs tr ->
    exists resp, o = Value resp /\ h_headers resp = [] /\
      file_reply fs (join_slash (segments d ++ rest)) (h_status resp) (h_body resp).
  Proof.
    intros B N NM I Own K G E Nr S R F. pose proof (static_registered l v d N I) as I'.
    assert (Nq : no_star (segments v)) by (eapply no_star_before; eauto).
    eapply (wildcard_behind l t (segments v) _ _ _ b st rq fs tr o B NM I' Own K G eq_refl); [|  |exact R|exact F].
    - rewrite E. apply star_match; assumption.
    - intros c Ec. apply (static_matched v d c pre rest b Nq S). rewrite Ec. exact E.
  Qed.

  Lemma dir_behind (l : list (op handler middleware)) t d st (rq : request X) pre rest b fs tr o :
    build l = (t, None) -> no_root_mount l -> no_star_mount l -> In (use_static d) l ->
    (forall p c, registered l p c -> c <> CNode ->
       strict_prefix (text (segments d)) (text p) -> text p = text (segments d ++ [s_star])) ->
    Forall hands_back (text_mws (table_of l) (text (segments d ++ [s_star]))) ->
    rq_method rq = GET -> segments (rq_path rq) = pre ++ rest -> rest <> [] -> seg_match (segments d) pre b ->
    runs (serve t st rq) tr o -> fs_ok fs tr ->
    exists resp, o = Value resp /\ h_headers resp = [] /\
      file_reply fs (join_slash (pre ++ rest)) (h_status resp) (h_body resp).
  Proof.
    intros B N NM I Own K G E Nr S R F. pose proof (static_dir_registered l d N I) as I'.
    assert (Nq : no_star (segments d)) by (eapply no_star_before; eauto).
    eapply (wildcard_behind l t (segments d) _ _ _ b st rq fs tr o B NM I' Own K G eq_refl); [|  |exact R|exact F].
    - rewrite E. apply star_match; assumption.
    - intros c Ec. rewrite <- E, <- Ec. apply dir_served.
  Qed.
End Back.

Lemma adder_back {X U A} e : hands_back (@adder X U A e).
Proof.
  intros c tr s G. unfold adder in G. inversion G; subst. do 2 eexists. split; [reflexivity|].
  split; [repeat split|]. intros r tr' s' _ G'. inversion G'; reflexivity.
Qed.

Lemma answer_answers {X U A} r : answers (@answer_with X U A r).
Proof. intros c tr x R. apply runs_ret in R as [_ E]. injection E as ->. intros c' [= <-]. discriminate. Qed.
