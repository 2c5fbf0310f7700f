(** Lemmas about request handling: a middleware added to the root of a server. *)

From Coq Require Import String.
From Verif Require Import Base BaseFacts Utf8 Utf8Facts RouteTrie Router TableSpec PropSpec TrieDen TrieIns TrieRep TrieBuild TrieSearch TrieLookup TrieTotal.
From Verif Require Import RouteFacts RouteLemmas RouteLemmas2 RouteLemmas3 RouteLemmas4.
From Verif Require Import Http App AppSpec AppLemmas AppLemmas2.
Local Open Scope list_scope.

Section RootMw.
  Context {H M : Type} (mw : M).
  Notation table := (table H M).
  Notation op := (op H M).
  Let e : entry H M := ([], CMw mw).

  Lemma not_ambiguous_nil_r p : ~ ambiguous p [].
  Proof. intros (w & a & b & (_ & _ & [x E]) & _). destruct w; discriminate. Qed.

  Lemma seg_toks_ne s : s <> [] -> seg_toks s <> [].
  Proof.
    intros N. destruct s as [|c r]; [congruence|]. cbn [seg_toks]. destruct (N.eqb c c_colon); [discriminate|].
    destruct (str_eqb (c :: r) s_star); discriminate.
  Qed.

  Lemma flat_segments_ne path : segments path <> [] -> flat (segments path) <> [].
  Proof.
    intros N F. destruct (segments path) as [|s p] eqn:E; [congruence|].
    unfold flat in F. cbn [flat_map] in F. apply app_eq_nil in F as [F _].
    apply (seg_toks_ne s); [|exact F]. apply (segments_ok path). rewrite E. left. reflexivity.
  Qed.

  Lemma root_has_value (T : table) ts : ts <> [] -> (has_value (e :: T) ts <-> has_value T ts).
  Proof.
    intros N. unfold has_value. cbn [routes_at mws_at flat_map fst snd e].
    destruct (toks_eq_dec (flat []) ts) as [E|_]; [exfalso; apply N; symmetry; exact E|]. reflexivity.
  Qed.

  Lemma root_boundary (T : table) ts : boundary (e :: T) ts <-> boundary T ts.
  Proof.
    split.
    - intros [E|[(p & c & i & [I|I] & E)|(p & c & q & d & a & b & I & J & PA)]].
      + left. exact E.
      + injection I as <- <-. left. rewrite E. destruct i; reflexivity.
      + right. left. eauto.
      + right. right. destruct PA as (N & [x Ex] & [y Ey]).
        destruct I as [I|I]; [injection I as <- <-; destruct ts; discriminate|].
        destruct J as [J|J]; [injection J as <- <-; destruct ts; discriminate|].
        exists p, c, q, d, a, b. split; [exact I|]. split; [exact J|]. split; [exact N|]. split; eexists; eauto.
    - intros [E|[(p & c & i & I & E)|(p & c & q & d & a & b & I & J & PA)]].
      + left. exact E.
      + right. left. exists p, c, i. split; [right; exact I|exact E].
      + right. right. exists p, c, q, d, a, b. split; [right; exact I|]. split; [right; exact J|exact PA].
  Qed.

  Lemma root_reads (T : table) pre R ts ps : reads (e :: T) pre R ts ps <-> reads T pre R ts ps.
  Proof.
    split; intros D; induction D as [pre|pre c us R ts ps Bd D IH|pre n s R ts ps Bd D IH]; constructor; auto;
      apply root_boundary; exact Bd.
  Qed.

  Lemma reads_ne (T : table) pre R ts ps : reads T pre R ts ps -> R <> [] -> ts <> [].
  Proof. intros D N. destruct D; congruence || discriminate. Qed.

  Lemma root_exact (T : table) R ts ps : R <> [] -> (exact_hit (e :: T) R ts ps <-> exact_hit T R ts ps).
  Proof.
    intros N. unfold exact_hit. rewrite root_reads. split; intros [D V]; (split; [exact D|]);
      apply (root_has_value T ts (reads_ne _ _ _ _ _ D N)); exact V.
  Qed.

  Lemma app_ne {B} (a : list B) x r : a ++ x :: r <> [].
  Proof. destruct a; discriminate. Qed.

  Lemma root_below (T : table) R ts ps : below_hit (e :: T) R ts ps <-> below_hit T R ts ps.
  Proof.
    split; intros (R0 & ts0 & c & us & E & D & Bd & NV & Et & V); exists R0, ts0, c, us;
      (split; [exact E|]); (split; [apply root_reads; exact D|]); (split; [apply root_boundary; exact Bd|]).
    - split; [intros V'; exact (NV (proj2 (root_has_value T _ (app_ne _ _ _)) V'))|]. split; [exact Et|].
      apply root_has_value; [subst ts; apply app_ne|exact V].
    - split; [intros V'; exact (NV (proj1 (root_has_value T _ (app_ne _ _ _)) V'))|]. split; [exact Et|].
      apply root_has_value; [subst ts; apply app_ne|exact V].
  Qed.

  Lemma root_wild (T : table) R k ts ps : wild_hit (e :: T) R k ts ps <-> wild_hit T R k ts ps.
  Proof.
    split; intros (L & ts0 & D & E & Bd); (split; [exact L|]); exists ts0;
      (split; [apply root_reads; exact D|]); (split; [exact E|]); apply root_boundary; exact Bd.
  Qed.

  Lemma root_resolves (T : table) R ts ps : R <> [] -> (resolves (e :: T) R ts ps <-> resolves T R ts ps).
  Proof.
    intros N. split; intros [D|D|k W V NE NB MX].
    - apply res_exact. apply root_exact; assumption.
    - apply res_below. apply root_below; assumption.
    - apply (res_wild _ _ _ _ k); [apply root_wild; exact W| | | |].
      + destruct W as (_ & ts0 & _ & -> & _). exact (proj1 (root_has_value T _ (app_ne _ _ _)) V).
      + intros ts' ps' X. apply (NE ts' ps'). apply root_exact; assumption.
      + intros ts' ps' X. apply (NB ts' ps'). apply root_below. exact X.
      + intros k' ts' ps' X. apply (MX k' ts' ps'). apply root_wild. exact X.
    - apply res_exact. apply root_exact; assumption.
    - apply res_below. apply root_below; assumption.
    - apply (res_wild _ _ _ _ k); [apply root_wild; exact W| | | |].
      + destruct W as (_ & ts0 & _ & -> & _). apply root_has_value; [apply app_ne|exact V].
      + intros ts' ps' X. apply (NE ts' ps'). exact (proj1 (root_exact T R ts' ps' N) X).
      + intros ts' ps' X. apply (NB ts' ps'). apply root_below. exact X.
      + intros k' ts' ps' X. apply (MX k' ts' ps'). apply root_wild. exact X.
  Qed.

  Lemma resolves_nil (T : table) ts ps : resolves T [] ts ps <-> ts = [] /\ ps = [] /\ has_value T [].
  Proof.
    split.
    - intros [[D V]|(R0 & ts0 & c & us & E & _)|k (L & _) _ _ _ _].
      + inversion D; subst. auto.
      + exfalso. apply (app_ne R0 (spell (Ch c :: us)) []). symmetry. exact E.
      + cbn in L. lia.
    - intros (-> & -> & V). apply res_exact. split; [constructor|exact V].
  Qed.

  Lemma root_after (T : table) o : ~ root_mount o -> after (e :: T) o = e :: after T o.
  Proof. intros N. rewrite (after_flat (e :: T)), (after_flat T) by exact N. reflexivity. Qed.

  Lemma root_accepted (T : table) o : ~ root_mount o -> accepted T o -> accepted (e :: T) o.
  Proof.
    assert (UA : forall p, unambiguous T p -> unambiguous (e :: T) p).
    { intros p U q c [I|I]; [injection I as <- <-; apply not_ambiguous_nil_r|exact (U q c I)]. }
    intros N A. destruct o as [m path h|path mw'|mw'|path sub].
    - cbn [accepted] in *. destruct A as (S & U & D). auto.
    - cbn [accepted] in *. destruct A as (S & U). auto.
    - exact I.
    - rewrite accepted_router in *. destruct A as (AS & S & A). split; [exact AS|]. split; [exact S|].
      destruct A as [A|(U & V & W)]; [left; exact A|]. right. split; [auto|]. split.
      + intros V'. apply V. apply root_has_value; [|exact V']. apply flat_segments_ne.
        intros E. apply N. exists path, sub. auto.
      + intros (q & c & [I|I] & (x & y & E)).
        * injection I as <- <-. destruct (flat (segments path)); discriminate E.
        * apply W. exists q, c. split; [exact I|]. exists x, y. exact E.
  Qed.

  Lemma root_all_accepted l : forall T : table, no_root_mount l -> all_accepted T l -> all_accepted (e :: T) l.
  Proof.
    induction l as [|o l IH]; intros T N A; [exact I|]. cbn [all_accepted] in *. destruct A as [A B].
    assert (No : ~ root_mount o) by (apply N; left; reflexivity).
    split; [apply root_accepted; assumption|]. rewrite root_after by exact No. apply IH; [|exact B].
    intros x J. apply N. right. exact J.
  Qed.

  Lemma root_table (l : list op) : no_root_mount l -> table_of (OService mw :: l) = e :: table_of l.
  Proof.
    intros N. unfold table_of. cbn [afters]. rewrite !afters_flat by exact N. reflexivity.
  Qed.

  Lemma root_built (l : list op) t : built l t -> no_root_mount l -> exists t', built (OService mw :: l) t'.
  Proof.
    intros B N. apply tidy_history_built.
    - cbn [all_tidy tidy]. split; [exact I|]. apply (tidy_within (table_of l)).
      + apply (rep_apart t). apply built_rep. exact B.
      + exact N.
      + eapply tidy_subs. apply B.
      + change (covered (table_of (OService mw :: l)) (table_of l)). rewrite root_table by exact N.
        intros p c [J|J]; [left; injection J as <- _; reflexivity|right; eauto].
    - cbn [all_accepted]. split; [exact I|]. apply (root_all_accepted l []); [exact N|].
      destruct (built_rep l t B) as (_ & _ & A). exact A.
  Qed.

  Lemma root_mws (T : table) ts : mws_for (e :: T) ts = mw :: mws_for T ts.
  Proof.
    unfold mws_for. cbn [mws_at flat_map fst snd e].
    destruct (toks_eq_dec (flat []) []) as [_|N]; [|exfalso; apply N; reflexivity]. cbn [app]. do 2 f_equal.
    assert (P : forall p, In p (prefixes_down [] ts) -> p <> []).
    { intros p I ->. apply prefixes_down_len in I. cbn in I. lia. }
    induction (prefixes_down [] ts) as [|p l IH]; [reflexivity|]. cbn [flat_map].
    rewrite IH by (intros q I; apply P; right; exact I).
    f_equal. unfold mws_at. cbn [flat_map fst snd e].
    destruct (toks_eq_dec (flat []) p) as [E|_]; [|reflexivity].
    exfalso. apply (P p); [left; reflexivity|]. symmetry. exact E.
  Qed.

  Lemma root_lookup (l : list op) t t' path : built l t -> no_root_mount l -> built (OService mw :: l) t' ->
    (exists ts ps r r', resolves (table_of l) (segments path) ts ps /\
       search_route t path = LSome r /\ search_route t' path = LSome r' /\
       rr_mws r = mws_for (table_of l) ts /\ rr_mws r' = mw :: rr_mws r /\ rr_params r' = rr_params r /\
       forall m, rr_get_route r' m = rr_get_route r m /\
         rr_get_route r m = option_map (Route m) (handler_for m (routes_at (table_of l) ts))) \/
    (search_route t path = LNone /\
     (search_route t' path = LNone \/
      exists r', search_route t' path = LSome r' /\ forall m, rr_get_route r' m = None)).
  Proof.
    intros B N B'. destruct (built_rep _ _ B) as (R & _ & _). destruct (built_rep _ _ B') as (R' & _ & _).
    rewrite (root_table l N) in R'.
    assert (K : forall ts ps, resolves (table_of l) (segments path) ts ps -> resolves (e :: table_of l) (segments path) ts ps).
    { intros ts ps RS. destruct (segments path) as [|s p] eqn:E.
      - apply resolves_nil in RS as (-> & -> & V). apply resolves_nil. split; [reflexivity|]. split; [reflexivity|].
        right. cbn [mws_at flat_map fst snd e]. destruct (toks_eq_dec (flat []) []) as [_|X]; [discriminate|]. exfalso. apply X. reflexivity.
      - apply root_resolves; [discriminate|exact RS]. }
    destruct (search_spec t _ R path) as [(ts & ps & RS & E)|(NR & E)].
    - left. exists ts, ps, (answer (table_of l) ts ps), (answer (e :: table_of l) ts ps).
      split; [exact RS|]. split; [exact E|]. split; [apply (resolves_search t' _ path ts ps R' (K _ _ RS))|].
      split; [reflexivity|]. split; [apply root_mws|]. split; [reflexivity|]. intros m.
      destruct (answer_delivers (table_of l) ts ps) as (_ & D & _). split; [|apply D].
      destruct (answer_delivers (e :: table_of l) ts ps) as (_ & D' & _). rewrite D, D'. reflexivity.
    - right. split; [exact E|]. destruct (search_spec t' _ R' path) as [(ts & ps & RS & E')|(_ & E')]; [|left; exact E'].
      right. exists (answer (e :: table_of l) ts ps). split; [exact E'|]. intros m.
      destruct (answer_delivers (e :: table_of l) ts ps) as (_ & D & _). rewrite D.
      destruct (segments path) as [|s p] eqn:Es.
      + apply resolves_nil in RS as (-> & -> & V). cbn [routes_at flat_map fst snd e].
        destruct (handler_for m (routes_at (table_of l) [])) as [h|] eqn:Eh.
        * exfalso. apply (NR [] []). apply resolves_nil. split; [reflexivity|]. split; [reflexivity|]. left.
          intros X. rewrite X in Eh. discriminate Eh.
        * cbn in Eh |- *. unfold routes_at in Eh. rewrite Eh. reflexivity.
      + exfalso. refine (NR _ _ (proj1 (root_resolves _ _ _ _ _) RS)). discriminate.
  Qed.
End RootMw.

Section RootServe.
  Context {X U A : Type}.
  Notation handler := (handler X U A).
  Notation middleware := (middleware X U A).

  Lemma root_serve (mw : middleware) (l : list (op handler middleware)) t t' st (rq : request X) :
    built l t -> no_root_mount l -> built (OService mw :: l) t' ->
    (exists ts ps h pm c, resolves (table_of l) (segments (rq_path rq)) ts ps /\
       handler_for (rq_method rq) (routes_at (table_of l) ts) = Some h /\
       (forall n, pget n pm = first_binding ps n) /\ starts rq pm st c /\
       serve t st rq = bind (next (mws_for (table_of l) ts) h c) finish /\
       serve t' st rq = bind (next (mw :: mws_for (table_of l) ts) h c) finish) \/
    (serve t st rq = Ret page_not_found /\ serve t' st rq = Ret page_not_found).
  Proof.
    intros B N B'. destruct (root_lookup mw l t t' (rq_path rq) B N B')
      as [(ts & ps & r & r' & RS & E & E' & Em & Em' & Ep & G)|(E & E')].
    - destruct (G (rq_method rq)) as [G1 G2].
      destruct (handler_for (rq_method rq) (routes_at (table_of l) ts)) as [h|] eqn:Eh; cbn [option_map] in G2.
      + left. exists ts, ps, h, (rr_params r), (first_context rq (rr_params r) st). split; [exact RS|]. split; [exact Eh|].
        split.
        { destruct (some_lookup l t (rq_path rq) ts ps B RS) as (rv & E2 & _ & _ & Dp). rewrite E in E2. injection E2 as <-. exact Dp. }
        split; [apply first_context_starts|].
        rewrite (serve_matched t st rq r _ E G2). rewrite G2 in G1. rewrite (serve_matched t' st rq r' _ E' G1).
        rewrite Em', Em, Ep. split; reflexivity.
      + right. split; apply serve_unmatched; right; [exists r|exists r']; split; auto. rewrite G1. exact G2.
    - right. split; apply serve_unmatched; [left; exact E|]. destruct E' as [E'|(r' & E' & G)]; [left; exact E'|].
      right. exists r'. split; [exact E'|apply G].
  Qed.

  Lemma handles_finish (chain : comp U A (result X)) : handles (bind chain finish) chain.
  Proof.
    split; [|split].
    - intros tr o R. apply runs_bind in R as [(t1 & t2 & r & -> & R1 & R2)|(p & -> & R)].
      + apply finish_runs in R2 as [-> P]. rewrite app_nil_r. eauto.
      + eauto.
    - intros tr r R. destruct (finish_replies (U:=U) (A:=A) r) as (o & R2 & P). exists o. split; [|exact P].
      apply runs_bind. left. exists tr, [], r. rewrite app_nil_r. auto.
    - intros tr p R. apply runs_bind. right. eauto.
  Qed.

  Lemma root_wraps (mw : middleware) (l : list (op handler middleware)) t :
    built l t -> no_root_mount l ->
    exists t', built (OService mw :: l) t' /\ forall st (rq : request X),
      (exists ts ps h pm c, resolves (table_of l) (segments (rq_path rq)) ts ps /\
         handler_for (rq_method rq) (routes_at (table_of l) ts) = Some h /\
       (forall n, pget n pm = first_binding ps n) /\ starts rq pm st c /\
         handles (serve t st rq) (next (mws_for (table_of l) ts) h c) /\
         handles (serve t' st rq) (next (mw :: mws_for (table_of l) ts) h c)) \/
      (forall tr o,
         (runs (serve t st rq) tr o <-> tr = [] /\ o = Value (HttpResponse 404%N [] (Body [utf8 (lit "404 Not Found")] false))) /\
         (runs (serve t' st rq) tr o <-> tr = [] /\ o = Value (HttpResponse 404%N [] (Body [utf8 (lit "404 Not Found")] false)))).
  Proof.
    intros B N. destruct (root_built mw l t B N) as [t' B']. exists t'. split; [exact B'|]. intros st rq.
    destruct (root_serve mw l t t' st rq B N B') as [(ts & ps & h & pm & c & RS & Eh & Pm & St & E & E')|(E & E')].
    - left. exists ts, ps, h, pm, c. split; [exact RS|]. split; [exact Eh|]. split; [exact Pm|]. split; [exact St|].
      rewrite E, E'. split; apply handles_finish.
    - right. intros tr o. rewrite E, E'. split; apply runs_ret.
  Qed.
End RootServe.

(** ** The logger on a whole server *)

Section Logged.
  Context {X U A : Type}.
  Notation handler := (handler X U A).
  Notation middleware := (middleware X U A).

  Lemma chain_answers mws (h : handler) : answers h -> Forall keeps_answer mws ->
    forall c tr r, runs (next mws h c) tr (Value r) -> answered r.
  Proof.
    intros Ah. remember (length mws) as len eqn:El. assert (L : length mws <= len) by lia. clear El. revert mws L.
    induction len as [|len IH]; intros [|m mws] L F c tr r R; cbn [length] in L; try (exact (Ah c tr r R)); [lia|].
    inversion F as [|? ? Hm F']; subst. rewrite next_cons in R. specialize (Hm c). revert Hm tr r R.
    generalize (m c). intros q. induction q as [r0|n c' k IHq|l0 k IHq|path k IHq|u k IHq|e]; intros Hm tr r R; cbn [exec keeps] in *.
    - apply runs_ret in R as [_ E]. injection E as ->. exact Hm.
    - rewrite next_from_skip in R. apply bind_value in R as (t1 & t2 & r1 & -> & R1 & R2).
      refine (IHq r1 (Hm r1 _) _ _ R2). refine (IH (skipn n mws) _ _ c' _ _ R1); [rewrite skipn_length; lia|].
      apply Forall_forall. intros x I. apply (proj1 (Forall_forall _ _) F'). rewrite <- (firstn_skipn n mws).
      apply in_or_app. right. exact I.
    - apply runs_print in R as (t & -> & R). exact (IHq Hm _ _ R).
    - apply runs_read in R as (res & t & -> & R). exact (IHq res (Hm res) _ _ R).
    - inversion R; subst. eapply (IHq a (Hm a)). eassumption.
    - apply runs_crash in R as [_ E]. discriminate E.
  Qed.

  Lemma table_handler (l : list (op handler middleware)) m ts h :
    handler_for m (routes_at (table_of l) ts) = Some h -> exists p, registered l p (CRoute m h).
  Proof.
    intros E. apply handler_for_in in E. apply in_routes_at in E as (p & I & _). exists p. exact I.
  Qed.

  Lemma table_mws (l : list (op handler middleware)) ts mw :
    In mw (mws_for (table_of l) ts) -> exists p, registered l p (CMw mw).
  Proof. intros I. apply in_mws_for in I as (p & I & _). exists p. exact I. Qed.

  Lemma default_transparent d (l : list (op handler middleware)) t :
    built l t -> no_root_mount l ->
    (forall p m h, registered l p (CRoute m h) -> answers h) ->
    (forall p mw, registered l p (CMw mw) -> keeps_answer mw) ->
    exists t', built (app_default d ++ l) t' /\ forall st rq,
      (forall tr o, runs (serve t st rq) tr o ->
         exists tr', runs (serve t' st rq) tr' o /\ unlogged tr' = unlogged tr) /\
      (forall tr o, runs (serve t' st rq) tr o ->
         exists tr', runs (serve t st rq) tr' o /\ unlogged tr' = unlogged tr).
  Proof.
    intros B N Ah Am. destruct (root_built (logger d) l t B N) as [t' B']. exists t'. split; [exact B'|].
    intros st rq. destruct (root_serve (logger d) l t t' st rq B N B')
      as [(ts & ps & h & pm & c & RS & Eh & Pm & St & E & E')|(E & E')].
    - rewrite E, E'. set (mws := mws_for (table_of l) ts) in *.
      assert (AN : forall tr' c', runs (next mws h c) tr' (Value (inl c')) -> ctx_response c' <> None).
      { intros tr' c' R. apply (chain_answers mws h) with (c := c) (tr := tr') (r := inl c'); auto.
        - destruct (table_handler l _ _ _ Eh) as [p I]. exact (Ah _ _ _ I).
        - apply Forall_forall. intros mw I. destruct (table_mws l _ _ I) as [p J]. exact (Am _ _ J). }
      split; intros tr o R.
      + apply runs_bind in R as [(t1 & t2 & r & -> & R1 & R2)|(p & -> & R1)];
          apply (proj1 (logger_first d mws h c _ _ AN)) in R1 as (t1' & R1 & Eu).
        * exists (t1' ++ t2). split; [|rewrite !unlogged_app, Eu; reflexivity]. apply runs_bind. left. eauto 7.
        * exists t1'. split; [|exact Eu]. apply runs_bind. right. eauto.
      + apply runs_bind in R as [(t1 & t2 & r & -> & R1 & R2)|(p & -> & R1)];
          apply (proj2 (logger_first d mws h c _ _ AN)) in R1 as (t1' & R1 & Eu).
        * exists (t1' ++ t2). split; [|rewrite !unlogged_app, Eu; reflexivity]. apply runs_bind. left. eauto 7.
        * exists t1'. split; [|exact Eu]. apply runs_bind. right. eauto.
    - rewrite E, E'. split; intros tr o R; exists tr; auto.
  Qed.
End Logged.

(** ** Static files, end to end *)

Section StaticServe.
  Context {X U A : Type}.
  Notation handler := (handler X U A).
  Notation middleware := (middleware X U A).

  Lemma serve_file_value (t : trie handler middleware) st (rq : request X) rv h path tr o :
    search_route t (rq_path rq) = LSome rv -> rr_mws rv = [] ->
    rr_get_route rv (rq_method rq) = Some (Route (rq_method rq) h) ->
    (forall c, rq_path (ctx_request c) = rq_path rq -> serves_file h c path) ->
    runs (serve t st rq) tr o -> exists resp, o = Value resp.
  Proof.
    intros E M G S R. destruct (serve_runs t st rq rv _ E G) as (c & St & A1 & _ & _).
    rewrite M in A1. cbn [next next_from r_handler] in A1. destruct St as (_ & _ & _ & Sp & _).
    destruct (A1 _ _ R) as [(r & R1 & P)|(p & R1 & _)].
    - apply (S c Sp) in R1 as [(content & res & -> & Er & ->)|(err & res & -> & Er & ->)]; injection Er as ->;
        (inversion P as [| |c' r' hm H1 H2 H3 H4 H5 H6|c' r' k v H1 H2 H3]; subst; [eauto|eauto|];
         injection H1 as <-; destruct H2).
    - apply (S c Sp) in R1 as [(content & res & -> & Er & ->)|(err & res & -> & Er & ->)]; discriminate Er.
  Qed.

  Lemma static_segments v : segments (v ++ [c_slash; c_star]) = segments v ++ [s_star].
  Proof. rewrite segments_app. reflexivity. Qed.

  Lemma static_registered (l : list (op handler middleware)) v d : no_root_mount l -> In (use_static_to v d) l ->
    registered l (segments v ++ [s_star]) (CRoute GET (static_virtual_file_handler v d)).
  Proof.
    intros N I. unfold registered, table_of. rewrite afters_flat by exact N. cbn [app]. apply in_flat_map.
    exists (use_static_to v d). split; [exact I|]. unfold use_static_to. cbn [after app].
    rewrite static_segments. left. reflexivity.
  Qed.

  Lemma static_dir_registered (l : list (op handler middleware)) d : no_root_mount l -> In (use_static d) l ->
    registered l (segments d ++ [s_star]) (CRoute GET static_dir_file_handler).
  Proof.
    intros N I. unfold registered, table_of. rewrite afters_flat by exact N. cbn [app]. apply in_flat_map.
    exists (use_static d). split; [exact I|]. unfold use_static. cbn [after app].
    rewrite static_segments. left. reflexivity.
  Qed.

  Lemma star_match q R rest b : no_star q -> seg_match q R b -> rest <> [] -> seg_match (q ++ [s_star]) (R ++ rest) b.
  Proof.
    intros N S Nr. induction S as [|s p R b L S IH|n s p R b S IH|R Nn]; cbn [app].
    - apply sm_star. exact Nr.
    - constructor; [exact L|]. apply IH. intros I. apply N. right. exact I.
    - constructor. apply IH. intros I. apply N. right. exact I.
    - exfalso. apply N. left. reflexivity.
  Qed.

  (** The only registration below a wildcard's directory is the wildcard's own. *)
  Lemma wildcard_own (l : list (op handler middleware)) t q h path b : built l t -> no_star_mount l ->
    registered l (q ++ [s_star]) (CRoute GET h) ->
    (forall p c, registered l p c -> c <> CNode -> strict_prefix (flat q) (flat p) -> flat p = flat (q ++ [s_star])) ->
    seg_match (q ++ [s_star]) (segments path) b ->
    exists r, search_route t path = LSome r /\ rr_get_route r GET = Some (Route GET h) /\
      rr_mws r = mws_for (table_of l) (flat (q ++ [s_star])).
  Proof.
    intros B NM I Own S. destruct (wildcard_found l t q _ path b B NM I S) as (p & c' & b' & r & E & Ip & Nc & SP & D).
    exists r. split; [exact E|]. destruct D as (Dm & Dr & _). rewrite (Own p c' Ip Nc SP) in Dm, Dr.
    split; [|exact Dm]. rewrite Dr.
    destruct (built_rep l t B) as (R & G & A').
    rewrite (in_handler_for GET (routes_at (table_of l) (flat (q ++ [s_star]))) h); [reflexivity| |].
    - exact (gd_nodup _ G _).
    - apply in_routes_at. eauto.
  Qed.

  Lemma no_star_of_path (l : list (op handler middleware)) t q c : built l t -> no_star_mount l ->
    registered l (q ++ [s_star]) c -> no_star q.
  Proof.
    intros B NM I J. apply built_rep in B as (R & G & A').
    assert (SL : stars_last (table_of l)) by (apply stars_last_table; assumption).
    apply In_nth_error in J as [i E].
    assert (L : i < length q) by (apply nth_error_Some; congruence).
    assert (E' : nth_error (q ++ [s_star]) i = Some s_star) by (rewrite nth_error_app1 by exact L; exact E).
    destruct (SL _ _ I i s_star E') as [_ F]; [left; reflexivity|]. rewrite app_length in F. simpl in F. lia.
  Qed.

  Lemma no_mws (l : list (op handler middleware)) ts : (forall p mw, ~ registered l p (CMw mw)) -> mws_for (table_of l) ts = [].
  Proof.
    intros N. destruct (mws_for (table_of l) ts) as [|mw r] eqn:E; [reflexivity|]. exfalso.
    destruct (table_mws l ts mw) as [p I]; [rewrite E; left; reflexivity|]. exact (N _ _ I).
  Qed.

  Lemma static_served (l : list (op handler middleware)) t v d st (rq : request X) pre rest b fs tr o :
    built l t -> no_root_mount l -> no_star_mount l -> In (use_static_to v d) l ->
    (forall p c, registered l p c -> c <> CNode ->
       strict_prefix (flat (segments v)) (flat p) -> flat p = flat (segments v ++ [s_star])) ->
    (forall p mw, ~ registered l p (CMw mw)) ->
    rq_method rq = GET -> segments (rq_path rq) = pre ++ rest -> rest <> [] -> seg_match (segments v) pre b ->
    runs (serve t st rq) tr o -> fs_ok fs tr ->
    exists resp, o = Value resp /\ h_headers resp = [] /\
      file_reply fs (join_slash (segments d ++ rest)) (h_status resp) (h_body resp).
  Proof.
    intros B N NM I Own NMw G E Nr S R F.
    pose proof (static_registered l v d N I) as I'.
    assert (Nq : no_star (segments v)) by (eapply no_star_of_path; eauto).
    destruct (wildcard_own l t (segments v) _ (rq_path rq) b B NM I' Own) as (rv & Es & Eg & Em).
    { rewrite E. apply star_match; assumption. }
    rewrite no_mws in Em by exact NMw. rewrite <- G in Eg.
    assert (SF : forall c : context X, rq_path (ctx_request c) = rq_path rq ->
      serves_file (static_virtual_file_handler (U:=U) (A:=A) v d) c (join_slash (segments d ++ rest))).
    { intros c Ec. apply (static_matched v d c pre rest b Nq S). rewrite Ec. exact E. }
    destruct (serve_file_value t st rq rv _ _ tr o Es Em Eg SF R) as [resp ->]. exists resp. split; [reflexivity|].
    destruct (serve_file t st rq rv _ _ fs tr resp Es Em Eg SF R F) as [P Q]. auto.
  Qed.

  Lemma static_dir_served (l : list (op handler middleware)) t d st (rq : request X) pre rest b fs tr o :
    built l t -> no_root_mount l -> no_star_mount l -> In (use_static d) l ->
    (forall p c, registered l p c -> c <> CNode ->
       strict_prefix (flat (segments d)) (flat p) -> flat p = flat (segments d ++ [s_star])) ->
    (forall p mw, ~ registered l p (CMw mw)) ->
    rq_method rq = GET -> segments (rq_path rq) = pre ++ rest -> rest <> [] -> seg_match (segments d) pre b ->
    runs (serve t st rq) tr o -> fs_ok fs tr ->
    exists resp, o = Value resp /\ h_headers resp = [] /\
      file_reply fs (join_slash (pre ++ rest)) (h_status resp) (h_body resp).
  Proof.
    intros B N NM I Own NMw G E Nr S R F.
    pose proof (static_dir_registered l d N I) as I'.
    assert (Nq : no_star (segments d)) by (eapply no_star_of_path; eauto).
    destruct (wildcard_own l t (segments d) _ (rq_path rq) b B NM I' Own) as (rv & Es & Eg & Em).
    { rewrite E. apply star_match; assumption. }
    rewrite no_mws in Em by exact NMw. rewrite <- G in Eg.
    assert (SF : forall c : context X, rq_path (ctx_request c) = rq_path rq ->
      serves_file (static_dir_file_handler (U:=U) (A:=A)) c (join_slash (pre ++ rest))).
    { intros c Ec. rewrite <- E, <- Ec. apply dir_served. }
    destruct (serve_file_value t st rq rv _ _ tr o Es Em Eg SF R) as [resp ->]. exists resp. split; [reflexivity|].
    destruct (serve_file t st rq rv _ _ fs tr resp Es Em Eg SF R F) as [P Q]. auto.
  Qed.
End StaticServe.
