(** Lemmas about methods, request paths, typed data and JSON bodies. *)

From Coq Require Import String.
From Verif Require Import Form FormSpec Base BaseFacts Utf8 RouteTrie Router TableSpec PropSpec Http App AppSpec UserSpec.
From Verif Require Import TextStar TrieRep RouteFacts RouteLemmas RouteLemmas4 RouteWitness AppLemmas AppLemmas2 AppLemmas3 AppLemmas4 AppWitness UserLemmas.
Local Open Scope list_scope.

(** ** Methods *)

Section Methods.
  Context {X U A : Type}.
  Notation handler := (handler X U A).
  Notation middleware := (middleware X U A).

  Lemma other_methods (l : list (op handler middleware)) t st (rq : request X) :
    built l t -> api_only l -> ~ api_method (rq_method rq) ->
    forall tr o, runs (serve t st rq) tr o <->
      tr = [] /\ o = Value (HttpResponse 404%N [] (Body [utf8 (lit "404 Not Found")] false)).
  Proof.
    intros B Ap Nm. apply (unmatched_404 l t st rq B). intros ts ps R.
    destruct (handler_for (rq_method rq) (routes_at (table_of l) ts)) as [h|] eqn:E; [|reflexivity]. exfalso. apply Nm.
    apply handler_for_in in E. apply in_routes_at in E as (p & I & _). exact (Ap _ _ _ I).
  Qed.
End Methods.

(** ** Characters of request paths *)

Section Paths.
  Context {H M : Type}.
  Notation op := (op H M).
  Notation table := (table H M).

  Lemma spell_in c ts : In (Ch c) ts -> In c (spell ts).
  Proof. intros I. apply in_flat_map. exists (Ch c). split; [exact I|left; reflexivity]. Qed.

  Lemma reads_chars (T : table) pre R ts ps : TableSpec.reads T pre R ts ps -> forall c, In (Ch c) ts -> exists s, In s R /\ In c s.
  Proof.
    induction 1 as [pre|pre d us R ts ps Bd D IH|pre n s R ts ps Bd D IH]; intros c I.
    - destruct I.
    - apply in_app_iff in I as [I|I].
      + exists (spell (Ch d :: us)). split; [left; reflexivity|]. apply spell_in. exact I.
      + destruct (IH c I) as (s & J & K). exists s. split; [right; exact J|exact K].
    - destruct I as [E|I]; [discriminate E|]. destruct (IH c I) as (s' & J & K). exists s'. split; [right; exact J|exact K].
  Qed.

  Lemma in_firstn {B} (x : B) n l : In x (firstn n l) -> In x l.
  Proof. intros I. rewrite <- (firstn_skipn n l). apply in_or_app. left. exact I. Qed.

  Lemma resolves_chars (T : table) R ts ps : resolves T R ts ps -> forall c, In (Ch c) ts -> exists s, In s R /\ In c s.
  Proof.
    intros [[D _]|(R0 & ts0 & d & us & -> & D & _ & _ & -> & _)|k (L & ts0 & D & -> & _) _ _ _ _] c I.
    - exact (reads_chars _ _ _ _ _ D c I).
    - apply in_app_iff in I as [I|[E|[]]]; [|discriminate E]. apply in_app_iff in I as [I|I].
      + destruct (reads_chars _ _ _ _ _ D c I) as (s & J & K). exists s. split; [apply in_or_app; left; exact J|exact K].
      + exists (spell (Ch d :: us)). split; [apply in_or_app; right; left; reflexivity|]. apply spell_in. exact I.
    - apply in_app_iff in I as [I|[E|[]]]; [|discriminate E].
      destruct (reads_chars _ _ _ _ _ D c I) as (s & J & K). exists s. split; [exact (in_firstn _ _ _ J)|exact K].
  Qed.

  Lemma star_char : path_char c_star.
  Proof. left. vm_compute. do 7 right. left. reflexivity. Qed.
  Lemma slash_char : path_char c_slash.
  Proof. left. vm_compute. do 12 right. left. reflexivity. Qed.
  Lemma a_char : path_char c_a.
  Proof. left. vm_compute. intuition. Qed.

  Lemma deliverable_chars path c : deliverable path -> In c path -> path_char c.
  Proof.
    intros [->|[->|(r & -> & F)]] I; [destruct I| |].
    - destruct I as [<-|[]]. exact star_char.
    - destruct I as [<-|I]; [exact slash_char|]. rewrite Forall_forall in F. exact (F c I).
  Qed.

  Lemma segment_chars path s c : In s (segments path) -> In c s -> In c path.
  Proof.
    unfold segments. intros I J. apply filter_In in I as [I _]. revert s I J. induction path as [|d path IH]; cbn; intros s I J.
    - destruct I as [<-|[]]. exact J.
    - destruct (N.eqb d c_slash).
      + destruct I as [<-|I]; [destruct J|]. right. exact (IH s I J).
      + destruct (split_on c_slash path) as [|x xs]; [destruct I as [<-|[]]; destruct J as [<-|J]; [left; reflexivity|destruct J]|].
        destruct I as [<-|I]; [|right; apply (IH s); [right; exact I|exact J]].
        destruct J as [<-|J]; [left; reflexivity|]. right. apply (IH x); [left; reflexivity|exact J].
  Qed.

  Lemma literal_toks s c : In c s -> (forall r, s <> c_colon :: r) -> s <> s_star -> In (Ch c) (seg_toks s).
  Proof.
    intros I L NS. destruct s as [|d r]; [destruct I|]. unfold seg_toks.
    destruct (N.eqb_spec d c_colon) as [->|]; [exfalso; exact (L r eq_refl)|].
    replace (str_eqb (d :: r) s_star) with false by (symmetry; apply str_eqb_neq; exact NS).
    apply in_map. exact I.
  Qed.

  (** A route with a literal character outside [path_char] is never found. *)
  Lemma unreachable (l : list op) t p m h s c : built l t ->
    (forall q m', registered l q (CRoute m' h) -> flat q = flat p) ->
    In s p -> (forall r, s <> c_colon :: r) -> In c s -> ~ path_char c ->
    forall path r, deliverable path -> search_route t path = LSome r -> rr_get_route r m <> Some (Route m h).
  Proof.
    intros B Un I L J N path r D E G. destruct (lookup_some l t path r B E) as (ts & ps & R & (_ & Dr & _)).
    rewrite Dr in G. destruct (handler_for m (routes_at (table_of l) ts)) as [h'|] eqn:Eh; [|discriminate G].
    cbn in G. assert (h' = h) by congruence. subst h'.
    apply handler_for_in in Eh. apply in_routes_at in Eh as (q & I' & Eq).
    assert (Et : ts = flat p) by (rewrite <- Eq; apply (Un q m I')). subst ts.
    assert (NS : s <> s_star).
    { intros ->. destruct J as [<-|[]]. exact (N star_char). }
    destruct (resolves_chars _ _ _ _ R c) as (s' & I2 & J2).
    { rewrite Et. apply in_flat_map. exists s. split; [exact I|]. apply literal_toks; assumption. }
    apply N. apply (deliverable_chars path c D). exact (segment_chars path s' c I2 J2).
  Qed.

  Lemma segments_slash path : segments (c_slash :: path) = segments path.
  Proof. reflexivity. Qed.

  Lemma reachable (l : list op) t p m h : build l = (t, None) -> no_star_mount l -> registered l p (CRoute m h) -> plain_path p ->
    exists path r b, deliverable path /\ seg_match p (segments path) b /\ search_route t path = LSome r /\
      rr_get_route r m = Some (Route m h).
  Proof.
    intros B NM I P. destruct (route_spelled_any l t p m h B NM I) as (path & r & b & S & E & G & Sp).
    exists (c_slash :: path), r, b.
    assert (Es : search_route t (c_slash :: path) = search_route t path) by (unfold search_route; rewrite segments_slash; reflexivity).
    rewrite segments_slash, Es. split; [|auto].
    right. right. exists path. split; [reflexivity|]. apply Forall_forall. intros c J.
    destruct (Sp c J) as [->|[->|(s & Js & Cs & K)]]; [exact slash_char|exact a_char|].
    apply (P s c Js); [|exact K]. intros r' ->. discriminate Cs.
  Qed.
End Paths.

(** ** Names of static files *)

Section Static.
  Context {X U A : Type}.
  Notation handler := (handler X U A).
  Notation middleware := (middleware X U A).

  Lemma static_table v d : table_of [@use_static_to X U A v d] =
    [(segments v ++ [s_star], CRoute GET (static_virtual_file_handler v d))].
  Proof. unfold table_of, use_static_to. cbn [afters after app]. rewrite static_segments. reflexivity. Qed.

  Lemma static_names v d t st (rq : request X) rel tr o r :
    built [@use_static_to X U A v d] t -> deliverable (rq_path rq) -> file_segments rel ->
    runs (serve t st rq) tr o -> In (EvRead (join_slash (segments d ++ rel)) r) tr ->
    forall s c, In s rel -> In c s -> path_char c.
  Proof.
    intros B D W R I s c Js Jc.
    assert (NW : forall p mw, ~ registered [@use_static_to X U A v d] p (CMw mw)).
    { unfold registered. rewrite static_table. intros p mw [E|[]]. discriminate E. }
    destruct (search_route t (rq_path rq)) as [p| |rv] eqn:E.
    - unfold serve in R. rewrite E in R. apply runs_crash in R as [-> _]. destruct I.
    - unfold serve in R. rewrite E in R. cbn [resolve_endpoint] in R. apply runs_ret in R as [-> _]. destruct I.
    - destruct (lookup_some _ t _ rv B E) as (ts & ps & Rs & (Dm & Dr & _)).
      rewrite no_mws in Dm by exact NW. specialize (Dr (rq_method rq)).
      destruct (handler_for (rq_method rq) (routes_at (table_of [use_static_to v d]) ts)) as [h|] eqn:Eh; cbn [option_map] in Dr.
      + apply handler_for_in, in_routes_at in Eh as (p & J & _). rewrite static_table in J. destruct J as [J|[]].
        injection J as _ _ Eh. subst h.
        destruct (serve_runs t st rq rv _ E Dr) as (c0 & St & A1 & _ & _).
        rewrite Dm in A1. cbn [next next_from r_handler] in A1. destruct St as (_ & _ & _ & Sp & _).
        pose proof (virtual_served (X:=X) (U:=U) (A:=A) v d c0) as V. rewrite Sp in V.
        assert (Ep : join_slash (segments d ++ rel) = join_slash (segments d ++ skipn (length (segments v)) (segments (rq_path rq)))).
        { assert (K : forall r', runs (static_virtual_file_handler v d c0) tr r' ->
            join_slash (segments d ++ rel) = join_slash (segments d ++ skipn (length (segments v)) (segments (rq_path rq)))).
          { intros r' R'. apply V in R' as [(x & y & -> & _)|(x & y & -> & _)].
            - destruct I as [I|[]]. injection I as I _. symmetry. exact I.
            - destruct I as [I|[I|[]]]; [|discriminate I]. injection I as I _. symmetry. exact I. }
          destruct (A1 _ _ R) as [(r1 & R1 & _)|(p1 & R1 & _)]; exact (K _ R1). }
        assert (Sd : forall x, In x (segments d) -> x <> [] /\ ~ In c_slash x) by (intros x Jx; apply (segments_ok d); exact Jx).
        apply (f_equal segments) in Ep. rewrite !segments_join in Ep.
        * apply app_inv_head in Ep. rewrite Ep in Js. apply in_skipn in Js.
          apply (deliverable_chars _ _ D). exact (segment_chars _ _ _ Js Jc).
        * intros x Jx. apply in_app_iff in Jx as [Jx|Jx]; [exact (Sd x Jx)|]. apply in_skipn in Jx. apply (segments_ok (rq_path rq)). exact Jx.
        * intros x Jx. apply in_app_iff in Jx as [Jx|Jx]; [exact (Sd x Jx)|exact (W x Jx)].
      + rewrite serve_unmatched in R; [apply runs_ret in R as [-> _]; destruct I|]. right. eauto.
  Qed.

  Lemma static_reachable v d t rel : built [@use_static_to X U A v d] t -> plain_path (segments v) ->
    rel <> [] -> file_segments rel -> (forall s c, In s rel -> In c s -> path_char c) ->
    exists req, deliverable req /\ @reads_path X U A [use_static_to v d] req (join_slash (segments d ++ rel)).
  Proof.
    intros B P Nr W Cr.
    assert (NM : no_star_mount [@use_static_to X U A v d]).
    { intros p J. unfold registered in J. rewrite static_table in J. destruct J as [J|[]]. discriminate J. }
    assert (I : registered [@use_static_to X U A v d] (segments v ++ [s_star]) (CRoute GET (static_virtual_file_handler v d))).
    { unfold registered. rewrite static_table. left. reflexivity. }
    pose proof (no_star_of_path _ t _ _ B NM I) as NS.
    destruct (inst_match [c_a] (segments v) NS) as [b S].
    set (R := inst [c_a] (segments v)) in *.
    assert (SR : forall x, In x (R ++ rel) -> x <> [] /\ ~ In c_slash x).
    { intros x J. apply in_app_iff in J as [J|J]; [|exact (W x J)].
      apply (inst_ok [c_a] (segments v)); [intros y K; apply (segments_ok v); exact K|discriminate| |exact J].
      intros [E|[]]. discriminate E. }
    exists (c_slash :: join_slash (R ++ rel)). split.
    - right. right. eexists. split; [reflexivity|]. apply Forall_forall. intros c J.
      apply in_join_slash in J as [->|(s & J & K)]; [exact slash_char|]. apply in_app_iff in J as [J|J]; [|exact (Cr s c J K)].
      destruct (inst_chars _ _ _ _ J K) as [[<-|[]]|(s' & J' & S' & K')]; [exact a_char|].
      apply (P s' c J'); [|exact K']. intros r ->. discriminate S'.
    - destruct (wildcard_own _ t (segments v) _ (c_slash :: join_slash (R ++ rel)) b B NM I) as (rv & E & G & _).
      + intros p c J Nc _. unfold registered in J. rewrite static_table in J. destruct J as [J|[]]. injection J as <- <-. reflexivity.
      + rewrite segments_slash, segments_join by exact SR. apply star_match; assumption.
      + exists t, rv, (static_virtual_file_handler v d). split; [exact B|]. split; [exact E|]. split; [exact G|].
        intros c Ec. apply (static_matched v d c R rel b NS S). rewrite Ec, segments_slash, segments_join by exact SR. reflexivity.
  Qed.
End Static.

(** ** Typed data *)

Section Data.
  Context {X U A : Type}.
  Notation handler := (handler X U A).
  Notation middleware := (middleware X U A).

  Lemma get_add ty x (c : context X) ty' : ctx_get ty' (ctx_add ty x c) = if N.eqb ty' ty then Some x else ctx_get ty' c.
  Proof.
    unfold ctx_get, ctx_add. cbn [set_ext ctx_request rq_ext].
    destruct (N.eqb_spec ty' ty) as [->|N]; [apply aget_ainsert_same; intros a b; apply N.eqb_eq|apply aget_ainsert_other; [intros a b; apply N.eqb_eq|congruence]].
  Qed.

  Definition add_all (adds : list (N * X)) (c : context X) : context X :=
    fold_left (fun c e => ctx_add (fst e) (snd e) c) adds c.

  Lemma add_all_get adds : forall c ty,
    (forall x, latest ty adds x -> ctx_get ty (add_all adds c) = Some x) /\
    ((forall x, ~ In (ty, x) adds) -> ctx_get ty (add_all adds c) = ctx_get ty c).
  Proof.
    induction adds as [|[k y] adds IH]; intros c ty; [split; [|reflexivity]|].
    - intros x (l1 & l2 & E & _). destruct l1; discriminate E.
    - cbn [add_all fold_left fst snd]. fold (add_all adds (ctx_add k y c)). destruct (IH (ctx_add k y c) ty) as [L N]. split.
      + intros x (l1 & l2 & E & F). destruct l1 as [|e l1].
        * injection E as -> -> ->. rewrite N by exact F. rewrite get_add, N.eqb_refl. reflexivity.
        * injection E as _ ->. apply L. exists l1, l2. auto.
      + intros F. rewrite N; [|intros x I; apply (F x); right; exact I]. rewrite get_add.
        destruct (N.eqb_spec ty k) as [->|]; [|reflexivity]. exfalso. apply (F y). left. reflexivity.
  Qed.

  Lemma add_all_rest adds : forall c, let c' := add_all adds c in
    ctx_params c' = ctx_params c /\ ctx_response c' = ctx_response c /\
    rq_method (ctx_request c') = rq_method (ctx_request c) /\ rq_path (ctx_request c') = rq_path (ctx_request c) /\
    rq_query (ctx_request c') = rq_query (ctx_request c) /\ rq_headers (ctx_request c') = rq_headers (ctx_request c) /\
    rq_body (ctx_request c') = rq_body (ctx_request c).
  Proof.
    induction adds as [|e adds IH]; intros c; [repeat split|]. cbn [add_all fold_left]. fold (add_all adds (ctx_add (fst e) (snd e) c)).
    exact (IH (ctx_add (fst e) (snd e) c)).
  Qed.

  Lemma adders_runs adds (h : handler) : forall c tr o,
    runs (next (map (@adder X U A) adds) h c) tr o <-> runs (h (add_all adds c)) tr o.
  Proof.
    induction adds as [|e adds IH]; intros c tr o; [reflexivity|].
    cbn [map]. rewrite next_cons. cbn [adder exec add_all fold_left]. fold (add_all adds (ctx_add (fst e) (snd e) c)).
    rewrite <- IH. unfold next. split.
    - intros R. apply runs_bind in R as [(t1 & t2 & r & -> & R1 & R2)|(p & -> & R)]; [|exact R].
      apply runs_ret in R2 as [-> ->]. rewrite app_nil_r. exact R1.
    - intros R. apply runs_bind. destruct o as [r|p]; [left|right; eauto].
      exists tr, [], r. split; [symmetry; apply app_nil_r|]. split; [exact R|]. apply runs_ret. auto.
  Qed.

  Lemma typed_data (l : list (op handler middleware)) t st (rq : request X) ts ps h adds :
    built l t -> resolves (table_of l) (segments (rq_path rq)) ts ps ->
    handler_for (rq_method rq) (routes_at (table_of l) ts) = Some h ->
    mws_for (table_of l) ts = map (@adder X U A) adds ->
    exists c0 c, (forall n, pget n (ctx_params c0) = first_binding ps n) /\ starts rq (ctx_params c0) st c0 /\ handles (serve t st rq) (h c) /\
      ctx_params c = ctx_params c0 /\ ctx_response c = None /\
      rq_method (ctx_request c) = rq_method rq /\ rq_path (ctx_request c) = rq_path rq /\
      rq_query (ctx_request c) = rq_query rq /\ rq_headers (ctx_request c) = rq_headers rq /\
      rq_body (ctx_request c) = rq_body rq /\
      forall ty, (forall x, latest ty adds x -> ctx_get ty c = Some x) /\
                 ((forall x, ~ In (ty, x) adds) -> ctx_get ty c = ctx_get ty c0).
  Proof.
    intros B R Eh Em. destruct (some_lookup l t (rq_path rq) ts ps B R) as (rv & E & Dm & Dr & Dp).
    specialize (Dr (rq_method rq)). rewrite Eh in Dr. cbn [option_map] in Dr.
    set (c0 := first_context rq (rr_params rv) st). exists c0, (add_all adds c0).
    pose proof (first_context_starts rq (rr_params rv) st) as S. fold c0 in S.
    assert (Ep : ctx_params c0 = rr_params rv) by apply S. rewrite Ep. split; [exact Dp|]. split; [exact S|].
    destruct S as (_ & S1 & S2 & S3 & S4 & S5 & S6 & _).
    destruct (add_all_rest adds c0) as (A0 & A1 & A2 & A3 & A4 & A5 & A6).
    split; [|rewrite A0, A1, A2, A3, A4, A5, A6; repeat (split; [assumption|]); apply add_all_get].
    rewrite (serve_matched t st rq rv _ E Dr). fold c0. cbn [r_handler]. rewrite Dm, Em.
    destruct (handles_finish (X:=X) (next (map (@adder X U A) adds) h c0)) as (H1 & H2 & H3). split; [|split].
    - intros tr o Rn. destruct (H1 _ _ Rn) as [(r & R1 & P)|(p & R1 & P)]; [left; exists r|right; exists p]; (split; [|exact P]); apply adders_runs; exact R1.
    - intros tr r Rn. apply H2. apply adders_runs. exact Rn.
    - intros tr p Rn. apply H3. apply adders_runs. exact Rn.
  Qed.

  Lemma get_mut_laws ty f (c : context X) :
    match ctx_get_mut ty f c with
    | Some c' => exists x, ctx_get ty c = Some x /\ ctx_get ty c' = Some (f x) /\
                   (forall ty', ty' <> ty -> ctx_get ty' c' = ctx_get ty' c)
    | None => ctx_get ty c = None
    end.
  Proof.
    unfold ctx_get_mut. destruct (ctx_get ty c) as [x|] eqn:E; [|reflexivity]. exists x.
    split; [reflexivity|]. split; [rewrite get_add, N.eqb_refl; reflexivity|].
    intros ty' N. rewrite get_add. destruct (N.eqb_spec ty' ty); [contradiction|reflexivity].
  Qed.
End Data.

(** ** JSON bodies *)

Section Json.
  Context {X U A T : Type} (from_slice : bytes -> T + str).
  Notation handler := (handler X U A).
  Notation middleware := (middleware X U A).

  Lemma json_errors (l : list (op handler middleware)) t st rq rest ps :
    built l t -> reaches l rq (with_json from_slice rest) ps ->
    (broken (rq_body rq) = true -> fails_with (serve t st rq) (lit "Input should not be None")) /\
    (broken (rq_body rq) = false -> one_chunk (rq_body rq) ->
       (forall e, from_slice (body_bytes (rq_body rq)) = inr e -> fails_with (serve t st rq) e) /\
       (forall x, from_slice (body_bytes (rq_body rq)) = inl x ->
          exists c c', (forall n, pget n (ctx_params c) = first_binding ps n) /\ starts rq (ctx_params c) st c /\ same_but_body c c' /\ rq_body (ctx_request c') = body_empty /\
            handles (serve t st rq) (rest x c'))).
  Proof.
    intros B R. destruct (reaches_serve l t st rq _ ps B R) as (c & S & Ep & E). rewrite E.
    pose proof S as (_ & _ & _ & _ & _ & _ & Eb & _). unfold with_json, ctx_json. split.
    - intros Br. unfold read_body, take_body, aggregate. rewrite Eb, Br. apply (fails_finish ENone).
    - intros Br Oc. set (f := fun b => match from_slice b with inl x => inl x | inr e => inr (EJson e) end).
      assert (Er : read_body f c = (f (body_bytes (rq_body rq)), set_rq_body body_empty c)).
      { pose proof (one_chunk_read (X:=X) f c) as O. cbv zeta in O. rewrite Eb in O. specialize (O Br Oc).
        rewrite <- O. unfold read_body, take_body. reflexivity. }
      rewrite Er. unfold f. split.
      + intros e ->. apply (fails_finish (EJson e)).
      + intros x ->. exists c, (set_rq_body body_empty c). split; [exact Ep|]. split; [exact S|]. split; [repeat split|]. split; [reflexivity|].
        apply handles_finish.
  Qed.

  Lemma form_broken {F : Type} (pf : bool -> str -> F + str) msg it1 it2 tg (l : list (op handler middleware)) t st rq rest ps :
    built l t -> reaches l rq (with_form pf msg it1 it2 tg rest) ps -> broken (rq_body rq) = true ->
    fails_with (serve t st rq) (lit "Input should not be None").
  Proof.
    intros B R Br. destruct (reaches_serve l t st rq _ ps B R) as (c & S & Ep & E). rewrite E.
    destruct S as (_ & _ & _ & _ & _ & _ & Eb & _).
    unfold with_form, ctx_form, read_body, take_body, aggregate. rewrite Eb, Br. apply (fails_finish ENone).
  Qed.
End Json.
