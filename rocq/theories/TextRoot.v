(** A middleware registered first at the root, for routers with colons anywhere. *)

From Coq Require Import String.
From Verif Require Import Base BaseFacts Utf8 RouteTrie Router TableSpec PropSpec TextSpec Http App AppSpec TrieDen TrieTotal RouteLemmas4 OwnPath Rewalk.
From Verif Require Import TextRep TextInv TextSearch TextOwn TextStar TextMore AppLemmas AppLemmas2 AppLemmas3 UserLemmas.
Import AppSpec.
Local Open Scope list_scope.

Section Crown.
  Context {H M : Type}.
  Notation node := (node H M).
  Notation op := (op H M).
  Variable mw : M.

  (** The trie with [mw] before the other middlewares of the root. *)
  Definition crown (n : node) : node :=
    Node (nkey n) (Some (RV (mw :: val_mws (nval n)) match nval n with Some v => rv_route v | None => resource_default end)) (nkids n).

  Lemma process_crown n key f : process_insertion (crown n) key f = (crown (fst (process_insertion n key f)), snd (process_insertion n key f)).
  Proof.
    destruct n as [nk nv cs]. unfold crown. cbn [nkey nval nkids process_insertion].
    match goal with |- context [get_insertion_action (Node nk ?V cs) key] => change (get_insertion_action (Node nk V cs) key) with (get_insertion_action (Node nk nv cs) key) end.
    destruct (a_name (get_insertion_action (Node nk nv cs) key)).
    - destruct (upd_nth f _ cs). reflexivity.
    - destruct (f (node_new key None)). destruct (str_eqb key s_star); reflexivity.
    - match goal with |- context [upd_nth ?F ?I cs] => destruct (upd_nth F I cs) end. reflexivity.
    - destruct (slice_from key _); [|reflexivity]. match goal with |- context [upd_nth ?F ?I cs] => destruct (upd_nth F I cs) end. reflexivity.
    - reflexivity.
  Qed.

  Lemma walk_crown p n final : walk (crown n) p final = (crown (fst (walk n p final)), snd (walk n p final)).
  Proof. destruct p as [|s p]; [reflexivity|]. cbn [walk]. apply process_crown. Qed.

  Lemma run_op_crown o (t : node) : ~ root_mount o -> run_op (crown t) o = (crown (fst (run_op t o)), snd (run_op t o)).
  Proof.
    intros N. destruct o as [m path h|path mw'|mw'|path sub].
    - cbn [run_op]. unfold insert_route. destruct (star_check _ _ _); [reflexivity|]. destruct (is_empty _); [|apply walk_crown].
      destruct t as [k [v|] cs]; reflexivity.
    - cbn [run_op]. unfold insert_middleware. destruct (star_check _ _ _); [reflexivity|]. apply walk_crown.
    - cbn [run_op]. destruct t as [k [v|] cs]; reflexivity.
    - cbn [run_op]. match goal with |- context [let '(src, st) := ?E in _] => destruct E as [src [pn|]] end; [reflexivity|].
      unfold insert_sub_route. destruct (star_check _ _ _); [reflexivity|]. destruct (is_empty (segments path)) eqn:E; [|apply walk_crown].
      exfalso. apply N. exists path, sub. split; [reflexivity|]. apply is_empty_true. exact E.
  Qed.

  Lemma run_ops_crown l : forall t : node, no_root_mount l -> run_ops (crown t) l = (crown (fst (run_ops t l)), snd (run_ops t l)).
  Proof.
    induction l as [|o l IH]; intros t N; [reflexivity|]. cbn [run_ops]. rewrite run_op_crown by (apply N; left; reflexivity).
    destruct (run_op t o) as [t1 [pn|]]; cbn [fst snd]; [reflexivity|]. apply IH. intros x I. apply N. right. exact I.
  Qed.

  Lemma build_crown (l : list op) : no_root_mount l -> build (OService mw :: l) = (crown (fst (build l)), snd (build l)).
  Proof. intros N. unfold build. cbn [run_ops run_op]. exact (run_ops_crown l trie_new N). Qed.

  (** The middlewares collected before do not matter. *)
  Definition sadd (a : sres H M) : sres H M :=
    match a with SPanic p => SPanic p | SRet f k ps mws => SRet f k ps (mw :: mws) end.

  Lemma search_add (n : node) : forall R ps mws b, get_next_node n R ps (mw :: mws) b = sadd (get_next_node n R ps mws b).
  Proof.
    induction n as [k v cs IH] using node_ind'. intros R ps mws b. destruct R as [|x R]; [reflexivity|]. rewrite !get_next_kids. cbn [nkids].
    clear k v. revert R ps mws. induction IH as [|c cs IHc IH IHl]; intros R ps mws; cbn [next_loop]; [reflexivity|].
    destruct (negb b && is_param c).
    - destruct (is_empty R).
      + destruct (nval c); [|apply IHl]. destruct (slice_from (nkey c) 1); reflexivity.
      + rewrite IHc. destruct (get_next_node c R ps mws false) as [p|[f|] k1 ps1 mws1]; cbn [sadd]; [reflexivity| |apply IHl].
        destruct (slice_from (nkey c) 1); reflexivity.
    - destruct (negb b && str_eqb (nkey c) s_star); [reflexivity|]. cbv zeta.
      match goal with |- context [match ?X with Some _ => _ | None => SPanic PSlice end] => destruct X as [key1|] end; [|reflexivity].
      destruct (_ && _); [|apply IHl]. destruct (is_empty key1).
      + destruct (nval c); [reflexivity|]. destruct (star_child (nkids c)) as [[d w]|]; [reflexivity|apply IHl].
      + rewrite IHc. match goal with |- context [get_next_node c key1 ps mws ?B] => destruct (get_next_node c key1 ps mws B) as [p|[f|] k1 ps1 mws1] end; cbn [sadd]; [reflexivity|reflexivity|apply IHl].
  Qed.

  Lemma lookup_crown (t : node) path :
    match search_route t path, search_route (crown t) path with
    | LPanic p, LPanic p' => p = p'
    | LNone, LNone => True
    | LNone, LSome r' => forall m, rr_get_route r' m = None
    | LSome r, LSome r' => rr_mws r' = mw :: rr_mws r /\ rr_params r' = rr_params r /\ forall m, rr_get_route r' m = rr_get_route r m
    | _, _ => False
    end.
  Proof.
    unfold search_route. destruct t as [k v cs]. unfold crown. cbn [nkey nval nkids val_mws rv_mws]. destruct (is_empty (segments path)) eqn:E.
    - destruct v as [v|]; [|reflexivity]. split; [reflexivity|]. split; reflexivity.
    - assert (X : forall v', get_next_node (Node k v' cs) (segments path) [] (mw :: val_mws v) false = sadd (get_next_node (Node k v cs) (segments path) [] (val_mws v) false)).
      { intros v'. rewrite <- search_add. apply is_empty_false in E. destruct (segments path); [congruence|]. rewrite !get_next_kids. reflexivity. }
      rewrite X. destruct (get_next_node (Node k v cs) (segments path) [] (val_mws v) false) as [p|[f|] k1 ps1 mws1]; cbn [sadd]; [reflexivity| |exact I].
      destruct (nval f); [|exact I]. split; [reflexivity|]. split; reflexivity.
  Qed.
End Crown.

Section Served.
  Context {X U A : Type}.
  Notation handler := (handler X U A).
  Notation middleware := (middleware X U A).

  Lemma crown_serve (mw : middleware) (l : list (op handler middleware)) t st (rq : request X) : build l = (t, None) ->
    (exists p h pm c, registered l p (CRoute (rq_method rq) h) /\ starts rq pm st c /\
       serve t st rq = bind (next (text_mws (table_of l) (text p)) h c) finish /\
       serve (crown mw t) st rq = bind (next (mw :: text_mws (table_of l) (text p)) h c) finish) \/
    (serve t st rq = Ret page_not_found /\ serve (crown mw t) st rq = Ret page_not_found).
  Proof.
    intros B. pose proof (lookup_crown mw t (rq_path rq)) as LC.
    destruct (search_route t (rq_path rq)) as [pn| |r] eqn:E.
    - exfalso. exact (lookup_no_panic t (rq_path rq) pn E).
    - right. split; apply serve_unmatched; [left; exact E|].
      destruct (search_route (crown mw t) (rq_path rq)) as [pn| |r'] eqn:E'; [contradiction|left; reflexivity|right; exists r'; split; [reflexivity|apply LC]].
    - destruct (search_route (crown mw t) (rq_path rq)) as [pn| |r'] eqn:E'; [contradiction|contradiction|].
      destruct LC as (Em & Ep & G). destruct (rr_get_route r (rq_method rq)) as [rt|] eqn:Er.
      + left. destruct (text_method_registered l t (rq_path rq) r _ _ B E Er) as (p & h & I & -> & HO).
        exists p, h, (rr_params r), (first_context rq (rr_params r) st). split; [exact I|]. split; [apply first_context_starts|].
        rewrite (serve_matched t st rq r _ E Er). assert (G' : rr_get_route r' (rq_method rq) = Some (Route (rq_method rq) h)) by (rewrite G; exact Er).
        rewrite (serve_matched _ st rq r' _ E' G'). rewrite Em, Ep, (proj1 HO). split; reflexivity.
      + right. split; apply serve_unmatched; right; [exists r|exists r']; split; auto. rewrite G. exact Er.
  Qed.

  Theorem root_wraps_text (mw : middleware) (l : list (op handler middleware)) t :
    build l = (t, None) -> no_root_mount l ->
    exists t', build (OService mw :: l) = (t', None) /\ forall st (rq : request X),
      (exists p h pm c, registered l p (CRoute (rq_method rq) h) /\ starts rq pm st c /\
         handles (serve t st rq) (next (text_mws (table_of l) (text p)) h c) /\
         handles (serve t' st rq) (next (mw :: text_mws (table_of l) (text p)) h c)) \/
      (forall tr o,
         (runs (serve t st rq) tr o <-> tr = [] /\ o = Value (HttpResponse 404%N [] (Body [utf8 (lit "404 Not Found")] false))) /\
         (runs (serve t' st rq) tr o <-> tr = [] /\ o = Value (HttpResponse 404%N [] (Body [utf8 (lit "404 Not Found")] false)))).
  Proof.
    intros B N. exists (crown mw t). split; [rewrite build_crown, B by exact N; reflexivity|]. intros st rq.
    destruct (crown_serve mw l t st rq B) as [(p & h & pm & c & I & St & E & E')|(E & E')].
    - left. exists p, h, pm, c. split; [exact I|]. split; [exact St|]. rewrite E, E'. split; apply handles_finish.
    - right. intros tr o. rewrite E, E'. split; apply runs_ret.
  Qed.

  Theorem default_transparent_text d (l : list (op handler middleware)) t :
    build l = (t, None) -> no_root_mount l ->
    (forall p m h, registered l p (CRoute m h) -> answers h) ->
    (forall p mw, registered l p (CMw mw) -> keeps_answer mw) ->
    exists t', build (app_default d ++ l) = (t', None) /\ forall st rq,
      (forall tr o, runs (serve t st rq) tr o ->
         exists tr', runs (serve t' st rq) tr' o /\ unlogged tr' = unlogged tr) /\
      (forall tr o, runs (serve t' st rq) tr o ->
         exists tr', runs (serve t st rq) tr' o /\ unlogged tr' = unlogged tr).
  Proof.
    intros B N Ah Am. exists (crown (logger d) t). split; [unfold app_default; cbn [app]; rewrite build_crown, B by exact N; reflexivity|].
    intros st rq. destruct (crown_serve (logger d) l t st rq B)
      as [(p & h & pm & c & I & St & E & E')|(E & E')].
    - rewrite E, E'. set (mws := text_mws (table_of l) (text p)) in *.
      assert (AN : forall tr' c', runs (next mws h c) tr' (Value (inl c')) -> ctx_response c' <> None).
      { intros tr' c' R. apply (chain_answers mws h) with (c := c) (tr := tr') (r := inl c'); auto.
        - exact (Ah _ _ _ I).
        - apply Forall_forall. intros mw J. apply in_text_mws in J as (q & J & _). exact (Am _ _ J). }
      split; intros tr o R.
      + apply runs_bind in R as [(t1 & t2 & r & -> & R1 & R2)|(q & -> & R1)];
          apply (proj1 (logger_first d mws h c _ _ AN)) in R1 as (t1' & R1 & Eu).
        * exists (t1' ++ t2). split; [|rewrite !unlogged_app, Eu; reflexivity]. apply runs_bind. left. eauto 7.
        * exists t1'. split; [|exact Eu]. apply runs_bind. right. eauto.
      + apply runs_bind in R as [(t1 & t2 & r & -> & R1 & R2)|(q & -> & R1)];
          apply (proj2 (logger_first d mws h c _ _ AN)) in R1 as (t1' & R1 & Eu).
        * exists (t1' ++ t2). split; [|rewrite !unlogged_app, Eu; reflexivity]. apply runs_bind. left. eauto 7.
        * exists t1'. split; [|exact Eu]. apply runs_bind. right. eauto.
    - rewrite E, E'. split; intros tr o R; exists tr; auto.
  Qed.

  Theorem logged_text d (l : list (op handler middleware)) t : build l = (t, None) -> no_root_mount l ->
    exists t', build (app_default d ++ l) = (t', None) /\ forall st rq tr o, runs (serve t' st rq) tr o ->
      ((forall rv, search_route t (rq_path rq) = LSome rv -> rr_get_route rv (rq_method rq) = None) /\
       tr = [] /\ o = Value (HttpResponse 404%N [] (Body [utf8 (lit "404 Not Found")] false))) \/
      exists rv rt mid last, search_route t (rq_path rq) = LSome rv /\ rr_get_route rv (rq_method rq) = Some rt /\
        tr = EvPrint (LRequest (rq_method rq) (rq_path rq) (rq_query rq)) :: (if d then [EvPrint LDebug] else []) ++ mid ++ last /\
        match o with
        | Value resp => last = [EvPrint (LSent (h_status resp))] \/
            exists e, last = [EvPrint (LError e)] /\ h_status resp = 500%N /\ body_bytes (h_body resp) = utf8 e
        | Panicked _ => True
        end.
  Proof.
    intros B N. exists (crown (logger d) t). split; [unfold app_default; cbn [app]; rewrite build_crown, B by exact N; reflexivity|].
    intros st rq tr o R. pose proof (lookup_crown (logger d) t (rq_path rq)) as LC.
    destruct (search_route t (rq_path rq)) as [pn| |r] eqn:E; [exfalso; exact (lookup_no_panic t (rq_path rq) pn E)| |].
    - left. split; [discriminate|]. rewrite serve_unmatched in R; [apply runs_ret in R; exact R|].
      destruct (search_route (crown (logger d) t) (rq_path rq)) as [pn| |r'] eqn:E'; [contradiction|left; reflexivity|right; exists r'; split; [reflexivity|apply LC]].
    - destruct (search_route (crown (logger d) t) (rq_path rq)) as [pn| |r'] eqn:E'; [contradiction|contradiction|].
      destruct LC as (Em & Ep & G). destruct (rr_get_route r (rq_method rq)) as [rt|] eqn:Er.
      + right. assert (G' : rr_get_route r' (rq_method rq) = Some rt) by (rewrite G; exact Er).
        rewrite (serve_matched _ st rq r' _ E' G'), Em in R. apply logged_chain in R as (mid & la & Et & K).
        exists r, rt, mid, la. split; [reflexivity|]. split; [exact Er|].
        destruct (first_context_starts rq (rr_params r') st) as (_ & _ & E1 & E2 & E3 & _). rewrite E1, E2, E3 in Et. split; [exact Et|exact K].
      + left. split; [intros rv X0; injection X0 as <-; exact Er|]. rewrite serve_unmatched in R; [apply runs_ret in R; exact R|].
        right. exists r'. split; [exact E'|]. rewrite G. exact Er.
  Qed.
End Served.

(** ** Static files *)

Section StaticText.
  Context {X U A : Type}.
  Notation handler := (handler X U A).
  Notation middleware := (middleware X U A).

  Lemma wildcard_own_text (l : list (op handler middleware)) t q h path b : build l = (t, None) -> no_star_mount l ->
    registered l (q ++ [s_star]) (CRoute GET h) ->
    (forall p c, registered l p c -> c <> CNode -> strict_prefix (text q) (text p) -> text p = text (q ++ [s_star])) ->
    seg_match (q ++ [s_star]) (segments path) b ->
    exists r, search_route t path = LSome r /\ rr_get_route r GET = Some (Route GET h) /\
      rr_mws r = text_mws (table_of l) (text (q ++ [s_star])).
  Proof.
    intros B NM I Own S. destruct (wildcard_text l t q _ path b B NM I S) as (p & c' & r & E & Ip & Nc & SP & (Dm & Dr) & _).
    exists r. split; [exact E|]. rewrite (Own p c' Ip Nc SP) in Dm, Dr.
    split; [|exact Dm]. rewrite Dr, (text_handler l t _ _ _ B I). reflexivity.
  Qed.

  Lemma no_text_mws (l : list (op handler middleware)) w : (forall p mw, ~ registered l p (CMw mw)) -> text_mws (table_of l) w = [].
  Proof.
    intros N. destruct (text_mws (table_of l) w) as [|mw r] eqn:E; [reflexivity|]. exfalso.
    assert (J : In mw (text_mws (table_of l) w)) by (rewrite E; left; reflexivity). apply in_text_mws in J as (p & I & _). exact (N _ _ I).
  Qed.

  Lemma no_star_before (l : list (op handler middleware)) t q c : build l = (t, None) -> no_star_mount l ->
    registered l (q ++ [s_star]) c -> no_star q.
  Proof.
    intros B NM I J. pose proof (build_stars_last l t B NM) as SL.
    apply In_nth_error in J as [i E].
    assert (L : i < length q) by (apply nth_error_Some; congruence).
    assert (E' : nth_error (q ++ [s_star]) i = Some s_star) by (rewrite nth_error_app1 by exact L; exact E).
    destruct (SL _ _ I i s_star E') as [_ F]; [left; reflexivity|]. rewrite app_length in F. simpl in F. lia.
  Qed.

  Theorem static_served_text (l : list (op handler middleware)) t v d st (rq : request X) pre rest b fs tr o :
    build l = (t, None) -> no_root_mount l -> no_star_mount l -> In (use_static_to v d) l ->
    (forall p c, registered l p c -> c <> CNode ->
       strict_prefix (text (segments v)) (text p) -> text p = text (segments v ++ [s_star])) ->
    (forall p mw, ~ registered l p (CMw mw)) ->
    rq_method rq = GET -> segments (rq_path rq) = pre ++ rest -> rest <> [] -> seg_match (segments v) pre b ->
    runs (serve t st rq) tr o -> fs_ok fs tr ->
    exists resp, o = Value resp /\ h_headers resp = [] /\
      file_reply fs (join_slash (segments d ++ rest)) (h_status resp) (h_body resp).
  Proof.
    intros B N NM I Own NMw G E Nr S R F.
    pose proof (static_registered l v d N I) as I'.
    assert (Nq : no_star (segments v)) by (eapply no_star_before; eauto).
    destruct (wildcard_own_text l t (segments v) _ (rq_path rq) b B NM I' Own) as (rv & Es & Eg & Em).
    { rewrite E. apply star_match; assumption. }
    rewrite no_text_mws in Em by exact NMw. rewrite <- G in Eg.
    assert (SF : forall c : context X, rq_path (ctx_request c) = rq_path rq ->
      serves_file (static_virtual_file_handler (U:=U) (A:=A) v d) c (join_slash (segments d ++ rest))).
    { intros c Ec. apply (static_matched v d c pre rest b Nq S). rewrite Ec. exact E. }
    destruct (serve_file_value t st rq rv _ _ tr o Es Em Eg SF R) as [resp ->]. exists resp. split; [reflexivity|].
    destruct (serve_file t st rq rv _ _ fs tr resp Es Em Eg SF R F) as [P Q]. auto.
  Qed.

  Theorem static_dir_served_text (l : list (op handler middleware)) t d st (rq : request X) pre rest b fs tr o :
    build l = (t, None) -> no_root_mount l -> no_star_mount l -> In (use_static d) l ->
    (forall p c, registered l p c -> c <> CNode ->
       strict_prefix (text (segments d)) (text p) -> text p = text (segments d ++ [s_star])) ->
    (forall p mw, ~ registered l p (CMw mw)) ->
    rq_method rq = GET -> segments (rq_path rq) = pre ++ rest -> rest <> [] -> seg_match (segments d) pre b ->
    runs (serve t st rq) tr o -> fs_ok fs tr ->
    exists resp, o = Value resp /\ h_headers resp = [] /\
      file_reply fs (join_slash (pre ++ rest)) (h_status resp) (h_body resp).
  Proof.
    intros B N NM I Own NMw G E Nr S R F.
    pose proof (static_dir_registered l d N I) as I'.
    assert (Nq : no_star (segments d)) by (eapply no_star_before; eauto).
    destruct (wildcard_own_text l t (segments d) _ (rq_path rq) b B NM I' Own) as (rv & Es & Eg & Em).
    { rewrite E. apply star_match; assumption. }
    rewrite no_text_mws in Em by exact NMw. rewrite <- G in Eg.
    assert (SF : forall c : context X, rq_path (ctx_request c) = rq_path rq ->
      serves_file (static_dir_file_handler (U:=U) (A:=A)) c (join_slash (pre ++ rest))).
    { intros c Ec. rewrite <- E, <- Ec. apply dir_served. }
    destruct (serve_file_value t st rq rv _ _ tr o Es Em Eg SF R) as [resp ->]. exists resp. split; [reflexivity|].
    destruct (serve_file t st rq rv _ _ fs tr resp Es Em Eg SF R F) as [P Q]. auto.
  Qed.
End StaticText.
