(** Lemmas about [UserSpec] and about what [Logger] prints. *)

From Coq Require Import String.
From Verif Require Import Base Utf8 UrlEncoded RouteTrie Router TableSpec PropSpec Http Form App AppSpec FormSpec UserSpec.
From Verif Require Import RouteFacts RouteLemmas AppLemmas AppLemmas2 AppLemmas3 AppLemmas4 FormLemmas FormLemmas2 FormLemmas3 AppWitness RouteWitness.
Local Open Scope list_scope.

Section Errors.
  Context {X U A : Type}.
  Notation handler := (handler X U A).
  Notation middleware := (middleware X U A).

  Lemma fails_finish e : fails_with (U:=U) (A:=A) (finish (X:=X) (inr e)) (error_text e).
  Proof.
    exists (body_from (utf8 (error_text e))). split; [apply body_from_bytes|]. split; [apply body_from_ok|].
    intros tr o. cbn [finish]. apply runs_ret.
  Qed.

  Lemma reaches_serve (l : list (op handler middleware)) t st rq h ps : built l t -> reaches l rq h ps ->
    exists c, starts rq (ctx_params c) st c /\ (forall n, pget n (ctx_params c) = first_binding ps n) /\
      serve t st rq = bind (h c) finish.
  Proof.
    intros B (ts & R & Eh & Em). destruct (some_lookup l t (rq_path rq) ts ps B R) as (rv & E & Dm & Dr & Dp).
    specialize (Dr (rq_method rq)). rewrite Eh in Dr. cbn [option_map] in Dr.
    exists (first_context rq (rr_params rv) st). rewrite (serve_matched t st rq rv _ E Dr).
    rewrite Em in Dm. rewrite Dm. cbn [next next_from r_handler].
    pose proof (first_context_starts rq (rr_params rv) st) as S. pose proof S as [Ep _]. rewrite Ep.
    split; [exact S|]. split; [exact Dp|reflexivity].
  Qed.

  Theorem merged_panics (l : list (op handler middleware)) t st rq {T} (rest : T -> handler) ps : built l t ->
    reaches l rq (with_form_param rest) ps \/ reaches l rq (with_json_param rest) ps ->
    forall tr o, runs (serve t st rq) tr o <-> tr = [] /\ o = Panicked PUnimplemented.
  Proof.
    intros B R tr o.
    assert (E : serve t st rq = Crash PUnimplemented).
    { destruct R as [R|R]; destruct (reaches_serve l t st rq _ ps B R) as (c & S & Ep & E); rewrite E; reflexivity. }
    rewrite E. split.
    - intros X0. inversion X0. auto.
    - intros [-> ->]. apply run_crash.
  Qed.

  Lemma param_errors (l : list (op handler middleware)) t st rq T (parse : str -> option T) n rest ps :
    built l t -> reaches l rq (with_param parse n rest) ps ->
    (first_binding ps n = None -> fails_with (serve t st rq) (lit "Input should not be None")) /\
    (forall s, first_binding ps n = Some s -> parse s = None ->
       fails_with (serve t st rq) (lit "Failed to parse param " ++ n)) /\
    (forall s x, first_binding ps n = Some s -> parse s = Some x ->
       exists c, (forall n', pget n' (ctx_params c) = first_binding ps n') /\ starts rq (ctx_params c) st c /\ handles (serve t st rq) (rest x c)).
  Proof.
    intros B R. destruct (reaches_serve l t st rq _ ps B R) as (c & S & Ep & E). rewrite E.
    unfold with_param, ctx_param. rewrite Ep. split; [|split].
    - intros ->. apply (fails_finish ENone).
    - intros s -> ->. apply (fails_finish (EParam _)).
    - intros s x -> ->. exists c. split; [exact Ep|]. split; [exact S|]. apply handles_finish.
  Qed.

  Context {F : Type} (pf : bool -> str -> F + str) (msg : mismatch -> str).

  Lemma missing_in_query it1 it2 (l : list (op handler middleware)) t st rq rest ps fs deny pre f post :
    let qs := parse (utf8 (match rq_query rq with Some q => q | None => [] end)) in
    iteration it1 -> iteration it2 -> built l t ->
    reaches l rq (with_query pf msg it1 it2 (TgStruct fs deny) rest) ps ->
    NoDup (map f_name fs) ->
    (deny = true -> forall k, values_of k qs <> [] -> In k (map f_name fs)) ->
    (forall g, In g fs -> values_of (f_name g) qs <> [] -> exists v, gives pf (f_type g) (values_of (f_name g) qs) v) ->
    fs = pre ++ f :: post -> (forall g, In g pre -> exists v, field_value pf qs g v) ->
    required f -> values_of (f_name f) qs = [] ->
    fails_with (serve t st rq) (lit "missing field `" ++ f_name f ++ lit "`").
  Proof.
    intros qs I1 I2 B R Nd Dn Gv Ef Pre Rq Ab. destruct (reaches_serve l t st rq _ ps B R) as (c & S & Ep & E). rewrite E.
    unfold with_query, ctx_query_params. destruct S as (_ & _ & _ & _ & Eq & _). rewrite Eq.
    rewrite (struct_missing_field pf msg it1 it2 I1 I2 fs deny _ pre f post Nd Dn Gv Ef Pre Rq Ab). cbn [queries_result].
    apply (fails_finish (EForm (FMessage _))).
  Qed.

  Lemma query_read it1 it2 (l : list (op handler middleware)) t st rq rest ps fs deny vs :
    let qs := parse (utf8 (match rq_query rq with Some q => q | None => [] end)) in
    iteration it1 -> iteration it2 -> built l t ->
    reaches l rq (with_query pf msg it1 it2 (TgStruct fs deny) rest) ps ->
    NoDup (map f_name fs) -> Forall2 (field_value pf qs) fs vs ->
    (deny = true -> forall k, values_of k qs <> [] -> In k (map f_name fs)) ->
    exists c, (forall n', pget n' (ctx_params c) = first_binding ps n') /\ starts rq (ctx_params c) st c /\ handles (serve t st rq) (rest (RStruct vs) c).
  Proof.
    intros qs I1 I2 B R Nd Fv Dn. destruct (reaches_serve l t st rq _ ps B R) as (c & S & Ep & E). rewrite E.
    exists c. split; [exact Ep|]. split; [exact S|].
    unfold with_query, ctx_query_params. destruct S as (_ & _ & _ & _ & Eq & _). rewrite Eq.
    rewrite (proj2 (struct_result pf msg it1 it2 I1 I2 fs deny _ vs Nd) (conj Fv Dn)). cbn [queries_result].
    apply handles_finish.
  Qed.

  Lemma form_read it1 it2 (l : list (op handler middleware)) t st rq rest ps fs deny vs :
    let qs := parse (body_bytes (rq_body rq)) in
    iteration it1 -> iteration it2 -> built l t ->
    reaches l rq (with_form pf msg it1 it2 (TgStruct fs deny) rest) ps ->
    broken (rq_body rq) = false -> one_chunk (rq_body rq) ->
    NoDup (map f_name fs) -> Forall2 (field_value pf qs) fs vs ->
    (deny = true -> forall k, values_of k qs <> [] -> In k (map f_name fs)) ->
    exists c c', (forall n, pget n (ctx_params c) = first_binding ps n) /\ starts rq (ctx_params c) st c /\ same_but_body c c' /\ rq_body (ctx_request c') = body_empty /\
      handles (serve t st rq) (rest (RStruct vs) c').
  Proof.
    intros qs I1 I2 B R Br Oc Nd Fv Dn. destruct (reaches_serve l t st rq _ ps B R) as (c & S & Ep & E). rewrite E.
    exists c, (set_rq_body body_empty c). split; [exact Ep|]. split; [exact S|]. split; [repeat split|]. split; [reflexivity|].
    unfold with_form, ctx_form, read_body, take_body. destruct S as (_ & _ & _ & _ & _ & _ & Eb & _). rewrite Eb.
    pose proof (one_chunk_read (X:=X) (fun b => queries_result (parse_queries pf msg it1 it2 (TgStruct fs deny) b)) c) as O.
    unfold read_body, take_body in O. rewrite Eb in O. cbn [fst] in O. rewrite O by assumption.
    rewrite (proj2 (struct_result pf msg it1 it2 I1 I2 fs deny _ vs Nd) (conj Fv Dn)). cbn [queries_result].
    apply handles_finish.
  Qed.

  Lemma missing_in_form it1 it2 (l : list (op handler middleware)) t st rq rest ps fs deny pre f post :
    let qs := parse (body_bytes (rq_body rq)) in
    iteration it1 -> iteration it2 -> built l t ->
    reaches l rq (with_form pf msg it1 it2 (TgStruct fs deny) rest) ps ->
    broken (rq_body rq) = false -> one_chunk (rq_body rq) ->
    NoDup (map f_name fs) ->
    (deny = true -> forall k, values_of k qs <> [] -> In k (map f_name fs)) ->
    (forall g, In g fs -> values_of (f_name g) qs <> [] -> exists v, gives pf (f_type g) (values_of (f_name g) qs) v) ->
    fs = pre ++ f :: post -> (forall g, In g pre -> exists v, field_value pf qs g v) ->
    required f -> values_of (f_name f) qs = [] ->
    fails_with (serve t st rq) (lit "missing field `" ++ f_name f ++ lit "`").
  Proof.
    intros qs I1 I2 B R Br Oc Nd Dn Gv Ef Pre Rq Ab. destruct (reaches_serve l t st rq _ ps B R) as (c & S & Ep & E). rewrite E.
    unfold with_form, ctx_form, read_body, take_body. destruct S as (_ & _ & _ & _ & _ & _ & Eb & _). rewrite Eb.
    pose proof (one_chunk_read (X:=X) (fun b => queries_result (parse_queries pf msg it1 it2 (TgStruct fs deny) b)) c) as O.
    unfold read_body, take_body in O. rewrite Eb in O. cbn [fst] in O. rewrite O by assumption.
    rewrite (struct_missing_field pf msg it1 it2 I1 I2 fs deny _ pre f post Nd Dn Gv Ef Pre Rq Ab). cbn [queries_result].
    apply (fails_finish (EForm (FMessage _))).
  Qed.
End Errors.

(** ** Lines of the Logger *)

Section Lines.
  Context {X U A : Type}.
  Notation handler := (handler X U A).
  Notation middleware := (middleware X U A).

  Lemma logged_chain d mws (h : handler) c tr o : runs (bind (next (logger d :: mws) h c) finish) tr o ->
    exists mid last, tr = EvPrint (LRequest (rq_method (ctx_request c)) (rq_path (ctx_request c)) (rq_query (ctx_request c)))
                          :: (if d then [EvPrint LDebug] else []) ++ mid ++ last /\
      match o with
      | Value resp => last = [EvPrint (LSent (h_status resp))] \/
          exists e, last = [EvPrint (LError e)] /\ h_status resp = 500%N /\ body_bytes (h_body resp) = utf8 e
      | Panicked _ => True
      end.
  Proof.
    intros R.
    assert (Ls : forall t, goes (U:=U) (A:=A) (logger d c) t (Calls 0 c logger_after) ->
      t = EvPrint (LRequest (rq_method (ctx_request c)) (rq_path (ctx_request c)) (rq_query (ctx_request c)))
          :: (if d then [EvPrint LDebug] else [])).
    { unfold logger. intros t G. inversion G; subst. f_equal. destruct d; [|inversion H3; reflexivity].
      inversion H3; subst. inversion H4; reflexivity. }
    apply runs_bind in R as [(t1 & t2 & r & -> & R1 & R2)|(p & -> & R)].
    - apply logger_next in R1 as (t3 & t4 & -> & G & [(t5 & t6 & r' & -> & R3 & R4)|(p & E & _)]); [|discriminate E].
      apply finish_runs in R2 as [-> P]. rewrite app_nil_r.
      exists t5, t6. split; [rewrite (Ls _ G); reflexivity|].
      unfold logger_after in R4. destruct r' as [c'|e].
      + destruct (ctx_response c') as [res|] eqn:Er; cbn [exec] in R4.
        * apply runs_print in R4 as (t & -> & R4). apply runs_ret in R4 as [-> E]. injection E as ->.
          destruct o as [resp|p]; [|exact I]. left.
          inversion P as [| ? ? E' | ? res' hm E' | ]; subst; [congruence|].
          assert (res' = res) by congruence. subst. reflexivity.
        * apply runs_crash in R4 as [_ E]. discriminate E.
      + cbn [exec] in R4. apply runs_print in R4 as (t & -> & R4). apply runs_ret in R4 as [-> E]. injection E as ->.
        destruct o as [resp|p]; [|exact I]. right. inversion P; subst. exists (error_text e). auto.
    - apply logger_next in R as (t3 & t4 & -> & G & _). exists t4, []. split; [|exact I].
      rewrite app_nil_r, (Ls _ G). reflexivity.
  Qed.

  Lemma logged_server d (l : list (op handler middleware)) t : built l t -> no_root_mount l ->
    exists t', built (app_default d ++ l) t' /\ forall st rq ts ps h,
      resolves (table_of l) (segments (rq_path rq)) ts ps ->
      handler_for (rq_method rq) (routes_at (table_of l) ts) = Some h ->
      forall tr o, runs (serve t' st rq) tr o ->
      exists mid last, tr = EvPrint (LRequest (rq_method rq) (rq_path rq) (rq_query rq))
                            :: (if d then [EvPrint LDebug] else []) ++ mid ++ last /\
        match o with
        | Value resp => last = [EvPrint (LSent (h_status resp))] \/
            exists e, last = [EvPrint (LError e)] /\ h_status resp = 500%N /\ body_bytes (h_body resp) = utf8 e
        | Panicked _ => True
        end.
  Proof.
    intros B N. destruct (root_built (logger d) l t B N) as [t' B']. exists t'. split; [exact B'|].
    intros st rq ts ps h R Eh tr o Rn. destruct (root_serve (logger d) l t t' st rq B N B')
      as [(ts' & ps' & h' & pm & c & R' & Eh' & _ & S & E & E')|(E & E')].
    - rewrite E' in Rn. apply logged_chain in Rn as (mid & la & Et & K). exists mid, la.
      destruct S as (_ & _ & Em & Ep & Eq & _). rewrite Em, Ep, Eq in Et. split; [exact Et|exact K].
    - exfalso. destruct (some_lookup l t (rq_path rq) ts ps B R) as (rv & L & Dm & Dr & Dp).
      specialize (Dr (rq_method rq)). rewrite Eh in Dr. cbn [option_map] in Dr.
      rewrite (serve_matched t st rq rv _ L Dr) in E.
      destruct (root_lookup (logger d) l t t' (rq_path rq) B N B') as [(ts2 & ps2 & r & r' & RS & L1 & L1' & Em & Em' & Ep & G)|(L1 & L1')];
        [|congruence].
      destruct (G (rq_method rq)) as [G1 _]. assert (r = rv) by congruence. subst r. rewrite Dr in G1.
      rewrite (serve_matched t' st rq r' _ L1' G1), Em' in E'. cbn [next next_from] in E'. unfold logger in E'. discriminate E'.
  Qed.
End Lines.

(** ** Witnesses *)

Local Open Scope string_scope.
Local Open Scope list_scope.

Lemma w_unlogged : forall (X U A : Type) d, exists (l : list (op (handler X U A) (middleware X U A))) t rq resp,
  built (app_default d ++ l) t /\ runs (serve t None rq) [] (Value resp).
Proof.
  intros X U A d.
  assert (L : forall (H M : Type) (m : M), exists t, @built H M [OService m] t /\
    match search_route t (lit "/a") with LNone => True | LSome rv => rr_get_route rv GET = None | _ => False end)
    by (intros H M m; eexists; split; [built_by|vm_compute; exact I || reflexivity]).
  destruct (L (handler X U A) _ (@logger X U A d)) as (t & B & E).
  exists [], t, (get_req (lit "/a")). eexists. split; [exact B|]. rewrite serve_unmatched; [constructor|].
  cbn [rq_path rq_method get_req]. destruct (search_route t (lit "/a")) as [p| |rv]; [destruct E|left; reflexivity|right; eauto].
Qed.

Lemma w_sent_lost : forall (X U A : Type) d, exists (l : list (op (handler X U A) (middleware X U A))) t rq tr s p,
  built (app_default d ++ l) t /\ runs (serve t None rq) tr (Panicked p) /\ In (EvPrint (LSent s)) tr.
Proof.
  intros X U A d. pose (r := Response body_empty 200%N (Some [(lit "x-name", [233%N])])).
  assert (L : forall (H M : Type) (h : H) (m : M), exists t rv, built [OService m; ORoute GET (lit "/") h] t /\
    search_route t (lit "/") = LSome rv /\ rr_get_route rv GET = Some (Route GET h) /\ rr_mws rv = [m])
    by (intros H M h m; one).
  destruct (L _ _ (@answer_with X U A r) (@logger X U A d)) as (t & rv & B & E & G & M).
  exists [ORoute GET (lit "/") (answer_with r)], t, (get_req (lit "/")),
    (EvPrint (LRequest GET (lit "/") None) :: (if d then [EvPrint LDebug] else []) ++ [EvPrint (LSent 200%N)]), 200%N, PHeaderValue.
  split; [exact B|]. rewrite (serve_matched t None (get_req (lit "/")) rv _ E G), M. split.
  - cbn [next next_from]. unfold logger. destruct d; cbn -[lit].
    + do 3 apply run_print. vm_compute. apply run_crash.
    + do 2 apply run_print. vm_compute. apply run_crash.
  - right. apply in_or_app. right. left. reflexivity.
Qed.

(** A request that reaches the only route of a server. *)
Lemma one_reaches {X U A} (path : str) (rq : request X) (h : handler X U A) : rq_method rq = GET ->
  @one_route _ (middleware X U A) path (rq_path rq) h ->
  exists t ps, built [@ORoute _ (middleware X U A) GET path h] t /\ reaches [@ORoute _ (middleware X U A) GET path h] rq h ps.
Proof.
  intros Em (t & rv & B & E & G & M). destruct (lookup_some _ t (rq_path rq) rv B E) as (ts & ps & R & (Dm & D & _)).
  exists t, ps. split; [exact B|]. exists ts. split; [exact R|]. rewrite Em. specialize (D GET). rewrite G in D. split.
  - destruct (handler_for GET (routes_at (table_of [ORoute GET path h]) ts)) as [h'|]; [|discriminate D].
    cbn [option_map] in D. congruence.
  - rewrite <- Dm. exact M.
Qed.

Lemma one_a {H M} (h : H) : @one_route H M (lit "/a") (lit "/a") h.
Proof. one. Qed.

Lemma one_u7 {H M} (h : H) : @one_route H M (lit "/u/:id") (lit "/u/7") h.
Proof. one. Qed.
