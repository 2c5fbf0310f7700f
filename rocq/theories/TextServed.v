(** Lemmas about requests to a registered route of any accepted router. *)

From Coq Require Import String.
From Verif Require Import Base BaseFacts Utf8 RouteTrie Router TableSpec PropSpec TextSpec Http App AppSpec UserSpec TrieTotal.
From Verif Require Import RouteLemmas4 TextOwn TextMore AppLemmas AppLemmas2 AppLemmas3 AppLemmas4 UserLemmas UserLemmas2.
Local Open Scope list_scope.

Section Served.
  Context {X U A : Type}.
  Notation handler := (handler X U A).
  Notation middleware := (middleware X U A).

  (** ** One route *)

  Section Own.
    Context (l : list (op handler middleware)) (t : trie handler middleware).
    Context (st : option (N * X)) (rq : request X) (p : list str) (b : list (str * str)) (h : handler).
    Context (B : build l = (t, None)) (I : registered l p (CRoute (rq_method rq) h)).
    Context (NS : no_star p) (SM : seg_match p (segments (rq_path rq)) b).
    Notation chain := (next (text_mws (table_of l) (text p)) h).

    Lemma own_chain : exists pm c, (forall n, pget n pm = first_binding b n) /\ starts rq pm st c /\ handles (serve t st rq) (chain c).
    Proof.
      destruct (own_text l t p _ (rq_path rq) b B I ltac:(discriminate) NS SM) as (r & E & HO & P).
      pose proof (proj2 HO (rq_method rq)) as G. rewrite (text_handler l t p _ h B I) in G. cbn [option_map] in G.
      destruct (any_handled t st rq r _ h E G) as (c & St & Hd). exists (rr_params r), c. rewrite <- (proj1 HO). auto.
    Qed.

    Lemma own_error : exists pm c, (forall n, pget n pm = first_binding b n) /\ starts rq pm st c /\
      forall tr e, runs (chain c) tr (Value (inr e)) ->
        exists bd, body_bytes bd = utf8 (error_text e) /\ broken bd = false /\
          forall o, runs (serve t st rq) tr o <-> o = Value (HttpResponse 500%N [] bd).
    Proof.
      destruct own_chain as (pm & c & Pm & St & Hd). exists pm, c. split; [exact Pm|]. split; [exact St|].
      intros tr e R. destruct (handled_reply _ _ _ _ Hd R) as (o & P & E).
      inversion P as [e' bd Eb Br| | |]; subst. exists bd. auto.
    Qed.

    Lemma own_response : exists pm c, (forall n, pget n pm = first_binding b n) /\ starts rq pm st c /\
      forall tr c', runs (chain c) tr (Value (inl c')) ->
        (ctx_response c' = None -> exists bd, body_bytes bd = [] /\ broken bd = false /\
           forall o, runs (serve t st rq) tr o <-> o = Value (HttpResponse 200%N [] bd)) /\
        (forall r, ctx_response c' = Some r -> (forall k v, In (k, v) (header_list r) -> header_text v) ->
           exists hm, NoDup (map fst hm) /\ (forall k v, In (k, v) hm <-> last_value k (header_list r) = Some v) /\
             forall o, runs (serve t st rq) tr o <-> o = Value (HttpResponse (res_status r) hm (res_body r))) /\
        (forall r k v, ctx_response c' = Some r -> In (k, v) (header_list r) -> ~ header_text v ->
           forall o, runs (serve t st rq) tr o <-> o = Panicked PHeaderValue).
    Proof.
      destruct own_chain as (pm & c & Pm & St & Hd). exists pm, c. split; [exact Pm|]. split; [exact St|].
      intros tr c' R. destruct (handled_reply _ _ _ _ Hd R) as (o & P & E).
      inversion P as [|c2 bd N Eb Br|c2 r2 hm E2 T2 ND K|c2 r2 k v E2 J NT]; subst.
      - split; [intros _; exists bd; auto|]. split; intros; congruence.
      - split; [congruence|]. split; [intros r Er _; rewrite E2 in Er; injection Er as <-; exists hm; auto|].
        intros r k v Er J NT. rewrite E2 in Er. injection Er as <-. exfalso. exact (NT (T2 _ _ J)).
      - split; [congruence|]. split; [|intros; exact (E o)].
        intros r Er T. rewrite E2 in Er. injection Er as <-. exfalso. exact (NT (T _ _ J)).
    Qed.

    Lemma own_bad_header : exists pm c, (forall n, pget n pm = first_binding b n) /\ starts rq pm st c /\
      forall tr c' r k v, runs (chain c) tr (Value (inl c')) -> ctx_response c' = Some r ->
        In (k, v) (header_list r) -> ~ header_text v ->
        forall o, runs (serve t st rq) tr o <-> o = Panicked PHeaderValue.
    Proof.
      destruct own_response as (pm & c & Pm & St & K). exists pm, c. split; [exact Pm|]. split; [exact St|].
      intros tr c' r k v R Er J NT. exact (proj2 (proj2 (K tr c' R)) r k v Er J NT).
    Qed.

    Lemma own_distinct : exists pm c, (forall n, pget n pm = first_binding b n) /\ starts rq pm st c /\
      forall tr c' r o k v, runs (chain c) tr (Value (inl c')) -> ctx_response c' = Some r ->
        (forall k v, In (k, v) (header_list r) -> header_text v) -> NoDup (map fst (header_list r)) ->
        runs (serve t st rq) tr o -> In (k, v) (header_list r) ->
        exists resp, o = Value resp /\ In (k, v) (h_headers resp).
    Proof.
      destruct own_response as (pm & c & Pm & St & K). exists pm, c. split; [exact Pm|]. split; [exact St|].
      intros tr c' r o k v R Er T ND Ro J. destruct (proj1 (proj2 (K tr c' R)) r Er T) as (hm & _ & Kh & E).
      apply E in Ro as ->. eexists. split; [reflexivity|]. apply Kh. apply last_value_distinct; assumption.
    Qed.

    Lemma own_state : exists pm c, handles (serve t st rq) (chain c) /\
      (forall n, pget n pm = first_binding b n) /\ ctx_params c = pm /\
      (forall ty x, st = Some (ty, x) -> ctx_get ty c = Some x /\
         forall ty', ty' <> ty -> ctx_get ty' c = aget N.eqb ty' (rq_ext rq)) /\
      (st = None -> forall ty, ctx_get ty c = aget N.eqb ty (rq_ext rq)).
    Proof.
      destruct own_chain as (pm & c & Pm & St & Hd). exists pm, c.
      destruct St as (P & _ & _ & _ & _ & _ & _ & S). split; [exact Hd|]. split; [exact Pm|]. split; [exact P|]. split.
      - intros ty x ->. exact S.
      - intros ->. intros ty. unfold ctx_get. rewrite S. reflexivity.
    Qed.
  End Own.

  (** ** Every request *)

  Lemma every_request (l : list (op handler middleware)) t st (rq : request X) : build l = (t, None) ->
    (exists p h pm c, registered l p (CRoute (rq_method rq) h) /\ starts rq pm st c /\
       handles (serve t st rq) (next (text_mws (table_of l) (text p)) h c)) \/
    (forall tr o, runs (serve t st rq) tr o <->
       tr = [] /\ o = Value (HttpResponse 404%N [] (Body [utf8 (lit "404 Not Found")] false))).
  Proof.
    intros B. destruct (search_route t (rq_path rq)) as [pn| |r] eqn:E.
    - exfalso. exact (lookup_no_panic t (rq_path rq) pn E).
    - right. intros tr o. rewrite serve_unmatched by (left; exact E). apply runs_ret.
    - destruct (rr_get_route r (rq_method rq)) as [rt|] eqn:Er.
      + left. destruct (text_method_registered l t (rq_path rq) r _ _ B E Er) as (p & h & J & -> & HO).
        destruct (any_handled t st rq r _ h E Er) as (c & St & Hd). exists p, h, (rr_params r), c. rewrite <- (proj1 HO). auto.
      + right. intros tr o. rewrite serve_unmatched by (right; exists r; auto). apply runs_ret.
  Qed.

  Lemma other_methods_text (l : list (op handler middleware)) t st (rq : request X) :
    build l = (t, None) -> api_only l -> ~ api_method (rq_method rq) ->
    forall tr o, runs (serve t st rq) tr o <->
      tr = [] /\ o = Value (HttpResponse 404%N [] (Body [utf8 (lit "404 Not Found")] false)).
  Proof.
    intros B Ap Nm. destruct (every_request l t st rq B) as [(p & h & pm & c & J & _)|E]; [|exact E].
    exfalso. exact (Nm (Ap _ _ _ J)).
  Qed.
End Served.
