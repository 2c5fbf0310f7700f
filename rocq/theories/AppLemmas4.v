(** Lemmas about request handling: the reply to each kind of result, responders,
    reading parameters and bodies. *)

From Coq Require Import String.
From Verif Require Import Base BaseFacts Utf8 Utf8Facts RouteTrie Router TableSpec PropSpec.
From Verif Require Import RouteFacts RouteLemmas RouteLemmas2.
From Verif Require Import Http App AppSpec AppLemmas AppLemmas2 AppLemmas3.
Local Open Scope list_scope.

Section Replies.
  Context {X U A : Type}.
  Notation handler := (handler X U A).
  Notation middleware := (middleware X U A).

  (** Given its trace, the reply to a result is determined. *)
  Lemma handled_reply (prog : comp U A http_response) (chain : comp U A (result X)) tr r :
    handles prog chain -> runs chain tr (Value r) ->
    exists o, replies r o /\ forall o', runs prog tr o' <-> o' = o.
  Proof.
    intros (_ & A2 & _) R. destruct (A2 _ _ R) as (o & R' & P). exists o. split; [exact P|].
    intros o'. split; [intros R2; exact (runs_fun _ _ _ _ R2 R')|intros ->; exact R'].
  Qed.

  Section Matched.
    Context (l : list (op handler middleware)) (t : trie handler middleware).
    Context (st : option (N * X)) (rq : request X) (ts : list tok) (ps : list (str * str)) (h : handler).
    Context (B : built l t) (RS : resolves (table_of l) (segments (rq_path rq)) ts ps).
    Context (Eh : handler_for (rq_method rq) (routes_at (table_of l) ts) = Some h).

    Lemma error_500 : exists pm c, (forall n, pget n pm = first_binding ps n) /\ starts rq pm st c /\
      forall tr e, runs (next (mws_for (table_of l) ts) h c) tr (Value (inr e)) ->
        exists b, body_bytes b = utf8 (error_text e) /\ broken b = false /\
          forall o, runs (serve t st rq) tr o <-> o = Value (HttpResponse 500%N [] b).
    Proof.
      destruct (end_to_end l t st rq ts ps h B RS Eh) as (pm & c & Pm & St & Hd). exists pm, c. split; [exact Pm|]. split; [exact St|].
      intros tr e R. destruct (handled_reply _ _ _ _ Hd R) as (o & P & E).
      inversion P as [e' b Eb Br| | |]; subst. exists b. auto.
    Qed.

    Lemma response_delivered : exists pm c, (forall n, pget n pm = first_binding ps n) /\ starts rq pm st c /\
      forall tr c' r, runs (next (mws_for (table_of l) ts) h c) tr (Value (inl c')) -> ctx_response c' = Some r ->
        (forall k v, In (k, v) (header_list r) -> header_text v) ->
        exists hm, NoDup (map fst hm) /\
          (forall k v, In (k, v) hm <-> last_value k (header_list r) = Some v) /\
          forall o, runs (serve t st rq) tr o <-> o = Value (HttpResponse (res_status r) hm (res_body r)).
    Proof.
      destruct (end_to_end l t st rq ts ps h B RS Eh) as (pm & c & Pm & St & Hd). exists pm, c. split; [exact Pm|]. split; [exact St|].
      intros tr c' r R Er T. destruct (handled_reply _ _ _ _ Hd R) as (o & P & E).
      inversion P as [|c2 b N|c2 r2 hm E2 T2 ND K|c2 r2 k v E2 I NT]; subst.
      - congruence.
      - rewrite E2 in Er. injection Er as <-. exists hm. auto.
      - rewrite E2 in Er. injection Er as <-. exfalso. exact (NT (T _ _ I)).
    Qed.

    Lemma no_response_empty : exists pm c, (forall n, pget n pm = first_binding ps n) /\ starts rq pm st c /\
      forall tr c', runs (next (mws_for (table_of l) ts) h c) tr (Value (inl c')) -> ctx_response c' = None ->
        exists b, body_bytes b = [] /\ broken b = false /\
          forall o, runs (serve t st rq) tr o <-> o = Value (HttpResponse 200%N [] b).
    Proof.
      destruct (end_to_end l t st rq ts ps h B RS Eh) as (pm & c & Pm & St & Hd). exists pm, c. split; [exact Pm|]. split; [exact St|].
      intros tr c' R Er. destruct (handled_reply _ _ _ _ Hd R) as (o & P & E).
      inversion P as [|c2 b N Eb Br|c2 r2 hm E2 T2 ND K|c2 r2 k v E2 I NT]; subst; try congruence. exists b. auto.
    Qed.

    Lemma distinct_headers : exists pm c, (forall n, pget n pm = first_binding ps n) /\ starts rq pm st c /\
      forall tr c' r o k v, runs (next (mws_for (table_of l) ts) h c) tr (Value (inl c')) -> ctx_response c' = Some r ->
        (forall k v, In (k, v) (header_list r) -> header_text v) -> NoDup (map fst (header_list r)) ->
        runs (serve t st rq) tr o -> In (k, v) (header_list r) ->
        exists resp, o = Value resp /\ In (k, v) (h_headers resp).
    Proof.
      destruct response_delivered as (pm & c & Pm & St & K). exists pm, c. split; [exact Pm|]. split; [exact St|].
      intros tr c' r o k v R Er T ND Ro I. destruct (K tr c' r R Er T) as (hm & _ & Kh & E).
      apply E in Ro as ->. eexists. split; [reflexivity|]. apply Kh. apply last_value_distinct; assumption.
    Qed.

    Lemma bad_header : exists pm c, (forall n, pget n pm = first_binding ps n) /\ starts rq pm st c /\
      forall tr c' r k v, runs (next (mws_for (table_of l) ts) h c) tr (Value (inl c')) -> ctx_response c' = Some r ->
        In (k, v) (header_list r) -> ~ header_text v ->
        forall o, runs (serve t st rq) tr o <-> o = Panicked PHeaderValue.
    Proof.
      destruct (end_to_end l t st rq ts ps h B RS Eh) as (pm & c & Pm & St & Hd). exists pm, c. split; [exact Pm|]. split; [exact St|].
      intros tr c' r k v R Er I NT. destruct (handled_reply _ _ _ _ Hd R) as (o & P & E).
      inversion P as [|c2 b N|c2 r2 hm E2 T2 ND K|c2 r2 k2 v2 E2 I2 NT2]; subst.
      - congruence.
      - rewrite E2 in Er. injection Er as <-. exfalso. exact (NT (T2 _ _ I)).
      - exact E.
    Qed.

    Lemma app_state : exists pm c, handles (serve t st rq) (next (mws_for (table_of l) ts) h c) /\
      (forall n, pget n pm = first_binding ps n) /\ ctx_params c = pm /\
      (forall ty x, st = Some (ty, x) -> ctx_get ty c = Some x /\
         forall ty', ty' <> ty -> ctx_get ty' c = aget N.eqb ty' (rq_ext rq)) /\
      (st = None -> forall ty, ctx_get ty c = aget N.eqb ty (rq_ext rq)).
    Proof.
      destruct (end_to_end l t st rq ts ps h B RS Eh) as (pm & c & Pm & St & Hd). exists pm, c.
      destruct St as (P & _ & _ & _ & _ & _ & _ & S). split; [exact Hd|]. split; [exact Pm|]. split; [exact P|]. split.
      - intros ty x ->. exact S.
      - intros ->. intros ty. unfold ctx_get. rewrite S. reflexivity.
    Qed.
  End Matched.
End Replies.

(** ** Responses *)

Lemma response_laws : forall r,
  (forall s, res_status (set_status s r) = s /\ res_body (set_status s r) = res_body r /\
     header_list (set_status s r) = header_list r) /\
  (forall b, res_status (set_body b r) = res_status r /\ header_list (set_body b r) = header_list r /\
     res_body (set_body b r) = res_body (response_new b)) /\
  (forall k v, res_status (set_header k v r) = res_status r /\ res_body (set_header k v r) = res_body r /\
     header_list (set_header k v r) = header_list r ++ [(k, v)]) /\
  (forall l, res_status (set_headers l r) = res_status r /\ res_body (set_headers l r) = res_body r /\
     header_list (set_headers l r) = header_list r ++ l).
Proof.
  intros r. split; [|split; [|split]]; intros; (split; [reflexivity|]); (split; [reflexivity|]); try reflexivity.
  - apply set_header_list.
  - apply set_headers_list.
Qed.

Lemma into_body_bytes b : body_bytes (into_body b) =
    match b with BUnit => [] | BStatic s | BString s => utf8 s | BBytes v => utf8 (json_of_bytes v) end /\
  broken (into_body b) = false.
Proof. destruct b; cbn [into_body]; split; try reflexivity; auto using body_from_bytes, body_from_ok. Qed.

Lemma responders :
  (forall s, sends (respond_to (RString s)) 200%N (utf8 s) (Some (lit "text/plain; charset=utf-8"))) /\
  (forall s, sends (respond_to (RStatic s)) 200%N (utf8 s) (Some (lit "text/plain; charset=utf-8"))) /\
  sends (respond_to RUnit) 200%N [] None /\
  (forall st, sends (respond_to (RStatus st)) st [] None) /\
  (forall st s, sends (respond_to (RWithStatus st (BString s))) st (utf8 s) None /\
                sends (respond_to (RWithStatus st (BStatic s))) st (utf8 s) None) /\
  (forall st, sends (respond_to (RWithStatus st BUnit)) st [] None) /\
  (forall st v, exists text, json_array v text /\ sends (respond_to (RWithStatus st (BBytes v))) st (utf8 text) None) /\
  (forall v, exists text, json_array v text /\ sends (respond_to (RBytes v)) 200%N (utf8 text) None) /\
  (forall s, sends (respond_to (ROptString (Some s))) 200%N (utf8 s) (Some (lit "text/plain; charset=utf-8")) /\
             sends (respond_to (ROptStatic (Some s))) 200%N (utf8 s) (Some (lit "text/plain; charset=utf-8"))) /\
  sends (respond_to (ROptString None)) 404%N (utf8 (lit "Not Found")) None /\
  sends (respond_to (ROptStatic None)) 404%N (utf8 (lit "Not Found")) None /\
  (forall r, respond_to (RResponse r) = r).
Proof.
  assert (K : forall b st ct l, match ct with Some t => [(lit "content-type", t)] | None => [] end = match l with Some x => x | None => [] end ->
    forall bs, body_bytes (into_body b) = bs -> sends (Response (into_body b) st l) st bs ct).
  { intros b st ct l E bs Eb. split; [reflexivity|]. split; [exact Eb|]. split; [apply into_body_bytes|]. symmetry. exact E. }
  repeat match goal with |- _ /\ _ => split end; intros; repeat match goal with |- _ /\ _ => split end;
    try (apply K; [reflexivity|apply into_body_bytes]).
  - exists (json_of_bytes v). split; [apply json_of_bytes_array|]. apply K; [reflexivity|]. apply into_body_bytes.
  - exists (json_of_bytes v). split; [apply json_of_bytes_array|]. apply K; [reflexivity|]. apply (into_body_bytes (BString _)).
  - reflexivity.
Qed.

(** [html] and [json]. *)
Lemma html_json : forall r,
  (forall s, let r' := html (BString s) r in
     res_status r' = res_status r /\ body_bytes (res_body r') = utf8 s /\
     header_list r' = header_list r ++ [(lit "content-type", lit "text/html")]) /\
  (forall text, let r' := json (inl text) r in
     res_status r' = res_status r /\ body_bytes (res_body r') = utf8 text /\
     header_list r' = header_list r ++ [(lit "content-type", lit "application/json")]) /\
  (forall err, let r' := json (inr err) r in
     res_status r' = 500%N /\ body_bytes (res_body r') = utf8 err /\
     header_list r' = header_list r ++ [(lit "content-type", lit "application/json")]).
Proof.
  intros r. split; [|split]; intros s r'; unfold r'; (split; [reflexivity|]); (split; [apply (into_body_bytes (BString _))|]);
    exact (set_header_list content_type _ r).
Qed.

(** ** Parameters and bodies *)

Section Reading.
  Context {X : Type}.

  Lemma param_cases {T} (parse : str -> option T) key (c : context X) :
    (forall v x, pget key (ctx_params c) = Some v -> parse v = Some x -> ctx_param parse key c = inl x) /\
    (forall v, pget key (ctx_params c) = Some v -> parse v = None ->
       ctx_param parse key c = inr (EParam (lit "Failed to parse param " ++ key))) /\
    (pget key (ctx_params c) = None -> ctx_param parse key c = inr ENone).
  Proof.
    unfold ctx_param. split; [|split].
    - intros v x -> ->. reflexivity.
    - intros v -> ->. reflexivity.
    - intros ->. reflexivity.
  Qed.

  Lemma body_once {T T'} (parse : bytes -> T + oerror) (parse' : bytes -> T' + oerror) (c : context X) :
    let c' := snd (read_body parse c) in
    same_but_body c c' /\ body_bytes (rq_body (ctx_request c')) = [] /\
    fst (read_body parse' c') = parse' [].
  Proof. cbn. unfold same_but_body. cbn. auto 10. Qed.

  Lemma taken_once {T} (parse : bytes -> T + oerror) (c : context X) :
    let '(b, c') := take_body c in
    b = rq_body (ctx_request c) /\ same_but_body c c' /\ body_bytes (rq_body (ctx_request c')) = [] /\
    fst (read_body parse c') = parse [].
  Proof. cbn. unfold same_but_body. cbn. auto 12. Qed.

  (** What is read: the first non-empty chunk. *)
  Lemma read_first {T} (parse : bytes -> T + oerror) (c : context X) :
    let b := rq_body (ctx_request c) in
    (broken b = true -> fst (read_body parse c) = inr ENone) /\
    (broken b = false -> (forall x, In x (chunks b) -> x = []) -> fst (read_body parse c) = parse []) /\
    (forall l1 x l2, broken b = false -> chunks b = l1 ++ x :: l2 -> x <> [] -> (forall y, In y l1 -> y = []) ->
       fst (read_body parse c) = parse x).
  Proof.
    cbn [read_body take_body fst]. unfold aggregate. split; [|split].
    - intros ->. reflexivity.
    - intros -> N. assert (E : filter (fun c => negb (is_empty c)) (chunks (rq_body (ctx_request c))) = []).
      { induction (chunks (rq_body (ctx_request c))) as [|x l IH]; [reflexivity|]. cbn [filter].
        rewrite (N x) by (left; reflexivity). cbn. apply IH. intros y I. apply N. right. exact I. }
      rewrite E. reflexivity.
    - intros l1 x l2 -> -> Nx N.
      assert (E : filter (fun c => negb (is_empty c)) (l1 ++ x :: l2) = x :: filter (fun c => negb (is_empty c)) l2).
      { rewrite filter_app. induction l1 as [|y l1 IH]; cbn [filter app].
        - destruct x; [congruence|]. reflexivity.
        - rewrite (N y) by (left; reflexivity). cbn. apply IH. intros z I. apply N. right. exact I. }
      rewrite E. reflexivity.
  Qed.

  Lemma concat_empty (l : list bytes) : (forall y, In y l -> y = []) -> concat l = [].
  Proof.
    induction l as [|y l IH]; intros N; [reflexivity|]. cbn. rewrite (N y) by (left; reflexivity).
    apply IH. intros z I. apply N. right. exact I.
  Qed.

  Lemma one_chunk_read {T} (parse : bytes -> T + oerror) (c : context X) :
    let b := rq_body (ctx_request c) in
    broken b = false -> one_chunk b -> fst (read_body parse c) = parse (body_bytes b).
  Proof.
    intros b Br [E|(l1 & x & l2 & E & N)].
    { unfold body_bytes. rewrite E. apply read_first; [exact Br|]. fold b. rewrite E. intros x []. }
    unfold body_bytes. rewrite E, concat_app. cbn [concat].
    rewrite (concat_empty l1), (concat_empty l2) by (intros y I; apply N; auto). cbn [app]. rewrite app_nil_r.
    destruct (read_first parse c) as (_ & K2 & K3). destruct x as [|a x].
    - apply K2; [exact Br|]. fold b. rewrite E. intros y I. apply in_app_iff in I as [I|[<-|I]]; auto.
    - apply (K3 l1 (a :: x) l2); auto. discriminate.
  Qed.

  (** A parser that sees the difference between some data and an extension of it
      makes the result depend on the chunking. *)
  Lemma chunking_matters {T} (parse : bytes -> T + oerror) (d e : bytes) (c : context X) :
    d <> [] -> parse d <> parse (d ++ e) ->
    exists c1 c2, same_but_body c c1 /\ same_but_body c c2 /\
      body_bytes (rq_body (ctx_request c1)) = d ++ e /\ body_bytes (rq_body (ctx_request c2)) = d ++ e /\
      broken (rq_body (ctx_request c1)) = false /\ broken (rq_body (ctx_request c2)) = false /\
      fst (read_body parse c1) <> fst (read_body parse c2).
  Proof.
    intros Nd Ne. exists (set_rq_body (Body [d ++ e] false) c), (set_rq_body (Body [d; e] false) c).
    split; [unfold same_but_body; cbn; auto 10|]. split; [unfold same_but_body; cbn; auto 10|].
    split; [unfold body_bytes; cbn; apply app_nil_r|]. split; [unfold body_bytes; cbn; rewrite app_nil_r; reflexivity|].
    split; [reflexivity|]. split; [reflexivity|]. cbn.
    destruct d as [|a d]; [congruence|]. cbn in *. intros E. apply Ne. symmetry. exact E.
  Qed.
End Reading.

(** ** Paths of static files *)

Lemma join_app l rest : l <> [] -> rest <> [] -> join_slash (l ++ rest) = join_slash l ++ [c_slash] ++ join_slash rest.
Proof.
  intros N R. induction l as [|s l IH]; [congruence|]. destruct l as [|s' l].
  - cbn [app]. destruct rest as [|r rest]; [congruence|]. reflexivity.
  - cbn [app] in *. change (join_slash (s :: s' :: l)) with (s ++ c_slash :: join_slash (s' :: l)).
    change (join_slash (s :: s' :: l ++ rest)) with (s ++ c_slash :: join_slash (s' :: l ++ rest)).
    rewrite IH by discriminate. rewrite <- app_assoc. reflexivity.
Qed.

Lemma relative_dir d rest : segments d <> [] -> d = join_slash (segments d) -> rest <> [] ->
  join_slash (segments d ++ rest) = d ++ [c_slash] ++ join_slash rest.
Proof. intros N E R. rewrite (join_app _ _ N R), <- E. reflexivity. Qed.

Section StaticPaths.
  Context {X U A : Type}.
  Notation handler := (handler X U A).
  Notation middleware := (middleware X U A).

  Lemma static_inside v d (c : context X) : ~ In (lit "..") (segments (rq_path (ctx_request c))) ->
    exists rel, serves_file (U:=U) (A:=A) (static_virtual_file_handler v d) c (join_slash (segments d ++ rel)) /\
      stays_inside rel.
  Proof.
    intros N. eexists. split; [apply virtual_served|]. apply descend_no_dots. intros I. apply N.
    exact (in_skipn _ _ _ I).
  Qed.

  Lemma static_mounted v d (c : context X) pp pv rest b :
    no_star (segments v) -> seg_match (segments v) pv b ->
    segments (rq_path (ctx_request c)) = pp ++ pv ++ rest ->
    exists u w, pp ++ pv = u ++ w /\ length w = length pp /\
      serves_file (U:=U) (A:=A) (static_virtual_file_handler v d) c (join_slash (segments d ++ w ++ rest)).
  Proof.
    intros N S E. pose proof (seg_match_length _ _ _ N S) as L.
    exists (firstn (length (segments v)) (pp ++ pv)), (skipn (length (segments v)) (pp ++ pv)).
    split; [symmetry; apply firstn_skipn|]. split; [rewrite skipn_length, app_length; lia|].
    pose proof (virtual_served (U:=U) (A:=A) v d c) as V. rewrite E, app_assoc in V. rewrite skipn_app in V.
    replace (length (segments v) - length (pp ++ pv)) with 0 in V by (rewrite app_length; lia). exact V.
  Qed.

  Lemma static_relative v d (c : context X) pre rest b :
    no_star (segments v) -> seg_match (segments v) pre b -> segments (rq_path (ctx_request c)) = pre ++ rest ->
    segments d <> [] -> d = join_slash (segments d) -> rest <> [] ->
    serves_file (U:=U) (A:=A) (static_virtual_file_handler v d) c (d ++ [c_slash] ++ join_slash rest).
  Proof.
    intros N S E Nd Ed Nr. rewrite <- (relative_dir d rest Nd Ed Nr). exact (static_matched v d c pre rest b N S E).
  Qed.

  Lemma static_dir_inside (l : list (op handler middleware)) t d st (rq : request X) rest fs tr o :
    built l t -> no_root_mount l -> no_star_mount l -> In (use_static d) l ->
    (forall p c, registered l p c -> c <> CNode ->
       strict_prefix (flat (segments d)) (flat p) -> flat p = flat (segments d ++ [s_star])) ->
    (forall p mw, ~ registered l p (CMw mw)) ->
    literal (segments d) -> rq_method rq = GET -> segments (rq_path rq) = segments d ++ rest -> rest <> [] ->
    ~ In (lit "..") rest ->
    runs (serve t st rq) tr o -> fs_ok fs tr ->
    stays_inside rest /\
    exists resp, o = Value resp /\ h_headers resp = [] /\
      file_reply fs (join_slash (segments d ++ rest)) (h_status resp) (h_body resp).
  Proof.
    intros B N NM I Own NMw L G E Nr Nd R F. split; [apply descend_no_dots; exact Nd|].
    exact (static_dir_served l t d st rq (segments d) rest [] fs tr o B N NM I Own NMw G E Nr (literal_match _ L) R F).
  Qed.

  Lemma static_text (l : list (op handler middleware)) t v d st (rq : request X) pre rest b fs tr o s :
    built l t -> no_root_mount l -> no_star_mount l -> In (use_static_to v d) l ->
    (forall p c, registered l p c -> c <> CNode ->
       strict_prefix (flat (segments v)) (flat p) -> flat p = flat (segments v ++ [s_star])) ->
    (forall p mw, ~ registered l p (CMw mw)) ->
    rq_method rq = GET -> segments (rq_path rq) = pre ++ rest -> rest <> [] -> seg_match (segments v) pre b ->
    Forall scalar s -> fs (join_slash (segments d ++ rest)) = inl (utf8 s) ->
    runs (serve t st rq) tr o -> fs_ok fs tr ->
    exists resp, o = Value resp /\ h_status resp = 200%N /\ body_bytes (h_body resp) = utf8 s.
  Proof.
    intros B N NM I Own NMw G E Nr S Sc Ef R F.
    destruct (static_served l t v d st rq pre rest b fs tr o B N NM I Own NMw G E Nr S R F) as (resp & -> & _ & P).
    exists resp. split; [reflexivity|]. unfold file_reply in P. rewrite Ef in P.
    rewrite from_utf8_utf8 in P by exact Sc. exact P.
  Qed.
End StaticPaths.
