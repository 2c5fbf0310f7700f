(** More lemmas about request handling: end to end, building responses, static
    files, reading the request. *)

From Coq Require Import String Decimal DecimalN DecimalFacts.
From Verif Require Import Base BaseFacts Utf8 Utf8Facts RouteTrie Router TableSpec PropSpec RouteFacts RouteLemmas RouteLemmas2 OwnPath.
From Verif Require Import Http App AppSpec AppLemmas.
Local Open Scope list_scope.

Section EndToEnd.
  Context {X U A : Type}.
  Notation handler := (handler X U A).
  Notation middleware := (middleware X U A).

  Lemma unmatched_404 (l : list (op handler middleware)) t st (rq : request X) :
    built l t ->
    (forall ts ps, resolves (table_of l) (segments (rq_path rq)) ts ps ->
       handler_for (rq_method rq) (routes_at (table_of l) ts) = None) ->
    forall tr o, runs (serve t st rq) tr o <->
      tr = [] /\ o = Value (HttpResponse 404%N [] (Body [utf8 (lit "404 Not Found")] false)).
  Proof.
    intros B N tr o. rewrite serve_unmatched.
    - split.
      + intros R. apply runs_ret in R as [-> ->]. auto.
      + intros [-> ->]. apply runs_ret. auto.
    - destruct (search_route t (rq_path rq)) as [p| |rv] eqn:E.
      + exfalso. destruct (TrieTotal.search_total t (rq_path rq)) as (r & E' & NP). exact (NP p (eq_trans (eq_sym E') E)).
      + left. reflexivity.
      + right. exists rv. split; [reflexivity|]. destruct (lookup_some l t (rq_path rq) rv B E) as (ts & ps & R & D).
        destruct D as (_ & D & _). rewrite D, (N ts ps R). reflexivity.
  Qed.

  Lemma end_to_end (l : list (op handler middleware)) t st (rq : request X) ts ps h :
    built l t -> resolves (table_of l) (segments (rq_path rq)) ts ps ->
    handler_for (rq_method rq) (routes_at (table_of l) ts) = Some h ->
    exists pm c, (forall n, pget n pm = first_binding ps n) /\ starts rq pm st c /\
      handles (serve t st rq) (next (mws_for (table_of l) ts) h c).
  Proof.
    intros B R Eh. destruct (some_lookup l t (rq_path rq) ts ps B R) as (rv & E & Dm & Dr & Dp).
    specialize (Dr (rq_method rq)). rewrite Eh in Dr. cbn [option_map] in Dr.
    destruct (serve_runs t st rq rv _ E Dr) as (c & S & A1). rewrite Dm in A1. cbn [r_handler] in *.
    exists (rr_params rv), c. auto 6.
  Qed.

  Lemma any_404 (t : trie handler middleware) st (rq : request X) :
    (forall rv, search_route t (rq_path rq) = LSome rv -> rr_get_route rv (rq_method rq) = None) ->
    forall tr o, runs (serve t st rq) tr o <->
      tr = [] /\ o = Value (HttpResponse 404%N [] (Body [utf8 (lit "404 Not Found")] false)).
  Proof.
    intros N tr o. rewrite serve_unmatched.
    - split.
      + intros R. apply runs_ret in R as [-> ->]. auto.
      + intros [-> ->]. apply runs_ret. auto.
    - destruct (search_route t (rq_path rq)) as [p| |rv] eqn:E.
      + exfalso. destruct (TrieTotal.search_total t (rq_path rq)) as (r & E' & NP). exact (NP p (eq_trans (eq_sym E') E)).
      + left. reflexivity.
      + right. exists rv. auto.
  Qed.

  Lemma any_handled (t : trie handler middleware) st (rq : request X) rv m h :
    search_route t (rq_path rq) = LSome rv -> rr_get_route rv (rq_method rq) = Some (Route m h) ->
    exists c, starts rq (rr_params rv) st c /\ handles (serve t st rq) (next (rr_mws rv) h c).
  Proof. intros E R. exact (serve_runs t st rq rv _ E R). Qed.

  Lemma own_handled (l : list (op handler middleware)) t st (rq : request X) p b h :
    build l = (t, None) -> registered l p (CRoute (rq_method rq) h) -> no_star p -> seg_match p (segments (rq_path rq)) b ->
    exists pm mws c, (forall n, pget n pm = first_binding b n) /\
      (forall q q' mw, p = q ++ q' -> registered l q (CMw mw) -> In mw mws) /\
      starts rq pm st c /\ handles (serve t st rq) (next mws h c).
  Proof.
    intros B I NS S. destruct (own_path_found l t p _ h _ b B I NS S) as (r & E & F & P & W).
    destruct (any_handled t st rq r _ h E F) as (c & SC & HC).
    exists (rr_params r), (rr_mws r), c. split; [exact P|]. split; [intros q q' mw Eq J; exact (W mw q q' Eq J)|]. auto.
  Qed.
End EndToEnd.

(** ** Building *)

Section Building.
  Context {X : Type} (parse_name : str -> option hname).

  Lemma parse_names_spec l : match parse_names parse_name l with
    | Some l' => l' = named parse_name l /\ forall k, In k (map fst l) -> parse_name k <> None
    | None => exists k, In k (map fst l) /\ parse_name k = None
    end.
  Proof.
    induction l as [|[k v] l IH]; cbn [parse_names].
    - split; [reflexivity|]. intros k [].
    - destruct (parse_name k) as [n|] eqn:E.
      + destruct (parse_names parse_name l) as [l'|].
        * destruct IH as [-> F]. split.
          -- unfold named. cbn [flat_map fst snd]. rewrite E. reflexivity.
          -- intros k' [<-|I]; [cbn [fst]; congruence|exact (F k' I)].
        * destruct IH as (k' & I & F). exists k'. split; [right; exact I|exact F].
      + exists k. split; [left; reflexivity|exact E].
  Qed.

  Lemma set_header_list k v r : header_list (set_header k v r) = header_list r ++ [(k, v)].
  Proof. unfold header_list, set_header. cbn. destruct (res_headers r); reflexivity. Qed.

  Lemma set_headers_list l r : header_list (set_headers l r) = header_list r ++ l.
  Proof. unfold header_list, set_headers. cbn. destruct (res_headers r); reflexivity. Qed.

  Lemma call_spec (b : builder X) k :
    match call parse_name b k with
    | inl b' => (forall n, In n (names k) -> parse_name n <> None) /\ b_ctx b' = b_ctx b /\
                res_body (b_response b') = res_body (b_response b) /\
                res_status (b_response b') = sets (res_status (b_response b)) k /\
                header_list (b_response b') = header_list (b_response b) ++ adds parse_name k
    | inr p => p = PUnwrapNone /\ exists n, In n (names k) /\ parse_name n = None
    end.
  Proof.
    destruct k as [s|k v|k v|l|l]; cbn [call names].
    - split; [intros n []|]. cbn. rewrite app_nil_r. auto.
    - split; [intros n []|]. cbn. rewrite <- set_header_list. auto.
    - unfold with_header_str, set_header_str. destruct (parse_name k) as [n|] eqn:E.
      + split; [intros n' [<-|[]]; congruence|]. cbn [adds]. unfold named. cbn [flat_map fst snd]. rewrite E. cbn [app b_response].
        rewrite set_header_list. auto.
      + split; [reflexivity|]. exists k. split; [left; reflexivity|exact E].
    - split; [intros n []|]. cbn [with_headers b_ctx b_response adds]. rewrite set_headers_list. auto.
    - unfold with_headers_str, set_headers_str. pose proof (parse_names_spec l) as S.
      destruct (parse_names parse_name l) as [l'|].
      + destruct S as [-> F]. split; [exact F|]. cbn [b_ctx b_response adds]. rewrite set_headers_list. auto.
      + split; [reflexivity|]. exact S.
  Qed.

  Lemma calls_spec (b : builder X) l :
    match calls parse_name b l with
    | inl b' => (forall k n, In k l -> In n (names k) -> parse_name n <> None) /\ b_ctx b' = b_ctx b /\
                res_body (b_response b') = res_body (b_response b) /\
                res_status (b_response b') = fold_left sets l (res_status (b_response b)) /\
                header_list (b_response b') = header_list (b_response b) ++ flat_map (adds parse_name) l
    | inr p => p = PUnwrapNone /\ exists k n, In k l /\ In n (names k) /\ parse_name n = None
    end.
  Proof.
    revert b. induction l as [|k l IH]; intros b; cbn [calls].
    - split; [intros k n []|]. cbn. rewrite app_nil_r. auto.
    - pose proof (call_spec b k) as C. destruct (call parse_name b k) as [b'|p].
      + specialize (IH b'). destruct (calls parse_name b' l) as [b2|p].
        * destruct C as (C1 & C2 & C3 & C4 & C5), IH as (I1 & I2 & I3 & I4 & I5).
          split; [intros k' n [<-|J]; eauto|]. split; [congruence|]. split; [congruence|].
          split; [cbn [fold_left]; rewrite <- C4; exact I4|]. cbn [flat_map]. rewrite I5, C5, app_assoc. reflexivity.
        * destruct IH as (E & k' & n & J1 & J2). split; [exact E|]. exists k', n. split; [right; exact J1|exact J2].
      + destruct C as (E & n & J). split; [exact E|]. exists k, n. split; [left; reflexivity|exact J].
  Qed.

  (** What the client side of [ok] gets. *)
  Lemma built_response (c : context X) x l : match calls parse_name (build_res c x) l with
    | inl b => exists c', b_ok b = inl c' /\ ctx_request c' = ctx_request c /\ ctx_params c' = ctx_params c /\
        exists r, ctx_response c' = Some r /\
          res_status r = fold_left sets l (res_status (respond_to x)) /\
          res_body r = res_body (respond_to x) /\
          header_list r = header_list (respond_to x) ++ flat_map (adds parse_name) l
    | inr p => p = PUnwrapNone /\ exists k n, In k l /\ In n (names k) /\ parse_name n = None
    end.
  Proof.
    pose proof (calls_spec (build_res c x) l) as S. destruct (calls parse_name (build_res c x) l) as [b|p]; [|exact S].
    destruct S as (_ & S2 & S3 & S4 & S5). eexists. split; [reflexivity|]. cbn. rewrite S2. cbn.
    split; [reflexivity|]. split; [reflexivity|]. eexists. split; [reflexivity|]. rewrite S4, S3, S5. auto.
  Qed.
End Building.

(** ** Numerals *)

Local Open Scope N_scope.

Definition val (a : N) (d : Decimal.uint) : N := fold_left (fun a c => (10 * a + (c - 48))%N) (uint_chars d) a.

Lemma val_acc d p : Npos (Pos.of_uint_acc d p) = val (Npos p) d.
Proof.
  revert p. induction d; intros p; cbn [Pos.of_uint_acc]; unfold val; cbn [uint_chars fold_left];
    try reflexivity; rewrite IHd; unfold val; f_equal; try (cbn; lia); try reflexivity; lia.
Qed.

Lemma val_zero d : N.of_uint d = val 0 d.
Proof.
  unfold N.of_uint. induction d; cbn [Pos.of_uint]; unfold val; cbn [uint_chars fold_left];
    try reflexivity; try exact IHd; rewrite val_acc; reflexivity.
Qed.

Lemma uint_digits d c : In c (uint_chars d) -> 48 <= c <= 57.
Proof. induction d; cbn; intros I; try tauto; destruct I as [<-|I]; auto; lia. Qed.

Lemma nzhead_first d r : uint_chars (nzhead d) = 48 :: r -> False.
Proof. induction d; cbn; intros E; try discriminate E; auto. Qed.

Lemma dec_numeral n : numeral (dec n) n.
Proof.
  assert (E : N.to_uint n = unorm (N.to_uint n)).
  { rewrite <- (DecimalN.Unsigned.to_of (N.to_uint n)), DecimalN.Unsigned.of_to. reflexivity. }
  unfold numeral, dec. split; [|split; [|split]].
  - rewrite E. unfold unorm. destruct (nzhead (N.to_uint n)); discriminate.
  - apply uint_digits.
  - intros r F. rewrite E in F. unfold unorm in F. destruct (nzhead (N.to_uint n)) eqn:G; cbn in F; try discriminate F.
    + injection F as <-. reflexivity.
    + exfalso. apply (nzhead_first (N.to_uint n) (uint_chars u)). rewrite G. reflexivity.
  - unfold digits_value. change (val 0 (N.to_uint n) = n). rewrite <- val_zero. apply DecimalN.Unsigned.of_to.
Qed.

Lemma json_items_spec v : json_items v = match map dec v with [] => [] | i :: r => i ++ flat_map (fun x => 44 :: x) r end.
Proof.
  induction v as [|x v IH]; [reflexivity|]. destruct v as [|y v]; [cbn; rewrite app_nil_r; reflexivity|].
  change (json_items (x :: y :: v)) with (dec x ++ 44 :: json_items (y :: v)). rewrite IH. cbn [map flat_map app]. reflexivity.
Qed.

Lemma json_of_bytes_array v : json_array v (json_of_bytes v).
Proof.
  exists (map dec v). split; [|unfold json_of_bytes; rewrite json_items_spec; reflexivity].
  induction v as [|x v IH]; cbn [map]; constructor; [apply dec_numeral|exact IH].
Qed.
Local Close Scope N_scope.

(** ** Static files *)

Section Static.
  Context {X U A : Type}.
  Notation handler := (handler X U A).
  Notation middleware := (middleware X U A).

  Lemma file_served (c : context X) path :
    serves_file (U:=U) (A:=A) (fun c => bind (file path response_ok) (fun r => Ret (b_ok (build_res c (RResponse r))))) c path.
  Proof.
    intros tr o. unfold file. cbn [bind]. rewrite runs_read. split.
    - intros ([content|err] & t & -> & R); cbn [bind] in R.
      + apply runs_ret in R as [-> ->]. left. exists content. eexists. split; [reflexivity|]. split; reflexivity.
      + apply runs_print in R as (t' & -> & R). apply runs_ret in R as [-> ->]. right. exists err. eexists.
        split; [reflexivity|]. split; reflexivity.
    - intros [(content & r & -> & -> & ->)|(err & r & -> & -> & ->)].
      + exists (inl content), []. split; [reflexivity|]. cbn [bind]. constructor.
      + exists (inr err), [EvPrint (LDbg err)]. split; [reflexivity|]. cbn [bind]. constructor. constructor.
  Qed.

  Lemma virtual_served v d (c : context X) :
    serves_file (U:=U) (A:=A) (static_virtual_file_handler v d) c
      (join_slash (segments d ++ skipn (length (segments v)) (segments (rq_path (ctx_request c))))).
  Proof. exact (file_served c _). Qed.

  Lemma dir_served (c : context X) :
    serves_file (U:=U) (A:=A) static_dir_file_handler c (join_slash (segments (rq_path (ctx_request c)))).
  Proof. exact (file_served c _). Qed.

  Lemma seg_match_length p R b : ~ In s_star p -> seg_match p R b -> length R = length p.
  Proof.
    intros N S. induction S; cbn [length]; auto.
    - f_equal. apply IHS. intros I. apply N. right. exact I.
    - f_equal. apply IHS. intros I. apply N. right. exact I.
    - exfalso. apply N. left. reflexivity.
  Qed.

  Lemma skipn_exact {B} (a b : list B) n : length a = n -> skipn n (a ++ b) = b.
  Proof. intros <-. rewrite skipn_app, skipn_all, Nat.sub_diag. reflexivity. Qed.

  Lemma static_matched v d (c : context X) pre rest b :
    no_star (segments v) -> seg_match (segments v) pre b ->
    segments (rq_path (ctx_request c)) = pre ++ rest ->
    serves_file (U:=U) (A:=A) (static_virtual_file_handler v d) c (join_slash (segments d ++ rest)).
  Proof.
    intros N S E. pose proof (virtual_served v d c) as V.
    rewrite E, (skipn_exact pre rest) in V; [exact V|]. apply (seg_match_length _ _ _ N S).
  Qed.

  (** A server without middlewares on a file handler. *)
  Lemma serve_file (t : trie handler middleware) st (rq : request X) rv h path fs tr resp :
    search_route t (rq_path rq) = LSome rv -> rr_mws rv = [] ->
    rr_get_route rv (rq_method rq) = Some (Route (rq_method rq) h) ->
    (forall c, rq_path (ctx_request c) = rq_path rq -> serves_file h c path) ->
    runs (serve t st rq) tr (Value resp) -> fs_ok fs tr ->
    file_reply fs path (h_status resp) (h_body resp) /\ h_headers resp = [].
  Proof.
    intros E M G S R F. destruct (serve_runs t st rq rv _ E G) as (c & St & A1 & _ & _).
    rewrite M in A1. cbn [next next_from r_handler] in A1.
    destruct St as (_ & _ & _ & Sp & _).
    destruct (A1 _ _ R) as [(r & R1 & P)|(p & _ & E1)]; [|discriminate E1].
    apply (S c Sp) in R1 as [(content & res & -> & Er & ->)|(err & res & -> & Er & ->)]; injection Er as ->.
    - inversion P as [| |c' r' hm H1 H2 H3 H4 H5 H6|]; subst; cbn in *; [congruence|]. injection H1 as <-. cbn in *.
      specialize (F path (inl content) (or_introl eq_refl)). unfold file_reply.
      split.
      + destruct (fs path) as [by_|e]; [|discriminate F]. destruct (from_utf8 by_) as [s|] eqn:Eu; [|destruct F; discriminate].
        injection F as ->. split; [reflexivity|]. rewrite body_from_bytes. apply from_utf8_exact. exact Eu.
      + destruct hm as [|[k v] hm]; [reflexivity|]. specialize (proj1 (H4 k v) (or_introl eq_refl)). discriminate.
    - inversion P as [| |c' r' hm H1 H2 H3 H4 H5 H6|]; subst; cbn in *; [congruence|]. injection H1 as <-. cbn in *.
      specialize (F path (inr err) (or_introl eq_refl)). unfold file_reply.
      split.
      + destruct (fs path) as [by_|e].
        * destruct (from_utf8 by_) as [s|] eqn:Eu; [discriminate F|reflexivity].
        * injection F as ->. split; [reflexivity|]. apply body_from_bytes.
      + destruct hm as [|[k v] hm]; [reflexivity|]. specialize (proj1 (H4 k v) (or_introl eq_refl)). discriminate.
  Qed.
End Static.

Lemma descend_no_dots acc l : ~ In [46; 46]%N l -> descend acc l <> None.
Proof.
  revert acc. induction l as [|s l IH]; intros acc N; cbn [descend]; [discriminate|].
  destruct (str_eqb_spec s [46; 46]%N) as [->|_]; [exfalso; apply N; left; reflexivity|].
  destruct (str_eqb s [46]%N); apply IH; intros I; apply N; right; exact I.
Qed.

Lemma in_skipn {B} (x : B) n l : In x (skipn n l) -> In x l.
Proof. intros I. rewrite <- (firstn_skipn n l). apply in_or_app. right. exact I. Qed.
