(** Properties C63, C64: what the Logger prints and what happens to errors of the
    functions that read input.

    [resolves], [handler_for], [table_of] are defined in [TableSpec]; [handles],
    [starts] in [AppSpec]; [values_of], [gives], [field_value] in [FormSpec];
    [with_param], [with_query], [with_form], [with_json], [fails_with], [reaches] in [UserSpec]. *)

From Coq Require Import String.
From Verif Require Import Base Utf8 UrlEncoded RouteTrie Router TableSpec PropSpec Http Form App AppSpec FormSpec UserSpec.
From Verif Require Import RouteFacts RouteLemmas RouteWitness AppLemmas4 AppWitness FormWitness UserLemmas UserLemmas2 UserLemmas3 UrlSpec UrlLemmas FormLemmas4.
Local Open Scope string_scope.
Local Open Scope list_scope.

(** * C63: the lines of the Logger *)

(** Refuted: a request without handler is answered without any line. *)
Theorem C63_unmatched_refuted : forall (X U A : Type) d,
  exists (l : list (op (handler X U A) (middleware X U A))) t rq resp,
    built (app_default d ++ l) t /\ runs (serve t None rq) [] (Value resp).
Proof. exact (@w_unlogged). Qed.
Print Assumptions C63_unmatched_refuted.

(** Refuted: the line "Sent" is printed although nothing is sent. *)
Theorem C63_sent_refuted : forall (X U A : Type) d,
  exists (l : list (op (handler X U A) (middleware X U A))) t rq tr s p,
    built (app_default d ++ l) t /\ runs (serve t None rq) tr (Panicked p) /\ In (EvPrint (LSent s)) tr.
Proof. exact (@w_sent_lost). Qed.
Print Assumptions C63_sent_refuted.

(** True for requests that have a handler and are answered: the first line names the
    request, the last one the status sent or the error.  Missing: requests without
    handler, and what is printed before a panic. *)
Theorem C63_partial : forall (X U A : Type) d (l : list (op (handler X U A) (middleware X U A))) t,
  built l t -> no_root_mount l ->
  exists t', built (app_default d ++ l) t' /\ forall st rq ts ps h,
    resolves (table_of l) (segments (rq_path rq)) ts ps ->
    handler_for (rq_method rq) (routes_at (table_of l) ts) = Some h ->
    forall tr o, runs (serve t' st rq) tr o ->
    exists mid last, tr = EvPrint (LRequest (rq_method rq) (rq_path rq) (rq_query rq))
                          :: (if d then [EvPrint LDebug] else []) ++ mid ++ last /\
      match o with
      | Value resp => last = [EvPrint (LSent (h_status resp))] \/
          exists e, last = [EvPrint (LError e)] /\ h_status resp = 500%N /\ body_bytes (h_body resp) = utf8 e
      | Panicked _ => True
      end.
Proof. exact (@logged_server). Qed.
Print Assumptions C63_partial.

Example C63_example : forall X U A, let l := [@ORoute (handler X U A) (middleware X U A) GET (lit "/users/:id") no_answer] in
  no_root_mount l /\ exists t ts ps, built l t /\ resolves (table_of l) (segments (lit "/users/7")) ts ps /\
    handler_for GET (routes_at (table_of l) ts) = Some no_answer.
Proof.
  intros X U A l. split; [intros o [<-|[]] (path & sub & E & _); discriminate E|].
  apply one_matched. assert (L : forall H M (x : H), @one_route H M (lit "/users/:id") (lit "/users/7") x) by (intros; one). apply L.
Qed.

(** * C64: errors of the functions that read input *)

Theorem C64_param : forall (X U A : Type) (l : list (op (handler X U A) (middleware X U A))) t st rq
    (T : Type) (parse : str -> option T) n rest ps,
  built l t -> reaches l rq (with_param parse n rest) ps ->
  (first_binding ps n = None -> fails_with (serve t st rq) (lit "Input should not be None")) /\
  (forall s, first_binding ps n = Some s -> parse s = None ->
     fails_with (serve t st rq) (lit "Failed to parse param " ++ n)) /\
  (forall s x, first_binding ps n = Some s -> parse s = Some x ->
     exists c, (forall n', pget n' (ctx_params c) = first_binding ps n') /\ starts rq (ctx_params c) st c /\ handles (serve t st rq) (rest x c)).
Proof. exact (@param_errors). Qed.
Print Assumptions C64_param.

(** A handler that reads the first character of a parameter; another that reads a
    parameter that is not in the path. *)
Example C64_param_example : forall X U A, let first := fun s : str => match s with [] => None | c :: _ => Some c end in
  let h n : handler X U A := with_param first n (fun _ => no_answer) in
  forall n, exists t ps, @built _ (middleware X U A) [ORoute GET (lit "/u/:id") (h n)] t /\
    reaches [@ORoute _ (middleware X U A) GET (lit "/u/:id") (h n)] (get_req (lit "/u/7")) (h n) ps /\
    first_binding ps (lit "id") = Some (lit "7") /\ first (lit "7") = Some 55%N /\ first_binding ps (lit "nr") = None.
Proof.
  intros X U A first h n.
  assert (L : forall H M (h : H), let l : list (op H M) := [ORoute GET (lit "/u/:id") h] in exists t rv, built l t /\
    search_route t (lit "/u/7") = LSome rv /\ rr_get_route rv GET = Some (Route GET h) /\ rr_mws rv = [] /\
    pget (lit "id") (rr_params rv) = Some (lit "7") /\ pget (lit "nr") (rr_params rv) = None).
  { clear. intros H M h l. eexists. eexists. split; [built_by|]. split; [vm_compute; reflexivity|].
    repeat (split; [vm_compute; reflexivity|]). vm_compute; reflexivity. }
  destruct (L (handler X U A) (middleware X U A) (h n)) as (t & rv & B & E & G & W & P1 & P2).
  destruct (lookup_some _ t _ rv B E) as (ts & ps & R & (Dm & D & Dp)).
  exists t, ps. split; [exact B|]. rewrite <- !Dp. split; [|auto]. exists ts. split; [exact R|]. split; [|congruence].
  specialize (D GET). rewrite G in D. cbn [rq_method get_req].
  destruct (handler_for GET (routes_at (table_of [ORoute GET (lit "/u/:id") (h n)]) ts)) as [h'|]; [|discriminate D].
  cbn [option_map] in D. congruence.
Qed.

Theorem C64_query_read : forall (X U A F : Type) (pf : bool -> str -> F + str) msg it1 it2
    (l : list (op (handler X U A) (middleware X U A))) t st rq rest ps fs deny vs qs,
  form_pairs (utf8 (match rq_query rq with Some q => q | None => [] end)) qs ->
  iteration it1 -> iteration it2 -> built l t ->
  reaches l rq (with_query pf msg it1 it2 (TgStruct fs deny) rest) ps ->
  NoDup (map f_name fs) -> Forall2 (field_value pf qs) fs vs ->
  (deny = true -> forall k, values_of k qs <> [] -> In k (map f_name fs)) ->
  exists c, (forall n', pget n' (ctx_params c) = first_binding ps n') /\ starts rq (ctx_params c) st c /\ handles (serve t st rq) (rest (RStruct vs) c).
Proof. exact (@query_read_pairs). Qed.
Print Assumptions C64_query_read.

(** A string, a vector, and no other key allowed. *)
Example C64_query_read_example : forall X U A (F : Type) (pf : bool -> str -> F + str) msg,
  let fs := [Field (F:=F) (lit "name") TString None; Field (lit "tags") (TVec TString) None] in
  let vs := [VString (lit "x"); VSeq [VString (lit "a"); VString (lit "b")]] in
  let h : handler X U A := with_query pf msg (fun l => l) (@rev _) (TgStruct fs true) (fun _ => no_answer) in
  let rq := Request GET (lit "/a") (Some (lit "tags=a&name=x&tags=&tags=b")) [] [] body_empty in
  exists qs t ps, form_pairs (utf8 (lit "tags=a&name=x&tags=&tags=b")) qs /\
    @built _ (middleware X U A) [ORoute GET (lit "/a") h] t /\
    reaches [@ORoute _ (middleware X U A) GET (lit "/a") h] rq h ps /\
    NoDup (map f_name fs) /\ Forall2 (field_value pf qs) fs vs /\
    forall k, values_of k qs <> [] -> In k (map f_name fs).
Proof.
  intros X U A F pf msg fs vs h rq.
  destruct (one_reaches (lit "/a") rq h eq_refl (one_a _)) as (t & ps & B & R).
  exists [(lit "tags", lit "a"); (lit "name", lit "x"); (lit "tags", []); (lit "tags", lit "b")], t, ps.
  split; [apply parse_spec; vm_compute; reflexivity|]. split; [exact B|]. split; [exact R|]. split.
  { repeat constructor; vm_compute; intuition discriminate. }
  split.
  { constructor; [|constructor; [|constructor]]; left; (split; [discriminate|]).
    - exists []. apply rd_scalar, st_string.
    - exists []. apply rd_vec; [discriminate|]. repeat (eapply ra_cons; [apply rd_scalar, st_string|]). apply ra_nil. }
  intros k N. destruct (BaseFacts.str_eqb_spec k (lit "name")) as [->|N1]; [left; reflexivity|].
  destruct (BaseFacts.str_eqb_spec k (lit "tags")) as [->|N2]; [right; left; reflexivity|].
  destruct N. unfold values_of. cbn [filter fst]. destruct (BaseFacts.str_eqb_spec k (lit "tags")); [contradiction|].
  destruct (BaseFacts.str_eqb_spec k (lit "name")); [contradiction|]. reflexivity.
Qed.

Theorem C64_query_missing : forall (X U A F : Type) (pf : bool -> str -> F + str) msg it1 it2
    (l : list (op (handler X U A) (middleware X U A))) t st rq rest ps fs deny pre f post qs,
  form_pairs (utf8 (match rq_query rq with Some q => q | None => [] end)) qs ->
  iteration it1 -> iteration it2 -> built l t ->
  reaches l rq (with_query pf msg it1 it2 (TgStruct fs deny) rest) ps ->
  NoDup (map f_name fs) ->
  (deny = true -> forall k, values_of k qs <> [] -> In k (map f_name fs)) ->
  (forall g, In g fs -> values_of (f_name g) qs <> [] -> exists v, gives pf (f_type g) (values_of (f_name g) qs) v) ->
  fs = pre ++ f :: post -> (forall g, In g pre -> exists v, field_value pf qs g v) ->
  required f -> values_of (f_name f) qs = [] ->
  fails_with (serve t st rq) (lit "missing field `" ++ f_name f ++ lit "`").
Proof. exact (@missing_in_query_pairs). Qed.
Print Assumptions C64_query_missing.

(** The second field is not in the query. *)
Example C64_query_missing_example : forall X U A (F : Type) (pf : bool -> str -> F + str) msg,
  let f1 := Field (F:=F) (lit "name") TString None in let f2 := Field (F:=F) (lit "tags") (TVec TString) None in
  let h : handler X U A := with_query pf msg (fun l => l) (@rev _) (TgStruct [f1; f2] false) (fun _ => no_answer) in
  let rq := Request GET (lit "/a") (Some (lit "name=x&tags=")) [] [] body_empty in
  exists qs t ps, form_pairs (utf8 (lit "name=x&tags=")) qs /\
    @built _ (middleware X U A) [ORoute GET (lit "/a") h] t /\
    reaches [@ORoute _ (middleware X U A) GET (lit "/a") h] rq h ps /\
    NoDup (map f_name [f1; f2]) /\
    (forall g, In g [f1; f2] -> values_of (f_name g) qs <> [] -> exists v, gives pf (f_type g) (values_of (f_name g) qs) v) /\
    (exists v, field_value pf qs f1 v) /\ required f2 /\ values_of (f_name f2) qs = [].
Proof.
  intros X U A F pf msg f1 f2 h rq.
  destruct (one_reaches (lit "/a") rq h eq_refl (one_a _)) as (t & ps & B & R).
  eexists. exists t, ps. split; [apply parse_spec; vm_compute; reflexivity|]. split; [exact B|]. split; [exact R|]. split.
  { repeat constructor; vm_compute; intuition discriminate. }
  split.
  { intros g [<-|[<-|[]]] N; [|destruct N; reflexivity]. exists (VString (lit "x")), []. apply rd_scalar, st_string. }
  split; [exists (VString (lit "x")); left; split; [discriminate|]; exists []; apply rd_scalar, st_string|].
  split; [|reflexivity]. split; [reflexivity|]. intros t0 E. discriminate E.
Qed.

(** For every query: either the struct has values, and the handler goes on with them, or
    it has none and the client gets the text of the error. *)
Theorem C64_query : forall (X U A F : Type) (pf : bool -> str -> F + str) msg it1 it2
    (l : list (op (handler X U A) (middleware X U A))) t st rq rest ps fs deny qs,
  form_pairs (utf8 (match rq_query rq with Some q => q | None => [] end)) qs ->
  iteration it1 -> iteration it2 -> built l t ->
  reaches l rq (with_query pf msg it1 it2 (TgStruct fs deny) rest) ps -> NoDup (map f_name fs) ->
  exists c, (forall n, pget n (ctx_params c) = first_binding ps n) /\ starts rq (ctx_params c) st c /\
    ((exists vs, Forall2 (field_value pf qs) fs vs /\
        (deny = true -> forall k, values_of k qs <> [] -> In k (map f_name fs)) /\
        handles (serve t st rq) (rest (RStruct vs) c)) \/
     (~ (exists vs, Forall2 (field_value pf qs) fs vs /\
           (deny = true -> forall k, values_of k qs <> [] -> In k (map f_name fs))) /\
      exists e, ctx_query_params pf msg it1 it2 (TgStruct fs deny) c = inr e /\
                fails_with (serve t st rq) (error_text e))).
Proof. exact (@query_or_error). Qed.
Print Assumptions C64_query.

(** A number with a letter in it has no value. *)
Example C64_query_example : forall X U A (F : Type) (pf : bool -> str -> F + str) msg,
  let fs := [Field (F:=F) (lit "name") TString None; Field (lit "age") (TInt i32) None] in
  let h : handler X U A := with_query pf msg (fun l => l) (@rev _) (TgStruct fs false) (fun _ => no_answer) in
  let rq := Request GET (lit "/a") (Some (lit "name=x&age=1o")) [] [] body_empty in
  exists qs t ps, form_pairs (utf8 (lit "name=x&age=1o")) qs /\
    @built _ (middleware X U A) [ORoute GET (lit "/a") h] t /\
    reaches [@ORoute _ (middleware X U A) GET (lit "/a") h] rq h ps /\ NoDup (map f_name fs) /\
    ~ exists vs, Forall2 (field_value pf qs) fs vs.
Proof.
  intros X U A F pf msg fs h rq.
  destruct (one_reaches (lit "/a") rq h eq_refl (one_a _)) as (t & ps & B & R).
  exists [(lit "name", lit "x"); (lit "age", lit "1o")], t, ps.
  split; [apply parse_spec; vm_compute; reflexivity|]. split; [exact B|]. split; [exact R|]. split.
  { repeat constructor; vm_compute; intuition discriminate. }
  intros (vs & Fv). inversion Fv as [|? ? ? ? _ Fv']; subst. inversion Fv' as [|? ? ? ? Fa _]; subst.
  destruct Fa as [[_ [rest G]]|[E _]]; [|vm_compute in E; discriminate E].
  cbn in G. inversion G as [? ? ? ? St| | | | |]; subst. inversion St as [? ? z I| | | | | |]; subst.
  apply FormLemmas.parse_int_spec in I. vm_compute in I. discriminate I.
Qed.

Theorem C64_form_read : forall (X U A F : Type) (pf : bool -> str -> F + str) msg it1 it2
    (l : list (op (handler X U A) (middleware X U A))) t st rq rest ps fs deny vs qs,
  form_pairs (body_bytes (rq_body rq)) qs ->
  iteration it1 -> iteration it2 -> built l t ->
  reaches l rq (with_form pf msg it1 it2 (TgStruct fs deny) rest) ps ->
  broken (rq_body rq) = false -> one_chunk (rq_body rq) ->
  NoDup (map f_name fs) -> Forall2 (field_value pf qs) fs vs ->
  (deny = true -> forall k, values_of k qs <> [] -> In k (map f_name fs)) ->
  exists c c', (forall n, pget n (ctx_params c) = first_binding ps n) /\ starts rq (ctx_params c) st c /\ same_but_body c c' /\ rq_body (ctx_request c') = body_empty /\
    handles (serve t st rq) (rest (RStruct vs) c').
Proof. exact (@form_read_pairs). Qed.
Print Assumptions C64_form_read.

(** The body comes in one piece, after an empty one. *)
Example C64_form_read_example : forall X U A (F : Type) (pf : bool -> str -> F + str) msg,
  let fs := [Field (F:=F) (lit "name") TString None; Field (lit "age") (TOption TChar) None] in
  let vs := [VString (lit "x"); VNone] in
  let h : handler X U A := with_form pf msg (fun l => l) (@rev _) (TgStruct fs false) (fun _ => no_answer) in
  let b := Body [[]; utf8 (lit "name=x&nom=y")] false in
  let rq := Request GET (lit "/a") None [] [] b in
  exists qs t ps, form_pairs (body_bytes b) qs /\
    @built _ (middleware X U A) [ORoute GET (lit "/a") h] t /\
    reaches [@ORoute _ (middleware X U A) GET (lit "/a") h] rq h ps /\
    broken b = false /\ one_chunk b /\ NoDup (map f_name fs) /\ Forall2 (field_value pf qs) fs vs.
Proof.
  intros X U A F pf msg fs vs h b rq.
  destruct (one_reaches (lit "/a") rq h eq_refl (one_a _)) as (t & ps & B & R).
  eexists. exists t, ps. split; [apply parse_spec; vm_compute; reflexivity|]. split; [exact B|]. split; [exact R|].
  split; [reflexivity|]. split.
  { right. exists [[]], (utf8 (lit "name=x&nom=y")), []. split; [reflexivity|]. intros y [[<-|[]]|[]]. reflexivity. }
  split; [repeat constructor; vm_compute; intuition discriminate|].
  constructor; [|constructor; [|constructor]].
  - left. split; [discriminate|]. exists []. apply rd_scalar, st_string.
  - right. split; [reflexivity|]. right. split; [reflexivity|]. split; [exists TChar; reflexivity|reflexivity].
Qed.

Theorem C64_form_missing : forall (X U A F : Type) (pf : bool -> str -> F + str) msg it1 it2
    (l : list (op (handler X U A) (middleware X U A))) t st rq rest ps fs deny pre f post qs,
  form_pairs (body_bytes (rq_body rq)) qs ->
  iteration it1 -> iteration it2 -> built l t ->
  reaches l rq (with_form pf msg it1 it2 (TgStruct fs deny) rest) ps ->
  broken (rq_body rq) = false -> one_chunk (rq_body rq) ->
  NoDup (map f_name fs) ->
  (deny = true -> forall k, values_of k qs <> [] -> In k (map f_name fs)) ->
  (forall g, In g fs -> values_of (f_name g) qs <> [] -> exists v, gives pf (f_type g) (values_of (f_name g) qs) v) ->
  fs = pre ++ f :: post -> (forall g, In g pre -> exists v, field_value pf qs g v) ->
  required f -> values_of (f_name f) qs = [] ->
  fails_with (serve t st rq) (lit "missing field `" ++ f_name f ++ lit "`").
Proof. exact (@missing_in_form_pairs). Qed.
Print Assumptions C64_form_missing.

(** The only field is not in the form. *)
Example C64_form_missing_example : forall X U A (F : Type) (pf : bool -> str -> F + str) msg,
  let f := Field (F:=F) (lit "name") TString None in
  let h : handler X U A := with_form pf msg (fun l => l) (@rev _) (TgStruct [f] false) (fun _ => no_answer) in
  let b := Body [utf8 (lit "nom=y")] false in
  let rq := Request GET (lit "/a") None [] [] b in
  exists qs t ps, form_pairs (body_bytes b) qs /\
    @built _ (middleware X U A) [ORoute GET (lit "/a") h] t /\
    reaches [@ORoute _ (middleware X U A) GET (lit "/a") h] rq h ps /\
    broken b = false /\ one_chunk b /\ NoDup (map f_name [f]) /\
    (forall g, In g [f] -> values_of (f_name g) qs <> [] -> exists v, gives pf (f_type g) (values_of (f_name g) qs) v) /\
    required f /\ values_of (f_name f) qs = [].
Proof.
  intros X U A F pf msg f h b rq.
  destruct (one_reaches (lit "/a") rq h eq_refl (one_a _)) as (t & ps & B & R).
  eexists. exists t, ps. split; [apply parse_spec; vm_compute; reflexivity|]. split; [exact B|]. split; [exact R|].
  split; [reflexivity|]. split.
  { right. exists [], (utf8 (lit "nom=y")), []. split; [reflexivity|]. intros y [[]|[]]. }
  split; [repeat constructor; vm_compute; intuition discriminate|].
  split; [intros g [<-|[]] N; destruct N; reflexivity|]. split; [|reflexivity].
  split; [reflexivity|]. intros t0 E. discriminate E.
Qed.

(** The same for forms. *)
Theorem C64_form : forall (X U A F : Type) (pf : bool -> str -> F + str) msg it1 it2
    (l : list (op (handler X U A) (middleware X U A))) t st rq rest ps fs deny qs,
  form_pairs (body_bytes (rq_body rq)) qs ->
  iteration it1 -> iteration it2 -> built l t ->
  reaches l rq (with_form pf msg it1 it2 (TgStruct fs deny) rest) ps ->
  broken (rq_body rq) = false -> one_chunk (rq_body rq) -> NoDup (map f_name fs) ->
  exists c c', (forall n, pget n (ctx_params c) = first_binding ps n) /\ starts rq (ctx_params c) st c /\
    same_but_body c c' /\ rq_body (ctx_request c') = body_empty /\
    ((exists vs, Forall2 (field_value pf qs) fs vs /\
        (deny = true -> forall k, values_of k qs <> [] -> In k (map f_name fs)) /\
        handles (serve t st rq) (rest (RStruct vs) c')) \/
     (~ (exists vs, Forall2 (field_value pf qs) fs vs /\
           (deny = true -> forall k, values_of k qs <> [] -> In k (map f_name fs))) /\
      exists e, fst (ctx_form pf msg it1 it2 (TgStruct fs deny) c) = inr e /\
                fails_with (serve t st rq) (error_text e))).
Proof. exact (@form_or_error). Qed.
Print Assumptions C64_form.

(** A key that is no field, where this is not allowed. *)
Example C64_form_example : forall X U A (F : Type) (pf : bool -> str -> F + str) msg,
  let fs := [Field (F:=F) (lit "name") TString None] in
  let h : handler X U A := with_form pf msg (fun l => l) (@rev _) (TgStruct fs true) (fun _ => no_answer) in
  let b := Body [utf8 (lit "name=x&nom=y")] false in
  let rq := Request GET (lit "/a") None [] [] b in
  exists qs t ps, form_pairs (body_bytes b) qs /\
    @built _ (middleware X U A) [ORoute GET (lit "/a") h] t /\
    reaches [@ORoute _ (middleware X U A) GET (lit "/a") h] rq h ps /\
    broken b = false /\ one_chunk b /\ NoDup (map f_name fs) /\
    values_of (lit "nom") qs <> [] /\ ~ In (lit "nom") (map f_name fs).
Proof.
  intros X U A F pf msg fs h b rq.
  destruct (one_reaches (lit "/a") rq h eq_refl (one_a _)) as (t & ps & B & R).
  exists [(lit "name", lit "x"); (lit "nom", lit "y")], t, ps.
  split; [apply parse_spec; vm_compute; reflexivity|]. split; [exact B|]. split; [exact R|].
  split; [reflexivity|]. split.
  { right. exists [], (utf8 (lit "name=x&nom=y")), []. split; [reflexivity|]. intros y [[]|[]]. }
  split; [repeat constructor; vm_compute; intuition discriminate|]. split; [discriminate|].
  intros [E|[]]. vm_compute in E. discriminate E.
Qed.

(** [json]: [from_slice] is serde_json's parser for the target type. *)
Theorem C64_json : forall (X U A T : Type) (from_slice : bytes -> T + str)
    (l : list (op (handler X U A) (middleware X U A))) t st rq rest ps,
  built l t -> reaches l rq (with_json from_slice rest) ps ->
  (broken (rq_body rq) = true -> fails_with (serve t st rq) (lit "Input should not be None")) /\
  (broken (rq_body rq) = false -> one_chunk (rq_body rq) ->
     (forall e, from_slice (body_bytes (rq_body rq)) = inr e -> fails_with (serve t st rq) e) /\
     (forall x, from_slice (body_bytes (rq_body rq)) = inl x ->
        exists c c', (forall n, pget n (ctx_params c) = first_binding ps n) /\ starts rq (ctx_params c) st c /\ same_but_body c c' /\ rq_body (ctx_request c') = body_empty /\
          handles (serve t st rq) (rest x c'))).
Proof. exact (@json_errors). Qed.
Print Assumptions C64_json.

Example C64_json_example : forall X U A T (from_slice : bytes -> T + str),
  let h : handler X U A := with_json from_slice (fun _ => no_answer) in
  forall b, exists t ps, @built _ (middleware X U A) [ORoute GET (lit "/a") h] t /\
    reaches [@ORoute _ (middleware X U A) GET (lit "/a") h] (Request GET (lit "/a") None [] [] b) h ps.
Proof. intros X U A T fs h b. apply one_reaches; [reflexivity|]. apply one_a. Qed.

Theorem C64_form_broken : forall (X U A F : Type) (pf : bool -> str -> F + str) msg it1 it2 tg
    (l : list (op (handler X U A) (middleware X U A))) t st rq rest ps,
  built l t -> reaches l rq (with_form pf msg it1 it2 tg rest) ps -> broken (rq_body rq) = true ->
  fails_with (serve t st rq) (lit "Input should not be None").
Proof. exact (fun X U A F => @form_broken X U A F). Qed.
Print Assumptions C64_form_broken.

Example C64_form_broken_example : forall X U A (F : Type) (pf : bool -> str -> F + str) msg (tg : target F),
  let h : handler X U A := with_form pf msg (fun l => l) (@rev _) tg (fun _ => no_answer) in
  let b := Body [utf8 (lit "name=x")] true in
  exists t ps, @built _ (middleware X U A) [ORoute GET (lit "/a") h] t /\
    reaches [@ORoute _ (middleware X U A) GET (lit "/a") h] (Request GET (lit "/a") None [] [] b) h ps /\ broken b = true.
Proof.
  intros X U A F pf msg tg h b.
  destruct (one_reaches (lit "/a") (Request GET (lit "/a") None [] [] b) h eq_refl (one_a _)) as (t & ps & B & R).
  exists t, ps. auto.
Qed.

(** * C94: a handler reads the form or the JSON data together with the path parameters *)

(** Refuted: [form_with_param] and [json_with_param] ("Form value merge with Params", "Json
    value merged with Params") panic whatever was sent.  No request that reaches a handler
    that starts with one of them is answered. *)
Theorem C94_refuted : forall (X U A : Type) (l : list (op (handler X U A) (middleware X U A))) t st rq
    (T : Type) (rest : T -> handler X U A) ps,
  built l t -> reaches l rq (with_form_param rest) ps \/ reaches l rq (with_json_param rest) ps ->
  forall tr o, runs (serve t st rq) tr o <-> tr = [] /\ o = Panicked PUnimplemented.
Proof. exact (@merged_panics). Qed.
Print Assumptions C94_refuted.

Example C94_example : forall X U A (T : Type) (rest : T -> handler X U A), exists t ps,
  let h := with_form_param rest in
  @built _ (middleware X U A) [ORoute GET (lit "/u/:id") h] t /\
  reaches [@ORoute _ (middleware X U A) GET (lit "/u/:id") h] (get_req (lit "/u/7")) h ps.
Proof.
  intros X U A T rest.
  assert (L : forall H M (h : H), let l : list (op H M) := [ORoute GET (lit "/u/:id") h] in exists t rv, built l t /\
    search_route t (lit "/u/7") = LSome rv /\ rr_get_route rv GET = Some (Route GET h) /\ rr_mws rv = []).
  { clear. intros H M h l. eexists. eexists. split; [built_by|]. split; [vm_compute; reflexivity|]. split; vm_compute; reflexivity. }
  set (h := with_form_param rest). destruct (L (handler X U A) (middleware X U A) h) as (t & rv & B & E & G & W).
  destruct (lookup_some _ t _ rv B E) as (ts & ps & R & (Dm & D & Dp)).
  exists t, ps. split; [exact B|]. exists ts. split; [exact R|]. split; [|congruence].
  specialize (D GET). rewrite G in D. cbn [rq_method get_req].
  destruct (handler_for GET (routes_at (table_of [ORoute GET (lit "/u/:id") h]) ts)) as [h'|]; [|discriminate D].
  cbn [option_map] in D. congruence.
Qed.
