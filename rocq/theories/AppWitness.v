(** Concrete servers: witnesses of refuted properties of request handling and
    examples for the theorems about it. *)

From Coq Require Import String.
From Verif Require Import Base BaseFacts Utf8 Utf8Facts RouteTrie Router TableSpec PropSpec RouteFacts RouteLemmas RouteWitness.
From Verif Require Import Http App AppSpec AppLemmas AppLemmas2.
Local Open Scope string_scope.
Local Open Scope list_scope.

(** A router with one GET route finds it. *)
Definition one_route {H M} (path req : str) (h : H) : Prop :=
  exists t rv, @built H M [ORoute GET path h] t /\ search_route t req = LSome rv /\
    rr_get_route rv GET = Some (Route GET h) /\ rr_mws rv = [].

Ltac one := eexists; eexists; split; [built_by|]; split; [vm_compute; reflexivity|]; split; vm_compute; reflexivity.


(** A handler that answers with the response [r], and one that answers nothing. *)
Definition answer_with {X U A} (r : response) : handler X U A := fun c => Ret (b_ok (build_res c (RResponse r))).
Definition no_answer {X U A} : handler X U A := fun c => Ret (inl c).

Lemma serve_one {X U A} (path req : str) (h : handler X U A) (st : option (N * X)) :
  @one_route _ (middleware X U A) path req h ->
  exists t ps, built [ORoute GET path h] t /\
    serve t st (get_req req) = bind (h (first_context (get_req req) ps st)) finish.
Proof.
  intros (t & rv & B & E & G & M). exists t, (rr_params rv). split; [exact B|].
  rewrite (serve_matched t st (get_req req) rv _ E G), M. reflexivity.
Qed.

Lemma w_header_lost : forall X U A : Type,
  exists (h : handler X U A) r k v t resp,
    (forall c, h c = Ret (inl (set_response (Some r) c))) /\
    In (k, v) (header_list r) /\ (forall k v, In (k, v) (header_list r) -> header_text v) /\
    @built _ (middleware X U A) [ORoute GET (lit "/") h] t /\
    runs (serve t None (get_req (lit "/"))) [] (Value resp) /\
    ~ In (k, v) (h_headers resp).
Proof.
  intros X U A. pose (r := Response body_empty 200%N (Some [(lit "set-cookie", lit "a"); (lit "set-cookie", lit "b")])).
  destruct (@serve_one X U A (lit "/") (lit "/") (answer_with r) None) as (t & ps & B & E); [one|].
  exists (answer_with r), r, (lit "set-cookie"), (lit "a"), t. rewrite E. eexists.
  split; [reflexivity|]. split; [left; reflexivity|]. split; [|split; [exact B|split; [vm_compute; apply run_ret|]]].
  - intros k v [F|[F|[]]]; injection F as <- <-; intros c [<-|[]]; left; split; reflexivity || discriminate.
  - vm_compute. intros [F|[]]. discriminate F.
Qed.

Lemma w_header_panics : exists (h : handler unit unit unit) r t,
  (forall c, h c = Ret (inl (set_response (Some r) c))) /\
  @built _ (middleware unit unit unit) [ORoute GET (lit "/") h] t /\
  runs (serve t None (get_req (lit "/"))) [] (Panicked PHeaderValue).
Proof.
  exists (answer_with (Response body_empty 200%N (Some [(lit "x-name", [233%N])]))), (Response body_empty 200%N (Some [(lit "x-name", [233%N])])).
  eexists. split; [reflexivity|]. split; [built_by|]. vm_compute. apply run_crash.
Qed.

(** The Logger turns a reply into a panic. *)
Lemma w_logger_panics : forall (X U A : Type) (d : bool),
  exists (h : handler X U A) t1 t2 resp tr,
    @built _ (middleware X U A) [ORoute GET (lit "/") h] t1 /\
    built [OService (logger d); ORoute GET (lit "/") h] t2 /\
    runs (serve t1 None (get_req (lit "/"))) [] (Value resp) /\ h_status resp = 200%N /\
    runs (serve t2 None (get_req (lit "/"))) tr (Panicked PUnwrapNone).
Proof.
  intros X U A d. destruct (@serve_one X U A (lit "/") (lit "/") no_answer None) as (t1 & ps & B1 & E1); [one|].
  assert (L : forall (H M : Type) (h : H) (m : M), exists t rv, built [OService m; ORoute GET (lit "/") h] t /\
    search_route t (lit "/") = LSome rv /\ rr_get_route rv GET = Some (Route GET h) /\ rr_mws rv = [m])
    by (intros H M h m; one).
  destruct (L _ _ (@no_answer X U A) (@logger X U A d)) as (t2 & rv & B2 & E2 & G2 & M2).
  exists no_answer, t1, t2. rewrite E1, (serve_matched t2 None (get_req (lit "/")) rv _ E2 G2), M2.
  eexists. exists (EvPrint (LRequest GET (lit "/") None) :: if d then [EvPrint LDebug] else []).
  split; [exact B1|]. split; [exact B2|]. split; [vm_compute; apply run_ret|]. split; [reflexivity|].
  cbn [next next_from]. unfold logger. destruct d; cbn -[lit].
  - do 2 apply run_print. apply run_crash.
  - apply run_print. apply run_crash.
Qed.

(** ** Static files *)

Lemma w_static_escape : forall X U A : Type,
  exists v d req rel,
    @reads_path X U A [use_static_to v d] req (join_slash (segments d ++ rel)) /\ ~ stays_inside rel.
Proof.
  intros X U A. exists (lit "/files"), (lit "public"), (lit "/files/../secret"), [lit ".."; lit "secret"]. split.
  - assert (L : forall H M (h : H), @one_route H M (lit "/files/*") (lit "/files/../secret") h) by (intros; one).
    destruct (L _ (middleware X U A) (@static_virtual_file_handler X U A (lit "/files") (lit "public"))) as (t & rv & B & E & G & _).
    exists t, rv, (static_virtual_file_handler (lit "/files") (lit "public")).
    split; [exact B|]. split; [exact E|]. split; [exact G|]. intros c Ec.
    pose proof (virtual_served (U:=U) (A:=A) (lit "/files") (lit "public") c) as V. rewrite Ec in V. exact V.
  - intros N. apply N. reflexivity.
Qed.

Lemma w_static_dir_escape : forall X U A : Type,
  exists d req path,
    @reads_path X U A [use_static d] req path /\
    ~ In (lit "..") (segments req) /\ ~ exists rel, segments path = segments d ++ rel.
Proof.
  intros X U A. exists (lit "a/b"), (lit "/ab/secret"), (lit "ab/secret"). split; [|split].
  - assert (L : forall H M (h : H), @one_route H M (lit "a/b/*") (lit "/ab/secret") h) by (intros; one).
    destruct (L _ (middleware X U A) (@static_dir_file_handler X U A)) as (t & rv & B & E & G & _).
    exists t, rv, static_dir_file_handler.
    split; [exact B|]. split; [exact E|]. split; [exact G|]. intros c Ec.
    pose proof (dir_served (U:=U) (A:=A) c) as V. rewrite Ec in V. exact V.
  - vm_compute. intuition discriminate.
  - intros (rel & E). vm_compute in E. discriminate E.
Qed.

Lemma w_static_mounted : forall X U A : Type,
  exists p v d rest path,
    @reads_path X U A [ORouter p [use_static_to v d]] (p ++ v ++ rest) path /\
    path <> join_slash (segments d ++ segments rest).
Proof.
  intros X U A. exists (lit "/app"), (lit "/files"), (lit "public"), (lit "/x"), (lit "public/files/x"). split; [|discriminate].
  assert (L : forall (H M : Type) (h : H), exists t rv, @built H M [ORouter (lit "/app") [ORoute GET (lit "/files/*") h]] t /\
    search_route t (lit "/app/files/x") = LSome rv /\ rr_get_route rv GET = Some (Route GET h) /\ rr_mws rv = [])
    by (intros H M h; one).
  destruct (L _ (middleware X U A) (@static_virtual_file_handler X U A (lit "/files") (lit "public"))) as (t & rv & B & E & G & _).
  exists t, rv, (static_virtual_file_handler (lit "/files") (lit "public")).
  split; [exact B|]. split; [exact E|]. split; [exact G|]. intros c Ec.
  pose proof (virtual_served (U:=U) (A:=A) (lit "/files") (lit "public") c) as V. rewrite Ec in V. exact V.
Qed.

Lemma w_static_absolute : forall X U A : Type,
  exists v d req rest path,
    @reads_path X U A [use_static_to v d] req path /\ req = v ++ rest /\ path <> d ++ rest.
Proof.
  intros X U A. exists (lit "/files"), (lit "/var/www"), (lit "/files/x"), (lit "/x"), (lit "var/www/x").
  split; [|split; [reflexivity|discriminate]].
  assert (L : forall H M (h : H), @one_route H M (lit "/files/*") (lit "/files/x") h) by (intros; one).
  destruct (L _ (middleware X U A) (@static_virtual_file_handler X U A (lit "/files") (lit "/var/www"))) as (t & rv & B & E & G & _).
  exists t, rv, (static_virtual_file_handler (lit "/files") (lit "/var/www")).
  split; [exact B|]. split; [exact E|]. split; [exact G|]. intros c Ec.
  pose proof (virtual_served (U:=U) (A:=A) (lit "/files") (lit "/var/www") c) as V. rewrite Ec in V. exact V.
Qed.

(** A file that is not UTF-8 is never delivered. *)
Lemma w_static_binary : forall X U A : Type,
  exists v d req t fs content,
    @built _ (middleware X U A) [use_static_to v d] t /\
    (forall path, fs path = inl content) /\
    (exists tr resp, fs_ok fs tr /\ runs (serve t None (@get_req X req)) tr (Value resp)) /\
    forall tr resp, fs_ok fs tr -> runs (serve t None (@get_req X req)) tr (Value resp) -> h_status resp = 404%N.
Proof.
  intros X U A. destruct (@serve_one X U A (lit "/files/*") (lit "/files/x") (static_virtual_file_handler (lit "/files") (lit "public")) None)
    as (t & ps & B & E).
  { assert (L : forall H M (h : H), @one_route H M (lit "/files/*") (lit "/files/x") h) by (intros; one). apply L. }
  exists (lit "/files"), (lit "public"), (lit "/files/x"), t, (fun _ => inl [255%N]), [255%N].
  split; [exact B|]. split; [reflexivity|]. split.
  - assert (F : forall p, fs_ok (U:=U) (A:=A) (fun _ => inl [255%N]) [EvRead p (inr (lit "e")); EvPrint (LDbg (lit "e"))]).
    { intros p path res [F|[F|[]]]; [|discriminate F]. injection F as <- <-. cbn. eauto. }
    eexists. eexists. split; [apply F|]. rewrite E. unfold static_virtual_file_handler, file. cbn [bind].
    apply run_read with (res := inr (lit "e")). cbn [bind]. apply run_print. apply run_ret.
  - intros tr resp F R. rewrite E in R. unfold static_virtual_file_handler, file in R. cbn [bind] in R.
    apply runs_read in R as (res & t' & -> & R).
    match type of F with fs_ok _ (EvRead ?p ?r :: _) => specialize (F p r (or_introl eq_refl)) end.
    cbn in F. destruct F as [e ->]. cbn [bind] in R. apply runs_print in R as (t2 & -> & R).
    cbn in R. apply runs_ret in R as [-> R]. injection R as ->. reflexivity.
Qed.

(** ** Examples *)

(** A request answered by the only route of a server. *)
Lemma one_matched {X U A} (path req : str) (h : handler X U A) :
  @one_route _ (middleware X U A) path req h ->
  exists t ts ps, built [@ORoute _ (middleware X U A) GET path h] t /\
    resolves (table_of [@ORoute _ (middleware X U A) GET path h]) (segments req) ts ps /\
    handler_for GET (routes_at (table_of [@ORoute _ (middleware X U A) GET path h]) ts) = Some h.
Proof.
  intros (t & rv & B & E & G & _). destruct (lookup_some _ t req rv B E) as (ts & ps & R & (_ & D & _)).
  exists t, ts, ps. split; [exact B|]. split; [exact R|]. specialize (D GET). rewrite G in D.
  destruct (handler_for GET (routes_at (table_of [ORoute GET path h]) ts)) as [h'|]; [|discriminate D].
  injection D as ->. reflexivity.
Qed.

(** A middleware that announces itself before and after. *)
Definition around {X U A} (a b : str) : middleware X U A := fun c =>
  MPrint (LOther a) (MNext 0 c (fun r => MPrint (LOther b) (MDone r))).

(** A middleware that answers itself. *)
Definition deny {X U A} : middleware X U A := fun c => MDone (b_ok (build_res c (RStatus 403%N))).

(** A middleware that tries again after an error. *)
Definition retry {X U A} : middleware X U A := fun c =>
  MNext 0 c (fun r => match r with inl _ => MDone r | inr _ => MNext 0 c MDone end).

(** A middleware that leaves out the one after it. *)
Definition bypass {X U A} : middleware X U A := fun c => MNext 1 c MDone.

Lemma around_calls {X U A} a b : calls_next (@around X U A a b).
Proof.
  split.
  - intros c tr n c' k G. inversion G; subst. inversion H3; subst. split; [reflexivity|].
    intros r tr' n' c'' k' G'. inversion G'; subst. inversion H4.
  - intros c tr r G. inversion G; subst. inversion H3.
Qed.

Lemma deny_stops {X U A} : never_calls_next (@deny X U A).
Proof. intros c tr n c' k G. inversion G. Qed.

Lemma around_no_skip {X U A} a b : never_skips (@around X U A a b).
Proof. intros c. cbn. auto. Qed.

Lemma retry_no_skip {X U A} : never_skips (@retry X U A).
Proof. intros c. cbn. split; [reflexivity|]. intros [r|e]; cbn; auto. Qed.
