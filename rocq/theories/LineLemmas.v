(** From the request line to the handler (C88). *)

From Coq Require Import String.
From Verif Require Import Base BaseFacts Utf8 RouteTrie Router TableSpec PropSpec Http App Server UserSpec AppCalls AppCallsSpec.
From Verif Require Import Wire WireSpec WireLemmas Names NamesSpec NamesLemmas.
From Verif Require Import RouteFacts RouteLemmas RouteLemmas2 AppLemmas AppLemmas2 AppLemmas3 AppLemmas4 AppCallsLemmas AppSpec.
Local Open Scope list_scope.

Section Line.
  Context {X U A : Type}.
  Notation acall := (acall X U A).
  Notation handler := (handler X U A).
  Notation middleware := (middleware X U A).

  Lemma verbs_methods verb (f : str -> handler -> acall) : In (verb, f) verbs ->
    exists m, In (verb, m) known_methods /\ forall path h, f path h = Registers (ORoute m path h).
  Proof.
    intros I. cbn in I. repeat (destruct I as [I|I]; [injection I as <- <-; eexists; split; [|intros; reflexivity]; cbn; auto 10|]). destruct I.
  Qed.

  Lemma registrations_app (l l' : list acall) : registrations (l ++ l') = registrations l ++ registrations l'.
  Proof. apply flat_map_app. Qed.

  Lemma in_registrations (l : list acall) o : In (Registers o) l -> In o (registrations l).
  Proof. intros I. apply in_flat_map. exists (Registers o). split; [exact I|left; reflexivity]. Qed.

  Lemma op_registered (l : list (op handler middleware)) o e : no_root_mount l -> In o l -> In e (after [] o) -> In e (table_of l).
  Proof.
    intros N I J. unfold table_of. rewrite afters_flat by exact N. cbn [app]. apply in_flat_map. exists o. auto.
  Qed.

  Lemma request_line q other (l : list acall) verb f path h a ty target p query lines hs body b :
    run_acalls new_app l = (a, None) -> no_root_mount (registrations l) ->
    In (verb, f) verbs -> In (f path h) l -> no_star (segments path) ->
    target_is target p query -> (N.of_nat (length target) <= 65534)%N -> seg_match (segments path) (segments p) b ->
    append_lines lines = Some hs ->
    exists rq c mws, arrives other verb target hs body = Some rq /\
      handles (call_service (make_service (listen ty a)) rq) (next mws h c) /\
      (forall m, In (app_use_service m) l -> In m mws) /\
      (forall m above rest, In (app_use_service_to above m) l -> segments path = segments above ++ rest ->
         segments above <> [] -> In m mws) /\
      (forall n, pget n (ctx_params c) = first_binding b n) /\
      rq_path (ctx_request c) = p /\ rq_query (ctx_request c) = query /\ rq_body (ctx_request c) = body /\
      (forall k v, header_get q k (rq_headers (ctx_request c)) = Some v <-> names_header q k /\ first_under k lines v) /\
      ctx_response c = None /\
      (forall x, last_state l (Some x) -> ctx_get ty c = Some x).
  Proof.
    intros R NR V I NS TI LE SM AL. destruct (verbs_methods verb f V) as (m & KM & Ef). rewrite Ef in I.
    destruct (app_calls l a None R) as [B S]. specialize (S eq_refl).
    assert (UO : uri_of other target = Some (p, query)).
    { apply uri_spec; [|exact LE|exact TI]. destruct TI as ((r & ->) & _ & f0 & _ & T). destruct query as [q0|]; cbn in T.
      - destruct T as [_ ->]. eexists. reflexivity.
      - rewrite T. eexists. reflexivity. }
    assert (MO : method_of verb = Some m) by (apply method_spec; left; exact KM).
    set (rq := Request m p query hs [] body : request X).
    assert (AR : arrives other verb target hs body = Some rq) by (unfold arrives; rewrite MO, UO; reflexivity).
    assert (RG : registered (registrations l) (segments path) (CRoute (rq_method rq) h)).
    { apply op_registered with (o := ORoute m path h); [exact NR|apply in_registrations; exact I|left; reflexivity]. }
    destruct (own_handled (registrations l) (app_router a) (option_map (fun x => (ty, x)) (app_data a)) rq (segments path) b h B RG NS SM)
      as (pm & mws & c & P & W & St & HA).
    exists rq, c, mws. split; [exact AR|]. split; [exact HA|].
    assert (Q : forall k v, header_get q k (rq_headers (ctx_request c)) = Some v <-> names_header q k /\ first_under k lines v).
    { intros k. exact (proj1 (headers_read X q other verb target body lines hs rq _ _ c AL AR St k)). }
    destruct St as (S1 & S2 & S3 & S4 & S5 & S6 & S7 & S8). rewrite S1. split; [|split; [|split; [exact P|]]].
    - intros mw J. apply (W [] (segments path) mw eq_refl).
      apply op_registered with (o := OService mw); [exact NR|apply in_registrations; exact J|left; reflexivity].
    - intros mw above rest J E NE. apply (W (segments above) rest mw E).
      apply op_registered with (o := OServiceTo above mw); [exact NR|apply in_registrations; exact J|].
      cbn [after]. destruct (segments above); [contradiction|left; reflexivity].
    - split; [exact S4|]. split; [exact S5|]. split; [exact S7|]. split; [exact Q|]. split; [exact S2|].
      intros x L. pose proof (last_state_fun _ _ _ L S) as D. rewrite <- D in S8. exact (proj1 S8).
  Qed.
End Line.
