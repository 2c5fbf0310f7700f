(** Proofs about the calls on an [App]. *)

From Coq Require Import String.
From Verif Require Import Base BaseFacts RouteTrie Router TableSpec PropSpec Http App AppSpec Server AppCalls AppCallsSpec.
From Verif Require Import RouteFacts RouteLemmas AppLemmas AppLemmas2 AppLemmas3 AppLemmas4.
Local Open Scope list_scope.

Section Life.
  Context {X U A : Type}.
  Notation application := (application X U A).
  Notation acall := (acall X U A).
  Notation handler := (handler X U A).
  Notation middleware := (middleware X U A).

  Lemma run_acalls_router (l : list acall) : forall a,
    (app_router (fst (run_acalls a l)), snd (run_acalls a l)) = run_ops (app_router a) (registrations l).
  Proof.
    induction l as [|[o|x] l IH]; intros a; cbn [run_acalls registrations flat_map app run_ops run_acall]; [reflexivity| |].
    - destruct (run_op (app_router a) o) as [t [p|]]; [reflexivity|]. rewrite IH. reflexivity.
    - rewrite IH. reflexivity.
  Qed.

  Lemma run_acalls_state (l : list acall) : forall a, snd (run_acalls a l) = None ->
    (app_data (fst (run_acalls a l)) = app_data a /\ last_state l None) \/
    exists x, app_data (fst (run_acalls a l)) = Some x /\ last_state l (Some x).
  Proof.
    induction l as [|c l IH]; intros a E; cbn [run_acalls] in *; [left; split; [reflexivity|intros x []]|].
    assert (ST : forall x, last_state l (Some x) -> last_state (c :: l) (Some x)).
    { intros x (b & f & -> & N). exists (c :: b), f. split; [reflexivity|exact N]. }
    destruct c as [o|y]; cbn [run_acall] in *.
    - destruct (run_op (app_router a) o) as [t [p|]]; [discriminate E|]. destruct (IH _ E) as [[D N]|(x & D & L)].
      + left. split; [exact D|]. intros x [I|I]; [discriminate I|]. exact (N x I).
      + right. exists x. split; [exact D|exact (ST x L)].
    - destruct (IH _ E) as [[D N]|(x & D & L)].
      + right. exists y. split; [exact D|]. exists [], l. split; [reflexivity|exact N].
      + right. exists x. split; [exact D|exact (ST x L)].
  Qed.

  Lemma app_calls (l : list acall) a p : run_acalls new_app l = (a, p) ->
    build (registrations l) = (app_router a, p) /\ (p = None -> last_state l (app_data a)).
  Proof.
    intros E. pose proof (run_acalls_router l new_app) as R. pose proof (run_acalls_state l new_app) as S. rewrite E in R, S.
    split; [exact (eq_sym R)|]. intros ->. cbn [fst snd] in S. destruct (S eq_refl) as [[-> N]|(x & -> & L)]; assumption.
  Qed.

  Lemma last_state_fun (l : list acall) s s' : last_state l s -> last_state l s' -> s = s'.
  Proof.
    destruct s as [x|], s' as [y|]; cbn; intros L L'.
    - destruct L as (b & f & -> & N), L' as (b' & f' & E & N').
      assert (G : forall b b' : list acall, b ++ SetState x :: f = b' ++ SetState y :: f' -> x = y).
      { clear E b b'. induction b as [|c b IH]; intros [|c' b'] E; cbn in E.
        - congruence.
        - injection E as _ E. exfalso. apply (N y). rewrite E. apply in_elt.
        - injection E as _ E. exfalso. apply (N' x). rewrite <- E. apply in_elt.
        - injection E as _ E. exact (IH _ E). }
      rewrite (G b b' E). reflexivity.
    - destruct L as (b & f & -> & N). exfalso. apply (L' x). apply in_elt.
    - destruct L' as (b & f & -> & N). exfalso. apply (L y). apply in_elt.
    - reflexivity.
  Qed.

  Lemma app_calls_same (l l' : list acall) a s : run_acalls new_app l = (a, None) ->
    registrations l' = registrations l -> last_state l s -> last_state l' s -> run_acalls new_app l' = (a, None).
  Proof.
    intros E R L L'. destruct (app_calls l a None E) as [B S]. destruct (run_acalls new_app l') as [a' p'] eqn:E'.
    destruct (app_calls l' a' p' E') as [B' S']. rewrite R, B in B'. injection B' as Er Ep. subst p'.
    pose proof (last_state_fun _ _ _ L (S eq_refl)) as D. pose proof (last_state_fun _ _ _ L' (S' eq_refl)) as D'.
    destruct a, a'. cbn in *. congruence.
  Qed.

  Lemma default_calls d (l : list acall) :
    run_acalls (default_app d) l = run_acalls new_app (app_use_service (logger d) :: l).
  Proof. reflexivity. Qed.

  Lemma app_served (l : list acall) a ty (rq : request X) ts ps h :
    run_acalls new_app l = (a, None) -> all_tidy [] (registrations l) ->
    resolves (table_of (registrations l)) (segments (rq_path rq)) ts ps ->
    handler_for (rq_method rq) (routes_at (table_of (registrations l)) ts) = Some h ->
    exists pm c, handles (call_service (make_service (listen ty a)) rq) (next (mws_for (table_of (registrations l)) ts) h c) /\
      (forall n, pget n pm = first_binding ps n) /\ ctx_params c = pm /\
      (forall x, last_state l (Some x) -> ctx_get ty c = Some x) /\
      (forall ty', ty' <> ty \/ last_state l None -> ctx_get ty' c = aget N.eqb ty' (rq_ext rq)).
  Proof.
    intros E Td R Eh. destruct (app_calls l a None E) as [B S]. specialize (S eq_refl).
    assert (Bt : built (registrations l) (app_router a)) by (split; assumption).
    destruct (app_state (registrations l) (app_router a) (option_map (fun x => (ty, x)) (app_data a)) rq ts ps h Bt R Eh)
      as (pm & c & Hd & Pm & Pc & S1 & S2).
    exists pm, c. split; [exact Hd|]. split; [exact Pm|]. split; [exact Pc|]. split.
    - intros x L. pose proof (last_state_fun _ _ _ L S) as D. rewrite <- D in S1. apply (S1 ty x eq_refl).
    - intros ty' O. destruct (app_data a) as [x|] eqn:D; cbn in S1, S2.
      + destruct O as [O|O]; [apply (S1 ty x eq_refl), O|]. pose proof (last_state_fun _ _ _ O S). discriminate.
      + apply S2. reflexivity.
  Qed.
  (** ** What each call registers *)

  Lemma table_snoc (l : list acall) o :
    table_of (registrations (l ++ [Registers o])) = after (table_of (registrations l)) o.
  Proof.
    unfold registrations, table_of. rewrite flat_map_app. cbn [flat_map app].
    generalize (@nil (entry handler middleware)). induction (flat_map _ l) as [|x r IH]; intros T; [reflexivity|]. cbn [app afters]. apply IH.
  Qed.

  Theorem app_tables (l : list acall) :
    let T := table_of (registrations l) in
    let with_call c := table_of (registrations (l ++ [c])) in
    (forall path h,
       with_call (app_get path h) = T ++ [(segments path, CRoute GET h)] /\
       with_call (app_post path h) = T ++ [(segments path, CRoute POST h)] /\
       with_call (app_put path h) = T ++ [(segments path, CRoute PUT h)] /\
       with_call (app_patch path h) = T ++ [(segments path, CRoute PATCH h)] /\
       with_call (app_delete path h) = T ++ [(segments path, CRoute DELETE h)]) /\
    (forall m, with_call (app_use_service m) = T ++ [([], CMw m)]) /\
    (forall path m, segments path <> [] -> with_call (app_use_service_to path m) = T ++ [(segments path, CMw m)]) /\
    (forall path sub, segments path <> [] ->
       with_call (app_use_router path sub) = T ++ (segments path, CNode) :: with_prefix (segments path) (table_of sub) /\
       with_call (app_scope path sub) = T ++ (segments path, CNode) :: with_prefix (segments path) (table_of sub)) /\
    (forall v d, with_call (app_use_static_to v d) = T ++ [(segments v ++ [s_star], CRoute GET (static_virtual_file_handler v d))]) /\
    (forall d, with_call (app_use_static d) = T ++ [(segments d ++ [s_star], CRoute GET static_dir_file_handler)]).
  Proof.
    cbv zeta.
    assert (RT : forall T path (sub : list (op handler middleware)), segments path <> [] ->
      after T (ORouter path sub) = T ++ (segments path, CNode) :: with_prefix (segments path) (table_of sub)).
    { intros T path sub N. cbn [after]. destruct (segments path) eqn:E; [congruence|]. reflexivity. }
    split; [intros path h; repeat split; apply table_snoc|]. split; [intros m; apply table_snoc|].
    split. { intros path m N. unfold app_use_service_to. rewrite table_snoc. cbn [after]. destruct (segments path); [congruence|reflexivity]. }
    split. { intros path sub N. unfold app_use_router, app_scope, OScope. rewrite !table_snoc. split; [apply RT; exact N|].
      rewrite RT by exact N. reflexivity. }
    split; intros; unfold app_use_static_to, app_use_static, use_static_to, use_static; rewrite table_snoc; cbn [after]; rewrite static_segments; reflexivity.
  Qed.
End Life.

Lemma default_app_calls {X U A : Type} d (l : list (acall X U A)) a p : run_acalls (default_app d) l = (a, p) ->
  build (OService (logger d) :: registrations l) = (app_router a, p) /\ (p = None -> last_state l (app_data a)).
Proof.
  rewrite default_calls. intros E. destruct (app_calls _ _ _ E) as [B S]. split; [exact B|].
  intros P. specialize (S P). destruct (app_data a) as [x|]; cbn in S |- *.
  - destruct S as (b & f & Eb & N). destruct b as [|c b]; [discriminate Eb|]. injection Eb as _ Eb. eauto.
  - intros x I. exact (S x (or_intror I)).
Qed.
