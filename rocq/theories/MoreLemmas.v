(** Lemmas about the Logger, mounts at "/", the files of static directories and string targets. *)

From Coq Require Import String Permutation.
From Verif Require Import Base BaseFacts Utf8 RouteTrie Router TableSpec PropSpec UrlEncoded UrlSpec UrlLemmas Http App Form AppSpec FormSpec LogSpec.
From Verif Require Import TrieBuild RouteFacts RouteLemmas AppLemmas AppLemmas2 AppLemmas4 FormLemmas FormLemmas2 FormLemmas3 FormLemmas4 FormLemmas5 FormLemmas6.
Local Open Scope list_scope.

(** ** The Logger (C31) *)

Section Logger.
  Context {X U A : Type}.
  Notation handler := (handler X U A).

  Lemma logger_goes_exact d (c : context X) tr s : goes (U:=U) (A:=A) (logger d c) tr s <->
    tr = log_before d c /\ s = Calls 0 c logger_after.
  Proof.
    unfold logger, log_before. split.
    - intros R. inversion R; subst. destruct d.
      + inversion H3; subst. inversion H4; subst. auto.
      + inversion H3; subst. auto.
    - intros [-> ->]. destruct d; [apply go_print, go_print, go_next|apply go_print, go_next].
  Qed.

  Lemma logger_exact d post (h : handler) c tr o : runs (next (logger d :: post) h c) tr o <->
    exists tr0 o0 lines, runs (next post h c) tr0 o0 /\ log_after o0 lines o /\ tr = log_before d c ++ tr0 ++ lines.
  Proof.
    rewrite logger_next. split.
    - intros (t1 & t2 & -> & G & R). apply logger_goes_exact in G as [-> _].
      destruct R as [(t3 & t4 & r & -> & R & R')|(p & -> & R)].
      + exists t3, (Value r), t4. split; [exact R|]. split; [|reflexivity]. destruct r as [c'|e]; cbn [App.logger_after] in R'.
        * destruct (ctx_response c') eqn:E; cbn [exec] in R'.
          -- apply runs_print in R' as (t & -> & R'). apply runs_ret in R' as [-> ->]. apply la_sent, E.
          -- apply runs_crash in R' as [-> ->]. apply la_none, E.
        * cbn [exec] in R'. apply runs_print in R' as (t & -> & R'). apply runs_ret in R' as [-> ->]. apply la_error.
      + exists t2, (Panicked p), []. rewrite app_nil_r. split; [exact R|]. split; [apply la_panic|reflexivity].
    - intros (tr0 & o0 & lines & R & L & ->). exists (log_before d c), (tr0 ++ lines). split; [reflexivity|].
      split; [apply logger_goes_exact; auto|]. destruct L as [c' r E|e|c' E|p].
      + left. eexists _, _, _. split; [reflexivity|]. split; [exact R|]. cbn. rewrite E. cbn. apply run_print, run_ret.
      + left. eexists _, _, _. split; [reflexivity|]. split; [exact R|]. cbn. apply run_print, run_ret.
      + left. eexists _, _, _. split; [reflexivity|]. split; [exact R|]. cbn. rewrite E. cbn. apply run_crash.
      + right. exists p. rewrite app_nil_r. auto.
  Qed.
End Logger.

(** ** Mounts at "/" (C19) *)

Section Root.
  Context {H M : Type}.
  Notation op := (op H M).

  Lemma run_ops_app (a b : list op) : forall t, run_ops t (a ++ b) =
    match run_ops t a with (t', None) => run_ops t' b | (t', Some p) => (t', Some p) end.
  Proof.
    induction a as [|o a IH]; intros t; cbn [app run_ops]; [reflexivity|].
    destruct (run_op t o) as [t' [p|]]; [reflexivity|apply IH].
  Qed.

  Lemma root_mount_forgets (l sub rest : list op) t0 t path : build l = (t0, None) -> build sub = (t, None) ->
    segments path = [] -> build (l ++ ORouter path sub :: rest) = build (sub ++ rest).
  Proof.
    unfold build. intros B S E. rewrite !run_ops_app, B, S. cbn [run_ops]. rewrite run_op_router.
    unfold build. rewrite S. cbn [fst snd]. unfold insert_sub_route. rewrite E. reflexivity.
  Qed.
End Root.

(** ** Files of static directories (C56) *)

Section Files.
  Context {X U A : Type}.

  Lemma join_relative l : (forall s, In s l -> s <> [] /\ ~ In c_slash s) -> forall r, join_slash l <> c_slash :: r.
  Proof.
    intros K r E. destruct l as [|s l]; [discriminate E|]. destruct (K s (or_introl eq_refl)) as [N F].
    destruct s as [|d s]; [congruence|]. assert (d = c_slash) by (destruct l; cbn in E; congruence). subst d. apply F. left. reflexivity.
  Qed.

  Lemma serves_relative (h : handler X U A) (c : context X) l tr o file r : serves_file h c (join_slash l) ->
    (forall s, In s l -> s <> [] /\ ~ In c_slash s) ->
    runs (h c) tr o -> In (EvRead file r) tr -> forall s, file <> c_slash :: s.
  Proof.
    intros S K R I s. apply S in R as [(content & r0 & -> & _)|(err & r0 & -> & _)].
    - destruct I as [I|[]]. injection I as <- _. apply join_relative, K.
    - destruct I as [I|[I|[]]]; [|discriminate I]. injection I as <- _. apply join_relative, K.
  Qed.

  Lemma static_never_absolute (h : handler X U A) (c : context X) tr o file r :
    (exists v d, h = static_virtual_file_handler v d) \/ h = static_dir_file_handler ->
    runs (h c) tr o -> In (EvRead file r) tr -> forall s, file <> c_slash :: s.
  Proof.
    intros [(v & d & ->)| ->].
    - eapply serves_relative; [apply virtual_served|]. intros s I. apply in_app_or in I as [I|I]; [exact (segments_ok _ _ I)|].
      apply in_skipn in I. exact (segments_ok _ _ I).
    - eapply serves_relative; [apply dir_served|]. intros s I. exact (segments_ok _ _ I).
  Qed.
End Files.

(** ** String targets (C42) *)

Section Strings.
  Context {F : Type} (pf : bool -> str -> F + str) (msg : mismatch -> str).

  Definition key_first {V} (k : str) (l : list (str * V)) : list (str * V) :=
    filter (fun e => str_eqb k (fst e)) l ++ filter (fun e => negb (str_eqb k (fst e))) l.

  Lemma key_first_iteration {V} k : iteration (@key_first V k).
  Proof.
    intros l. unfold key_first. induction l as [|e l IH]; cbn [filter]; [reflexivity|].
    destruct (str_eqb k (fst e)); cbn [negb app]; [constructor; exact IH|].
    symmetry. apply Permutation_cons_app. symmetry. exact IH.
  Qed.

  Lemma string_keys {X} src (c : context X) q ps k : has_data src c q -> form_pairs q ps ->
    ((exists it1 it2, iteration it1 /\ iteration it2 /\ read_from pf msg it1 it2 src TgString c = inl (inl (RKey k))) <->
     values_of k ps <> []).
  Proof.
    intros D P. apply parse_spec in P. subst ps. split.
    - intros (it1 & it2 & I1 & I2 & E). rewrite (read_data pf msg _ _ src c _ _ D) in E. apply result_done in E.
      unfold parse_queries in E. fold (handed it1 it2 q) in E. pose proof (handed_grouped it1 it2 q I1 I2) as [_ G].
      destruct (handed it1 it2 q) as [|[k' vs] es]; cbn in E; [discriminate E|]. injection E as ->.
      destruct (proj1 (G k vs) (or_introl eq_refl)) as [N ->]. exact N.
    - intros N. exists (fun l => l), (key_first k). split; [intros l; reflexivity|]. split; [apply key_first_iteration|].
      rewrite (read_data pf msg _ _ src c _ _ D). apply result_done. unfold parse_queries. cbn [from_cow_map].
      pose proof (parsed_grouped q) as [Nd G]. rewrite cow_map_id by exact Nd.
      assert (I : In (k, values_of k (parse q)) (parsed_form_map q)) by (apply G; auto).
      unfold key_first. assert (J : In (k, values_of k (parse q)) (filter (fun e => str_eqb k (fst e)) (parsed_form_map q))).
      { apply filter_In. split; [exact I|apply str_eqb_refl]. }
      destruct (filter (fun e => str_eqb k (fst e)) (parsed_form_map q)) as [|[k' vs] es] eqn:E; [destruct J|].
      assert (K : In (k', vs) (filter (fun e => str_eqb k (fst e)) (parsed_form_map q))) by (rewrite E; left; reflexivity).
      apply filter_In in K as [_ K]. cbn in K. apply str_eqb_eq in K. subst k'. reflexivity.
  Qed.

  Lemma string_none {X} src (c : context X) q ps it1 it2 : has_data src c q -> form_pairs q ps ->
    iteration it1 -> iteration it2 -> (forall k, values_of k ps = []) ->
    read_from pf msg it1 it2 src TgString c = inr (EForm FNone).
  Proof.
    intros D P I1 I2 N. apply parse_spec in P. subst ps. rewrite (read_data pf msg _ _ src c _ _ D). apply result_fail.
    unfold parse_queries. fold (handed it1 it2 q). pose proof (handed_grouped it1 it2 q I1 I2) as [_ G].
    destruct (handed it1 it2 q) as [|[k vs] es]; [reflexivity|].
    destruct (proj1 (G k vs) (or_introl eq_refl)) as [N' ->]. exfalso. apply N'. apply N.
  Qed.
End Strings.
