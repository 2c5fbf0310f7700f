(** Lemmas about middlewares that guard a path. *)

From Coq Require Import String.
From Verif Require Import Base BaseFacts Utf8 RouteTrie Router TableSpec PropSpec TextSpec Http App AppSpec ThroughSpec GuardSpec.
From Verif Require Import TrieDen TrieRep TrieLookup RouteFacts RouteLemmas RouteLemmas2 RouteLemmas3 RouteLemmas4 TextMore TextServed AppLemmas AppLemmas2 ThroughLemmas.
Local Open Scope list_scope.

Section Guard.
  Context {X U A : Type}.
  Notation context := (context X).
  Notation handler := (handler X U A).
  Notation middleware := (middleware X U A).

  (** ** The chain *)

  Lemma exec_guarded (c : context) (nx nx' : nat -> context -> comp U A (result X)) p :
    (forall c', same_input c c' -> same_runs (nx 0 c') (nx' 0 c')) -> no_skip p -> hands_input c p ->
    same_runs (exec nx p) (exec nx' p).
  Proof.
    intros E. induction p as [r|n c' k IH|l k IH|path k IH|u k IH|e]; cbn [no_skip hands_input exec]; intros NS K tr o.
    - reflexivity.
    - destruct NS as [-> NS], K as [S K]. rewrite (bind_same_left (U:=U) (A:=A) _ _ _ (E c' S) tr o).
      apply bind_same. intros x _ _. apply IH; [apply NS|apply K].
    - split; intros R; inversion R; subst; constructor; apply (IH NS K); assumption.
    - split; intros R; inversion R; subst; constructor; apply (IH _ (NS _) (K _)); assumption.
    - split; intros R; inversion R; subst; constructor; apply (IH _ (NS _) (K _)); assumption.
    - reflexivity.
  Qed.

  Lemma input_request (rq : request X) c c' : of_request rq c -> same_input c c' -> of_request rq c'.
  Proof. unfold of_request, same_input. intros (?&?&?&?&?) (_&?&?&?&?&?). repeat split; congruence. Qed.

  Lemma guarded pre (g : middleware) post (h h' : handler) rq : Forall never_skips pre -> Forall keeps_input pre ->
    refuses g rq -> forall c, of_request rq c -> same_runs (next (pre ++ g :: post) h c) (next (pre ++ g :: post) h' c).
  Proof.
    intros F K Rf. induction F as [|m pre NS F IH]; intros c O; cbn [app]; rewrite !next_cons.
    - intros tr o. rewrite !runs_exec. split; (intros [R|[R|(t1 & t2 & n & c' & k & _ & G & _)]];
        [auto|auto|exfalso; exact (Rf _ O _ _ _ _ G)]).
    - inversion K as [|? ? Km K']; subst. apply (exec_guarded c); [|apply NS|apply Km].
      intros c' S. exact (IH K' c' (input_request _ _ _ O S)).
  Qed.

  Lemma starts_request (rq : request X) pm st c : starts rq pm st c -> of_request rq c.
  Proof. intros (_ & ? & ? & ? & ? & ? & ? & _). unfold of_request. tauto. Qed.

  Lemma guarded_all (mws : list middleware) g (h : handler) rq c prog :
    In g mws -> (forall m, In m mws -> never_skips m /\ keeps_input m) -> refuses g rq -> of_request rq c ->
    handles prog (next mws h c) -> no_handler prog mws c.
  Proof.
    intros I W Rf O Hd h'. apply in_split in I as (pre & post & ->). revert Hd. apply handles_same.
    apply (guarded pre g post h h' rq); [| |exact Rf|exact O]; apply Forall_forall; intros m J; apply W; apply in_or_app; left; exact J.
  Qed.

  (** ** Routes below the guard *)

  Lemma guarded_routes (l : list (op handler middleware)) t st (rq : request X) p g : build l = (t, None) ->
    registered l p (CMw g) -> refuses g rq ->
    (forall q m, registered l q (CMw m) -> never_skips m /\ keeps_input m) ->
    not_found (serve t st rq) \/
    exists q h c, registered l q (CRoute (rq_method rq) h) /\ starts rq (ctx_params c) st c /\
      handles (serve t st rq) (next (text_mws (table_of l) (text q)) h c) /\
      (prefix (text p) (text q) -> no_handler (serve t st rq) (text_mws (table_of l) (text q)) c).
  Proof.
    intros B I Rf W. destruct (every_request l t st rq B) as [(q & h & pm & c & J & St & Hd)|N]; [right|left; exact N].
    exists q, h, c. assert (Ep : ctx_params c = pm) by apply St. rewrite Ep. repeat (split; [assumption|]). intros P.
    apply (guarded_all _ g h rq c); [| |exact Rf|exact (starts_request _ _ _ _ St)|exact Hd].
    - apply in_text_mws. eauto.
    - intros m J'. apply in_text_mws in J' as (p' & J' & _). exact (W _ _ J').
  Qed.

  (** ** Requests below the guard *)

  Lemma flat_star_last q ts : path_ok q -> flat q = ts ++ [Star] -> exists q0, q = q0 ++ [s_star] /\ flat q0 = ts.
  Proof.
    intros P E. destruct q as [|a q] using rev_ind; [destruct ts; discriminate|]. clear IHq.
    rewrite flat_app in E. cbn [flat flat_map] in E. rewrite app_nil_r in E.
    assert (J : seg_toks a <> [] -> In Star (seg_toks a)).
    { intros Na. destruct (exists_last Na) as (x & y & Ea). rewrite Ea, app_assoc in E. apply app_inj_tail in E as [_ ->].
      rewrite Ea. apply in_elt. }
    assert (Na : seg_toks a <> []). { apply seg_toks_nil, P, in_elt. }
    specialize (J Na). assert (Ea : a = s_star).
    { unfold seg_toks in J. destruct a as [|x a]; [destruct J|].
      destruct (N.eqb x c_colon); [destruct J as [J|[]]; discriminate|].
      destruct (str_eqb_spec (x :: a) s_star) as [Ea|_]; [exact Ea|].
      apply in_map_iff in J as (y & J & _). discriminate. }
    subst a. change (seg_toks s_star) with [Star] in E. apply app_inj_tail in E as [E _]. eauto.
  Qed.

  Lemma below_guard {H M} (l : list (op H M)) t p g R1 R2 b ts ps : built l t -> registered l p (CMw g) -> no_star p ->
    seg_match p R1 b -> resolves (table_of l) (R1 ++ R2) ts ps ->
    prefix (flat p) ts \/ exists p1 p2, p = p1 ++ p2 /\ p2 <> [] /\ ts = flat p1 ++ [Star].
  Proof.
    intros B I NS S RS. destruct (built_rep _ _ B) as (RP & G & _).
    pose proof (gd_path _ G _ _ I) as P.
    apply resolves_reads in RS as (k & ts0 & L & RD & CS & _ & V).
    destruct (Nat.le_gt_cases (length R1) k) as [Le|Lt].
    - left. rewrite firstn_app, firstn_all2 in RD by exact Le.
      apply reads_app_inv in RD as (t1 & t2 & b1 & b2 & D1 & D2 & -> & ->).
      pose proof (match_reads_prefix (table_of l) (CMw g) p _ b S NS [] []) as RP'. rewrite app_nil_r in RP'. cbn [app] in RP'.
      destruct (reads_fun t _ RP _ _ _ _ _ (RP' I P) D1) as [<- _].
      destruct CS as [[_ ->]| ->]; [exists t2; reflexivity|exists (t2 ++ [Star]); rewrite <- app_assoc; reflexivity].
    - right. rewrite firstn_app in RD. replace (k - length R1) with 0 in RD by lia. cbn [firstn] in RD. rewrite app_nil_r in RD.
      destruct CS as [[Ek' _]|Eq]; [rewrite app_length in Ek'; lia|].
      pose proof (seg_match_length _ _ _ NS S) as Ln.
      pose proof (firstn_skipn k p) as Ep. rewrite <- Ep in S.
      assert (NS' : no_star (firstn k p)). { intros K. apply NS. rewrite <- Ep. apply in_or_app. left. exact K. }
      destruct (seg_match_prefix _ _ _ _ NS' S) as (Ra & Rb & b1 & b2 & Er & _ & S1 & _).
      assert (Ea : firstn k R1 = Ra).
      { pose proof (seg_match_length _ _ _ NS' S1) as La. rewrite firstn_length, Nat.min_l in La by lia.
        rewrite Er, firstn_app, firstn_all2 by lia. rewrite La, Nat.sub_diag. cbn [firstn]. apply app_nil_r. }
      rewrite Ea in RD. rewrite <- Ep in I, P.
      pose proof (match_reads_prefix (table_of l) (CMw g) _ _ b1 S1 NS' [] (skipn k p) I P) as RD'.
      destruct (reads_fun t _ RP _ _ _ _ _ RD RD') as [E0 _].
      exists (firstn k p), (skipn k p). split; [symmetry; exact Ep|]. split.
      + intros E1. apply (f_equal (@length _)) in E1. rewrite skipn_length in E1. simpl in E1. lia.
      + rewrite Eq, E0. reflexivity.
  Qed.

  Lemma guarded_below (l : list (op handler middleware)) t st (rq : request X) p g : built l t ->
    registered l p (CMw g) -> no_star p -> at_or_below p rq -> refuses g rq ->
    (forall q m, registered l q (CMw m) -> never_skips m /\ keeps_input m) ->
    not_found (serve t st rq) \/
    exists q h c, registered l q (CRoute (rq_method rq) h) /\ starts rq (ctx_params c) st c /\
      let mws := mws_for (table_of l) (flat q) in
      handles (serve t st rq) (next mws h c) /\
      ((In g mws /\ no_handler (serve t st rq) mws c) \/ exists q0, q = q0 ++ [s_star] /\ above q0 p).
  Proof.
    intros B I NS (R1 & R2 & b & ER & S) Rf W. destruct (search_route t (rq_path rq)) as [pn| |r] eqn:E.
    - exfalso. exact (lookup_no_panic t (rq_path rq) pn E).
    - left. intros tr o. rewrite serve_unmatched by (left; exact E). apply runs_ret.
    - destruct (rr_get_route r (rq_method rq)) as [rt|] eqn:Er.
      + right. destruct (method_registered l t (rq_path rq) r _ _ B E Er) as (q & h & b' & J & -> & RS).
        destruct (lookup_some l t _ r B E) as (ts & ps & RS' & (Em & _)).
        destruct (resolution_unique l t _ _ _ _ _ B RS RS') as [<- _].
        destruct (any_handled t st rq r _ h E Er) as (c & St & Hd). exists q, h, c.
        assert (Ep : ctx_params c = rr_params r) by apply St. rewrite Ep. repeat (split; [assumption|]). cbv zeta. rewrite <- Em.
        split; [exact Hd|]. rewrite ER in RS. destruct (below_guard l t p g R1 R2 b _ _ B I NS S RS) as [P|(p1 & p2 & Ep' & N2 & Et)].
        * left. assert (J' : In g (rr_mws r)). { rewrite Em. apply in_mws_for. eauto. }
          split; [exact J'|]. apply (guarded_all _ g h rq c); [exact J'| |exact Rf|exact (starts_request _ _ _ _ St)|exact Hd].
          intros m Jm. rewrite Em in Jm. apply in_mws_for in Jm as (p' & Jm & _). exact (W _ _ Jm).
        * right. destruct (built_rep _ _ B) as (_ & G & _).
          destruct (flat_star_last q _ (gd_path _ G _ _ J) Et) as (q0 & -> & Eq). exists q0. split; [reflexivity|].
          exists p1, p2. auto.
      + left. intros tr o. rewrite serve_unmatched by (right; exists r; auto). apply runs_ret.
  Qed.
End Guard.
