(** More lemmas behind the routing properties: equivalent tables, permutations,
    middlewares. *)

From Verif Require Import Base BaseFacts RouteTrie Router TableSpec PropSpec TrieDen TrieIns TrieRep TrieBuild TrieSearch TrieLookup TrieTotal RouteFacts RouteLemmas.

Section Lemmas.
  Context {H M : Type}.
  Notation node := (node H M).
  Notation trie := (trie H M).
  Notation table := (table H M).
  Notation op := (op H M).

  (** ** Tables that resolve alike *)

  Definition alike (T U : table) : Prop :=
    (forall ts, boundary T ts <-> boundary U ts) /\ (forall ts, has_value T ts <-> has_value U ts).

  Lemma alike_sym T U : alike T U -> alike U T.
  Proof. intros [B V]. split; intros ts; symmetry; auto. Qed.

  Lemma reads_alike T U pre R ts ps : alike T U -> reads T pre R ts ps -> reads U pre R ts ps.
  Proof.
    intros [B _] D. induction D as [pre|pre c us R ts ps Bd D IH|pre n s R ts ps Bd D IH]; constructor; auto; apply B; exact Bd.
  Qed.

  Lemma exact_alike T U R ts ps : alike T U -> exact_hit T R ts ps -> exact_hit U R ts ps.
  Proof. intros A [D V]. split; [eapply reads_alike; eauto|apply A; exact V]. Qed.

  Lemma below_alike T U R ts ps : alike T U -> below_hit T R ts ps -> below_hit U R ts ps.
  Proof.
    intros A (R0 & ts0 & c & us & E & D & B & NV & Et & V). exists R0, ts0, c, us.
    split; [exact E|]. split; [eapply reads_alike; eauto|]. split; [apply A; exact B|].
    split; [intros X; apply NV; apply A; exact X|]. split; [exact Et|]. apply A. exact V.
  Qed.

  Lemma wild_alike T U R k ts ps : alike T U -> wild_hit T R k ts ps -> wild_hit U R k ts ps.
  Proof.
    intros A (L & ts0 & D & E & B). split; [exact L|]. exists ts0.
    split; [eapply reads_alike; eauto|]. split; [exact E|]. apply A. exact B.
  Qed.

  Lemma resolves_alike T U R ts ps : alike T U -> resolves T R ts ps -> resolves U R ts ps.
  Proof.
    intros A [E|E|k W V NE NB MX].
    - apply res_exact. eapply exact_alike; eauto.
    - apply res_below. eapply below_alike; eauto.
    - apply (res_wild _ _ _ _ k).
      + eapply wild_alike; eauto.
      + apply A. exact V.
      + intros ts' ps' E. apply (NE ts' ps'). eapply exact_alike; [apply alike_sym; exact A|exact E].
      + intros ts' ps' E. apply (NB ts' ps'). eapply below_alike; [apply alike_sym; exact A|exact E].
      + intros k' ts' ps' E. apply (MX k' ts' ps'). eapply wild_alike; [apply alike_sym; exact A|exact E].
  Qed.

  Lemma search_alike t u (T U : table) path : Rep t T -> Rep u U -> alike T U ->
    (exists ts ps, resolves T (segments path) ts ps /\
       search_route t path = LSome (answer T ts ps) /\ search_route u path = LSome (answer U ts ps))
    \/ (search_route t path = LNone /\ search_route u path = LNone).
  Proof.
    intros RT RU A. destruct (search_spec t T RT path) as [(ts & ps & RS & E)|(N & E)].
    - left. exists ts, ps. split; [exact RS|]. split; [exact E|].
      apply resolves_search; [exact RU|]. eapply resolves_alike; eauto.
    - right. split; [exact E|].
      destruct (search_spec u U RU path) as [(ts & ps & RS & E')|(N' & E')]; [|exact E'].
      exfalso. apply (N ts ps). eapply resolves_alike; [apply alike_sym; exact A|exact RS].
  Qed.

  Lemma delivers_same (T U : table) ts ps r r' :
    mws_for T ts = mws_for U ts ->
    (forall m, handler_for m (routes_at T ts) = handler_for m (routes_at U ts)) ->
    delivers T ts ps r -> delivers U ts ps r' -> same_result r r'.
  Proof.
    intros EM EH (A & B & C) (A' & B' & C'). split; [congruence|]. split.
    - intros m. rewrite B, B', EH. reflexivity.
    - intros n. rewrite C, C'. reflexivity.
  Qed.

  (** The same paths (whatever is registered) give the same boundaries. *)
  Definition same_paths (T U : table) : Prop :=
    forall p, (exists c, In (p, c) T) <-> (exists c, In (p, c) U).

  Lemma boundary_same_paths T U ts : same_paths T U -> boundary T ts -> boundary U ts.
  Proof.
    intros S [E|[(p & c & i & I & E)|(p & c & q & d & a & b & I & J & PA)]].
    - left. exact E.
    - right. left. destruct (proj1 (S p) (ex_intro _ c I)) as [c' I']. exists p, c', i. auto.
    - right. right. destruct (proj1 (S p) (ex_intro _ c I)) as [c' I'].
      destruct (proj1 (S q) (ex_intro _ d J)) as [d' J']. exists p, c', q, d', a, b. auto.
  Qed.

  Lemma perm_alike T U : Permutation T U -> alike T U.
  Proof.
    intros P. split; intros ts.
    - split; apply boundary_same_paths; intros p; split; intros [c I]; exists c;
        solve [eapply Permutation_in; [exact P|exact I]|eapply Permutation_in; [apply Permutation_sym; exact P|exact I]].
    - assert (PR : Permutation (routes_at T ts) (routes_at U ts)) by (apply Permutation_flat_map; exact P).
      assert (PM : Permutation (mws_at T ts) (mws_at U ts)) by (apply Permutation_flat_map; exact P).
      unfold has_value. split; (intros [X|X]; [left|right]; intros E; apply X;
        rewrite E in *; first [apply Permutation_nil; assumption|apply Permutation_nil, Permutation_sym; assumption]).
  Qed.

  (** ** C13: the multiset of middlewares *)

  Lemma single_flat_map {A} (L : list (list tok)) x (v : A) : NoDup L ->
    flat_map (fun y => if toks_eq_dec x y then [v] else []) L = if in_dec toks_eq_dec x L then [v] else [].
  Proof.
    induction L as [|y L IH]; intros ND; [reflexivity|]. cbn [flat_map]. inversion ND as [|y' L' N ND']; subst.
    rewrite (IH ND'). destruct (toks_eq_dec x y) as [->|Ny].
    - destruct (in_dec toks_eq_dec y L) as [I|_]; [contradiction|].
      destruct (in_dec toks_eq_dec y (y :: L)) as [_|N']; [reflexivity|]. exfalso. apply N'. left. reflexivity.
    - destruct (in_dec toks_eq_dec x L) as [I|I], (in_dec toks_eq_dec x (y :: L)) as [J|J]; try reflexivity.
      + exfalso. apply J. right. exact I.
      + exfalso. destruct J as [E|J]; [symmetry in E|]; contradiction.
  Qed.

  Lemma mws_prefix_perm (T : table) ts : Permutation (mws_for T ts) (mws_on_prefix T ts).
  Proof.
    change (mws_for T ts) with (flat_map (mws_at T) ([] :: prefixes_down [] ts)).
    assert (ND : NoDup ([] :: prefixes_down [] ts)).
    { constructor; [|apply prefixes_down_NoDup]. intros I. apply prefixes_down_len in I. simpl in I. lia. }
    pose proof (prefixes_in ts) as PI.
    set (L := [] :: prefixes_down [] ts) in *. clearbody L.
    induction T as [|[p c] T IH].
    - simpl. clear. induction L as [|x L IH]; [constructor|exact IH].
    - set (g := fun ts' => match c with CMw m => if toks_eq_dec (flat p) ts' then [m] else [] | _ => [] end).
      rewrite (flat_map_perm_fun g (mws_at T) (mws_at ((p, c) :: T)) L)
        by (intros x; destruct c; apply Permutation_refl).
      change (mws_on_prefix ((p, c) :: T) ts) with
        (match c with CMw m => if is_prefix (flat p) ts then [m] else [] | _ => [] end ++ mws_on_prefix T ts).
      apply Permutation_app; [|exact IH]. unfold g. destruct c as [m h|mw|].
      + clear. induction L as [|x L IH]; [constructor|exact IH].
      + rewrite single_flat_map by exact ND.
        destruct (in_dec toks_eq_dec (flat p) L) as [I|I]; destruct (is_prefix (flat p) ts) eqn:E; try constructor; try constructor.
        * apply PI, is_prefix_spec in I. congruence.
        * exfalso. apply I, PI, is_prefix_spec. exact E.
      + clear. induction L as [|x L IH]; [constructor|exact IH].
  Qed.

  Lemma in_mws_on_prefix (T : table) ts mw : In mw (mws_on_prefix T ts) <->
    exists p, In (p, CMw mw) T /\ prefix (flat p) ts.
  Proof.
    unfold mws_on_prefix. rewrite in_flat_map. split.
    - intros ([p c] & I & J). cbn [fst snd] in J. destruct c as [m h|m|]; [destruct J| |destruct J].
      destruct (is_prefix (flat p) ts) eqn:E; [|destruct J]. destruct J as [->|[]].
      exists p. split; [exact I|]. apply is_prefix_spec. exact E.
    - intros (p & I & P). exists (p, CMw mw). split; [exact I|]. cbn [fst snd].
      apply is_prefix_spec in P. rewrite P. left. reflexivity.
  Qed.

  Lemma in_mws_for (T : table) ts mw : In mw (mws_for T ts) <->
    exists p, In (p, CMw mw) T /\ prefix (flat p) ts.
  Proof.
    rewrite <- in_mws_on_prefix. pose proof (mws_prefix_perm T ts) as P.
    split; apply Permutation_in; [exact P|apply Permutation_sym; exact P].
  Qed.

  Lemma has_value_entry (T : table) ts : has_value T ts -> exists p c, In (p, c) T /\ c <> CNode /\ flat p = ts.
  Proof.
    intros [N|N]; apply not_nil_In in N.
    - destruct N as [[m h] J]. apply in_routes_at in J as (p & J & Ep). exists p, (CRoute m h). repeat split; auto; discriminate.
    - destruct N as [mw J]. apply in_mws_at in J as (p & J & Ep). exists p, (CMw mw). repeat split; auto; discriminate.
  Qed.

  Lemma resolves_value (T : table) R ts ps : resolves T R ts ps -> has_value T ts.
  Proof. intros RS. apply resolves_reads in RS as (k & ts0 & _ & _ & _ & _ & V). exact V. Qed.

  (** The lookup ends at a registered path. *)
  Lemma found_entry (l : list op) t path r : built l t -> search_route t path = LSome r ->
    exists p c b, registered l p c /\ c <> CNode /\ resolves (table_of l) (segments path) (flat p) b /\
                  delivers (table_of l) (flat p) b r.
  Proof.
    intros B E. destruct (lookup_some l t path r B E) as (ts & ps & RS & D).
    destruct (has_value_entry _ _ (resolves_value _ _ _ _ RS)) as (p & c & I & N & <-).
    exists p, c, ps. auto.
  Qed.

  Lemma found_middlewares (l : list op) t path r : built l t -> search_route t path = LSome r ->
    exists p c b, registered l p c /\ c <> CNode /\ resolves (table_of l) (segments path) (flat p) b /\
                  Permutation (rr_mws r) (mws_on_prefix (table_of l) (flat p)).
  Proof.
    intros B E. destruct (found_entry l t path r B E) as (p & c & b & I & N & RS & (D & _)).
    exists p, c, b. repeat split; auto. rewrite D. apply mws_prefix_perm.
  Qed.

  Lemma found_middleware_order (l : list op) t path r : built l t -> search_route t path = LSome r ->
    exists p c b, registered l p c /\ c <> CNode /\ resolves (table_of l) (segments path) (flat p) b /\
                  rr_mws r = mws_for (table_of l) (flat p).
  Proof.
    intros B E. destruct (found_entry l t path r B E) as (p & c & b & I & N & RS & (D & _)).
    exists p, c, b. auto.
  Qed.

  (** ** C06: slashes aside, the request matches *)

  Lemma reads_loose (T : table) pre R ts ps : reads T pre R ts ps -> forall tl R' b', loose_match tl R' b' ->
    loose_match (ts ++ tl) (R ++ R') (ps ++ b').
  Proof.
    intros D; induction D as [pre|pre c us R ts ps B D IH|pre n s R ts ps B D IH]; intros tl R' b' L.
    - exact L.
    - rewrite <- app_assoc. cbn [app]. apply (lm_lit c us). apply IH. exact L.
    - cbn [app]. apply lm_par. apply IH. exact L.
  Qed.

  Lemma resolves_loose (T : table) R ts ps : resolves T R ts ps -> loose_match ts R ps.
  Proof.
    intros RS. apply resolves_reads in RS as (k & ts0 & L & D & [[-> ->]| ->] & _ & _).
    - rewrite firstn_all in D. pose proof (reads_loose _ _ _ _ _ D [] [] [] lm_nil) as X.
      rewrite !app_nil_r in X. exact X.
    - pose proof (reads_loose _ _ _ _ _ D [Star] (skipn k R) [] (lm_star _)) as X.
      rewrite firstn_skipn, app_nil_r in X. exact X.
  Qed.

  Lemma found_loose (l : list op) t path r : built l t -> search_route t path = LSome r ->
    exists p c b, registered l p c /\ c <> CNode /\ delivers (table_of l) (flat p) b r /\
                  loose_match (flat p) (segments path) b.
  Proof.
    intros B E. destruct (found_entry l t path r B E) as (p & c & b & I & N & RS & D).
    exists p, c, b. repeat split; auto; try apply D. eapply resolves_loose. exact RS.
  Qed.

  (** ** Appending to a history *)

  Lemma table_app (l l2 : list op) : table_of (l ++ l2) = afters (table_of l) l2.
  Proof. apply afters_app. Qed.

  Lemma after_keeps (T : table) o e : ~ root_mount o -> In e T -> In e (after T o).
  Proof.
    intros N I. destruct o as [m path h|path mw|mw|path sub].
    - apply in_or_app. left. exact I.
    - cbn [after]. destruct (segments path); [exact I|]. apply in_or_app. left. exact I.
    - apply in_or_app. left. exact I.
    - rewrite after_router. destruct (segments path) eqn:E.
      + exfalso. apply N. exists path, sub. auto.
      + apply in_or_app. left. exact I.
  Qed.

  Lemma afters_keep (T : table) l e : (forall o, In o l -> ~ root_mount o) -> In e T -> In e (afters T l).
  Proof.
    revert T; induction l as [|o l IH]; intros T N I; [exact I|]. cbn [afters]. apply IH.
    - intros x J. apply N. right. exact J.
    - apply after_keeps; [apply N; left; reflexivity|exact I].
  Qed.

  Lemma later_calls_keep (l l2 : list op) t p m h path b : built (l ++ l2) t -> registered l p (CRoute m h) ->
    (forall o, In o l2 -> ~ root_mount o) -> no_star p -> seg_match p (segments path) b ->
    exists r, search_route t path = LSome r /\ rr_get_route r m = Some (Route m h) /\
              forall n, pget n (rr_params r) = first_binding b n.
  Proof.
    intros B I N NS S. apply (found_route (l ++ l2) t p m h path b B); auto.
    unfold registered. rewrite table_app. apply afters_keep; assumption.
  Qed.

  (** ** C08: permutations *)

  Lemma after_flat (T : table) o : ~ root_mount o -> after T o = T ++ after [] o.
  Proof.
    intros N. destruct o as [m path h|path mw|mw|path sub]; try reflexivity.
    - cbn [after]. destruct (segments path); [rewrite app_nil_r|]; reflexivity.
    - rewrite !after_router. destruct (segments path) eqn:E; [|reflexivity].
      exfalso. apply N. exists path, sub. auto.
  Qed.

  Lemma afters_flat l (T : table) : no_root_mount l -> afters T l = T ++ flat_map (after []) l.
  Proof.
    revert T; induction l as [|o l IH]; intros T N; cbn [afters flat_map]; [rewrite app_nil_r; reflexivity|].
    rewrite IH by (intros x I; apply N; right; exact I).
    rewrite after_flat by (apply N; left; reflexivity). rewrite app_assoc. reflexivity.
  Qed.

  Lemma table_perm (l l' : list op) : Permutation l l' -> no_root_mount l -> Permutation (table_of l) (table_of l').
  Proof.
    intros P N. unfold table_of.
    rewrite !afters_flat; [apply Permutation_flat_map; exact P| |exact N].
    intros o I. apply N. eapply Permutation_in; [apply Permutation_sym; exact P|exact I].
  Qed.

  Lemma handler_for_perm m (a b : list (method * H)) : NoDup (map fst a) -> Permutation a b ->
    handler_for m a = handler_for m b.
  Proof.
    intros ND P. assert (ND' : NoDup (map fst b)) by (eapply NoDup_map_perm; eauto).
    destruct (handler_for m a) as [h|] eqn:E.
    - symmetry. apply in_handler_for; [exact ND'|]. eapply Permutation_in; [exact P|]. apply handler_for_in. exact E.
    - destruct (handler_for m b) as [h|] eqn:F; [|reflexivity].
      apply handler_for_in in F. apply (Permutation_in _ (Permutation_sym P)) in F.
      rewrite (in_handler_for m a h ND F) in E. discriminate.
  Qed.

  Lemma permuted_same_lookup (l l' : list op) t t' path : built l t -> built l' t' -> Permutation l l' ->
    no_root_mount l -> single_mws l ->
    same_lookup (search_route t path) (search_route t' path).
  Proof.
    intros B B' P N SM. pose proof (table_perm l l' P N) as PT.
    apply built_rep in B as (R & G & _). apply built_rep in B' as (R' & _ & _).
    destruct (search_alike t t' _ _ path R R' (perm_alike _ _ PT)) as [(ts & ps & RS & -> & ->)|[-> ->]]; [|exact I].
    cbn [same_lookup]. apply (delivers_same (table_of l) (table_of l') ts ps); try apply answer_delivers.
    - assert (EM : forall x, mws_at (table_of l) x = mws_at (table_of l') x).
      { intros x. assert (PM : Permutation (mws_at (table_of l) x) (mws_at (table_of l') x)) by (apply Permutation_flat_map; exact PT).
        specialize (SM x). destruct (mws_at (table_of l) x) as [|a [|b r]]; [| |simpl in SM; lia].
        - symmetry. apply Permutation_nil. exact PM.
        - symmetry. apply Permutation_length_1_inv. exact PM. }
      unfold mws_for. rewrite EM. f_equal. apply flat_map_ext. exact EM.
    - intros m. apply handler_for_perm; [apply (gd_nodup _ G)|]. apply Permutation_flat_map. exact PT.
  Qed.

  (** Acceptance of histories without mounts is independent of the order. *)
  Definition opath (o : op) : list str := match op_path o with Some p => segments p | None => [] end.

  Definition compatible (T : table) (l : list op) : Prop :=
    (forall o, In o l -> star_ok (opath o)) /\
    (forall o, In o l -> unambiguous T (opath o)) /\
    (forall o o', In o l -> In o' l -> ~ ambiguous (opath o) (opath o')) /\
    (forall ts, NoDup (map fst (routes_at (T ++ flat_map (after []) l) ts))).

  Lemma after_entries o p c : not_router o -> In (p, c) (after [] o) -> p = opath o.
  Proof.
    intros N I. destruct o as [m path h|path mw|mw|path sub]; cbn [after] in I; [| | |destruct N]; unfold opath; cbn [op_path].
    - destruct I as [E|[]]. congruence.
    - destruct (segments path) as [|s q]; [destruct I|]. destruct I as [E|[]]. congruence.
    - destruct I as [E|[]]. congruence.
  Qed.

  Lemma not_ambiguous_nil p : ~ ambiguous [] p.
  Proof. intros (w & a & b & (_ & [x E] & _) & _). destruct w; discriminate. Qed.

  Lemma star_ok_nil : star_ok [].
  Proof. intros i s E. destruct i; discriminate. Qed.

  Lemma accepted_compat (T : table) o : not_router o -> (forall ts, NoDup (map fst (routes_at T ts))) ->
    (accepted T o <-> star_ok (opath o) /\ unambiguous T (opath o) /\
       forall ts, NoDup (map fst (routes_at (after T o) ts))).
  Proof.
    intros N ND. destruct o as [m path h|path mw|mw|path sub]; [| | |destruct N]; cbn [accepted after]; unfold opath; cbn [op_path].
    - split.
      + intros (S & U & D). split; [exact S|]; split; [exact U|]. intros ts. rewrite routes_at_app, map_app.
        cbn [routes_at flat_map fst snd]. destruct (toks_eq_dec (flat (segments path)) ts) as [<-|Nt]; cbn [app map fst].
        * apply Permutation_NoDup with (l := m :: map fst (routes_at T (flat (segments path)))); [apply Permutation_cons_append|].
          constructor; [|apply ND]. intros I. apply in_map_iff in I as ([m' h'] & E & I). cbn [fst] in E. subst m'. eauto.
        * rewrite app_nil_r. apply ND.
      + intros (S & U & X). split; [exact S|]; split; [exact U|]. intros [h' I]. specialize (X (flat (segments path))).
        rewrite routes_at_app, map_app in X. cbn [routes_at flat_map fst snd] in X.
        destruct (toks_eq_dec (flat (segments path)) (flat (segments path))) as [_|Nt]; [|congruence].
        cbn [app map fst] in X. apply NoDup_remove_2 in X. apply X. rewrite app_nil_r. apply (in_map fst _ _ I).
    - split; [|tauto]. intros (S & U). split; [exact S|]. split; [exact U|]. intros ts.
      destruct (segments path) as [|s p]; [apply ND|]. rewrite routes_at_app, map_app. cbn [routes_at flat_map snd app map].
      rewrite app_nil_r. apply ND.
    - split; [|tauto]. intros _. split; [apply star_ok_nil|]. split.
      + intros q c _. apply not_ambiguous_nil.
      + intros ts. rewrite routes_at_app. simpl. rewrite app_nil_r. apply ND.
  Qed.

  Lemma accepted_compatible l : Forall not_router l -> forall T : table, (forall ts, NoDup (map fst (routes_at T ts))) ->
    (all_accepted T l <-> compatible T l).
  Proof.
    intros F. induction F as [|o l No F IH]; intros T ND.
    - cbn [all_accepted]. split; [|tauto]. intros _. split; [intros o J; destruct J|]. split; [intros o J; destruct J|]. split.
      + intros o o' J. destruct J.
      + intros ts. cbn [flat_map]. rewrite app_nil_r. apply ND.
    - assert (NR : ~ root_mount o) by (intros (path & sub & -> & _); destruct No).
      cbn [all_accepted]. rewrite accepted_compat by assumption. split.
      + intros ((S & U & ND') & A). apply (IH _ ND') in A as (A1 & A2 & A3 & A4).
        assert (X : forall o', In o' l -> ~ ambiguous (opath o) (opath o')).
        { intros o' J Amb. rewrite (after_flat T o NR) in A2. destruct (after [] o) as [|[p c] r] eqn:E.
          - destruct o as [m path h|path mw|mw|path sub]; cbn [after] in E; try discriminate; [|destruct No].
            unfold opath in Amb. cbn [op_path] in Amb.
            destruct (segments path); [|discriminate]. apply (not_ambiguous_nil _ Amb).
          - assert (Ep : p = opath o) by (apply (after_entries o p c No); rewrite E; left; reflexivity).
            apply (A2 o' J p c); [apply in_elt|]. rewrite Ep. apply ambiguous_sym. exact Amb. }
        split; [|split; [|split]].
        * intros x [<-|J]; auto.
        * intros x [<-|J]; [exact U|]. intros q c I. apply (A2 x J q c).
          rewrite (after_flat T o NR). apply in_or_app. left. exact I.
        * intros x y [<-|J] [<-|K].
          -- apply not_ambiguous_refl.
          -- apply X. exact K.
          -- intros Amb. apply (X x J). apply ambiguous_sym. exact Amb.
          -- apply A3; assumption.
        * intros ts. specialize (A4 ts). rewrite (after_flat T o NR), <- app_assoc in A4. exact A4.
      + intros (A1 & A2 & A3 & A4).
        assert (ND' : forall ts, NoDup (map fst (routes_at (after T o) ts))).
        { intros ts. specialize (A4 ts). cbn [flat_map] in A4. rewrite app_assoc, <- (after_flat T o NR), routes_at_app, map_app in A4.
          clear -A4. revert A4. generalize (map fst (routes_at (flat_map (after []) l) ts)) as b.
          induction (map fst (routes_at (after T o) ts)) as [|x a IHa]; intros b A4; [constructor|].
          cbn [app] in A4. inversion A4 as [|x' r' Nx N]; subst. constructor; [|eapply IHa; exact N].
          intros I. apply Nx. apply in_or_app. left. exact I. }
        split.
        * split; [apply A1; left; reflexivity|]. split; [apply A2; left; reflexivity|exact ND'].
        * apply (IH _ ND'). split; [|split; [|split]].
          -- intros x J. apply A1. right. exact J.
          -- intros x J q c I. rewrite (after_flat T o NR) in I. apply in_app_iff in I as [I|I].
             ++ apply (A2 x (or_intror J) q c I).
             ++ apply (after_entries o q c No) in I. subst q. apply A3; [right; exact J|left; reflexivity].
          -- intros x y J K. apply A3; right; assumption.
          -- intros ts. rewrite (after_flat T o NR), <- app_assoc. apply A4.
  Qed.

  Lemma permuted_accepted (l l' : list op) : Forall not_router l -> Permutation l l' -> all_accepted [] l -> all_accepted [] l'.
  Proof.
    intros F P A. assert (F' : Forall not_router l') by (eapply Permutation_Forall; eauto).
    apply accepted_compatible in A as (A1 & A2 & A3 & A4); [|exact F|intros ts; constructor].
    apply accepted_compatible; [exact F'|intros ts; constructor|].
    assert (IN : forall o, In o l' -> In o l) by (intros o; apply Permutation_in, Permutation_sym; exact P).
    split; [|split; [|split]]; auto.
    - intros ts. eapply NoDup_map_perm; [|apply A4]. apply Permutation_flat_map. cbn [app]. apply Permutation_flat_map. exact P.
  Qed.

  Lemma permuted_built (l l' : list op) t : Forall not_router l -> Permutation l l' -> built l t -> exists t', built l' t'.
  Proof.
    intros F P B. destruct (built_rep _ _ B) as (_ & _ & A).
    assert (NR : forall k : list op, Forall not_router k -> no_root_mount k).
    { intros k Fk o I (path & sub & -> & _). rewrite Forall_forall in Fk. destruct (Fk _ I). }
    assert (F' : Forall not_router l') by (eapply Permutation_Forall; eauto).
    assert (C' : all_tidy [] l').
    { apply (tidy_within (table_of l)).
      - apply (rep_apart t). apply built_rep. exact B.
      - apply NR. exact F'.
      - eapply Forall_impl; [|exact F']. intros [| | |path sub] X; [exact Logic.I|exact Logic.I|exact Logic.I|destruct X].
      - intros p c I. right. exists c. unfold table_of. rewrite afters_flat in I |- * by auto. cbn [app] in *.
        eapply Permutation_in; [|exact I]. apply Permutation_flat_map, Permutation_sym. exact P. }
    exists (fst (build l')). split; [exact C'|].
    pose proof (permuted_accepted l l' F P A) as A'. apply (history_accepted_iff l' C') in A'.
    rewrite <- A'. apply surjective_pairing.
  Qed.

  (** ** C10: redundant slashes *)

  Lemma op_same_path : forall (t : trie) m h mw a b sub, same_path a b ->
    run_op t (ORoute m a h) = run_op t (ORoute m b h) /\
    run_op t (OServiceTo a mw) = run_op t (OServiceTo b mw) /\
    run_op t (ORouter a sub) = run_op t (ORouter b sub) /\
    search_route t a = search_route t b.
  Proof.
    intros t m h mw a b sub S. apply same_path_segments in S.
    repeat split; rewrite ?run_op_router; cbn [run_op];
      unfold insert_route, insert_middleware, insert_sub_route, search_route; rewrite S; reflexivity.
  Qed.
End Lemmas.
