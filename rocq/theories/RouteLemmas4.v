(** Lemmas behind the routing properties about bare prefixes, colons, rejected
    calls and reachability. *)

From Verif Require Import Base BaseFacts RouteTrie Router TableSpec PropSpec TrieDen TrieIns TrieRep TrieBuild TrieSearch TrieLookup TrieTotal RouteFacts RouteLemmas RouteLemmas2 RouteLemmas3.

Lemma seg_match_last q s R b : literal_seg s -> seg_match (q ++ [s]) R b ->
  exists R0, R = R0 ++ [s] /\ seg_match q R0 b.
Proof.
  revert R b; induction q as [|x q IH]; intros R b L S; cbn [app] in S.
  - inversion S as [|s' p R' b' L' S'|n s' p R' b' S'|R' N]; subst.
    + inversion S'; subst. exists []. split; [reflexivity|constructor].
    + exfalso. destruct L as [_ L]. apply L. eauto.
    + exfalso. destruct L as [L _]. apply L. reflexivity.
  - inversion S as [|s' p R' b' L' S'|n s' p R' b' S'|R' N Ex]; subst.
    + destruct (IH _ _ L S') as (R0 & -> & S0). exists (x :: R0). split; [reflexivity|]. constructor; assumption.
    + destruct (IH _ _ L S') as (R0 & -> & S0). exists (s' :: R0). split; [reflexivity|]. constructor. exact S0.
    + destruct q; discriminate.
Qed.

Lemma seg_match_prefix p q R b : no_star p -> seg_match (p ++ q) R b ->
  exists R1 R2 b1 b2, R = R1 ++ R2 /\ b = b1 ++ b2 /\ seg_match p R1 b1 /\ seg_match q R2 b2.
Proof.
  revert R b; induction p as [|x p IH]; intros R b NS S; cbn [app] in S.
  - exists [], R, [], b. repeat split; auto. constructor.
  - assert (NS' : no_star p) by (intros I; apply NS; right; exact I).
    inversion S as [|s' p' R' b' L' S'|n s' p' R' b' S'|R' N Ex]; subst.
    + destruct (IH _ _ NS' S') as (R1 & R2 & b1 & b2 & -> & -> & S1 & S2).
      exists (x :: R1), R2, b1, b2. repeat split; auto. constructor; assumption.
    + destruct (IH _ _ NS' S') as (R1 & R2 & b1 & b2 & -> & -> & S1 & S2).
      exists (s' :: R1), R2, ((n, s') :: b1), b2. repeat split; auto. constructor. exact S1.
    + exfalso. apply NS. left. reflexivity.
Qed.

Section Lemmas.
  Context {H M : Type}.
  Notation node := (node H M).
  Notation trie := (trie H M).
  Notation table := (table H M).
  Notation op := (op H M).

  (** ** C14 *)

  Lemma applied_middleware (l : list op) t path r mw : built l t -> search_route t path = LSome r -> In mw (rr_mws r) ->
    exists p q c b, registered l p (CMw mw) /\ registered l q c /\ c <> CNode /\
      prefix (flat p) (flat q) /\ resolves (table_of l) (segments path) (flat q) b.
  Proof.
    intros B E I. destruct (found_entry l t path r B E) as (q & c & b & J & N & RS & (D & _)).
    rewrite D in I. apply in_mws_for in I as (p & I & P). exists p, q, c, b. auto.
  Qed.

  Lemma applied_middleware_segments (l : list op) t path r mw p m h b : built l t ->
    (forall p1 c1 p2 c2, registered l p1 c1 -> registered l p2 c2 -> prefix (flat p1) (flat p2) -> prefix p1 p2) ->
    registered l p (CRoute m h) -> no_star p -> seg_match p (segments path) b ->
    search_route t path = LSome r -> In mw (rr_mws r) ->
    exists q R1 R2 b1, registered l q (CMw mw) /\ segments path = R1 ++ R2 /\ seg_match q R1 b1.
  Proof.
    intros B HC I NS S E J. destruct (built_rep _ _ B) as (R & G & _).
    destruct (found_own _ t p m h (segments path) path b R G I NS S eq_refl) as [E' _].
    rewrite E' in E. injection E as <-.
    apply (in_mws_for _ (flat p) mw) in J as (q & Iq & P).
    destruct (HC _ _ _ _ Iq I P) as [z ->].
    assert (NSq : no_star q) by (intros K; apply NS; apply in_or_app; left; exact K).
    destruct (seg_match_prefix q z _ b NSq S) as (R1 & R2 & b1 & b2 & -> & _ & S1 & _).
    exists q, R1, R2, b1. auto.
  Qed.

  (** ** C22 *)

  Lemma wildcard_bare_prefix (l : list op) t q s m h path b : built l t ->
    registered l (q ++ [s; s_star]) (CRoute m h) -> no_star q -> literal_seg s ->
    (forall p c, registered l p c -> c <> CNode -> flat p <> flat (q ++ [s])) ->
    seg_match (q ++ [s]) (segments path) b ->
    exists r, search_route t path = LSome r /\ rr_get_route r m = Some (Route m h) /\
              forall n, pget n (rr_params r) = first_binding b n.
  Proof.
    intros B I NS L NV S. destruct (built_rep _ _ B) as (R & G & _).
    pose proof (gd_path _ G _ _ I) as P.
    destruct (seg_match_last _ _ _ _ L S) as (R0 & ER & S0).
    assert (K : key_ok s) by (apply P; apply in_or_app; right; left; reflexivity).
    destruct (literal_toks s (key_ok_nonempty _ K) L) as (c0 & us & E & Sp).
    assert (EF : flat q ++ Ch c0 :: us = flat (q ++ [s])).
    { rewrite flat_app. f_equal. unfold flat. simpl. rewrite app_nil_r. symmetry. exact E. }
    assert (ES : flat (q ++ [s; s_star]) = flat (q ++ [s]) ++ [Star]).
    { change [s; s_star] with ([s] ++ [s_star]). rewrite app_assoc, flat_app. reflexivity. }
    assert (RS : resolves (table_of l) (segments path) (flat (q ++ [s; s_star])) b).
    { apply res_below. exists R0, (flat q), c0, us. split; [rewrite Sp; exact ER|].
      split; [exact (match_reads_prefix (table_of l) (CRoute m h) q R0 b S0 NS [] [s; s_star] I P)|].
      rewrite EF. split; [|split; [|split]].
      - right. left. exists (q ++ [s; s_star]), (CRoute m h), (length (q ++ [s])). split; [exact I|].
        change [s; s_star] with ([s] ++ [s_star]). rewrite app_assoc.
        rewrite firstn_app, Nat.sub_diag, firstn_O, app_nil_r, firstn_all. reflexivity.
      - intros V. destruct (has_value_entry _ _ V) as (p & c & J & Nc & Ep). apply (NV p c J Nc Ep).
      - exact ES.
      - apply (content_has_value _ _ _ I). discriminate. }
    exists (answer (table_of l) (flat (q ++ [s; s_star])) b).
    split; [apply resolves_search; assumption|].
    destruct (answer_delivers (table_of l) (flat (q ++ [s; s_star])) b) as (_ & -> & D). split; [|exact D].
    rewrite (in_handler_for m _ h); [reflexivity|apply G|]. apply in_routes_at. eauto.
  Qed.

  Lemma no_bare_prefix (l : list op) t q c path b r : built l t -> registered l (q ++ [s_star]) c -> no_star q ->
    (q = [] \/ exists q' n, q = q' ++ [c_colon :: n]) -> seg_match q (segments path) b ->
    search_route t path = LSome r ->
    exists p c' b', registered l p c' /\ c' <> CNode /\ flat p <> flat (q ++ [s_star]) /\
                    delivers (table_of l) (flat p) b' r.
  Proof.
    intros B I NS Q S E. destruct (built_rep _ _ B) as (R & G & _).
    pose proof (gd_path _ G _ _ I) as P.
    destruct (found_entry l t path r B E) as (p & c' & b' & J & N & RS & D).
    exists p, c', b'. split; [exact J|]. split; [exact N|]. split; [|exact D]. intros EF.
    rewrite flat_app in EF. change (flat [s_star]) with [Star] in EF. rewrite EF in RS.
    pose proof (match_reads_prefix (table_of l) c q _ b S NS [] [s_star] I P) as RD. cbn [app] in RD.
    change (flat []) with (@nil tok) in RD.
    destruct RS as [[D1 _]|(R0 & ts0 & c0 & us & ER & D1 & _ & _ & Et & _)|k (L & ts0 & D1 & Et & _) _ _ _ _].
    - destruct (reads_fun t _ R _ _ _ _ _ RD D1) as [X _]. apply (f_equal (@length _)) in X.
      rewrite app_length in X. simpl in X. lia.
    - apply app_inj_tail in Et as [Et _]. destruct Q as [-> |(q' & n & ->)].
      + inversion S as [X| | |]; [|congruence..]. rewrite ER in *. destruct R0; discriminate.
      + assert (NS' : no_star q') by (intros K; apply NS; apply in_or_app; left; exact K).
        destruct (seg_match_prefix q' _ _ b NS' S) as (R1 & R2 & b1 & b2 & ER' & _ & S1 & S2).
        assert (exists s', R2 = [s']) as [s' ->].
        { inversion S2 as [|s' p' R' b'' LL S3|n' s' p' R' b'' S3|]; subst; inversion S3; subst; eauto. }
        rewrite ER' in ER. apply app_inj_tail in ER as [<- _].
        rewrite <- app_assoc in I, P. cbn [app] in I, P.
        pose proof (match_reads_prefix (table_of l) c q' _ b1 S1 NS' [] [c_colon :: n; s_star] I P) as RD'. cbn [app] in RD'.
        destruct (reads_fun t _ R _ _ _ _ _ RD' D1) as [X _]. rewrite flat_app, <- X in Et.
        apply app_inv_head in Et. discriminate.
    - apply app_inj_tail in Et as [Et _]. subst ts0.
      rewrite <- (firstn_skipn k (segments path)) in RD. apply reads_app_inv in RD as (t1 & t2 & b1 & b2 & D2 & D3 & X & _).
      destruct (reads_fun t _ R _ _ _ _ _ D1 D2) as [Y _]. rewrite X in Y.
      assert (t2 = []) as ->. { apply (f_equal (@length _)) in Y. rewrite app_length in Y. destruct t2; [reflexivity|simpl in Y; lia]. }
      apply reads_nil_inv in D3. apply (f_equal (@length _)) in D3. rewrite skipn_length in D3. simpl in D3. lia.
  Qed.

  (** ** C24, C54: rejected calls *)

  Lemma overwrite_methods (T : table) ts m h ts' :
    map fst (routes_at (overwrite T ts m h) ts') = map fst (routes_at T ts').
  Proof.
    induction T as [|[p [m' h'|mw|]] T IH]; cbn [overwrite]; [reflexivity| |exact IH|exact IH].
    destruct (method_eqb m m') eqn:E; [destruct (toks_eq_dec (flat p) ts)|]; unfold routes_at in *; cbn [flat_map fst snd];
      rewrite !map_app, ?IH; f_equal.
    apply method_eqb_spec in E. subst m'. destruct (toks_eq_dec (flat p) ts'); reflexivity.
  Qed.

  Lemma overwrite_keeps (T : table) ts m h p m' h' : In (p, CRoute m' h') T -> m' <> m \/ flat p <> ts ->
    In (p, CRoute m' h') (overwrite T ts m h).
  Proof.
    induction T as [|[q [m2 h2|mw|]] T IH]; intros I N; [destruct I| | |]; cbn [overwrite].
    - destruct I as [E|I].
      + injection E as -> -> ->. destruct (method_eqb m m') eqn:Em.
        * apply method_eqb_spec in Em. subst m'. destruct N as [N|N]; [congruence|].
          destruct (toks_eq_dec (flat p) ts); [contradiction|]. left. reflexivity.
        * left. reflexivity.
      + destruct (method_eqb m m2); [destruct (toks_eq_dec (flat q) ts)|]; right; auto.
    - destruct I as [E|I]; [discriminate|]. right. auto.
    - destruct I as [E|I]; [discriminate|]. right. auto.
  Qed.

  Lemma overwrite_new (T : table) ts m h h0 : In (m, h0) (routes_at T ts) ->
    exists p, In (p, CRoute m h) (overwrite T ts m h) /\ flat p = ts.
  Proof.
    induction T as [|[q [m2 h2|mw|]] T IH]; intros I; [destruct I| | |]; cbn [overwrite].
    - unfold routes_at in I. cbn [flat_map fst snd] in I. apply in_app_iff in I as [I|I].
      + destruct (toks_eq_dec (flat q) ts) as [E|]; [|destruct I]. destruct I as [I|[]]. injection I as -> ->.
        assert (X : method_eqb m m = true) by (apply method_eqb_spec; reflexivity). rewrite X.
        exists q. split; [left; reflexivity|exact E].
      + destruct (IH I) as (p & J & Ep).
        destruct (method_eqb m m2); [destruct (toks_eq_dec (flat q) ts) as [E|]|].
        * exists q. split; [left; reflexivity|exact E].
        * exists p. split; [right; exact J|exact Ep].
        * exists p. split; [right; exact J|exact Ep].
    - destruct (IH I) as (p & J & Ep). exists p. split; [right; exact J|exact Ep].
    - destruct (IH I) as (p & J & Ep). exists p. split; [right; exact J|exact Ep].
  Qed.

  Lemma node_methods (T : table) p ts : map fst (routes_at (T ++ [(p, CNode)]) ts) = map fst (routes_at T ts).
  Proof. rewrite routes_at_app. simpl. rewrite app_nil_r. reflexivity. Qed.

  Lemma rejected_methods (T : table) o pn T' ts : rejected T o pn T' ->
    map fst (routes_at T' ts) = map fst (routes_at T ts).
  Proof.
    intros RJ. destruct RJ; try reflexivity; rewrite node_methods; try reflexivity. apply overwrite_methods.
  Qed.

  Lemma rejected_keeps (T : table) o pn T' p m h : rejected T o pn T' -> In (p, CRoute m h) T ->
    (pn = PDuplicate -> ~ same_route o p m) -> In (p, CRoute m h) T'.
  Proof.
    intros RJ I N. destruct RJ; auto; apply in_or_app; left; auto.
    apply overwrite_keeps; [exact I|]. specialize (N eq_refl).
    destruct (method_eqb m m0) eqn:E.
    - apply method_eqb_spec in E. subst m0. right. intros F. apply N. exists path, h0. auto.
    - left. intros ->. assert (X : method_eqb m0 m0 = true) by (apply method_eqb_spec; reflexivity). congruence.
  Qed.

  Lemma found_own' (T : table) t p q m h path b c : Rep t T -> In (q, c) T -> c <> CNode -> path_ok q -> no_star q ->
    seg_match q (segments path) b -> In (p, CRoute m h) T -> flat p = flat q -> NoDup (map fst (routes_at T (flat p))) ->
    exists r, search_route t path = LSome r /\ rr_get_route r m = Some (Route m h) /\
              forall n, pget n (rr_params r) = first_binding b n.
  Proof.
    intros R I Nc P NS S J E ND. exists (answer T (flat q) b). split.
    - apply resolves_search; [exact R|]. apply res_exact. eapply match_exact; eauto.
    - destruct (answer_delivers T (flat q) b) as (_ & -> & D). split; [|exact D].
      rewrite (in_handler_for m _ h); [reflexivity|rewrite <- E; exact ND|].
      apply in_routes_at. exists p. auto.
  Qed.

  Lemma rejected_call_keeps (l : list op) t o pn p m h path b : built l t -> tidy (table_of l) o ->
    snd (run_op t o) = Some pn -> (pn = PDuplicate -> ~ same_route o p m) ->
    registered l p (CRoute m h) -> no_star p -> seg_match p (segments path) b ->
    exists r, search_route (fst (run_op t o)) path = LSome r /\ rr_get_route r m = Some (Route m h) /\
              forall n, pget n (rr_params r) = first_binding b n.
  Proof.
    intros B C E N I NS S. destruct (built_rep _ _ B) as (R & G & _).
    destruct (step_cases o t _ C R) as [(_ & F & _)|(_ & pn' & T' & F & RJ & R')]; [congruence|].
    assert (pn' = pn) by congruence. subst pn'.
    pose proof (rejected_keeps _ _ _ _ _ _ _ RJ I N) as I'.
    eapply (found_own' T' _ p p m h path b (CRoute m h)); eauto; [discriminate|apply (gd_path _ G _ _ I)|].
    rewrite (rejected_methods _ _ _ _ _ RJ). apply (gd_nodup _ G).
  Qed.

  Lemma overwrite_path (T : table) ts m h p c : In (p, c) T -> c <> CNode -> exists c', In (p, c') (overwrite T ts m h) /\ c' <> CNode.
  Proof.
    induction T as [|[q [m2 h2|mw|]] T IH]; intros I N; [destruct I| | |]; cbn [overwrite].
    - destruct I as [E|I].
      + injection E as -> <-. destruct (method_eqb m m2); [destruct (toks_eq_dec (flat p) ts)|];
          eexists; (split; [left; reflexivity|discriminate]).
      + destruct (IH I N) as (c' & J & Nc).
        destruct (method_eqb m m2); [destruct (toks_eq_dec (flat q) ts)|].
        * exists c. split; [right; exact I|exact N].
        * exists c'. split; [right; exact J|exact Nc].
        * exists c'. split; [right; exact J|exact Nc].
    - destruct I as [E|I]; [exists c; split; [left; exact E|exact N]|].
      destruct (IH I N) as (c' & J & Nc). exists c'. split; [right; exact J|exact Nc].
    - destruct I as [E|I]; [congruence|].
      destruct (IH I N) as (c' & J & Nc). exists c'. split; [right; exact J|exact Nc].
  Qed.

  Lemma duplicate_replaces (l : list op) t p m h h' path req b : built l t -> colons_apart (table_of l ++ [(segments path, CNode)]) ->
    registered l p (CRoute m h) -> flat (segments path) = flat p -> no_star p -> seg_match p (segments req) b ->
    snd (run_op t (ORoute m path h')) = Some PDuplicate ->
    exists r, search_route (fst (run_op t (ORoute m path h'))) req = LSome r /\
              rr_get_route r m = Some (Route m h').
  Proof.
    intros B C I E NS S F. destruct (built_rep _ _ B) as (R & G & _).
    destruct (step_cases (ORoute m path h') t _ C R) as [(_ & F' & _)|(_ & pn' & T' & F' & RJ & R')]; [congruence|].
    assert (pn' = PDuplicate) by congruence. subst pn'.
    assert (ND : forall ts, NoDup (map fst (routes_at T' ts))).
    { intros ts. rewrite (rejected_methods _ _ _ _ _ RJ). apply (gd_nodup _ G). }
    inversion RJ as [| T0 o0 path0 pn0 _ _ SP| |T0 m0 path0 h0 h1 p0 S0 U0 D0|]; subst.
    { exfalso. destruct SP as (? & ? & ? & _ & _ & _ & [[_ X]|(_ & _ & X)]); discriminate. }
    destruct (overwrite_new _ _ _ h' _ D0) as (p1 & I1 & E1).
    destruct (overwrite_path _ (flat (segments path)) m h' _ _ I ltac:(discriminate)) as (c' & I2 & N2).
    destruct (found_own' _ (fst (run_op t (ORoute m path h'))) p1 p m h' req b c' R'
       (in_or_app _ _ _ (or_introl I2)) N2 (gd_path _ G _ _ I) NS S (in_or_app _ _ _ (or_introl I1))
       (eq_trans E1 E) (ND _)) as (r & X & Y & _). eauto.
  Qed.

  Lemma rejected_colon_ok (T : table) o pn T' : rejected T o pn T' -> clean o -> all_colon_ok T -> all_colon_ok T'.
  Proof.
    assert (FN : forall i p, colon_ok p -> colon_ok (firstn i p)).
    { intros i p C s I. apply C. rewrite <- (firstn_skipn i p). apply in_or_app. auto. }
    assert (PA : forall o path, op_path o = Some path -> clean (o : op) -> colon_ok (segments path)).
    { intros [m q h|q mw|mw|q sub] path E C; cbn [op_path] in E; try discriminate; injection E as <-; [exact C|exact C|].
      apply clean_router in C as [C _]. exact C. }
    intros RJ C A. destruct RJ.
    - exact A.
    - exact A.
    - apply colon_ok_snoc; [exact A|]. apply FN. eapply PA; eassumption.
    - apply colon_ok_snoc; [|exact C]. intros q c I. assert (J : In q (map fst (overwrite T (flat p) m h))) by (apply (in_map fst _ _ I)).
      rewrite overwrite_paths in J. apply in_map_iff in J as ([q' d] & <- & J). exact (A _ _ J).
    - apply colon_ok_snoc; [exact A|]. apply clean_router in C as [C _]. exact C.
  Qed.

  Lemma caught_rep (T : table) l U : caught T l U -> forall t, Rep t T -> Rep (run_caught t l) U.
  Proof.
    intros C. induction C as [T|T o l U Ti A C IH|T o l pn T' U Ti A RJ C IH]; intros t R; cbn [run_caught].
    - exact R.
    - apply IH. destruct (step_cases o t T Ti R) as [(_ & _ & R')|(A' & _)]; [exact R'|contradiction].
    - apply IH. destruct (step_cases o t T Ti R) as [(A' & _)|(_ & pn' & T'' & _ & RJ' & R')]; [contradiction|].
      destruct (rejected_fun _ _ _ _ RJ _ _ RJ') as [_ <-]. exact R'.
  Qed.

  Lemma caught_fun (T : table) l U : caught T l U -> forall U', caught T l U' -> U = U'.
  Proof.
    intros C. induction C as [T|T o l U Ti A C IH|T o l pn T' U Ti A RJ C IH]; intros U' C'; inversion C'; subst; auto; try contradiction.
    match goal with X : rejected T o _ _ |- _ => destruct (rejected_fun _ _ _ _ RJ _ _ X) as [_ <-] end. auto.
  Qed.

  Lemma caught_lookup (l : list op) U : caught [] l U ->
    (forall U', caught [] l U' -> U' = U) /\
    forall path,
      (exists ts ps r, resolves U (segments path) ts ps /\ search_route (run_caught trie_new l) path = LSome r /\ delivers U ts ps r)
      \/ ((forall ts ps, ~ resolves U (segments path) ts ps) /\ search_route (run_caught trie_new l) path = LNone).
  Proof.
    intros C. pose proof (caught_rep _ _ _ C trie_new rep_new) as R.
    split; [intros U' CA'; symmetry; eapply caught_fun; eassumption|].
    intros path. destruct (search_spec _ U R path) as [(ts & ps & RS & E)|(N & E)]; [left|right; auto].
    exists ts, ps, (answer U ts ps). repeat split; auto; apply answer_delivers.
  Qed.

  Lemma clean_caught_from l : all_clean l -> forall (T : table) t, all_colon_ok T -> Rep t T -> exists U, caught T l U.
  Proof.
    intros F. induction F as [|o l C F IH]; intros T t AC R.
    - exists T. constructor.
    - destruct (clean_step o C T AC) as [Ct AC'].
      destruct (step_cases o t T Ct R) as [(A & E & R')|(A & pn & T' & E & RJ & R')].
      + destruct (IH _ _ AC' R') as (U & CA). exists U. apply ca_ok; assumption.
      + destruct (IH _ _ (rejected_colon_ok _ _ _ _ RJ C AC) R') as (U & CA). exists U. eapply ca_rej; eassumption.
  Qed.

  Lemma clean_caught (l : list op) : all_clean l -> exists U, caught [] l U.
  Proof. intros C. apply (clean_caught_from l C [] trie_new); [intros p c []|apply rep_new]. Qed.

  (** ** C53: every registered route can be reached *)

  Lemma table_segs_after (o : op) : forall T, (forall p c s, In (p, c) T -> In s p -> s <> [] /\ ~ In c_slash s) ->
    forall p c s, In (p, c) (after T o) -> In s p -> s <> [] /\ ~ In c_slash s.
  Proof.
    induction o as [m path h|path mw|mw|path sub IH] using op_ind'; intros T HT p c s I J.
    - cbn [after] in I. apply in_app_iff in I as [I|[I|[]]]; [eauto|]. injection I as <- <-. eapply segments_ok; eauto.
    - cbn [after] in I. destruct (segments path) as [|x y] eqn:E; [eauto|].
      apply in_app_iff in I as [I|[I|[]]]; [eauto|]. injection I as <- <-. apply (segments_ok path). rewrite E. exact J.
    - cbn [after] in I. apply in_app_iff in I as [I|[I|[]]]; [eauto|]. injection I as <- <-. destruct J.
    - rewrite after_router in I.
      assert (HS : forall p c s, In (p, c) (table_of sub) -> In s p -> s <> [] /\ ~ In c_slash s).
      { clear -IH. unfold table_of.
        assert (G : forall T : table, (forall p c s, In (p, c) T -> In s p -> s <> [] /\ ~ In c_slash s) ->
                    forall p c s, In (p, c) (afters T sub) -> In s p -> s <> [] /\ ~ In c_slash s).
        { induction IH as [|o l Ho F IHl]; intros T HT; [exact HT|]. cbn [afters]. apply IHl. intros p c s. apply Ho. exact HT. }
        apply G. intros p c s []. }
      destruct (segments path) as [|x y] eqn:E; [eauto|].
      apply in_app_iff in I as [I|[I|I]]; [eauto| |].
      + injection I as <- <-. apply (segments_ok path). rewrite E. exact J.
      + apply in_with_prefix in I as (q & -> & I). apply in_app_iff in J as [J|J]; [|eauto].
        apply (segments_ok path). rewrite E. exact J.
  Qed.

  Lemma table_segs (l : list op) p c s : In (p, c) (table_of l) -> In s p -> s <> [] /\ ~ In c_slash s.
  Proof.
    unfold table_of.
    assert (G : forall l (T : table), (forall p c s, In (p, c) T -> In s p -> s <> [] /\ ~ In c_slash s) ->
                forall p c s, In (p, c) (afters T l) -> In s p -> s <> [] /\ ~ In c_slash s).
    { clear. induction l as [|o l IH]; intros T HT; [exact HT|]. cbn [afters]. apply IH. intros p c s. apply table_segs_after. exact HT. }
    apply G. clear. intros p c s [].
  Qed.

  Definition inst (x : str) (p : list str) : list str :=
    map (fun s => match s with c :: _ => if N.eqb c c_colon then x else s | [] => s end) p.

  Lemma inst_match x p : no_star p -> exists b, seg_match p (inst x p) b.
  Proof.
    induction p as [|s p IH]; intros NS; [exists []; constructor|].
    destruct IH as [b S]; [intros I; apply NS; right; exact I|].
    cbn [inst map]. fold (inst x p). destruct s as [|c r].
    - exists b. constructor; [|exact S]. split; [discriminate|]. intros [r E]. discriminate.
    - destruct (N.eqb_spec c c_colon) as [->|N].
      + exists ((r, x) :: b). constructor. exact S.
      + exists b. constructor; [|exact S]. split.
        * intros E. apply NS. left. exact E.
        * intros [r' E]. congruence.
  Qed.

  Lemma inst_ok x p s : (forall s, In s p -> s <> [] /\ ~ In c_slash s) -> x <> [] -> ~ In c_slash x ->
    In s (inst x p) -> s <> [] /\ ~ In c_slash s.
  Proof.
    intros HP Nx Sx I. apply in_map_iff in I as (y & E & I). specialize (HP y I). subst s.
    destruct y as [|c r]; [exact HP|]. destruct (N.eqb c c_colon); [split; assumption|exact HP].
  Qed.

  Definition c_a : char := 97%N.

  Lemma long_bound (T : table) : exists n, forall p c, In (p, c) T -> length (flat p) <= n.
  Proof.
    induction T as [|[q d] T [n IH]]; [exists 0; intros p c []|].
    exists (max n (length (flat q))). intros p c [E|I].
    - injection E as <- <-. lia.
    - specialize (IH p c I). lia.
  Qed.

  Lemma spell_repeat ts n : spell ts = repeat c_a n -> length ts = n.
  Proof.
    revert n; induction ts as [|t ts IH]; intros n E.
    - destruct n; [reflexivity|discriminate].
    - unfold spell in E. cbn [flat_map] in E. fold (spell ts) in E. destruct t as [c|m|]; cbn [spell1 app] in E.
      + destruct n; [discriminate|]. cbn [repeat] in E. injection E as _ E. simpl. f_equal. apply IH. exact E.
      + destruct n; discriminate.
      + destruct n; discriminate.
  Qed.

  (** The characters of [path] are those of the literal segments of [p], 'a' and '/'. *)
  Definition spelled (p : list str) (path : str) : Prop := forall c, In c path ->
    c = c_slash \/ c = c_a \/ exists s, In s p /\ starts_colon s = false /\ In c s.

  Lemma in_join_slash R c : In c (join_slash R) -> c = c_slash \/ exists s, In s R /\ In c s.
  Proof.
    induction R as [|s [|s' R] IH]; cbn [join_slash]; [intros []|right; exists s; split; [left; reflexivity|assumption]|].
    intros J. apply in_app_iff in J as [J|J]; [right; exists s; split; [left; reflexivity|exact J]|].
    destruct J as [<-|J]; [left; reflexivity|].
    destruct (IH J) as [->|(y & K & L)]; [left; reflexivity|right; exists y; split; [right; exact K|exact L]].
  Qed.

  Lemma inst_chars x p s c : In s (inst x p) -> In c s ->
    In c x \/ exists s', In s' p /\ starts_colon s' = false /\ In c s'.
  Proof.
    intros J K. apply in_map_iff in J as (y & E & J). destruct y as [|d r]; [subst; destruct K|].
    destruct (N.eqb d c_colon) eqn:Ed; subst s; [left; exact K|]. right. exists (d :: r).
    split; [exact J|]. split; [exact Ed|exact K].
  Qed.

  Lemma star_route_reached (l : list op) t q m h : built l t -> no_star_mount l ->
    registered l (q ++ [s_star]) (CRoute m h) ->
    exists path r b, seg_match (q ++ [s_star]) (segments path) b /\ search_route t path = LSome r /\
                     rr_get_route r m = Some (Route m h) /\ spelled (q ++ [s_star]) path.
  Proof.
    intros B NM I. destruct (built_rep _ _ B) as (R & G & A).
    assert (SL : stars_last (table_of l)) by (apply stars_last_table; assumption).
    assert (Nq : no_star q).
    { intros J. apply In_nth_error in J as [i E].
      assert (L : i < length q) by (apply nth_error_Some; congruence).
      assert (E' : nth_error (q ++ [s_star]) i = Some s_star) by (rewrite nth_error_app1 by exact L; exact E).
      destruct (SL _ _ I i s_star E') as [_ F]; [left; reflexivity|]. rewrite app_length in F. simpl in F. lia. }
    destruct (long_bound (table_of l)) as [n HN].
    set (x := repeat c_a (S n)).
    assert (Xs : x <> [] /\ ~ In c_slash x).
    { split; [discriminate|]. intros J. apply repeat_spec in J. discriminate. }
    destruct (inst_match x q Nq) as [b S].
    set (path := join_slash (inst x q ++ [x])).
    assert (EP : segments path = inst x q ++ [x]).
    { apply segments_join. intros s J. apply in_app_iff in J as [J|[<-|[]]]; [|exact Xs].
      apply (inst_ok x q); try apply Xs; [|exact J]. intros y K. apply (table_segs l _ _ y I). apply in_or_app. left. exact K. }
    assert (LQ : length (inst x q) = length q) by apply map_length.
    assert (SM : exists b', seg_match (q ++ [s_star]) (segments path) b').
    { exists b. rewrite EP. clear -S Nq. assert (NN : [x] <> []) by discriminate. revert NN. generalize [x]. intros z NN.
      induction S as [|s p R b L S IH|k s p R b S IH|R N]; cbn [app].
      - apply sm_star. exact NN.
      - constructor; [exact L|]. apply IH. intros J. apply Nq. right. exact J.
      - constructor. apply IH. intros J. apply Nq. right. exact J.
      - exfalso. apply Nq. left. reflexivity. }
    destruct SM as [b' SM].
    assert (DQ : reads (table_of l) [] (inst x q) (flat q) b).
    { exact (match_reads_prefix (table_of l) (CRoute m h) q _ b S Nq [] [s_star] I (gd_path _ G _ _ I)). }
    assert (FN : firstn (length q) (segments path) = inst x q).
    { rewrite EP, <- LQ, firstn_app, Nat.sub_diag, firstn_O, app_nil_r, firstn_all. reflexivity. }
    assert (LL : length q < length (segments path)) by (rewrite EP, app_length, LQ; simpl; lia).
    assert (BD : boundary (table_of l) (flat q ++ [Star])).
    { replace (flat q ++ [Star]) with (flat (q ++ [s_star])) by (rewrite flat_app; reflexivity).
      eapply boundary_end. exact I. }
    assert (DQ' : reads (table_of l) [] (firstn (length q) (segments path)) (flat q) b) by (rewrite FN; exact DQ).
    destruct (wild_resolved t _ path _ _ _ R SL NM LL DQ' BD) as (ts & ps & E & RS & _).
    assert (ET : ts = flat (q ++ [s_star])).
    { apply resolves_reads in RS as (k & ts0 & L & D & CS & MX & _).
      assert (KK : length q <= k).
      { apply (MX (length q) (flat q ++ [Star]) b). split; [exact LL|]. exists (flat q). auto. }
      rewrite EP, app_length in L. simpl in L. rewrite LQ in L.
      destruct (Nat.eq_dec k (length q)) as [->|Nk].
      - rewrite FN in D. destruct (reads_fun t _ R _ _ _ _ _ DQ D) as [<- _].
        destruct CS as [[Ek _]|CS]; [lia|]. rewrite flat_app. exact CS.
      - exfalso. assert (k = length (segments path)) by (rewrite EP, app_length, LQ; simpl; lia). subst k.
        rewrite firstn_all, EP in D. apply reads_app_inv in D as (ts1 & ts2 & b1 & b2 & D1 & D2 & _ & _).
        destruct (reads_fun t _ R _ _ _ _ _ DQ D1) as [<- _]. cbn [app] in D2.
        assert (Ex : x = repeat c_a (Datatypes.S n)) by reflexivity. clearbody path x. clear -D2 Ex HN G I.
        inversion D2 as [|pre c us R' ts' ps' Bd D3 Es|pre k' s' R' ts' ps' Bd D3]; subst.
        + assert (LU : length (Ch c :: us) = Datatypes.S n) by (apply spell_repeat; assumption).
          apply boundary_prefix in Bd as [Eb|(q' & c' & I' & r' & E')].
          * destruct (flat q); discriminate.
          * specialize (HN _ _ I'). rewrite E', !app_length in HN. lia.
        + apply boundary_ext in Bd as (q' & c' & I' & P').
          apply (gd_unamb _ G _ _ _ _ I I'). exists (flat q), Star, (Par k').
          split; [|right; eexists; reflexivity]. split; [discriminate|]. split; [|exact P'].
          exists []. rewrite flat_app, app_nil_r. reflexivity. }
    exists path, (answer (table_of l) ts ps), b'. split; [exact SM|]. split; [exact E|].
    split; [|intros c J; apply in_join_slash in J as [->|(s & J & K)]; [left; reflexivity|]; apply in_app_iff in J as [J|[<-|[]]];
      [destruct (inst_chars x q s c J K) as [K'|(s' & J' & S' & K')];
         [right; left; eapply repeat_spec; exact K'|right; right; exists s'; split; [apply in_or_app; left; exact J'|auto]]
      |right; left; eapply repeat_spec; exact K]].
    destruct (answer_delivers (table_of l) ts ps) as (_ & -> & _).
    rewrite (in_handler_for m _ h); [reflexivity|apply G|]. apply in_routes_at. eauto.
  Qed.

  Lemma route_spelled (l : list op) t p m h : built l t -> no_star_mount l -> registered l p (CRoute m h) ->
    exists path r b, seg_match p (segments path) b /\ search_route t path = LSome r /\
                     rr_get_route r m = Some (Route m h) /\ spelled p path.
  Proof.
    intros B NM I. destruct (in_dec (list_eq_dec N.eq_dec) s_star p) as [J|NS].
    - destruct (built_rep _ _ B) as (_ & _ & A).
      pose proof (stars_last_table l A NM _ _ I) as SP. apply In_nth_error in J as [i E].
      destruct (SP i s_star E) as [_ L]; [left; reflexivity|].
      apply nth_error_split in E as (q & r & -> & Lq). rewrite app_length in L. cbn [length] in L.
      destruct r; [|simpl in L; lia]. eapply star_route_reached; eassumption.
    - destruct (inst_match [c_a] p NS) as [b S].
      assert (EP : segments (join_slash (inst [c_a] p)) = inst [c_a] p).
      { apply segments_join. intros s J. apply (inst_ok [c_a] p); [|discriminate| |exact J].
        - intros y K. apply (table_segs l _ _ y I K).
        - intros [E|[]]. discriminate. }
      exists (join_slash (inst [c_a] p)).
      destruct (found_route l t p m h (join_slash (inst [c_a] p)) b B I NS) as (r & E & F & _); [rewrite EP; exact S|].
      exists r, b. rewrite EP. split; [exact S|]. split; [exact E|]. split; [exact F|].
      intros c J. apply in_join_slash in J as [->|(s & J & K)]; [left; reflexivity|].
      destruct (inst_chars _ _ _ _ J K) as [[<-|[]]|J']; auto.
  Qed.

  Lemma route_reached (l : list op) t p m h : built l t -> no_star_mount l -> registered l p (CRoute m h) ->
    exists path r b, seg_match p (segments path) b /\ search_route t path = LSome r /\ rr_get_route r m = Some (Route m h).
  Proof.
    intros B NM I. destruct (route_spelled l t p m h B NM I) as (path & r & b & S & E & F & _). exists path, r, b. auto.
  Qed.

  (** ** C23: a single route whose only segment contains colons *)

  Lemma single_segment_route m path (h : H) s : segments path = [s] -> ~ In c_star s -> starts_colon s = false ->
    build [ORoute m path h] = (Node [c_slash] None [Node s (Some (@RV H M [] [(m, Route m h)])) []], None).
  Proof.
    intros E NS NC. unfold build. cbn [run_ops run_op]. unfold insert_route. rewrite E. cbn [length star_check].
    replace (contains c_star s) with false by (symmetry; destruct (contains c_star s) eqn:F; [apply contains_In in F; contradiction|reflexivity]).
    cbn. replace (str_eqb s s_star) with false; [reflexivity|].
    symmetry. apply str_eqb_neq. intros ->. apply NS. left. reflexivity.
  Qed.

  Lemma match_count_full s k : match_count s k = blen s -> exists r, k = s ++ r.
  Proof.
    revert k; induction s as [|c s IH]; intros k E; [exists k; reflexivity|].
    cbn [match_count blen] in E. pose proof (len_utf8_pos c) as LP.
    destruct k as [|d k]; [lia|]. destruct (N.eqb_spec d c) as [->|N]; [|lia].
    destruct (IH k) as [r ->]; [lia|]. exists r. reflexivity.
  Qed.

  Lemma match_count_app s r : match_count s (s ++ r) = blen s.
  Proof. induction s as [|c s IH]; [destruct r; reflexivity|]. cbn [app match_count blen]. rewrite N.eqb_refl, IH. reflexivity. Qed.

  Lemma single_segment_lookup m path (h : H) s : segments path = [s] -> ~ In c_star s -> starts_colon s = false ->
    forall req r, search_route (fst (build [@ORoute H M m path h])) req = LSome r -> segments req = [s].
  Proof.
    intros E NS NC req r F. rewrite (single_segment_route m path h s E NS NC) in F.
    assert (Ns : s <> []) by (apply (segments_ok path); rewrite E; left; reflexivity).
    unfold search_route in F. cbn [fst nval val_mws] in F. destruct (segments req) as [|k R] eqn:ER; [discriminate|].
    cbn [is_empty get_next_node next_loop] in F. unfold is_param in F. cbn [nkey nval nkids] in F. rewrite NC in F. cbn [negb andb] in F.
    replace (str_eqb s s_star) with false in F by (symmetry; apply str_eqb_neq; intros ->; apply NS; left; reflexivity).
    destruct (Nat.eqb_spec (match_count s k) (blen s)) as [EM|NM]; cbn [andb] in F.
    - destruct (match_count_full s k EM) as [z ->]. rewrite EM in F. rewrite blen_app in F.
      destruct (Nat.eqb_spec (blen s) (blen s + blen z)) as [Ez|Nz]; cbn [negb] in F.
      + assert (z = []) by (apply blen_0; lia). subst z. rewrite app_nil_r.
        destruct (Nat.eqb_spec (blen s) 0) as [Z|NZ]; [apply blen_0 in Z; contradiction|]. cbn [negb andb] in F.
        destruct R as [|k' R]; [reflexivity|]. cbn [is_empty] in F. discriminate.
      + rewrite slice_from_app in F.
        destruct (Nat.eqb_spec (blen s) 0) as [Z|NZ]; [apply blen_0 in Z; contradiction|]. cbn [negb andb is_empty] in F. discriminate.
    - rewrite andb_false_r in F. discriminate.
  Qed.

  Lemma single_segment_found m path (h : H) s : segments path = [s] -> ~ In c_star s -> starts_colon s = false ->
    exists r, search_route (fst (build [@ORoute H M m path h])) path = LSome r /\ rr_get_route r m = Some (Route m h) /\ rr_params r = [].
  Proof.
    intros E NS NC. rewrite (single_segment_route m path h s E NS NC).
    assert (Ns : s <> []) by (apply (segments_ok path); rewrite E; left; reflexivity).
    unfold search_route. cbn [fst nval val_mws]. rewrite E.
    cbn [is_empty get_next_node next_loop]. unfold is_param. cbn [nkey nval nkids]. rewrite NC. cbn [negb andb].
    replace (str_eqb s s_star) with false by (symmetry; apply str_eqb_neq; intros ->; apply NS; left; reflexivity).
    pose proof (match_count_app s []) as MC. rewrite app_nil_r in MC. rewrite MC, Nat.eqb_refl. cbn [negb andb].
    destruct (Nat.eqb_spec (blen s) 0) as [Z|NZ]; [apply blen_0 in Z; contradiction|]. cbn [negb andb].
    eexists. split; [reflexivity|]. split; [|reflexivity]. unfold rr_get_route, get_route. cbn [rr_value rv_route aget].
    assert (X : method_eqb m m = true) by (apply method_eqb_spec; reflexivity). rewrite X. reflexivity.
  Qed.

  Lemma reads_names (T : table) pre R ts ps : reads T pre R ts ps -> forall n v, In (n, v) ps ->
    exists p c, In (p, c) T /\ In (c_colon :: n) p.
  Proof.
    intros D. induction D as [pre|pre c us R ts ps B D IH|pre n s R ts ps B D IH]; intros k v I.
    - destruct I.
    - exact (IH k v I).
    - destruct I as [I|I]; [|exact (IH k v I)]. injection I as <- <-.
      apply boundary_ext in B as (q & c & J & r & E).
      assert (K : In (Par n) (flat q)) by (rewrite E; apply in_or_app; left; apply in_elt).
      exists q, c. split; [exact J|]. apply in_flat_map in K as (x & K & L). destruct x as [|y x]; [destruct L|].
      unfold seg_toks in L. destruct (N.eqb_spec y c_colon) as [->|N].
      + destruct L as [L|[]]. injection L as ->. exact K.
      + destruct (str_eqb (y :: x) s_star); [destruct L as [L|[]]; discriminate|].
        apply in_map_iff in L as (z & L & _). discriminate.
  Qed.

  Lemma bound_names (l : list op) t path r n v : built l t -> search_route t path = LSome r ->
    pget n (rr_params r) = Some v -> exists p c, registered l p c /\ In (c_colon :: n) p.
  Proof.
    intros B E G. destruct (lookup_some l t path r B E) as (ts & ps & RS & (_ & _ & D)).
    rewrite D in G.
    assert (I : In (n, v) ps).
    { clear -G. induction ps as [|[k w] ps IH]; [discriminate|]. cbn [first_binding] in G.
      destruct (str_eqb_spec n k) as [->|N]; [injection G as ->; left; reflexivity|right; exact (IH G)]. }
    destruct RS as [(RD & _)|(R0 & ts0 & c & us & _ & RD & _)|k (_ & ts0 & RD & _) _ _ _ _]; exact (reads_names _ _ _ _ _ RD n v I).
  Qed.

  (** ** C01, call by call *)

  Lemma route_accepted_iff (l : list op) t m path h : let p := segments path in
    built l t -> colons_apart (table_of l ++ [(p, CNode)]) ->
    (snd (run_op t (ORoute m path h)) = None <->
     star_ok p /\ (forall q c, registered l q c -> ~ ambiguous p q) /\
     ~ exists q h', registered l q (CRoute m h') /\ flat q = flat p).
  Proof.
    intros p B C. rewrite (call_accepted_iff l t (ORoute m path h) B C). cbn [accepted]. fold p.
    split; intros (A1 & A2 & A3); (split; [exact A1|]); (split; [exact A2|]).
    - intros (q & h' & I & E). apply A3. exists h'. apply in_routes_at. exists q. auto.
    - intros (h' & I). apply in_routes_at in I as (q & I & E). apply A3. exists q, h'. auto.
  Qed.

  Lemma service_accepted_iff (l : list op) t path mw : let p := segments path in
    built l t -> colons_apart (table_of l ++ [(p, CNode)]) ->
    (snd (run_op t (OServiceTo path mw)) = None <->
     star_ok p /\ (forall q c, registered l q c -> ~ ambiguous p q)).
  Proof. intros p B C. exact (call_accepted_iff l t (OServiceTo path mw) B C). Qed.

  Lemma mount_accepted_iff (l : list op) t path sub : let p := segments path in
    built l t -> colons_apart (table_of l ++ [(p, CNode)]) -> all_tidy [] sub -> p <> [] ->
    (snd (run_op t (ORouter path sub)) = None <->
     snd (build sub) = None /\ star_ok p /\ (forall q c, registered l q c -> ~ ambiguous p q) /\
     (forall q c, registered l q c -> c <> CNode -> flat q <> flat p) /\
     ~ exists q c, registered l q c /\ strict_prefix (flat p) (flat q)).
  Proof.
    intros p B C CS N. assert (CO : tidy (table_of l) (ORouter path sub)) by (rewrite tidy_router; split; assumption).
    rewrite (call_accepted_iff l t (ORouter path sub) B CO). rewrite accepted_router. fold p.
    rewrite (history_accepted_iff sub CS).
    split.
    - intros (A1 & A2 & [A3|(A3 & A4 & A5)]); [contradiction|]. repeat (split; [assumption|]). split; [|exact A5].
      intros q c I Nc E. apply A4. rewrite <- E. eapply content_has_value; eassumption.
    - intros (A1 & A2 & A3 & A4 & A5). split; [exact A1|]. split; [exact A2|]. right. split; [exact A3|]. split; [|exact A5].
      intros V. destruct (has_value_entry _ _ V) as (q & c & I & Nc & E). exact (A4 q c I Nc E).
  Qed.

  (** Mounting at "/" succeeds whenever the mounted router could be built. *)
  Lemma root_mount_accepted (t : trie) path sub : segments path = [] -> snd (build sub) = None ->
    run_op t (ORouter path sub) = (fst (build sub), None).
  Proof.
    intros E F. rewrite run_op_router. match goal with |- context [snd ?x] => change (snd x) with (snd (build sub)) end.
    rewrite F. unfold insert_sub_route. rewrite E. reflexivity.
  Qed.
End Lemmas.

Lemma lookup_no_panic {H M} (t : trie H M) path p : search_route t path <> LPanic p.
Proof. destruct (search_total t path) as (r & -> & N). apply N. Qed.

Lemma registration_panics {H M} (t : trie H M) (o : op H M) p : snd (run_op t o) = Some p ->
  p = PStarInName \/ p = PStarNotLast \/ p = PAmbiguous \/ p = PDuplicate \/ p = PMountConflict.
Proof. intros E. pose proof (run_op_total o t) as X. rewrite E in X. exact X. Qed.

Section More.
  Context {H M : Type}.
  Notation op := (op H M).

  Lemma literal_found (l : list op) t p m h path :
    built l t -> registered l p (CRoute m h) -> literal p -> segments path = p ->
    exists r, search_route t path = LSome r /\ rr_get_route r m = Some (Route m h) /\
              forall n, pget n (rr_params r) = None.
  Proof.
    intros B I L E. apply (found_route l t p m h path [] B I (literal_no_star p L)). rewrite E. apply literal_match. exact L.
  Qed.

  Lemma resolution_unique (l : list op) t R ts ps ts' ps' :
    built l t -> resolves (table_of l) R ts ps -> resolves (table_of l) R ts' ps' -> ts = ts' /\ ps = ps'.
  Proof. intros B A A'. apply built_rep in B as (RP & _ & _). eapply resolves_fun; eassumption. Qed.

  Lemma root_path_ignored (t : trie H M) path mw : segments path = [] -> run_op t (OServiceTo path mw) = (t, None).
  Proof. intros E. cbn [run_op]. unfold insert_middleware. rewrite E. reflexivity. Qed.

  Lemma mount_keeps (l : list op) path sub t p m h req b :
    built (l ++ [ORouter path sub]) t -> segments path <> [] ->
    registered l p (CRoute m h) -> no_star p -> seg_match p (segments req) b ->
    exists r, search_route t req = LSome r /\ rr_get_route r m = Some (Route m h) /\
              forall n, pget n (rr_params r) = first_binding b n.
  Proof.
    intros B N I NS S. apply (later_calls_keep l [ORouter path sub] t p m h req b); auto.
    intros o [<-|[]] (path' & sub' & E & F). injection E as <- <-. contradiction.
  Qed.

  Lemma literal_over_wildcard (l : list op) t p m h q c path b b' :
    built l t -> registered l p (CRoute m h) -> no_star p -> seg_match p (segments path) b ->
    registered l (q ++ [s_star]) c -> seg_match (q ++ [s_star]) (segments path) b' ->
    exists r, search_route t path = LSome r /\ rr_get_route r m = Some (Route m h) /\
      forall m' h', rr_get_route r m' = Some (Route m' h') ->
        exists p', registered l p' (CRoute m' h') /\ flat p' = flat p.
  Proof.
    intros B I NS S _ _. destruct (built_rep _ _ B) as (R & G & _).
    destruct (found_own _ t p m h (segments path) path b R G I NS S eq_refl) as [E F].
    eexists. split; [exact E|]. split; [exact F|]. intros m' h' X.
    destruct (answer_delivers (table_of l) (flat p) b) as (_ & D & _). rewrite D in X.
    destruct (handler_for m' (routes_at (table_of l) (flat p))) as [h2|] eqn:Eh; [|discriminate].
    injection X as ->. apply handler_for_in, in_routes_at in Eh as (p' & I' & E'). exists p'. auto.
  Qed.

  Lemma single_segment_exact m path (h : H) s :
    segments path = [s] -> literal_seg s -> ~ In c_star s ->
    exists t, build [@ORoute H M m path h] = (t, None) /\
      forall req, (exists r, search_route t req = LSome r) <-> segments req = [s].
  Proof.
    intros E [_ L] NS. assert (NC : starts_colon s = false).
    { destruct s as [|c r]; [reflexivity|]. unfold starts_colon. destruct (N.eqb_spec c c_colon) as [->|N]; [|reflexivity].
      exfalso. apply L. eauto. }
    pose proof (single_segment_route (M:=M) m path h s E NS NC) as B.
    eexists. split; [exact B|]. intros req. split.
    - intros [r F]. apply (single_segment_lookup (M:=M) m path h s E NS NC req r). rewrite B. exact F.
    - intros F. destruct (single_segment_found (M:=M) m path h s E NS NC) as (r & X & _). rewrite B in X.
      exists r. unfold search_route in *. rewrite E in X. rewrite F. exact X.
  Qed.
End More.
