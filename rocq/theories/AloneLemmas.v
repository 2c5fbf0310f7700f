(** Lemmas about routers with a single route. *)

From Coq Require Import Lia String.
From Verif Require Import Base BaseFacts RouteTrie Router TableSpec PropSpec TrieDen TrieRep TrieBuild RouteFacts RouteLemmas AloneSpec.
Local Open Scope string_scope.
Local Open Scope list_scope.

Section Alone.
  Context {H M : Type}.
  Notation op := (op H M).
  Notation table := (table H M).

  Lemma flat_nil p : path_ok p -> flat p = [] -> p = [].
  Proof.
    destruct p as [|s p]; intros P E; [reflexivity|]. rewrite flat_cons in E. apply app_eq_nil in E as [E _].
    destruct (seg_toks_nil s (P s (or_introl eq_refl)) E).
  Qed.

  Lemma path_ok_app p q : path_ok (p ++ q) -> path_ok p /\ path_ok q.
  Proof. intros P. split; intros s I; apply P, in_or_app; auto. Qed.

  Lemma firstn_past (a r : list str) i ts : path_ok (a ++ r) -> flat (firstn i (a ++ r)) = flat a ++ ts -> ts <> [] ->
    exists g r', r = g ++ r' /\ flat g = ts.
  Proof.
    intros P E N. destruct (Nat.le_gt_cases i (length a)) as [L|L].
    - exfalso. rewrite firstn_app in E. replace (i - length a) with 0 in E by lia. cbn [firstn] in E. rewrite app_nil_r in E.
      rewrite <- (firstn_skipn i a) in E at 2. rewrite flat_app, <- app_assoc in E.
      rewrite <- (app_nil_r (flat (firstn i a))) in E at 1. apply app_inv_head in E. symmetry in E. apply app_eq_nil in E as [_ E]. contradiction.
    - exists (firstn (i - length a) r), (skipn (i - length a) r). split; [symmetry; apply firstn_skipn|].
      rewrite firstn_app, firstn_all2 in E by lia. rewrite flat_app in E. apply app_inv_head in E. exact E.
  Qed.

  Lemma spell_flat p : path_ok p -> spell (flat p) = concat p.
  Proof.
    induction p as [|s p IH]; intros P; [reflexivity|]. rewrite flat_cons, spell_app. cbn [concat].
    rewrite (spell_seg_toks s (P s (or_introl eq_refl))), IH by (intros x I; apply P; right; exact I). reflexivity.
  Qed.

  Lemma flat_literal g c us : path_ok g -> flat g = Ch c :: us -> exists s g', g = s :: g' /\ literal_seg s.
  Proof.
    destruct g as [|s g]; intros P E; [discriminate E|]. exists s, g. split; [reflexivity|]. rewrite flat_cons in E.
    split; [intros ->; discriminate E|intros [r ->]; discriminate E].
  Qed.

  Lemma literal_flat s g : path_ok (s :: g) -> literal_seg s -> exists c us, flat (s :: g) = Ch c :: us.
  Proof.
    intros P L. destruct (literal_toks s) as (c & us & E & _); [apply key_ok_nonempty, P; left; reflexivity|exact L|].
    exists c, (us ++ flat g). rewrite flat_cons, E. reflexivity.
  Qed.

  Lemma flat_param g n : path_ok g -> flat g = [Par n] -> g = [c_colon :: n].
  Proof.
    destruct g as [|s g]; intros P E; [discriminate E|]. rewrite flat_cons in E.
    pose proof (P s (or_introl eq_refl)) as K. inversion K as [r|E'|s' N L]; subst s.
    - rewrite seg_toks_par in E. injection E as -> E. rewrite (flat_nil g); [reflexivity| |exact E]. intros x I. apply P. right. exact I.
    - discriminate E.
    - rewrite (seg_toks_lit s' L) in E. destruct s'; [congruence|discriminate E].
  Qed.

  Section One.
    Variable p : list str.
    Variable c0 : content H M.
    Variable P : path_ok p.
    Let T : table := [(p, c0)].

    Lemma one_boundary ts : boundary T ts <-> exists i, ts = flat (firstn i p).
    Proof.
      split.
      - intros [->|[(q & c & i & [I|[]] & ->)|(q & c & q' & d & a & b & [I|[]] & [J|[]] & PA)]].
        + exists 0. reflexivity.
        + injection I as <- <-. exists i. reflexivity.
        + injection I as <- <-. injection J as <- <-. destruct (part_at_irrefl _ _ _ _ PA).
      - intros [i ->]. right. left. exists p, c0, i. split; [left; reflexivity|reflexivity].
    Qed.

    Lemma one_end a r : p = a ++ r -> boundary T (flat a).
    Proof. intros E. apply one_boundary. exists (length a). rewrite E, firstn_app, Nat.sub_diag, firstn_all, firstn_O, app_nil_r. reflexivity. Qed.

    Lemma reads_joined pre R ts b : reads T pre R ts b -> forall a r, p = a ++ r -> pre = flat a ->
      exists g r', r = g ++ r' /\ flat g = ts /\ joined g R b.
    Proof.
      intros D. induction D as [pre|pre c us R ts b B D IH|pre n s R ts b B D IH]; intros a r E ->.
      - exists [], r. repeat split. constructor.
      - apply one_boundary in B as [i B]. rewrite E in B. symmetry in B.
        apply firstn_past in B as (g & r' & -> & Eg); [|rewrite <- E; exact P|discriminate].
        pose proof P as P'. rewrite E in P'. apply path_ok_app in P' as [_ P']. apply path_ok_app in P' as [Pg _].
        destruct (IH (a ++ g) r') as (g2 & r2 & -> & Eg2 & J); [rewrite E, app_assoc; reflexivity|rewrite flat_app, Eg; reflexivity|].
        exists (g ++ g2), r2. split; [apply app_assoc|]. split; [rewrite flat_app, Eg, Eg2; reflexivity|].
        destruct (flat_literal g c us Pg Eg) as (s & g' & -> & L). rewrite <- Eg, (spell_flat _ Pg). apply jn_lit; assumption.
      - apply one_boundary in B as [i B]. rewrite E in B. symmetry in B.
        apply firstn_past in B as (g & r' & -> & Eg); [|rewrite <- E; exact P|discriminate].
        pose proof P as P'. rewrite E in P'. apply path_ok_app in P' as [_ P']. apply path_ok_app in P' as [Pg _].
        destruct (IH (a ++ g) r') as (g2 & r2 & -> & Eg2 & J); [rewrite E, app_assoc; reflexivity|rewrite flat_app, Eg; reflexivity|].
        exists (g ++ g2), r2. split; [apply app_assoc|]. split; [rewrite flat_app, Eg, Eg2; reflexivity|].
        rewrite (flat_param g n Pg Eg). apply jn_par. exact J.
    Qed.

    Lemma joined_reads g R b : joined g R b -> forall a r, p = a ++ g ++ r -> reads T (flat a) R (flat g) b.
    Proof.
      intros J. induction J as [|s g q R b L J IH|n s q R b J IH]; intros a r E.
      - constructor.
      - assert (Pg : path_ok (s :: g)).
        { pose proof P as P'. rewrite E in P'. apply path_ok_app in P' as [_ P']. apply path_ok_app in P' as [P' _]. apply path_ok_app in P' as [P' _]. exact P'. }
        rewrite <- (spell_flat _ Pg). rewrite flat_app. destruct (literal_flat s g Pg L) as (c & us & Ef). rewrite Ef.
        assert (E' : p = (a ++ s :: g) ++ q ++ r) by (rewrite E, <- !app_assoc; reflexivity).
        apply rd_lit; rewrite <- Ef, <- flat_app; [exact (one_end _ _ E')|]. exact (IH (a ++ s :: g) r E').
      - rewrite flat_cons, seg_toks_par. cbn [app].
        assert (E' : p = (a ++ [c_colon :: n]) ++ q ++ r) by (rewrite E, <- !app_assoc; reflexivity).
        assert (F : flat (a ++ [c_colon :: n]) = flat a ++ [Par n]) by (rewrite flat_app; reflexivity).
        apply rd_par; rewrite <- F; [exact (one_end _ _ E')|exact (IH _ r E')].
    Qed.

    Lemma spell_ne t : spell1 t <> [].
    Proof. destruct t; discriminate. Qed.

    Lemma spell_prefix us vs K x y : K = us ++ x -> K = vs ++ y -> spell us = spell vs -> us = vs.
    Proof.
      revert vs K. induction us as [|a us IH]; intros [|b vs] K E1 E2 S; [reflexivity|exfalso|exfalso|].
      - cbn in S. destruct (spell_ne b). symmetry in S. apply app_eq_nil in S. tauto.
      - cbn in S. destruct (spell_ne a). apply app_eq_nil in S. tauto.
      - destruct K as [|k K]; [discriminate|]. injection E1 as <- E1. injection E2 as <- E2. f_equal. apply (IH vs K E1 E2).
        cbn in S. apply app_inv_head in S. exact S.
    Qed.

    (** Along one token string there is only one way to read. *)
    Lemma reads_along (T' : table) pre R ts1 b1 : reads T' pre R ts1 b1 -> forall ts2 b2 K, reads T' pre R ts2 b2 ->
      prefix ts1 K -> prefix ts2 K -> ts1 = ts2 /\ b1 = b2.
    Proof.
      intros D. induction D as [pre|pre c us R ts b B D IH|pre n s R ts b B D IH]; intros ts2 b2 K D2 [x E1] [y E2].
      - inversion D2; subst. auto.
      - remember (spell (Ch c :: us) :: R) as R' eqn:ER. destruct D2 as [|pre c' us' R2 ts' b' B' D'|pre n' s' R2 ts' b' B' D'].
        + discriminate ER.
        + pose proof (f_equal (hd []) ER) as ES. pose proof (f_equal (@tl str) ER) as ER2. cbn [hd tl] in ES, ER2. subst R2. rewrite <- app_assoc in E1, E2.
          assert (F : Ch c' :: us' = Ch c :: us) by (eapply spell_prefix; [exact E2|exact E1|exact ES]).
          rewrite F in *. rewrite E1 in E2. apply app_inv_head in E2.
          destruct (IH ts' b' (ts ++ x) D') as [-> ->]; [exists x; reflexivity|exists y; exact E2|]. auto.
        + rewrite E1 in E2. discriminate E2.
      - remember (s :: R) as R' eqn:ER. destruct D2 as [|pre c' us' R2 ts' b' B' D'|pre n' s' R2 ts' b' B' D'].
        + discriminate ER.
        + rewrite E1 in E2. discriminate E2.
        + injection ER as -> ->. rewrite E1 in E2. injection E2 as <- E2.
          destruct (IH ts' b' (ts ++ x) D') as [-> ->]; [exists x; reflexivity|exists y; exact E2|]. auto.
    Qed.

    Lemma one_value ts : c0 <> CNode -> (has_value T ts <-> ts = flat p).
    Proof.
      intros N. split.
      - intros V. apply has_value_entry in V as (q & c & [I|[]] & E). injection I as <- <-. symmetry. exact E.
      - intros ->. apply (content_has_value T p c0); [left; reflexivity|exact N].
    Qed.

    Lemma resolves_alone R ts b : c0 <> CNode -> star_ok p -> resolves T R ts b -> ts = flat p /\ alone p R b.
    Proof.
      intros N S RS. destruct RS as [[D V]|(R0 & ts0 & c & us & -> & D & B & NV & -> & V)|k (L & ts0 & D & -> & B) V _ _ _].
      - apply (one_value _ N) in V as ->. split; [reflexivity|]. apply al_path.
        destruct (reads_joined _ _ _ _ D [] p eq_refl eq_refl) as (g & r & E & Ef & J).
        rewrite E, flat_app in Ef. rewrite <- (app_nil_r (flat g)) in Ef at 1. apply app_inv_head in Ef. symmetry in Ef.
        rewrite E in *. pose proof P as P'. apply path_ok_app in P' as [_ Pr]. rewrite (flat_nil r Pr Ef), app_nil_r. exact J.
      - apply (one_value _ N) in V. split; [exact V|].
        destruct (reads_joined _ _ _ _ D [] p eq_refl eq_refl) as (q & r & E & Ef & J).
        assert (D2 : reads T (flat q) [spell (Ch c :: us)] (Ch c :: us) []).
        { replace (Ch c :: us) with ((Ch c :: us) ++ []) at 2 by apply app_nil_r. apply rd_lit; [rewrite Ef; exact B|constructor]. }
        destruct (reads_joined _ _ _ _ D2 q r E eq_refl) as (g & r' & -> & Ef2 & J2).
        symmetry in V. rewrite E, !flat_app, Ef, Ef2, app_assoc in V. apply app_inv_head in V.
        pose proof P as P'. rewrite E in P'. apply path_ok_app in P' as [_ P']. apply path_ok_app in P' as [Pg Pr].
        assert (r' = [s_star]) as ->.
        { destruct (star_ok_flat p (flat (q ++ g)) []) as (_ & q0 & Eq & Fq); [exact S|rewrite E, !flat_app, V, app_assoc; reflexivity|].
          rewrite E, app_assoc in Eq.
          destruct r' as [|x r'] using rev_ind; [discriminate V|]. rewrite app_assoc in Eq. apply app_inj_tail in Eq as [_ ->].
          rewrite flat_app in V. cbn in V. apply (app_inj_tail _ []) in V as [V _]. apply path_ok_app in Pr as [Pr _]. rewrite (flat_nil r' Pr V). reflexivity. }
        destruct (flat_literal g c us Pg Ef2) as (s & g' & -> & Ls). rewrite E, <- Ef2, (spell_flat _ Pg). apply al_bare; assumption.
      - apply (one_value _ N) in V. split; [exact V|].
        destruct (reads_joined _ _ _ _ D [] p eq_refl eq_refl) as (q & r & E & Ef & J).
        symmetry in V. destruct (star_ok_flat p ts0 [] S V) as (_ & q0 & Eq & Fq).
        assert (Er : flat r = [Star]) by (rewrite E, flat_app, Ef in V; apply app_inv_head in V; exact V).
        assert (r = [s_star]) as ->.
        { rewrite E in Eq. destruct r as [|x r] using rev_ind; [discriminate Er|]. rewrite app_assoc in Eq. apply app_inj_tail in Eq as [_ ->].
          rewrite flat_app in Er. cbn in Er. apply (app_inj_tail _ []) in Er as [Er _]. pose proof P as P'. rewrite E in P'. apply path_ok_app in P' as [_ P'].
          apply path_ok_app in P' as [Pr _]. rewrite (flat_nil r Pr Er). reflexivity. }
        rewrite <- (firstn_skipn k R). rewrite E. destruct (skipn k R) as [|x R'] eqn:Es.
        + exfalso. assert (length (skipn k R) = length R - k) by apply skipn_length. rewrite Es in *. cbn in *. lia.
        + apply al_below. exact J.
    Qed.

    Lemma alone_resolves R b : c0 <> CNode -> star_ok p -> alone p R b -> resolves T R (flat p) b.
    Proof.
      intros N S AL. assert (V : has_value T (flat p)) by (apply (one_value _ N); reflexivity).
      remember p as p1 eqn:E1 in AL. destruct AL as [p' R0 b J|q s g R0 b J L|q R0 x R' b J].
      - apply res_exact. split; [|exact V]. subst p'. apply (joined_reads _ _ _ J [] []). rewrite app_nil_r. reflexivity.
      - assert (E : p = (q ++ (s :: g)) ++ [s_star]) by (rewrite <- app_assoc; symmetry; exact E1).
        assert (Pg : path_ok (s :: g)) by (pose proof P as P'; rewrite E in P'; apply path_ok_app in P' as [P' _]; apply path_ok_app in P' as [_ P']; exact P').
        destruct (literal_flat s g Pg L) as (c & us & Ef).
        apply res_below. exists R0, (flat q), c, us. rewrite <- Ef, <- flat_app, (spell_flat _ Pg).
        split; [reflexivity|]. split; [apply (joined_reads _ _ _ J [] ((s :: g) ++ [s_star])); symmetry; exact E1|].
        split; [exact (one_end _ _ E)|]. split.
        + intros V'. apply (one_value _ N) in V'. rewrite E, !flat_app in V'. apply (f_equal (@length tok)) in V'. rewrite !app_length in V'. cbn in V'. lia.
        + split; [rewrite E at 1; apply flat_app|exact V].
      - assert (E : p = q ++ [s_star]) by (symmetry; exact E1).
        assert (Ef : flat p = flat q ++ [Star]) by (rewrite E; apply flat_app).
        assert (D : reads T [] R0 (flat q) b) by (apply (joined_reads _ _ _ J [] [s_star]); exact E).
        assert (Q : forall k ts' b', length R0 < k -> reads T [] (firstn k (R0 ++ x :: R')) ts' b' -> ~ prefix ts' (flat p)).
        { intros k ts' b' Lk D' [z Ez]. rewrite firstn_app, firstn_all2 in D' by lia.
          destruct (k - length R0) as [|j] eqn:Ek; [lia|]. cbn [firstn] in D'.
          apply reads_app_inv in D' as (t1 & t2 & d1 & d2 & D1 & D2 & -> & _).
          destruct (reads_along T _ _ _ _ D t1 d1 (flat p) D1) as [<- <-]; [exists [Star]; exact Ef|exists (t2 ++ z); rewrite app_assoc; exact Ez|].
          rewrite <- app_assoc, Ef in Ez. apply app_inv_head in Ez. inversion D2; subst; discriminate Ez. }
        apply (res_wild _ _ _ _ (length R0)).
        + split; [rewrite app_length; cbn; lia|]. exists (flat q). rewrite firstn_app, Nat.sub_diag, firstn_all, firstn_O, app_nil_r.
          split; [exact D|]. split; [exact Ef|]. apply (one_end p []). symmetry. apply app_nil_r.
        + exact V.
        + intros ts' b' [D' V']. apply (one_value _ N) in V' as ->.
          rewrite <- (firstn_all (R0 ++ x :: R')) in D'. apply (Q (length (R0 ++ x :: R')) _ _ ltac:(rewrite app_length; cbn; lia) D'). exists []. symmetry. apply app_nil_r.
        + intros ts' b' (R2 & ts0 & c & us & ER & D' & B & NV & -> & V'). apply (one_value _ N) in V'.
          assert (D2 : reads T [] (R0 ++ x :: R') (ts0 ++ Ch c :: us) (b' ++ [])).
          { rewrite ER. eapply reads_app; [exact D'|]. replace (Ch c :: us) with ((Ch c :: us) ++ []) at 2 by apply app_nil_r. apply rd_lit; [exact B|constructor]. }
          rewrite <- (firstn_all (R0 ++ x :: R')) in D2. apply (Q (length (R0 ++ x :: R')) _ _ ltac:(rewrite app_length; cbn; lia) D2). exists [Star]. symmetry. exact V'.
        + intros k' ts' b' (Lk & ts0 & D' & -> & B). destruct (Nat.le_gt_cases k' (length R0)) as [L|L]; [exact L|]. exfalso.
          apply (Q k' ts0 b' L D'). apply one_boundary in B as [i B]. destruct (flat_firstn_prefix i p) as [z Ez]. exists ([Star] ++ z).
          rewrite Ez, <- B, <- app_assoc. reflexivity.
    Qed.
  End One.

  Lemma one_apart p : path_ok p -> colons_apart [(p, @CNode H M)].
  Proof.
    intros P q c w r I E W. destruct I as [I|[]]. injection I as <- _.
    apply (one_boundary p CNode) in W as [i ->]. rewrite <- (firstn_skipn i p) in E at 1. rewrite flat_app in E. apply app_inv_head in E.
    assert (P' : path_ok (skipn i p)) by (intros s I; apply P; rewrite <- (firstn_skipn i p); apply in_or_app; right; exact I).
    destruct (skipn i p) as [|s g]; [discriminate E|]. rewrite flat_cons in E.
    pose proof (P' s (or_introl eq_refl)) as K. destruct s as [|x s]; [destruct (key_ok_nil K)|].
    unfold seg_toks in E. destruct (N.eqb_spec x c_colon) as [->|Nx]; [discriminate E|].
    destruct (str_eqb (x :: s) s_star); [discriminate E|]. injection E as E _. congruence.
  Qed.

  Lemma one_built m path h t : build [@ORoute H M m path h] = (t, None) -> built [ORoute m path h] t /\ star_ok (segments path).
  Proof.
    intros B. assert (S : star_ok (segments path)).
    { unfold build in B. cbn [run_ops run_op] in B. unfold insert_route in B.
      destruct (star_check (length (segments path)) 0 (segments path)) eqn:E; [discriminate B|]. apply star_check_spec. exact E. }
    split; [|exact S]. split; [|exact B]. split; [|exact Logic.I]. cbn [tidy app]. apply one_apart. exact (path_ok_of path S).
  Qed.

  (** The same for a router with one route, mounted. *)
  Lemma one_mounted_built p m path h t : build [ORouter p [@ORoute H M m path h]] = (t, None) -> built [ORouter p [ORoute m path h]] t.
  Proof.
    intros B. split; [|exact B]. unfold build in B. cbn [run_ops] in B. rewrite run_op_router in B.
    destruct (build [ORoute m path h]) as [src [pn|]] eqn:Es; cbn [fst snd] in B; [discriminate B|].
    apply one_built in Es as [[[Ts _] _] _]. cbn [all_tidy]. split; [|exact Logic.I]. cbn [tidy app]. split; [|split; [exact Ts|exact Logic.I]].
    apply one_apart. apply path_ok_of. apply star_check_spec. unfold insert_sub_route in B.
    destruct (star_check (length (segments p)) 0 (segments p)); [discriminate B|reflexivity].
  Qed.

  (** C06 *)
  Lemma single_route m path (h : H) (t : trie H M) req : build [ORoute m path h] = (t, None) ->
    (forall r, search_route t req = LSome r -> exists b, alone (segments path) (segments req) b) /\
    (forall b, alone (segments path) (segments req) b -> exists r, search_route t req = LSome r /\
       rr_get_route r m = Some (Route m h) /\ rr_mws r = [] /\ forall n, pget n (rr_params r) = first_binding b n).
  Proof.
    intros B. apply one_built in B as [B S]. pose proof (path_ok_of path S) as P. 
    pose proof (fun r => lookup_some [ORoute m path h] t req r B) as LS. pose proof (fun ts ps => some_lookup [ORoute m path h] t req ts ps B) as SL.
    assert (NC : CRoute (M:=M) m h <> CNode) by discriminate.
    change (table_of [ORoute m path h]) with [(segments path, CRoute (M:=M) m h)] in *. split.
    - intros r E. destruct (LS r E) as (ts & ps & RS & _). exists ps. apply (resolves_alone _ _ P _ _ _ NC S RS).
    - intros b A. destruct (SL _ b (alone_resolves _ _ P _ _ NC S A)) as (r & E & D1 & D2 & D3).
      exists r. split; [exact E|]. split; [|split; [|exact D3]].
      + rewrite D2. unfold routes_at. cbn [flat_map fst snd]. destruct (toks_eq_dec (flat (segments path)) (flat (segments path))) as [_|F]; [|congruence].
        cbn [app handler_for]. rewrite (proj2 (method_eqb_spec m m) eq_refl). reflexivity.
      + rewrite D1. unfold mws_for. cbn. induction (prefixes_down [] (flat (segments path))); [reflexivity|assumption].
  Qed.
End Alone.

Lemma alone_example :
  alone (segments (lit "/a/b/:c")) (segments (lit "/ab/x")) [(lit "c", lit "x")] /\
  alone (segments (lit "/a/b/:c")) (segments (lit "/ab:c")) [] /\
  forall b, ~ alone (segments (lit "/ab")) (segments (lit "/a/b")) b.
Proof.
  assert (L : literal_seg (lit "a")) by (split; [discriminate|intros [r E]; discriminate E]).
  split; [|split].
  - apply al_path. change (joined ([lit "a"; lit "b"] ++ [lit ":c"]) [concat [lit "a"; lit "b"]; lit "x"] [(lit "c", lit "x")]).
    apply jn_lit; [exact L|]. apply (jn_par (lit "c") (lit "x")). constructor.
  - apply al_path. change (joined ([lit "a"; lit "b"; lit ":c"] ++ []) [concat [lit "a"; lit "b"; lit ":c"]] []).
    apply jn_lit; [exact L|]. constructor.
  - intros b Al. destruct (single_route GET (lit "/ab") 0 (fst (build (M:=nat) [ORoute GET (lit "/ab") 0])) (lit "/a/b") ltac:(vm_compute; reflexivity)) as [_ O].
    destruct (O b Al) as (r & E & _). vm_compute in E. discriminate E.
Qed.
