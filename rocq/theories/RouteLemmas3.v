(** Lemmas behind the routing properties about middleware order, mounts, methods
    and wildcards. *)

From Verif Require Import Base BaseFacts RouteTrie Router TableSpec PropSpec TrieDen TrieIns TrieRep TrieBuild TrieSearch TrieLookup TrieTotal RouteFacts RouteLemmas RouteLemmas2.

Section Lemmas.
  Context {H M : Type}.
  Notation node := (node H M).
  Notation trie := (trie H M).
  Notation table := (table H M).
  Notation op := (op H M).

  (** ** C02: paths without parameters *)

  Lemma flat_no_par p n : no_par p -> ~ In (Par n) (flat p).
  Proof.
    intros N I. apply in_flat_map in I as (s & J & K). specialize (N s J). destruct s as [|c r]; [destruct K|].
    cbn [seg_toks] in K. destruct (N.eqb_spec c c_colon) as [->|Nc]; [apply N; eauto|].
    destruct (str_eqb (c :: r) s_star); [destruct K as [K|[]]; discriminate|].
    apply in_map_iff in K as (x & E & _). discriminate.
  Qed.

  Lemma no_par_unambiguous p q : no_par p -> no_par q -> ~ ambiguous p q.
  Proof.
    intros Np Nq (w & a & b & (_ & [x E] & [y F]) & [[n ->]|[n ->]]).
    - apply (flat_no_par p n Np). rewrite E, <- app_assoc. apply in_elt.
    - apply (flat_no_par q n Nq). rewrite F, <- app_assoc. apply in_elt.
  Qed.

  Lemma two_routes_accepted m m' path path' (h h' : H) :
    star_ok (segments path) -> star_ok (segments path') ->
    ~ ambiguous (segments path') (segments path) ->
    (m = m' -> flat (segments path) <> flat (segments path')) ->
    all_accepted [] [@ORoute H M m path h; ORoute m' path' h'].
  Proof.
    intros S S' A D. cbn [all_accepted accepted after app].
    split; [|split; [|exact Logic.I]]; (split; [assumption|]); split.
    - intros q c I. destruct I.
    - intros [x I]. destruct I.
    - intros q c [E|[]]. injection E as <- <-. exact A.
    - intros [x I]. unfold routes_at in I. cbn [flat_map fst snd] in I.
      destruct (toks_eq_dec (flat (segments path)) (flat (segments path'))) as [E|N].
      + destruct I as [I|[]]. injection I as -> ->. apply D; auto.
      + destruct I.
  Qed.

  Lemma tidy_history_built (l : list op) : all_tidy [] l -> all_accepted [] l -> exists t, built l t.
  Proof.
    intros C A. exists (fst (build l)). split; [exact C|]. apply (history_accepted_iff l C) in A.
    rewrite <- A. apply surjective_pairing.
  Qed.

  Lemma param_free_register m m' path path' (h h' : H) :
    star_ok (segments path) -> star_ok (segments path') ->
    colons_apart [(segments path, CNode : content H M); (segments path', CNode)] ->
    no_par (segments path) -> no_par (segments path') ->
    (m = m' -> flat (segments path) <> flat (segments path')) ->
    (exists t, built [@ORoute H M m path h; ORoute m' path' h'] t) /\
    (exists t, built [@ORoute H M m' path' h'; ORoute m path h] t).
  Proof.
    intros S S' C N N' D. split; apply tidy_history_built;
      try (apply (tidy_within _ _ C);
           [intros o [<-|[<-|[]]] (? & ? & E & _); discriminate|repeat constructor|];
           intros p c [I|[I|[]]]; injection I as <- <-; right; eexists; simpl; auto);
      apply two_routes_accepted; auto using no_par_unambiguous.
    intros E F. apply D; congruence.
  Qed.

  Lemma two_routes_exact m m' path path' (h h' : H) :
    star_ok (segments path) -> star_ok (segments path') ->
    colons_apart [(segments path, CNode : content H M); (segments path', CNode)] ->
    (exists t, built [@ORoute H M m path h; ORoute m' path' h'] t) <->
    ~ ambiguous (segments path) (segments path') /\ (m = m' -> flat (segments path) <> flat (segments path')).
  Proof.
    intros S S' C. split.
    - intros [t B]. apply built_rep in B as (_ & _ & A). cbn [all_accepted accepted after app] in A.
      destruct A as (_ & (_ & U & D) & _). split.
      + intros Amb. apply (U _ _ (or_introl eq_refl)). apply ambiguous_sym. exact Amb.
      + intros <- E. apply D. exists h. apply in_routes_at. exists (segments path). split; [left; reflexivity|exact E].
    - intros [N D]. apply tidy_history_built.
      + apply (tidy_within _ _ C); [intros o [<-|[<-|[]]] (? & ? & E & _); discriminate|repeat constructor|].
        intros p c [I|[I|[]]]; injection I as <- <-; right; eexists; simpl; auto.
      + apply two_routes_accepted; auto. intros Amb. apply N, ambiguous_sym. exact Amb.
  Qed.

  Lemma part_at_unique x y w a b w' a' b' : part_at x y w a b -> part_at x y w' a' b' -> w = w' /\ a = a' /\ b = b'.
  Proof.
    intros (N & [r ->] & [s ->]) (N' & [r' E] & [s' F]). rewrite <- !app_assoc in E, F. cbn [app] in E, F.
    revert w' E F; induction w as [|t w IH]; intros [|t' w'] E F; cbn [app] in E, F.
    - injection E as -> _. injection F as -> _. auto.
    - exfalso. injection E as -> _. injection F as -> _. congruence.
    - exfalso. injection E as -> _. injection F as -> _. congruence.
    - injection E as -> E. injection F as F. destruct (IH w' E F) as (-> & -> & ->). auto.
  Qed.

  Lemma strings_part (s s' : str) : ~ prefix s s' -> ~ prefix s' s ->
    exists w a b x y, a <> b /\ s = w ++ a :: x /\ s' = w ++ b :: y.
  Proof.
    revert s'; induction s as [|a s IH]; intros s' N N'; [exfalso; apply N; exists s'; reflexivity|].
    destruct s' as [|b s']; [exfalso; apply N'; exists (a :: s); reflexivity|].
    destruct (N.eq_dec a b) as [->|D]; [|exists [], a, b, s, s'; auto].
    destruct (IH s') as (w & c & d & x & y & D & -> & ->).
    - intros [r ->]. apply N. exists r. reflexivity.
    - intros [r ->]. apply N'. exists r. reflexivity.
    - exists (b :: w), c, d, x, y. auto.
  Qed.

  Lemma literal_seg_flat s : s <> [] -> literal_seg s -> seg_toks s = map Ch s.
  Proof.
    intros N [L1 L2]. destruct s as [|c r]; [congruence|]. unfold seg_toks.
    destruct (N.eqb_spec c c_colon) as [->|_]; [exfalso; apply L2; eauto|].
    destruct (str_eqb_spec (c :: r) s_star) as [E|_]; [contradiction|reflexivity].
  Qed.

  Lemma literals_register m m' path path' (h h' : H) u s v s' v' :
    star_ok (segments path) -> star_ok (segments path') ->
    colons_apart [(segments path, CNode : content H M); (segments path', CNode)] ->
    segments path = u ++ s :: v -> segments path' = u ++ s' :: v' ->
    literal_seg s -> literal_seg s' -> ~ prefix s s' -> ~ prefix s' s ->
    (exists t, built [@ORoute H M m path h; ORoute m' path' h'] t) /\
    (exists t, built [@ORoute H M m' path' h'; ORoute m path h] t).
  Proof.
    intros S S' C E E' L L' N N'.
    assert (Ns : s <> []) by (apply (segments_ok path); rewrite E; apply in_elt).
    assert (Ns' : s' <> []) by (apply (segments_ok path'); rewrite E'; apply in_elt).
    destruct (strings_part s s' N N') as (w & a & b & x & y & D & Es & Es').
    assert (PA : part_at (flat (segments path)) (flat (segments path')) (flat u ++ map Ch w) (Ch a) (Ch b)).
    { split; [congruence|]. rewrite E, E', !flat_app, !flat_cons, (literal_seg_flat s Ns L), (literal_seg_flat s' Ns' L').
      rewrite Es, Es', !map_app. cbn [map]. split; [exists (map Ch x ++ flat v)|exists (map Ch y ++ flat v')];
        rewrite <- !app_assoc; reflexivity. }
    assert (NA : ~ ambiguous (segments path) (segments path')).
    { intros (w' & a' & b' & PA' & P). destruct (part_at_unique _ _ _ _ _ _ _ _ PA PA') as (_ & <- & <-).
      destruct P as [[n P]|[n P]]; discriminate. }
    assert (NE : flat (segments path) <> flat (segments path')).
    { intros EF. rewrite EF in PA. exact (part_at_irrefl _ _ _ _ PA). }
    assert (C' : colons_apart [(segments path', CNode : content H M); (segments path, CNode)]).
    { apply (covered_apart _ _) with (2 := C). intros p c [I|[I|[]]]; injection I as <- <-; right; eexists; simpl; auto. }
    split; apply two_routes_exact; auto. split; [|auto]. intros Amb. apply NA, ambiguous_sym. exact Amb.
  Qed.

  (** ** C16: inner middlewares come first *)

  Lemma prefixes_down_last pre x t : prefixes_down pre (x ++ [t]) = (pre ++ x ++ [t]) :: prefixes_down pre x.
  Proof. rewrite prefixes_down_app. cbn [prefixes_down app]. rewrite <- app_assoc. reflexivity. Qed.

  Lemma mws_inner_first (T : table) ts p1 p2 m1 m2 :
    In (p1, CMw m1) T -> In (p2, CMw m2) T -> flat p1 <> [] ->
    strict_prefix (flat p1) (flat p2) -> prefix (flat p2) ts ->
    exists a b c, mws_for T ts = a ++ m2 :: b ++ m1 :: c.
  Proof.
    intros I1 I2 N (x & r & E) [s ->].
    assert (J1 : In m1 (mws_at T (flat p1))) by (apply in_mws_at; eauto).
    assert (J2 : In m2 (mws_at T (flat p2))) by (apply in_mws_at; eauto).
    apply in_split in J1 as (a1 & b1 & E1). apply in_split in J2 as (a2 & b2 & E2).
    unfold mws_for. rewrite prefixes_down_app.
    assert (X : exists L, prefixes_down [] (flat p2) = flat p2 :: L /\ exists A B, L = A ++ flat p1 :: B).
    { destruct (exists_last N) as (y & z & Ep1). rewrite E.
      destruct (@exists_last _ (x :: r)) as (u & v & Eu); [discriminate|]. rewrite Eu.
      replace (flat p1 ++ u ++ [v]) with ((flat p1 ++ u) ++ [v]) by (rewrite <- app_assoc; reflexivity).
      rewrite prefixes_down_last. cbn [app]. eexists. split; [reflexivity|].
      rewrite prefixes_down_app, Ep1, prefixes_down_last. cbn [app].
      exists (prefixes_down (y ++ [z]) u), (prefixes_down [] y). reflexivity. }
    destruct X as (L & -> & A & B & ->).
    rewrite flat_map_app. cbn [flat_map]. rewrite flat_map_app. cbn [flat_map]. rewrite E1, E2.
    exists (mws_at T [] ++ flat_map (mws_at T) (prefixes_down ([] ++ flat p2) s) ++ a2), (b2 ++ flat_map (mws_at T) A ++ a1),
      (b1 ++ flat_map (mws_at T) B).
    repeat (rewrite <- !app_assoc; cbn [app]). reflexivity.
  Qed.

  Lemma found_inner_first (l : list op) t path r p1 p2 m1 m2 : built l t -> search_route t path = LSome r ->
    registered l p1 (CMw m1) -> registered l p2 (CMw m2) -> flat p1 <> [] -> strict_prefix (flat p1) (flat p2) ->
    exists p b, resolves (table_of l) (segments path) (flat p) b /\ delivers (table_of l) (flat p) b r /\
      (prefix (flat p2) (flat p) -> exists x y z, rr_mws r = x ++ m2 :: y ++ m1 :: z).
  Proof.
    intros B E I1 I2 N SP. destruct (found_entry l t path r B E) as (p & c & b & I & _ & RS & D).
    exists p, b. split; [exact RS|]. split; [exact D|]. intros P. destruct D as [-> _].
    eapply mws_inner_first; eauto.
  Qed.

  Lemma found_root_first (l : list op) t path r : built l t -> search_route t path = LSome r ->
    exists rest, rr_mws r = mws_at (table_of l) [] ++ rest.
  Proof.
    intros B E. destruct (lookup_some l t path r B E) as (ts & ps & _ & (-> & _)). eexists. reflexivity.
  Qed.

  (** ** C17 *)

  Lemma middleware_effective (l : list op) t path mw p q r : built (l ++ [OServiceTo p mw]) t -> segments p <> [] ->
    search_route t path = LSome r -> prefix (flat (segments p)) (flat q) ->
    (exists b, resolves (table_of (l ++ [OServiceTo p mw])) (segments path) (flat q) b) -> In mw (rr_mws r).
  Proof.
    intros B N E P [b RS]. apply built_rep in B as (R & _ & _).
    rewrite (resolves_search t _ path _ _ R RS) in E. injection E as <-.
    apply (in_mws_for _ (flat q) mw). exists (segments p). split; [|exact P].
    rewrite table_app. cbn [afters after]. destruct (segments p) as [|s x]; [congruence|].
    apply in_or_app. right. left. reflexivity.
  Qed.

  Lemma root_middleware_effective (l : list op) t path mw r : built (l ++ [OService mw]) t ->
    search_route t path = LSome r -> In mw (rr_mws r).
  Proof.
    intros B E. destruct (lookup_some _ t path r B E) as (ts & ps & _ & (-> & _)).
    unfold mws_for. apply in_or_app. left. apply in_mws_at. exists []. split; [|reflexivity].
    rewrite table_app. cbn [afters after]. apply in_or_app. right. left. reflexivity.
  Qed.

  (** ** C18, C19: mounts *)

  Lemma with_prefix_app p q (U : table) : with_prefix p (with_prefix q U) = with_prefix (p ++ q) U.
  Proof. unfold with_prefix. rewrite map_map. apply map_ext. intros [x c]. simpl. rewrite app_assoc. reflexivity. Qed.

  Lemma with_prefix_concat p (U V : table) : with_prefix p (U ++ V) = with_prefix p U ++ with_prefix p V.
  Proof. apply map_app. Qed.

  Lemma under_unambiguous (T S : table) p q : free_below T (flat p) -> unambiguous T p -> unambiguous S q ->
    unambiguous (T ++ with_prefix p S) (p ++ q).
  Proof.
    intros F U US r c I A. apply in_app_iff in I as [I|I].
    - apply ambiguous_app in A as [A|A]; [apply (U _ _ I A)|]. apply F. eauto.
    - apply in_with_prefix in I as (r' & -> & I). apply ambiguous_cancel in A. apply (US _ _ I A).
  Qed.

  Lemma under_routes (T S : table) p r : free_below T (flat p) ->
    routes_at (T ++ with_prefix p S) (flat p ++ r) = routes_at S r /\
    mws_at (T ++ with_prefix p S) (flat p ++ r) = mws_at S r.
  Proof.
    intros F. rewrite routes_at_app, mws_at_app, routes_at_with_prefix, mws_at_with_prefix.
    destruct (free_no_value T (flat p) r F) as [-> ->]. auto.
  Qed.

  Lemma under_step path (T S : table) o : let p := segments path in p <> [] ->
    no_star p -> star_ok p -> free_below T (flat p) -> unambiguous T p -> ~ root_mount o -> accepted S o ->
    all_accepted (T ++ with_prefix p S) (under path o) /\
    afters (T ++ with_prefix p S) (under path o) = T ++ with_prefix p (after S o).
  Proof.
    intros p Np NS SP F U NR A. unfold p in *. destruct o as [m q h|q mw|mw|q sub].
    - cbn [under all_accepted accepted afters after] in *. rewrite segments_app, flat_app. destruct A as (Sq & Uq & D).
      destruct (under_routes T S (segments path) (flat (segments q)) F) as [ER _]. rewrite ER.
      split.
      + split; [|exact I]. split; [apply star_ok_app; assumption|]. split; [apply under_unambiguous; assumption|exact D].
      + rewrite with_prefix_concat, app_assoc. reflexivity.
    - cbn [under]. cbn [accepted after] in A. destruct A as (Sq & Uq).
      destruct (segments q) as [|s x] eqn:Eq; cbn [all_accepted afters accepted after]; rewrite ?Eq; [auto|].
      rewrite segments_app, Eq. split.
      + split; [|exact I]. split; [apply star_ok_app; assumption|apply under_unambiguous; assumption].
      + destruct (segments path ++ s :: x) as [|y z] eqn:Ey; [destruct (segments path); discriminate|].
        rewrite with_prefix_concat. cbn [with_prefix map fst snd].
        rewrite app_assoc. f_equal. f_equal. f_equal. symmetry. exact Ey.
    - cbn [under all_accepted accepted afters after]. split.
      + split; [|exact I]. split; [exact SP|]. rewrite <- (app_nil_r (segments path)) at 2.
        apply under_unambiguous; auto. intros x c _. apply not_ambiguous_nil.
      + destruct (segments path) as [|y z] eqn:Ey; [congruence|].
        rewrite with_prefix_concat. cbn [with_prefix map fst snd].
        rewrite app_assoc, app_nil_r. reflexivity.
    - cbn [under all_accepted afters]. rewrite accepted_router, !after_router in *. rewrite segments_app, flat_app.
      destruct A as (Asub & Sq & [Eq|(Uq & NV & NB)]); [exfalso; apply NR; exists q, sub; auto|].
      destruct (under_routes T S (segments path) (flat (segments q)) F) as [ER EM].
      destruct (segments q) as [|s x] eqn:Eq.
      { exfalso. apply NR. exists q, sub. auto. }
      split.
      + split; [|exact I]. split; [exact Asub|]. split; [apply star_ok_app; assumption|]. right.
        split; [apply under_unambiguous; assumption|]. split.
        * unfold has_value. rewrite ER, EM. exact NV.
        * intros (r & c & I & (a & b & E)). apply in_app_iff in I as [I|I].
          -- apply F. exists r, c. split; [exact I|]. rewrite <- app_assoc in E.
             destruct (flat (s :: x)) as [|u v] eqn:Ef; [exists a, b; exact E|]. exists u, (v ++ a :: b). exact E.
          -- apply in_with_prefix in I as (r' & -> & I). apply NB. exists r', c. split; [exact I|].
             rewrite flat_app, <- app_assoc in E. apply app_inv_head in E. exists a, b. exact E.
      + destruct (segments path ++ s :: x) as [|y z] eqn:Ey; [destruct (segments path); discriminate|].
        rewrite with_prefix_concat. cbn [with_prefix map fst snd]. rewrite app_assoc. f_equal.
        f_equal; [f_equal; symmetry; exact Ey|].
        change (map (fun e => (y :: z ++ fst e, snd e)) (table_of sub)) with (with_prefix (y :: z) (table_of sub)).
        rewrite <- Ey, <- with_prefix_app. reflexivity.
  Qed.

  Lemma under_steps path (T : table) sub : let p := segments path in p <> [] ->
    no_star p -> star_ok p -> free_below T (flat p) -> unambiguous T p -> no_root_mount sub -> forall S, all_accepted S sub ->
    all_accepted (T ++ with_prefix p S) (flat_map (under path) sub) /\
    afters (T ++ with_prefix p S) (flat_map (under path) sub) = T ++ with_prefix p (afters S sub).
  Proof.
    intros p Np NS SP F U. induction sub as [|o sub IH]; intros NR S A; [cbn; auto|].
    cbn [all_accepted afters flat_map] in *. destruct A as [Ao A].
    destruct (under_step path T S o Np NS SP F U (NR o (or_introl eq_refl)) Ao) as [X Y].
    destruct (IH (fun x J => NR x (or_intror J)) _ A) as [X' Y'].
    fold p in X, Y. rewrite all_accepted_app, afters_app, Y. auto.
  Qed.

  Lemma unders_tidy path (sub : list op) U T : segments path <> [] -> colons_apart U -> Forall sub_tidy sub ->
    covered (afters T (flat_map (under path) sub)) U -> all_tidy T (flat_map (under path) sub).
  Proof.
    intros Np A F. apply (tidy_within U _ A).
    - intros o I (q & k & -> & E). apply in_flat_map in I as (o & _ & I).
      destruct o as [m q' h|q' mw|mw|q' k']; cbn [under] in I.
      + destruct I as [I|[]]. discriminate.
      + destruct (segments q'); [destruct I|]. destruct I as [I|[]]. discriminate.
      + destruct I as [I|[]]. discriminate.
      + destruct I as [I|[]]. injection I as <- <-. rewrite segments_app in E. apply app_eq_nil in E as [E _]. contradiction.
    - induction F as [|o sub Fo F IH]; [constructor|]. cbn [flat_map]. apply Forall_app. split; [|exact IH].
      destruct o as [m q' h|q' mw|mw|q' k']; cbn [under].
      + repeat constructor.
      + destruct (segments q'); repeat constructor.
      + repeat constructor.
      + constructor; [exact Fo|constructor].
  Qed.

  Lemma mount_alike (T S : table) p : S <> [] -> alike (T ++ (p, CNode) :: with_prefix p S) (T ++ with_prefix p S).
  Proof.
    intros N. destruct S as [|[q0 c0] S0]; [congruence|].
    set (S := (q0, c0) :: S0) in *.
    assert (V : forall ts, routes_at (T ++ (p, CNode) :: with_prefix p S) ts = routes_at (T ++ with_prefix p S) ts /\
                           mws_at (T ++ (p, CNode) :: with_prefix p S) ts = mws_at (T ++ with_prefix p S) ts).
    { intros ts. rewrite !routes_at_app, !mws_at_app. split; reflexivity. }
    split; intros ts.
    - assert (I0 : In (p ++ q0, c0) (T ++ with_prefix p S)).
      { apply in_or_app. right. apply in_with_prefix. exists q0. split; [reflexivity|]. left. reflexivity. }
      split.
      + (* the paths that begin with p can stand for p *)
        assert (X : forall r c, In (r, c) (T ++ (p, CNode) :: with_prefix p S) -> exists r' c', In (r', c') (T ++ with_prefix p S) /\ prefix r r').
        { intros r c I. apply in_app_iff in I as [I|[I|I]].
          - exists r, c. split; [apply in_or_app; left; exact I|exists []; rewrite app_nil_r; reflexivity].
          - injection I as <- <-. exists (p ++ q0), c0. split; [exact I0|exists q0; reflexivity].
          - exists r, c. split; [apply in_or_app; right; exact I|exists []; rewrite app_nil_r; reflexivity]. }
        intros [E|[(r & c & i & I & E)|(r & c & q & d & a & b & I & J & PA)]].
        * left. exact E.
        * right. left. destruct (X _ _ I) as (r' & c' & I' & [y ->]).
          destruct (Nat.le_gt_cases i (length r)) as [L|L].
          -- exists (r ++ y), c', i. split; [exact I'|]. rewrite firstn_app.
             replace (i - length r) with 0 by lia. rewrite app_nil_r. exact E.
          -- exists (r ++ y), c', (length r). split; [exact I'|].
             rewrite firstn_app, Nat.sub_diag, app_nil_r, firstn_all.
             rewrite firstn_all2 in E by lia. exact E.
        * right. right. destruct (X _ _ I) as (r' & c' & I' & [y ->]). destruct (X _ _ J) as (q' & d' & J' & [z ->]).
          exists (r ++ y), c', (q ++ z), d', a, b. split; [exact I'|]. split; [exact J'|].
          destruct PA as (Nab & [u Eu] & [v Ev]). split; [exact Nab|]. rewrite !flat_app. split.
          -- exists (u ++ flat y). rewrite Eu, <- app_assoc. reflexivity.
          -- exists (v ++ flat z). rewrite Ev, <- app_assoc. reflexivity.
      + assert (X : forall r c, In (r, c) (T ++ with_prefix p S) -> In (r, c) (T ++ (p, CNode) :: with_prefix p S)).
        { intros r c I. apply in_app_iff in I as [I|I]; apply in_or_app; [left; exact I|right; right; exact I]. }
        intros [E|[(r & c & i & I & E)|(r & c & q & d & a & b & I & J & PA)]].
        * left. exact E.
        * right. left. exists r, c, i. auto.
        * right. right. exists r, c, q, d, a, b. auto.
    - destruct (V ts) as [V1 V2]. split; (intros [X|X]; [left|right]; intros Y; apply X).
      + exact (eq_trans V1 Y).
      + exact (eq_trans V2 Y).
      + exact (eq_trans (eq_sym V1) Y).
      + exact (eq_trans (eq_sym V2) Y).
  Qed.

  Lemma mount_as_direct (l : list op) t path sub : let p := segments path in
    built (l ++ [ORouter path sub]) t -> p <> [] -> no_star p -> no_root_mount sub -> table_of sub <> [] ->
    exists t', built (l ++ flat_map (under path) sub) t' /\
      forall req, search_route t req = search_route t' req.
  Proof.
    intros p B Np NS NR NE. destruct (built_rep _ _ B) as (R & _ & A). destruct B as [C _].
    apply all_tidy_app in C as [Cl [Cm _]]. rewrite tidy_router in Cm. destruct Cm as [Cp Csub].
    apply all_accepted_app in A as [Al Am]. cbn [all_accepted] in Am. destruct Am as [Am _].
    rewrite accepted_router in Am. destruct Am as (Asub & Sp & [Ep|(U & NV & NB)]); [contradiction|].
    fold (table_of l) in U, NV, NB.
    assert (F : free_below (table_of l) (flat p)) by (split; assumption).
    destruct (under_steps path (table_of l) sub Np NS Sp F U NR [] Asub) as [A' E'].
    fold p in A', E'. cbn [with_prefix map] in A', E'. rewrite app_nil_r in A', E'.
    destruct (tidy_history_built (l ++ flat_map (under path) sub)) as [t' B'].
    { apply all_tidy_app. split; [exact Cl|].
      apply (unders_tidy path sub (table_of (l ++ [ORouter path sub]))); [exact Np|apply (rep_apart t); exact R|eapply tidy_subs; exact Csub|].
      fold (table_of l). rewrite E', table_app. cbn [afters]. rewrite after_router. fold (table_of sub) p.
      destruct p as [|s x]; [congruence|]. intros q c I. right. exists c. apply in_app_iff in I as [I|I]; apply in_or_app; [auto|].
      right. right. exact I. }
    { apply all_accepted_app. split; [exact Al|exact A']. }
    exists t'. split; [exact B'|]. apply built_rep in B' as (R' & _ & _).
    rewrite table_app in R, R'. cbn [afters] in R. rewrite after_router in R. fold p in R.
    rewrite E' in R'. fold (table_of sub) in R'.
    destruct p as [|s x] eqn:Ep; [congruence|].
    intros req. destruct (search_alike t t' _ _ req R R' (mount_alike (table_of l) (table_of sub) (s :: x) NE))
      as [(ts & ps & RS & -> & ->)|[-> ->]]; [|reflexivity].
    assert (V : forall ts, routes_at (table_of l ++ (s :: x, CNode) :: with_prefix (s :: x) (table_of sub)) ts
                         = routes_at (table_of l ++ with_prefix (s :: x) (table_of sub)) ts /\
                       mws_at (table_of l ++ (s :: x, CNode) :: with_prefix (s :: x) (table_of sub)) ts
                         = mws_at (table_of l ++ with_prefix (s :: x) (table_of sub)) ts).
    { intros y. rewrite !routes_at_app, !mws_at_app. split; reflexivity. }
    unfold answer. destruct (V ts) as [-> _]. f_equal. f_equal. f_equal.
    unfold mws_for. destruct (V []) as [_ ->]. f_equal. apply flat_map_ext. intros y. apply V.
  Qed.

  (** ** C20: methods *)

  Lemma handler_for_app m (a b : list (method * H)) : handler_for m (a ++ b) =
    match handler_for m a with Some h => Some h | None => handler_for m b end.
  Proof. induction a as [|[m' h'] a IH]; simpl; [reflexivity|]. destruct (method_eqb m m'); auto. Qed.

  Lemma method_registered (l : list op) t path r m rt : built l t -> search_route t path = LSome r ->
    rr_get_route r m = Some rt ->
    exists p h b, registered l p (CRoute m h) /\ rt = Route m h /\
                  resolves (table_of l) (segments path) (flat p) b.
  Proof.
    intros B E G. destruct (lookup_some l t path r B E) as (ts & ps & RS & (_ & D & _)).
    rewrite D in G. destruct (handler_for m (routes_at (table_of l) ts)) as [h|] eqn:Eh; [|discriminate].
    injection G as <-. apply handler_for_in in Eh. apply in_routes_at in Eh as (p & I & <-).
    exists p, h, ps. auto.
  Qed.

  Lemma methods_independent (l : list op) t t' m path h p c req : built l t -> built (l ++ [ORoute m path h]) t' ->
    segments path = p -> registered l p c -> c <> CNode ->
    match search_route t req, search_route t' req with
    | LNone, LNone => True
    | LSome r, LSome r' =>
        rr_mws r = rr_mws r' /\ (forall n, pget n (rr_params r) = pget n (rr_params r')) /\
        forall m', m' <> m -> rr_get_route r m' = rr_get_route r' m'
    | _, _ => False
    end.
  Proof.
    intros B B' Ep I Nc. apply built_rep in B as (R & _ & _). apply built_rep in B' as (R' & _ & _).
    rewrite table_app in R'. cbn [afters after] in R'. rewrite Ep in R'. unfold registered in I.
    assert (AL : alike (table_of l) (table_of l ++ [(p, CRoute m h)])).
    { assert (SPs : same_paths (table_of l) (table_of l ++ [(p, CRoute m h)])).
      { intros q. split.
        - intros [d J]. exists d. apply in_or_app. left. exact J.
        - intros [d J]. apply in_app_iff in J as [J|[J|[]]]; [eauto|]. injection J as <- _. eauto. }
      split; intros ts.
      - split; apply boundary_same_paths; [exact SPs|]. intros q. symmetry. apply SPs.
      - destruct (toks_eq_dec ts (flat p)) as [->|N].
        + pose proof (content_has_value _ _ _ I Nc) as V. split; intros _; [|exact V].
          left. rewrite routes_at_app. intros X. apply app_eq_nil in X as [_ X]. unfold routes_at in X. cbn [flat_map fst snd] in X.
          destruct (toks_eq_dec (flat p) (flat p)); [discriminate|congruence].
        + unfold has_value. destruct (other_values (table_of l) p (CRoute m h) ts N) as [-> ->]. tauto. }
    destruct (search_alike t t' _ _ req R R' AL) as [(ts & ps & RS & -> & ->)|[-> ->]]; [|exact Logic.I].
    pose proof (answer_delivers (table_of l) ts ps) as (A1 & A2 & A3).
    pose proof (answer_delivers (table_of l ++ [(p, CRoute m h)]) ts ps) as (B1 & B2 & B3).
    split; [|split].
    - rewrite A1, B1. unfold mws_for.
      assert (EM : forall x, mws_at (table_of l ++ [(p, CRoute m h)]) x = mws_at (table_of l) x).
      { intros x. rewrite mws_at_app. simpl. apply app_nil_r. }
      rewrite EM. f_equal. apply flat_map_ext. intros x. symmetry. apply EM.
    - intros n. rewrite A3, B3. reflexivity.
    - intros m' N. rewrite A2, B2. f_equal. rewrite routes_at_app, handler_for_app.
      destruct (handler_for m' (routes_at (table_of l) ts)); [reflexivity|].
      unfold routes_at. cbn [flat_map fst snd]. destruct (toks_eq_dec (flat p) ts); [|reflexivity].
      cbn [app handler_for]. destruct (method_eqb m' m) eqn:E; [|reflexivity].
      apply method_eqb_spec in E. congruence.
  Qed.

  (** ** C21, C22: wildcards *)

  Lemma deepest_wildcard (l : list op) t q1 q2 c1 c2 path b1 b2 : built l t -> no_star_mount l ->
    registered l (q2 ++ [s_star]) c2 ->
    seg_match (q1 ++ [s_star]) (segments path) b1 -> seg_match (q2 ++ [s_star]) (segments path) b2 ->
    registered l (q1 ++ [s_star]) c1 -> strict_prefix (flat q1) (flat q2) ->
    exists p c' b' r, search_route t path = LSome r /\ registered l p c' /\ c' <> CNode /\
      delivers (table_of l) (flat p) b' r /\ strict_prefix (flat q2) (flat p) /\ flat p <> flat (q1 ++ [s_star]).
  Proof.
    intros B NM I2 S1 S2 I1 SP.
    destruct (wildcard_found l t q2 c2 path b2 B NM I2 S2) as (p & c' & b' & r & E & I & N & P & D).
    exists p, c', b', r. repeat split; auto; try apply D.
    intros F. destruct SP as (x & y & Ex), P as (u & v & Ev).
    rewrite F, flat_app, Ex in Ev. rewrite <- app_assoc in Ev. apply app_inv_head in Ev.
    cbn in Ev. destruct y; discriminate.
  Qed.
End Lemmas.
