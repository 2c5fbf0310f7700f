(** Consequences of the lookup theorem for routers built by histories of calls. *)

From Verif Require Import Base BaseFacts RouteTrie Router TableSpec PropSpec TrieDen TrieIns TrieRep TrieBuild TrieSearch TrieLookup.

(** ** Strings *)

Lemma split_on_concat_sep sep a b : split_on sep (a ++ sep :: b) =
  match split_on sep a with
  | [] => []
  | x => x ++ split_on sep b
  end.
Proof.
  induction a as [|c a IH]; cbn [app split_on].
  - rewrite N.eqb_refl. reflexivity.
  - rewrite IH. destruct (N.eqb c sep).
    + pose proof (split_on_cons sep a) as N. destruct (split_on sep a); [congruence|]. reflexivity.
    + pose proof (split_on_cons sep a) as N. destruct (split_on sep a) as [|p ps]; [congruence|]. reflexivity.
Qed.

Lemma segments_app a b : segments (a ++ c_slash :: b) = segments a ++ segments b.
Proof.
  unfold segments. rewrite split_on_concat_sep. pose proof (split_on_cons c_slash a) as N.
  destruct (split_on c_slash a); [congruence|]. apply filter_app.
Qed.

Lemma same_path_segments a b : same_path a b -> segments a = segments b.
Proof.
  intros S; induction S as [a|a b S IH|a b c S IH S2 IH2|a|a|a b]; [reflexivity|congruence|congruence| | |].
  - change (segments ([] ++ c_slash :: a) = segments a). rewrite segments_app. reflexivity.
  - rewrite segments_app. apply app_nil_r.
  - rewrite !segments_app. change (c_slash :: b) with ([] ++ c_slash :: b). rewrite segments_app. reflexivity.
Qed.

(** ** Segments and tokens *)

Lemma literal_key_ok s : key_ok s -> literal_seg s -> lit_ok s.
Proof.
  intros K [NS NC]. inversion K as [r E|E|s' N L E]; subst; [|congruence|exact L].
  exfalso. apply NC. eauto.
Qed.

Lemma literal_toks s : s <> [] -> literal_seg s -> exists c us, seg_toks s = Ch c :: us /\ spell (Ch c :: us) = s.
Proof.
  intros N [NS NC]. destruct s as [|c r]; [congruence|]. exists c, (map Ch r). split.
  - cbn [seg_toks]. destruct (N.eqb_spec c c_colon) as [->|Nc]; [exfalso; apply NC; eauto|].
    destruct (str_eqb_spec (c :: r) s_star) as [E|_]; [congruence|]. reflexivity.
  - cbn [spell flat_map spell1 app]. f_equal. apply spell_map_Ch.
Qed.

Lemma key_ok_nonempty s : key_ok s -> s <> [].
Proof. intros K ->. exact (key_ok_nil K). Qed.

Lemma seg_match_nostar_length p R b : seg_match p R b -> no_star p -> length p = length R.
Proof.
  intros S. induction S as [|s p R b L S IH|n s p R b S IH|R N]; intros NS.
  - reflexivity.
  - simpl. f_equal. apply IH. intros I. apply NS. right. exact I.
  - simpl. f_equal. apply IH. intros I. apply NS. right. exact I.
  - exfalso. apply NS. left. reflexivity.
Qed.

Lemma seg_match_star_inv q R b : seg_match (q ++ [s_star]) R b -> no_star q ->
  length q < length R /\ seg_match q (firstn (length q) R) b.
Proof.
  revert R b; induction q as [|s q IH]; intros R b S NS.
  - simpl in S. inversion S; subst.
    + destruct H1 as [F _]. congruence.
    + split; [destruct R; [congruence|simpl; lia]|]. constructor.
  - assert (NS' : no_star q) by (intros I; apply NS; right; exact I).
    cbn [app] in S. inversion S as [|s0 p0 R0 b0 L S'|n s0 p0 R0 b0 S'|R0 N]; subst.
    + destruct (IH _ _ S' NS') as [Lt S2]. split; [simpl; lia|]. cbn [length firstn]. constructor; assumption.
    + destruct (IH _ _ S' NS') as [Lt S2]. split; [simpl; lia|]. cbn [length firstn]. constructor; assumption.
    + destruct q; discriminate.
Qed.

Section Facts.
  Context {H M : Type}.
  Notation node := (node H M).
  Notation table := (table H M).
  Notation op := (op H M).

  (** ** Invariants of the tables built by accepted calls *)

  Record good (T : table) : Prop := {
    gd_path : forall p c, In (p, c) T -> path_ok p;
    gd_nodup : forall ts, NoDup (map fst (routes_at T ts));
    gd_unamb : forall p c q d, In (p, c) T -> In (q, d) T -> ~ ambiguous p q
  }.

  Lemma ambiguous_sym p q : ambiguous p q -> ambiguous q p.
  Proof.
    intros (w & a & b & PA & D). exists w, b, a. split; [apply part_at_sym; exact PA|tauto].
  Qed.

  Lemma not_ambiguous_refl p : ~ ambiguous p p.
  Proof. intros (w & a & b & PA & _). exact (part_at_irrefl _ _ _ _ PA). Qed.

  Lemma good_nil : good [].
  Proof. constructor; simpl; intros; try contradiction. constructor. Qed.

  Lemma good_snoc T p c : good T -> path_ok p -> unambiguous T p ->
    (forall m h, c = CRoute m h -> ~ exists h', In (m, h') (routes_at T (flat p))) -> good (T ++ [(p, c)]).
  Proof.
    intros G P U D. constructor.
    - intros q d I. apply in_app_iff in I as [I|[I|[]]]; [eapply gd_path; eauto|].
      injection I as <- <-. exact P.
    - intros ts. rewrite routes_at_app, map_app. simpl. rewrite app_nil_r.
      pose proof (gd_nodup _ G ts) as ND.
      destruct c as [m h|mw|]; simpl; rewrite ?app_nil_r; auto.
      destruct (toks_eq_dec (flat p) ts) as [<-|N]; simpl; rewrite ?app_nil_r; auto.
      apply Permutation_NoDup with (l := m :: map fst (routes_at T (flat p))).
      + rewrite <- Permutation_cons_append. reflexivity.
      + constructor; [|exact ND]. intros I. apply in_map_iff in I as ([m' h'] & E & I). simpl in E. subst m'.
        apply (D m h eq_refl). eauto.
    - intros q d q' d' I J. apply in_app_iff in I as [I|[I|[]]]; apply in_app_iff in J as [J|[J|[]]].
      + eapply gd_unamb; eauto.
      + injection J as <- <-. intros A. apply (U _ _ I). apply ambiguous_sym. exact A.
      + injection I as <- <-. apply (U _ _ J).
      + injection I as <- <-. injection J as <- <-. apply not_ambiguous_refl.
  Qed.

  Lemma ambiguous_app p q r : ambiguous (p ++ q) r -> ambiguous p r \/ strict_prefix (flat p) (flat r).
  Proof.
    intros (w & a & b & (N & [x E] & [y F]) & D). rewrite flat_app in E. rewrite <- app_assoc in E.
    apply app_eq_cases in E as [(z & -> & E)|(z & z' & E & E2)].
    - right. rewrite F. destruct z as [|t z].
      + exists b, y. rewrite app_nil_r, <- app_assoc. reflexivity.
      + exists t, (z ++ [b] ++ y). rewrite <- !app_assoc. reflexivity.
    - left. exists w, a, b. repeat split; auto; [|exists y; exact F].
      simpl in E2. injection E2 as <- _. exists z'. rewrite E, <- app_assoc. reflexivity.
  Qed.

  Lemma ambiguous_cancel p q r : ambiguous (p ++ q) (p ++ r) -> ambiguous q r.
  Proof.
    intros (w & a & b & PA & D). rewrite !flat_app in PA. pose proof PA as (N & [x E] & [y F]).
    rewrite <- app_assoc in E. apply app_eq_cases in E as [(z & -> & E)|(z & z' & E & E2)].
    - exists z, a, b. split; [|exact D]. apply (part_at_cancel (flat p)). exact PA.
    - exfalso. simpl in E2. injection E2 as <- _. rewrite E in F. rewrite <- !app_assoc in F.
      apply app_inv_head in F. simpl in F. congruence.
  Qed.

  Lemma good_mount T p S : good T -> good S -> path_ok p -> unambiguous T p -> free_below T (flat p) ->
    good (T ++ (p, CNode) :: with_prefix p S).
  Proof.
    intros G GS P U F.
    replace (T ++ (p, CNode) :: with_prefix p S) with ((T ++ [(p, CNode)]) ++ with_prefix p S)
      by (rewrite <- app_assoc; reflexivity).
    assert (G1 : good (T ++ [(p, CNode)])) by (apply good_snoc; auto; discriminate).
    constructor.
    - intros q d I. apply in_app_iff in I as [I|I]; [exact (gd_path _ G1 _ _ I)|].
      apply in_with_prefix in I as (q' & -> & I). intros s J. apply in_app_iff in J as [J|J]; [auto|].
      exact (gd_path _ GS _ _ I s J).
    - intros ts. rewrite routes_at_app, routes_at_app. simpl. rewrite app_nil_r.
      destruct (prefix_dec (flat p) ts) as [[r ->]|NP].
      + rewrite routes_at_with_prefix. destruct (free_no_value T (flat p) r F) as [-> _]. apply (gd_nodup _ GS).
      + replace (routes_at (with_prefix p S) ts) with (@nil (method * H)); [rewrite app_nil_r; apply (gd_nodup _ G)|].
        symmetry. apply routes_at_nil. intros q c I E. apply in_with_prefix in I as (q' & -> & _).
        apply NP. rewrite <- E, flat_app. apply prefix_app.
    - assert (X : forall q d q', In (q, d) T -> ~ ambiguous (p ++ q') q).
      { intros q d q' I A. apply ambiguous_app in A as [A|A]; [exact (U _ _ I A)|].
        destruct F as [_ F]. apply F. eauto. }
      assert (Y : forall q', ~ ambiguous (p ++ q') p).
      { intros q' A. apply ambiguous_app in A as [A|(x & r & A)]; [exact (not_ambiguous_refl _ A)|].
        apply (f_equal (@length _)) in A. rewrite app_length in A. simpl in A. lia. }
      intros q d q' d' I J. apply in_app_iff in I as [I|I]; apply in_app_iff in J as [J|J].
      + eapply gd_unamb; eauto.
      + apply in_with_prefix in J as (r & -> & J). intros A. apply ambiguous_sym in A.
        apply in_app_iff in I as [I|[I|[]]]; [exact (X _ _ _ I A)|]. injection I as <- <-. exact (Y _ A).
      + apply in_with_prefix in I as (r & -> & I). intros A.
        apply in_app_iff in J as [J|[J|[]]]; [exact (X _ _ _ J A)|]. injection J as <- <-. exact (Y _ A).
      + apply in_with_prefix in I as (r & -> & I). apply in_with_prefix in J as (r' & -> & J).
        intros A. apply ambiguous_cancel in A. exact (gd_unamb _ GS _ _ _ _ I J A).
  Qed.

  Lemma good_afters l : Forall (fun o => forall T, accepted T o -> good T -> good (after T o)) l ->
    forall T, all_accepted T l -> good T -> good (afters T l).
  Proof.
    intros F. induction F as [|o l Fo F IH]; intros T A G; [exact G|].
    cbn [all_accepted afters] in *. destruct A as [Ao A].
    apply IH; auto.
  Qed.

  Lemma good_after (o : op) : forall T, accepted T o -> good T -> good (after T o).
  Proof.
    induction o as [m path h|path mw|mw|path sub IH] using op_ind'; intros T A G.
    - cbn [accepted after] in *. destruct A as (S & U & D). apply good_snoc; auto; [apply path_ok_of; auto|].
      intros m' h' E. injection E as <- <-. exact D.
    - cbn [accepted after] in *. destruct A as (S & U).
      destruct (segments path) as [|s p] eqn:E; [exact G|]. rewrite <- E in *.
      apply good_snoc; auto; [apply path_ok_of; auto|discriminate].
    - cbn [after]. apply good_snoc; auto; [intros s []|apply unambiguous_nil|discriminate].
    - rewrite accepted_router in A. rewrite after_router.
      destruct A as (AS & S & A).
      assert (GS : good (table_of sub)) by (apply good_afters; auto using good_nil).
      destruct (segments path) as [|s p] eqn:E; [exact GS|]. rewrite <- E in *.
      destruct A as [A|(U & F1 & F2)]; [congruence|].
      apply good_mount; auto; [apply path_ok_of; auto|split; assumption].
  Qed.

  Lemma good_table l : all_accepted [] l -> good (table_of l).
  Proof.
    intros A. apply good_afters; auto using good_nil. apply Forall_forall. intros o _. apply good_after.
  Qed.

  Lemma built_rep l t : built l t -> Rep t (table_of l) /\ good (table_of l) /\ all_accepted [] l.
  Proof.
    intros [C E]. destruct (build_outcome l C) as [(A & _ & R)|(_ & l1 & o & l2 & pn & T' & _ & _ & _ & F & _)].
    - rewrite E in R. split; [exact R|]. split; [apply good_table; assumption|exact A].
    - rewrite E in F. discriminate.
  Qed.

  (** ** Colons *)

  (** All the paths of [T], except the root, are paths of [U]. *)
  Definition covered (T U : table) : Prop := forall p c, In (p, c) T -> p = [] \/ exists d, In (p, d) U.

  Lemma covered_refl T : covered T T.
  Proof. intros p c I. right. eauto. Qed.

  Lemma covered_trans T U V : covered T U -> covered U V -> covered T V.
  Proof. intros A B p c I. destruct (A p c I) as [E|[d J]]; [auto|]. exact (B p d J). Qed.

  Lemma covered_app T U V : covered T V -> covered U V -> covered (T ++ U) V.
  Proof. intros A B p c I. apply in_app_iff in I as [I|I]; [exact (A p c I)|exact (B p c I)]. Qed.

  Lemma covered_one p c V : p = [] \/ (exists d, In (p, d) V) -> covered [(p, c)] V.
  Proof. intros A q d [I|[]]. injection I as <- <-. exact A. Qed.

  Lemma covered_boundary T U w : covered T U -> boundary T w -> boundary U w.
  Proof.
    intros C [->|[(p & c & i & I & ->)|(p & c & q & d & a & b & I & J & PA)]].
    - left. reflexivity.
    - destruct (C p c I) as [->|[c' I']].
      + left. rewrite firstn_nil. reflexivity.
      + right. left. eauto.
    - pose proof PA as (N & [x Ex] & [y Ey]).
      destruct (C p c I) as [->|[c' I']]; [exfalso; destruct w; discriminate|].
      destruct (C q d J) as [->|[d' J']]; [exfalso; destruct w; discriminate|].
      right. right. exists p, c', q, d', a, b. auto.
  Qed.

  Lemma covered_apart T U : covered T U -> colons_apart U -> colons_apart T.
  Proof.
    intros C A p c w r I E B. destruct (C p c I) as [->|[d J]]; [destruct w; discriminate|].
    exact (A p d w r J E (covered_boundary _ _ _ C B)).
  Qed.

  Lemma rep_apart (t : node) (T : table) : Rep t T -> colons_apart T.
  Proof.
    intros R p c w r I E B. apply (rep_isn _ _ R) in B.
    assert (J : isn t (w ++ Ch c_colon :: r)) by (apply (rep_isn _ _ R); rewrite <- E; eapply boundary_end; exact I).
    pose proof (rep_wf _ _ R) as W. clear R I E. destruct B as [v D].
    induction D as [n|n k s v I D IH].
    - apply (isn_cons_wf n _ _ W) in J as (k & s & x & I & Ek & _).
      destruct (wf_kids _ W) as (K & _). specialize (K k I). unfold kt in Ek. inversion K as [z Ez|Ez|z Nz Lz Ez].
      + rewrite <- Ez in Ek. discriminate.
      + rewrite <- Ez in Ek. discriminate.
      + rewrite (seg_toks_lit _ Lz) in Ek. destruct Lz as [Lz _]. destruct (nkey k) as [|y z']; [discriminate|].
        injection Ek as -> _. discriminate.
    - apply IH; [|eapply wf_kid; eassumption]. apply (isn_via n k); [exact W|exact I|].
      rewrite app_assoc. exact J.
  Qed.

  Lemma all_tidy_app l1 l2 : forall T : table, all_tidy T (l1 ++ l2) <-> all_tidy T l1 /\ all_tidy (afters T l1) l2.
  Proof.
    induction l1 as [|o l1 IH]; intros T; [cbn; tauto|]. cbn [app all_tidy afters]. rewrite IH. tauto.
  Qed.

  (** What the rest of a history needs besides a final table without such colons. *)
  Definition sub_tidy (o : op) : Prop := match o with ORouter _ sub => all_tidy [] sub | _ => True end.

  Lemma tidy_sub (T : table) o : tidy T o -> sub_tidy o.
  Proof. destruct o; try (intros _; exact Logic.I). rewrite tidy_router. intros [_ X]. exact X. Qed.

  Lemma after_covers T o : ~ root_mount o -> covered T (after T o) /\
    (forall path, op_path o = Some path -> segments path = [] \/ exists d, In (segments path, d) (after T o)).
  Proof.
    intros N. destruct o as [m q h|q mw|mw|q sub]; [| | |rewrite after_router]; cbn [after op_path].
    - split; [intros p c I; right; exists c; apply in_or_app; auto|].
      intros path E. injection E as <-. right. eexists. apply in_elt.
    - destruct (segments q) as [|s x] eqn:Eq.
      + split; [apply covered_refl|]. intros path E. injection E as <-. auto.
      + split; [intros p c I; right; exists c; apply in_or_app; auto|].
        intros path E. injection E as <-. rewrite Eq. right. eexists. apply in_elt.
    - split; [intros p c I; right; exists c; apply in_or_app; auto|]. discriminate.
    - destruct (segments q) as [|s x] eqn:Eq; [exfalso; apply N; exists q, sub; auto|].
      split; [intros p c I; right; exists c; apply in_or_app; auto|].
      intros path E. injection E as <-. rewrite Eq. right. eexists. apply in_elt.
  Qed.

  Lemma afters_cover l : no_root_mount l -> forall T, covered T (afters T l).
  Proof.
    induction l as [|o l IH]; intros N T; [apply covered_refl|]. cbn [afters].
    eapply covered_trans; [apply after_covers; apply N; left; reflexivity|].
    apply IH. intros x I. apply N. right. exact I.
  Qed.

  Lemma tidy_within (U : table) l : colons_apart U -> no_root_mount l -> Forall sub_tidy l ->
    forall T, covered (afters T l) U -> all_tidy T l.
  Proof.
    intros A N F. induction F as [|o l Fo F IH]; intros T C; [exact Logic.I|]. cbn [all_tidy afters] in *.
    assert (No : ~ root_mount o) by (apply N; left; reflexivity).
    assert (Nl : no_root_mount l) by (intros x I; apply N; right; exact I).
    split; [|apply IH; assumption].
    destruct (after_covers T o No) as [C1 C2].
    assert (C3 : covered (after T o) U) by (eapply covered_trans; [apply afters_cover; exact Nl|exact C]).
    assert (X : forall path, op_path o = Some path -> colons_apart (T ++ [(segments path, CNode)])).
    { intros path E. apply (covered_apart _ U); [|exact A]. apply covered_app; [eapply covered_trans; eassumption|].
      apply covered_one. destruct (C2 path E) as [E'|[d I]]; [auto|]. exact (C3 _ _ I). }
    destruct o as [m q h|q mw|mw|q sub]; [exact (X q eq_refl)|exact (X q eq_refl)|exact Logic.I|].
    rewrite tidy_router. split; [exact (X q eq_refl)|exact Fo].
  Qed.

  Lemma tidy_subs l : forall T, all_tidy T l -> Forall sub_tidy l.
  Proof.
    induction l as [|o l IH]; intros T C; [constructor|]. destruct C as [Co C]. constructor; [|eapply IH; exact C].
    eapply tidy_sub; exact Co.
  Qed.

  Lemma built_tidy_call (l : list op) t o : built (l ++ [o]) t -> tidy (table_of l) o.
  Proof. intros [C _]. apply all_tidy_app in C as [_ [C _]]. exact C. Qed.

  (** ** Handlers *)

  Lemma handler_for_in m (l : list (method * H)) h : handler_for m l = Some h -> In (m, h) l.
  Proof.
    induction l as [|[m' h'] l IH]; simpl; [discriminate|]. destruct (method_eqb m m') eqn:E.
    - apply method_eqb_spec in E. subst m'. intros F. injection F as ->. auto.
    - auto.
  Qed.

  Lemma in_handler_for m (l : list (method * H)) h : NoDup (map fst l) -> In (m, h) l -> handler_for m l = Some h.
  Proof.
    induction l as [|[m' h'] l IH]; simpl; [intros _ []|]. intros ND I. inversion ND; subst.
    destruct (method_eqb m m') eqn:E.
    - apply method_eqb_spec in E. subst m'. destruct I as [I|I]; [congruence|].
      exfalso. apply H2. apply (in_map fst _ _ I).
    - destruct I as [I|I]; [|auto]. injection I as -> ->.
      rewrite (proj2 (method_eqb_spec m m) eq_refl) in E. discriminate.
  Qed.

  Lemma answer_delivers (T : table) ts ps : delivers T ts ps (answer T ts ps).
  Proof.
    split; [reflexivity|]. split.
    - intros m. apply get_route_rmap.
    - intros n. unfold answer. cbn [rr_params]. rewrite pget_bind. destruct (first_binding ps n); reflexivity.
  Qed.

  (** Lookup in a represented table, as an equivalence. *)
  Lemma found_iff t (T : table) path r : Rep t T ->
    (search_route t path = LSome r <-> exists ts ps, resolves T (segments path) ts ps /\ r = answer T ts ps).
  Proof.
    intros R. destruct (search_spec t T R path) as [(ts & ps & RS & E)|(N & E)]; rewrite E.
    - split.
      + intros F. injection F as <-. eauto.
      + intros (ts' & ps' & RS' & ->). destruct (resolves_fun t T R _ _ _ _ _ RS RS') as [-> ->]. reflexivity.
    - split; [discriminate|]. intros (ts & ps & RS & _). destruct (N _ _ RS).
  Qed.

  Lemma resolves_search t (T : table) path ts ps : Rep t T -> resolves T (segments path) ts ps ->
    search_route t path = LSome (answer T ts ps).
  Proof. intros R RS. apply (proj2 (found_iff t T path (answer T ts ps) R)). eauto. Qed.

  (** ** Requests that match a registered path *)

  Lemma match_reads (T : table) c : forall p1 R b, seg_match p1 R b -> no_star p1 -> forall p0,
    In (p0 ++ p1, c) T -> path_ok (p0 ++ p1) -> reads T (flat p0) R (flat p1) b.
  Proof.
    intros p1 R b S. induction S as [|s p R b L S IH|n s p R b S IH|R N]; intros NS p0 I P.
    - constructor.
    - assert (K : key_ok s) by (apply P, in_elt).
      destruct (literal_toks s (key_ok_nonempty _ K) L) as (c0 & us & E & Sp).
      rewrite flat_cons, E. rewrite <- Sp at 1.
      assert (EF : flat p0 ++ Ch c0 :: us = flat (p0 ++ [s])).
      { rewrite flat_app. f_equal. unfold flat. simpl. rewrite app_nil_r. symmetry. exact E. }
      apply rd_lit; rewrite EF.
      + right. left. exists (p0 ++ s :: p), c, (length (p0 ++ [s])). split; [exact I|].
        replace (p0 ++ s :: p) with ((p0 ++ [s]) ++ p) by (rewrite <- app_assoc; reflexivity).
        rewrite firstn_app, Nat.sub_diag, firstn_O, app_nil_r, firstn_all. reflexivity.
      + apply IH; [intros J; apply NS; right; exact J| |]; rewrite <- app_assoc; assumption.
    - rewrite flat_cons. change (seg_toks (c_colon :: n)) with [Par n]. cbn [app].
      assert (EF : flat p0 ++ [Par n] = flat (p0 ++ [c_colon :: n])) by (rewrite flat_app; reflexivity).
      apply rd_par; rewrite EF.
      + right. left. exists (p0 ++ (c_colon :: n) :: p), c, (length (p0 ++ [c_colon :: n])). split; [exact I|].
        replace (p0 ++ (c_colon :: n) :: p) with ((p0 ++ [c_colon :: n]) ++ p) by (rewrite <- app_assoc; reflexivity).
        rewrite firstn_app, Nat.sub_diag, firstn_O, app_nil_r, firstn_all. reflexivity.
      + apply IH; [intros J; apply NS; right; exact J| |]; rewrite <- app_assoc; assumption.
    - exfalso. apply NS. left. reflexivity.
  Qed.

  Lemma content_has_value (T : table) p c : In (p, c) T -> c <> CNode -> has_value T (flat p).
  Proof.
    intros I N. destruct c as [m h|mw|]; [left|right|congruence]; apply not_nil_In.
    - exists (m, h). apply in_routes_at. eauto.
    - exists mw. apply in_mws_at. eauto.
  Qed.

  Lemma match_exact (T : table) p c R b : In (p, c) T -> c <> CNode -> path_ok p -> no_star p ->
    seg_match p R b -> exact_hit T R (flat p) b.
  Proof.
    intros I N P NS S. split; [|eapply content_has_value; eauto].
    exact (match_reads T c p R b S NS [] I P).
  Qed.

  Lemma found_own (T : table) t p m h R path b : Rep t T -> good T -> In (p, CRoute m h) T -> no_star p ->
    seg_match p R b -> segments path = R ->
    search_route t path = LSome (answer T (flat p) b) /\
    rr_get_route (answer T (flat p) b) m = Some (Route m h).
  Proof.
    intros RP G I NS S E. split.
    - apply resolves_search; [exact RP|]. rewrite E. apply res_exact.
      eapply match_exact; eauto; [discriminate|eapply gd_path; eauto].
    - destruct (answer_delivers T (flat p) b) as (_ & -> & _).
      rewrite (in_handler_for m _ h); [reflexivity|apply G|]. apply in_routes_at. eauto.
  Qed.

  (** A literal path matches itself. *)
  Lemma literal_match p : literal p -> seg_match p p [].
  Proof.
    induction p as [|s p IH]; intros L; [constructor|]. constructor; [apply L; left; reflexivity|].
    apply IH. intros x I. apply L. right. exact I.
  Qed.

  Lemma literal_no_star p : literal p -> no_star p.
  Proof. intros L I. destruct (L _ I) as [N _]. congruence. Qed.

  (** ** Wildcards *)

  Lemma reads_app_inv (T : table) A : forall pre B ts b, reads T pre (A ++ B) ts b ->
    exists ts1 ts2 b1 b2, reads T pre A ts1 b1 /\ reads T (pre ++ ts1) B ts2 b2 /\ ts = ts1 ++ ts2 /\ b = b1 ++ b2.
  Proof.
    induction A as [|s A IH]; intros pre B ts b D.
    - exists [], ts, [], b. rewrite app_nil_r. repeat split; auto. constructor.
    - cbn [app] in D. inversion D as [|pre0 c us R0 ts0 ps0 Bd D0|pre0 n s0 R0 ts0 ps0 Bd D0]; subst.
      + apply IH in D0 as (t1 & t2 & b1 & b2 & D1 & D2 & -> & ->).
        exists ((Ch c :: us) ++ t1), t2, b1, b2. split; [constructor; assumption|].
        split; [|split; [apply app_assoc|reflexivity]]. rewrite <- app_assoc in D2. exact D2.
      + apply IH in D0 as (t1 & t2 & b1 & b2 & D1 & D2 & -> & ->).
        exists (Par n :: t1), t2, ((n, s) :: b1), b2. split; [constructor; assumption|].
        split; [|auto]. rewrite <- app_assoc in D2. exact D2.
  Qed.

  Lemma reads_app (T : table) A pre ts1 b1 : reads T pre A ts1 b1 -> forall B ts2 b2,
    reads T (pre ++ ts1) B ts2 b2 -> reads T pre (A ++ B) (ts1 ++ ts2) (b1 ++ b2).
  Proof.
    intros D. induction D as [pre|pre c us R ts ps B D IH|pre n s R ts ps B D IH]; intros B' ts2 b2 D2.
    - rewrite app_nil_r in D2. exact D2.
    - rewrite <- app_assoc. cbn [app]. apply rd_lit; [exact B|]. apply IH. rewrite <- app_assoc. exact D2.
    - cbn [app]. apply rd_par; [exact B|]. apply IH. rewrite <- app_assoc. exact D2.
  Qed.

  Lemma reads_nil_inv (T : table) pre R b : reads T pre R [] b -> R = [].
  Proof. intros D. inversion D; reflexivity. Qed.

  Lemma resolves_reads (T : table) R ts ps : resolves T R ts ps ->
    exists k ts0, k <= length R /\ reads T [] (firstn k R) ts0 ps /\
      ((k = length R /\ ts = ts0) \/ ts = ts0 ++ [Star]) /\
      (forall k' ts' ps', wild_hit T R k' ts' ps' -> k' <= k) /\ has_value T ts.
  Proof.
    intros [[D HV]|(R0 & ts0 & c & us & -> & D & B & NV & -> & HV)|k (L & ts0 & D & -> & B) HV _ _ MX].
    - exists (length R), ts. rewrite firstn_all. split; [lia|]. split; [exact D|]. split; [auto|].
      split; [|exact HV]. intros k' ts' ps' [L _]. lia.
    - exists (length (R0 ++ [spell (Ch c :: us)])), (ts0 ++ Ch c :: us). rewrite firstn_all. split; [lia|].
      split.
      { replace ps with (ps ++ []) by apply app_nil_r. eapply reads_app; [exact D|].
        replace (Ch c :: us) with ((Ch c :: us) ++ []) at 2 by apply app_nil_r.
        apply rd_lit; [exact B|constructor]. }
      split; [auto|]. split; [|exact HV]. intros k' ts' ps' [L _]. lia.
    - exists k, ts0. split; [lia|]. split; [exact D|]. split; [auto|]. split; [exact MX|exact HV].
  Qed.

  (** Whatever resolves a request lies strictly below every wildcard place read. *)
  Lemma resolves_below t (T : table) R k q b ts ps : Rep t T -> k < length R ->
    reads T [] (firstn k R) q b -> boundary T (q ++ [Star]) -> resolves T R ts ps -> strict_prefix q ts.
  Proof.
    intros RP L D B RS. apply resolves_reads in RS as (k' & ts0 & L' & D' & CS & MX & _).
    assert (KK : k <= k').
    { apply (MX k (q ++ [Star]) b). split; [exact L|]. exists q. auto. }
    assert (E : firstn k' R = firstn k R ++ firstn (k' - k) (skipn k R)).
    { rewrite <- (firstn_skipn k R) at 1. rewrite firstn_app, firstn_length, Nat.min_l by lia.
      f_equal. rewrite firstn_firstn, Nat.min_r by lia. reflexivity. }
    rewrite E in D'. apply reads_app_inv in D' as (t1 & t2 & b1 & b2 & D1 & D2 & -> & ->).
    destruct (reads_fun t T RP _ _ _ _ _ D D1) as [<- <-].
    destruct CS as [[-> ->]| ->].
    - destruct t2 as [|x t2]; [|exists x, t2; reflexivity].
      apply reads_nil_inv in D2. apply (f_equal (@length _)) in D2.
      rewrite firstn_length, skipn_length in D2. simpl in D2. lia.
    - destruct t2 as [|x t2]; rewrite <- app_assoc; [exists Star, []; reflexivity|].
      exists x, (t2 ++ [Star]). reflexivity.
  Qed.

  Lemma flat_star_tok q x s : flat q = x ++ Star :: s -> In s_star q.
  Proof.
    revert x; induction q as [|a q IH]; intros x E; [destruct x; discriminate|].
    rewrite flat_cons in E. apply app_eq_cases in E as [(r & E1 & E2)|(z & r & E1 & E2)].
    - right. eapply IH. exact E2.
    - left. assert (J : In Star (seg_toks a)).
      { rewrite E1. apply in_app_iff. right. cbn [app] in E2. injection E2 as <- _. left. reflexivity. }
      unfold seg_toks in J. destruct a as [|c a]; [destruct J|].
      destruct (N.eqb c c_colon); [destruct J as [J|[]]; discriminate|].
      destruct (str_eqb_spec (c :: a) s_star) as [E|_]; [exact E|].
      apply in_map_iff in J as (y & J & _). discriminate.
  Qed.

  (** Stars are only the last segments of registered paths. *)
  Definition stars_last (T : table) : Prop := forall p c, In (p, c) T -> star_ok p.
  Definition star_free_nodes (T : table) : Prop := forall p, In (p, CNode) T -> no_star p.

  Lemma star_ok_flat q x s : star_ok q -> flat q = x ++ Star :: s -> s = [] /\ exists q0, q = q0 ++ [s_star] /\ flat q0 = x.
  Proof.
    intros S E. revert x S E; induction q as [|a q IH]; intros x S E; [destruct x; discriminate|].
    rewrite flat_cons in E.
    assert (Sq : star_ok q).
    { intros i y Ei Iy. destruct (S (Datatypes.S i) y Ei Iy) as [A B]. split; [exact A|]. simpl in B. lia. }
    apply app_eq_cases in E as [(r & E1 & E2)|(z & r & E1 & E2)].
    - destruct (IH r Sq E2) as (-> & q0 & -> & Eq). split; [reflexivity|]. exists (a :: q0). split; [reflexivity|].
      rewrite flat_cons, Eq. symmetry. exact E1.
    - cbn [app] in E2. injection E2 as <- E2.
      assert (A : a = s_star).
      { assert (J : In Star (seg_toks a)) by (rewrite E1; apply in_elt).
        unfold seg_toks in J. destruct a as [|c a]; [destruct J|].
        destruct (N.eqb c c_colon); [destruct J as [J|[]]; discriminate|].
        destruct (str_eqb_spec (c :: a) s_star) as [E|_]; [exact E|].
        apply in_map_iff in J as (y & J & _). discriminate. }
      subst a. destruct (S 0 s_star eq_refl (or_introl eq_refl)) as [_ L]. simpl in L.
      destruct q; [|simpl in L; lia]. simpl in E1.
      destruct x as [|y x]; [|destruct x; discriminate]. injection E1 as <-. split; [exact E2|].
      exists []. auto.
  Qed.

  Lemma star_boundary_value (T : table) x : stars_last T -> star_free_nodes T -> boundary T (x ++ [Star]) -> has_value T (x ++ [Star]).
  Proof.
    intros SL SF B. apply boundary_ext in B as (q & c & I & [s E]). rewrite <- app_assoc in E.
    destruct (star_ok_flat q x s (SL _ _ I) E) as (-> & q0 & -> & Eq).
    replace (x ++ [Star]) with (flat (q0 ++ [s_star])) by (rewrite flat_app, Eq; reflexivity).
    apply (content_has_value T _ c I). intros ->. apply (SF _ I). apply in_elt.
  Qed.

  (** The largest [k] with a decidable-up-to-negation property. *)
  Lemma max_exists (P : nat -> Prop) n : (exists k, P k) -> (forall k, P k -> k <= n) ->
    ~ ~ exists k, P k /\ forall j, P j -> j <= k.
  Proof.
    intros [k0 Pk] B NN. revert k0 Pk.
    assert (X : forall d k, n - k <= d -> ~ P k).
    { induction d as [|d IH]; intros k L Pk; apply NN; exists k; split; auto; intros j Pj.
      - pose proof (B j Pj). pose proof (B k Pk). lia.
      - destruct (Nat.le_gt_cases j k) as [L1|L1]; [exact L1|]. exfalso. apply (IH j); [lia|exact Pj]. }
    intros k0. exact (X (n - k0) k0 (Nat.le_refl _)).
  Qed.

  Lemma wild_resolved t (T : table) path k q b : Rep t T -> stars_last T -> star_free_nodes T ->
    k < length (segments path) -> reads T [] (firstn k (segments path)) q b -> boundary T (q ++ [Star]) ->
    exists ts ps, search_route t path = LSome (answer T ts ps) /\ resolves T (segments path) ts ps /\ strict_prefix q ts.
  Proof.
    intros RP SL SF L D B. destruct (search_spec t T RP path) as [(ts & ps & RS & E)|(N & E)].
    - exists ts, ps. split; [exact E|]. split; [exact RS|]. eapply resolves_below; eauto.
    - exfalso. set (R := segments path) in *.
      apply (max_exists (fun k => exists ts ps, wild_hit T R k ts ps) (length R)).
      + exists k, (q ++ [Star]), b. split; [exact L|]. exists q. auto.
      + intros j (ts & ps & Lj & _). lia.
      + intros (j & (ts & ps & W) & MX). apply (N ts ps). apply (res_wild _ _ _ _ j); auto.
        * destruct W as (_ & ts0 & _ & -> & Bd). apply star_boundary_value; auto.
        * intros ts' ps' X. apply (N ts' ps'). apply res_exact. exact X.
        * intros ts' ps' X. apply (N ts' ps'). apply res_below. exact X.
        * intros k' ts' ps' X. apply MX. eauto.
  Qed.

  (** Histories without routers mounted at a wildcard path. *)
  Definition stars_inv (T : table) : Prop := star_free_nodes T -> stars_last T.

  Lemma stars_inv_afters l : Forall (fun o => forall T, accepted T o -> stars_inv T -> stars_inv (after T o)) l ->
    forall T, all_accepted T l -> stars_inv T -> stars_inv (afters T l).
  Proof.
    intros F. induction F as [|o l Fo F IH]; intros T A G; [exact G|].
    cbn [all_accepted afters] in *. destruct A as [Ao A]. apply IH; auto.
  Qed.

  Lemma stars_inv_snoc T p c : stars_inv T -> star_ok p -> stars_inv (T ++ [(p, c)]).
  Proof.
    intros G S F q d I. apply in_app_iff in I as [I|[I|[]]].
    - apply (G (fun x J => F x (in_or_app _ _ _ (or_introl J))) _ _ I).
    - injection I as <- <-. exact S.
  Qed.

  Lemma star_ok_app p q : no_star p -> star_ok p -> star_ok q -> star_ok (p ++ q).
  Proof.
    intros N Sp Sq i s E J. destruct (Nat.lt_ge_cases i (length p)) as [L|L].
    - rewrite nth_error_app1 in E by exact L. destruct (Sp i s E J) as [-> _].
      exfalso. apply N. eapply nth_error_In. exact E.
    - rewrite nth_error_app2 in E by exact L. destruct (Sq _ _ E J) as [-> Li].
      split; [reflexivity|]. rewrite app_length. lia.
  Qed.

  Lemma stars_inv_after (o : op) : forall T, accepted T o -> stars_inv T -> stars_inv (after T o).
  Proof.
    induction o as [m path h|path mw|mw|path sub IH] using op_ind'; intros T A G.
    - cbn [accepted after] in *. apply stars_inv_snoc; tauto.
    - cbn [accepted after] in *. destruct (segments path) as [|s p] eqn:E; [exact G|]. apply stars_inv_snoc; tauto.
    - cbn [after]. apply stars_inv_snoc; [exact G|]. intros i s E. destruct i; discriminate.
    - rewrite accepted_router in A. rewrite after_router. destruct A as (AS & S & A).
      assert (GS : stars_inv (table_of sub)).
      { apply stars_inv_afters; auto. intros _ p c []. }
      destruct (segments path) as [|s p] eqn:E; [exact GS|]. rewrite <- E in *. clear s p E. set (p := segments path) in *.
      intros F. assert (Np : no_star p) by (apply F; apply in_elt).
      assert (FT : star_free_nodes T) by (intros x J; apply F; apply in_or_app; left; exact J).
      assert (FS : star_free_nodes (table_of sub)).
      { intros x J K. apply (F (p ++ x)); [|apply in_or_app; right; exact K].
        apply in_or_app. right. right. apply in_with_prefix. eauto. }
      intros q c I. apply in_app_iff in I as [I|[I|I]].
      + exact (G FT _ _ I).
      + injection I as <- <-. exact S.
      + apply in_with_prefix in I as (q' & -> & I). apply star_ok_app; auto. exact (GS FS _ _ I).
  Qed.

  Lemma stars_last_table l : all_accepted [] l -> no_star_mount l -> stars_last (table_of l).
  Proof.
    intros A N. apply (stars_inv_afters l); auto.
    - apply Forall_forall. intros o _. apply stars_inv_after.
    - intros _ p c [].
  Qed.
End Facts.
