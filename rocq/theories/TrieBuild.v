(** Every history: which calls are accepted, and what the trie then is. *)

From Verif Require Import Base BaseFacts RouteTrie Router TableSpec TrieDen TrieIns TrieRep.

(** ** The checks on '*' *)

Lemma star_check_go total pos p :
  star_check total pos p = None <->
  (forall i s, nth_error p i = Some s -> In c_star s -> s = s_star /\ pos + i = total - 1).
Proof.
  revert pos; induction p as [|x p IH]; intros pos; cbn [star_check].
  - split; [|reflexivity]. intros _ i s E. destruct i; discriminate.
  - destruct (contains c_star x) eqn:C.
    + apply contains_In in C. destruct (Nat.eqb_spec (blen x) 1) as [B|B]; cbn [negb].
      * assert (X : x = s_star).
        { destruct x as [|c [|c' x]]; [contradiction| |].
          - destruct C as [->|[]]. reflexivity.
          - simpl in B. pose proof (len_utf8_pos c). pose proof (len_utf8_pos c'). lia. }
        destruct (Nat.eqb_spec pos (total - 1)) as [E|E]; cbn [negb].
        -- rewrite IH. split.
           ++ intros F i s Ei Is. destruct i as [|i]; simpl in Ei.
              ** injection Ei as <-. split; [exact X|lia].
              ** destruct (F i s Ei Is) as [? ?]. split; [assumption|lia].
           ++ intros F i s Ei Is. destruct (F (S i) s Ei Is) as [? ?]. split; [assumption|lia].
        -- split; [discriminate|]. intros F. exfalso. apply E.
           destruct (F 0 x eq_refl C) as [_ F']. lia.
      * split; [discriminate|]. intros F. exfalso. apply B.
        destruct (F 0 x eq_refl C) as [-> _]. reflexivity.
    + rewrite IH. split.
      * intros F i s Ei Is. destruct i as [|i]; simpl in Ei.
        -- injection Ei as <-. apply contains_In in Is. congruence.
        -- destruct (F i s Ei Is) as [? ?]. split; [assumption|lia].
      * intros F i s Ei Is. destruct (F (S i) s Ei Is) as [? ?]. split; [assumption|lia].
Qed.

Lemma star_check_spec p : star_check (length p) 0 p = None <-> star_ok p.
Proof.
  rewrite star_check_go. unfold star_ok. split; intros F i s Ei Is; destruct (F i s Ei Is) as [? ?];
    (split; [assumption|]); assert (i < length p) by (apply nth_error_Some; congruence); lia.
Qed.

Lemma star_check_panic_go total pos p q : total = pos + length p ->
  star_check total pos p = Some q -> star_panic p q.
Proof.
  revert pos; induction p as [|x p IH]; intros pos L; cbn [star_check]; [discriminate|].
  simpl in L. destruct (contains c_star x) eqn:C.
  - apply contains_In in C. destruct (Nat.eqb_spec (blen x) 1) as [B|B]; cbn [negb].
    + assert (X : x = s_star).
      { destruct x as [|c [|c' x]]; [contradiction| |].
        - destruct C as [->|[]]. reflexivity.
        - simpl in B. pose proof (len_utf8_pos c). pose proof (len_utf8_pos c'). lia. }
      destruct (Nat.eqb_spec pos (total - 1)) as [E|E]; cbn [negb].
      * destruct p as [|y p]; [discriminate|]. simpl in L. lia.
      * intros F. injection F as <-. exists [], x, p. split; [reflexivity|]. split; [intros y []|].
        split; [exact C|]. right. split; [exact X|]. split; [|reflexivity].
        intros ->. simpl in L. lia.
    + intros F. injection F as <-. exists [], x, p. split; [reflexivity|]. split; [intros y []|].
      split; [exact C|]. left. split; [|reflexivity]. intros ->. apply B. reflexivity.
  - intros F. apply IH in F as (p0 & s & p1 & -> & N & R); [|lia].
    exists (x :: p0), s, p1. split; [reflexivity|]. split; [|exact R].
    intros y [<-|J]; [|apply N; exact J]. intros J. apply contains_In in J. congruence.
Qed.

Lemma star_check_panic p q : star_check (length p) 0 p = Some q -> star_panic p q.
Proof. apply star_check_panic_go. reflexivity. Qed.

Lemma path_ok_of path : star_ok (segments path) -> path_ok (segments path).
Proof.
  intros S s I. destruct (segments_ok _ _ I) as [N _].
  destruct (starts_colon s) eqn:C.
  - apply starts_colon_spec in C as [r ->]. constructor.
  - destruct (in_dec N.eq_dec c_star s) as [J|NS].
    + apply In_nth_error in I as [i E]. destruct (S i s E J) as [-> _]. constructor.
    + constructor; [exact N|]. split; assumption.
Qed.

(** The panics that registration may raise. *)
Definition documented (p : panic) : Prop :=
  p = PStarInName \/ p = PStarNotLast \/ p = PAmbiguous \/ p = PDuplicate \/ p = PMountConflict.

Section Build.
  Context {H M : Type}.
  Notation node := (node H M).
  Notation table := (table H M).
  Notation op := (op H M).

  Lemma op_ind' (P : op -> Prop) :
    (forall m path h, P (ORoute m path h)) ->
    (forall path mw, P (OServiceTo path mw)) ->
    (forall mw, P (OService mw)) ->
    (forall path sub, Forall P sub -> P (ORouter path sub)) ->
    forall o, P o.
  Proof.
    intros F1 F2 F3 F4. fix IH 1. intros [m path h|path mw|mw|path sub]; [apply F1|apply F2|apply F3|].
    apply F4. induction sub as [|o sub IHs]; constructor; [apply IH|exact IHs].
  Qed.

  Lemma run_op_router (t : node) path sub :
    run_op t (ORouter path sub) =
    match snd (build sub) with
    | Some p => (t, Some p)
    | None => insert_sub_route t path (fst (build sub))
    end.
  Proof.
    unfold build.
    transitivity (let '(src, st) := run_ops trie_new sub in
                  match st with Some p => (t, Some p) | None => insert_sub_route t path src end).
    - reflexivity.
    - destruct (run_ops trie_new sub). reflexivity.
  Qed.

  Lemma after_router (T : table) path sub :
    after T (ORouter path sub) =
    match segments path with [] => table_of sub | p => T ++ (p, CNode) :: with_prefix p (table_of sub) end.
  Proof. reflexivity. Qed.

  Lemma accepted_router (T : table) path sub :
    accepted T (ORouter path sub) =
    (all_accepted [] sub /\ star_ok (segments path) /\
     (segments path = [] \/
      (unambiguous T (segments path) /\ ~ has_value T (flat (segments path)) /\
       ~ exists q c, In (q, c) T /\ strict_prefix (flat (segments path)) (flat q)))).
  Proof. reflexivity. Qed.

  Lemma clean_router path sub :
    clean (ORouter path sub : op) <-> colon_ok (segments path) /\ all_clean sub.
  Proof.
    cbn [clean].
    assert (E : (fix all (l : list op) : Prop := match l with [] => True | o :: r => clean o /\ all r end) sub
                <-> all_clean sub).
    { unfold all_clean. induction sub as [|o sub IH]; [split; [constructor|auto]|].
      rewrite IH. split.
      - intros [A B]. constructor; assumption.
      - intros F. inversion F; auto. }
    rewrite E. reflexivity.
  Qed.

  Lemma tidy_router (T : table) path sub :
    tidy T (ORouter path sub : op) = (colons_apart (T ++ [(segments path, CNode)]) /\ all_tidy [] sub).
  Proof. reflexivity. Qed.

  (** Histories whose paths have colons only at the start of segments. *)
  Lemma colon_ok_flat p w r : colon_ok p -> flat p <> w ++ Ch c_colon :: r.
  Proof.
    intros C E. assert (I : In (Ch c_colon) (flat p)) by (rewrite E; apply in_elt).
    apply in_flat_map in I as (s & I & J). destruct s as [|x s]; [destruct J|].
    unfold seg_toks in J. destruct (N.eqb_spec x c_colon) as [->|N]; [destruct J as [J|[]]; discriminate|].
    destruct (str_eqb (x :: s) s_star); [destruct J as [J|[]]; discriminate|].
    apply in_map_iff in J as (y & Ey & J). injection Ey as ->.
    destruct (C _ I J) as [r' Er]. congruence.
  Qed.

  Definition all_colon_ok (T : table) : Prop := forall p c, In (p, c) T -> colon_ok p.

  Lemma colon_ok_apart (T : table) : all_colon_ok T -> colons_apart T.
  Proof. intros C p c w r I E. exfalso. eapply colon_ok_flat; eauto. Qed.

  Lemma colon_ok_app p q : colon_ok p -> colon_ok q -> colon_ok (p ++ q).
  Proof. intros A B s I. apply in_app_or in I as [I|I]; auto. Qed.

  Lemma colon_ok_snoc (T : table) p c : all_colon_ok T -> colon_ok p -> all_colon_ok (T ++ [(p, c)]).
  Proof. intros A C q d I. apply in_app_or in I as [I|[I|[]]]; [eauto|]. injection I as <- <-. exact C. Qed.

  Lemma clean_step (o : op) : clean o -> forall T, all_colon_ok T -> tidy T o /\ all_colon_ok (after T o).
  Proof.
    induction o as [m path h|path mw|mw|path sub IH] using op_ind'; intros C T A.
    - cbn [clean tidy after] in *. split; [apply colon_ok_apart|]; apply colon_ok_snoc; assumption.
    - cbn [clean tidy after] in *. split; [apply colon_ok_apart, colon_ok_snoc; assumption|].
      destruct (segments path); [exact A|]. apply colon_ok_snoc; assumption.
    - split; [exact Logic.I|]. apply colon_ok_snoc; [exact A|]. intros s [].
    - apply clean_router in C as [C CS]. rewrite tidy_router, after_router.
      assert (X : forall T', all_colon_ok T' -> all_tidy T' sub /\ all_colon_ok (afters T' sub)).
      { clear -IH CS. induction IH as [|o l Ho _ IHl]; intros T' A; [split; [exact Logic.I|exact A]|].
        inversion CS; subst. destruct (Ho H2 T' A) as [X Y]. destruct (IHl H3 _ Y). cbn [all_tidy afters]. auto. }
      destruct (X []) as [X1 X2]; [intros p c []|]. fold (table_of sub) in X2.
      split; [split; [apply colon_ok_apart, colon_ok_snoc; assumption|exact X1]|].
      destruct (segments path) as [|s p] eqn:E; [exact X2|].
      intros q d I. apply in_app_or in I as [I|[I|I]]; [eauto|injection I as <- <-; exact C|].
      apply in_map_iff in I as ([q' d'] & Eq & I). injection Eq as <- <-.
      change (colon_ok ((s :: p) ++ q')). apply colon_ok_app; [exact C|eauto].
  Qed.

  Lemma clean_tidy_from (l : list op) : all_clean l -> forall T, all_colon_ok T -> all_tidy T l /\ all_colon_ok (afters T l).
  Proof.
    induction l as [|o l IH]; intros C T A; [split; [exact Logic.I|exact A]|].
    inversion C; subst. destruct (clean_step o H2 T A) as [X Y]. destruct (IH H3 _ Y). cbn [all_tidy afters]. auto.
  Qed.

  Lemma clean_tidy (l : list op) : all_clean l -> all_tidy [] l.
  Proof. intros C. apply clean_tidy_from; [exact C|]. intros p c []. Qed.

  Lemma clean_table (l : list op) : all_clean l -> all_colon_ok (table_of l).
  Proof. intros C. apply clean_tidy_from; [exact C|]. intros p c []. Qed.

  Lemma rep_wsafe (t : node) (T : table) p : Rep t T -> colons_apart (T ++ [(p, CNode)]) -> wsafe t p.
  Proof.
    intros R A w x C.
    assert (B : boundary (T ++ [(p, CNode)]) w).
    { apply boundary_snoc. destruct C as [C|[C|C]]; [left; apply R; exact C| |auto].
      right. right. apply (rep_fork _ _ _ _ R). exact C. }
    split.
    - intros E. apply (A p CNode w x); [apply in_elt|exact E|exact B].
    - intros J. apply (rep_isn _ _ R), boundary_ext in J as (q & c & I & r & E).
      apply (A q c w r); [apply in_or_app; auto|rewrite E, <- app_assoc; reflexivity|exact B].
  Qed.

  Lemma rep_new : Rep (trie_new (H:=H) (M:=M)) [].
  Proof.
    constructor.
    - apply wf_new.
    - intros ts. unfold isn. setoid_rewrite dn_new. split.
      + intros [v [-> _]]. left. reflexivity.
      + intros [->|[(p & c & i & [] & _)|(p & c & q & d & a & b & [] & _)]]. eauto.
    - intros ts v. unfold dv. setoid_rewrite dn_new. split.
      + intros [_ E]. discriminate.
      + intros [[N|N] _]; simpl in N; congruence.
  Qed.

  Lemma mount_kids (t : node) (T : table) p m0 ctx :
    Rep t T -> wplace t p m0 ctx ->
    ((match nval m0 with Some _ => true | None => false end || negb (is_empty (nkids m0)) = true)
     <-> has_value T (flat p) \/ exists q c, In (q, c) T /\ strict_prefix (flat p) (flat q)).
  Proof.
    intros R P. destruct (rep_place_value _ _ _ _ _ R P) as [[HV ->]|[NV ->]]; cbn [orb].
    - split; auto.
    - assert (K : nkids m0 <> [] <-> exists q c, In (q, c) T /\ strict_prefix (flat p) (flat q)).
      { split.
        - intros N. apply not_nil_In in N as [c I].
          pose proof (kt_nil _ _ (wf_kids _ (wp_wf0 _ _ _ _ P)) I) as Nk.
          pose proof (isn_kid _ _ I) as J. apply (wp_isn0 _ _ _ _ P) in J; [|exact Nk].
          apply (rep_isn _ _ R) in J. destruct (kt c) as [|x r]; [congruence|].
          apply boundary_ext in J as (q & d & I' & s & E). exists q, d. split; [exact I'|].
          exists x, s. rewrite E, <- app_assoc. reflexivity.
        - intros (q & c & I & x & r & E) Nk.
          assert (J : isn t (flat p ++ x :: r)).
          { apply (rep_isn _ _ R). rewrite <- E. eapply boundary_end; eauto. }
          apply (wp_isn0 _ _ _ _ P) in J; [|discriminate]. destruct J as [w D].
          apply dn_inv in D as [[F _]|(d & s & I' & _)]; [discriminate|]. rewrite Nk in I'. exact I'. }
      rewrite negb_true_iff, is_empty_false, K. tauto.
  Qed.

  Lemma mount_eq (src n : node) :
    mount src n = if match nval n with Some _ => true | None => false end || negb (is_empty (nkids n))
                  then (n, Some PMountConflict) else (Node (nkey n) (nval src) (nkids src), None).
  Proof. destruct n. reflexivity. Qed.

  (** What a call does on a trie representing a table. *)
  Definition outcome (T : table) (o : op) (x : upd node) : Prop :=
    (accepted T o /\ snd x = None /\ Rep (fst x) (after T o)) \/
    (~ accepted T o /\ exists pn T', snd x = Some pn /\ rejected T o pn T' /\ Rep (fst x) T').

  Lemma unambiguous_conf (t : node) (T : table) p : Rep t T -> (unambiguous T p <-> ~ conf t (flat p)).
  Proof.
    intros R. unfold unambiguous. rewrite (rep_conf _ _ _ R). split.
    - intros U (q & c & I & A). exact (U q c I A).
    - intros N q c I A. apply N. eauto.
  Qed.

  Lemma unambiguous_nil (T : table) : unambiguous T [].
  Proof. intros q c _ (w & a & b & (_ & [r E] & _) & _). destruct w; discriminate. Qed.

  (** The shared part of the three insertion functions. *)
  Lemma insertion_common (t : node) (T : table) path :
    Rep t T -> colons_apart (T ++ [(segments path, CNode)]) ->
    let p := segments path in
    (~ star_ok p /\ exists pn, star_check (length p) 0 p = Some pn /\ star_panic p pn) \/
    (star_ok p /\ star_check (length p) 0 p = None /\
     ((p = []) \/
      (p <> [] /\ ~ unambiguous T p /\
       exists i m0 ctx, i < length p /\ unambiguous T (firstn i p) /\ ~ unambiguous T (firstn (S i) p) /\
         wplace t (firstn i p) m0 ctx /\ forall final, walk t p final = (ctx m0, Some PAmbiguous)) \/
      (p <> [] /\ unambiguous T p /\ exists m0 ctx, wplace t p m0 ctx /\
          forall final, walk t p final = apply_ctx ctx (final m0)))).
  Proof.
    intros R C p. destruct (star_check (length p) 0 p) as [pn|] eqn:E.
    - left. split.
      + rewrite <- star_check_spec. congruence.
      + exists pn. split; [reflexivity|]. apply star_check_panic. exact E.
    - right. apply star_check_spec in E as S. split; [exact S|]. split; [reflexivity|].
      destruct p as [|s p'] eqn:Ep; [left; reflexivity|]. right.
      assert (PO : path_ok (s :: p')) by (rewrite <- Ep; apply path_ok_of; unfold p in Ep; rewrite Ep; exact S).
      assert (WS : wsafe t (s :: p')) by (apply (rep_wsafe t T _ R); rewrite <- Ep; exact C).
      destruct (walk_spec (s :: p') ltac:(discriminate) PO t (rep_wf _ _ R) WS)
        as [(i & L & K0 & K1 & m0 & ctx & P & E')|(K & m0 & ctx & E')].
      + left. split; [discriminate|]. split.
        * rewrite (unambiguous_conf _ _ _ R). intros N. apply N.
          rewrite <- (firstn_skipn (Datatypes.S i) (s :: p')), flat_app. apply conf_app. exact K1.
        * exists i, m0, ctx. split; [exact L|]. split; [apply (unambiguous_conf _ _ _ R); exact K0|].
          split; [|split; [exact P|exact E']].
          rewrite (unambiguous_conf _ _ _ R). intros N. apply N. exact K1.
      + right. split; [discriminate|]. split; [|eauto]. apply (unambiguous_conf _ _ _ R). exact K.
  Qed.

  Lemma apply_root (t : node) (x : upd node) :
    nkey (fst x) = nkey t -> x = apply_ctx (fun m => Node (nkey t) (nval m) (nkids m)) x.
  Proof. intros E. destruct x as [[k v cs] st]. simpl in *. subst k. reflexivity. Qed.

  Lemma dup_dec (T : table) ts m :
    (exists h, In (m, h) (routes_at T ts)) \/ ~ (exists h, In (m, h) (routes_at T ts)).
  Proof.
    destruct (aget method_eqb m (rmap (routes_at T ts))) eqn:E.
    - left. apply aget_Some_In in E; [|apply method_eqb_spec]. unfold rmap in E.
      apply in_map_iff in E as ([m' h] & E & I). simpl in E. injection E as -> _. eauto.
    - right. apply rmap_get. exact E.
  Qed.

  (** The body of [insert_route] at a place. *)
  Lemma route_at_place (t : node) (T : table) p m path h m0 ctx :
    Rep t T -> p = segments path -> star_ok p -> unambiguous T p -> wplace t p m0 ctx ->
    outcome T (ORoute m path h) (apply_ctx ctx (set_route (Route m h) m0)).
  Proof.
    intros R -> S U P. destruct (dup_dec T (flat (segments path)) m) as [D|D].
    - destruct (set_route_dup t T _ m h m0 ctx R P D) as [X1 X2]. right. split.
      + cbn [accepted]. intros (_ & _ & N). contradiction.
      + destruct D as [h0 D].
        exists PDuplicate, (overwrite T (flat (segments path)) m h ++ [(segments path, CNode)]).
        destruct (set_route (Route m h) m0). simpl in *.
        split; [exact X1|]. split; [eapply rj_duplicate; eassumption|exact X2].
    - pose proof (set_route_rep t T _ m h m0 ctx R P) as X. apply rmap_get in D as E. rewrite E in X.
      left. destruct X as [X1 X2]. split.
      + cbn [accepted]. auto.
      + cbn [after]. destruct (set_route (Route m h) m0). simpl in *. split; assumption.
  Qed.

  Lemma run_ops_outcome (l : list op) :
    Forall (fun o => forall t T, tidy T o -> Rep t T -> outcome T o (run_op t o)) l ->
    forall t T, all_tidy T l -> Rep t T ->
    (all_accepted T l /\ snd (run_ops t l) = None /\ Rep (fst (run_ops t l)) (afters T l)) \/
    (~ all_accepted T l /\ exists l1 o l2 pn T', l = l1 ++ o :: l2 /\ all_accepted T l1 /\
       rejected (afters T l1) o pn T' /\ snd (run_ops t l) = Some pn /\ Rep (fst (run_ops t l)) T').
  Proof.
    intros F. induction F as [|o l Fo F IH]; intros t T C R.
    - left. simpl. auto.
    - destruct C as [Co C]. cbn [run_ops all_accepted afters].
      destruct (Fo t T Co R) as [(A & E & R')|(A & pn & T' & E & RJ & R')];
        destruct (run_op t o) as [t' st]; simpl in *; subst st.
      + destruct (IH t' _ C R') as [(A2 & E2 & R2)|(A2 & l1 & o' & l2 & pn & T' & -> & A1 & RJ & E2 & R2)].
        * left. auto.
        * right. split; [tauto|]. exists (o :: l1), o', l2, pn, T'. cbn [all_accepted afters app]. auto 10.
      + right. split; [tauto|]. exists [], o, l, pn, T'. cbn [all_accepted afters app]. auto 10.
  Qed.

  Lemma run_op_outcome (o : op) : forall t T, tidy T o -> Rep t T -> outcome T o (run_op t o).
  Proof.
    induction o as [m path h|path mw|mw|path sub IH] using op_ind'; intros t T C R.
    - cbn [run_op]. unfold insert_route. cbn [tidy] in C.
      destruct (insertion_common t T path R C) as [(NS & pn & E & D)|(S & E & X)]; rewrite E.
      + right. split; [cbn [accepted]; tauto|]. exists pn, T. split; [reflexivity|]. split; [|exact R].
        eapply rj_star; [reflexivity|exact I|exact D].
      + destruct X as [X|[(N & U & i & m0 & ctx & L & U0 & U1 & P & X)|(N & U & m0 & ctx & P & X)]].
        * rewrite X. cbn [is_empty]. unfold insert_default_route.
          rewrite (apply_root t (set_route (Route m h) t)).
          -- apply (route_at_place t T []); [exact R|congruence|rewrite <- X; exact S|apply unambiguous_nil|].
             apply wplace_root. apply R.
          -- destruct t; reflexivity.
        * replace (is_empty (segments path)) with false by (symmetry; apply is_empty_false; exact N).
          rewrite X. right. split; [cbn [accepted]; tauto|]. eexists PAmbiguous, _.
          split; [reflexivity|]. split; [eapply rj_ambiguous; [reflexivity|exact I|exact S|exact L|exact U0|exact U1]|].
          apply (rep_visit t T _ m0 ctx R P).
        * replace (is_empty (segments path)) with false by (symmetry; apply is_empty_false; exact N).
          rewrite X. eapply route_at_place; eauto.
    - cbn [run_op]. unfold insert_middleware. cbn [tidy] in C.
      destruct (insertion_common t T path R C) as [(NS & pn & E & D)|(S & E & X)]; rewrite E.
      + right. split; [cbn [accepted]; tauto|]. exists pn, T. split; [reflexivity|]. split; [|exact R].
        eapply rj_star; [reflexivity|exact I|exact D].
      + destruct X as [X|[(N & U & i & m0 & ctx & L & U0 & U1 & P & X)|(N & U & m0 & ctx & P & X)]].
        * rewrite X. cbn [walk]. left. split.
          -- cbn [accepted]. rewrite X. split; [rewrite X in S; exact S|apply unambiguous_nil].
          -- cbn [after]. rewrite X. auto.
        * rewrite X. right. split; [cbn [accepted]; tauto|]. eexists PAmbiguous, _.
          split; [reflexivity|]. split; [eapply rj_ambiguous; [reflexivity|exact I|exact S|exact L|exact U0|exact U1]|].
          apply (rep_visit t T _ m0 ctx R P).
        * rewrite X. left. split; [cbn [accepted]; auto|].
          destruct (push_mw_rep t T _ mw m0 ctx R P) as [E1 E2].
          cbn [after]. destruct (push_mw mw m0). cbn [fst snd apply_ctx] in *.
          split; [exact E1|]. destruct (segments path); [congruence|exact E2].
    - cbn [run_op]. unfold insert_default_middleware. left. split; [exact I|].
      rewrite (apply_root t (push_mw mw t)) by (destruct t; reflexivity).
      destruct (push_mw_rep t T [] mw t _ R (wplace_root t (rep_wf _ _ R))) as [E1 E2].
      cbn [after]. destruct (push_mw mw t). cbn [fst snd apply_ctx] in *. auto.
    - rewrite tidy_router in C. destruct C as [C CS]. rewrite run_op_router. unfold outcome. rewrite accepted_router.
      destruct (run_ops_outcome sub IH trie_new [] CS rep_new)
        as [(A & E & RS)|(A & l1 & o & l2 & pn & T' & El & A1 & RJ & E & RS)];
        fold (build sub) in *; rewrite E.
      2:{ right. split; [tauto|]. exists pn, T. split; [reflexivity|]. split; [|exact R].
          eapply rj_sub; eassumption. }
      unfold insert_sub_route. rewrite after_router. fold (table_of sub) in RS.
      destruct (insertion_common t T path R C) as [(NS & pn & Es & D)|(S & Es & X)]; rewrite Es.
      + right. split; [tauto|]. exists pn, T. split; [reflexivity|]. split; [|exact R].
        eapply rj_star; [reflexivity|exact A|exact D].
      + destruct X as [X|[(N & U & i & m0 & ctx & L & U0 & U1 & P & X)|(N & U & m0 & ctx & P & X)]].
        * rewrite X. cbn [is_empty]. left. rewrite X in S. auto.
        * replace (is_empty (segments path)) with false by (symmetry; apply is_empty_false; exact N).
          rewrite X. right. split; [tauto|]. eexists PAmbiguous, _.
          split; [reflexivity|]. split; [eapply rj_ambiguous; [reflexivity|exact A|exact S|exact L|exact U0|exact U1]|].
          apply (rep_visit t T _ m0 ctx R P).
        * replace (is_empty (segments path)) with false by (symmetry; apply is_empty_false; exact N).
          rewrite X. pose proof (mount_kids t T _ m0 ctx R P) as MK.
          rewrite mount_eq. destruct (_ || _) eqn:EO.
          -- right. pose proof (proj1 MK eq_refl) as NF.
             split; [intros (_ & _ & [F|(_ & F1 & F2)]); [congruence|tauto]|].
             eexists PMountConflict, _. split; [reflexivity|]. split; [|apply (rep_visit t T _ m0 ctx R P)].
             apply rj_mount; [exact A|exact N|exact S|exact U|].
             exact NF.
          -- left. assert (F : free_below T (flat (segments path))).
             { destruct MK as [_ MK]. split; intros HV; assert (false = true) by (apply MK; auto); discriminate. }
             pose proof (rep_mount t T _ (table_of sub) (fst (build sub)) m0 ctx R RS P F) as RM.
             destruct F as [F1 F2].
             split; [tauto|]. split; [reflexivity|]. cbn [fst apply_ctx].
             destruct (segments path) as [|s p']; [congruence|]. exact RM.
  Qed.

  Theorem build_outcome (l : list op) : all_tidy [] l ->
    (all_accepted [] l /\ snd (build l) = None /\ Rep (fst (build l)) (table_of l)) \/
    (~ all_accepted [] l /\ exists l1 o l2 pn T', l = l1 ++ o :: l2 /\ all_accepted [] l1 /\
       rejected (table_of l1) o pn T' /\ snd (build l) = Some pn /\ Rep (fst (build l)) T').
  Proof.
    intros C. apply run_ops_outcome; [|exact C|apply rep_new].
    apply Forall_forall. intros o _. apply run_op_outcome.
  Qed.
End Build.
