(** Calls whose panics are caught, colons anywhere. *)

From Verif Require Import Base BaseFacts RouteTrie Router TableSpec PropSpec TextSpec TrieDen TrieRep TrieBuild TrieSearch TrieLookup TrieTotal RouteLemmas2 OwnPath Rewalk TextRep TextInv TextSearch TextOwn.

Section TextCaught.
  Context {H M : Type}.
  Notation node := (node H M).

  Definition valued (n : node) : Prop := nval n <> None.

  Lemma valued_val (n n' : node) : nval n = nval n' -> valued n -> valued n'.
  Proof. unfold valued. intros <-. auto. Qed.

  Lemma leads_weaken (Q Q' : node -> Prop) : (forall n, Q n -> Q' n) -> forall n b p, leads Q n b p -> leads Q' n b p.
  Proof.
    intros W n b p L. induction L as [n V|n b l1 c l2 rest E N S P L IH|n b l1 c l2 s rest E N S P Ns L IH|n c l2 rest E P L IH].
    - apply ld_end. auto.
    - exact (ld_seg Q' n b l1 c l2 rest E N S P IH).
    - exact (ld_mid Q' n b l1 c l2 s rest E N S P Ns IH).
    - exact (ld_par Q' n c l2 rest E P IH).
  Qed.

  Lemma keeps_valued_set r : keeps any_end valued (set_route r).
  Proof. intros [k v cs] N _ b p. apply leads_same; [cbn [set_route]; destruct (add_route _ _ _); reflexivity|]. intros _. apply set_route_valued. Qed.

  Lemma keeps_valued_push mw : keeps any_end valued (push_mw mw).
  Proof. intros [k v cs] N _ b p. apply leads_same; [reflexivity|]. intros _. apply push_valued. Qed.

  Lemma keeps_valued_mount src : keeps any_end valued (mount src).
  Proof.
    intros [k v cs] N. cbn [mount]. destruct v as [v|]; [intros _ b p L; exact L|].
    destruct cs as [|d cs]; [|intros _ b p L; exact L]. cbn [orb negb is_empty]. intros _ b p L. exfalso.
    inversion L as [n W|n b' l1 d l2 rest K|n b' l1 d l2 s rest K|n d l2 rest K]; subst.
    - exact (W eq_refl).
    - destruct l1; discriminate K.
    - destruct l1; discriminate K.
    - discriminate K.
  Qed.

  (** Calls keep ways, except those that mount at the root. *)
  Lemma run_op_valued (o : op H M) (t : node) p : nice t -> (root_mount o -> snd (run_op t o) <> None) ->
    leads valued t false p -> leads valued (fst (run_op t o)) false p.
  Proof.
    intros N RM L. destruct o as [m path h|path mw|mw|path sub].
    - cbn [run_op]. unfold insert_route. destruct (star_check _ _ _) eqn:E; [exact L|]. apply star_check_spec in E.
      destruct (is_empty (segments path)); [exact (keeps_valued_set (Route m h) t N I false p L)|].
      exact (walk_keeps any_end valued valued_val (segments path) t (set_route (Route m h)) N (good_path path E) (nices_set_route _) (keeps_valued_set _) I false p L).
    - cbn [run_op]. unfold insert_middleware. destruct (star_check _ _ _) eqn:E; [exact L|]. apply star_check_spec in E.
      exact (walk_keeps any_end valued valued_val (segments path) t (push_mw mw) N (good_path path E) (nices_push _) (keeps_valued_push _) I false p L).
    - exact (keeps_valued_push mw t N I false p L).
    - rewrite run_op_router in *. destruct (build sub) as [src [pn|]] eqn:Eb; cbn [fst snd] in *; [exact L|].
      destruct (segments path) as [|s0 p0] eqn:Ep.
      + exfalso. apply RM; [exists path, sub; auto|]. unfold insert_sub_route. rewrite Ep. reflexivity.
      + unfold insert_sub_route. destruct (star_check _ _ _) eqn:E; [exact L|]. apply star_check_spec in E.
        assert (NP : is_empty (segments path) = false) by (rewrite Ep; reflexivity). rewrite NP.
        exact (walk_keeps any_end valued valued_val (segments path) t (mount src) N (good_path path E) (nices_mount src (built_nice sub src None Eb)) (keeps_valued_mount _) I false p L).
  Qed.

  (** The way of a path that a route call reached. *)
  Lemma walk_valued (t : node) p r : p <> [] -> nice t -> (forall s, In s p -> good_key s) -> snd (walk t p (set_route r)) <> Some PAmbiguous ->
    leads valued (fst (walk t p (set_route r))) false p.
  Proof.
    intros NP N G NA. set (f := fun m : node => (fst (set_route r m), @None panic)).
    assert (NF : nices f) by (intros m Nm; exact (nices_set_route r m Nm)).
    assert (MF : makes valued f []) by (intros m Nm _; apply ld_end; apply set_route_valued).
    assert (E : fst (walk t p f) = fst (walk t p (set_route r)) /\ snd (walk t p f) = None).
    { destruct (walk_opens p NP t N G) as [(n' & ER)|(fill & m & P & _)]; [rewrite ER in NA; exfalso; apply NA; reflexivity|].
      rewrite !P. split; reflexivity. }
    destruct E as [E1 E2]. rewrite <- E1. rewrite <- (app_nil_r p) at 2. exact (walk_makes valued p t f [] NP N G NF MF E2).
  Qed.

  (** ** Values *)

  Lemma trep_same (t t' : node) T : trep t T -> same_vals t t' -> trep t' T.
  Proof.
    intros (R & A & B) [R' V]. split; [exact R'|]. split.
    - intros w v X. apply A, V. exact X.
    - intros p c I NC. destruct (B p c I NC) as [v X]. exists v. apply V. exact X.
  Qed.

  Lemma splice_same K (n n' m : node) : splice K n n' m m -> same_vals n n'.
  Proof.
    intros (Rm & Vm & R' & V'). split; [exact R'|]. intros w v. rewrite V'. split.
    - intros [[_ V]|(u & -> & V)]; [exact V|]. apply Vm. exact V.
    - intros V. destruct (prefix_str_dec K w) as [[u ->]|NP]; [|auto]. right. exists u. split; [reflexivity|]. apply Vm. exact V.
  Qed.

  Lemma set_route_end r (x : node) pn : snd (set_route r x) = Some pn -> pn = PDuplicate.
  Proof. destruct x as [k v cs]. cbn [set_route]. destruct (add_route _ _ _) as [res [d|]]; cbn [snd]; [congruence|discriminate]. Qed.

  (** The value of one node changed as if the entry had been there from the start. *)
  Lemma trep_first (t t' : node) T p m h x : trep t T -> splice (text p) t t' x (fst (set_route (Route m h) x)) ->
    trep t' ((p, CRoute m h) :: T).
  Proof.
    intros TR SP. pose proof TR as (R & A & B). destruct (trep_value _ _ _ _ _ _ TR SP) as [E1 E2].
    destruct (radixes_set_route (Route m h) x (proj1 SP)) as [Rx _]. destruct x as [k v cs]. cbn [set_route nval] in *.
    unfold add_route in *. cbn [fst snd r_method] in *.
    pose proof (splice_value (text p) t t' _ _ _ R SP Rx eq_refl eq_refl) as V.
    split; [exact (proj1 (proj2 (proj2 SP)))|]. split.
    - intros w u X. apply V in X as [[-> ->]|[NE X]].
      + split; [|split].
        * cbn [rv_mws mws_on flat_map fst snd]. cbn [app]. fold (mws_on T (text p)). rewrite <- E1. destruct v; reflexivity.
        * intros mt. cbn [rv_route routes_on flat_map fst snd]. fold (routes_on T (text p)). rewrite str_eqb_refl. cbn [app handler_for].
          assert (E3 : forall mt, aget method_eqb mt (rv_route (match v with Some val => val | None => rv_default end)) = option_map (Route mt) (handler_for mt (routes_on T (text p)))).
          { intros mt'. rewrite <- E2. destruct v; reflexivity. }
          unfold get_route. destruct (method_eqb mt m) eqn:E.
          -- apply method_eqb_spec in E. subst mt. rewrite aget_ainsert_same by exact method_eqb_spec. reflexivity.
          -- rewrite aget_ainsert_other; [apply E3|exact method_eqb_spec|].
             intros ->. rewrite (proj2 (method_eqb_spec _ _) eq_refl) in E. discriminate.
        * exists p, (CRoute m h). split; [left; reflexivity|]. split; [discriminate|reflexivity].
      + destruct (A w u X) as (A1 & A2 & q & d & A3 & A4 & A5). split; [|split].
        * exact A1.
        * intros mt. cbn [routes_on flat_map fst snd]. fold (routes_on T w). rewrite (proj2 (str_eqb_neq _ _) (not_eq_sym NE)). apply A2.
        * exists q, d. split; [right; exact A3|auto].
    - intros q d I ND. destruct (list_eq_dec N.eq_dec (text q) (text p)) as [E|E].
      + eexists. apply V. left. split; [exact E|reflexivity].
      + destruct I as [I|I]; [injection I as <- <-; congruence|]. destruct (B q d I ND) as [u X]. exists u. apply V. auto.
  Qed.

  Lemma star_not_dup p pn : star_check (length p) 0 p = Some pn -> pn = PStarInName \/ pn = PStarNotLast.
  Proof. intros E. apply star_check_panic in E as (p0 & s & p1 & _ & _ & _ & [[_ ->]|(_ & _ & ->)]); auto. Qed.

  (** A walk that does not succeed. *)
  Lemma walk_failed (t t' : node) path final pn : radix t -> segments path <> [] -> radixes final ->
    walk t (segments path) final = (t', Some pn) ->
    (exists x, snd (final x) = Some pn /\ splice (text (segments path)) t t' x (fst (final x))) \/ (pn = PAmbiguous /\ same_vals t t').
  Proof.
    intros R NP K E. destruct (walk_splice (segments path) t final R NP (nonempty_segments path) K) as [(x & S & P)|(S & SV)].
    - rewrite E in S, P. left. exists x. auto.
    - rewrite E in S, SV. right. split; [cbn [snd] in S; congruence|exact SV].
  Qed.

  Lemma rejected_trep (o : op H M) t T t' pn : trep t T -> run_op t o = (t', Some pn) -> trep t' (end_table T o (Some pn)).
  Proof.
    intros TR E. pose proof TR as (R & _). destruct o as [m path h|path mw|mw|path sub].
    - cbn [run_op] in E. unfold insert_route in E. destruct (star_check _ _ _) as [pn'|] eqn:Es.
      + injection E as <- <-. destruct (star_not_dup _ _ Es) as [-> | ->]; exact TR.
      + destruct (segments path) as [|s0 p0] eqn:Ep.
        * cbn [is_empty] in E. unfold insert_default_route in E. destruct (radixes_set_route (Route m h) t R) as [R' _].
          assert (pn = PDuplicate) as -> by (apply (set_route_end (Route m h) t); rewrite E; reflexivity).
          cbn [end_table]. rewrite Ep. apply (trep_first t t' T [] m h t TR). rewrite E in R' |- *. exact (splice_here t t' R R').
        * rewrite <- Ep in *. assert (NP : segments path <> []) by (rewrite Ep; discriminate).
          rewrite (proj2 (is_empty_false _) NP) in E.
          destruct (walk_failed t t' path _ pn R NP (radixes_set_route _) E) as [(x & S & P)|[-> SV]].
          -- assert (pn = PDuplicate) as -> by exact (set_route_end _ _ _ S). cbn [end_table]. exact (trep_first t t' T _ m h x TR P).
          -- exact (trep_same t t' T TR SV).
    - assert (X : end_table T (OServiceTo path mw) (Some pn) = T) by (cbn [end_table]; destruct pn; reflexivity). rewrite X.
      cbn [run_op] in E. unfold insert_middleware in E. destruct (star_check _ _ _) as [pn'|] eqn:Es; [injection E as <- _; exact TR|].
      destruct (segments path) as [|s0 p0] eqn:Ep; [discriminate|]. rewrite <- Ep in *.
      assert (NP : segments path <> []) by (rewrite Ep; discriminate).
      destruct (walk_failed t t' path _ pn R NP (radixes_push _) E) as [(x & S & P)|[-> SV]]; [|exact (trep_same t t' T TR SV)].
      destruct x; discriminate S.
    - cbn [run_op] in E. unfold insert_default_middleware in E. destruct t; discriminate E.
    - assert (X : end_table T (ORouter path sub) (Some pn) = T) by (cbn [end_table]; destruct pn; reflexivity). rewrite X.
      rewrite run_op_router in E. destruct (build sub) as [src [pn'|]] eqn:Eb; cbn [fst snd] in E; [injection E as <- _; exact TR|].
      pose proof (build_trep sub src Eb) as TS. unfold insert_sub_route in E. destruct (star_check _ _ _) eqn:Es; [injection E as <- _; exact TR|].
      destruct (segments path) as [|s0 p0] eqn:Ep; [discriminate|]. rewrite <- Ep in *.
      assert (NP : segments path <> []) by (rewrite Ep; discriminate). rewrite (proj2 (is_empty_false _) NP) in E.
      destruct (walk_failed t t' path _ pn R NP (radixes_mount src (proj1 TS)) E) as [(x & S & P)|[-> SV]]; [|exact (trep_same t t' T TR SV)].
      apply (trep_same t t' T TR). destruct x as [k v cs]. cbn [mount] in *. destruct (_ || _); [|discriminate]. exact (splice_same _ _ _ _ P).
  Qed.

  (** ** All calls *)

  Definition tinv (t : node) (T : table H M) : Prop :=
    nice t /\ trep t T /\ goods T /\ forall p c, In (p, c) T -> c <> CNode -> leads valued t false p.

  Lemma has_valued c (n : node) : has c n -> valued n.
  Proof. intros X Y. exact (has_none c n Y X). Qed.

  Lemma build_tinv (l : list (op H M)) t : build l = (t, None) -> tinv t (table_of l).
  Proof.
    intros B. destruct (build_inv l t B) as [N L]. split; [exact N|]. split; [exact (build_trep l t B)|]. split; [exact (build_goods l t B)|].
    intros p c I NC. exact (leads_weaken _ _ (has_valued c) _ _ _ (L p c I NC)).
  Qed.

  Lemma tinv_new : tinv trie_new [].
  Proof. split; [exact nice_new|]. split; [exact trep_new|]. split; [intros p c []|intros p c []]. Qed.

  (** What a successful call adds. *)
  Lemma accepted_ways (o : op H M) t T t' : nice t -> (forall p c, In (p, c) T -> c <> CNode -> leads valued t false p) ->
    run_op t o = (t', None) -> forall p c, In (p, c) (after T o) -> c <> CNode -> leads valued t' false p.
  Proof.
    intros N L E. assert (KEEP : ~ root_mount o -> forall p, leads valued t false p -> leads valued t' false p).
    { intros NR p X. replace t' with (fst (t', @None panic)) by reflexivity. rewrite <- E. apply run_op_valued; [exact N|intros RM; contradiction|exact X]. }
    destruct (run_op_inv o t [] t') as [_ L']; [split; [exact N|intros p c []]|exact E|].
    assert (NEW : forall p c, In (p, c) (after [] o) -> c <> CNode -> leads valued t' false p).
    { intros p c I NC. exact (leads_weaken _ _ (has_valued c) _ _ _ (L' p c I NC)). }
    assert (NR : ~ root_mount o -> forall p c, In (p, c) (after T o) -> In (p, c) T \/ In (p, c) (after [] o)).
    { intros NR p c I. destruct o as [m path h|path mw|mw|path sub]; cbn [after app] in *.
      - apply in_app_or in I. exact I.
      - destruct (segments path); [auto|]. apply in_app_or in I. exact I.
      - apply in_app_or in I. exact I.
      - destruct (segments path) eqn:Ep; [exfalso; apply NR; exists path, sub; auto|]. apply in_app_or in I. exact I. }
    intros p c I NC.
    assert (D : root_mount o \/ ~ root_mount o).
    { destruct o as [m path h|path mw|mw|path sub]; try (right; intros (q & s & X & _); discriminate X).
      destruct (segments path) as [|s1 p1] eqn:Ep; [left; exists path, sub; auto|right]. intros (q0 & s0 & X & Y). injection X as <- <-. congruence. }
    destruct D as [(path & sub & -> & Ep)|D].
    - apply (NEW p c); [|exact NC]. cbn [after] in *. rewrite Ep in *. exact I.
    - destruct (NR D p c I) as [J|J]; [apply (KEEP D), (L p c J NC)|exact (NEW p c J NC)].
  Qed.

  Lemma run_op_tinv (o : op H M) t T : tinv t T -> tinv (fst (run_op t o)) (end_table T o (snd (run_op t o))).
  Proof.
    intros (N & TR & G & L). destruct (run_op t o) as [t' [pn|]] eqn:E; cbn [fst snd].
    - assert (N' : nice t') by (replace t' with (fst (t', Some pn)) by reflexivity; rewrite <- E; apply run_op_nice; exact N).
      split; [exact N'|]. split; [exact (rejected_trep o t T t' pn TR E)|].
      assert (KEEP : forall p, leads valued t false p -> leads valued t' false p).
      { intros p X. replace t' with (fst (t', Some pn)) by reflexivity. rewrite <- E. apply run_op_valued; [exact N|rewrite E; discriminate|exact X]. }
      assert (D : end_table T o (Some pn) = T \/ exists m path h, o = ORoute m path h /\ pn = PDuplicate).
      { destruct o as [m path h|path mw|mw|path sub]; cbn [end_table]; destruct pn; auto. right. exists m, path, h. auto. }
      destruct D as [D|(m & path & h & -> & ->)].
      + rewrite D. split; [exact G|]. intros p c I NC. apply KEEP, (L p c I NC).
      + cbn [end_table run_op] in *. unfold insert_route in E. destruct (star_check _ _ _) as [pn'|] eqn:Es.
        { injection E as <- ->. destruct (star_not_dup _ _ Es) as [X|X]; discriminate X. }
        apply star_check_spec in Es. split.
        * intros p c [I|I]; [injection I as <- <-; apply good_path; exact Es|exact (G p c I)].
        * intros p c [I|I] NC; [|apply KEEP, (L p c I NC)]. injection I as <- <-.
          destruct (is_empty (segments path)) eqn:Ei.
          -- apply is_empty_true in Ei. rewrite Ei. apply ld_end. unfold insert_default_route in E.
             replace t' with (fst (t', Some PDuplicate)) by reflexivity. rewrite <- E. apply set_route_valued.
          -- apply is_empty_false in Ei. replace t' with (fst (t', Some PDuplicate)) by reflexivity. rewrite <- E.
             apply walk_valued; [exact Ei|exact N|apply good_path; exact Es|rewrite E; discriminate].
    - assert (N' : nice t') by (replace t' with (fst (t', @None panic)) by reflexivity; rewrite <- E; apply run_op_nice; exact N).
      split; [exact N'|]. split; [exact (run_op_trep o t T t' TR E)|]. split; [exact (run_op_goods o t T t' G E)|].
      exact (accepted_ways o t T t' N L E).
  Qed.

  Lemma caught_tinv (l : list (op H M)) : forall t T, tinv t T -> tinv (run_caught t l) (caught_table t T l).
  Proof. induction l as [|o l IH]; intros t T I; cbn [run_caught caught_table]; [exact I|]. apply IH, run_op_tinv, I. Qed.

  (** ** Lookups *)

  Lemma own_tinv (t : node) T p c path b : tinv t T -> In (p, c) T -> c <> CNode -> no_star p -> seg_match p (segments path) b ->
    exists r, search_route t path = LSome r /\ hands_out T (text p) r /\ forall n, pget n (rr_params r) = first_binding b n.
  Proof.
    intros (_ & TR & G & L) I NC NS S. destruct p as [|s p].
    - apply seg_match_nil in S as [EP ->]. apply (root_lookup t _ path TR EP). exists c. auto.
    - assert (A : answers valued (last_literal false (s :: p))).
      { intros m Qm. left. unfold valued in Qm. destruct (nval m); [eauto|congruence]. }
      destruct (way_lookup t _ valued (s :: p) path b TR (good_no_star _ (G _ _ I) NS) ltac:(discriminate) (L _ _ I NC) A S)
        as (m & f & x & r & E & Qm & AN & _ & HO & PB).
      exists r. split; [exact E|]. split; [|exact PB]. destruct AN as [(_ & -> & _)|(Em & _)].
      + rewrite app_nil_r in HO. exact HO.
      + exfalso. exact (Qm Em).
  Qed.

  Theorem caught_text (l : list (op H M)) :
    let t := run_caught trie_new l in
    let U := caught_table trie_new [] l in
    (forall path r, search_route t path = LSome r -> exists p c, In (p, c) U /\ c <> CNode /\ hands_out U (text p) r) /\
    (forall p c path b, In (p, c) U -> c <> CNode -> no_star p -> seg_match p (segments path) b ->
       exists r, search_route t path = LSome r /\ hands_out U (text p) r /\ forall n, pget n (rr_params r) = first_binding b n).
  Proof.
    intros t U. assert (TI : tinv t U) by (apply caught_tinv; exact tinv_new). split.
    - intros path r E. exact (found_trep t U path r (proj1 (proj2 TI)) E).
    - intros p c path b. exact (own_tinv t U p c path b TI).
  Qed.
End TextCaught.
