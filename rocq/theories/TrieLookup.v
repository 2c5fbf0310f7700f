(** Lookup in a trie that represents a table is the resolution of the table. *)

From Verif Require Import Base BaseFacts RouteTrie Router TableSpec TrieDen TrieIns TrieRep TrieBuild TrieSearch.

Lemma prefixes_down_app pre a b :
  prefixes_down pre (a ++ b) = prefixes_down (pre ++ a) b ++ prefixes_down pre a.
Proof.
  revert pre; induction a as [|x a IH]; intros pre; simpl.
  - rewrite app_nil_r, app_nil_r. reflexivity.
  - rewrite IH, <- !app_assoc. reflexivity.
Qed.

Lemma in_prefixes_down pre ts p :
  In p (prefixes_down pre ts) <-> exists x y, p = pre ++ x /\ x <> [] /\ ts = x ++ y.
Proof.
  revert pre; induction ts as [|t ts IH]; intros pre; simpl.
  - split; [intros []|]. intros (x & y & _ & N & E). symmetry in E. apply app_eq_nil in E as [E _]. contradiction.
  - rewrite in_app_iff, IH. simpl. split.
    + intros [(x & y & -> & N & ->)|[<-|[]]].
      * exists (t :: x), y. rewrite <- app_assoc. repeat split. discriminate.
      * exists [t], ts. repeat split. discriminate.
    + intros (x & y & -> & N & E). destruct x as [|t' x]; [congruence|]. simpl in E. injection E as <- ->.
      destruct x as [|u x].
      * right. left. reflexivity.
      * left. exists (u :: x), y. rewrite <- app_assoc. repeat split. discriminate.
Qed.

Lemma spell_cons_Ch c us : spell (Ch c :: us) = c :: spell us.
Proof. reflexivity. Qed.

Lemma spell_nil ts : spell ts = [] -> ts = [].
Proof. destruct ts as [|[c|n|] ts]; [reflexivity| | |]; discriminate. Qed.

Section Lookup.
  Context {H M : Type}.
  Notation node := (node H M).
  Notation rvalue := (rvalue H M).
  Notation table := (table H M).

  Lemma an_dn (n : node) ts f l : an n ts f l -> dn n ts (nval f).
  Proof. intros A. induction A; [constructor|]. constructor; assumption. Qed.

  Lemma dn_an (n : node) ts w : dn n ts w -> exists f l, an n ts f l /\ nval f = w.
  Proof.
    intros D. induction D as [n|n c r w I D (f & l & A & E)].
    - exists n, []. split; [constructor|reflexivity].
    - exists f, (l ++ val_mws (nval c)). split; [constructor; assumption|exact E].
  Qed.

  Lemma an_wf (n : node) ts f l : an n ts f l -> wf n -> wf f.
  Proof. intros A. induction A; intros W; [exact W|]. apply IHA. eapply wf_kid; eauto. Qed.

  Lemma an_located (t : node) pre n l r w : wf t -> an t pre n l -> (dn t (pre ++ r) w <-> dn n r w).
  Proof.
    intros W A. revert W. induction A as [n|n c p f l I A IH]; intros W; [reflexivity|].
    rewrite <- app_assoc. rewrite <- (IH (wf_kid _ _ W I)). split; intros D.
    - eapply dn_via; eauto.
    - constructor; assumption.
  Qed.

  Lemma isn_located (t : node) pre n l r : wf t -> an t pre n l -> (isn t (pre ++ r) <-> isn n r).
  Proof. intros W A. apply isn_iff. intros w. eapply an_located; eauto. Qed.

  Lemma an_app (n : node) a g l b f l' : an n a g l -> an g b f l' -> an n (a ++ b) f (l' ++ l).
  Proof.
    intros A B. induction A as [n|n c p g l I A IH].
    - rewrite app_nil_r. exact B.
    - rewrite <- (app_assoc (kt c)), (app_assoc l'). constructor; auto.
  Qed.

  Lemma an_inv_kid (n : node) c r f l : wf n -> In c (nkids n) -> an n (kt c ++ r) f l ->
    exists l', l = l' ++ val_mws (nval c) /\ an c r f l'.
  Proof.
    intros W I A. remember (kt c ++ r) as ts eqn:E. destruct A as [n|n d r' f l I' A'].
    - exfalso. apply (kt_nil _ _ (wf_kids _ W) I). symmetry in E. apply app_eq_nil in E. tauto.
    - assert (c = d) by (eapply kids_unique_app; eauto using wf_kids). subst d.
      apply app_inv_head in E. subst. eauto.
  Qed.

  Lemma an_fun (n : node) ts f l f' l' : wf n -> an n ts f l -> an n ts f' l' -> f = f' /\ l = l'.
  Proof.
    intros W A. revert f' l' W. induction A as [n|n c p g l I A IH]; intros f' l' W B.
    - remember [] as ts eqn:E in B. destruct B as [n|n d r' f l I' A']; [auto|].
      exfalso. apply app_eq_nil in E as [E _]. apply (kt_nil _ _ (wf_kids _ W) I' E).
    - apply an_inv_kid in B as (l2 & -> & B); auto.
      destruct (IH _ _ (wf_kid _ _ W I) B) as [-> ->]. auto.
  Qed.

  (** ** Middlewares *)

  Lemma rep_mws (t : node) (T : table) ts w : Rep t T -> dn t ts w -> mws_at T ts = val_mws w.
  Proof.
    intros R D. destruct (has_value_dec T ts) as [HV|NV].
    - assert (D' : dv t ts (val_of T ts)) by (apply (rep_dv _ _ R); auto).
      assert (E : w = Some (val_of T ts)) by (eapply dn_fun; eauto using rep_wf). subst w. reflexivity.
    - destruct w as [v|].
      + exfalso. apply NV. apply (rep_dv _ _ R) in D. tauto.
      + apply no_value_nil in NV. apply NV.
  Qed.

  Lemma rep_mws_not (t : node) (T : table) ts : Rep t T -> ~ isn t ts -> mws_at T ts = [].
  Proof.
    intros R N. destruct (has_value_dec T ts) as [HV|NV].
    - exfalso. apply N. exists (Some (val_of T ts)). apply (rep_dv _ _ R). auto.
    - apply no_value_nil in NV. apply NV.
  Qed.

  Lemma flat_map_nil {A B} (f : A -> list B) l : (forall x, In x l -> f x = []) -> flat_map f l = [].
  Proof.
    induction l as [|x l IH]; intros E; [reflexivity|]. simpl. rewrite (E x (or_introl eq_refl)), IH; [reflexivity|].
    intros y I. apply E. right. exact I.
  Qed.

  Lemma an_mws (t : node) (T : table) : Rep t T -> forall n r f l, an n r f l ->
    forall pre l0, an t pre n l0 -> l = flat_map (mws_at T) (prefixes_down pre r).
  Proof.
    intros R n r f l A. pose proof (rep_wf _ _ R) as W.
    induction A as [n|n c r f l I A IH]; intros pre l0 L; [reflexivity|].
    assert (Wn : wf n) by (eapply an_wf; eauto).
    rewrite prefixes_down_app, flat_map_app. f_equal.
    - apply (IH (pre ++ kt c) (val_mws (nval c) ++ l0)).
      eapply an_app; [exact L|]. rewrite <- (app_nil_r (kt c)).
      change (val_mws (nval c)) with (@nil M ++ val_mws (nval c)). constructor; [exact I|constructor].
    - destruct (kt_cons _ _ (wf_kids _ Wn) I) as (t0 & r0 & Ek).
      assert (Kn : kt c <> []) by (rewrite Ek; discriminate).
      destruct (exists_last Kn) as (x & z & Ex). rewrite Ex, prefixes_down_app.
      cbn [prefixes_down app flat_map].
      replace ((pre ++ x) ++ [z]) with (pre ++ kt c) by (rewrite Ex; apply app_assoc).
      rewrite flat_map_nil.
      + rewrite app_nil_r. symmetry. eapply rep_mws; [exact R|].
        apply (an_located t pre n l0); [exact W|exact L|].
        rewrite <- (app_nil_r (kt c)). constructor; [exact I|constructor].
      + intros p Ip. apply in_prefixes_down in Ip as (u & v & -> & Nu & Eu).
        eapply rep_mws_not; [exact R|]. rewrite (isn_located t pre n l0 u W L).
        intros [w D]. apply dn_inv in D as [[-> _]|(d & s & Id & -> & D)]; [congruence|].
        assert (c = d).
        { eapply (kids_unique_app (nkids n) c d [] (s ++ v ++ [z])); eauto using wf_kids.
          rewrite app_nil_r, Ex, Eu, <- !app_assoc. reflexivity. }
        subst d. rewrite Eu in Ex. rewrite <- !app_assoc in Ex.
        assert (F : length (kt c) = length (kt c ++ s ++ v ++ [z])) by (rewrite <- Ex; reflexivity).
        rewrite !app_length in F. simpl in F. lia.
  Qed.

  (** ** Reading *)

  Section Reading.
    Variables (t : node) (T : table).
    Hypothesis R : Rep t T.
    Let W : wf t := rep_wf _ _ R.

    Inductive rdL : list tok -> list str -> bool -> list tok -> list (str * str) -> bool -> Prop :=
    | rl_nil pre pv : rdL pre [] pv [] [] pv
    | rl_lit pre c us Q pv ts ps last :
        boundary T (pre ++ Ch c :: us) ->
        rdL (pre ++ Ch c :: us) Q true ts ps last ->
        rdL pre (spell (Ch c :: us) :: Q) pv ((Ch c :: us) ++ ts) ps last
    | rl_par pre n s Q pv ts ps last :
        boundary T (pre ++ [Par n]) ->
        rdL (pre ++ [Par n]) Q false ts ps last ->
        rdL pre (s :: Q) pv (Par n :: ts) ((n, s) :: ps) last.

    Lemma rdL_reads pre Q pv ts ps last : rdL pre Q pv ts ps last -> reads T pre Q ts ps.
    Proof. intros D; induction D; constructor; assumption. Qed.

    Lemma reads_rdL pre Q ts ps : reads T pre Q ts ps -> forall pv, exists last, rdL pre Q pv ts ps last.
    Proof.
      intros D; induction D as [pre|pre c us Q ts ps B D IH|pre n s Q ts ps B D IH]; intros pv.
      - exists pv. constructor.
      - destruct (IH true) as [l X]. exists l. constructor; assumption.
      - destruct (IH false) as [l X]. exists l. constructor; assumption.
    Qed.

    Lemma rdL_last pre Q pv ts ps : Q <> [] ->
      (rdL pre Q pv ts ps true <->
       exists Q0 ts0 c us, Q = Q0 ++ [spell (Ch c :: us)] /\ reads T pre Q0 ts0 ps /\
                           boundary T (pre ++ ts0 ++ Ch c :: us) /\ ts = ts0 ++ Ch c :: us).
    Proof.
      split.
      - intros D. remember true as last eqn:El. revert El.
        induction D as [pre pv|pre c us Q pv ts ps last B D IH|pre n s Q pv ts ps last B D IH]; intros ->; [congruence| |].
        + destruct Q as [|q Q].
          * inversion D; subst. exists [], [], c, us. rewrite app_nil_r. repeat split; [constructor|exact B].
          * destruct IH as (Q0 & ts0 & c' & us' & E & RD & B' & ->); [discriminate|reflexivity|].
            exists (spell (Ch c :: us) :: Q0), ((Ch c :: us) ++ ts0), c', us'. repeat split.
            -- rewrite E. reflexivity.
            -- constructor; assumption.
            -- rewrite <- app_assoc in B'. rewrite <- app_assoc. exact B'.
            -- apply app_assoc.
        + destruct Q as [|q Q].
          * inversion D.
          * destruct IH as (Q0 & ts0 & c' & us' & E & RD & B' & ->); [discriminate|reflexivity|].
            exists (s :: Q0), (Par n :: ts0), c', us'. repeat split.
            -- rewrite E. reflexivity.
            -- constructor; assumption.
            -- rewrite <- app_assoc in B'. exact B'.
      - intros (Q0 & ts0 & c & us & -> & RD & B & ->).
        clear -RD B. revert pv. induction RD as [pre|pre c' us' Q ts ps B' D IH|pre n s Q ts ps B' D IH]; intros pv.
        + cbn [app]. replace (Ch c :: us) with ((Ch c :: us) ++ []) at 2 by apply app_nil_r.
          apply rl_lit; [exact B|constructor].
        + rewrite <- app_assoc. cbn [app]. apply rl_lit; [exact B'|]. apply IH. rewrite <- app_assoc in *. exact B.
        + cbn [app]. apply rl_par; [exact B'|]. apply IH. rewrite <- app_assoc. exact B.
    Qed.

    Lemma kt_spell (n c : node) : wf n -> In c (nkids n) -> spell (kt c) = nkey c.
    Proof. intros Wn I. apply spell_seg_toks. apply (wf_kids _ Wn). exact I. Qed.

    Lemma lit_kt (c : node) : key_ok (nkey c) -> lit_ok (nkey c) -> exists x us, kt c = Ch x :: us.
    Proof.
      intros K L. unfold kt. rewrite (seg_toks_lit _ L). destruct (nkey c) as [|x r]; [destruct (key_ok_nil K)|].
      simpl. eauto.
    Qed.

    Lemma kt_lit (c : node) x us : key_ok (nkey c) -> kt c = Ch x :: us -> lit_ok (nkey c).
    Proof.
      unfold kt. intros K E. inversion K as [r E'|E'|s N L E']; [| |exact L].
      - rewrite <- E' in E. discriminate.
      - rewrite <- E' in E. discriminate.
    Qed.

    Lemma kid_boundary pre n l c : an t pre n l -> In c (nkids n) -> boundary T (pre ++ kt c).
    Proof.
      intros L I. apply (rep_isn _ _ R). apply (isn_located t pre n l); auto. apply isn_kid. exact I.
    Qed.

    Lemma an_down pre n l c : an t pre n l -> In c (nkids n) -> an t (pre ++ kt c) c (val_mws (nval c) ++ l).
    Proof.
      intros L I. eapply an_app; [exact L|]. rewrite <- (app_nil_r (kt c)).
      change (val_mws (nval c)) with (@nil M ++ val_mws (nval c)). constructor; [exact I|constructor].
    Qed.

    (** From the trie to the table. *)
    Lemma rdN_rdL n bp Q pv f ts ps last : rdN n bp Q pv f ts ps last ->
      forall pre l, an t pre n l ->
      (exists l', an n ts f l') /\
      (if bp then exists s Q0 us ts', Q = s :: Q0 /\ ts = us ++ ts' /\ us <> [] /\ spell us = s /\
                    boundary T (pre ++ us) /\ rdL (pre ++ us) Q0 true ts' ps last
       else rdL pre Q pv ts ps last).
    Proof.
      intros D. induction D as [n pv|n c nm s Q pv f ts ps last I E D IH
                                |n c bp s Q pv f ts ps last I E BL D IH
                                |n c bp s s' Q pv f ts ps last I E N BL D IH]; intros pre l L.
      - split; [exists []; constructor|constructor].
      - assert (Kt : kt c = [Par nm]) by (unfold kt; rewrite E; reflexivity).
        destruct (IH _ _ (an_down _ _ _ _ L I)) as [[l' A] X]. split.
        + change (Par nm :: ts) with ([Par nm] ++ ts). rewrite <- Kt. eexists. constructor; eassumption.
        + constructor; rewrite <- Kt; [eapply kid_boundary; eauto|exact X].
      - assert (Wn : wf n) by (eapply an_wf; eauto).
        destruct (IH _ _ (an_down _ _ _ _ L I)) as [[l' A] X]. split; [eexists; constructor; eassumption|].
        assert (Sp : spell (kt c) = s) by (rewrite (kt_spell n c Wn I); exact E).
        pose proof (kid_boundary _ _ _ _ L I) as B.
        destruct bp.
        + exists s, Q, (kt c), ts. repeat split; auto. apply (kt_nil _ _ (wf_kids _ Wn) I).
        + destruct BL as [BL|BL]; [discriminate|].
          assert (Kc : key_ok (nkey c)) by (apply (wf_kids _ Wn); exact I).
          destruct (lit_kt c Kc BL) as (x & us & Ek). rewrite Ek in *. rewrite <- Sp.
          constructor; assumption.
      - assert (Wn : wf n) by (eapply an_wf; eauto).
        destruct (IH _ _ (an_down _ _ _ _ L I)) as [[l' A] X]. split; [eexists; constructor; eassumption|].
        destruct X as (s0 & Q0 & us & ts' & EQ & -> & Nu & Su & B & RD). injection EQ as <- <-.
        assert (Sp : spell (kt c ++ us) = s) by (rewrite spell_app, (kt_spell n c Wn I), Su; symmetry; exact E).
        rewrite <- app_assoc in B, RD.
        destruct bp.
        + exists s, Q, (kt c ++ us), ts'. repeat split; auto; [apply app_assoc|].
          intros F. apply app_eq_nil in F as [_ F]. contradiction.
        + destruct BL as [BL|BL]; [discriminate|].
          assert (Kc : key_ok (nkey c)) by (apply (wf_kids _ Wn); exact I).
          destruct (lit_kt c Kc BL) as (x & us0 & Ek). rewrite Ek in *. rewrite <- Sp.
          rewrite app_assoc. constructor; assumption.
    Qed.

    (** From the table to the trie. *)
    Lemma literal_down (n : node) us g l : an n us g l -> wf n -> us <> [] ->
      forall bp pv Q f ts ps last,
      (bp = true \/ exists x r, us = Ch x :: r) ->
      rdN g false Q true f ts ps last -> rdN n bp (spell us :: Q) pv f (us ++ ts) ps last.
    Proof.
      intros A. induction A as [n|n c r g l I A IH]; intros Wn N bp pv Q f ts ps last B D; [congruence|].
      assert (Kc : key_ok (nkey c)) by (apply (wf_kids _ Wn); exact I).
      assert (BL : bp = true \/ lit_ok (nkey c)).
      { destruct B as [B|(x & us & E)]; [left; exact B|right].
        destruct (kt_cons _ _ (wf_kids _ Wn) I) as (t0 & r0 & Ek). rewrite Ek in E. injection E as -> _.
        eapply kt_lit; eauto. }
      rewrite spell_app, (kt_spell n c Wn I), <- app_assoc.
      destruct r as [|t0 r].
      - inversion A; subst.
        + simpl. rewrite app_nil_r. apply rn_end; auto.
        + exfalso. apply app_eq_nil in H0 as [F _]. apply (kt_nil (nkids c) c0); auto.
          apply wf_kids. eapply wf_kid; eauto.
      - eapply rn_mid; eauto.
        + intros F. apply spell_nil in F. discriminate.
        + apply IH; auto; [eapply wf_kid; eauto|discriminate].
    Qed.

    Lemma rdL_rdN pre Q pv ts ps last : rdL pre Q pv ts ps last ->
      forall n l, an t pre n l -> exists f, rdN n false Q pv f ts ps last.
    Proof.
      intros D. induction D as [pre pv|pre c us Q pv ts ps last B D IH|pre nm s Q pv ts ps last B D IH]; intros n l L.
      - exists n. constructor.
      - assert (Wn : wf n) by (eapply an_wf; eauto).
        apply (rep_isn _ _ R), (isn_located t pre n l) in B; auto.
        destruct B as [w Dn]. apply dn_an in Dn as (g & lg & Ag & _).
        destruct (IH g _ (an_app _ _ _ _ _ _ _ L Ag)) as [f RD].
        exists f. eapply literal_down; eauto; discriminate.
      - assert (Wn : wf n) by (eapply an_wf; eauto).
        apply (rep_isn _ _ R), (isn_located t pre n l) in B; auto.
        apply isn_cons_wf in B as (c & r & x & I & Ek & E & _); [|exact Wn].
        assert (P : is_param c = true) by (eapply hd_par_is_param; eauto).
        assert (Ec : nkey c = c_colon :: nm).
        { pose proof P as P2. unfold is_param in P2. apply starts_colon_spec in P2 as [r' E'].
          unfold kt in Ek. rewrite E' in Ek. injection Ek as <- _. exact E'. }
        assert (Kt : kt c = [Par nm]) by (unfold kt; rewrite Ec; reflexivity).
        pose proof (an_down _ _ _ _ L I) as Lc. rewrite Kt in Lc.
        destruct (IH c _ Lc) as [f RD]. exists f. econstructor; eauto.
    Qed.

    Lemma rdN_fun (n : node) bp Q pv f ts ps last : rdN n bp Q pv f ts ps last -> wf n ->
      forall f' ts' ps' last', rdN n bp Q pv f' ts' ps' last' -> f = f' /\ ts = ts' /\ ps = ps' /\ last = last'.
    Proof.
      intros D. induction D as [n pv|n c nm s Q pv f ts ps last I E D IH
                                |n c bp s Q pv f ts ps last I E BL D IH
                                |n c bp s s' Q pv f ts ps last I E N BL D IH]; intros Wn f' ts' ps' last' D'.
      - apply rdN_nil in D' as (_ & -> & -> & -> & ->). auto.
      - apply (rdN_par n c nm s Q) in D' as (ts2 & ps2 & -> & -> & D'); auto.
        destruct (IH (wf_kid _ _ Wn I) _ _ _ _ D') as (-> & -> & -> & ->). auto.
      - apply (rdN_lit n c bp s [] Q) in D' as (ts2 & -> & D'); auto.
        + destruct (IH (wf_kid _ _ Wn I) _ _ _ _ D') as (-> & -> & -> & ->). auto.
        + split; [rewrite E; apply prefix_refl|exact BL].
        + rewrite app_nil_r. auto.
      - apply (rdN_lit n c bp s s' Q) in D' as (ts2 & -> & D'); auto.
        + destruct s' as [|x s']; [congruence|]. cbn [is_empty negb rest_of] in D'.
          destruct (IH (wf_kid _ _ Wn I) _ _ _ _ D') as (-> & -> & -> & ->). auto.
        + split; [rewrite E; apply prefix_app|exact BL].
    Qed.

    Lemma reads_fun Q ts ps ts' ps' : reads T [] Q ts ps -> reads T [] Q ts' ps' -> ts = ts' /\ ps = ps'.
    Proof.
      intros A B. destruct (reads_rdL _ _ _ _ A true) as [l A']. destruct (reads_rdL _ _ _ _ B true) as [l' B'].
      destruct (rdL_rdN _ _ _ _ _ _ A' t [] (an_here t)) as [f A2].
      destruct (rdL_rdN _ _ _ _ _ _ B' t [] (an_here t)) as [f' B2].
      destruct (rdN_fun _ _ _ _ _ _ _ _ A2 W _ _ _ _ B2) as (_ & -> & -> & _). auto.
    Qed.

    Lemma value_at ts f l : an t ts f l -> (nval f <> None <-> has_value T ts).
    Proof.
      intros A. pose proof (an_dn _ _ _ _ A) as D. split.
      - intros N. destruct (nval f) as [v|]; [|congruence]. apply (rep_dv _ _ R) in D. tauto.
      - intros HV. assert (D' : dv t ts (val_of T ts)) by (apply (rep_dv _ _ R); auto).
        unfold dv in D'. rewrite (dn_fun _ _ _ _ W D D'). discriminate.
    Qed.

    Lemma ex_hit Q f ts ps : exN t false Q f ts ps -> exact_hit T Q ts ps /\ exists l, an t ts f l.
    Proof.
      intros (last & D & V). destruct (rdN_rdL _ _ _ _ _ _ _ _ D [] [] (an_here t)) as [[l A] X].
      split; [|eauto]. split; [eapply rdL_reads; exact X|]. eapply value_at; eauto.
    Qed.

    Lemma hit_ex Q ts ps : exact_hit T Q ts ps -> exists f, exN t false Q f ts ps.
    Proof.
      intros [RD HV]. destruct (reads_rdL _ _ _ _ RD true) as [l A].
      destruct (rdL_rdN _ _ _ _ _ _ A t [] (an_here t)) as [f A2]. exists f, l. split; [exact A2|].
      destruct (rdN_rdL _ _ _ _ _ _ _ _ A2 [] [] (an_here t)) as [[l' A'] _]. eapply value_at; eauto.
    Qed.

    Lemma star_kid (g f : node) : In f (nkids g) -> nkey f = s_star -> kt f = [Star].
    Proof. intros _ E. unfold kt. rewrite E. reflexivity. Qed.

    Lemma isn_star_kid (g : node) : wf g -> isn g [Star] -> exists f, In f (nkids g) /\ nkey f = s_star.
    Proof.
      intros Wg J. apply isn_cons_wf in J as (c & r & x & I & Ek & E & _); [|exact Wg].
      exists c. split; [exact I|]. eapply hd_star_is_star; eauto. apply (wf_kids _ Wg). exact I.
    Qed.

    Lemma an_star_down ts g l f : an t ts g l -> In f (nkids g) -> nkey f = s_star -> exists l', an t (ts ++ [Star]) f l'.
    Proof. intros A I E. eexists. eapply an_app; [exact A|]. apply an_star; assumption. Qed.

    Lemma be_hit Q f ts ps : Q <> [] -> beN t false Q f ts ps -> below_hit T Q ts ps /\ exists l, an t ts f l.
    Proof.
      intros N (g & ts0 & D & V & I & E & Vf & ->).
      destruct (rdN_rdL _ _ _ _ _ _ _ _ D [] [] (an_here t)) as [[l A] X].
      destruct (an_star_down _ _ _ _ A I E) as [l' A'].
      split; [|eauto]. apply rdL_last in X as (Q0 & ts1 & c & us & EQ & RD & B & ->); [|exact N].
      exists Q0, ts1, c, us. repeat split; auto.
      - rewrite <- (value_at _ _ _ A). congruence.
      - rewrite <- (value_at _ _ _ A'). exact Vf.
    Qed.

    Lemma hit_be Q ts ps : below_hit T Q ts ps -> exists f, beN t false Q f ts ps.
    Proof.
      intros (Q0 & ts0 & c & us & -> & RD & B & NV & -> & HV).
      assert (X : rdL [] (Q0 ++ [spell (Ch c :: us)]) true (ts0 ++ Ch c :: us) ps true).
      { apply rdL_last; [destruct Q0; discriminate|]. exists Q0, ts0, c, us. auto. }
      destruct (rdL_rdN _ _ _ _ _ _ X t [] (an_here t)) as [g D].
      destruct (rdN_rdL _ _ _ _ _ _ _ _ D [] [] (an_here t)) as [[l A] _].
      assert (J : isn t ((ts0 ++ Ch c :: us) ++ [Star])).
      { exists (Some (val_of T ((ts0 ++ Ch c :: us) ++ [Star]))). apply (rep_dv _ _ R). auto. }
      apply (isn_located t _ g l) in J; auto.
      apply isn_star_kid in J as (f & I & E); [|eapply an_wf; eauto].
      destruct (an_star_down _ _ _ _ A I E) as [l' A'].
      exists f, g, (ts0 ++ Ch c :: us). repeat split; auto.
      - destruct (nval g) eqn:Ev; [|reflexivity]. exfalso. apply NV. rewrite <- (value_at _ _ _ A). congruence.
      - rewrite (value_at _ _ _ A'). exact HV.
    Qed.

    Lemma wi_hit Q k f ts ps : wiN t false Q k f ts ps -> wild_hit T Q k ts ps /\ exists l, an t ts f l.
    Proof.
      intros (L & g & ts0 & last & D & I & E & ->).
      destruct (rdN_rdL _ _ _ _ _ _ _ _ D [] [] (an_here t)) as [[l A] X].
      destruct (an_star_down _ _ _ _ A I E) as [l' A'].
      split; [|eauto]. split; [exact L|]. exists ts0. repeat split.
      - eapply rdL_reads; exact X.
      - apply (rep_isn _ _ R). exists (nval f). eapply an_dn; exact A'.
    Qed.

    Lemma hit_wi Q k ts ps : wild_hit T Q k ts ps -> exists f, wiN t false Q k f ts ps.
    Proof.
      intros (L & ts0 & RD & -> & B).
      destruct (reads_rdL _ _ _ _ RD true) as [last X].
      destruct (rdL_rdN _ _ _ _ _ _ X t [] (an_here t)) as [g D].
      destruct (rdN_rdL _ _ _ _ _ _ _ _ D [] [] (an_here t)) as [[l A] _].
      apply (rep_isn _ _ R), (isn_located t _ g l) in B; auto.
      apply isn_star_kid in B as (f & I & E); [|eapply an_wf; eauto].
      exists f. split; [exact L|]. exists g, ts0, last. auto.
    Qed.

    Lemma wild_fun Q k ts ps ts' ps' : wild_hit T Q k ts ps -> wild_hit T Q k ts' ps' -> ts = ts' /\ ps = ps'.
    Proof.
      intros (_ & a & A & -> & _) (_ & b & B & -> & _). destruct (reads_fun _ _ _ _ _ A B) as [-> ->]. auto.
    Qed.

    Lemma exact_below Q ts ps ts' ps' : exact_hit T Q ts ps -> below_hit T Q ts' ps' -> False.
    Proof.
      intros [A HV] (Q0 & ts0 & c & us & -> & RD & B & NV & _).
      assert (X : rdL [] (Q0 ++ [spell (Ch c :: us)]) true (ts0 ++ Ch c :: us) ps' true).
      { apply rdL_last; [destruct Q0; discriminate|]. exists Q0, ts0, c, us. auto. }
      apply rdL_reads in X. destruct (reads_fun _ _ _ _ _ A X) as [-> _]. contradiction.
    Qed.

    Lemma below_fun Q ts ps ts' ps' : below_hit T Q ts ps -> below_hit T Q ts' ps' -> ts = ts' /\ ps = ps'.
    Proof.
      assert (G : forall ts ps, below_hit T Q ts ps -> exists u, ts = u ++ [Star] /\ reads T [] Q u ps).
      { intros x y (Q0 & ts0 & c & us & E & RD & B & NV & -> & _). exists (ts0 ++ Ch c :: us). split; [reflexivity|].
        eapply (rdL_reads _ _ true _ _ true). apply rdL_last; [rewrite E; destruct Q0; discriminate|].
        exists Q0, ts0, c, us. auto. }
      intros A B. apply G in A as (u & -> & A). apply G in B as (v & -> & B).
      destruct (reads_fun _ _ _ _ _ A B) as [-> ->]. auto.
    Qed.

    Lemma resolves_fun Q ts ps ts' ps' : resolves T Q ts ps -> resolves T Q ts' ps' -> ts = ts' /\ ps = ps'.
    Proof.
      intros [A|A|k A HA XA YA MA] [B|B|k' B HB XB YB MB].
      - destruct A as [A _], B as [B _]. eapply reads_fun; eauto.
      - exfalso. eapply exact_below; eauto.
      - exfalso. eapply XB; eauto.
      - exfalso. eapply exact_below; eauto.
      - eapply below_fun; eauto.
      - exfalso. eapply YB; eauto.
      - exfalso. eapply XA; eauto.
      - exfalso. eapply YA; eauto.
      - assert (k = k') by (pose proof (MA _ _ _ B); pose proof (MB _ _ _ A); lia). subst k'.
        eapply wild_fun; eauto.
    Qed.

    (** What a resolved request gets. *)
    Definition answer (ts : list tok) (ps : list (str * str)) : route_result H M :=
      RR (RV (mws_for T ts) (rmap (routes_at T ts))) (bind ps []).

    Lemma answer_at ts f l ps : an t ts f l -> has_value T ts ->
      exists v, nval f = Some v /\ answer ts ps = RR (RV (val_mws (nval t) ++ l) (rv_route v)) (bind ps []).
    Proof.
      intros A HV. pose proof (an_dn _ _ _ _ A) as D.
      assert (D' : dv t ts (val_of T ts)) by (apply (rep_dv _ _ R); auto).
      exists (val_of T ts). split; [exact (dn_fun _ _ _ _ W D D')|].
      unfold answer, mws_for. f_equal. f_equal. f_equal.
      - eapply rep_mws; [exact R|constructor].
      - symmetry. eapply an_mws; [exact R|exact A|constructor].
    Qed.

    Theorem search_spec path :
      (exists ts ps, resolves T (segments path) ts ps /\ search_route t path = LSome (answer ts ps)) \/
      ((forall ts ps, ~ resolves T (segments path) ts ps) /\ search_route t path = LNone).
    Proof.
      unfold search_route. remember (segments path) as Q eqn:EQ.
      assert (NE : forall s, In s Q -> s <> []) by (intros s I; rewrite EQ in I; apply (segments_ok _ _ I)).
      clear EQ. destruct (list_eq_dec (list_eq_dec N.eq_dec) Q []) as [->|NQ].
      - cbn [is_empty]. destruct (has_value_dec T []) as [HV|NV].
        + left. exists [], []. split; [apply res_exact; split; [constructor|exact HV]|].
          destruct (answer_at [] t [] [] (an_here t) HV) as (v & Ev & ->). rewrite Ev, app_nil_r. reflexivity.
        + right. split.
          * intros ts ps [[A B]|(Q0 & ts0 & c & us & E & _)|k (L & _) _ _ _ _].
            -- inversion A; subst. contradiction.
            -- destruct Q0; discriminate.
            -- simpl in L. lia.
          * destruct (nval t) eqn:Ev; [|reflexivity]. exfalso. apply NV.
            rewrite <- (value_at _ _ _ (an_here t)). congruence.
      - replace (is_empty Q) with false by (destruct Q; [destruct NQ; reflexivity|reflexivity]).
        destruct (get_next_spec t W Q false [] (val_mws (nval t)) NQ NE)
          as [[[[NX1 NX2] NWi] (key' & E)]|(f & ts & bs & l & key' & HT & A & E)]; rewrite E.
        + right. split; [|reflexivity]. intros ts ps [B|B|k B _ _ _ _].
          * apply hit_ex in B as [f B]. exact (NX1 _ _ _ B).
          * apply hit_be in B as [f B]. exact (NX2 _ _ _ B).
          * apply hit_wi in B as [f B]. exact (NWi _ _ _ _ B).
        + assert (OK : has_value T ts -> resolves T Q ts bs ->
                    exists ts0 ps0, resolves T Q ts0 ps0 /\
                      match nval f with Some v => LSome (RR (RV (val_mws (nval t) ++ l) (rv_route v)) (bind bs [])) | None => LNone end
                      = LSome (answer ts0 ps0)).
          { intros HV RS. exists ts, bs. split; [exact RS|].
            destruct (answer_at ts f l bs A HV) as (v & -> & ->). reflexivity. }
          destruct HT as [X|[X|(k & X & [NX1 NX2] & MX)]].
          * left. apply ex_hit in X as [X _]. apply OK; [apply X|apply res_exact; exact X].
          * left. apply be_hit in X as [X _]; [|exact NQ]. apply OK; [|apply res_below; exact X].
            destruct X as (? & ? & ? & ? & _ & _ & _ & _ & _ & HV). exact HV.
          * apply wi_hit in X as [X _].
            assert (N1 : forall ts ps, ~ exact_hit T Q ts ps) by (intros u v B; apply hit_ex in B as [g B]; exact (NX1 _ _ _ B)).
            assert (N2 : forall ts ps, ~ below_hit T Q ts ps) by (intros u v B; apply hit_be in B as [g B]; exact (NX2 _ _ _ B)).
            assert (N3 : forall k' ts ps, wild_hit T Q k' ts ps -> k' <= k) by (intros k' u v B; apply hit_wi in B as [g B]; exact (MX _ _ _ _ B)).
            destruct (has_value_dec T ts) as [HV|NV].
            -- left. apply OK; [exact HV|]. apply (res_wild _ _ _ _ k); assumption.
            -- right. split.
               ++ intros u v [B|B|k' B HB _ _ MB]; [exact (N1 _ _ B)|exact (N2 _ _ B)|].
                  assert (k = k') by (pose proof (N3 _ _ _ B); pose proof (MB _ _ _ X); lia). subst k'.
                  destruct (wild_fun _ _ _ _ _ _ X B) as [-> _]. contradiction.
               ++ destruct (nval f) eqn:Ev; [|reflexivity]. exfalso. apply NV. rewrite <- (value_at _ _ _ A). congruence.
    Qed.
  End Reading.

  Lemma pget_bind bs ps n : pget n (bind bs ps) = match first_binding bs n with Some v => Some v | None => pget n ps end.
  Proof.
    induction bs as [|[k v] bs IH]; [reflexivity|]. cbn [bind fold_right first_binding fst snd].
    unfold pget, pinsert. destruct (str_eqb_spec n k) as [->|N].
    - apply aget_ainsert_same. apply str_eqb_eq.
    - rewrite aget_ainsert_other; [exact IH|apply str_eqb_eq|exact N].
  Qed.

  Lemma get_route_rmap m l : get_route (rmap (H:=H) l) m = option_map (Route m) (handler_for m l).
  Proof.
    unfold get_route, rmap. induction l as [|[m' h] l IH]; [reflexivity|]. simpl.
    destruct (method_eqb m m') eqn:E; [|exact IH]. apply method_eqb_spec in E. subst. reflexivity.
  Qed.
End Lookup.
