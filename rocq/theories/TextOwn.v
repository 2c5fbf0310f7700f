(** Any accepted calls: what the requests described by a registered path get. *)

From Verif Require Import Base BaseFacts RouteTrie Router TableSpec PropSpec TextSpec TrieDen TrieRep TrieBuild TrieSearch TrieLookup TrieTotal RouteLemmas2 OwnPath TextRep TextInv TextSearch.

Section TextOwn.
  Context {H M : Type}.
  Notation node := (node H M).

  (** ** Paths without wildcard *)

  Lemma good_no_star p : (forall s, In s p -> good_key s) -> no_star p -> forall s, In s p -> s <> [] /\ ~ In c_star s.
  Proof. intros G NS s J. destruct (G s J) as [G1 G2]. split; [exact G1|]. intros K. apply NS. rewrite <- (G2 K). exact J. Qed.

  (** Following a path whose end answers. *)
  Lemma way_lookup (t : node) T (Q : node -> Prop) p path b : trep t T -> (forall s, In s p -> s <> [] /\ ~ In c_star s) -> p <> [] ->
    leads Q t false p -> answers Q (last_literal false p) -> seg_match p (segments path) b ->
    exists m f x r, search_route t path = LSome r /\ Q m /\ answer m f x /\ sits t (text p ++ x) f /\ hands_out T (text p ++ x) r /\
      forall n, pget n (rr_params r) = first_binding b n.
  Proof.
    intros TR G NP L A S.
    assert (NN : segments path <> []).
    { destruct p as [|s p]; [congruence|]. destruct (seg_match_head _ _ _ _ S) as (x & R & ->); [|discriminate].
      intros ->. apply (proj2 (G s_star (or_introl eq_refl))). left. reflexivity. }
    destruct (search_way Q t false p L A NP G (segments path) b [] (val_mws (nval t)) S) as (m & f & x & W & E & Qm & AN & TL).
    assert (Vf : exists v, nval f = Some v).
    { destruct AN as [(-> & _ & V)|(_ & _ & v & SC)]; [destruct (nval m); [eauto|congruence]|].
      apply star_child_spec in SC as (_ & _ & V). eauto. }
    destruct Vf as [v Ev]. unfold search_route. rewrite (proj2 (is_empty_false _) NN), E, Ev.
    destruct (trail_table t T [] t f _ W TR (sits_root t (proj1 TR)) TL) as (SF & _).
    destruct (ends_at t T f _ W v (bind b []) TR TL Ev) as (HO & _).
    exists m, f, x. eexists. split; [reflexivity|]. split; [exact Qm|]. split; [exact AN|]. split; [exact SF|]. split; [exact HO|].
    intros n. cbn [rr_params]. rewrite pget_bind. destruct (first_binding b n); reflexivity.
  Qed.

  Lemma root_lookup (t : node) T path : trep t T -> segments path = [] -> (exists c, In ([], c) T /\ c <> CNode) ->
    exists r, search_route t path = LSome r /\ hands_out T [] r /\ forall n, pget n (rr_params r) = None.
  Proof.
    intros (R & A & B) EP (c & I & NC). destruct (B [] c I NC) as [v V]. cbn [text concat] in V. pose proof (A [] v V) as (A1 & A2 & _).
    apply vals_nil in V; [|exact R]. unfold search_route. rewrite EP. cbn [is_empty]. rewrite V. eexists. split; [reflexivity|]. split; [|reflexivity].
    split; [|exact A2]. cbn [rr_mws rr_value rv_mws val_mws]. unfold text_mws. cbn [starts_down flat_map]. rewrite app_nil_r. exact A1.
  Qed.

  Theorem own_text (l : list (op H M)) t p c path b :
    build l = (t, None) -> registered l p c -> c <> CNode -> no_star p -> seg_match p (segments path) b ->
    exists r, search_route t path = LSome r /\ hands_out (table_of l) (text p) r /\ forall n, pget n (rr_params r) = first_binding b n.
  Proof.
    intros B I NC NS S. destruct (build_inv l t B) as [_ L]. pose proof (build_trep l t B) as TR. destruct p as [|s p].
    - apply seg_match_nil in S as [EP ->]. apply (root_lookup t _ path TR EP). exists c. auto.
    - assert (A : answers (has c) (last_literal false (s :: p))) by (intros m Qm; left; exact (has_some c m Qm)).
      destruct (way_lookup t _ (has c) (s :: p) path b TR (good_no_star _ (build_goods l t B _ _ I) NS) ltac:(discriminate) (L _ _ I NC) A S)
        as (m & f & x & r & E & Qm & AN & _ & HO & PB).
      exists r. split; [exact E|]. split; [|exact PB]. destruct AN as [(_ & -> & _)|(Em & _)].
      + rewrite app_nil_r in HO. exact HO.
      + exfalso. exact (has_none c m Em Qm).
  Qed.

  (** ** Ways of concatenated paths *)

  Lemma leads_split (Q : node -> Prop) : forall n b p, leads Q n b p -> forall p1 p2, p = p1 ++ p2 -> (p1 <> [] \/ b = false) ->
    leads (fun m => leads Q m false p2) n b p1.
  Proof.
    intros n b p L. induction L as [n W|n b l1 c l2 rest E N S P L IH|n b l1 c l2 s rest E N S P Ns L IH|n c l2 rest E P L IH]; intros p1 p2 EP NB.
    - destruct p1; [|discriminate]. destruct p2; [|discriminate]. apply ld_end. apply ld_end. exact W.
    - destruct p1 as [|s0 p1].
      + destruct NB as [NB| ->]; [congruence|]. cbn [app] in EP. subst p2. apply ld_end. exact (ld_seg Q n false l1 c l2 rest E N S P L).
      + injection EP as <- EP. apply (ld_seg _ n b l1 c l2 p1 E N S P). apply IH; auto.
    - destruct p1 as [|s0 p1].
      + destruct NB as [NB| ->]; [congruence|]. cbn [app] in EP. subst p2. apply ld_end. exact (ld_mid Q n false l1 c l2 s rest E N S P Ns L).
      + injection EP as <- EP. apply (ld_mid _ n b l1 c l2 s p1 E N S P Ns). apply (IH (s :: p1) p2); [rewrite EP; reflexivity|left; discriminate].
    - destruct p1 as [|s0 p1].
      + cbn [app] in EP. subst p2. apply ld_end. exact (ld_par Q n c l2 rest E P L).
      + injection EP as <- EP. apply (ld_par _ n c l2 p1 E P). apply IH; auto.
  Qed.

  Lemma leads_star (Q : node -> Prop) m : leads Q m false [s_star] -> exists d, In d (nkids m) /\ nkey d = s_star /\ Q d.
  Proof.
    intros L. apply leads_inv in L as [(l1 & d & l2 & Ek & E & N & S & P & L)|[(l1 & d & l2 & s' & Ek & E & N & S & P & Ns & L)|(d & l2 & Ek & B & E & P & L)]].
    - exists d. split; [rewrite E; apply in_elt|]. split; [exact Ek|]. inversion L. assumption.
    - exfalso. destruct (nkey d) as [|? [|? ?]]; [congruence| |discriminate]. destruct s'; [congruence|discriminate].
    - exfalso. unfold is_param in P. rewrite Ek in P. discriminate.
  Qed.

  Lemma star_child_some (cs : list node) d v : In d cs -> nkey d = s_star -> nval d = Some v -> exists e w, star_child cs = Some (e, w).
  Proof.
    intros I K V. induction cs as [|c cs IH]; [contradiction|]. cbn [star_child]. destruct (str_eqb (nkey c) s_star) eqn:E.
    - destruct (nval c) as [w|] eqn:W; [eauto|]. destruct I as [->|I]; [congruence|auto].
    - destruct I as [->|I]; [|auto]. rewrite K, str_eqb_refl in E. discriminate.
  Qed.

  Lemma seg_match_app_good q s R b : seg_match (q ++ [s]) R b -> literal_seg s -> last_literal false (q ++ [s]).
  Proof.
    intros _ [_ LS]. induction q as [|x q IH]; cbn [app].
    - right. unfold starts_colon. destruct s as [|c s]; [reflexivity|]. destruct (N.eqb_spec c c_colon) as [->|N]; [|reflexivity].
      exfalso. apply LS. eauto.
    - rewrite last_literal_tail; [exact IH|destruct q; discriminate].
  Qed.

  Theorem bare_prefix_text (l : list (op H M)) t q s c path b :
    build l = (t, None) -> registered l (q ++ [s; s_star]) c -> c <> CNode -> no_star q -> literal_seg s ->
    (forall p c', registered l p c' -> c' <> CNode -> text p <> text (q ++ [s])) ->
    seg_match (q ++ [s]) (segments path) b ->
    exists r, search_route t path = LSome r /\ hands_out (table_of l) (text (q ++ [s; s_star])) r /\
              forall n, pget n (rr_params r) = first_binding b n.
  Proof.
    intros B I NC NS LS NV S. destruct (build_inv l t B) as [_ L]. pose proof (build_trep l t B) as TR.
    assert (G : forall x, In x (q ++ [s]) -> x <> [] /\ ~ In c_star x).
    { intros x J. assert (GX : good_key x).
      { apply (build_goods l t B _ _ I). apply in_app_or in J as [J|[<-|[]]]; apply in_or_app; [auto|right; left; reflexivity]. }
      destruct GX as [G1 G2]. split; [exact G1|]. intros K. specialize (G2 K). apply in_app_or in J as [J|[<-|[]]].
      - apply NS. rewrite <- G2. exact J.
      - exact (proj1 LS G2). }
    assert (NP : q ++ [s] <> []) by (destruct q; discriminate).
    set (Q := fun m => leads (has c) m false [s_star]).
    assert (LQ : leads Q t false (q ++ [s])).
    { apply (leads_split (has c) t false (q ++ [s; s_star]) (L _ _ I NC)); [rewrite <- app_assoc; reflexivity|right; reflexivity]. }
    assert (A : answers Q (last_literal false (q ++ [s]))).
    { intros m Qm. destruct (nval m) as [v|] eqn:Em; [left; eauto|right]. split; [exact (seg_match_app_good q s _ b S LS)|]. split; [reflexivity|].
      destruct (leads_star _ m Qm) as (d & ID & KD & HD). destruct (has_some c d HD) as [v Ev]. exact (star_child_some _ d v ID KD Ev). }
    destruct (way_lookup t _ Q (q ++ [s]) path b TR G NP LQ A S) as (m & f & x & r & E & Qm & AN & SF & HO & PB).
    exists r. split; [exact E|]. split; [|exact PB]. destruct AN as [(-> & -> & V)|(_ & -> & _)].
    - exfalso. rewrite app_nil_r in SF. destruct (nval m) as [v|] eqn:Em; [|congruence]. destruct SF as [Rm SF].
      assert (X : vals t (text (q ++ [s])) v) by (rewrite <- (app_nil_r (text _)); apply SF, vals_nil; assumption).
      pose proof TR as (_ & A1 & _). destruct (A1 _ v X) as (_ & _ & p & c' & I' & NC' & EP). exact (NV p c' I' NC' EP).
    - replace (text (q ++ [s; s_star])) with (text (q ++ [s]) ++ s_star); [exact HO|].
      rewrite !text_app. cbn [text concat]. rewrite <- !app_assoc. reflexivity.
  Qed.

  (** ** Wildcard nodes *)

  (** Wildcards have values, and no parameter beside them. *)
  Inductive starred (n : node) : Prop :=
  | starred_intro :
      (forall d, In d (nkids n) ->
         (nkey d = s_star -> nval d <> None /\ forall e, In e (nkids n) -> is_param e = false) /\ starred d) -> starred n.

  Lemma starred_same n n' : nkids n = nkids n' -> starred n -> starred n'.
  Proof. intros E [A]. rewrite E in A. split. exact A. Qed.

  Lemma starred_leaf k v : starred (Node k v []).
  Proof. split. intros d []. Qed.

  Lemma starred_replace n l1 c l2 c' : starred n -> nkids n = l1 ++ c :: l2 -> starred c' ->
    (nkey c' = s_star -> nkey c = s_star /\ nval c' <> None) -> is_param c' = is_param c -> starred (with_kids n (l1 ++ c' :: l2)).
  Proof.
    intros [A] E S' K P. split. cbn [nkids with_kids].
    assert (PP : forall e, In e (l1 ++ c' :: l2) -> (forall e', In e' (nkids n) -> is_param e' = false) -> is_param e = false).
    { intros e I X. apply in_app_or in I as [I|[<-|I]]; [|rewrite P|]; apply X; rewrite E; [apply in_or_app; auto|apply in_elt|apply in_or_app; right; right; exact I]. }
    assert (OLD : forall d, In d (nkids n) -> (nkey d = s_star -> nval d <> None /\ forall e, In e (l1 ++ c' :: l2) -> is_param e = false) /\ starred d).
    { intros d I. destruct (A d I) as [A1 A2]. split; [|exact A2]. intros X. destruct (A1 X) as [V Z]. split; [exact V|]. intros e J. exact (PP e J Z). }
    intros d I. apply in_app_or in I as [I|[<-|I]].
    - apply OLD. rewrite E. apply in_or_app. auto.
    - split; [|exact S']. intros X. destruct (K X) as [Kc V]. split; [exact V|]. intros e J. apply (PP e J).
      destruct (A c ltac:(rewrite E; apply in_elt)) as [A1 _]. exact (proj2 (A1 Kc)).
    - apply OLD. rewrite E. apply in_or_app. right. right. exact I.
  Qed.

  Definition stars (k : node -> upd node) : Prop := forall m, nice m -> starred m -> starred (fst (k m)).

  Lemma process_starred n : forall key k, nice n -> starred n -> good_key key -> nices k -> stars k ->
    (key = s_star -> forall m, nval (fst (k m)) <> None) -> starred (fst (process_insertion n key k)).
  Proof.
    induction n as [nk nv cs IH] using node_ind'. rewrite Forall_forall in IH. intros key k N SN [G1 G2] K KS KV.
    set (n := Node nk nv cs) in *.
    assert (NE : forall d, In d (nkids n) -> nkey d <> []) by (destruct N as [A _]; intros d I; exact (proj1 (A d I))).
    assert (ST : forall d, In d (nkids n) -> starred d) by (destruct SN as [A]; intros d I; exact (proj2 (A d I))).
    assert (NK : forall d, In d (nkids n) -> nice d) by (destruct N as [A _]; intros d I; exact (proj2 (proj2 (A d I)))).
    assert (NS : forall d, In d (nkids n) -> In c_star (nkey d) -> nkey d = s_star) by (destruct N as [A _]; intros d I; exact (proj1 (proj2 (A d I)))).
    pose proof (process_shape n key k G1 NE) as S. destruct S as [|P C|l1 c l2 E1 E2 P C|l1 c l2 y E1 E2 Y P Q R|l1 c l2 x E1 E2 X P Q R r|l1 c l2 w x y E1 E2 E3 W X Y D P Q R r];
      cbn [fst].
    - exact SN.
    - destruct (K (node_new key None) (nice_leaf _ _)) as [_ K2]. cbn [nkey node_new] in K2.
      pose proof (KS (node_new key None) (nice_leaf _ _) (starred_leaf _ _)) as K1. pose proof (fun E => KV E (node_new key None)) as K3.
      set (new := fst (k (node_new key None))) in *.
      assert (PM : forall d, In d (nkids (with_kids n (if str_eqb key s_star then nkids n ++ [new] else new :: nkids n))) <-> d = new \/ In d (nkids n)).
      { intros d. cbn [nkids with_kids]. destruct (str_eqb key s_star); [rewrite in_app_iff|]; cbn [In]; intuition congruence. }
      split. intros d I. apply PM in I as [->|I].
      + split; [|exact K1]. rewrite K2. intros ->. split; [exact (K3 eq_refl)|]. intros e J. apply PM in J as [->|J]; [unfold is_param; rewrite K2; reflexivity|exact (proj1 (P e J))].
      + destruct SN as [A]. destruct (A d I) as [A1 A2]. split; [|exact A2]. intros Z. destruct (A1 Z) as [V Z2]. split; [exact V|].
        intros e J. apply PM in J as [->|J]; [|exact (Z2 e J)]. unfold is_param. rewrite K2. destruct (starts_colon key) eqn:SC; [|reflexivity].
        rewrite (C eq_refl) in I. contradiction.
    - assert (IC : In c (nkids n)) by (rewrite E1; apply in_elt). destruct (K c (NK c IC)) as [_ K2].
      apply (starred_replace n l1 c l2 _ SN E1 (KS c (NK c IC) (ST c IC))); [|unfold is_param; rewrite K2; reflexivity].
      rewrite K2, E2. intros Z. split; [exact Z|exact (KV Z c)].
    - assert (IC : In c (nkids n)) by (rewrite E1; apply in_elt). subst key. destruct (part_good _ _ (NE c IC) Y G2) as [S1 S2].
      assert (GY : good_key y) by (split; [exact Y|tauto]).
      destruct (process_nice c y k (NK c IC) GY K) as [_ K2].
      apply (starred_replace n l1 c l2 _ SN E1); [|rewrite K2|unfold is_param; rewrite K2; reflexivity].
      + apply IH; auto. intros ->. exfalso. apply S2. left. reflexivity.
      + intros Z. exfalso. apply S1. rewrite Z. left. reflexivity.
    - assert (IC : In c (nkids n)) by (rewrite E1; apply in_elt). pose proof (NS c IC) as S. rewrite E2 in S. destruct (part_good _ _ G1 X S) as [S1 S2].
      set (m := Node key None [Node x (nval c) (nkids c)]) in *.
      assert (NI : nice m).
      { split; cbn [nkids m].
        - intros d [<-|[]]. cbn [nkey]. split; [exact X|]. split; [tauto|]. apply (nice_same c); [reflexivity|exact (NK c IC)].
        - intros [|[|i]] d I J; try discriminate. reflexivity. }
      assert (SI : starred m).
      { split. cbn [nkids m]. intros d [<-|[]]. split; [|apply (starred_same c); [reflexivity|exact (ST c IC)]].
        cbn [nkey]. intros Z. exfalso. apply S2. rewrite Z. left. reflexivity. }
      destruct (K m NI) as [_ K2]. cbn [nkey m] in K2. fold r in K2.
      apply (starred_replace n l1 c l2 (fst r) SN E1 (KS m NI SI)); [rewrite K2|].
      + intros Z. exfalso. apply S1. rewrite Z. left. reflexivity.
      + apply is_param_hd. rewrite K2, E2. symmetry. apply head_app. exact G1.
    - assert (IC : In c (nkids n)) by (rewrite E1; apply in_elt). pose proof (NS c IC) as S. rewrite E2 in S. destruct (part_good _ _ W X S) as [S1 S2].
      rewrite E3 in G2. destruct (part_good _ _ W Y G2) as [_ S3].
      destruct (K (node_new y None) (nice_leaf _ _)) as [_ K2]. cbn [nkey node_new] in K2. fold r in K2.
      apply (starred_replace n l1 c l2 _ SN E1); cbn [nkey].
      + split. cbn [nkids]. intros d [<-|[<-|[]]].
        * split; [|exact (KS _ (nice_leaf _ _) (starred_leaf _ _))]. rewrite K2. intros Z. exfalso. apply S3. rewrite Z. left. reflexivity.
        * split; [|apply (starred_same c); [reflexivity|exact (ST c IC)]]. cbn [nkey]. intros Z. exfalso. apply S2. rewrite Z. left. reflexivity.
      + intros Z. exfalso. apply S1. rewrite Z. left. reflexivity.
      + apply is_param_hd. cbn [nkey]. rewrite E2. symmetry. apply head_app. exact W.
  Qed.

  Lemma walk_starred p : forall n final, nice n -> starred n -> (forall s, In s p -> good_key s) -> star_ok p -> nices final -> stars final ->
    (In s_star p -> forall m, nval (fst (final m)) <> None) -> starred (fst (walk n p final)).
  Proof.
    induction p as [|s p IH]; intros n final N SN G SO K KS KV; [exact SN|]. cbn [walk].
    assert (Gp : forall x, In x p -> good_key x) by (intros x I; apply G; right; exact I).
    assert (SOp : star_ok p).
    { intros i x E J. destruct (SO (S i) x E J) as [X Y]. split; [exact X|]. cbn [length] in Y. lia. }
    apply process_starred; [exact N|exact SN|apply G; left; reflexivity| | |].
    - intros m Nm. destruct p as [|s' p]; cbn [is_empty]; [exact (K m Nm)|]. exact (walk_nice _ m final Nm Gp K).
    - intros m Nm Sm. destruct p as [|s' p]; cbn [is_empty]; [exact (KS m Nm Sm)|]. apply (IH m final Nm Sm Gp SOp K KS).
      intros I. apply KV. right. exact I.
    - intros -> m. destruct (SO 0 s_star eq_refl) as [_ L]; [left; reflexivity|]. destruct p as [|s' p]; [|discriminate]. cbn [is_empty].
      apply KV. left. reflexivity.
  Qed.

  Lemma stars_set_route r : stars (set_route r).
  Proof. intros [k v cs] _ S. cbn [set_route]. destruct (add_route _ _ _). apply (starred_same (Node k v cs)); [reflexivity|exact S]. Qed.
  Lemma stars_push mw : stars (push_mw mw).
  Proof. intros [k v cs] _ S. apply (starred_same (Node k v cs)); [reflexivity|exact S]. Qed.
  Lemma stars_mount (src : node) : starred src -> stars (mount src).
  Proof. intros SS [k v cs] _ S. cbn [mount]. destruct (_ || _); [exact S|]. apply (starred_same src); [reflexivity|exact SS]. Qed.

  Lemma set_route_valued r (m : node) : nval (fst (set_route r m)) <> None.
  Proof. destruct m as [k v cs]. cbn [set_route]. destruct (add_route _ _ _). discriminate. Qed.
  Lemma push_valued mw (m : node) : nval (fst (push_mw mw m)) <> None.
  Proof. destruct m as [k v cs]. discriminate. Qed.

  Definition sinv (t : node) (T : table H M) : Prop :=
    nice t /\ ((forall p, In (p, CNode) T -> no_star p) -> starred t).

  Lemma run_ops_sinv (l : list (op H M)) :
    Forall (fun o => forall t T t', sinv t T -> run_op t o = (t', None) -> sinv t' (after T o)) l ->
    forall t T t', sinv t T -> run_ops t l = (t', None) -> sinv t' (afters T l).
  Proof.
    intros F. induction F as [|o l Fo F IH]; intros t T t' I E; cbn [run_ops afters] in *; [injection E as <-; exact I|].
    destruct (run_op t o) as [t1 [pn|]] eqn:Eo; [discriminate|]. exact (IH _ _ _ (Fo _ _ _ I Eo) E).
  Qed.

  Lemma run_op_sinv (o : op H M) : forall t T t', sinv t T -> run_op t o = (t', None) -> sinv t' (after T o).
  Proof.
    induction o as [m path h|path mw|mw|path sub IH] using op_ind'; intros t T t' [N ST] E.
    - pose proof (run_op_nice (ORoute m path h) t N) as N'. rewrite E in N'. split; [exact N'|]. clear N'. cbn [run_op after] in *.
      intros C. assert (SN : starred t) by (apply ST; intros p I; apply C; apply in_or_app; auto).
      unfold insert_route in E. destruct (star_check _ _ _) eqn:Es; [discriminate|]. apply star_check_spec in Es.
      replace t' with (fst (t', @None panic)) by reflexivity. rewrite <- E.
      destruct (is_empty (segments path)); [apply stars_set_route; assumption|].
      apply walk_starred; [exact N|exact SN|apply good_path; exact Es|exact Es|apply nices_set_route|apply stars_set_route|]. intros _ x. apply set_route_valued.
    - pose proof (run_op_nice (OServiceTo path mw) t N) as N'. rewrite E in N'. split; [exact N'|]. clear N'. cbn [run_op after] in *.
      intros C. assert (SN : starred t).
      { apply ST. intros p I. apply C. destruct (segments path); [exact I|apply in_or_app; auto]. }
      unfold insert_middleware in E. destruct (star_check _ _ _) eqn:Es; [discriminate|]. apply star_check_spec in Es.
      replace t' with (fst (t', @None panic)) by reflexivity. rewrite <- E.
      apply walk_starred; [exact N|exact SN|apply good_path; exact Es|exact Es|apply nices_push|apply stars_push|]. intros _ x. apply push_valued.
    - pose proof (run_op_nice (OService mw) t N) as N'. rewrite E in N'. split; [exact N'|]. clear N'. cbn [run_op after] in *.
      intros C. assert (SN : starred t) by (apply ST; intros p I; apply C; apply in_or_app; auto).
      replace t' with (fst (t', @None panic)) by reflexivity. rewrite <- E. apply stars_push; assumption.
    - pose proof (run_op_nice (ORouter path sub) t N) as N'. rewrite E in N'. split; [exact N'|]. clear N'.
      rewrite run_op_router in E. destruct (build sub) as [src [pn|]] eqn:Eb; cbn [fst snd] in E; [discriminate|].
      assert (IS : sinv src (table_of sub)).
      { apply (run_ops_sinv sub IH trie_new [] src); [|exact Eb]. split; [exact nice_new|]. intros _. apply starred_leaf. }
      rewrite after_router. unfold insert_sub_route in E. destruct (star_check _ _ _) eqn:Es; [discriminate|]. apply star_check_spec in Es.
      destruct (segments path) as [|s0 p0] eqn:Ep; [injection E as <-; exact (proj2 IS)|]. rewrite <- Ep in *. intros C.
      assert (NP : segments path <> []) by (rewrite Ep; discriminate). rewrite (proj2 (is_empty_false _) NP) in E.
      assert (SN : starred t) by (apply ST; intros p I; apply C; apply in_or_app; auto).
      assert (SS : starred src).
      { apply IS. intros p I J. apply (C (segments path ++ p)); [|apply in_or_app; auto]. apply in_or_app. right. right. apply in_map_iff. exists (p, CNode). auto. }
      replace t' with (fst (t', @None panic)) by reflexivity. rewrite <- E.
      apply walk_starred; [exact N|exact SN|apply good_path; exact Es|exact Es|apply nices_mount; exact (proj1 IS)|apply stars_mount; exact SS|].
      intros I. exfalso. apply (C (segments path)); [apply in_elt|exact I].
  Qed.

  Lemma build_starred (l : list (op H M)) t : build l = (t, None) -> no_star_mount l -> starred t.
  Proof.
    intros E NM. apply (run_ops_sinv l (proj2 (Forall_forall _ _) (fun o _ => run_op_sinv o)) trie_new [] t).
    - split; [exact nice_new|]. intros _. apply starred_leaf.
    - exact E.
    - exact NM.
  Qed.
End TextOwn.
