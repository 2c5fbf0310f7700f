(** The lemmas behind the routing properties. *)

From Verif Require Import Base BaseFacts RouteTrie Router TableSpec PropSpec TrieDen TrieIns TrieRep TrieBuild TrieSearch TrieLookup TrieTotal RouteFacts.

Lemma NoDup_map_perm {A B} (f : A -> B) l l' : Permutation l l' -> NoDup (map f l) -> NoDup (map f l').
Proof. intros P. apply Permutation_NoDup. apply Permutation_map. exact P. Qed.

Lemma flat_map_perm_fun {A B} (f g h : A -> list B) l :
  (forall x, Permutation (h x) (f x ++ g x)) -> Permutation (flat_map h l) (flat_map f l ++ flat_map g l).
Proof.
  intros E. induction l as [|x l IH]; simpl; [constructor|].
  rewrite (E x), IH, <- !app_assoc. apply Permutation_app_head.
  rewrite !app_assoc. apply Permutation_app_tail. apply Permutation_app_comm.
Qed.

Lemma is_prefix_spec a b : is_prefix a b = true <-> prefix a b.
Proof.
  revert b; induction a as [|x a IH]; intros b; simpl.
  - split; [intros _; exists b; reflexivity|reflexivity].
  - destruct b as [|y b]; [split; [discriminate|intros [r E]; discriminate]|].
    destruct (tok_eq_dec x y) as [->|N].
    + rewrite IH. split; intros [r E].
      * exists r. simpl. congruence.
      * exists r. simpl in E. congruence.
    + split; [discriminate|]. intros [r E]. simpl in E. congruence.
Qed.

Lemma prefixes_down_len pre ts p : In p (prefixes_down pre ts) -> length pre < length p.
Proof.
  intros I. apply in_prefixes_down in I as (x & y & -> & N & _). rewrite app_length.
  destruct x; [congruence|]. simpl. lia.
Qed.

Lemma prefixes_down_NoDup pre ts : NoDup (prefixes_down pre ts).
Proof.
  revert pre; induction ts as [|t ts IH]; intros pre; simpl; [constructor|].
  apply Permutation_NoDup with (l := (pre ++ [t]) :: prefixes_down (pre ++ [t]) ts).
  - apply Permutation_cons_append.
  - constructor; [|apply IH]. intros I. apply prefixes_down_len in I. lia.
Qed.

Lemma prefixes_in ts x : In x ([] :: prefixes_down [] ts) <-> prefix x ts.
Proof.
  simpl. rewrite in_prefixes_down. split.
  - intros [<-|(a & b & -> & _ & ->)]; [exists ts; reflexivity|exists b; reflexivity].
  - intros [r ->]. destruct x as [|t x]; [left; reflexivity|]. right. exists (t :: x), r.
    repeat split. discriminate.
Qed.

Section Lemmas.
  Context {H M : Type}.
  Notation node := (node H M).
  Notation trie := (trie H M).
  Notation table := (table H M).
  Notation op := (op H M).

  (** ** C01, C52: acceptance *)

  Lemma history_accepted_iff (l : list op) : all_tidy [] l -> (snd (build l) = None <-> all_accepted [] l).
  Proof.
    intros C. destruct (build_outcome l C) as [(A & E & _)|(A & l1 & o & l2 & pn & T' & _ & _ & _ & E & _)]; rewrite E.
    - tauto.
    - split; [discriminate|tauto].
  Qed.

  Lemma step_cases o t (T : table) : tidy T o -> Rep t T ->
    (accepted T o /\ snd (run_op t o) = None /\ Rep (fst (run_op t o)) (after T o)) \/
    (~ accepted T o /\ exists pn T', snd (run_op t o) = Some pn /\ rejected T o pn T' /\ Rep (fst (run_op t o)) T').
  Proof. intros C R. exact (run_op_outcome o t T C R). Qed.

  Lemma call_accepted_iff (l : list op) t o : built l t -> tidy (table_of l) o ->
    (snd (run_op t o) = None <-> accepted (table_of l) o).
  Proof.
    intros B C. apply built_rep in B as (R & _ & _).
    destruct (step_cases o t _ C R) as [(A & E & _)|(A & pn & T' & E & _)]; rewrite E.
    - tauto.
    - split; [discriminate|tauto].
  Qed.

  Lemma star_panic_not_ok p pn : star_panic p pn -> ~ star_ok p.
  Proof.
    intros (p0 & s & p1 & -> & _ & I & D) S.
    assert (E : nth_error (p0 ++ s :: p1) (length p0) = Some s).
    { rewrite nth_error_app2 by lia. rewrite Nat.sub_diag. reflexivity. }
    destruct (S _ _ E I) as [Es L]. rewrite app_length in L. simpl in L.
    destruct D as [[N _]|(_ & N & _)]; [contradiction|]. destruct p1; [congruence|]. simpl in L. lia.
  Qed.

  Lemma star_panic_fun p pn pn' : star_panic p pn -> star_panic p pn' -> pn = pn'.
  Proof.
    intros (p0 & s & p1 & E & N & I & D) (p0' & s' & p1' & E' & N' & I' & D').
    assert (X : p0 = p0' /\ s = s' /\ p1 = p1').
    { rewrite E in E'. clear E D D'. revert p0' E' N'. induction p0 as [|a p0 IH]; intros p0' E' N'.
      - destruct p0' as [|a' p0']; simpl in E'; [injection E' as -> ->; auto|].
        injection E' as -> ->. exfalso. apply (N' a'); [left; reflexivity|exact I].
      - destruct p0' as [|a' p0']; simpl in E'; injection E' as -> E'.
        + exfalso. apply (N s'); [left; reflexivity|exact I'].
        + destruct (IH (fun x J => N x (or_intror J)) p0' E' (fun x J => N' x (or_intror J))) as (-> & -> & ->). auto. }
    destruct X as (-> & -> & ->). destruct D as [[A ->]|(A & B & ->)], D' as [[A' ->]|(A' & B' & ->)]; congruence.
  Qed.

  Lemma unambiguous_firstn (T : table) i p : unambiguous T p -> unambiguous T (firstn i p).
  Proof.
    intros U q c I (w & a & b & (N & [x E] & Q) & D). apply (U q c I). exists w, a, b.
    split; [|exact D]. split; [exact N|]. split; [|exact Q].
    exists (x ++ flat (skipn i p)). rewrite app_assoc, <- E, <- flat_app, firstn_skipn. reflexivity.
  Qed.

  Lemma unambiguous_firstn_le (T : table) i j p : i <= j -> unambiguous T (firstn j p) -> unambiguous T (firstn i p).
  Proof.
    intros L U. replace (firstn i p) with (firstn i (firstn j p)) by (rewrite firstn_firstn, Nat.min_l by lia; reflexivity).
    apply unambiguous_firstn. exact U.
  Qed.

  Lemma all_accepted_app (T : table) l1 l2 :
    all_accepted T (l1 ++ l2) <-> all_accepted T l1 /\ all_accepted (afters T l1) l2.
  Proof.
    revert T; induction l1 as [|o l1 IH]; intros T; cbn [app all_accepted afters]; [tauto|].
    rewrite IH. tauto.
  Qed.

  Lemma afters_app (T : table) l1 l2 : afters T (l1 ++ l2) = afters (afters T l1) l2.
  Proof. revert T; induction l1 as [|o l1 IH]; intros T; [reflexivity|]. apply IH. Qed.

  Lemma rejected_not_accepted (T : table) o pn T' : rejected T o pn T' -> ~ accepted T o.
  Proof.
    intros RJ. induction RJ as [T path sub l1 o l2 pn T' Es A1 RJ IH|T o path pn Ep SA SP|T o path i Ep SA S L U0 U1
      |T m path h h0 p S U D|T path sub p SA N S U F].
    - rewrite accepted_router. intros (A & _). rewrite Es in A. apply all_accepted_app in A as [_ A].
      cbn [all_accepted] in A. tauto.
    - apply star_panic_not_ok in SP. destruct o; cbn [op_path] in Ep; [| |discriminate|]; injection Ep as <-;
        [cbn [accepted]|cbn [accepted]|rewrite accepted_router]; tauto.
    - assert (NU : ~ unambiguous T (segments path)) by (intros U; apply U1; apply unambiguous_firstn; exact U).
      assert (NN : segments path <> []) by (intros E; rewrite E in L; simpl in L; lia).
      destruct o; cbn [op_path] in Ep; [| |discriminate|]; injection Ep as <-;
        [cbn [accepted]|cbn [accepted]|rewrite accepted_router]; tauto.
    - cbn [accepted]. fold p. intros (_ & _ & ND). apply ND. eauto.
    - rewrite accepted_router. fold p. tauto.
  Qed.

  Lemma rejected_fun (T : table) o pn T' : rejected T o pn T' -> forall pn' T'', rejected T o pn' T'' -> pn = pn' /\ T' = T''.
  Proof.
    intros RJ. induction RJ as [T path sub l1 o l2 pn T' Es A1 RJ IH|T o path pn Ep SA SP|T o path i Ep SA S L U0 U1
      |T m path h h0 p S U D|T path sub p SA N S U F]; intros pn' T'' RJ'.
    - assert (NS : ~ all_accepted [] sub).
      { rewrite Es. intros A. apply all_accepted_app in A as [_ A]. cbn [all_accepted] in A.
        apply (rejected_not_accepted _ _ _ _ RJ). tauto. }
      inversion RJ' as [T0 path0 sub0 l1' o' l2' pn0 T0' Es' A1' RJ0|T0 o0 path0 pn0 Ep SA SP
        |T0 o0 path0 i Ep SA S L U0 U1| |T0 path0 sub0 p SA N S U F]; subst;
        try (cbn [sub_accepted] in SA; contradiction).
      assert (X : l1 = l1' /\ o = o' /\ l2 = l2').
      { apply rejected_not_accepted in RJ. apply rejected_not_accepted in RJ0.
        match goal with J : _ ++ o :: _ = _ ++ _ |- _ => rename J into E end.
        clear -A1 A1' RJ RJ0 E.
        assert (G : forall (T : table) l1 l1', l1 ++ o :: l2 = l1' ++ o' :: l2' -> all_accepted T l1 -> all_accepted T l1' ->
                    ~ accepted (afters T l1) o -> ~ accepted (afters T l1') o' -> l1 = l1' /\ o = o' /\ l2 = l2').
        { clear. intros T l1. revert T. induction l1 as [|a l1 IH]; intros T l1' E A A' N N'.
          - destruct l1' as [|a' l1']; simpl in E; [injection E as -> ->; auto|].
            injection E as -> ->. cbn [all_accepted afters] in *. tauto.
          - destruct l1' as [|a' l1']; simpl in E; injection E as -> E; cbn [all_accepted afters] in *; [tauto|].
            destruct (IH _ l1' E (proj2 A) (proj2 A') N N') as (-> & -> & ->). auto. }
        eapply G; eauto. }
      destruct X as (-> & -> & ->). destruct (IH _ _ RJ0) as [-> _]. auto.
    - inversion RJ' as [T0 path0 sub0 l1' o' l2' pn0 T0' Es' A1' RJ0|T0 o0 path0 pn0 Ep' SA' SP'
        |T0 o0 path0 i Ep' SA' S L U0 U1|T0 m path0 h h0 p S U D|T0 path0 sub0 p SA' N S U F]; subst.
      + exfalso. cbn [sub_accepted] in SA. apply all_accepted_app in SA as [_ A]. cbn [all_accepted] in A.
        apply (rejected_not_accepted _ _ _ _ RJ0). tauto.
      + rewrite Ep in Ep'. injection Ep' as <-. split; [eapply star_panic_fun; eauto|reflexivity].
      + rewrite Ep in Ep'. injection Ep' as <-. apply star_panic_not_ok in SP. contradiction.
      + cbn [op_path] in Ep. injection Ep as <-. apply star_panic_not_ok in SP. contradiction.
      + cbn [op_path] in Ep. injection Ep as <-. apply star_panic_not_ok in SP. contradiction.
    - inversion RJ' as [T0 path0 sub0 l1' o' l2' pn0 T0' Es' A1' RJ0|T0 o0 path0 pn0 Ep' SA' SP'
        |T0 o0 path0 i' Ep' SA' S' L' U0' U1'|T0 m path0 h h0 p S' U D|T0 path0 sub0 p SA' N S' U F]; subst.
      + exfalso. cbn [sub_accepted] in SA. apply all_accepted_app in SA as [_ A]. cbn [all_accepted] in A.
        apply (rejected_not_accepted _ _ _ _ RJ0). tauto.
      + rewrite Ep in Ep'. injection Ep' as <-. apply star_panic_not_ok in SP'. contradiction.
      + rewrite Ep in Ep'. injection Ep' as <-. assert (i = i').
        { destruct (Nat.lt_trichotomy i i') as [X|[X|X]]; [|exact X|].
          - exfalso. apply U1. apply (unambiguous_firstn_le T (Datatypes.S i) i'); [lia|exact U0'].
          - exfalso. apply U1'. apply (unambiguous_firstn_le T (Datatypes.S i') i); [lia|exact U0]. }
        subst i'. auto.
      + cbn [op_path] in Ep. injection Ep as <-. exfalso. apply U1. apply unambiguous_firstn. exact U.
      + cbn [op_path] in Ep. injection Ep as <-. exfalso. apply U1. apply unambiguous_firstn. exact U.
    - inversion RJ' as [|T0 o0 path0 pn0 Ep' SA' SP'|T0 o0 path0 i' Ep' SA' S' L' U0' U1'|T0 m0 path0 h1 h2 p1 S' U' D'|]; subst.
      + cbn [op_path] in Ep'. injection Ep' as <-. apply star_panic_not_ok in SP'. contradiction.
      + cbn [op_path] in Ep'. injection Ep' as <-. exfalso. apply U1'. apply unambiguous_firstn. exact U.
      + auto.
    - inversion RJ' as [T0 path0 sub0 l1' o' l2' pn0 T0' Es' A1' RJ0|T0 o0 path0 pn0 Ep' SA' SP'
        |T0 o0 path0 i' Ep' SA' S' L' U0' U1'| |T0 path0 sub0 p' SA' N' S' U' F']; subst.
      + exfalso. cbn [sub_accepted] in SA. apply all_accepted_app in SA as [_ A]. cbn [all_accepted] in A.
        apply (rejected_not_accepted _ _ _ _ RJ0). tauto.
      + cbn [op_path] in Ep'. injection Ep' as <-. apply star_panic_not_ok in SP'. contradiction.
      + cbn [op_path] in Ep'. injection Ep' as <-. exfalso. apply U1'. apply unambiguous_firstn. exact U.
      + auto.
  Qed.

  Lemma panic_reason (l : list op) t o pn : built l t -> tidy (table_of l) o ->
    (snd (run_op t o) = Some pn <-> exists T', rejected (table_of l) o pn T').
  Proof.
    intros B C. apply built_rep in B as (R & _ & _).
    destruct (step_cases o t _ C R) as [(A & E & _)|(A & pn' & T' & E & RJ & _)]; rewrite E.
    - split; [discriminate|]. intros [T' RJ]. apply rejected_not_accepted in RJ. contradiction.
    - split.
      + intros F. injection F as <-. eauto.
      + intros [T'' RJ']. destruct (rejected_fun _ _ _ _ RJ _ _ RJ') as [-> _]. reflexivity.
  Qed.

  (** ** C07 *)

  Lemma lookup_some (l : list op) t path r : built l t -> search_route t path = LSome r ->
    exists ts ps, resolves (table_of l) (segments path) ts ps /\ delivers (table_of l) ts ps r.
  Proof.
    intros B E. apply built_rep in B as (R & _ & _). apply (found_iff _ _ _ _ R) in E as (ts & ps & RS & ->).
    exists ts, ps. split; [exact RS|apply answer_delivers].
  Qed.

  Lemma some_lookup (l : list op) t path ts ps : built l t -> resolves (table_of l) (segments path) ts ps ->
    exists r, search_route t path = LSome r /\ delivers (table_of l) ts ps r.
  Proof.
    intros B RS. apply built_rep in B as (R & _ & _).
    exists (answer (table_of l) ts ps). split; [apply resolves_search; assumption|apply answer_delivers].
  Qed.

  Lemma none_lookup (l : list op) t path : built l t ->
    (search_route t path = LNone <-> forall ts ps, ~ resolves (table_of l) (segments path) ts ps).
  Proof.
    intros B. apply built_rep in B as (R & _ & _).
    destruct (search_spec t _ R path) as [(ts & ps & RS & E)|(N & E)]; rewrite E.
    - split; [discriminate|]. intros N. destruct (N _ _ RS).
    - tauto.
  Qed.

  (** ** C03, C04 *)

  Lemma found_route (l : list op) t p m h path b : built l t -> registered l p (CRoute m h) -> no_star p ->
    seg_match p (segments path) b ->
    exists r, search_route t path = LSome r /\ rr_get_route r m = Some (Route m h) /\
              forall n, pget n (rr_params r) = first_binding b n.
  Proof.
    intros B I NS S. apply built_rep in B as (R & G & _).
    destruct (found_own _ t p m h (segments path) path b R G I NS S eq_refl) as [E1 E2].
    eexists. split; [exact E1|]. split; [exact E2|]. apply answer_delivers.
  Qed.

  (** ** C05 *)

  Lemma match_reads_prefix (T : table) c : forall p1 R b, seg_match p1 R b -> no_star p1 -> forall p0 p2,
    In (p0 ++ p1 ++ p2, c) T -> path_ok (p0 ++ p1 ++ p2) -> reads T (flat p0) R (flat p1) b.
  Proof.
    intros p1 R b S. induction S as [|s p R b L S IH|n s p R b S IH|R N]; intros NS p0 p2 I P.
    - constructor.
    - assert (K : key_ok s) by (apply P; apply in_or_app; right; left; reflexivity).
      destruct (literal_toks s (key_ok_nonempty _ K) L) as (c0 & us & E & Sp).
      rewrite flat_cons, E. rewrite <- Sp at 1.
      assert (EF : flat p0 ++ Ch c0 :: us = flat (p0 ++ [s])).
      { rewrite flat_app. f_equal. unfold flat. simpl. rewrite app_nil_r. symmetry. exact E. }
      assert (EP : p0 ++ (s :: p) ++ p2 = (p0 ++ [s]) ++ p ++ p2) by (rewrite <- app_assoc; reflexivity).
      rewrite EP in I, P.
      apply rd_lit; rewrite EF.
      + right. left. exists ((p0 ++ [s]) ++ p ++ p2), c, (length (p0 ++ [s])). split; [exact I|].
        rewrite firstn_app, Nat.sub_diag, firstn_O, app_nil_r, firstn_all. reflexivity.
      + apply (IH (fun J => NS (or_intror J)) _ p2); assumption.
    - rewrite flat_cons. change (seg_toks (c_colon :: n)) with [Par n]. cbn [app].
      assert (EF : flat p0 ++ [Par n] = flat (p0 ++ [c_colon :: n])) by (rewrite flat_app; reflexivity).
      assert (I' : In ((p0 ++ [c_colon :: n]) ++ p ++ p2, c) T) by (rewrite <- app_assoc; exact I).
      assert (P' : path_ok ((p0 ++ [c_colon :: n]) ++ p ++ p2)) by (rewrite <- app_assoc; exact P).
      apply rd_par; rewrite EF.
      + right. left. exists ((p0 ++ [c_colon :: n]) ++ p ++ p2), c, (length (p0 ++ [c_colon :: n])). split; [exact I'|].
        rewrite firstn_app, Nat.sub_diag, firstn_O, app_nil_r, firstn_all. reflexivity.
      + apply (IH (fun J => NS (or_intror J)) _ p2); assumption.
    - exfalso. apply NS. left. reflexivity.
  Qed.


  Lemma wildcard_found (l : list op) t q c path b : built l t -> no_star_mount l ->
    registered l (q ++ [s_star]) c -> seg_match (q ++ [s_star]) (segments path) b ->
    exists p c' b' r, search_route t path = LSome r /\ registered l p c' /\ c' <> CNode /\
      strict_prefix (flat q) (flat p) /\ delivers (table_of l) (flat p) b' r.
  Proof.
    intros B NM I S. apply built_rep in B as (R & G & A).
    assert (SL : stars_last (table_of l)) by (apply stars_last_table; assumption).
    assert (Nq : no_star q).
    { intros J. apply In_nth_error in J as [i E].
      assert (L : i < length q) by (apply nth_error_Some; congruence).
      assert (E' : nth_error (q ++ [s_star]) i = Some s_star) by (rewrite nth_error_app1 by exact L; exact E).
      destruct (SL _ _ I i s_star E') as [_ F]; [left; reflexivity|]. rewrite app_length in F. simpl in F. lia. }
    destruct (seg_match_star_inv _ _ _ S Nq) as [L S'].
    assert (D : reads (table_of l) [] (firstn (length q) (segments path)) (flat q) b).
    { apply (match_reads_prefix (table_of l) c q _ b S' Nq [] [s_star]); [exact I|]. exact (gd_path _ G _ _ I). }
    assert (BD : boundary (table_of l) (flat q ++ [Star])).
    { replace (flat q ++ [Star]) with (flat (q ++ [s_star])) by (rewrite flat_app; reflexivity).
      eapply boundary_end. exact I. }
    destruct (wild_resolved t _ path _ _ _ R SL NM L D BD) as (ts & ps & E & RS & SP).
    apply resolves_reads in RS as (_ & _ & _ & _ & _ & _ & HV).
    assert (HE : exists p c', In (p, c') (table_of l) /\ c' <> CNode /\ flat p = ts).
    { destruct HV as [N|N]; apply not_nil_In in N.
      - destruct N as [[m h] J]. apply in_routes_at in J as (p & J & Ep). exists p, (CRoute m h). repeat split; auto; discriminate.
      - destruct N as [mw J]. apply in_mws_at in J as (p & J & Ep). exists p, (CMw mw). repeat split; auto; discriminate. }
    destruct HE as (p & c' & Ip & Nc & <-). exists p, c', ps, (answer (table_of l) (flat p) ps).
    repeat split; auto; try apply answer_delivers.
  Qed.
End Lemmas.
