(** What rejected registrations say. *)

From Coq Require Import String.
From Verif Require Import Base BaseFacts RouteTrie Router Messages TableSpec PropSpec TextSpec TrieDen TrieRep TrieBuild TrieSearch TrieLookup TrieTotal OwnPath TextRep TextInv WireSpec MessageSpec MessageSpots MessageCuts.
From Verif Require RouteLemmas.
Local Open Scope string_scope.
Local Open Scope list_scope.

Lemma name_shows m : shows m (method_name m).
Proof. unfold shows, known_methods. destruct m; cbn [method_name]; auto 12 using in_eq, in_cons. Qed.

Section Message.
  Context {H M : Type}.
  Notation node := (node H M).
  Notation table := (table H M).
  Notation op := (op H M).

  (** The outcome of a call and its text agree. *)
  Definition agree (r : upd node) (txt : option str) (T : table) (o : op) : Prop :=
    (snd r = None /\ txt = None) \/ exists pn m, snd r = Some pn /\ txt = Some m /\ says T o pn m.

  Lemma star_agree (t : node) path pn T (o : op) : star_check (List.length (segments path)) 0 (segments path) = Some pn ->
    op_path o = Some path -> sub_built o -> agree (t, Some pn) (Some (star_text path pn)) T o.
  Proof.
    intros E P B. apply star_check_panic in E. right. exists pn, (star_text path pn). split; [reflexivity|]. split; [reflexivity|].
    pose proof E as (p0 & s & p1 & _ & _ & _ & [[_ ->]|(_ & _ & ->)]); [apply say_name|apply say_last]; assumption.
  Qed.

  Lemma clash_says (t : node) T p p0 v a p1 b : spots_are t T -> wrefused t p p0 v a p1 b -> clashes T p a b.
  Proof.
    intros A (E1 & E2 & E3 & E4 & E5 & E6 & E7 & E8 & _). exists p0, v, p1. split; [exact E1|]. split; [exact E2|]. split; [exact E3|].
    split; [|split].
    - destruct E5 as [E5|E5]; [auto|]. apply A in E5 as [E5|E5]; [apply app_eq_nil in E5 as [_ E5]; auto|auto].
    - split; [exact E6|]. split.
      + apply A in E7 as [E7|E7]; [|rewrite <- app_assoc; exact E7]. exfalso. apply app_eq_nil in E7 as [_ E7]. apply app_eq_nil in E7. tauto.
      + intros z y Eb Nz Ny C. apply (E8 z y Eb Nz Ny). apply A. right. rewrite app_assoc. exact C.
    - destruct E4 as [E4|E4]; apply starts_colon_spec in E4; auto.
  Qed.

  (** A walk, given what is done and said at its end. *)
  Lemma walk_agree (t : node) T path (o : op) final ftext : both t T -> segments path <> [] -> op_path o = Some path -> sub_built o ->
    (forall fill m, wreaches t (segments path) fill m -> agree (final m) (ftext m) T o) ->
    agree (walk t (segments path) final) (walk_text t (segments path) ftext (fun e => opening o ++ e ++ lit " at " ++ path)) T o.
  Proof.
    intros [(R & _) A] NP P B F. destruct (walk_reaches _ NP t R (nonempty_segments path)) as [(p0 & v & a & p1 & b & W)|(fill & m & W)].
    - pose proof W as (_ & _ & _ & _ & _ & _ & _ & _ & (n' & W1) & W2). right. exists PAmbiguous. rewrite W1, W2. eexists.
      split; [reflexivity|]. split; [reflexivity|]. rewrite <- !app_assoc. apply say_clash; [exact P|exact B|]. exact (clash_says t T _ _ _ _ _ _ A W).
    - pose proof W as (W1 & W2 & _). specialize (F fill m W). rewrite W1, W2. destruct F as [[F1 F2]|(pn & x & F1 & F2 & F3)]; [left|right].
      + cbn [snd]. auto.
      + exists pn, x. cbn [snd]. auto.
  Qed.

  Lemma duplicate_agree (t : node) T K path m h (x : node) : trep t T -> (forall v, nval x = Some v -> vals t K v) ->
    (forall q h0, In (q, CRoute m h0) T -> text q = K ->
       says T (ORoute m path h) PDuplicate (lit "Duplicated route method '" ++ method_name m ++ lit "' at '" ++ (if is_empty (segments path) then [c_slash] else path) ++ lit "' detected")) ->
    agree (set_route (Route m h) x) (duplicate_text m (if is_empty (segments path) then [c_slash] else path) x) T (ORoute m path h).
  Proof.
    intros (_ & TD & _) V S. destruct x as [k [v|] cs]; unfold duplicate_text; cbn [set_route nval r_method add_route] in *.
    - destruct (TD K v (V v eq_refl)) as (_ & G & _). unfold get_route in *. specialize (G m).
      destruct (aget method_eqb m (rv_route v)) as [old|] eqn:Eo.
      + right. exists PDuplicate. eexists. split; [reflexivity|]. split; [reflexivity|].
        destruct (handler_for m (routes_on T K)) as [h0|] eqn:Eh; [|discriminate]. cbn [option_map] in G. injection G as ->. cbn [r_method].
        assert (I : exists h1, In (m, h1) (routes_on T K)).
        { clear -Eh. induction (routes_on T K) as [|[m' h'] l IH]; [discriminate|]. cbn [handler_for] in Eh. destruct (method_eqb m m') eqn:E.
          - apply method_eqb_spec in E. subst m'. exists h'. left. reflexivity.
          - destruct (IH Eh) as [h1 I]. exists h1. right. exact I. }
        destruct I as [h1 I]. apply in_routes_on in I as (q & I & E). exact (S q h1 I E).
      + left. split; reflexivity.
    - left. split; reflexivity.
  Qed.

  Lemma op_text_router (t : node) path sub :
    op_text t (ORouter path sub) = match build_text sub with Some m => Some m | None => insert_sub_route_text t path end.
  Proof. reflexivity. Qed.

  Lemma ops_app (a b : list op) : forall t : node, snd (run_ops t a) = None -> run_ops t (a ++ b) = run_ops (fst (run_ops t a)) b.
  Proof.
    induction a as [|o a IH]; intros t E; [reflexivity|]. cbn [app run_ops] in *. destruct (run_op t o) as [t' [pn|]]; [discriminate|]. apply IH. exact E.
  Qed.

  Lemma afters_app (a b : list op) : forall T : table, afters T (a ++ b) = afters (afters T a) b.
  Proof. induction a as [|o a IH]; intros T; [reflexivity|]. cbn [app afters]. apply IH. Qed.

  Lemma ops_agree (l : list op) : Forall (fun o => forall t T, both t T -> agree (run_op t o) (op_text t o) T o) l ->
    forall pre (t : node), build pre = (t, None) ->
    (snd (run_ops t l) = None /\ ops_text t l = None) \/
    exists pn m l1 o l2, l = l1 ++ o :: l2 /\ snd (run_ops t l) = Some pn /\ ops_text t l = Some m /\
      snd (build (pre ++ l1)) = None /\ snd (build ((pre ++ l1) ++ [o])) = Some pn /\ says (table_of (pre ++ l1)) o pn m.
  Proof.
    intros F. induction F as [|o l Fo F IH]; intros pre t E; [left; split; reflexivity|]. cbn [run_ops ops_text].
    destruct (Fo t (table_of pre) (build_both pre t E)) as [[A1 A2]|(pn & m & A1 & A2 & A3)].
    - rewrite A2. destruct (run_op t o) as [t' st] eqn:Eo. cbn [snd fst] in *. subst st.
      assert (E' : build (pre ++ [o]) = (t', None)).
      { unfold build. rewrite ops_app by (change (run_ops trie_new pre) with (build pre); rewrite E; reflexivity).
        change (run_ops trie_new pre) with (build pre). rewrite E. cbn [fst run_ops]. rewrite Eo. reflexivity. }
      destruct (IH (pre ++ [o]) t' E') as [B|(pn & m & l1 & o' & l2 & -> & B2 & B3 & B4 & B5 & B6)]; [left; exact B|right].
      exists pn, m, (o :: l1), o', l2. rewrite <- (app_assoc pre) in B4, B5, B6. auto 6.
    - right. exists pn, m, [], o, l. rewrite A2. destruct (run_op t o) as [t' st] eqn:Eo. cbn [snd] in A1. subst st.
      assert (X : snd (build (pre ++ [o])) = Some pn).
      { unfold build. rewrite ops_app by (change (run_ops trie_new pre) with (build pre); rewrite E; reflexivity).
        change (run_ops trie_new pre) with (build pre). rewrite E. cbn [fst run_ops]. rewrite Eo. reflexivity. }
      rewrite app_nil_r, E. cbn [snd app]. repeat (split; [reflexivity|]). split; [exact X|exact A3].
  Qed.

  Lemma op_agree (o : op) : forall t T, both t T -> agree (run_op t o) (op_text t o) T o.
  Proof.
    induction o as [m path h|path mw|mw|path sub IH] using op_ind'; intros t T BO; pose proof BO as [TR SA].
    - cbn [run_op op_text]. unfold insert_route, insert_route_text. cbn [r_method]. destruct (star_check _ _ _) eqn:Es; [apply star_agree; [exact Es|reflexivity|exact I]|].
      destruct (is_empty (segments path)) eqn:Ep.
      + pose proof (duplicate_agree t T [] path m h t TR) as D. rewrite Ep in D. apply D.
        * intros v V. apply vals_nil; [exact (proj1 TR)|exact V].
        * intros q h0 I E. apply is_empty_true in Ep. apply (say_root T m _ path h q h0 Ep (name_shows m) I E).
      + assert (NP : segments path <> []) by (apply is_empty_false; exact Ep).
        apply (walk_agree t T path (ORoute m path h)); [exact BO|exact NP|reflexivity|exact I|].
        intros fill x (_ & _ & _ & _ & V & _). pose proof (duplicate_agree t T (text (segments path)) path m h x TR) as D. rewrite Ep in D. apply D.
        * intros v E. specialize (V [] v). rewrite app_nil_r in V. apply V. exists x. split; [apply bl_here|exact E].
        * intros q h0 I E. apply (say_twice T m _ path h q h0 NP (name_shows m) I E).
    - cbn [run_op op_text]. unfold insert_middleware, insert_middleware_text. destruct (star_check _ _ _) eqn:Es; [apply star_agree; [exact Es|reflexivity|exact I]|].
      destruct (segments path) as [|s p] eqn:Ep; [left; split; reflexivity|]. rewrite <- Ep.
      apply (walk_agree t T path (OServiceTo path mw)); [exact BO|rewrite Ep; discriminate|reflexivity|exact I|].
      intros fill x _. left. destruct x. split; reflexivity.
    - left. destruct t. split; reflexivity.
    - rewrite run_op_router, op_text_router.
      destruct (ops_agree sub IH [] trie_new eq_refl) as [[B1 B2]|(pn & m & l1 & o & l2 & -> & B2 & B3 & B4 & B5 & B6)].
      + change (run_ops trie_new sub) with (build sub) in B1. change (ops_text trie_new sub) with (build_text sub) in B2. rewrite B1, B2.
        unfold insert_sub_route, insert_sub_route_text. destruct (star_check _ _ _) eqn:Es; [apply star_agree; [exact Es|reflexivity|exact B1]|].
        destruct (is_empty (segments path)) eqn:Ep; [left; split; reflexivity|].
        assert (NP : segments path <> []) by (apply is_empty_false; exact Ep).
        apply (walk_agree t T path (ORouter path sub)); [exact BO|exact NP|reflexivity|exact B1|].
        intros fill x (_ & _ & Rx & Sx & V & _). unfold mount, conflict_text. destruct x as [k v cs]. cbn [nval nkids].
        destruct (_ || _) eqn:EC; [|left; split; reflexivity]. right. exists PMountConflict. eexists. split; [reflexivity|]. split; [reflexivity|].
        destruct v as [v|].
        * specialize (V [] v (ex_intro _ _ (conj (bl_here _) eq_refl))). rewrite app_nil_r in V. destruct TR as (_ & TD & _).
          destruct (TD _ v V) as (_ & _ & q & c & I & NC & E). apply (say_mount T path sub q c); auto.
        * destruct cs as [|c cs]; [discriminate|]. assert (S : spot (Node k None (c :: cs)) (nkey c)).
          { apply spot_kid. right. exists c, []. rewrite app_nil_r. split; [left; reflexivity|]. split; [reflexivity|apply spot_here]. }
          destruct Rx as [K _]. destruct (K c (or_introl eq_refl)) as [Nc _].
          apply Sx in S as [S|S]; [congruence|]. apply SA in S as [S|S]; [apply app_eq_nil in S; tauto|].
          apply cut_prefix in S as (q & d & I & [r E]). apply (say_mount T path sub q d); auto. right.
          destruct (nkey c) as [|a u]; [congruence|]. exists a, (u ++ r). rewrite E, <- app_assoc. reflexivity.
      + change (run_ops trie_new (l1 ++ o :: l2)) with (build (l1 ++ o :: l2)) in B2.
        change (ops_text trie_new (l1 ++ o :: l2)) with (build_text (l1 ++ o :: l2)) in B3. rewrite B2, B3. right. exists pn, m.
        split; [reflexivity|]. split; [reflexivity|]. apply say_inner; assumption.
  Qed.

  (** ** The statements *)

  Theorem call_message (l : list op) t o pn : build l = (t, None) -> snd (run_op t o) = Some pn ->
    exists m, op_text t o = Some m /\ says (table_of l) o pn m.
  Proof.
    intros E P. destruct (op_agree o t (table_of l) (build_both l t E)) as [[A _]|(pn' & m & A1 & A2 & A3)]; [discriminate (eq_trans (eq_sym A) P)|].
    pose proof (eq_trans (eq_sym A1) P) as X. injection X as ->. exists m. auto.
  Qed.

  Theorem call_silent (l : list op) t o : build l = (t, None) -> (snd (run_op t o) = None <-> op_text t o = None).
  Proof.
    intros E. destruct (op_agree o t (table_of l) (build_both l t E)) as [[A B]|(pn' & m & A & B & _)]; rewrite B; split; intros X;
      [reflexivity|exact A|discriminate (eq_trans (eq_sym A) X)|discriminate].
  Qed.

  Theorem build_message (l : list op) m : build_text l = Some m ->
    exists l1 o l2 pn, l = l1 ++ o :: l2 /\ snd (build l1) = None /\ snd (build (l1 ++ [o])) = Some pn /\ says (table_of l1) o pn m.
  Proof.
    intros E. destruct (ops_agree l (proj2 (Forall_forall _ _) (fun o _ => op_agree o)) [] trie_new eq_refl) as [[_ B]|(pn & m' & l1 & o & l2 & -> & _ & B3 & B4 & B5 & B6)].
    - discriminate (eq_trans (eq_sym B) E).
    - exists l1, o, l2, pn. pose proof (eq_trans (eq_sym B3) E) as X. injection X as ->. auto.
  Qed.

  Theorem build_silent (l : list op) : snd (build l) = None <-> build_text l = None.
  Proof.
    destruct (ops_agree l (proj2 (Forall_forall _ _) (fun o _ => op_agree o)) [] trie_new eq_refl) as [[A B]|(pn & m' & l1 & o & l2 & -> & B2 & B3 & _)];
      (split; intros X; [|]).
    - exact B.
    - exact A.
    - discriminate (eq_trans (eq_sym B2) X).
    - discriminate (eq_trans (eq_sym B3) X).
  Qed.

  (** ** Which calls are accepted *)

  Lemma star_panic_bad p pn : star_panic p pn -> ~ star_ok p.
  Proof.
    intros (p0 & s & p1 & -> & _ & I & O) S. destruct (S (List.length p0) s) as [E L]; [|exact I|].
    - rewrite nth_error_app2, Nat.sub_diag by lia. reflexivity.
    - destruct O as [[N _]|(_ & N & _)]; [contradiction|]. rewrite app_length in L. cbn [List.length] in L. destruct p1; [contradiction|]. cbn [List.length] in L. lia.
  Qed.

  Lemma build_front (a b : list op) : snd (build (a ++ b)) = None -> snd (build a) = None.
  Proof.
    unfold build. generalize (@trie_new H M). induction a as [|o a IH]; intros t E; [reflexivity|]. cbn [app run_ops] in *.
    destruct (run_op t o) as [t' [pn|]]; [discriminate|]. exact (IH t' E).
  Qed.

  Lemma accepted_free t T (o : op) : both t T -> snd (run_op t o) = None -> free T o.
  Proof.
    intros [TR SA] A. pose proof TR as (R & TD & TE). destruct o as [m path h|path mw|mw|path sub].
    - cbn [run_op free] in *. unfold insert_route in A. destruct (star_check _ _ _) eqn:Es; [discriminate|]. apply star_check_spec in Es. split; [exact Es|].
      intros (q & h0 & I & E).
      assert (X : forall x, (exists v, nval x = Some v /\ vals t (text (segments path)) v) -> snd (set_route (Route m h) x) <> None).
      { intros x (v & Ev & V). destruct x as [k v' cs]. cbn [nval] in Ev. subst v'. cbn [set_route r_method add_route]. destruct (TD _ _ V) as (_ & G & _). specialize (G m).
        unfold get_route in G. rewrite G.
        destruct (handler_for m (routes_on T (text (segments path)))) as [h1|] eqn:Eh; [discriminate|].
        exfalso. assert (J : In (m, h0) (routes_on T (text (segments path)))) by (apply in_routes_on; exists q; auto).
        clear -Eh J. induction (routes_on T (text (segments path))) as [|[m' h'] r IH]; [contradiction|]. cbn [handler_for] in Eh.
        destruct (method_eqb m m') eqn:Em; [discriminate|]. destruct J as [J|J]; [|auto]. injection J as -> ->.
        rewrite (proj2 (method_eqb_spec m m) eq_refl) in Em. discriminate. }
      destruct (TE q _ I ltac:(discriminate)) as [v V]. rewrite E in V.
      destruct (is_empty (segments path)) eqn:Ep.
      + apply is_empty_true in Ep. apply (X t); [|exact A]. exists v. split; [|exact V]. rewrite Ep in V. apply vals_nil in V; [exact V|exact R].
      + assert (NP : segments path <> []) by (apply is_empty_false; exact Ep). destruct (walk t _ _) as [t' st] eqn:Ew. cbn [snd] in A. subst st.
        destruct (walk_done t t' path _ R NP (radixes_set_route _) Ew) as (x & S & (Rx & Vx & _)). apply (X x); [|exact S]. exists v. split; [|exact V].
        apply vals_nil; [exact Rx|]. apply Vx. rewrite app_nil_r. exact V.
    - cbn [run_op free] in *. unfold insert_middleware in A. destruct (star_check _ _ _) eqn:Es; [discriminate|]. apply star_check_spec. exact Es.
    - exact I.
    - rewrite run_op_router in A. cbn [free]. destruct (snd (build sub)) eqn:Eb; [discriminate|]. split; [reflexivity|].
      unfold insert_sub_route in A. destruct (star_check _ _ _) eqn:Es; [discriminate|]. split; [apply star_check_spec; exact Es|].
      destruct (is_empty (segments path)) eqn:Ep; [left; apply is_empty_true; exact Ep|right].
      assert (NP : segments path <> []) by (apply is_empty_false; exact Ep).
      intros (q & c & I & E). destruct (walk_reaches _ NP t R (nonempty_segments path)) as [(p0 & v & a & p1 & b & W)|(fill & x & W)].
      { destruct W as (_ & _ & _ & _ & _ & _ & _ & _ & (n' & W) & _). rewrite W in A. discriminate. }
      destruct W as (W1 & _ & _ & Sx & _). destruct E as [[E NCn]|(y & r & E)].
      + destruct (TE q c I NCn) as [v V]. rewrite E in V. destruct (walk t _ _) as [t' st] eqn:Ew. cbn [snd] in A. subst st.
        assert (RS : radix (fst (build sub))).
        { destruct (build sub) as [src st] eqn:E2. cbn [snd] in Eb. subst st. exact (proj1 (build_trep sub src E2)). }
        destruct (walk_done t t' path _ R NP (radixes_mount _ RS) Ew) as (z & S & (Rz & Vz & _)).
        assert (V0 : vals z [] v) by (apply Vz; rewrite app_nil_r; exact V). apply vals_nil in V0; [|exact Rz]. destruct z as [k v' cs]. cbn [nval] in V0. subst v'. discriminate.
      + rewrite W1 in A. cbn [snd] in A. assert (S : spot x (y :: r)).
        { apply Sx. right. rewrite <- E. apply SA. right. left. exists q, c, (List.length q). split; [exact I|]. apply text_all. }
        apply spot_kid in S as [S|(d & u & J & _)]; [discriminate|]. destruct x as [k v cs]. cbn [nkids mount] in *. destruct cs; [contradiction|].
        rewrite orb_true_r in A. discriminate.
  Qed.

  Lemma says_not_free (T : table) (o : op) pn m : says T o pn m -> (forall path a b, op_path o = Some path -> ~ clashes T (segments path) a b) -> ~ free T o.
  Proof.
    intros S NC F. destruct S as [T path pre o post pn m B R _|T o path P B S|T o path P B S|T o path a b P B C|T m s path h q h0 N S I E|T m s path h q h0 N S I E|T path sub q c B N I E].
    - destruct F as [F _]. change (o :: post) with ([o] ++ post) in F. rewrite app_assoc in F. apply build_front in F. congruence.
    - apply star_panic_bad in S. destruct o; cbn in P, F; try discriminate; injection P as ->; tauto.
    - apply star_panic_bad in S. destruct o; cbn in P, F; try discriminate; injection P as ->; tauto.
    - exact (NC path a b P C).
    - destruct F as [_ F]. apply F. exists q, h0. auto.
    - destruct F as [_ F]. apply F. exists q, h0. rewrite N. auto.
    - destruct F as (_ & _ & [F|F]); [contradiction|]. apply F. exists q, c. auto.
  Qed.

  Theorem accepted_any (l : list op) t o : build l = (t, None) ->
    (forall path a b, op_path o = Some path -> ~ clashes (table_of l) (segments path) a b) ->
    (snd (run_op t o) = None <-> free (table_of l) o).
  Proof.
    intros E NC. pose proof (build_both l t E) as BO. split.
    - intros A. exact (accepted_free t _ o BO A).
    - intros F. destruct (op_agree o t _ BO) as [[A _]|(pn & m & _ & _ & S)]; [exact A|]. destruct (says_not_free _ _ _ _ S NC F).
  Qed.

  Lemma build_first (a b : list op) pn : snd (build a) = Some pn -> snd (build (a ++ b)) = Some pn.
  Proof.
    unfold build. generalize (@trie_new H M). induction a as [|o a IH]; intros t E; [discriminate|]. cbn [app run_ops] in *.
    destruct (run_op t o) as [t' [p|]]; [exact E|]. exact (IH t' E).
  Qed.

  Lemma star_reason p pn : star_panic p pn -> pn = PStarInName \/ pn = PStarNotLast.
  Proof. intros (p0 & s & p1 & _ & _ & _ & [[_ ->]|(_ & _ & ->)]); auto. Qed.

  (** A call rejected for another reason has no misplaced star. *)
  Lemma star_passed (t : node) (o : op) path pn : op_path o = Some path -> sub_built o -> snd (run_op t o) = Some pn ->
    pn <> PStarInName -> pn <> PStarNotLast -> star_ok (segments path).
  Proof.
    intros P B E N1 N2. apply star_check_spec. destruct (star_check _ _ _) as [q|] eqn:Es; [|reflexivity]. exfalso.
    assert (X : snd (run_op t o) = Some q).
    { destruct o as [m pa h|pa mw|mw|pa sub]; cbn [op_path sub_built] in P, B; try discriminate; injection P as ->;
        [cbn [run_op]|cbn [run_op]|rewrite run_op_router, B]; unfold insert_route, insert_middleware, insert_sub_route; rewrite Es; reflexivity. }
    rewrite E in X. injection X as <-. destruct (star_reason _ _ (star_check_panic _ _ Es)); congruence.
  Qed.

  Lemma denied_fun T (o : op) pn pn' : denied T o pn -> denied T o pn' -> pn = pn'.
  Proof.
    destruct o as [m path h|path mw|mw|path sub]; cbn [denied].
    - intros [A|(A & -> & _)] [B|(B & -> & _)]; [exact (RouteLemmas.star_panic_fun _ _ _ A B)|destruct (star_panic_bad _ _ A B)|destruct (star_panic_bad _ _ B A)|reflexivity].
    - apply RouteLemmas.star_panic_fun.
    - tauto.
    - intros [A|[A A']] [B|[B B']]; [congruence|congruence|congruence|].
      destruct A' as [A'|(A' & -> & _)], B' as [B'|(B' & -> & _)]; [exact (RouteLemmas.star_panic_fun _ _ _ A' B')|destruct (star_panic_bad _ _ A' B')|destruct (star_panic_bad _ _ B' A')|reflexivity].
  Qed.

  Lemma denied_not_free T (o : op) pn : denied T o pn -> ~ free T o.
  Proof.
    destruct o as [m path h|path mw|mw|path sub]; cbn [denied free].
    - intros [A|(_ & _ & A)] [F1 F2]; [exact (star_panic_bad _ _ A F1)|exact (F2 A)].
    - apply star_panic_bad.
    - tauto.
    - intros [A|[_ [A|(_ & _ & N & A)]]] (F1 & F2 & F3); [congruence|exact (star_panic_bad _ _ A F2)|]. destruct F3 as [F3|F3]; [congruence|exact (F3 A)].
  Qed.

  Theorem denied_any (l : list op) t o pn : build l = (t, None) ->
    (forall path a b, op_path o = Some path -> ~ clashes (table_of l) (segments path) a b) ->
    (snd (run_op t o) = Some pn <-> denied (table_of l) o pn).
  Proof.
    intros E NC.
    assert (D : forall pn, snd (run_op t o) = Some pn -> denied (table_of l) o pn).
    { clear pn. intros pn X. destruct (call_message l t o pn E X) as (m & _ & S).
      remember (table_of l) as T eqn:ET. clear ET E.
      destruct S as [T path pre o post pn m B R _|T o path P B S|T o path P B S|T o path a b P B C|T m s path h q h0 N S I EQ|T m s path h q h0 N S I EQ|T path sub q c B N I EQ].
      - left. change (o :: post) with ([o] ++ post). rewrite app_assoc. apply build_first. exact R.
      - destruct o; cbn [op_path sub_built denied] in *; try discriminate; injection P as ->; auto.
      - destruct o; cbn [op_path sub_built denied] in *; try discriminate; injection P as ->; auto.
      - destruct (NC path a b P C).
      - right. split; [exact (star_passed t (ORoute m path h) path _ eq_refl Logic.I X ltac:(discriminate) ltac:(discriminate))|]. split; [reflexivity|]. exists q, h0. auto.
      - right. split; [exact (star_passed t (ORoute m path h) path _ eq_refl Logic.I X ltac:(discriminate) ltac:(discriminate))|]. split; [reflexivity|]. exists q, h0. rewrite N. auto.
      - right. split; [exact B|]. right. split; [exact (star_passed t (ORouter path sub) path _ eq_refl B X ltac:(discriminate) ltac:(discriminate))|].
        split; [reflexivity|]. split; [exact N|]. exists q, c. auto. }
    split; [apply D|]. intros A. destruct (snd (run_op t o)) as [pn'|] eqn:X.
    - f_equal. exact (denied_fun _ _ _ _ (D pn' eq_refl) A).
    - exfalso. apply (denied_not_free _ _ _ A). apply (accepted_any l t o E NC). exact X.
  Qed.
End Message.
