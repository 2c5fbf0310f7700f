(** Any accepted calls: wildcards. *)

From Verif Require Import Base BaseFacts RouteTrie Router TableSpec PropSpec TextSpec TrieDen TrieRep TrieBuild TrieSearch TrieLookup TrieTotal RouteLemmas2 OwnPath TextRep TextInv TextSearch TextOwn RouteFacts RouteLemmas4.

Section TextStar.
  Context {H M : Type}.
  Notation node := (node H M).

  (** Requests that go on after a registered path. *)
  Lemma search_reach (Q : node -> Prop) : forall n b q, leads Q n b q -> q <> [] -> (forall s, In s q -> s <> [] /\ ~ In c_star s) ->
    forall R1 R2 bs, fits b q R1 bs -> R2 <> [] ->
    exists m W, Q m /\ trail n m (concat q) W /\
      forall ps mws f k ps' mws', get_next_node m R2 ps mws false = SRet (Some f) k ps' mws' ->
        get_next_node n (R1 ++ R2) ps mws b = SRet (Some f) k (bind bs ps') (mws' ++ W).
  Proof.
    intros n b q L. induction L as [n W|n b l1 c l2 rest E N S P L IH|n b l1 c l2 s rest E N S P Ns L IH|n c l2 rest E P L IH];
      intros NP NS R1 R2 bs F NR2; [congruence| | |].
    - assert (X : exists R', R1 = nkey c :: R' /\ seg_match rest R' bs).
      { destruct b; cbn [fits] in F.
        - destruct R1 as [|x R']; [contradiction|]. destruct F as [<- F]. eauto.
        - specialize (P eq_refl). unfold is_param in P. inversion F as [|s p R' b' LS F'|nm x p R' b' F' EK|R' NR EK]; subst; eauto.
          + rewrite <- EK in P. discriminate.
          + exfalso. apply (proj2 (NS (nkey c) (or_introl eq_refl))). rewrite <- EK. left. reflexivity. }
      destruct X as (R' & -> & F').
      assert (NSc : nkey c <> s_star).
      { intros X. apply (proj2 (NS (nkey c) (or_introl eq_refl))). rewrite X. left. reflexivity. }
      assert (IC : In c (nkids n)) by (rewrite E; apply in_elt).
      assert (P' : negb b && is_param c = false) by (destruct b; [reflexivity|apply P; reflexivity]).
      assert (ST : negb b && str_eqb (nkey c) s_star = false) by (rewrite (proj2 (str_eqb_neq _ _) NSc); apply andb_false_r).
      assert (B : Nat.eqb (blen (nkey c)) 0 = false) by (apply Nat.eqb_neq; rewrite blen_0; exact N).
      assert (EM : is_empty (R' ++ R2) = false) by (apply is_empty_false; destruct R'; [exact NR2|discriminate]).
      assert (STEP : forall ps mws f k ps' mws', get_next_node c (R' ++ R2) ps mws false = SRet (Some f) k ps' mws' ->
                get_next_node n ((nkey c :: R') ++ R2) ps mws b = SRet (Some f) k ps' (mws' ++ val_mws (nval c))).
      { intros ps mws f k ps' mws' G. cbn [app]. rewrite get_next_kids, E, loop_skip by assumption. cbn [next_loop].
        rewrite P', ST. cbv zeta. rewrite (match_count_all (nkey c)), Nat.eqb_refl. cbn [andb negb]. rewrite B. cbn [negb].
        rewrite EM, G. reflexivity. }
      destruct rest as [|s rest].
      + apply seg_match_nil in F' as [-> ->]. inversion L as [? W| | |]; subst. exists c, (val_mws (nval c)). split; [exact W|].
        split; [cbn [concat]; rewrite app_nil_r; apply tr_here; exact IC|]. exact STEP.
      + destruct (IH ltac:(discriminate) ltac:(intros x I; apply NS; right; exact I) R' R2 bs F' NR2) as (m & W & Qm & T & G).
        exists m, (W ++ val_mws (nval c)). split; [exact Qm|]. split; [apply tr_down; assumption|].
        intros ps mws f k ps' mws' X. rewrite app_assoc. exact (STEP _ _ _ _ _ _ (G _ _ _ _ _ _ X)).
    - assert (X : exists R', R1 = (nkey c ++ s) :: R' /\ seg_match rest R' bs).
      { destruct b; cbn [fits] in F.
        - destruct R1 as [|x R']; [contradiction|]. destruct F as [<- F]. eauto.
        - specialize (P eq_refl). unfold is_param in P. inversion F as [|s' p R' b' LS F'|nm x p R' b' F' EK|R' NR EK]; subst; eauto.
          + exfalso. destruct (nkey c) as [|y k]; [congruence|]. injection EK as EK _. rewrite <- EK in P. discriminate.
          + exfalso. apply (proj2 (NS (nkey c ++ s) (or_introl eq_refl))). rewrite <- EK. left. reflexivity. }
      destruct X as (R' & -> & F').
      assert (NSc : nkey c <> s_star) by (apply (nostar_key c s); apply (NS (nkey c ++ s)); left; reflexivity).
      assert (HD : hd_error (nkey c ++ s) = hd_error (nkey c)) by (apply nonempty_head; exact N).
      assert (P' : negb b && is_param c = false) by (destruct b; [reflexivity|apply P; reflexivity]).
      assert (ST : negb b && str_eqb (nkey c) s_star = false) by (rewrite (proj2 (str_eqb_neq _ _) NSc); apply andb_false_r).
      assert (B : Nat.eqb (blen (nkey c)) 0 = false) by (apply Nat.eqb_neq; rewrite blen_0; exact N).
      assert (B2 : Nat.eqb (blen (nkey c)) (blen (nkey c) + blen s) = false).
      { apply Nat.eqb_neq. intros X. apply Ns, blen_0. lia. }
      assert (NS' : forall s0, In s0 (s :: rest) -> s0 <> [] /\ ~ In c_star s0).
      { intros s0 [<-|I]; [|apply NS; right; exact I]. split; [exact Ns|]. intros I.
        apply (proj2 (NS (nkey c ++ s) (or_introl eq_refl))). apply in_or_app. auto. }
      destruct (IH ltac:(discriminate) NS' (s :: R') R2 bs (conj eq_refl F') NR2) as (m & W & Qm & T & G).
      exists m, (W ++ val_mws (nval c)). split; [exact Qm|].
      split; [cbn [concat]; rewrite <- !app_assoc; apply tr_down; [rewrite E; apply in_elt|exact T]|].
      intros ps mws f k ps' mws' X. specialize (G _ _ _ _ _ _ X). cbn [app] in G |- *.
      rewrite get_next_kids, E, loop_skip.
      2: { destruct (nkey c); [congruence|discriminate]. }
      2: { intros d I. rewrite HD. exact (S d I). }
      cbn [next_loop]. rewrite P', ST. cbv zeta. rewrite match_count_prefix, Nat.eqb_refl, slice_from_app, blen_app.
      rewrite B, B2. cbn [andb negb is_empty]. unfold str in G |- *. rewrite G, app_assoc. reflexivity.
    - cbn [fits] in F. unfold is_param in P. pose proof P as SC. apply starts_colon_spec in P as [nm Ec].
      inversion F as [|s' p R' b' LS F'|nm' x p R' b' F' EK|R' NR EK]; subst.
      + exfalso. apply (proj2 LS). exists nm. exact Ec.
      + assert (nm' = nm) as -> by congruence. rewrite ?EK.
        assert (Pc : is_param c = true) by (unfold is_param; rewrite Ec; reflexivity).
        assert (SL : slice_from (nkey c) 1 = Some nm) by (rewrite Ec; destruct nm; reflexivity).
        assert (IC : In c (nkids n)) by (rewrite E; left; reflexivity).
        assert (EM : is_empty (R' ++ R2) = false) by (apply is_empty_false; destruct R'; [exact NR2|discriminate]).
        assert (STEP : forall ps mws f k ps' mws', get_next_node c (R' ++ R2) ps mws false = SRet (Some f) k ps' mws' ->
                  get_next_node n ((x :: R') ++ R2) ps mws false = SRet (Some f) k (pinsert nm x ps') (mws' ++ val_mws (nval c))).
        { intros ps mws f k ps' mws' G. cbn [app]. rewrite get_next_kids, E. cbn [next_loop negb andb]. rewrite Pc, EM, G, SL. reflexivity. }
        destruct rest as [|s rest].
        * apply seg_match_nil in F' as [-> ->]. inversion L as [? W| | |]; subst. exists c, (val_mws (nval c)). split; [exact W|].
          split; [cbn [concat]; rewrite app_nil_r; apply tr_here; exact IC|]. exact STEP.
        * destruct (IH ltac:(discriminate) ltac:(intros y I; apply NS; right; exact I) R' R2 b' F' NR2) as (m & W & Qm & T & G).
          exists m, (W ++ val_mws (nval c)). split; [exact Qm|]. split; [apply tr_down; assumption|].
          intros ps mws f k ps' mws' X. rewrite app_assoc. exact (STEP _ _ _ _ _ _ (G _ _ _ _ _ _ X)).
      + exfalso. rewrite Ec in EK. discriminate.
  Qed.

  Lemma trail_trans (n m f : node) w (W : list M) w' (W' : list M) : trail n m w W -> trail m f w' W' -> trail n f (w ++ w') (W' ++ W).
  Proof.
    intros A B. induction A as [n c I|n c m w W I A IH].
    - apply tr_down; assumption.
    - rewrite <- (app_assoc (nkey c)), (app_assoc W'). apply tr_down; [exact I|exact (IH B)].
  Qed.

  Lemma trail_starred (n : node) f w W : starred n -> trail n f w W -> nkey f = s_star -> nval f <> None.
  Proof.
    intros S A. induction A as [n c I|n c f w W I A IH]; destruct S as [S]; destruct (S c I) as [S1 S2].
    - intros E. exact (proj1 (S1 E)).
    - exact (IH S2).
  Qed.

  Lemma trail_below (n : node) f w W : starred n -> trail n f w W -> starred f.
  Proof. intros S A. induction A as [n c I|n c f w W I A IH]; destruct S as [S]; destruct (S c I) as [S1 S2]; [exact S2|exact (IH S2)]. Qed.

  Definition not_none (r : sres H M) : Prop := match r with SRet None _ _ _ => False | _ => True end.

  Lemma loop_star rec s d : nkey d = s_star -> forall cs key ps mws, In d cs -> not_none (next_loop (H := H) (M := M) rec s false cs key ps mws).
  Proof.
    intros K. induction cs as [|c cs IH]; intros key ps mws I; [contradiction|]. cbn [next_loop negb andb].
    destruct I as [->|I].
    - assert (P : is_param d = false) by (unfold is_param; rewrite K; reflexivity). rewrite P, K, str_eqb_refl. exact Logic.I.
    - destruct (is_param c).
      + destruct (is_empty key).
        * destruct (nval c); [|auto]. destruct (slice_from (nkey c) 1); exact Logic.I.
        * destruct (rec c key ps mws false) as [p|[f|] k' ps' mws']; [exact Logic.I| |auto].
          destruct (slice_from (nkey c) 1); exact Logic.I.
      + destruct (str_eqb (nkey c) s_star); [exact Logic.I|]. cbv zeta.
        match goal with |- not_none (match ?X with Some _ => _ | None => _ end) => destruct X as [key1|]; [|exact Logic.I] end.
        match goal with |- not_none (if ?X then _ else _) => destruct X; [|auto] end.
        destruct (is_empty key1).
        * destruct (nval c); [exact Logic.I|]. destruct (star_child (nkids c)) as [[e v]|]; [exact Logic.I|auto].
        * match goal with |- context [rec c key1 ps mws ?B] => destruct (rec c key1 ps mws B) as [p|[f|] k' ps' mws'] end; [exact Logic.I|exact Logic.I|auto].
  Qed.

  Lemma search_star (m : node) d R ps mws : In d (nkids m) -> nkey d = s_star -> R <> [] ->
    exists f k ps' W w, get_next_node m R ps mws false = SRet (Some f) k ps' (mws ++ W) /\ trail m f w W /\ (nval f <> None \/ nkey f = s_star).
  Proof.
    intros I K NR. pose proof (search_found m R ps mws false NR) as F. pose proof (get_next_total m R ps mws false NR) as P.
    assert (NN : not_none (get_next_node m R ps mws false)).
    { destruct R as [|s R]; [congruence|]. rewrite get_next_kids. apply (loop_star _ _ d K). exact I. }
    destruct (get_next_node m R ps mws false) as [p|[f|] k ps' mws']; [destruct P| |destruct NN].
    cbn [found_ok] in F. destruct F as (V & w & W & T & ->). exists f, k, ps', W, w. auto.
  Qed.

  Lemma match_star_split q : forall R b, seg_match (q ++ [s_star]) R b -> exists R1 R2, R = R1 ++ R2 /\ R2 <> [] /\ seg_match q R1 b.
  Proof.
    induction q as [|s q IH]; intros R b S; cbn [app] in S.
    - inversion S as [|s' p R' b' LS F'|nm' x p R' b' F' EK|R' NR EK]; subst.
      + destruct (proj1 LS eq_refl).
      + exists [], R. split; [reflexivity|]. split; [assumption|constructor].
    - inversion S as [|s' p R' b' LS F'|nm' x p R' b' F' EK|R' NR EK]; subst.
      + destruct (IH _ _ F') as (R1 & R2 & -> & N & X). exists (s :: R1), R2. split; [reflexivity|]. split; [exact N|]. apply sm_lit; assumption.
      + destruct (IH _ _ F') as (R1 & R2 & -> & N & X). exists (x :: R1), R2. split; [reflexivity|]. split; [exact N|]. apply sm_par; assumption.
      + destruct q; discriminate.
  Qed.

  Lemma seg_match_no_star q : forall s R b, seg_match (q ++ [s]) R b -> no_star q.
  Proof.
    induction q as [|x q IH]; intros s R b S; [intros []|]. cbn [app] in S.
    inversion S as [|s' p R' b' LS F'|nm' y p R' b' F' EK|R' NR EK]; subst.
    - intros [X|I]; [exact (proj1 LS X)|exact (IH _ _ _ F' I)].
    - intros [X|I]; [discriminate|exact (IH _ _ _ F' I)].
    - destruct q; discriminate.
  Qed.

  Theorem wildcard_text (l : list (op H M)) t q c path b :
    build l = (t, None) -> no_star_mount l -> registered l (q ++ [s_star]) c -> seg_match (q ++ [s_star]) (segments path) b ->
    exists p c' r, search_route t path = LSome r /\ registered l p c' /\ c' <> CNode /\ strict_prefix (text q) (text p) /\
      hands_out (table_of l) (text p) r /\ forall n v, first_binding b n = Some v -> pget n (rr_params r) = Some v.
  Proof.
    intros B NM I S. destruct (build_inv l t B) as [_ L]. pose proof (build_trep l t B) as TR. pose proof (build_starred l t B NM) as SR.
    assert (NC : c <> CNode) by (intros ->; apply (NM _ I); apply in_elt). specialize (L _ _ I NC).
    pose proof (seg_match_no_star _ _ _ _ S) as NS. apply match_star_split in S as (R1 & R2 & ER & NR2 & S).
    assert (NE : segments path <> []) by (rewrite ER; destruct R1; [exact NR2|discriminate]).
    set (Q := fun m => leads (has c) m false [s_star]).
    assert (LQ : leads Q t false q) by (apply (leads_split (has c) t false _ L); [reflexivity|right; reflexivity]).
    assert (X : exists f k ps w W, get_next_node t (segments path) [] (val_mws (nval t)) false = SRet (Some f) k (bind b ps) (val_mws (nval t) ++ W) /\
                trail t f (text q ++ w) W /\ w <> [] /\ nval f <> None).
    { destruct q as [|s q].
      - apply seg_match_nil in S as [-> ->]. cbn [app] in ER. inversion LQ as [? Qt| | |]; subst. destruct (leads_star _ t Qt) as (d & ID & KD & _).
        destruct (search_star t d (segments path) [] (val_mws (nval t)) ID KD NE) as (f & k & ps & W & w & E & T & V).
        exists f, k, ps, w, W. cbn [bind fold_right text concat app]. split; [exact E|]. split; [exact T|].
        split; [exact (proj2 (proj2 (trail_table t _ [] t f w W TR (sits_root t (proj1 TR)) T)))|].
        destruct V as [V|V]; [exact V|exact (trail_starred t f w W SR T V)].
      - assert (G : forall x, In x (s :: q) -> x <> [] /\ ~ In c_star x).
        { apply good_no_star; [|exact NS]. intros x J. apply (build_goods l t B _ _ I). apply in_or_app. auto. }
        destruct (search_reach Q t false (s :: q) LQ ltac:(discriminate) G R1 R2 b S NR2) as (m & W & Qm & T & GO).
        destruct (leads_star _ m Qm) as (d & ID & KD & _).
        destruct (search_star m d R2 [] (val_mws (nval t)) ID KD NR2) as (f & k & ps & W' & w & E & T' & V).
        pose proof (trail_trans _ _ _ _ _ _ _ T T') as TT. exists f, k, ps, w, (W' ++ W).
        split; [rewrite ER, app_assoc; exact (GO _ _ _ _ _ _ E)|]. split; [exact TT|]. split.
        + destruct (trail_table t _ [] t m _ W TR (sits_root t (proj1 TR)) T) as (SM & _).
          exact (proj2 (proj2 (trail_table t _ _ m f w W' TR SM T'))).
        + destruct V as [V|V]; [exact V|exact (trail_starred t f _ _ SR TT V)]. }
    destruct X as (f & k & ps & w & W & E & T & Nw & V). destruct (nval f) as [v|] eqn:Ev; [|congruence].
    destruct (ends_at t _ f _ W v (bind b ps) TR T Ev) as (HO & p & c' & I' & NC' & EP).
    exists p, c'. eexists. unfold search_route. rewrite (proj2 (is_empty_false _) NE), E, Ev. split; [reflexivity|]. split; [exact I'|].
    split; [exact NC'|]. rewrite EP. split; [destruct w as [|x w]; [congruence|exists x, w; reflexivity]|]. split; [exact HO|].
    intros n v' FB. cbn [rr_params]. rewrite pget_bind, FB. reflexivity.
  Qed.

  (** ** Reaching a wildcard *)

  (** The texts below a node are at most [K] long. *)
  Definition tall (n : node) (K : nat) : Prop := forall f w W, trail n f w W -> length w <= K.

  Lemma tall_exists (n : node) : exists K, tall n K.
  Proof.
    induction n as [nk nv cs IH] using node_ind'.
    assert (X : exists K, forall c, In c cs -> length (nkey c) <= K /\ forall f w W, trail c f w W -> length (nkey c) + length w <= K).
    { induction IH as [|c cs [Kc TC] _ [K IHK]]; [exists 0; intros c []|]. exists (length (nkey c) + Kc + K). intros d [<-|I].
      - split; [lia|]. intros f w W T. specialize (TC f w W T). lia.
      - destruct (IHK d I) as [A B]. split; [lia|]. intros f w W T. specialize (B f w W T). lia. }
    destruct X as [K X]. exists K. intros f w W T. inversion T as [n c I|n c f' w' W' I T']; subst.
    - exact (proj1 (X f I)).
    - rewrite app_length. exact (proj2 (X c I) _ _ _ T').
  Qed.

  Lemma tall_kid (n c : node) K : In c (nkids n) -> tall n K -> tall c (K - length (nkey c)) /\ length (nkey c) <= K.
  Proof.
    intros I T. split; [|exact (T c _ _ (tr_here n c I))]. intros f w W X. pose proof (T f _ _ (tr_down n c f w W I X)) as Y.
    rewrite app_length in Y. lia.
  Qed.

  Lemma loop_dead rec s b : s <> [] -> forall cs ps mws,
    (forall c, In c cs -> nkey c <> [] /\ (b = false -> is_param c = false /\ nkey c <> s_star)) ->
    NoDup (map (fun c : node => hd_error (nkey c)) cs) ->
    (forall c r, In c cs -> s = nkey c ++ r -> r <> [] /\ exists key', rec c [r] ps mws true = SRet None key' ps mws) ->
    forall tail, exists key', next_loop rec s b (cs ++ tail) [] ps mws = next_loop rec s b tail key' ps mws.
  Proof.
    intros NS. induction cs as [|c cs IH]; intros ps mws A ND D tail; [exists []; reflexivity|]. cbn [map] in ND.
    inversion ND as [|? ? NI ND']; subst. destruct (A c (or_introl eq_refl)) as [Nc Bc].
    destruct (option_map_dec (hd_error (nkey c)) (hd_error s)) as [EH|EH].
    - assert (SK : skipped b cs s).
      { intros d I. destruct (A d (or_intror I)) as [Nd Bd]. split; [exact Nd|]. split; [|exact Bd].
        rewrite <- EH. intros X. apply NI. rewrite <- X. apply (in_map (fun c : node => hd_error (nkey c))). exact I. }
      assert (P' : negb b && is_param c = false) by (destruct b; [reflexivity|apply (Bc eq_refl)]).
      assert (ST : negb b && str_eqb (nkey c) s_star = false) by (destruct b; [reflexivity|apply str_eqb_neq, (Bc eq_refl)]).
      assert (B : Nat.eqb (blen (nkey c)) 0 = false) by (apply Nat.eqb_neq; rewrite blen_0; exact Nc).
      cbn [app next_loop]. rewrite P', ST. cbv zeta. destruct (Nat.eqb_spec (match_count (nkey c) s) (blen (nkey c))) as [EM|NM].
      + destruct (match_count_full (nkey c) s EM) as [r Er]. destruct (D c r (or_introl eq_refl) Er) as [Nr [key' G]].
        assert (B2 : Nat.eqb (blen (nkey c)) (blen (nkey c) + blen r) = false).
        { apply Nat.eqb_neq. intros X. apply Nr, blen_0. lia. }
        rewrite Er, match_count_prefix, slice_from_app, blen_app, B, B2. cbn [andb negb is_empty].
        unfold str in G |- *. rewrite G, <- Er. exists key'. apply loop_skip; assumption.
      + rewrite andb_false_r. cbn [andb]. exists []. apply loop_skip; assumption.
    - destruct (IH ps mws ltac:(intros d I; apply A; right; exact I) ND' ltac:(intros d r I; apply D; right; exact I) tail) as [key' G].
      exists key'. rewrite <- G. apply (loop_skip rec s b [c] (cs ++ tail) [] ps mws NS).
      intros d [<-|[]]. split; [exact Nc|]. split; [exact EH|exact Bc].
  Qed.

  Lemma radix_nodup (n : node) : radix n -> NoDup (map (fun c : node => hd_error (nkey c)) (nkids n)).
  Proof. intros [_ N]. exact N. Qed.

  Lemma repeat_rest (a : char) k u r : repeat a k = u ++ r -> r = repeat a (k - length u) /\ length u <= k.
  Proof.
    intros E. assert (L : k = length u + length r) by (rewrite <- app_length, <- E, repeat_length; reflexivity). split; [|lia].
    assert (E' : r = skipn (length u) (u ++ r)) by (rewrite skipn_app, skipn_all, Nat.sub_diag; reflexivity).
    rewrite E', <- E, L. replace (length u + length r - length u) with (length r) by lia. clear. induction (length u) as [|i IH]; [reflexivity|exact IH].
  Qed.

  (** A text too long for anything below. *)
  Lemma outlasts (n : node) : radix n -> forall K, tall n K -> forall k ps mws, K < k ->
    exists key', get_next_node n [repeat c_a k] ps mws true = SRet None key' ps mws.
  Proof.
    induction n as [nk nv cs IH] using node_ind'. rewrite Forall_forall in IH. intros R K T k ps mws L.
    assert (NE : repeat c_a k <> []) by (destruct k; [lia|discriminate]).
    rewrite get_next_kids. rewrite <- (app_nil_r (nkids _)). pose proof R as [A ND].
    destruct (loop_dead get_next_node (repeat c_a k) true NE (nkids (Node nk nv cs)) ps mws) with (tail := @nil node) as [key' G].
    - intros c I. split; [exact (proj1 (A c I))|discriminate].
    - exact ND.
    - intros c r I E. destruct (tall_kid _ c K I T) as [TC LC]. apply repeat_rest in E as [-> _]. split.
      + intros X. apply (f_equal (@length char)) in X. rewrite repeat_length in X. cbn [length] in X. lia.
      + apply (IH c I (proj2 (A c I)) _ TC). lia.
    - exists key'. exact G.
  Qed.

  Lemma star_reached (m : node) d K k ps mws : radix m -> starred m -> tall m K -> K < k -> In d (nkids m) -> nkey d = s_star ->
    exists key', get_next_node m [repeat c_a k] ps mws false = SRet (Some d) key' ps (mws ++ val_mws (nval d)).
  Proof.
    intros R S T L I KD. assert (NE : repeat c_a k <> []) by (destruct k; [lia|discriminate]). pose proof R as [A ND].
    destruct S as [S]. destruct (S d I) as [S1 _]. destruct (S1 KD) as [_ NP]. clear S1.
    apply in_split in I as (l1 & l2 & E).
    assert (SUB : forall c, In c l1 -> In c (nkids m)) by (intros c J; rewrite E; apply in_or_app; auto).
    rewrite E in ND. rewrite map_app in ND. cbn [map] in ND.
    rewrite get_next_kids, E.
    destruct (loop_dead get_next_node (repeat c_a k) false NE l1 ps mws) with (tail := d :: l2) as [key' G].
    - intros c J. split; [exact (proj1 (A c (SUB c J)))|]. intros _. split; [exact (NP c (SUB c J))|]. intros X.
      apply NoDup_remove_2 in ND. apply ND. apply in_or_app. left. rewrite KD, <- X. apply (in_map (fun c : node => hd_error (nkey c))). exact J.
    - clear -ND. induction l1 as [|c l1 IH]; [constructor|]. cbn [map app] in *. inversion ND as [|? ? N1 N2]; subst. constructor; [|exact (IH N2)].
      intros J. apply N1. apply in_or_app. auto.
    - intros c r J X. destruct (tall_kid _ c K (SUB c J) T) as [TC LC]. apply repeat_rest in X as [-> _]. split.
      + intros X. apply (f_equal (@length char)) in X. rewrite repeat_length in X. cbn [length] in X. lia.
      + apply (outlasts c (proj2 (A c (SUB c J))) _ TC). lia.
    - exists key'. refine (eq_trans G _). cbn [next_loop negb andb].
      assert (P : is_param d = false) by (unfold is_param; rewrite KD; reflexivity). rewrite P, KD, str_eqb_refl. reflexivity.
  Qed.

  (** ** Wildcards only at the end of registered paths *)

  Lemma run_ops_stars_inv (l : list (op H M)) :
    Forall (fun o => forall t T t', stars_inv T -> run_op t o = (t', None) -> stars_inv (after T o)) l ->
    forall t T t', stars_inv T -> run_ops t l = (t', None) -> stars_inv (afters T l).
  Proof.
    intros F. induction F as [|o l Fo F IH]; intros t T t' I E; cbn [run_ops afters] in *; [exact I|].
    destruct (run_op t o) as [t1 [pn|]] eqn:Eo; [discriminate|]. exact (IH _ _ _ (Fo _ _ _ I Eo) E).
  Qed.

  Lemma run_op_stars_inv (o : op H M) : forall t T t', stars_inv T -> run_op t o = (t', None) -> stars_inv (after T o).
  Proof.
    induction o as [m path h|path mw|mw|path sub IH] using op_ind'; intros t T t' G E.
    - cbn [run_op after] in *. unfold insert_route in E. destruct (star_check _ _ _) eqn:Es; [discriminate|]. apply star_check_spec in Es.
      exact (stars_inv_snoc T _ _ G Es).
    - cbn [run_op after] in *. unfold insert_middleware in E. destruct (star_check _ _ _) eqn:Es; [discriminate|]. apply star_check_spec in Es.
      destruct (segments path) as [|s p] eqn:Ep; [exact G|]. exact (stars_inv_snoc T _ _ G Es).
    - cbn [after]. apply stars_inv_snoc; [exact G|]. intros i s X. destruct i; discriminate.
    - rewrite run_op_router in E. destruct (build sub) as [src [pn|]] eqn:Eb; cbn [fst snd] in E; [discriminate|].
      assert (GS : stars_inv (table_of sub)) by (apply (run_ops_stars_inv sub IH trie_new [] src); [intros _ p c []|exact Eb]).
      rewrite after_router. unfold insert_sub_route in E. destruct (star_check _ _ _) eqn:Es; [discriminate|]. apply star_check_spec in Es.
      destruct (segments path) as [|s p] eqn:Ep; [exact GS|]. rewrite <- Ep in *. clear s p Ep E. set (p := segments path) in *.
      intros F. assert (Np : no_star p) by (apply F; apply in_elt).
      assert (FT : star_free_nodes T) by (intros x J; apply F; apply in_or_app; left; exact J).
      assert (FS : star_free_nodes (table_of sub)).
      { intros x J K. apply (F (p ++ x)); [|apply in_or_app; right; exact K].
        apply in_or_app. right. right. apply in_with_prefix. eauto. }
      intros q c I. apply in_app_iff in I as [I|[I|I]].
      + exact (G FT _ _ I).
      + injection I as <- <-. exact Es.
      + apply in_with_prefix in I as (q' & -> & I). apply star_ok_app; auto. exact (GS FS _ _ I).
  Qed.

  Lemma build_stars_last (l : list (op H M)) t : build l = (t, None) -> no_star_mount l -> stars_last (table_of l).
  Proof.
    intros E NM. apply (run_ops_stars_inv l (proj2 (Forall_forall _ _) (fun o _ => run_op_stars_inv o)) trie_new [] t); [intros _ p c []|exact E|exact NM].
  Qed.

  (** ** Every route can be reached *)

  Lemma match_star q R1 R2 b : seg_match q R1 b -> no_star q -> R2 <> [] -> seg_match (q ++ [s_star]) (R1 ++ R2) b.
  Proof.
    intros S NS N. induction S as [|s p R b L S IH|k s p R b S IH|R NR]; cbn [app].
    - apply sm_star. exact N.
    - constructor; [exact L|]. apply IH. intros J. apply NS. right. exact J.
    - constructor. apply IH. intros J. apply NS. right. exact J.
    - exfalso. apply NS. left. reflexivity.
  Qed.

  Theorem route_spelled_any (l : list (op H M)) t p m h : build l = (t, None) -> no_star_mount l -> registered l p (CRoute m h) ->
    exists path r b, seg_match p (segments path) b /\ search_route t path = LSome r /\
                     rr_get_route r m = Some (Route m h) /\ spelled p path.
  Proof.
    intros B NM I. destruct (in_dec (list_eq_dec N.eq_dec) s_star p) as [J|NS].
    - pose proof (build_stars_last l t B NM _ _ I) as SP. apply In_nth_error in J as [i E].
      destruct (SP i s_star E) as [_ L]; [left; reflexivity|].
      apply nth_error_split in E as (q & r & -> & Lq). rewrite app_length in L. cbn [length] in L.
      destruct r; [|simpl in L; lia]. clear i Lq L.
      assert (NSq : no_star q).
      { intros J. apply In_nth_error in J as [i E]. assert (L : i < length q) by (apply (proj1 (nth_error_Some q i)); intros X; pose proof (eq_trans (eq_sym E) X) as Y; discriminate Y).
        assert (E' : nth_error (q ++ [s_star]) i = Some s_star) by (rewrite nth_error_app1 by exact L; exact E).
        destruct (SP i s_star E') as [_ F]; [left; reflexivity|]. rewrite app_length in F. simpl in F. lia. }
      destruct (build_inv l t B) as [_ L]. pose proof (build_trep l t B) as TR. pose proof (build_starred l t B NM) as SR.
      specialize (L _ _ I ltac:(discriminate)). destruct (tall_exists t) as [K TK].
      set (R1 := inst [c_a] q). set (R2 := [repeat c_a (S K)]).
      assert (NR2 : R2 <> []) by discriminate. destruct (inst_match [c_a] q NSq) as [b S]. fold R1 in S.
      set (path := join_slash (R1 ++ R2)).
      assert (EP : segments path = R1 ++ R2).
      { apply segments_join. intros s J. apply in_app_iff in J as [J|[<-|[]]].
        - apply (inst_ok [c_a] q); [|discriminate| |exact J].
          + intros y Y. apply (table_segs l _ _ y I). apply in_or_app. left. exact Y.
          + intros [X|[]]. discriminate.
        - split; [discriminate|]. intros X. apply repeat_spec in X. discriminate. }
      assert (NE : segments path <> []) by (rewrite EP; destruct R1; discriminate).
      set (Q := fun n : node => leads (has (CRoute m h)) n false [s_star]).
      assert (LQ : leads Q t false q) by (apply (leads_split _ t false _ L); [reflexivity|right; reflexivity]).
      assert (X : exists f k ps mws v, get_next_node t (segments path) [] (val_mws (nval t)) false = SRet (Some f) k ps mws /\
                  nval f = Some v /\ get_route (rv_route v) m = Some (Route m h)).
      { assert (HV : forall d : node, has (CRoute m h) d -> exists v, nval d = Some v /\ get_route (rv_route v) m = Some (Route m h)).
        { intros d HD. unfold has in HD. destruct (nval d) as [v|]; [eauto|contradiction]. }
        destruct q as [|s q].
        - inversion LQ as [? Qt| | |]; subst. destruct (leads_star _ t Qt) as (d & ID & KD & HD). destruct (HV d HD) as (v & Ev & Gv).
          destruct (star_reached t d K (Datatypes.S K) [] (val_mws (nval t)) (proj1 TR) SR TK ltac:(lia) ID KD) as [key' G].
          exists d, key', [], (val_mws (nval t) ++ val_mws (nval d)), v. rewrite EP. split; [exact G|]. split; assumption.
        - assert (G : forall x, In x (s :: q) -> x <> [] /\ ~ In c_star x).
          { apply good_no_star; [|exact NSq]. intros x J. apply (build_goods l t B _ _ I). apply in_or_app. auto. }
          destruct (search_reach Q t false (s :: q) LQ ltac:(discriminate) G R1 R2 b S NR2) as (n & W & Qn & T & GO).
          destruct (leads_star _ n Qn) as (d & ID & KD & HD). destruct (HV d HD) as (v & Ev & Gv).
          destruct (trail_table t _ [] t n _ W TR (sits_root t (proj1 TR)) T) as ((Rn & _) & _).
          assert (TN : tall n K).
          { intros f w W' Y. pose proof (TK f _ _ (trail_trans _ _ _ _ _ _ _ T Y)) as Z. rewrite app_length in Z. lia. }
          destruct (star_reached n d K (Datatypes.S K) [] (val_mws (nval t)) Rn (trail_below t n _ W SR T) TN ltac:(lia) ID KD) as [key' G'].
          exists d, key', (bind b []), ((val_mws (nval t) ++ val_mws (nval d)) ++ W), v. rewrite EP.
          split; [exact (GO _ _ _ _ _ _ G')|]. split; assumption. }
      destruct X as (f & k & ps & mws & v & E & Ev & Gv). exists path. eexists. exists b. rewrite EP.
      split; [apply match_star; assumption|]. unfold search_route. rewrite (proj2 (is_empty_false _) NE), E, Ev.
      split; [reflexivity|]. split; [exact Gv|].
      intros c J. apply in_join_slash in J as [->|(s & J & Y)]; [left; reflexivity|]. apply in_app_iff in J as [J|[<-|[]]].
      + destruct (inst_chars [c_a] q s c J Y) as [[<-|[]]|(s' & J' & S' & Y')]; [right; left; reflexivity|].
        right. right. exists s'. split; [apply in_or_app; left; exact J'|auto].
      + right. left. eapply repeat_spec. exact Y.
    - destruct (inst_match [c_a] p NS) as [b S].
      assert (EP : segments (join_slash (inst [c_a] p)) = inst [c_a] p).
      { apply segments_join. intros s J. apply (inst_ok [c_a] p); [|discriminate| |exact J].
        - intros y K. apply (table_segs l _ _ y I K).
        - intros [E|[]]. discriminate. }
      exists (join_slash (inst [c_a] p)).
      destruct (own_route l t p m h (join_slash (inst [c_a] p)) b B I NS) as (r & E & F & _); [rewrite EP; exact S|].
      exists r, b. rewrite EP. split; [exact S|]. split; [exact E|]. split; [exact F|].
      intros c J. apply in_join_slash in J as [->|(s & J & K)]; [left; reflexivity|].
      destruct (inst_chars _ _ _ _ J K) as [[<-|[]]|J']; auto.
  Qed.
End TextStar.
