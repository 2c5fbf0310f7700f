(** The nodes of the trie are the places where the registered paths branch or a segment of
    one of them ends. *)

From Coq Require Import String.
From Verif Require Import Base BaseFacts RouteTrie Router Messages TableSpec PropSpec TextSpec TrieDen TrieRep TrieBuild TrieSearch TrieLookup TrieTotal OwnPath TextRep TextInv WireSpec MessageSpec MessageSpots.
Local Open Scope string_scope.
Local Open Scope list_scope.

Section Cuts.
  Context {H M : Type}.
  Notation node := (node H M).
  Notation table := (table H M).

  (** ** The whole path *)

  (** The path is refused at its segment [v ++ a]. *)
  Definition wrefused (n : node) (p : list str) (p0 : list str) (v a : str) (p1 : list str) (b : str) : Prop :=
    p = p0 ++ (v ++ a) :: p1 /\ a <> [] /\ a <> b /\ (starts_colon a = true \/ starts_colon b = true) /\
    (v = [] \/ spot n (text p0 ++ v)) /\ b <> [] /\ spot n (text p0 ++ v ++ b) /\
    (forall z y, b = z ++ y -> z <> [] -> y <> [] -> ~ spot n (text p0 ++ v ++ z)) /\
    (exists n', forall final, walk n p final = (n', Some PAmbiguous)) /\
    forall final err, walk_text n p final err = Some (err (lit "ERROR: Ambigous definition between " ++ a ++ lit " and " ++ b)).

  Definition wreaches (n : node) (p : list str) (fill : node -> node) (m : node) : Prop :=
    (forall final, walk n p final = (fill (fst (final m)), snd (final m))) /\
    (forall final err, walk_text n p final err = final m) /\ radix m /\
    (forall u, spot m u <-> u = [] \/ spot n (text p ++ u)) /\
    (forall u v, vals m u v -> vals n (text p ++ u) v) /\
    forall m', nkey m' = nkey m ->
      (forall w, spot (fill m') w -> (exists u, w = text p ++ u /\ spot m' u) \/
         spot n w \/ forked n (text p) w \/ exists i, w = text (firstn i p)) /\
      (forall u, spot m' u -> spot (fill m') (text p ++ u)) /\
      (forall w, ~ prefix (text p) w -> spot n w -> spot (fill m') w) /\
      (forall i, spot (fill m') (text (firstn i p))) /\ nkey (fill m') = nkey n.

  Lemma walk_reaches p : p <> [] -> forall n : node, radix n -> (forall s, In s p -> s <> []) ->
    (exists p0 v a p1 b, wrefused n p p0 v a p1 b) \/ exists fill m, wreaches n p fill m.
  Proof.
    induction p as [|s p IH]; intros NP n R G; [congruence|].
    assert (Ns : s <> []) by (apply G; left; reflexivity).
    destruct (process_reaches n s R Ns) as [(v & a & b & E1 & E2 & E3 & E4 & (x & c & X1 & X2 & X3) & E6 & E7)|(fill & m & P1 & P2 & Rm & Sm & Vm & PF)].
    - left. exists [], v, a, p, b. pose proof (below_radix n x v X1 R) as Rx. pose proof Rx as [Kx _].
      assert (Nb : b <> []) by (rewrite <- X3; exact (proj1 (Kx c X2))).
      split; [cbn [app]; rewrite <- E1; reflexivity|]. split; [exact E2|]. split; [exact E3|]. split; [exact E4|]. cbn [text concat app].
      split; [right; exists x; exact X1|]. split; [exact Nb|]. split; [|split; [|split]].
      + apply (spot_rest n x v b R X1). apply spot_kid. right. exists c, []. rewrite app_nil_r. split; [exact X2|]. split; [auto|apply spot_here].
      + intros z y Eb Nz Ny S. apply (spot_rest n x v z R X1) in S.
        destruct (spot_through x c z Rx X2) as (u & Ez & _); [|exact S|].
        * rewrite X3, Eb. symmetry. apply head_app. exact Nz.
        * rewrite X3, Eb, <- app_assoc in Ez. rewrite <- (app_nil_r z) in Ez at 1. apply app_inv_head in Ez. symmetry in Ez. apply app_eq_nil in Ez. tauto.
      + exists n. intros final. cbn [walk]. apply E6.
      + intros final err. cbn [walk_text]. apply E7.
    - destruct p as [|s' p].
      + right. exists fill, m. unfold wreaches. cbn [text concat]. rewrite app_nil_r.
        split; [intros final; cbn [walk is_empty]; apply P1|]. split; [intros final err; cbn [walk_text is_empty]; apply P2|].
        split; [exact Rm|]. split; [exact Sm|]. split; [exact Vm|]. intros m' Km. destruct (PF m' Km) as (F1 & F2 & F3 & F4).
        split; [|split; [exact F3|split; [exact F4|split; [|exact F1]]]].
        * intros w S. apply F2 in S. tauto.
        * intros [|[|i]]; cbn [firstn text concat]; [apply spot_here| |]; apply F3, spot_here.
      + assert (Gp : forall x, In x (s' :: p) -> x <> []) by (intros x I; apply G; right; exact I).
        set (q := s' :: p) in *.
        assert (WS : forall (n0 : node) final, walk n0 (s :: q) final = process_insertion n0 s (fun m => walk m q final)) by reflexivity.
        assert (WT : forall (n0 : node) final err, walk_text n0 (s :: q) final err = process_text n0 s (fun m => walk_text m q final err) err) by reflexivity.
        assert (TX : text (s :: q) = s ++ text q) by reflexivity.
        destruct (IH ltac:(discriminate) m Rm Gp) as [(p0 & v & a & p1 & b & E1 & E2 & E3 & E4 & E5 & E6 & E7 & E8 & (n' & E9) & E10)|(fill' & m' & Q1 & Q2 & Rm' & Sm' & Vm' & QF)].
        * left. exists (s :: p0), v, a, p1, b. split; [cbn [app]; rewrite E1; reflexivity|]. split; [exact E2|]. split; [exact E3|]. split; [exact E4|].
          assert (TX0 : forall z, text (s :: p0) ++ z = s ++ text p0 ++ z) by (intros z; cbn [text concat]; rewrite <- app_assoc; reflexivity).
          rewrite !TX0.
          split; [|split; [exact E6|split; [|split; [|split]]]].
          -- destruct E5 as [E5|E5]; [auto|]. apply Sm in E5 as [E5|E5]; [apply app_eq_nil in E5 as [_ E5]; auto|auto].
          -- apply Sm in E7 as [E7|E7]; [|exact E7]. exfalso. apply app_eq_nil in E7 as [_ E7]. apply app_eq_nil in E7 as [_ E7]. congruence.
          -- intros z y Eb Nz Ny S. apply (E8 z y Eb Nz Ny). apply Sm. right. rewrite TX0 in S. exact S.
          -- exists (fill n'). intros final. rewrite WS, P1, E9. reflexivity.
          -- intros final err. rewrite WT, P2. apply E10.
        * right. exists (fun x => fill (fill' x)), m'. unfold wreaches. rewrite TX. split; [|split; [|split; [exact Rm'|split; [|split; [intros u v V; rewrite <- app_assoc; apply Vm, Vm', V|]]]]].
          -- intros final. rewrite WS, P1, Q1. reflexivity.
          -- intros final err. rewrite WT, P2. apply Q2.
          -- intros u. rewrite Sm', Sm, <- app_assoc. split; [|tauto]. intros [->|[E|E]]; auto. apply app_eq_nil in E. tauto.
          -- intros x Kx. destruct (QF x Kx) as (G1 & G2 & G3 & G4 & G5). destruct (PF (fill' x) G5) as (F1 & F2 & F3 & F4).
             split; [|split; [|split; [|split; [|exact F1]]]].
             ++ intros w S. apply F2 in S as [(u & -> & S)|[NPw S]].
                ** apply G1 in S as [(u' & -> & S)|[S|[(y & r & x' & r' & E & N & S)|(i & ->)]]].
                   --- left. exists u'. rewrite <- app_assoc. auto.
                   --- right. apply Sm in S as [->|S]; [right; right; exists 1; cbn [firstn text concat]; reflexivity|auto].
                   --- right. right. left. exists y, r, x', r'. split; [rewrite E, app_assoc; reflexivity|]. split; [exact N|].
                       apply Sm in S as [S|S]; [destruct u; discriminate|]. rewrite <- app_assoc. exact S.
                   --- right. right. right. exists (S i). reflexivity.
                ** right. destruct S as [S|(y & r & x' & r' & E & N & S)]; [auto|]. right. left.
                   exists y, (r ++ text q), x', r'. split; [rewrite E, <- app_assoc; reflexivity|auto].
             ++ intros u S. rewrite <- app_assoc. apply F3, G2, S.
             ++ intros w NPw S. destruct (prefix_str_dec s w) as [[u ->]|NS]; [|apply F4; assumption].
                apply F3, G3; [|apply Sm; auto]. intros [r ->]. apply NPw. exists r. rewrite app_assoc. reflexivity.
             ++ intros [|i]; [apply spot_here|]. cbn [firstn]. apply F3. apply G4.
  Qed.

  (** ** Tables *)

  Lemma cut_prefix (T : table) w : cut T w -> exists q c, In (q, c) T /\ prefix w (text q).
  Proof.
    intros [(q & c & i & I & ->)|(q & c & q' & c' & x & r & x' & r' & I & _ & E & _)]; exists q, c; (split; [exact I|]).
    - exists (text (skipn i q)). rewrite <- text_app, firstn_skipn. reflexivity.
    - exists (x :: r). exact E.
  Qed.

  Lemma cut_mono (T U : table) w : (forall e, In e T -> In e U) -> cut T w -> cut U w.
  Proof.
    intros S [(q & c & i & I & ->)|(q & c & q' & c' & x & r & x' & r' & I & J & K)].
    - left. exists q, c, i. auto.
    - right. exists q, c, q', c', x, r, x', r'. auto.
  Qed.

  Lemma text_all (p : list str) : text p = text (firstn (List.length p) p).
  Proof. rewrite firstn_all. reflexivity. Qed.

  (** The nodes of a trie are those of the table. *)
  Definition spots_are (t : node) (T : table) : Prop := forall w, spot t w <-> w = [] \/ cut T w.

  (** It suffices that the ends of segments have nodes. *)
  Lemma cuts_spots (t : node) (T : table) : radix t -> (forall q c i, In (q, c) T -> spot t (text (firstn i q))) ->
    forall w, cut T w -> spot t w.
  Proof.
    intros R A w [(q & c & i & I & ->)|(q & c & q' & c' & x & r & x' & r' & I & J & E & E' & N)]; [exact (A q c i I)|].
    apply (spots_part t w x r x' r' R N); [rewrite <- E|rewrite <- E']; rewrite text_all; eapply A; eassumption.
  Qed.

  Lemma forked_cut (t : node) (T U : table) p c w : spots_are t T -> (forall e, In e T -> In e U) -> In (p, c) U ->
    forked t (text p) w -> cut U w.
  Proof.
    intros A S I (y & r & x & r' & E & N & SP). apply A in SP as [SP|SP]; [destruct w; discriminate|].
    apply cut_prefix in SP as (q & d & J & [z Ez]). right. exists q, d, p, c, x, (r' ++ z), y, r.
    split; [auto|]. split; [exact I|]. split; [rewrite Ez, <- app_assoc; reflexivity|]. split; [exact E|exact N].
  Qed.

  Lemma same_kids_spot (m m' : node) u : nkids m' = nkids m -> (spot m' u <-> spot m u).
  Proof. intros E. rewrite !spot_kid, E. reflexivity. Qed.

  (** One entry more. *)
  Lemma entry_spots (t : node) (T : table) p c fill m m' : spots_are t T -> wreaches t p fill m -> nkey m' = nkey m -> nkids m' = nkids m ->
    radix (fill m') -> spots_are (fill m') (T ++ [(p, c)]).
  Proof.
    intros A (_ & _ & Rm & Sm & _ & PF) Km Kk R'. destruct (PF m' Km) as (F1 & F2 & F3 & F4 & _).
    assert (I0 : In (p, c) (T ++ [(p, c)])) by (apply in_or_app; right; left; reflexivity).
    assert (Sub : forall e, In e T -> In e (T ++ [(p, c)])) by (intros e I; apply in_or_app; auto).
    intros w. split.
    - intros S. apply F1 in S as [(u & -> & S)|[S|[S|(i & ->)]]].
      + apply (same_kids_spot m m' u Kk) in S. apply Sm in S as [->|S].
        * right. left. exists p, c, (List.length p). split; [exact I0|]. rewrite app_nil_r. apply text_all.
        * apply A in S as [S|S]; [auto|right]. exact (cut_mono _ _ _ Sub S).
      + apply A in S as [S|S]; [auto|right]. exact (cut_mono _ _ _ Sub S).
      + right. exact (forked_cut t T _ p c w A Sub I0 S).
      + right. left. exists p, c, i. auto.
    - intros [->|C]; [apply spot_here|]. revert w C. apply cuts_spots; [exact R'|]. intros q d i I.
      apply in_app_or in I as [I|[I|[]]]; [|injection I as <- <-; apply F4].
      assert (S : spot t (text (firstn i q))) by (apply A; right; left; exists q, d, i; auto).
      destruct (prefix_str_dec (text p) (text (firstn i q))) as [[u E]|NP]; [|apply F3; assumption].
      rewrite E in *. apply F2, (same_kids_spot m m' u Kk), Sm. auto.
  Qed.

  (** The root. *)
  Lemma root_spots (t t' : node) (T : table) c : spots_are t T -> nkids t' = nkids t -> spots_are t' (T ++ [([], c)]).
  Proof.
    intros A K w. rewrite (same_kids_spot t t' w K), (A w). split.
    - intros [->|C]; [auto|right]. apply (cut_mono T); [|exact C]. intros e I. apply in_or_app. auto.
    - intros [->|C]; [auto|]. destruct w as [|a w]; [auto|right].
      destruct C as [(q & d & i & I & E)|(q & d & q' & d' & x & r & x' & r' & I & J & E & E' & N)].
      + apply in_app_or in I as [I|[I|[]]]; [left; exists q, d, i; auto|]. injection I as <- <-. destruct i; discriminate.
      + right. exists q, d, q', d', x, r, x', r'. apply in_app_or in I as [I|[I|[]]]; [|injection I as <- <-; discriminate].
        apply in_app_or in J as [J|[J|[]]]; [auto|injection J as <- <-; discriminate].
  Qed.

  (** A mounted router. *)
  Lemma mount_spots (t src : node) (T S : table) p fill m m' : spots_are t T -> spots_are src S -> wreaches t p fill m -> nkey m' = nkey m ->
    nkids m = [] -> nkids m' = nkids src -> radix (fill m') -> spots_are (fill m') (T ++ (p, CNode) :: with_prefix p S).
  Proof.
    intros A B (_ & _ & Rm & Sm & _ & PF) Km K0 Kk R'. destruct (PF m' Km) as (F1 & F2 & F3 & F4 & _).
    set (U := T ++ (p, CNode) :: with_prefix p S) in *.
    assert (I0 : In (p, CNode) U) by (apply in_or_app; right; left; reflexivity).
    assert (Sub : forall e, In e T -> In e U) by (intros e I; apply in_or_app; auto).
    assert (Sub2 : forall q c, In (q, c) S -> In (p ++ q, c) U).
    { intros q c I. apply in_or_app. right. right. apply in_map_iff. exists (q, c). auto. }
    assert (L0 : forall u, spot m u -> u = []).
    { intros u X. apply spot_kid in X as [X|(c & u' & I & _)]; [exact X|]. rewrite K0 in I. destruct I. }
    intros w. split.
    - intros X. apply F1 in X as [(u & -> & X)|[X|[X|(i & ->)]]].
      + apply (same_kids_spot src m' u Kk) in X. apply B in X as [->|X].
        * right. left. exists p, CNode, (List.length p). split; [exact I0|]. rewrite app_nil_r. apply text_all.
        * right. destruct X as [(q & d & i & I & ->)|(q & d & q' & d' & x & r & x' & r' & I & J & E & E' & N)].
          -- left. exists (p ++ q), d, (List.length p + i). split; [auto|]. rewrite firstn_app_2, text_app. reflexivity.
          -- right. exists (p ++ q), d, (p ++ q'), d', x, r, x', r'. rewrite !text_app, E, E', <- !app_assoc. auto.
      + apply A in X as [X|X]; [auto|right]. exact (cut_mono _ _ _ Sub X).
      + right. exact (forked_cut t T _ p CNode w A Sub I0 X).
      + right. left. exists p, CNode, i. auto.
    - intros [->|C]; [apply spot_here|]. revert w C. apply cuts_spots; [exact R'|]. intros q d i I.
      apply in_app_or in I as [I|[I|I]].
      + assert (X : spot t (text (firstn i q))) by (apply A; right; left; exists q, d, i; auto).
        destruct (prefix_str_dec (text p) (text (firstn i q))) as [[u E]|NP]; [|apply F3; assumption].
        rewrite E in *. assert (X' : spot m u) by (apply Sm; auto). apply L0 in X'. subst u. apply F2, spot_here.
      + injection I as <- <-. apply F4.
      + apply in_map_iff in I as ([q' d'] & E & I). cbn [fst snd] in E. injection E as <- <-.
        destruct (Nat.le_gt_cases i (List.length p)) as [L|L].
        * rewrite firstn_app. replace (i - List.length p) with 0 by lia. cbn [firstn]. rewrite app_nil_r. apply F4.
        * replace i with (List.length p + (i - List.length p)) by lia. rewrite firstn_app_2, text_app. apply F2.
          apply (same_kids_spot src m' _ Kk). apply B. right. left. exists q', d', (i - List.length p). auto.
  Qed.

  (** ** All accepted calls *)

  Definition both (t : node) (T : table) : Prop := trep t T /\ spots_are t T.

  Lemma run_ops_both (l : list (op H M)) :
    Forall (fun o => forall t T t', both t T -> run_op t o = (t', None) -> both t' (after T o)) l ->
    forall t T t', both t T -> run_ops t l = (t', None) -> both t' (afters T l).
  Proof.
    intros F. induction F as [|o l Fo F IH]; intros t T t' I E; cbn [run_ops afters] in *; [injection E as <-; exact I|].
    destruct (run_op t o) as [t1 [pn|]] eqn:Eo; [discriminate|]. exact (IH _ _ _ (Fo _ _ _ I Eo) E).
  Qed.

  Lemma both_new : both trie_new [].
  Proof.
    split; [exact trep_new|]. intros w. unfold trie_new, node_new. rewrite leaf_spot. split; [auto|].
    intros [->|[(q & c & i & [] & _)|(q & c & q' & c' & x & r & x' & r' & [] & _)]]; reflexivity.
  Qed.

  Lemma set_route_kids r (n : node) : nkids (fst (set_route r n)) = nkids n /\ nkey (fst (set_route r n)) = nkey n.
  Proof. destruct n as [k v cs]. cbn [set_route]. destruct (add_route _ _ _). split; reflexivity. Qed.

  Lemma push_mw_kids mw (n : node) : nkids (fst (push_mw mw n)) = nkids n /\ nkey (fst (push_mw mw n)) = nkey n.
  Proof. destruct n as [k v cs]. split; reflexivity. Qed.

  Lemma run_op_both (o : op H M) : forall t T t', both t T -> run_op t o = (t', None) -> both t' (after T o).
  Proof.
    induction o as [m path h|path mw|mw|path sub IH] using op_ind'; intros t T t' [TR SA] E; pose proof TR as (R & _);
      (split; [eapply run_op_trep; eassumption|]).
    - pose proof (run_op_trep _ _ _ _ TR E) as (R' & _). cbn [run_op after] in *. unfold insert_route in E. destruct (star_check _ _ _) eqn:Es; [discriminate|].
      destruct (segments path) as [|s0 p0] eqn:Ep.
      + cbn [is_empty] in E. unfold insert_default_route in E. apply (root_spots t); [exact SA|].
        rewrite <- (proj1 (set_route_kids (Route m h) t)), E. reflexivity.
      + rewrite <- Ep in *. assert (NP : segments path <> []) by (rewrite Ep; discriminate).
        rewrite (proj2 (is_empty_false _) NP) in E.
        destruct (walk_reaches _ NP t R (nonempty_segments path)) as [(p1 & v & a & p2 & b & W)|(fill & x & W)].
        * destruct W as (_ & _ & _ & _ & _ & _ & _ & _ & (n' & W) & _). rewrite W in E. discriminate.
        * pose proof W as (W1 & _). rewrite W1 in E. injection E as E1 E2. rewrite <- E1 in *. destruct (set_route_kids (Route m h) x) as [K1 K2].
          apply (entry_spots t T _ _ fill x); auto.
    - pose proof (run_op_trep _ _ _ _ TR E) as (R' & _). cbn [run_op after] in *. unfold insert_middleware in E. destruct (star_check _ _ _) eqn:Es; [discriminate|].
      destruct (segments path) as [|s0 p0] eqn:Ep; [injection E as <-; exact SA|]. rewrite <- Ep in *.
      assert (NP : segments path <> []) by (rewrite Ep; discriminate).
      destruct (walk_reaches _ NP t R (nonempty_segments path)) as [(p1 & v & a & p2 & b & W)|(fill & x & W)].
      + destruct W as (_ & _ & _ & _ & _ & _ & _ & _ & (n' & W) & _). rewrite W in E. discriminate.
      + pose proof W as (W1 & _). rewrite W1 in E. injection E as E1 E2. rewrite <- E1 in *. destruct (push_mw_kids mw x) as [K1 K2].
        apply (entry_spots t T _ _ fill x); auto.
    - cbn [run_op after] in *. unfold insert_default_middleware in E. apply (root_spots t); [exact SA|].
      rewrite <- (proj1 (push_mw_kids mw t)), E. reflexivity.
    - pose proof (run_op_trep _ _ _ _ TR E) as (R' & _). rewrite run_op_router in E. destruct (build sub) as [src [pn|]] eqn:Eb; cbn [fst snd] in E; [discriminate|].
      assert (TS : both src (table_of sub)) by (apply (run_ops_both sub IH trie_new [] src both_new); exact Eb).
      rewrite after_router. unfold insert_sub_route in E. destruct (star_check _ _ _) eqn:Es; [discriminate|].
      destruct (segments path) as [|s0 p0] eqn:Ep; [injection E as <-; exact (proj2 TS)|]. rewrite <- Ep in *.
      assert (NP : segments path <> []) by (rewrite Ep; discriminate). rewrite (proj2 (is_empty_false _) NP) in E.
      destruct (walk_reaches _ NP t R (nonempty_segments path)) as [(p1 & v & a & p2 & b & W)|(fill & x & W)].
      + destruct W as (_ & _ & _ & _ & _ & _ & _ & _ & (n' & W) & _). rewrite W in E. discriminate.
      + pose proof W as (W1 & _). rewrite W1 in E. injection E as E1 E2. rewrite <- E1 in *. destruct x as [k v cs]. cbn [mount] in E2, R' |- *.
        destruct v as [v|]; [discriminate|]. destruct cs as [|c cs]; [|discriminate]. cbn [orb negb is_empty fst snd] in *.
        apply (mount_spots t src T (table_of sub) _ fill (Node k None [])); auto. exact (proj2 TS).
  Qed.

  Lemma build_both (l : list (op H M)) t : build l = (t, None) -> both t (table_of l).
  Proof.
    intros E. apply (run_ops_both l (proj2 (Forall_forall _ _) (fun o _ => run_op_both o)) trie_new [] t); [exact both_new|exact E].
  Qed.
End Cuts.
