(** Any accepted calls: walking a path a second time. *)

From Verif Require Import Base BaseFacts RouteTrie Router TableSpec PropSpec TrieDen TrieRep TrieBuild TrieLookup RouteFacts RouteLemmas2 TrieSearch OwnPath.

Section Rewalk.
  Context {H M : Type}.
  Notation node := (node H M).

  (** ** Which action is taken *)

  Lemma act_skip key : key <> [] -> starts_colon key = false -> forall (l1 cs : list node) i,
    (forall d, In d l1 -> nkey d <> []) -> passed l1 key ->
    get_insertion_action_from (l1 ++ cs) key i = get_insertion_action_from cs key (i + length l1).
  Proof.
    intros NK SC. induction l1 as [|d l1 IH]; intros cs i NE P; cbn [app length]; [rewrite Nat.add_0_r; reflexivity|].
    destruct (P d (or_introl eq_refl)) as [Pd Hd]. assert (Nd : nkey d <> []) by (apply NE; left; reflexivity).
    cbn [get_insertion_action_from]. rewrite Pd, SC. cbn [orb]. cbv zeta.
    assert (Z : match_count (nkey d) key = 0).
    { destruct (nkey d) as [|x d'], key as [|y s']; try congruence. cbn [match_count hd_error] in *.
      destruct (N.eqb_spec y x); [congruence|reflexivity]. }
    assert (B : Nat.eqb 0 (blen (nkey d)) = false) by (apply Nat.eqb_neq; intros X; apply Nd, blen_0; lia).
    rewrite Z, B, andb_false_r. cbn [Nat.eqb negb]. rewrite IH; [f_equal; lia| |].
    - intros e I. apply NE. right. exact I.
    - intros e I. apply P. right. exact I.
  Qed.

  Lemma act_next key (l1 : list node) c l2 : key <> [] -> (forall d, In d l1 -> nkey d <> []) -> passed l1 key ->
    (starts_colon key = true -> l1 = []) -> nkey c = key ->
    exists x, get_insertion_action_from (l1 ++ c :: l2) key 0 = Action ANextNode x (length l1).
  Proof.
    intros NK NE P C E.
    assert (X : forall i, exists x, get_insertion_action_from (c :: l2) key i = Action ANextNode x i).
    { intros i. cbn [get_insertion_action_from]. destruct (is_param c || starts_colon key).
      - rewrite E, str_eqb_refl. eauto.
      - cbv zeta. rewrite E, (match_count_all key), Nat.eqb_refl. cbn [andb]. eauto. }
    destruct (starts_colon key) eqn:SC; [rewrite (C eq_refl); apply X|].
    rewrite act_skip by assumption. apply X.
  Qed.

  Lemma act_skey key (l1 : list node) c l2 y : key <> [] -> (forall d, In d l1 -> nkey d <> []) -> passed l1 key ->
    starts_colon key = false -> is_param c = false -> key = nkey c ++ y -> y <> [] ->
    get_insertion_action_from (l1 ++ c :: l2) key 0 = Action ASplitKey (blen (nkey c)) (length l1).
  Proof.
    intros NK NE P SC Pc E Y. rewrite act_skip by assumption. cbn [get_insertion_action_from Nat.add]. rewrite Pc, SC. cbn [orb]. cbv zeta.
    rewrite E, match_count_prefix, blen_app, Nat.eqb_refl.
    assert (B : Nat.eqb (blen (nkey c)) (blen (nkey c) + blen y) = false) by (apply Nat.eqb_neq; intros X; apply Y, blen_0; lia).
    rewrite B. reflexivity.
  Qed.

  (** ** The place where a key leads *)

  (** Inserting [key] below [n] makes [k] work on [m], inside [fill]. *)
  Definition opens (n : node) (key : str) (fill : node -> node) (m : node) : Prop :=
    forall k, process_insertion n key k = (fill (fst (k m)), snd (k m)).

  Lemma opens_next n l1 c l2 key : nkids n = l1 ++ c :: l2 -> key <> [] -> (forall d, In d l1 -> nkey d <> []) -> passed l1 key ->
    (starts_colon key = true -> l1 = []) -> nkey c = key -> opens n key (fun x => with_kids n (l1 ++ x :: l2)) c.
  Proof.
    intros E NK NE P C K f. destruct n as [nk nv cs]. cbn [nkids] in E. subst cs. cbn [process_insertion]. unfold get_insertion_action. cbn [nkids].
    destruct (act_next key l1 c l2 NK NE P C K) as [x ->]. cbn [a_name a_index]. rewrite upd_nth_at. reflexivity.
  Qed.

  Lemma opens_skey n l1 c l2 key y fill m : nkids n = l1 ++ c :: l2 -> key <> [] -> (forall d, In d l1 -> nkey d <> []) -> passed l1 key ->
    starts_colon key = false -> is_param c = false -> key = nkey c ++ y -> y <> [] -> opens c y fill m ->
    opens n key (fun x => with_kids n (l1 ++ fill x :: l2)) m.
  Proof.
    intros E NK NE P SC Pc K Y O f. destruct n as [nk nv cs]. cbn [nkids] in E. subst cs. cbn [process_insertion]. unfold get_insertion_action. cbn [nkids].
    rewrite (act_skey key l1 c l2 y NK NE P SC Pc K Y). cbn [a_name a_index a_count].
    assert (SF : slice_from key (blen (nkey c)) = Some y) by (rewrite K; apply slice_from_app).
    rewrite SF, upd_nth_at, O. reflexivity.
  Qed.

  (** Where the key leads, and that it leads there again. *)
  Definition opened (n : node) (key : str) (fill : node -> node) (m : node) : Prop :=
    opens n key fill m /\ nice m /\ forall x, nkey x = nkey m -> opens (fill x) key fill x /\ nkey (fill x) = nkey n.

  Lemma process_opens n : forall key, nice n -> good_key key ->
    (forall k, process_insertion n key k = (n, Some PAmbiguous)) \/ exists fill m, opened n key fill m.
  Proof.
    induction n as [nk nv cs IH] using node_ind'. rewrite Forall_forall in IH. intros key N [G1 G2].
    assert (NE : forall d, In d cs -> nkey d <> []) by (destruct N as [A _]; intros d I; exact (proj1 (A d I))).
    assert (NK : forall d, In d cs -> nice d) by (destruct N as [A _]; intros d I; exact (proj2 (proj2 (A d I)))).
    assert (NS : forall d, In d cs -> In c_star (nkey d) -> nkey d = s_star) by (destruct N as [A _]; intros d I; exact (proj1 (proj2 (A d I)))).
    pose proof (acts_spec key G1 cs 0 NE) as A.
    remember (get_insertion_action_from cs key 0) as a eqn:EA.
    destruct A as [A B|j|l1 c l2 z A B C B'|l1 c l2 y A B C D' E' F'|l1 c l2 w x y A B C D' E' F' G' H' I'].
    - right. exists (fun x => Node nk nv (if str_eqb key s_star then cs ++ [x] else x :: cs)), (node_new key None). split; [|split; [apply nice_leaf|]].
      + intros k. cbn [process_insertion]. unfold get_insertion_action. cbn [nkids]. rewrite <- EA. cbn [a_name].
        destruct (k (node_new key None)) as [n' st]. cbn [fst snd]. destruct (str_eqb key s_star); reflexivity.
      + intros x Kx. cbn [nkey node_new] in Kx. split; [|reflexivity]. destruct (str_eqb_spec key s_star) as [->|NSt].
        * apply (opens_next (Node nk nv (cs ++ [x])) cs x [] s_star); [reflexivity|exact G1|exact NE|exact A|discriminate|exact Kx].
        * apply (opens_next (Node nk nv (x :: cs)) [] x cs key); [reflexivity|exact G1|intros d []|intros d []|reflexivity|exact Kx].
    - left. intros k. cbn [process_insertion]. unfold get_insertion_action. cbn [nkids]. rewrite <- EA. reflexivity.
    - right. subst cs. assert (NE1 : forall d, In d l1 -> nkey d <> []) by (intros d I; apply NE; apply in_or_app; auto).
      exists (fun x => with_kids (Node nk nv (l1 ++ c :: l2)) (l1 ++ x :: l2)), c.
      split; [apply opens_next; auto|]. split; [apply NK, in_elt|]. intros x Kx. split; [|reflexivity].
      apply (opens_next (Node nk nv (l1 ++ x :: l2)) l1 x l2 key); auto. rewrite Kx. exact B.
    - subst cs. assert (NE1 : forall d, In d l1 -> nkey d <> []) by (intros d I; apply NE; apply in_or_app; auto).
      assert (IC : In c (l1 ++ c :: l2)) by apply in_elt. rewrite B in G2. destruct (part_good _ _ (NE c IC) C G2) as [S1 S2].
      destruct (IH c IC y (NK c IC)) as [ER|(fill & m & O & Nm & RO)]; [split; [exact C|tauto]| |].
      + left. intros k. cbn [process_insertion]. unfold get_insertion_action. cbn [nkids]. rewrite <- EA. cbn [a_name a_index a_count Nat.add].
        assert (SF : slice_from key (blen (nkey c)) = Some y) by (rewrite B; apply slice_from_app).
        rewrite SF, upd_nth_at, ER. reflexivity.
      + right. exists (fun x => with_kids (Node nk nv (l1 ++ c :: l2)) (l1 ++ fill x :: l2)), m. split; [|split; [exact Nm|]].
        * apply (opens_skey _ l1 c l2 key y fill m); auto.
        * intros x Kx. destruct (RO x Kx) as [RO1 RO2]. split; [|reflexivity].
          apply (opens_skey (Node nk nv (l1 ++ fill x :: l2)) l1 (fill x) l2 key y fill x); auto; [unfold is_param; rewrite RO2; exact E'|rewrite RO2; exact B].
    - subst cs. assert (NE1 : forall d, In d l1 -> nkey d <> []) by (intros d I; apply NE; apply in_or_app; auto).
      assert (IC : In c (l1 ++ c :: l2)) by apply in_elt.
      pose proof (NS c IC) as S. rewrite B in S. destruct (part_good _ _ D' E' S) as [S1 S2].
      assert (SF1 : slice_from (nkey c) (blen w) = Some x) by (rewrite B; apply slice_from_app).
      assert (SF2 : slice_from key (blen w) = Some y) by (rewrite C; apply slice_from_app).
      assert (SF3 : slice_to key (blen w) = Some w) by (rewrite C; apply slice_to_app).
      set (inter := Node x (nval c) (nkids c)).
      assert (NI : nice inter) by (apply (nice_same c); [reflexivity|exact (NK c IC)]).
      right. destruct y as [|y0 y].
      + rewrite app_nil_r in C. subst w. exists (fun z => with_kids (Node nk nv (l1 ++ c :: l2)) (l1 ++ z :: l2)), (Node key None [inter]).
        split; [|split].
        * intros k. cbn [process_insertion]. unfold get_insertion_action. cbn [nkids]. rewrite <- EA. cbn [a_name a_index a_count Nat.add].
          rewrite upd_nth_at, SF1, SF2, SF3. cbn [is_empty]. reflexivity.
        * split; cbn [nkids].
          -- intros d [<-|[]]. cbn [nkey inter]. split; [exact E'|]. split; [tauto|exact NI].
          -- intros [|[|i]] d I J; try discriminate. reflexivity.
        * intros z Kz. cbn [nkey] in Kz. split; [|reflexivity].
          apply (opens_next (Node nk nv (l1 ++ z :: l2)) l1 z l2 key); auto. rewrite I'. discriminate.
      + destruct F' as [F'|F']; [discriminate|].
        exists (fun z => with_kids (Node nk nv (l1 ++ c :: l2)) (l1 ++ Node w None [z; inter] :: l2)), (node_new (y0 :: y) None).
        split; [|split; [apply nice_leaf|]].
        * intros k. cbn [process_insertion]. unfold get_insertion_action. cbn [nkids]. rewrite <- EA. cbn [a_name a_index a_count Nat.add].
          rewrite upd_nth_at, SF1, SF2, SF3. cbn [is_empty]. destruct (k (node_new (y0 :: y) None)). reflexivity.
        * intros z Kz. cbn [nkey node_new] in Kz. split; [|reflexivity].
          apply (opens_skey (Node nk nv (l1 ++ Node w None [z; inter] :: l2)) l1 (Node w None [z; inter]) l2 key (y0 :: y)
                   (fun v => Node w None [v; inter]) z); auto.
          -- unfold is_param. cbn [nkey]. unfold is_param, starts_colon in H'. rewrite B in H'. destruct w as [|w0 w]; [congruence|exact H'].
          -- discriminate.
          -- apply (opens_next (Node w None [z; inter]) [] z [inter] (y0 :: y)); [reflexivity|discriminate|intros d []|intros d []|reflexivity|exact Kz].
  Qed.

  (** ** The place where a path leads *)

  Definition place (n : node) (p : list str) (fill : node -> node) (m : node) : Prop :=
    forall final, walk n p final = (fill (fst (final m)), snd (final m)).

  Lemma walk_opens p : p <> [] -> forall n, nice n -> (forall s, In s p -> good_key s) ->
    (exists n', forall final, walk n p final = (n', Some PAmbiguous)) \/
    exists fill m, place n p fill m /\ nice m /\ (forall x, nkey x = nkey m -> place (fill x) p fill x /\ nkey (fill x) = nkey n).
  Proof.
    induction p as [|s p IH]; intros NP n N G; [congruence|].
    destruct (process_opens n s N (G s (or_introl eq_refl))) as [ER|(fill & m & O & Nm & RO)].
    - left. exists n. intros final. cbn [walk]. apply ER.
    - destruct p as [|s' p].
      + right. exists fill, m. split; [intros final; cbn [walk is_empty]; apply O|]. split; [exact Nm|].
        intros x Kx. destruct (RO x Kx) as [RO1 RO2]. split; [intros final; cbn [walk is_empty]; apply RO1|exact RO2].
      + assert (Gp : forall x, In x (s' :: p) -> good_key x) by (intros x I; apply G; right; exact I).
        assert (WS : forall (n0 : node) final, walk n0 (s :: s' :: p) final = process_insertion n0 s (fun m => walk m (s' :: p) final)) by reflexivity.
        destruct (IH ltac:(discriminate) m Nm Gp) as [(n' & ER)|(fill' & m' & P & Nm' & RP)].
        * left. exists (fill n'). intros final. rewrite WS, O, ER. reflexivity.
        * right. exists (fun x => fill (fill' x)), m'. split; [|split; [exact Nm'|]].
          -- intros final. rewrite WS, O, P. reflexivity.
          -- intros x Kx. destruct (RP x Kx) as [RP1 RP2]. destruct (RO (fill' x) RP2) as [RO1 RO2]. split; [|exact RO2].
             intros final. rewrite WS, RO1, RP1. reflexivity.
  Qed.

  (** ** Longer paths *)

  Lemma upd_nth_ext (f g : node -> upd node) : (forall x, f x = g x) -> forall cs i, upd_nth f i cs = upd_nth g i cs.
  Proof. intros E. induction cs as [|c cs IH]; intros i; [reflexivity|]. cbn [upd_nth]. destruct i; [rewrite E; reflexivity|rewrite IH; reflexivity]. Qed.

  Lemma upd_nth_ext_in (f g : node -> upd node) : forall cs i, (forall x, In x cs -> f x = g x) -> upd_nth f i cs = upd_nth g i cs.
  Proof.
    induction cs as [|c cs IH]; intros i E; [reflexivity|]. cbn [upd_nth].
    destruct i; [rewrite E by (left; reflexivity); reflexivity|rewrite IH by (intros x I; apply E; right; exact I); reflexivity].
  Qed.

  Lemma process_ext (n : node) : forall key k k', (forall m, k m = k' m) -> process_insertion n key k = process_insertion n key k'.
  Proof.
    induction n as [nk nv cs IH] using node_ind'. rewrite Forall_forall in IH. intros key k k' E. cbn [process_insertion].
    destruct (a_name (get_insertion_action (Node nk nv cs) key)).
    - rewrite (upd_nth_ext k k' E). reflexivity.
    - rewrite E. reflexivity.
    - rewrite (upd_nth_ext _ (fun c =>
                   match slice_from (nkey c) (a_count (get_insertion_action (Node nk nv cs) key)),
                         slice_from key (a_count (get_insertion_action (Node nk nv cs) key)),
                         slice_to key (a_count (get_insertion_action (Node nk nv cs) key)) with
                   | Some child_key, Some new_key, Some pre_key =>
                       let inter := Node child_key (nval c) (nkids c) in
                       if is_empty new_key
                       then k' (Node pre_key None [inter])
                       else
                         let '(new', st) := k' (node_new new_key None) in
                         (Node pre_key None [new'; inter], st)
                   | _, _, _ => (c, Some PSlice)
                   end)); [reflexivity|].
      intros c. set (j := a_count _). destruct (slice_from (nkey c) j), (slice_from key j), (slice_to key j); try reflexivity. cbv zeta. rewrite !E. reflexivity.
    - destruct (slice_from key _) as [key'|]; [|reflexivity]. rewrite (upd_nth_ext_in (fun c => process_insertion c key' k) (fun c => process_insertion c key' k')); [reflexivity|].
      intros c I. apply (IH c I). exact E.
    - reflexivity.
  Qed.

  Lemma walk_app p q final : p <> [] -> q <> [] -> forall n : node, walk n (p ++ q) final = walk n p (fun m => walk m q final).
  Proof.
    intros NP NQ. induction p as [|s p IH]; [congruence|]. intros n. cbn [app walk]. apply process_ext. intros m.
    destruct p as [|s' p].
    - cbn [app is_empty]. destruct q; [congruence|reflexivity].
    - cbn [app is_empty]. exact (IH ltac:(discriminate) m).
  Qed.

  (** The key of the root does not matter. *)
  Definition rekey (k : str) (n : node) : node := Node k (nval n) (nkids n).

  Lemma process_rekey k n key f : process_insertion (rekey k n) key f =
    (rekey k (fst (process_insertion n key f)), snd (process_insertion n key f)).
  Proof.
    destruct n as [nk nv cs]. unfold rekey. cbn [nval nkids process_insertion].
    change (get_insertion_action (Node k nv cs) key) with (get_insertion_action (Node nk nv cs) key).
    destruct (a_name (get_insertion_action (Node nk nv cs) key)).
    - destruct (upd_nth f _ cs). reflexivity.
    - destruct (f (node_new key None)). destruct (str_eqb key s_star); reflexivity.
    - match goal with |- context [upd_nth ?F ?I cs] => destruct (upd_nth F I cs) end. reflexivity.
    - destruct (slice_from key _); [|reflexivity]. match goal with |- context [upd_nth ?F ?I cs] => destruct (upd_nth F I cs) end. reflexivity.
    - reflexivity.
  Qed.

  Lemma walk_rekey k p n final : p <> [] -> walk (rekey k n) p final = (rekey k (fst (walk n p final)), snd (walk n p final)).
  Proof. destruct p as [|s p]; [congruence|]. intros _. cbn [walk]. apply process_rekey. Qed.
End Rewalk.

(** ** Mounting as direct registration *)

Section Mount.
  Context {H M : Type}.
  Notation node := (node H M).

  Lemma run_ops_app (l l2 : list (op H M)) : forall t t1, run_ops t l = (t1, None) -> run_ops t (l ++ l2) = run_ops t1 l2.
  Proof.
    induction l as [|o l IH]; intros t t1 E; cbn [run_ops app] in *; [injection E as ->; reflexivity|].
    destruct (run_op t o) as [t' [pn|]]; [discriminate|]. exact (IH _ _ E).
  Qed.

  Lemma run_ops_app_inv (l l2 : list (op H M)) : forall t t2, run_ops t (l ++ l2) = (t2, None) ->
    exists t1, run_ops t l = (t1, None) /\ run_ops t1 l2 = (t2, None).
  Proof.
    induction l as [|o l IH]; intros t t2 E; cbn [run_ops app] in *; [eauto|].
    destruct (run_op t o) as [t' [pn|]]; [discriminate|]. exact (IH _ _ E).
  Qed.

  Section At.
    Variable path : str.
    Variable t0 : node.
    Variable fill : node -> node.
    Variable k : str.
    Let p := segments path.
    Hypothesis NP : p <> [].
    Hypothesis NS : no_star p.
    Hypothesis SO : star_ok p.
    Hypothesis P0 : place t0 p fill (Node k None []).
    Hypothesis RP : forall x, nkey x = k -> place (fill x) p fill x.

    Definition mirrors (S : table H M) (s T : node) : Prop := T = fill (rekey k s) \/ (S = [] /\ s = trie_new /\ T = t0).

    Lemma mirrors_place S s T : mirrors S s T -> place T p fill (rekey k s).
    Proof. intros [->|(_ & -> & ->)]; [apply RP; reflexivity|exact P0]. Qed.

    Definition rekeys (f : node -> upd node) : Prop := forall n, f (rekey k n) = (rekey k (fst (f n)), snd (f n)).

    Lemma rekeys_set r : rekeys (set_route r).
    Proof. intros [nk nv cs]. unfold rekey. cbn [set_route nval nkids]. destruct (add_route _ _ _). reflexivity. Qed.
    Lemma rekeys_push mw : rekeys (push_mw mw).
    Proof. intros [nk nv cs]. reflexivity. Qed.
    Lemma rekeys_mount src : rekeys (mount src).
    Proof. intros [nk nv cs]. unfold rekey. cbn [mount nval nkids]. destruct (_ || _); reflexivity. Qed.

    Lemma sub_walk S s T q f : mirrors S s T -> rekeys f ->
      let r := match q with [] => f s | _ => walk s q f end in walk T (p ++ q) f = (fill (rekey k (fst r)), snd r).
    Proof.
      intros MI RK. pose proof (mirrors_place S s T MI) as P. destruct q as [|s0 q].
      - rewrite app_nil_r. cbv zeta. rewrite P, RK. reflexivity.
      - cbv zeta. rewrite walk_app by (assumption || discriminate). rewrite P, walk_rekey by discriminate. reflexivity.
    Qed.

    Lemma star_under q : star_ok q -> star_check (length (p ++ q)) 0 (p ++ q) = None.
    Proof. intros S. apply star_check_spec. apply star_ok_app; assumption. Qed.

    Lemma under_step S s T o s' : mirrors S s T -> ~ root_mount o -> run_op s o = (s', None) ->
      exists T', run_ops T (under path o) = (T', None) /\ mirrors (after S o) s' T'.
    Proof.
      assert (EP : forall q, is_empty (p ++ q) = false) by (intros q; destruct p; [congruence|reflexivity]).
      intros MI NR E. destruct o as [m q h|q mw|mw|q sub].
      - cbn [run_op under run_ops] in *. unfold insert_route in *. destruct (star_check _ _ (segments q)) eqn:Es; [discriminate|].
        apply star_check_spec in Es. rewrite segments_app. fold p. rewrite star_under, EP by exact Es.
        rewrite (sub_walk S s T _ _ MI (rekeys_set _)). cbv zeta.
        assert (X : match segments q with [] => set_route (Route m h) s | _ :: _ => walk s (segments q) (set_route (Route m h)) end = (s', None)).
        { destruct (segments q); exact E. }
        rewrite X. cbn [fst snd]. eexists. split; [reflexivity|left; reflexivity].
      - cbn [run_op under after] in *. unfold insert_middleware in E. destruct (star_check _ _ (segments q)) eqn:Es; [discriminate|].
        apply star_check_spec in Es. destruct (segments q) as [|s0 q0] eqn:Eq.
        + injection E as <-. exists T. split; [reflexivity|exact MI].
        + cbn [run_ops run_op]. unfold insert_middleware. rewrite segments_app, Eq. fold p. rewrite star_under by exact Es.
          rewrite (sub_walk S s T _ _ MI (rekeys_push _)). cbv zeta. rewrite E. cbn [fst snd]. eexists. split; [reflexivity|left; reflexivity].
      - cbn [run_op under run_ops] in *. unfold insert_middleware. fold p. rewrite (proj2 (star_check_spec p) SO).
        rewrite (mirrors_place S s T MI), rekeys_push. unfold insert_default_middleware in E. rewrite E. cbn [fst snd].
        eexists. split; [reflexivity|left; reflexivity].
      - rewrite run_op_router in E. destruct (build sub) as [src [pn|]] eqn:Eb; cbn [fst snd] in E; [discriminate|].
        unfold insert_sub_route in E. destruct (star_check _ _ (segments q)) eqn:Es; [discriminate|]. apply star_check_spec in Es.
        destruct (segments q) as [|s0 q0] eqn:Eq; [exfalso; apply NR; exists q, sub; auto|]. cbn [is_empty] in E.
        cbn [under run_ops]. rewrite run_op_router, Eb. cbn [fst snd]. unfold insert_sub_route. rewrite segments_app, Eq. fold p.
        rewrite star_under, EP by exact Es. rewrite (sub_walk S s T _ _ MI (rekeys_mount _)). cbv zeta. rewrite E. cbn [fst snd].
        eexists. split; [reflexivity|left; reflexivity].
    Qed.

    Lemma under_all sub : forall S s T s', mirrors S s T -> no_root_mount sub -> run_ops s sub = (s', None) ->
      exists T', run_ops T (flat_map (under path) sub) = (T', None) /\ mirrors (afters S sub) s' T'.
    Proof.
      induction sub as [|o sub IH]; intros S s T s' MI NR E; cbn [run_ops flat_map afters] in *; [injection E as <-; eauto|].
      destruct (run_op s o) as [s1 [pn|]] eqn:Eo; [discriminate|].
      destruct (under_step S s T o s1 MI (NR o (or_introl eq_refl)) Eo) as (T1 & R1 & MI1).
      destruct (IH _ _ _ _ MI1 (fun o' I => NR o' (or_intror I)) E) as (T2 & R2 & MI2).
      exists T2. split; [|exact MI2]. rewrite (run_ops_app _ _ _ _ R1). exact R2.
    Qed.
  End At.

  Theorem mount_direct (l : list (op H M)) t path sub : let p := segments path in
    build (l ++ [ORouter path sub]) = (t, None) -> p <> [] -> no_star p -> no_root_mount sub -> table_of sub <> [] ->
    build (l ++ flat_map (under path) sub) = (t, None).
  Proof.
    intros p B NP NS NR NE. apply run_ops_app_inv in B as (t0 & B0 & E). cbn [run_ops] in E.
    destruct (run_op t0 (ORouter path sub)) as [t1 [pn|]] eqn:Eo; [discriminate|]. injection E as ->.
    rewrite run_op_router in Eo. destruct (build sub) as [src [pn|]] eqn:Eb; cbn [fst snd] in Eo; [discriminate|].
    unfold insert_sub_route in Eo. destruct (star_check _ _ _) eqn:Es; [discriminate|]. apply star_check_spec in Es.
    fold p in Eo, Es. destruct (is_empty p) eqn:EE; [apply is_empty_true in EE; congruence|].
    destruct (build_inv l t0 B0) as [N0 _].
    destruct (walk_opens p NP t0 N0) as [(n' & ER)|(fill & m & P & Nm & RP)]; [apply good_path; exact Es|rewrite ER in Eo; discriminate|].
    rewrite P in Eo. destruct m as [k v cs]. cbn [mount] in Eo. destruct v as [v|]; [discriminate|]. destruct cs as [|c cs]; [|discriminate].
    cbn [is_empty negb orb fst snd] in Eo. injection Eo as <-.
    destruct (under_all path t0 fill k NP NS Es P (fun x K => proj1 (RP x K)) sub [] trie_new t0 src (or_intror (conj eq_refl (conj eq_refl eq_refl))) NR Eb)
      as (T' & R & [->|(X & _)]); [|contradiction].
    unfold build. rewrite (run_ops_app _ _ _ _ B0). exact R.
  Qed.
End Mount.

(** ** Routers with other routers mounted at their root *)

Section Counting.
  Context {H M : Type}.
  Notation op := (op H M).

  Lemma replaces_router path (sub : list op) :
    replaces (ORouter path sub) = match segments path with [] => Some (counting sub) | _ => None end.
  Proof. reflexivity. Qed.

  Lemma counting_step (before l : list op) t0 t :
    Forall (fun o => forall k t0 t, replaces o = Some k -> run_op t0 o = (t, None) -> build k = (t, None)) l ->
    build before = (t0, None) -> run_ops t0 l = (t, None) -> build (counting_from before l) = (t, None).
  Proof.
    intros F. revert before t0. induction F as [|o l Fo F IH]; intros before t0 B E; cbn [counting_from run_ops] in *.
    - injection E as <-. exact B.
    - destruct (run_op t0 o) as [t1 [p|]] eqn:Eo; [discriminate|]. apply IH with (t0 := t1); [|exact E].
      destruct (replaces o) as [k|] eqn:Er; [exact (Fo k t0 t1 eq_refl Eo)|].
      unfold build. rewrite (run_ops_app _ _ _ _ B). cbn [run_ops]. rewrite Eo. reflexivity.
  Qed.

  Lemma replaces_builds (o : op) : forall k t0 t, replaces o = Some k -> run_op t0 o = (t, None) -> build k = (t, None).
  Proof.
    induction o as [m path h|path mw|mw|path sub IH] using op_ind'; intros k t0 t E R; try discriminate E.
    rewrite replaces_router in E. destruct (segments path) eqn:Es; [|discriminate]. injection E as <-.
    rewrite run_op_router in R. destruct (build sub) as [src [p|]] eqn:Eb; cbn [fst snd] in R; [discriminate|].
    unfold insert_sub_route in R. rewrite Es in R. cbn in R. injection R as <-.
    apply counting_step with (t0 := trie_new); [exact IH|reflexivity|exact Eb].
  Qed.

  Lemma counting_builds (l : list op) t : build l = (t, None) -> build (counting l) = (t, None).
  Proof.
    intros B. apply counting_step with (t0 := trie_new); [|reflexivity|exact B].
    apply Forall_forall. intros o _. exact (replaces_builds o).
  Qed.

  Lemma counting_from_mounts (l : list op) : Forall (fun o => forall k, replaces o = Some k -> no_root_mount k) l ->
    forall before, no_root_mount before -> no_root_mount (counting_from before l).
  Proof.
    induction 1 as [|o l Fo F IH]; intros before N; cbn [counting_from]; [exact N|]. apply IH.
    destruct (replaces o) as [k|] eqn:Er; [exact (Fo k eq_refl)|].
    intros x I. apply in_app_iff in I as [I|[<-|[]]]; [exact (N x I)|].
    intros (path & sub & -> & E). rewrite replaces_router, E in Er. discriminate.
  Qed.

  Lemma replaces_mounts (o : op) : forall k, replaces o = Some k -> no_root_mount k.
  Proof.
    induction o as [m path h|path mw|mw|path sub IH] using op_ind'; intros k E; try discriminate E.
    rewrite replaces_router in E. destruct (segments path) eqn:Es; [|discriminate]. injection E as <-.
    apply counting_from_mounts; [exact IH|intros x []].
  Qed.

  Lemma counting_mounts (l : list op) : no_root_mount (counting l).
  Proof. apply counting_from_mounts; [apply Forall_forall; intros o _; exact (replaces_mounts o)|intros x []]. Qed.

  Lemma counting_from_table (l : list op) : Forall (fun o => forall k T, replaces o = Some k -> after T o = table_of k) l ->
    forall before, table_of (counting_from before l) = afters (table_of before) l.
  Proof.
    induction 1 as [|o l Fo F IH]; intros before; cbn [counting_from afters]; [reflexivity|]. rewrite IH. f_equal.
    destruct (replaces o) as [k|] eqn:Er; [symmetry; exact (Fo k _ eq_refl)|].
    unfold table_of. generalize (@nil (@entry H M)). clear. induction before as [|x before IH]; intros T; [reflexivity|apply IH].
  Qed.

  Lemma replaces_table (o : op) : forall k T, replaces o = Some k -> after T o = table_of k.
  Proof.
    induction o as [m path h|path mw|mw|path sub IH] using op_ind'; intros k T E; try discriminate E.
    rewrite replaces_router in E. rewrite after_router. destruct (segments path) eqn:Es; [|discriminate]. injection E as <-.
    symmetry. apply (counting_from_table sub IH []).
  Qed.

  Lemma counting_table (l : list op) : table_of (counting l) = table_of l.
  Proof. apply (counting_from_table l); apply Forall_forall; intros o _; exact (replaces_table o). Qed.

  Lemma counting_all (l : list op) : no_root_mount l -> counting l = l.
  Proof.
    intros N. assert (X : forall before, counting_from before l = before ++ l); [|exact (X [])].
    induction l as [|o l IH]; intros before; cbn [counting_from]; [rewrite app_nil_r; reflexivity|].
    rewrite IH by (intros x I; exact (N x (or_intror I))).
    destruct (replaces o) as [k|] eqn:Er; [|rewrite <- app_assoc; reflexivity]. exfalso.
    destruct o as [m path h|path mw|mw|path sub]; try discriminate Er. rewrite replaces_router in Er.
    destruct (segments path) eqn:Es; [|discriminate]. apply (N _ (or_introl eq_refl)). exists path, sub. auto.
  Qed.

  Theorem mount_counting (l : list op) t path sub : let p := segments path in
    build (l ++ [ORouter path sub]) = (t, None) -> p <> [] -> no_star p -> table_of sub <> [] ->
    build (l ++ flat_map (under path) (counting sub)) = (t, None).
  Proof.
    intros p B NP NS NE. apply mount_direct; [|exact NP|exact NS|apply counting_mounts|rewrite counting_table; exact NE].
    apply run_ops_app_inv in B as (t0 & B0 & E). unfold build. rewrite (run_ops_app _ _ _ _ B0). cbn [run_ops] in *.
    rewrite run_op_router in E |- *. destruct (build sub) as [src [pn|]] eqn:Eb; cbn [fst snd] in *; [discriminate|].
    rewrite (counting_builds sub src Eb). exact E.
  Qed.
End Counting.

(** ** [App::scope] *)

Theorem scope_mounts {H M : Type} (t : trie H M) name sub : run_op t (OScope name sub) = run_op t (ORouter name sub).
Proof.
  assert (E : segments (c_slash :: name) = segments name) by reflexivity.
  unfold OScope. cbn [run_op].
  match goal with |- context [let '(_, _) := ?x in _] => destruct x as [src [p|]] end; [reflexivity|].
  unfold insert_sub_route. rewrite E. reflexivity.
Qed.

Theorem scope_direct {H M : Type} (l : list (op H M)) t name sub :
  build (l ++ [OScope name sub]) = (t, None) -> segments name <> [] -> no_star (segments name) ->
  table_of sub <> [] ->
  build (l ++ flat_map (under name) (counting sub)) = (t, None).
Proof.
  intros B NE NS NT. apply (mount_counting l t name sub); try assumption.
  rewrite <- B. unfold build. generalize (@trie_new H M). clear. induction l as [|o l IH]; intros t; cbn [app run_ops].
  - rewrite scope_mounts. reflexivity.
  - destruct (run_op t o) as [t' [p|]]; [reflexivity|]. apply IH.
Qed.
