(** On any trie, well-formed or not: which panics the trie functions can raise. *)

From Verif Require Import Base BaseFacts RouteTrie Router TrieDen TrieBuild.

Lemma match_count_both a b : exists p r s, a = p ++ r /\ b = p ++ s /\ match_count a b = blen p.
Proof.
  revert b; induction a as [|x a IH]; intros b.
  - exists [], [], b. destruct b; auto.
  - destruct b as [|y b]; [exists [], (x :: a), []; auto|]. cbn [match_count].
    destruct (N.eqb_spec y x) as [->|N].
    + destruct (IH b) as (p & r & s & -> & -> & ->). exists (x :: p), r, s. auto.
    + exists [], (x :: a), (y :: b). auto.
Qed.

Lemma slice_from_match_l a b : exists r, slice_from a (match_count a b) = Some r.
Proof. destruct (match_count_both a b) as (p & r & s & -> & -> & ->). exists r. apply slice_from_app. Qed.
Lemma slice_from_match_r a b : exists r, slice_from b (match_count a b) = Some r.
Proof. destruct (match_count_both a b) as (p & r & s & -> & -> & ->). exists s. apply slice_from_app. Qed.
Lemma slice_to_match_r a b : exists r, slice_to b (match_count a b) = Some r.
Proof. destruct (match_count_both a b) as (p & r & s & -> & -> & ->). exists p. apply slice_to_app. Qed.

Section Total.
  Context {H M : Type}.
  Notation node := (node H M).
  Notation sres := (sres H M).

  Definition no_panic (r : sres) : Prop := match r with SPanic _ => False | SRet _ _ _ _ => True end.

  Lemma slice_param (c : node) : is_param c = true -> exists r, slice_from (nkey c) 1 = Some r.
  Proof.
    unfold is_param. intros E. apply starts_colon_spec in E as [r ->]. exists r. destruct r; reflexivity.
  Qed.

  Lemma next_loop_total rec s bp :
    forall cs : list node,
    (forall c, In c cs -> forall key ps mws b, key <> [] -> no_panic (rec c key ps mws b)) ->
    forall key ps mws, no_panic (next_loop rec s bp cs key ps mws).
  Proof.
    induction cs as [|c cs IH]; intros RC key ps mws; [exact I|].
    assert (IHc : forall key ps mws, no_panic (next_loop rec s bp cs key ps mws)).
    { apply IH. intros d Id. apply RC. right. exact Id. }
    assert (RCc : forall key ps mws b, key <> [] -> no_panic (rec c key ps mws b)) by (apply RC; left; reflexivity).
    clear IH RC. cbn [next_loop].
    destruct (negb bp && is_param c) eqn:E1.
    - apply andb_true_iff in E1 as [_ P]. destruct (slice_param c P) as [r ->].
      destruct (is_empty key) eqn:Ek; [destruct (nval c); [exact I|apply IHc]|].
      specialize (RCc key ps mws false). apply is_empty_false in Ek.
      destruct (rec c key ps mws false) as [p|[f|] k' p' m']; [exact (RCc Ek)|exact I|apply IHc].
    - destruct (negb bp && str_eqb (nkey c) s_star); [exact I|]. cbv zeta.
      destruct (slice_from_match_r (nkey c) s) as [tl E]. rewrite E.
      match goal with |- context [if ?b then Some (tl :: key) else Some key] =>
        replace (if b then Some (tl :: key) else Some key) with (Some (if b then tl :: key else key)) by (destruct b; reflexivity);
        set (key1 := if b then tl :: key else key)
      end.
      match goal with |- no_panic (if ?b then _ else _) => destruct b end; [|apply IHc].
      destruct (is_empty key1) eqn:Ek.
      + destruct (nval c); [exact I|]. destruct (star_child (nkids c)) as [[? ?]|]; [exact I|apply IHc].
      + apply is_empty_false in Ek.
        match goal with |- context [rec c key1 ps mws ?b] => specialize (RCc key1 ps mws b Ek); destruct (rec c key1 ps mws b) as [p|[f|] k' p' m'] end;
          [exact RCc|exact I|apply IHc].
  Qed.

  Lemma get_next_total (n : node) : forall key ps mws bp, key <> [] -> no_panic (get_next_node n key ps mws bp).
  Proof.
    induction n as [nk nv cs IH] using node_ind'. intros key ps mws bp N.
    destruct key as [|s key]; [congruence|]. cbn [get_next_node]. apply next_loop_total.
    intros c I. rewrite Forall_forall in IH. apply (IH c I).
  Qed.

  Theorem search_total (t : trie H M) path : exists r, search_route t path = r /\ forall p, r <> LPanic p.
  Proof.
    unfold search_route. eexists. split; [reflexivity|]. intros p.
    destruct (is_empty (segments path)) eqn:E; [destruct (nval t); discriminate|].
    apply is_empty_false in E. pose proof (get_next_total t (segments path) [] (val_mws (nval t)) false E) as X.
    destruct (get_next_node _ _ _ _ _) as [q|[f|] k ps mws]; [destruct X| |discriminate].
    destruct (nval f); discriminate.
  Qed.

  (** ** Insertion *)

  (** Panics allowed so far. *)
  Definition okp (A : panic -> Prop) (st : option panic) : Prop := match st with None => True | Some p => A p end.

  Lemma action_index (cs : list node) key i :
    let a := get_insertion_action_from cs key i in
    match a_name a with
    | ACreateNewNode => True
    | AError => True
    | ANextNode => i <= a_index a < i + length cs
    | ASplitKey | ASplitNode =>
        i <= a_index a < i + length cs /\
        forall c, nth_error cs (a_index a - i) = Some c -> a_count a = match_count (nkey c) key
    end.
  Proof.
    revert i; induction cs as [|c cs IH]; intros i; [exact I|]. cbn [get_insertion_action_from].
    destruct (is_param c || starts_colon key).
    - destruct (str_eqb key (nkey c)); cbn [a_name a_index length]; [lia|exact I].
    - cbv zeta. destruct (_ && _); [cbn [a_name a_index length]; lia|].
      destruct (_ =? _); [|destruct (negb _)].
      + cbn [a_name a_index a_count length]. split; [lia|]. rewrite Nat.sub_diag. intros d E. injection E as ->. reflexivity.
      + cbn [a_name a_index a_count length]. split; [lia|]. rewrite Nat.sub_diag. intros d E. injection E as ->. reflexivity.
      + specialize (IH (S i)). cbv zeta in IH.
        destruct (a_name (get_insertion_action_from cs key (S i))); cbn [length]; auto; [lia| |].
        * destruct IH as [L E]. split; [lia|]. intros d Ed. apply E.
          replace (a_index _ - i) with (S (a_index (get_insertion_action_from cs key (S i)) - S i)) in Ed by lia. exact Ed.
        * destruct IH as [L E]. split; [lia|]. intros d Ed. apply E.
          replace (a_index _ - i) with (S (a_index (get_insertion_action_from cs key (S i)) - S i)) in Ed by lia. exact Ed.
  Qed.

  Lemma upd_nth_ok (A : panic -> Prop) f i (cs : list node) : i < length cs ->
    (forall c, nth_error cs i = Some c -> okp A (snd (f c))) -> okp A (snd (upd_nth f i cs)).
  Proof.
    revert i; induction cs as [|c cs IH]; intros i L F; simpl in L; [lia|].
    destruct i as [|i]; cbn [upd_nth].
    - specialize (F c eq_refl). destruct (f c). exact F.
    - specialize (IH i ltac:(lia) F). destruct (upd_nth f i cs). exact IH.
  Qed.

  Lemma process_ok (A : panic -> Prop) : A PAmbiguous -> forall (n : node) key k,
    (forall m, okp A (snd (k m))) -> okp A (snd (process_insertion n key k)).
  Proof.
    intros AA n. induction n as [nk nv cs IH] using node_ind'. intros key k K.
    cbn [process_insertion]. unfold get_insertion_action. cbn [nkids].
    pose proof (action_index cs key 0) as X. cbv zeta in X.
    set (a := get_insertion_action_from cs key 0) in *.
    destruct (a_name a); try rewrite Nat.sub_0_r in X.
    - pose proof (upd_nth_ok A k (a_index a) cs ltac:(lia) ltac:(intros; apply K)) as Y.
      destruct (upd_nth k (a_index a) cs). exact Y.
    - specialize (K (node_new key None)). destruct (k (node_new key None)). destruct (str_eqb key s_star); exact K.
    - destruct X as [L E]. cbv zeta.
      match goal with |- context [upd_nth ?f _ _] => pose proof (upd_nth_ok A f (a_index a) cs ltac:(lia)) as Y;
        destruct (upd_nth f (a_index a) cs) end.
      apply Y. intros c Ec. rewrite (E c Ec).
      destruct (slice_from_match_l (nkey c) key) as [x ->]. destruct (slice_from_match_r (nkey c) key) as [y ->].
      destruct (slice_to_match_r (nkey c) key) as [z ->].
      destruct (is_empty y); [apply K|].
      specialize (K (node_new y None)). destruct (k (node_new y None)). exact K.
    - destruct X as [L E].
      destruct (nth_error cs (a_index a)) as [c|] eqn:Ec; [|apply nth_error_None in Ec; lia].
      rewrite (E c eq_refl). destruct (slice_from_match_r (nkey c) key) as [y ->].
      match goal with |- context [upd_nth ?f _ _] => pose proof (upd_nth_ok A f (a_index a) cs ltac:(lia)) as Y;
        destruct (upd_nth f (a_index a) cs) end.
      apply Y. intros d Ed. rewrite Forall_forall in IH. apply IH; [eapply nth_error_In; exact Ed|exact K].
    - exact AA.
  Qed.

  Lemma walk_ok (A : panic -> Prop) : A PAmbiguous -> forall p (n : node) final,
    (forall m, okp A (snd (final m))) -> okp A (snd (walk n p final)).
  Proof.
    intros AA p. induction p as [|s p IH]; intros n final F; [exact I|]. cbn [walk].
    apply process_ok; [exact AA|]. intros m. destruct (is_empty p); [apply F|apply IH; exact F].
  Qed.

  Lemma set_route_ok (A : panic -> Prop) r (n : node) : A PDuplicate -> okp A (snd (set_route r n)).
  Proof. intros AA. destruct n as [k v cs]. simpl. destruct (aget _ _ _); [exact AA|exact I]. Qed.

  Lemma mount_ok (A : panic -> Prop) src (n : node) : A PMountConflict -> okp A (snd (mount src n)).
  Proof. intros AA. destruct n as [k v cs]. simpl. destruct (_ || _); [exact AA|exact I]. Qed.

  Lemma push_ok (A : panic -> Prop) m (n : node) : okp A (snd (push_mw m n)).
  Proof. destruct n as [k v cs]. exact I. Qed.

  Lemma star_documented p q : star_check (length p) 0 p = Some q -> documented q.
  Proof.
    intros E. apply star_check_panic in E as (p0 & s & p1 & _ & _ & _ & [[_ ->]|(_ & _ & ->)]); unfold documented; tauto.
  Qed.

  Lemma run_ops_ok (l : list (op H M)) :
    Forall (fun o => forall t, okp documented (snd (run_op t o))) l -> forall t, okp documented (snd (run_ops t l)).
  Proof.
    intros F. induction F as [|o l Fo F IH]; intros t; [exact I|]. cbn [run_ops].
    specialize (Fo t). destruct (run_op t o) as [t' [p|]]; [exact Fo|apply IH].
  Qed.

  Theorem run_op_total (o : op H M) : forall t, okp documented (snd (run_op t o)).
  Proof.
    induction o as [m path h|path mw|mw|path sub IH] using op_ind'; intros t.
    - cbn [run_op]. unfold insert_route. destruct (star_check _ _ _) eqn:E; [exact (star_documented _ _ E)|].
      destruct (is_empty _); [apply set_route_ok; unfold documented; tauto|].
      apply walk_ok; [unfold documented; tauto|]. intros n. apply set_route_ok; unfold documented; tauto.
    - cbn [run_op]. unfold insert_middleware. destruct (star_check _ _ _) eqn:E; [exact (star_documented _ _ E)|].
      apply walk_ok; [unfold documented; tauto|]. intros n. apply push_ok.
    - cbn [run_op]. apply push_ok.
    - rewrite run_op_router. pose proof (run_ops_ok sub IH trie_new) as X. fold (build sub) in X.
      destruct (snd (build sub)); [exact X|].
      unfold insert_sub_route. destruct (star_check _ _ _) eqn:E; [exact (star_documented _ _ E)|].
      destruct (is_empty _); [exact I|].
      apply walk_ok; [unfold documented; tauto|]. intros n. apply mount_ok; unfold documented; tauto.
  Qed.
End Total.
