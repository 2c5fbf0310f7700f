(** More about routers with colons anywhere: methods, duplicates, precedence, middlewares. *)

From Verif Require Import Base BaseFacts RouteTrie Router TableSpec PropSpec TextSpec TrieDen TrieRep TrieBuild TrieSearch TrieLookup TrieTotal RouteLemmas2 OwnPath Rewalk TextRep TextInv TextSearch TextOwn TextStar TextCaught RouteFacts RouteLemmas RouteLemmas3 RouteLemmas4.

Section Twins.
  Context {H M : Type}.
  Notation node := (node H M).

  (** ** Tries that differ only in the handlers for one method *)

  Definition vtwin (m : method) (a b : option (rvalue H M)) : Prop :=
    match a, b with
    | None, None => True
    | Some v, Some v' => rv_mws v = rv_mws v' /\ forall m', m' <> m -> get_route (rv_route v) m' = get_route (rv_route v') m'
    | _, _ => False
    end.

  Inductive twin (m : method) : node -> node -> Prop :=
  | tw k v v' cs cs' : vtwin m v v' -> Forall2 (twin m) cs cs' -> twin m (Node k v cs) (Node k v' cs').

  Lemma vtwin_refl m v : vtwin m v v.
  Proof. destruct v; cbn [vtwin]; auto. Qed.

  Lemma twin_refl m n : twin m n n.
  Proof.
    induction n as [k v cs IH] using node_ind'. apply tw; [apply vtwin_refl|]. induction IH as [|c cs X F IH']; constructor; assumption.
  Qed.

  Lemma twins_refl m cs : Forall2 (twin m) cs cs.
  Proof. induction cs; constructor; [apply twin_refl|assumption]. Qed.

  Lemma twin_replace m n l1 c l2 c' : nkids n = l1 ++ c :: l2 -> twin m c c' -> twin m n (with_kids n (l1 ++ c' :: l2)).
  Proof.
    destruct n as [k v cs]. cbn [nkids with_kids nkey nval]. intros -> T. apply tw; [apply vtwin_refl|].
    apply Forall2_app; [apply twins_refl|]. constructor; [exact T|apply twins_refl].
  Qed.

  Lemma vtwin_mws m a b : vtwin m a b -> val_mws a = val_mws b.
  Proof. destruct a, b; cbn [vtwin val_mws]; tauto. Qed.

  Lemma twin_star m cs cs' : Forall2 (twin m) cs cs' ->
    match star_child cs, star_child cs' with
    | None, None => True
    | Some (d, v), Some (d', v') => twin m d d' /\ rv_mws v = rv_mws v'
    | _, _ => False
    end.
  Proof.
    intros F. induction F as [|c c' cs cs' T F IH]; cbn [star_child]; [exact I|]. destruct T as [k v v' ds ds' V FD] eqn:ET. cbn [nkey nval].
    destruct (str_eqb k s_star); [|exact IH]. destruct v as [v|], v' as [v'|]; cbn [vtwin] in V; try contradiction; [|exact IH].
    split; [exact T|exact (proj1 V)].
  Qed.

  Definition rtwin (m : method) (a b : sres H M) : Prop :=
    match a, b with
    | SPanic p, SPanic p' => p = p'
    | SRet None k ps mws, SRet None k' ps' mws' => k = k' /\ ps = ps' /\ mws = mws'
    | SRet (Some n) k ps mws, SRet (Some n') k' ps' mws' => twin m n n' /\ k = k' /\ ps = ps' /\ mws = mws'
    | _, _ => False
    end.

  Lemma search_twin m (n : node) : forall n' R ps mws b, twin m n n' -> rtwin m (get_next_node n R ps mws b) (get_next_node n' R ps mws b).
  Proof.
    induction n as [k v cs IH] using node_ind'. intros n' R ps mws b T. inversion T as [k0 v0 v' cs0 cs' V F]; subst.
    destruct R as [|x R]; [reflexivity|]. rewrite !get_next_kids. cbn [nkids]. clear T V k v v'. revert cs' F R ps mws.
    induction IH as [|c cs IHc IH IHl]; intros cs' F R ps mws; inversion F as [|c0 c' cs0 cs1 T F']; subst; cbn [next_loop]; [cbn [rtwin]; auto|].
    specialize (IHl cs1 F'). inversion T as [k v v' ds ds' V FD]; subst. unfold is_param. cbn [nkey nval nkids].
    set (c := Node k v ds) in *. set (c' := Node k v' ds') in *. pose proof (vtwin_mws m v v' V) as EM.
    destruct (negb b && starts_colon k).
    - destruct (is_empty R).
      + destruct v as [v|], v' as [v'|]; cbn [vtwin] in V; try contradiction; [|apply IHl].
        destruct (slice_from k 1); [|reflexivity]. cbn [rtwin]. rewrite (proj1 V). auto.
      + specialize (IHc c' R ps mws false T).
        destruct (get_next_node c R ps mws false) as [p|[f|] k1 ps1 mws1], (get_next_node c' R ps mws false) as [p'|[f'|] k1' ps1' mws1']; cbn [rtwin] in IHc; try contradiction.
        * exact IHc.
        * destruct IHc as (TF & -> & -> & ->). destruct (slice_from k 1); [|reflexivity]. cbn [rtwin]. rewrite EM. auto.
        * destruct IHc as (-> & -> & ->). apply IHl.
    - destruct (negb b && str_eqb k s_star); [cbn [rtwin]; rewrite EM; auto|]. cbv zeta.
      match goal with |- context [match ?X with Some _ => _ | None => SPanic PSlice end] => destruct X as [key1|] end; [|reflexivity].
      destruct (_ && _); [|apply IHl]. destruct (is_empty key1).
      + destruct v as [v|], v' as [v'|]; cbn [vtwin] in V; try contradiction; [cbn [rtwin]; rewrite (proj1 V); auto|].
        pose proof (twin_star m ds ds' FD) as S. destruct (star_child ds) as [[d w]|], (star_child ds') as [[d' w']|]; try contradiction; [|apply IHl].
        destruct S as [S1 S2]. cbn [rtwin]. rewrite S2. auto.
      + match goal with |- context [get_next_node c key1 ps mws ?B] => specialize (IHc c' key1 ps mws B T); set (bk := B) in * end.
        destruct (get_next_node c key1 ps mws bk) as [p|[f|] k1 ps1 mws1], (get_next_node c' key1 ps mws bk) as [p'|[f'|] k1' ps1' mws1']; cbn [rtwin] in IHc; try contradiction.
        * exact IHc.
        * destruct IHc as (TF & -> & -> & ->). cbn [rtwin]. rewrite EM. auto.
        * destruct IHc as (-> & -> & ->). apply IHl.
  Qed.

  Definition ltwin (m : method) (a b : lookup H M) : Prop :=
    match a, b with
    | LNone, LNone => True
    | LSome r, LSome r' =>
        rr_mws r = rr_mws r' /\ (forall n, pget n (rr_params r) = pget n (rr_params r')) /\
        forall m', m' <> m -> rr_get_route r m' = rr_get_route r' m'
    | _, _ => False
    end.

  Lemma lookup_twin m (t t' : node) path : twin m t t' -> ltwin m (search_route t path) (search_route t' path).
  Proof.
    intros T. pose proof (lookup_no_panic t path) as NP. unfold search_route in *. inversion T as [k v v' cs cs' V F]; subst. cbn [nval].
    rewrite <- (vtwin_mws m v v' V). destruct (is_empty (segments path)) eqn:E.
    - destruct v as [v|], v' as [v'|]; cbn [vtwin] in V; try contradiction; [|exact I]. cbn [ltwin rr_mws rr_value rv_mws rr_params]. split; [reflexivity|].
      split; [reflexivity|]. intros m' NM. exact (proj2 V m' NM).
    - pose proof (search_twin m _ _ (segments path) [] (val_mws v) false T) as S.
      destruct (get_next_node (Node k v cs) (segments path) [] (val_mws v) false) as [p|[f|] k1 ps1 mws1] eqn:GN,
               (get_next_node (Node k v' cs') (segments path) [] (val_mws v) false) as [p'|[f'|] k1' ps1' mws1']; cbn [rtwin] in S; try contradiction.
      + exfalso. cbn [nval] in NP. rewrite GN in NP. exact (NP p eq_refl).
      + destruct S as (TF & -> & -> & ->). inversion TF as [kf vf vf' df df' VF FF]; subst. cbn [nval].
        destruct vf as [vf|], vf' as [vf'|]; cbn [vtwin] in VF; try contradiction; [|exact I]. cbn [ltwin rr_mws rr_value rv_mws rr_params]. split; [reflexivity|].
        split; [reflexivity|]. intros m' NM. exact (proj2 VF m' NM).
      + exact I.
  Qed.

  (** ** A call on a path that is there already *)

  Lemma twin_set m h (c : node) : valued c -> twin m c (fst (set_route (Route m h) c)).
  Proof.
    intros V. destruct c as [k [v|] cs]; [|exfalso; apply V; reflexivity]. cbn [set_route]. unfold add_route. cbn [fst r_method]. apply tw; [|apply twins_refl].
    cbn [vtwin rv_mws rv_route]. split; [reflexivity|]. intros m' NM. unfold get_route. rewrite aget_ainsert_other; [reflexivity|exact method_eqb_spec|congruence].
  Qed.

  Lemma same_head (n : node) l1 c l2 l1' c' l2' : radix n -> nkids n = l1 ++ c :: l2 -> nkids n = l1' ++ c' :: l2' ->
    hd_error (nkey c) = hd_error (nkey c') -> c = c'.
  Proof. intros R E E' HD. apply (kid_unique n); [exact R|rewrite E; apply in_elt|rewrite E'; apply in_elt|exact HD]. Qed.

  Lemma process_twin m (Q : node -> Prop) : forall n b q, leads Q n b q -> forall s rest k, q = s :: rest -> radix n -> s <> [] ->
    (forall c, radix c -> leads Q c false rest -> twin m c (fst (k c))) -> twin m n (fst (process_insertion n s k)).
  Proof.
    intros n b q L. induction L as [n W|n b l1 c l2 rest E N S P L IH|n b l1 c l2 s0 rest E N S P Ns L IH|n c l2 rest E P L IH];
      intros s rest' k EQ R NS K; [discriminate| | |]; injection EQ as <- <-.
    - destruct (radix_kid n l1 c l2 R E) as [_ Rc].
      assert (NE : forall d, In d (nkids n) -> nkey d <> []) by (destruct R as [A _]; intros d I; exact (proj1 (A d I))).
      destruct (process_shape n (nkey c) k NS NE) as [|PS C|a1 d a2 E1 E2 PS C|a1 d a2 y E1 E2 Y PS Q1 R1|a1 d a2 x E1 E2 X PS Q1 R1 r|a1 d a2 w x y E1 E2 E3 W X Y D PS Q1 R1 r];
        cbn [fst].
      + apply twin_refl.
      + exfalso. apply (proj2 (PS c ltac:(rewrite E; apply in_elt))). reflexivity.
      + assert (c = d) as <- by (apply (same_head n _ _ _ _ _ _ R E E1); rewrite E2; reflexivity). apply (twin_replace m n a1 c a2 _ E1). apply K; assumption.
      + exfalso. assert (ND : nkey d <> []) by (apply NE; rewrite E1; apply in_elt).
        assert (c = d) as <- by (apply (same_head n _ _ _ _ _ _ R E E1); rewrite E2; apply head_app; exact ND).
        apply Y. apply (app_inv_head (nkey c)). rewrite app_nil_r. symmetry. exact E2.
      + exfalso. assert (c = d) as <- by (apply (same_head n _ _ _ _ _ _ R E E1); rewrite E2; symmetry; apply head_app; exact N).
        apply X. apply (app_inv_head (nkey c)). rewrite app_nil_r. symmetry. exact E2.
      + exfalso. assert (c = d) as <-.
        { apply (same_head n _ _ _ _ _ _ R E E1). rewrite E2. rewrite E3. rewrite !head_app by exact W. reflexivity. }
        rewrite E2 in E3. apply app_inv_head in E3. congruence.
    - destruct (radix_kid n l1 c l2 R E) as [_ Rc].
      assert (NE : forall d, In d (nkids n) -> nkey d <> []) by (destruct R as [A _]; intros d I; exact (proj1 (A d I))).
      assert (HD : hd_error (nkey c ++ s0) = hd_error (nkey c)) by (apply head_app; exact N).
      destruct (process_shape n (nkey c ++ s0) k NS NE) as [|PS C|a1 d a2 E1 E2 PS C|a1 d a2 y E1 E2 Y PS Q1 R1|a1 d a2 x E1 E2 X PS Q1 R1 r|a1 d a2 w x y E1 E2 E3 W X Y D PS Q1 R1 r];
        cbn [fst].
      + apply twin_refl.
      + exfalso. apply (proj2 (PS c ltac:(rewrite E; apply in_elt))). symmetry. exact HD.
      + exfalso. assert (c = d) as <- by (apply (same_head n _ _ _ _ _ _ R E E1); rewrite E2; symmetry; exact HD).
        apply Ns. apply (app_inv_head (nkey c)). rewrite app_nil_r. symmetry. exact E2.
      + assert (ND : nkey d <> []) by (apply NE; rewrite E1; apply in_elt).
        assert (c = d) as <- by (apply (same_head n _ _ _ _ _ _ R E E1); rewrite <- HD, E2; apply head_app; exact ND).
        apply app_inv_head in E2. subst y. apply (twin_replace m n a1 c a2 _ E1). apply (IH s0 rest k eq_refl Rc Ns K).
      + exfalso. assert (c = d) as <- by (apply (same_head n _ _ _ _ _ _ R E E1); rewrite E2, <- app_assoc; symmetry; apply head_app; exact N).
        rewrite <- app_assoc in E2. rewrite <- (app_nil_r (nkey c)) in E2 at 1. apply app_inv_head in E2. destruct s0; [congruence|discriminate].
      + exfalso. assert (c = d) as <-.
        { apply (same_head n _ _ _ _ _ _ R E E1). rewrite <- HD, E3, E2. rewrite !head_app by exact W. reflexivity. }
        rewrite E2 in E3. rewrite <- app_assoc in E3. apply app_inv_head in E3. subst y. destruct x; [congruence|]. apply D. reflexivity.
    - assert (E0 : nkids n = [] ++ c :: l2) by exact E. destruct (radix_kid n [] c l2 R E0) as [N Rc].
      assert (NE : forall d, In d (nkids n) -> nkey d <> []) by (destruct R as [A _]; intros d I; exact (proj1 (A d I))).
      destruct (process_shape n (nkey c) k NS NE) as [|PS C|a1 d a2 E1 E2 PS C|a1 d a2 y E1 E2 Y PS Q1 R1|a1 d a2 x E1 E2 X PS Q1 R1 r|a1 d a2 w x y E1 E2 E3 W X Y D PS Q1 R1 r];
        cbn [fst].
      + apply twin_refl.
      + exfalso. apply (proj2 (PS c ltac:(rewrite E; left; reflexivity))). reflexivity.
      + assert (c = d) as <- by (apply (same_head n _ _ _ _ _ _ R E0 E1); rewrite E2; reflexivity). apply (twin_replace m n a1 c a2 _ E1). apply K; assumption.
      + exfalso. assert (ND : nkey d <> []) by (apply NE; rewrite E1; apply in_elt).
        assert (c = d) as <- by (apply (same_head n _ _ _ _ _ _ R E0 E1); rewrite E2; apply head_app; exact ND).
        apply Y. apply (app_inv_head (nkey c)). rewrite app_nil_r. symmetry. exact E2.
      + exfalso. assert (c = d) as <- by (apply (same_head n _ _ _ _ _ _ R E0 E1); rewrite E2; symmetry; apply head_app; exact N).
        apply X. apply (app_inv_head (nkey c)). rewrite app_nil_r. symmetry. exact E2.
      + exfalso. assert (c = d) as <-.
        { apply (same_head n _ _ _ _ _ _ R E0 E1). rewrite E2. rewrite E3. rewrite !head_app by exact W. reflexivity. }
        rewrite E2 in E3. apply app_inv_head in E3. congruence.
  Qed.

  Lemma walk_twin m (Q : node -> Prop) final : (forall c, Q c -> twin m c (fst (final c))) ->
    forall p, p <> [] -> (forall s, In s p -> s <> []) -> forall n, radix n -> leads Q n false p -> twin m n (fst (walk n p final)).
  Proof.
    intros F. induction p as [|s p IH]; intros NP G n R L; [congruence|]. cbn [walk].
    apply (process_twin m Q n false (s :: p) L s p _ eq_refl R (G s (or_introl eq_refl))). intros c Rc Lc. destruct p as [|s' p]; cbn [is_empty].
    - apply F. inversion Lc. assumption.
    - apply IH; [discriminate|intros x I; apply G; right; exact I|exact Rc|exact Lc].
  Qed.

  Theorem methods_text (l : list (op H M)) t t' m path h p c req :
    build l = (t, None) -> run_op t (ORoute m path h) = (t', None) \/ run_op t (ORoute m path h) = (t', Some PDuplicate) ->
    segments path = p -> registered l p c -> c <> CNode -> ltwin m (search_route t req) (search_route t' req).
  Proof.
    intros B E <- I NC. apply lookup_twin. destruct (build_tinv l t B) as (N & (R & _) & G & L). specialize (L _ _ I NC).
    assert (ET : t' = fst (run_op t (ORoute m path h))) by (destruct E as [E|E]; rewrite E; reflexivity). rewrite ET. cbn [run_op].
    unfold insert_route. destruct (star_check _ _ _); [apply twin_refl|]. destruct (is_empty (segments path)) eqn:EP.
    - apply is_empty_true in EP. rewrite EP in L. inversion L. apply twin_set. assumption.
    - apply is_empty_false in EP. apply (walk_twin m valued); [intros x V; apply twin_set; exact V|exact EP|apply nonempty_segments|exact R|exact L].
  Qed.
End Twins.

(** ** Middlewares *)

Lemma begins_spec a w : begins a w = true <-> prefix a w.
Proof.
  revert w. induction a as [|x a IH]; intros w; cbn [begins].
  - split; [intros _; exists w; reflexivity|reflexivity].
  - destruct w as [|y w]; [split; [discriminate|intros [r E]; discriminate]|]. destruct (N.eqb_spec x y) as [->|N].
    + rewrite IH. split; intros [r E]; exists r; cbn [app] in *; congruence.
    + split; [discriminate|]. intros [r E]. cbn [app] in E. congruence.
Qed.

Lemma in_starts_down pre w x : In x (starts_down pre w) <-> exists a b, w = a ++ b /\ a <> [] /\ x = pre ++ a.
Proof.
  revert pre. induction w as [|c w IH]; intros pre; cbn [starts_down].
  - split; [intros []|]. intros (a & b & E & N & _). destruct a; [congruence|discriminate].
  - rewrite in_app_iff, IH. split.
    + intros [(a & b & -> & N & ->)|[<-|[]]].
      * exists (c :: a), b. split; [reflexivity|]. split; [discriminate|]. rewrite <- app_assoc. reflexivity.
      * exists [c], w. split; [reflexivity|]. split; [discriminate|reflexivity].
    + intros (a & b & E & N & ->). destruct a as [|c' a]; [congruence|]. cbn [app] in E. injection E as <- E. destruct a as [|c' a].
      * right. left. reflexivity.
      * left. exists (c' :: a), b. split; [exact E|]. split; [discriminate|]. rewrite <- app_assoc. reflexivity.
Qed.

Lemma starts_down_NoDup pre w : NoDup (starts_down pre w).
Proof.
  revert pre. induction w as [|c w IH]; intros pre; cbn [starts_down]; [constructor|].
  apply Permutation_NoDup with (l := (pre ++ [c]) :: starts_down (pre ++ [c]) w); [apply Permutation_cons_append|].
  constructor; [|apply IH]. intros I. apply in_starts_down in I as (a & b & _ & N & E). rewrite <- (app_nil_r (pre ++ [c])) in E at 1.
  apply app_inv_head in E. congruence.
Qed.

Lemma starts_in w x : In x ([] :: starts_down [] w) <-> prefix x w.
Proof.
  cbn [In]. rewrite in_starts_down. split.
  - intros [<-|(a & b & -> & _ & ->)]; [exists w; reflexivity|exists b; reflexivity].
  - intros [r ->]. destruct x as [|c x]; [left; reflexivity|]. right. exists (c :: x), r. split; [reflexivity|]. split; [discriminate|reflexivity].
Qed.

Lemma starts_down_app pre a b : starts_down pre (a ++ b) = starts_down (pre ++ a) b ++ starts_down pre a.
Proof.
  revert pre. induction a as [|c a IH]; intros pre; cbn [app starts_down]; [rewrite app_nil_r, app_nil_r; reflexivity|].
  rewrite IH, <- !app_assoc. reflexivity.
Qed.

Lemma starts_down_last pre a c : starts_down pre (a ++ [c]) = (pre ++ a ++ [c]) :: starts_down pre a.
Proof. rewrite starts_down_app. cbn [starts_down app]. rewrite <- app_assoc. reflexivity. Qed.

Section Facts.
  Context {H M : Type}.
  Notation node := (node H M).
  Notation table := (table H M).
  Notation op := (op H M).

  Lemma single_starts (v : M) x L : NoDup L ->
    flat_map (fun y => if str_eqb x y then [v] else []) L = if in_dec (list_eq_dec N.eq_dec) x L then [v] else [].
  Proof.
    induction L as [|y L IH]; intros ND; [reflexivity|]. cbn [flat_map]. inversion ND as [|y' L' N ND']; subst.
    rewrite (IH ND'). destruct (str_eqb_spec x y) as [->|Ny].
    - destruct (in_dec (list_eq_dec N.eq_dec) y L) as [I|_]; [contradiction|]. destruct (in_dec (list_eq_dec N.eq_dec) y (y :: L)) as [_|N']; [reflexivity|]. exfalso. apply N'. left. reflexivity.
    - destruct (in_dec (list_eq_dec N.eq_dec) x L) as [I|I], (in_dec (list_eq_dec N.eq_dec) x (y :: L)) as [J|J]; try reflexivity.
      + exfalso. apply J. right. exact I.
      + exfalso. destruct J as [E|J]; [symmetry in E|]; contradiction.
  Qed.

  Lemma text_mws_perm (T : table) w : Permutation (text_mws T w) (mws_along T w).
  Proof.
    change (text_mws T w) with (flat_map (mws_on T) ([] :: starts_down [] w)).
    assert (ND : NoDup ([] :: starts_down [] w)).
    { constructor; [|apply starts_down_NoDup]. intros I. apply in_starts_down in I as (a & b & _ & N & E). cbn [app] in E. congruence. }
    pose proof (starts_in w) as PI. set (L := [] :: starts_down [] w) in *. clearbody L.
    induction T as [|[p c] T IH].
    - cbn. clear. induction L as [|x L IH]; [constructor|exact IH].
    - set (g := fun w' => match c with CMw m => if str_eqb (text p) w' then [m] else [] | _ => [] end).
      rewrite (flat_map_perm_fun g (mws_on T) (mws_on ((p, c) :: T)) L) by (intros x; destruct c; apply Permutation_refl).
      change (mws_along ((p, c) :: T) w) with (match c with CMw m => if begins (text p) w then [m] else [] | _ => [] end ++ mws_along T w).
      apply Permutation_app; [|exact IH]. unfold g. destruct c as [m h|mw|].
      + clear. induction L as [|x L IH]; [constructor|exact IH].
      + rewrite single_starts by exact ND. destruct (in_dec (list_eq_dec N.eq_dec) (text p) L) as [I|I]; destruct (begins (text p) w) eqn:E; try constructor; try constructor.
        * apply PI, begins_spec in I. congruence.
        * exfalso. apply I, PI, begins_spec. exact E.
      + clear. induction L as [|x L IH]; [constructor|exact IH].
  Qed.

  Lemma in_text_mws (T : table) w mw : In mw (text_mws T w) <-> exists p, In (p, CMw mw) T /\ prefix (text p) w.
  Proof.
    assert (A : In mw (text_mws T w) <-> In mw (mws_along T w)).
    { pose proof (text_mws_perm T w) as P. split; apply Permutation_in; [exact P|apply Permutation_sym; exact P]. }
    rewrite A. unfold mws_along. rewrite in_flat_map. split.
    - intros ([p c] & I & J). cbn [fst snd] in J. destruct c as [m h|m|]; [destruct J| |destruct J].
      destruct (begins (text p) w) eqn:E; [|destruct J]. destruct J as [->|[]]. exists p. split; [exact I|]. apply begins_spec. exact E.
    - intros (p & I & P). exists (p, CMw mw). split; [exact I|]. cbn [fst snd]. apply begins_spec in P. rewrite P. left. reflexivity.
  Qed.

  Theorem found_applied (l : list op) t path r : build l = (t, None) -> search_route t path = LSome r ->
    exists p c, registered l p c /\ c <> CNode /\ hands_out (table_of l) (text p) r /\ Permutation (rr_mws r) (mws_along (table_of l) (text p)).
  Proof.
    intros B E. destruct (found_text l t path r B E) as (p & c & I & N & HO). exists p, c. split; [exact I|]. split; [exact N|]. split; [exact HO|].
    rewrite (proj1 HO). apply text_mws_perm.
  Qed.

  Theorem found_applied_in (l : list op) t path r mw : build l = (t, None) -> search_route t path = LSome r -> In mw (rr_mws r) ->
    exists p q c, registered l p (CMw mw) /\ registered l q c /\ c <> CNode /\ prefix (text p) (text q) /\ hands_out (table_of l) (text q) r.
  Proof.
    intros B E J. destruct (found_text l t path r B E) as (q & c & I & N & HO). rewrite (proj1 HO) in J. apply in_text_mws in J as (p & Ip & P).
    exists p, q, c. auto.
  Qed.

  Theorem text_root_first (l : list op) t path r : build l = (t, None) -> search_route t path = LSome r ->
    exists rest, rr_mws r = mws_on (table_of l) [] ++ rest.
  Proof. intros B E. destruct (found_text l t path r B E) as (p & c & _ & _ & HO & _). rewrite HO. eexists. reflexivity. Qed.

  Lemma text_inner (T : table) w p1 p2 m1 m2 : In (p1, CMw m1) T -> In (p2, CMw m2) T -> text p1 <> [] ->
    strict_prefix (text p1) (text p2) -> prefix (text p2) w -> exists a b c, text_mws T w = a ++ m2 :: b ++ m1 :: c.
  Proof.
    intros I1 I2 N (x & r & E) [s ->].
    assert (J1 : In m1 (mws_on T (text p1))) by (apply in_mws_on; eauto).
    assert (J2 : In m2 (mws_on T (text p2))) by (apply in_mws_on; eauto).
    apply in_split in J1 as (a1 & b1 & E1). apply in_split in J2 as (a2 & b2 & E2).
    unfold text_mws. rewrite starts_down_app.
    assert (X : exists L, starts_down [] (text p2) = text p2 :: L /\ exists A B, L = A ++ text p1 :: B).
    { destruct (exists_last N) as (y & z & Ep1). rewrite E.
      destruct (@exists_last _ (x :: r)) as (u & v & Eu); [discriminate|]. rewrite Eu.
      replace (text p1 ++ u ++ [v]) with ((text p1 ++ u) ++ [v]) by (rewrite <- app_assoc; reflexivity).
      rewrite starts_down_last. cbn [app]. eexists. split; [reflexivity|].
      rewrite starts_down_app, Ep1, starts_down_last. cbn [app].
      exists (starts_down (y ++ [z]) u), (starts_down [] y). reflexivity. }
    destruct X as (L & -> & A & B & ->).
    rewrite flat_map_app. cbn [flat_map]. rewrite flat_map_app. cbn [flat_map]. rewrite E1, E2.
    exists (mws_on T [] ++ flat_map (mws_on T) (starts_down ([] ++ text p2) s) ++ a2), (b2 ++ flat_map (mws_on T) A ++ a1),
      (b1 ++ flat_map (mws_on T) B).
    repeat (rewrite <- !app_assoc; cbn [app]). reflexivity.
  Qed.

  Theorem text_inner_first (l : list op) t path r p1 p2 m1 m2 : build l = (t, None) -> search_route t path = LSome r ->
    registered l p1 (CMw m1) -> registered l p2 (CMw m2) -> text p1 <> [] -> strict_prefix (text p1) (text p2) ->
    exists p c, registered l p c /\ c <> CNode /\ hands_out (table_of l) (text p) r /\
      (prefix (text p2) (text p) -> exists x y z, rr_mws r = x ++ m2 :: y ++ m1 :: z).
  Proof.
    intros B E I1 I2 N SP. destruct (found_text l t path r B E) as (p & c & I & NC & HO). exists p, c. split; [exact I|]. split; [exact NC|]. split; [exact HO|].
    intros P. rewrite (proj1 HO). exact (text_inner _ _ p1 p2 m1 m2 I1 I2 N SP P).
  Qed.

  Theorem text_order (l : list op) t path r : build l = (t, None) -> search_route t path = LSome r ->
    exists p c, registered l p c /\ c <> CNode /\ hands_out (table_of l) (text p) r /\ rr_mws r = text_mws (table_of l) (text p).
  Proof. intros B E. destruct (found_text l t path r B E) as (p & c & I & N & HO). exists p, c. split; [exact I|]. split; [exact N|]. split; [exact HO|exact (proj1 HO)]. Qed.

  Theorem text_effective (l : list op) t path r p mw : build l = (t, None) -> search_route t path = LSome r -> registered l p (CMw mw) ->
    exists q c, registered l q c /\ c <> CNode /\ hands_out (table_of l) (text q) r /\ (prefix (text p) (text q) -> In mw (rr_mws r)).
  Proof.
    intros B E I. destruct (found_text l t path r B E) as (q & c & J & N & HO). exists q, c. split; [exact J|]. split; [exact N|]. split; [exact HO|].
    intros P. rewrite (proj1 HO). apply in_text_mws. exists p. auto.
  Qed.

  Theorem text_service (l : list op) t path mw r : build (l ++ [OService mw]) = (t, None) -> search_route t path = LSome r -> In mw (rr_mws r).
  Proof.
    intros B E. destruct (found_text _ t path r B E) as (p & c & _ & _ & HO & _). rewrite HO. apply in_text_mws. exists []. split; [|exists (text p); reflexivity].
    rewrite table_app. cbn [afters after]. apply in_or_app. right. left. reflexivity.
  Qed.

  (** ** Methods *)

  Lemma handler_on (T : table) w m h : handler_for m (routes_on T w) = Some h -> exists p, In (p, CRoute m h) T /\ text p = w.
  Proof. intros E. apply handler_for_in in E. apply in_routes_on. exact E. Qed.

  Theorem text_method_registered (l : list op) t path r m rt : build l = (t, None) -> search_route t path = LSome r -> rr_get_route r m = Some rt ->
    exists p h, registered l p (CRoute m h) /\ rt = Route m h /\ hands_out (table_of l) (text p) r.
  Proof.
    intros B E G. destruct (found_text l t path r B E) as (p & c & _ & _ & HO). rewrite (proj2 HO m) in G.
    destruct (handler_for m (routes_on (table_of l) (text p))) as [h|] eqn:HF; [|discriminate]. injection G as <-.
    apply handler_on in HF as (q & I & EQ). exists q, h. split; [exact I|]. split; [reflexivity|]. rewrite EQ. exact HO.
  Qed.

  Lemma leads_below (Q : node -> Prop) n b p : leads Q n b p -> exists m, below n (text p) m /\ Q m.
  Proof.
    intros L. induction L as [n W|n b l1 c l2 rest E N S P L (m & B & W)|n b l1 c l2 s rest E N S P Ns L (m & B & W)|n c l2 rest E P L (m & B & W)].
    - exists n. split; [apply bl_here|exact W].
    - exists m. split; [|exact W]. apply (bl_kid n c (text rest) m); [rewrite E; apply in_elt|exact B].
    - exists m. split; [|exact W]. unfold text in *. cbn [concat] in *. rewrite <- app_assoc. apply (bl_kid n c (s ++ concat rest) m); [rewrite E; apply in_elt|exact B].
    - exists m. split; [|exact W]. apply (bl_kid n c (text rest) m); [rewrite E; left; reflexivity|exact B].
  Qed.

  (** At most one handler for a method and a text is ever accepted. *)
  Theorem text_handler (l : list op) t p m h : build l = (t, None) -> registered l p (CRoute m h) ->
    handler_for m (routes_on (table_of l) (text p)) = Some h.
  Proof.
    intros B I. destruct (build_inv l t B) as [_ L]. destruct (leads_below _ _ _ _ (L _ _ I ltac:(discriminate))) as (x & BL & HX).
    unfold has in HX. destruct (nval x) as [v|] eqn:V; [|contradiction].
    destruct (build_trep l t B) as (_ & TD & _). destruct (TD (text p) v) as (_ & G & _); [exists x; auto|]. rewrite G in HX.
    destruct (handler_for m (routes_on (table_of l) (text p))) as [h'|]; [|discriminate]. injection HX as ->. reflexivity.
  Qed.

  Theorem route_reached_any (l : list op) t p m h : build l = (t, None) -> no_star_mount l -> registered l p (CRoute m h) ->
    exists path r b, seg_match p (segments path) b /\ search_route t path = LSome r /\ rr_get_route r m = Some (Route m h).
  Proof. intros B NM I. destruct (route_spelled_any l t p m h B NM I) as (path & r & b & S & E & G & _). exists path, r, b. auto. Qed.

  (** ** Precedence *)

  Theorem text_over_wildcard (l : list op) t p m h path b :
    build l = (t, None) -> registered l p (CRoute m h) -> no_star p -> seg_match p (segments path) b ->
    exists r, search_route t path = LSome r /\ rr_get_route r m = Some (Route m h) /\
      forall m' h', rr_get_route r m' = Some (Route m' h') -> exists p', registered l p' (CRoute m' h') /\ text p' = text p.
  Proof.
    intros B I NS S. destruct (own_text l t p _ path b B I ltac:(discriminate) NS S) as (r & E & HO & _).
    destruct (own_route l t p m h path b B I NS S) as (r' & E' & G & _). rewrite E in E'. injection E' as <-.
    exists r. split; [exact E|]. split; [exact G|]. intros m' h' G'. rewrite (proj2 HO m') in G'.
    destruct (handler_for m' (routes_on (table_of l) (text p))) as [h2|] eqn:HF; [|discriminate]. injection G' as <-. exact (handler_on _ _ _ _ HF).
  Qed.

  Theorem text_deepest (l : list op) t q1 q2 c1 c2 path b1 b2 : build l = (t, None) -> no_star_mount l ->
    registered l (q2 ++ [s_star]) c2 ->
    seg_match (q1 ++ [s_star]) (segments path) b1 -> seg_match (q2 ++ [s_star]) (segments path) b2 ->
    registered l (q1 ++ [s_star]) c1 -> strict_prefix (text q1) (text q2) ->
    exists p c' r, search_route t path = LSome r /\ registered l p c' /\ c' <> CNode /\
      hands_out (table_of l) (text p) r /\ strict_prefix (text q2) (text p) /\ text p <> text (q1 ++ [s_star]).
  Proof.
    intros B NM I2 _ S2 _ (x & u & E). destruct (wildcard_text l t q2 c2 path b2 B NM I2 S2) as (p & c' & r & L & I & NC & SP & HO & _).
    exists p, c', r. split; [exact L|]. split; [exact I|]. split; [exact NC|]. split; [exact HO|]. split; [exact SP|].
    destruct SP as (y & v & SP). rewrite SP, E, text_app. intros X. rewrite <- app_assoc in X. apply app_inv_head in X. cbn in X.
    apply (f_equal (@length char)) in X. cbn [length] in X. rewrite app_length in X. cbn [length] in X. lia.
  Qed.

  (** ** Rejected calls *)

  Theorem text_rejected_keeps (l : list op) t o pn p m h path b :
    build l = (t, None) -> snd (run_op t o) = Some pn ->
    (pn = PDuplicate -> forall path' h', o = ORoute m path' h' -> text (segments path') <> text p) ->
    registered l p (CRoute m h) -> no_star p -> seg_match p (segments path) b ->
    exists r, search_route (fst (run_op t o)) path = LSome r /\ rr_get_route r m = Some (Route m h) /\
              forall n, pget n (rr_params r) = first_binding b n.
  Proof.
    intros B R D I NS S. pose proof (run_op_tinv o t _ (build_tinv l t B)) as TI. rewrite R in TI.
    assert (J : In (p, CRoute m h) (end_table (table_of l) o (Some pn))).
    { unfold end_table. destruct pn; try exact I. destruct o; try exact I. right. exact I. }
    destruct (own_tinv _ _ p _ path b TI J ltac:(discriminate) NS S) as (r & E & HO & PB). exists r. split; [exact E|]. split; [|exact PB].
    rewrite (proj2 HO m). pose proof (text_handler l t p m h B I) as HF.
    assert (X : handler_for m (routes_on (end_table (table_of l) o (Some pn)) (text p)) = Some h); [|rewrite X; reflexivity].
    unfold end_table. destruct pn; try exact HF. destruct o as [m' path' h'|path' mw|mw|path' sub]; try exact HF.
    cbn [routes_on flat_map fst snd]. fold (routes_on (table_of l) (text p)). destruct (str_eqb_spec (text (segments path')) (text p)) as [ET|NT]; [|exact HF].
    cbn [app handler_for]. destruct (method_eqb m m') eqn:EM; [|exact HF]. apply method_eqb_spec in EM. subst m'.
    exfalso. exact (D eq_refl path' h' eq_refl ET).
  Qed.

  Theorem text_duplicate_replaces (l : list op) t p m h h' path req b :
    build l = (t, None) -> registered l p (CRoute m h) -> text (segments path) = text p -> no_star p -> seg_match p (segments req) b ->
    snd (run_op t (ORoute m path h')) = Some PDuplicate ->
    exists r, search_route (fst (run_op t (ORoute m path h'))) req = LSome r /\ rr_get_route r m = Some (Route m h') /\
              forall n, pget n (rr_params r) = first_binding b n.
  Proof.
    intros B I ET NS S R. pose proof (run_op_tinv (ORoute m path h') t _ (build_tinv l t B)) as TI. rewrite R in TI. cbn [end_table] in TI.
    destruct (own_tinv _ _ p _ req b TI (or_intror I) ltac:(discriminate) NS S) as (r & E & HO & PB). exists r. split; [exact E|]. split; [|exact PB].
    rewrite (proj2 HO m). cbn [routes_on flat_map fst snd]. rewrite ET, str_eqb_refl. cbn [app handler_for].
    rewrite (proj2 (method_eqb_spec m m) eq_refl). reflexivity.
  Qed.
End Facts.
