(** Lemmas about structs whose fields have several names. *)

From Coq Require Import String ZArith.
From Verif Require Import Base BaseFacts Utf8 RouteTrie UrlEncoded UrlSpec UrlLemmas Http Form AppSpec FormSpec.
From Verif Require Import AppLemmas4 FormLemmas FormLemmas2 FormLemmas6 Alias AliasSpec.
Local Open Scope string_scope.
Local Open Scope list_scope.

Lemma values_in k ps s : In s (values_of k ps) <-> In (k, s) ps /\ s <> [].
Proof.
  unfold values_of. rewrite in_map_iff. split.
  - intros ([a b] & <- & I). apply filter_In in I as [I E]. cbn in *. apply andb_true_iff in E as [E1 E2].
    apply str_eqb_eq in E1 as ->. split; [exact I|]. destruct b; [discriminate E2|discriminate].
  - intros [I N]. exists (k, s). split; [reflexivity|]. apply filter_In. split; [exact I|]. cbn. rewrite str_eqb_refl.
    destruct s; [contradiction|reflexivity].
Qed.

Lemma values_some k ps : values_of k ps <> [] <-> exists s, In (k, s) ps /\ s <> [].
Proof.
  split.
  - intros N. destruct (values_of k ps) as [|s l] eqn:E; [contradiction|]. exists s. apply values_in. rewrite E. left. reflexivity.
  - intros (s & I). apply values_in in I. intros E. rewrite E in I. exact I.
Qed.

Section Alias.
  Context {F : Type} (pf : bool -> str -> F + str) (msg : mismatch -> str).
  Notation visit_struct := (visit_struct pf msg).
  Notation visit_alias := (visit_alias pf msg).
  Notation own f := (f_name (a_field f)).

  Context (fs : list (afield F)) (Df : different fs).

  Lemma names_in (f : afield F) n : In n (names f) <-> name_of f n.
  Proof. unfold names, name_of. cbn. split; intros [H|H]; auto. Qed.

  Lemma named_some k f : named fs k = Some f <-> In f fs /\ name_of f k.
  Proof.
    unfold named. split.
    - intros E. apply find_some in E as [I E]. split; [exact I|]. apply existsb_exists in E as (x & I' & E).
      apply str_eqb_eq in E as <-. apply names_in. exact I'.
    - intros [I N]. destruct (find (fun f => existsb (str_eqb k) (names f)) fs) as [g|] eqn:E.
      + apply find_some in E as [I' E]. apply existsb_exists in E as (x & I2 & E). apply str_eqb_eq in E as <-.
        f_equal. apply (proj2 Df) with k; auto. apply names_in. exact I2.
      + pose proof (find_none _ _ E f I) as X. cbn beta in X. assert (T : existsb (str_eqb k) (names f) = true).
        { apply existsb_exists. exists k. split; [apply names_in; exact N|apply str_eqb_refl]. }
        congruence.
  Qed.

  Lemma named_none k : named fs k = None <-> forall f, In f fs -> ~ name_of f k.
  Proof.
    split.
    - intros E f I N. assert (S : named fs k = Some f) by (apply named_some; auto). congruence.
    - intros H. destruct (named fs k) as [f|] eqn:E; [|reflexivity]. apply named_some in E as [I N]. destruct (H f I N).
  Qed.

  Definition canon (k : str) : str := match named fs k with Some f => own f | None => k end.
  Definition canon_entry (e : entry) : entry := (canon (fst e), snd e).
  Definition canon_pair (p : str * str) : str * str := (canon (fst p), snd p).

  Lemma own_names : map f_name (map a_field fs) = map (fun f => own f) fs.
  Proof. rewrite map_map. reflexivity. Qed.

  Lemma own_different : NoDup (map f_name (map a_field fs)).
  Proof. rewrite own_names. apply Df. Qed.

  Lemma canon_field k : field_of (map a_field fs) (canon k) = option_map a_field (named fs k).
  Proof.
    unfold canon. destruct (named fs k) as [f|] eqn:E; cbn [option_map].
    - apply named_some in E as [I _]. apply field_of_in; [apply own_different|]. apply in_map. exact I.
    - apply field_of_none. rewrite own_names. intros I. apply in_map_iff in I as (f & E' & I).
      apply (proj1 (named_none k) E f I). left. symmetry. exact E'.
  Qed.

  Lemma canon_own k f : In f fs -> (canon k = own f <-> name_of f k).
  Proof.
    intros I. unfold canon. destruct (named fs k) as [g|] eqn:E.
    - apply named_some in E as [I' N']. split.
      + intros O. assert (g = f); [|subst; exact N']. apply (proj2 Df) with (own f); [assumption|assumption|left; symmetry; exact O|left; reflexivity].
      + intros N. f_equal. f_equal. apply (proj2 Df) with k; assumption.
    - split.
      + intros ->. left. reflexivity.
      + intros N. destruct (proj1 (named_none k) E f I N).
  Qed.

  Lemma visit_canon deny : forall n first input acc,
    visit_alias fs deny n first input acc = visit_struct (map a_field fs) deny n first (map canon_entry input) acc.
  Proof.
    induction n as [|n IH]; intros first input acc; [reflexivity|]. cbn [Alias.visit_alias Form.visit_struct].
    assert (K : next_key msg KString first (map canon_entry input) =
                (let (o, i) := next_key msg KString first input in
                 (match o with Done (Some k) => Done (Some (canon k)) | _ => o end, map canon_entry i))).
    { unfold next_key. replace (if first then map canon_entry input else tl (map canon_entry input))
        with (map canon_entry (if first then input else tl input)) by (destruct first, input; reflexivity).
      destruct (if first then input else tl input) as [|[k vs] i]; reflexivity. }
    assert (V : forall t i, next_value pf msg t (map canon_entry i) = next_value pf msg t i) by (intros t [|[k vs] i]; reflexivity).
    rewrite K. destruct (next_key msg KString first input) as [[[k|]|e|p] i]; try reflexivity.
    pose proof (canon_field k) as C. unfold field_of in C. rewrite C.
    destruct (named fs k) as [f|] eqn:E; cbn [option_map].
    - assert (Ck : canon k = own f) by (unfold canon; rewrite E; reflexivity). rewrite Ck, V.
      destruct (aget str_eqb (own f) acc); [reflexivity|]. destruct (next_value pf msg (f_type (a_field f)) i); [|reflexivity|reflexivity]. apply IH.
    - assert (Ck : canon k = k) by (unfold canon; rewrite E; reflexivity). rewrite Ck. destruct deny; [reflexivity|].
      unfold next_ignored. rewrite V. destruct (omap (fun _ => tt) (next_value pf msg TString i)); [|reflexivity|reflexivity]. apply IH.
  Qed.

  Lemma alias_canon deny es : from_cow_map_alias pf msg fs deny es = from_cow_map pf msg (TgStruct (map a_field fs) deny) (map canon_entry es).
  Proof. unfold from_cow_map_alias. cbn [from_cow_map]. rewrite visit_canon, map_length. reflexivity. Qed.

  (** No two names of one field are in the data. *)
  Definition once (ps : list (str * str)) : Prop :=
    forall k k', present ps k -> present ps k' -> canon k = canon k' -> k = k'.

  Lemma once_values ps k : once ps -> present ps k -> values_of (canon k) (map canon_pair ps) = values_of k ps.
  Proof.
    intros O P. unfold values_of.
    assert (G : forall l, incl l ps -> map snd (filter (fun p => str_eqb (canon k) (fst p) && negb (is_empty (snd p))) (map canon_pair l)) =
                     map snd (filter (fun p => str_eqb k (fst p) && negb (is_empty (snd p))) l)).
    { induction l as [|[a s] l IH]; intros I; [reflexivity|]. cbn [map filter canon_pair fst snd].
      assert (I' : incl l ps) by (intros x Ix; apply I; right; exact Ix). specialize (IH I').
      assert (E : str_eqb (canon k) (canon a) && negb (is_empty s) = str_eqb k a && negb (is_empty s)).
      { destruct s as [|b s]; [cbn; rewrite !andb_false_r; reflexivity|]. cbn [is_empty negb]. rewrite !andb_true_r.
        destruct (str_eqb_spec k a) as [->|N]; [apply str_eqb_refl|]. apply str_eqb_neq. intros C. apply N, O; [exact P| |exact C].
        apply values_some. exists (b :: s). split; [apply I; left; reflexivity|discriminate]. }
      rewrite E. destruct (str_eqb k a && negb (is_empty s)); cbn [map snd]; rewrite IH; reflexivity. }
    apply G, incl_refl.
  Qed.

  Lemma present_canon ps k : present (map canon_pair ps) k <-> exists k0, present ps k0 /\ k = canon k0.
  Proof.
    unfold present. rewrite values_some. split.
    - intros (s & I & N). apply in_map_iff in I as ([a b] & [= <- <-] & I). exists a. split; [|reflexivity]. apply values_some. eauto.
    - intros (k0 & P & ->). apply values_some in P as (s & I & N). exists s. split; [|exact N]. apply in_map_iff. exists (k0, s). auto.
  Qed.

  Lemma once_grouped ps es : grouped ps es -> once ps -> grouped (map canon_pair ps) (map canon_entry es).
  Proof.
    intros [Nd G] O. split.
    - rewrite map_map. cbn [canon_entry fst].
      assert (H : forall l, incl l es -> NoDup (map fst l) -> NoDup (map (fun e => canon (fst e)) l)).
      { induction l as [|[k vs] l IH]; intros I N; [constructor|]. cbn [map fst] in *. inversion N as [|? ? N1 N2]; subst. constructor.
        - intros J. apply in_map_iff in J as ([k' vs'] & E & J). cbn [fst] in E. apply N1.
          assert (k' = k); [|subst; apply in_map_iff; exists (k, vs'); auto]. apply O; [| |exact E].
          + destruct (proj1 (G k' vs') (I _ (or_intror J))) as [X Y]. intros Z. apply X. rewrite Y. exact Z.
          + destruct (proj1 (G k vs) (I _ (or_introl eq_refl))) as [X Y]. intros Z. apply X. rewrite Y. exact Z.
        - apply IH; [intros x Ix; apply I; right; exact Ix|exact N2]. }
      apply H; [apply incl_refl|exact Nd].
    - intros k vs. split.
      + intros I. apply in_map_iff in I as ([k0 vs0] & [= <- <-] & I). apply G in I as [N E]. split; [exact N|].
        rewrite once_values; [exact E|exact O|]. intros Z. apply N. rewrite E. exact Z.
      + intros [N E]. assert (P : present (map canon_pair ps) k) by (intros Z; apply N; rewrite E; exact Z).
        apply present_canon in P as (k0 & P & ->). rewrite once_values in E by assumption. subst vs.
        apply in_map_iff. exists (k0, values_of k0 ps). split; [reflexivity|]. apply G. auto.
  Qed.

  Lemma once_value ps f v : once ps -> In f fs -> field_value pf (map canon_pair ps) (a_field f) v <-> alias_value pf ps f v.
  Proof.
    intros O I. unfold field_value, alias_value. cbn zeta. split.
    - intros [[N G]|[E R]].
      + left. apply present_canon in N as N'. destruct N' as (n & P & C). symmetry in C. pose proof C as C'. apply canon_own in C'; [|exact I].
        exists n. split; [exact C'|]. split; [exact P|]. split.
        * intros n' N' P'. apply O; auto. rewrite C. apply canon_own; assumption.
        * rewrite <- C, once_values in G by assumption. exact G.
      + right. split; [|exact R]. intros n N P. assert (X : present (map canon_pair ps) (own f)); [|contradiction].
        apply present_canon. exists n. split; [exact P|]. symmetry. apply canon_own; assumption.
    - intros [(n & N & P & U & G)|[N R]].
      + left. assert (C : canon n = own f) by (apply canon_own; assumption). rewrite <- C. split.
        * apply present_canon. eauto.
        * rewrite once_values by assumption. exact G.
      + right. split; [|exact R]. destruct (values_of (own f) (map canon_pair ps)) eqn:E; [reflexivity|].
        assert (P : present (map canon_pair ps) (own f)) by (unfold present; rewrite E; discriminate).
        apply present_canon in P as (k0 & P & C). destruct (N k0); [|exact P]. apply canon_own; [exact I|symmetry; exact C].
  Qed.

  Lemma once_values_all ps l : once ps -> Forall2 (field_value pf (map canon_pair ps)) (map a_field fs) l <-> Forall2 (alias_value pf ps) fs l.
  Proof.
    intros O. assert (H : forall gs, incl gs fs -> forall l, Forall2 (field_value pf (map canon_pair ps)) (map a_field gs) l <-> Forall2 (alias_value pf ps) gs l).
    { induction gs as [|g gs IH]; intros I l'; cbn [map].
      - split; intros H; inversion H; constructor.
      - assert (I' : incl gs fs) by (intros x Ix; apply I; right; exact Ix). assert (Ig : In g fs) by (apply I; left; reflexivity).
        split; intros H; inversion H as [|? ? ? ? A B]; subst; constructor; try (apply IH; assumption); apply once_value; assumption. }
    apply H, incl_refl.
  Qed.

  Lemma known_canon ps deny : known (map canon_pair ps) (map a_field fs) deny <->
    (deny = true -> forall k, present ps k -> exists f, In f fs /\ name_of f k).
  Proof.
    unfold known. rewrite own_names. split; intros H E k P.
    - assert (X : In (canon k) (map (fun f => own f) fs)) by (apply H; [exact E|]; apply present_canon; eauto).
      apply in_map_iff in X as (f & X & I). exists f. split; [exact I|]. apply canon_own; [exact I|symmetry; exact X].
    - apply present_canon in P as (k0 & P & ->). destruct (H E k0 P) as (f & I & N). apply in_map_iff. exists f.
      split; [symmetry; apply canon_own; assumption|exact I].
  Qed.

  (** Under two names: an error. *)

  Lemma visit_done_once deny (gs : list (field F)) es : forall fuel first input acc r, at_entries first input es ->
    visit_struct gs deny fuel first input acc = Done r ->
    (forall k g, field_of gs k = Some g -> In k (map fst es) -> aget str_eqb k acc = None) /\
    (forall a k b, map fst es = a ++ k :: b -> field_of gs k <> None -> ~ In k b).
  Proof.
    induction es as [|[k vs] es IH]; intros fuel first input acc r A; (destruct fuel as [|n]; [discriminate|]);
      cbn [Form.visit_struct]; rewrite (next_key_spec _ _ _ _ _ A).
    { intros _. split; [intros ? ? _ []|]. intros [|? a] k b E; discriminate E. }
    cbn [de_key omap]. change (find (fun f : Form.field F => str_eqb k (f_name f)) gs) with (field_of gs k).
    assert (A' : at_entries false ((k, vs) :: es) es) by (exists (k, vs); reflexivity).
    destruct (field_of gs k) as [f|] eqn:E.
    - destruct (aget str_eqb k acc) eqn:G; [discriminate|]. cbn [next_value].
      destruct (fst (de pf msg (f_type f) vs)) as [v|e|p]; [|discriminate|discriminate].
      intros R. destruct (IH _ _ _ _ _ A' R) as [R1 R2].
      assert (Nk : ~ In k (map fst es)).
      { intros I. specialize (R1 k f E I). apply (aget_None str_eqb) in R1; [|apply str_eqb_eq]. apply R1. exists v. apply in_app_iff. right. left. reflexivity. }
      split.
      + intros k' g E' I. cbn [map fst] in I. destruct I as [<-|I]; [exact G|]. specialize (R1 k' g E' I).
        apply (aget_None str_eqb); [apply str_eqb_eq|]. apply (aget_None str_eqb) in R1; [|apply str_eqb_eq].
        intros [w J]. apply R1. exists w. apply in_app_iff. left. exact J.
      + intros [|x a] k' b Eq Fk; cbn in Eq; injection Eq as E1 E2.
        * subst. exact Nk.
        * eapply R2; eassumption.
    - destruct deny; [discriminate|]. destruct (next_ignored pf msg ((k, vs) :: es)); [|discriminate|discriminate].
      intros R. destruct (IH _ _ _ _ _ A' R) as [R1 R2]. split.
      + intros k' g E' I. cbn [map fst] in I. destruct I as [<-|I]; [congruence|]. exact (R1 k' g E' I).
      + intros [|x a0] k' b Eq Fk; cbn in Eq; injection Eq as E1 E2.
        * subst. contradiction.
        * eapply R2; eassumption.
  Qed.

  Lemma visit_twice deny (gs : list (field F)) k0 f0 es : field_of gs k0 = Some f0 ->
    forall fuel first input acc, at_entries first input es -> List.length es < fuel ->
    (forall k vs, In (k, vs) es -> vs <> [] /\ match field_of gs k with
                                               | Some g => exists v, fst (de pf msg (f_type g) vs) = Done v
                                               | None => deny = false
                                               end) ->
    (forall a k b, map fst es = a ++ k :: b -> field_of gs k <> None -> k <> k0 -> ~ In k b) ->
    (forall k v, In (k, v) acc -> k <> k0 -> ~ In k (map fst es)) ->
    (In k0 (map fst es) /\ (exists v, In (k0, v) acc)) \/ (exists a b, map fst es = a ++ k0 :: b /\ In k0 b) ->
    visit_struct gs deny fuel first input acc = Fail (FMessage (lit "duplicate field `" ++ k0 ++ lit "`")).
  Proof.
    intros F0. induction es as [|[k vs] es IH]; intros fuel first input acc A L Ok U Na T; (destruct fuel as [|n]; [cbn in L; lia|]);
      cbn [Form.visit_struct]; rewrite (next_key_spec _ _ _ _ _ A).
    { destruct T as [[[] _]|(a & b & E & _)]. destruct a; discriminate E. }
    cbn [de_key omap]. change (find (fun f : Form.field F => str_eqb k (f_name f)) gs) with (field_of gs k).
    assert (A' : at_entries false ((k, vs) :: es) es) by (exists (k, vs); reflexivity).
    assert (L' : List.length es < n) by (cbn in L; lia).
    assert (Ok' : forall k vs, In (k, vs) es -> vs <> [] /\ match field_of gs k with
                                               | Some g => exists v, fst (de pf msg (f_type g) vs) = Done v
                                               | None => deny = false
                                               end) by (intros k' vs' I; apply Ok; right; exact I).
    assert (U' : forall a k b, map fst es = a ++ k :: b -> field_of gs k <> None -> k <> k0 -> ~ In k b).
    { intros a k' b E. apply (U (k :: a)). cbn [map fst app]. rewrite E. reflexivity. }
    destruct (Ok k vs (or_introl eq_refl)) as [Ne K]. cbn [map fst] in T.
    destruct (str_eqb_spec k k0) as [->|N].
    - rewrite F0 in *. destruct (aget str_eqb k0 acc) as [v|] eqn:G; [reflexivity|]. cbn [next_value].
      destruct K as [v K]. rewrite K. apply IH; [exact A'|exact L'|exact Ok'|exact U'| |].
      + intros k' v' I N'. apply in_app_iff in I as [I|[[= <- <-]|[]]]; [|contradiction]. specialize (Na _ _ I N'). cbn [map] in Na.
        intros J. apply Na. right. exact J.
      + left. split; [|exists v; apply in_app_iff; right; left; reflexivity]. destruct T as [[_ [w I]]|(a & b & E & I)].
        * apply (aget_None str_eqb) in G; [|apply str_eqb_eq]. destruct G. eauto.
        * destruct a as [|x a]; cbn in E; [injection E as E2; rewrite E2; exact I|]. injection E as E1 E2. rewrite E2. apply in_app_iff. right. left. reflexivity.
    - assert (T' : forall acc', incl acc acc' -> (In k0 (map fst es) /\ (exists v, In (k0, v) acc')) \/ (exists a b, map fst es = a ++ k0 :: b /\ In k0 b)).
      { intros acc' Ic. destruct T as [[[E|I] [v J]]|(a & b & E & I)]; [contradiction|left; eauto|].
        destruct a as [|x a]; cbn in E; injection E as E1 E2; [contradiction|]. right. eauto. }
      destruct (field_of gs k) as [g|] eqn:E.
      + assert (G : aget str_eqb k acc = None).
        { apply (aget_None str_eqb); [apply str_eqb_eq|]. intros [v I]. apply (Na _ _ I N). left. reflexivity. }
        rewrite G. cbn [next_value]. destruct K as [v K]. rewrite K. apply IH; [exact A'|exact L'|exact Ok'|exact U'| |].
        * intros k' v' I N'. apply in_app_iff in I as [I|[[= <- <-]|[]]].
          -- specialize (Na _ _ I N'). intros J. apply Na. right. exact J.
          -- apply (U [] k (map fst es)); [reflexivity|congruence|exact N].
        * apply T'. intros x Ix. apply in_app_iff. left. exact Ix.
      + subst deny. unfold next_ignored. cbn [next_value Form.de fst]. destruct vs as [|s vs]; [congruence|]. cbn [omap].
        apply IH; [exact A'|exact L'|exact Ok'|exact U'| |apply T', incl_refl].
        intros k' v' I N' J. apply (Na _ _ I N'). right. exact J.
  Qed.

  Lemma once_by_fields ps :
    (forall f k k', In f fs -> name_of f k -> name_of f k' -> present ps k -> present ps k' -> k = k') -> once ps.
  Proof.
    intros H k k' P P' E. destruct (named fs k) as [f|] eqn:N.
    - apply named_some in N as N'. destruct N' as [I Nf]. apply (H f); auto. apply canon_own; [exact I|]. rewrite <- E.
      apply canon_own; assumption.
    - destruct (named fs k') as [f|] eqn:N'.
      + apply named_some in N' as X. destruct X as [I Nf]. apply (H f); auto. apply canon_own; [exact I|]. rewrite E.
        apply canon_own; assumption.
      + unfold canon in E. rewrite N, N' in E. exact E.
  Qed.

  Lemma canon_twice (l : list str) k k' : In k l -> In k' l -> k <> k' -> canon k = canon k' ->
    exists a b, map canon l = a ++ canon k :: b /\ In (canon k) b.
  Proof.
    intros I I' N E. apply in_split in I as (l1 & l2 & ->). apply in_app_iff in I' as [I'|[X|I']]; [|contradiction|].
    - apply in_split in I' as (m1 & m2 & ->). exists (map canon m1), (map canon (m2 ++ k :: l2)).
      rewrite <- app_assoc. cbn [app]. rewrite map_app. cbn [map]. rewrite E. split; [reflexivity|]. rewrite map_app. apply in_app_iff.
      right. left. exact E.
    - exists (map canon l1), (map canon l2). rewrite map_app. split; [reflexivity|]. rewrite E. apply in_map. exact I'.
  Qed.

  Lemma canon_keys es : map fst (map canon_entry es) = map canon (map fst es).
  Proof. rewrite !map_map. reflexivity. Qed.

  Lemma grouped_key ps es k : grouped ps es -> (In k (map fst es) <-> present ps k).
  Proof.
    intros [_ G]. split.
    - intros I. apply in_map_iff in I as ([k' vs] & <- & I). apply G in I as [N E]. cbn [fst]. intros Z. apply N. rewrite E. exact Z.
    - intros P. apply in_map_iff. exists (k, values_of k ps). split; [reflexivity|]. apply G. auto.
  Qed.

  Lemma alias_target ps es deny l : grouped ps es ->
    from_cow_map_alias pf msg fs deny es = Done (RStruct l) <->
    Forall2 (alias_value pf ps) fs l /\ (deny = true -> forall k, present ps k -> exists f, In f fs /\ name_of f k).
  Proof.
    intros G. rewrite alias_canon, <- known_canon.
    assert (K : once ps -> from_cow_map pf msg (TgStruct (map a_field fs) deny) (map canon_entry es) = Done (RStruct l) <->
              Forall2 (alias_value pf ps) fs l /\ known (map canon_pair ps) (map a_field fs) deny).
    { intros O. rewrite <- once_values_all by exact O.
      pose proof (struct_target pf msg _ _ _ deny (once_grouped _ _ G O) own_different) as S.
      destruct (from_cow_map pf msg (TgStruct (map a_field fs) deny) (map canon_entry es)) as [r|e|p]; [| |destruct S].
      - destruct S as (l0 & -> & Kn & U). split.
        + intros [= ->]. split; [apply U; reflexivity|exact Kn].
        + intros [V _]. apply U in V as ->. reflexivity.
      - split; [discriminate|]. intros [V Kn]. destruct (S Kn l V). }
    split.
    - intros D. apply K; [|exact D]. apply once_by_fields. intros f k k' I N N' P P'.
      destruct (str_eqb_spec k k') as [|Nk]; [assumption|exfalso]. cbn [from_cow_map] in D.
      destruct (visit_struct (map a_field fs) deny (S (List.length (map canon_entry es))) true (map canon_entry es) []) as [acc|e|p] eqn:V; [|discriminate|discriminate].
      destruct (visit_done_once deny (map a_field fs) (map canon_entry es) _ true (map canon_entry es) [] acc eq_refl V) as [_ R].
      assert (C : canon k = own f) by (apply canon_own; assumption). assert (C' : canon k' = own f) by (apply canon_own; assumption).
      destruct (canon_twice (map fst es) k k') as (a & b & E & J).
      + apply (grouped_key ps es); assumption.
      + apply (grouped_key ps es); assumption.
      + exact Nk.
      + congruence.
      + rewrite <- canon_keys in E. apply (R _ _ _ E); [|exact J]. rewrite C, (field_of_in _ (a_field f)); [discriminate|apply own_different|apply in_map; exact I].
    - intros [V Kn]. apply K; [|split; assumption]. apply once_by_fields. intros f k k' I N N' P P'.
      assert (exists v, alias_value pf ps f v) as [v A].
      { clear - V I. induction V as [|g w gs l W _ IH]; [contradiction|]. destruct I as [->|I]; eauto. }
      destruct A as [(n & _ & _ & U & _)|[X _]]; [|destruct (X k N P)]. rewrite (U k N P), (U k' N' P'). reflexivity.
  Qed.

  Lemma alias_calm ps es deny : grouped ps es ->
    match from_cow_map_alias pf msg fs deny es with Done (RStruct _) => True | Fail _ => True | _ => False end.
  Proof.
    intros G. rewrite alias_canon. pose proof (from_cow_map_calm pf msg (TgStruct (map a_field fs) deny) (map canon_entry es)) as C.
    assert (X : forall k vs, In (k, vs) (map canon_entry es) -> vs <> [] /\ full vs).
    { intros k vs I. apply in_map_iff in I as ([k0 vs0] & [= <- <-] & I). exact (grouped_full _ _ G _ _ I). }
    specialize (C (fun k vs I => proj1 (X k vs I)) (fun k vs f I _ => de_full_calm pf msg (f_type f) vs (proj1 (X k vs I)) (proj2 (X k vs I)))).
    cbn [from_cow_map] in *. destruct (visit_struct _ _ _ _ _ _) as [acc|e|p]; [|exact Logic.I|exact C].
    destruct (fill (map a_field fs) acc); [exact Logic.I|exact Logic.I|exact C].
  Qed.

  Lemma alias_twice ps es deny f : grouped ps es -> In f fs -> twice ps f ->
    (deny = true -> forall k, present ps k -> exists g, In g fs /\ name_of g k) ->
    (forall g n, In g fs -> name_of g n -> present ps n -> exists v, gives pf (f_type (a_field g)) (values_of n ps) v) ->
    (forall g, In g fs -> twice ps g -> g = f) ->
    from_cow_map_alias pf msg fs deny es = Fail (FMessage (lit "duplicate field `" ++ own f ++ lit "`")).
  Proof.
    intros G I (n & n' & N & N' & Nn & P & P') Kn R O. rewrite alias_canon. cbn [from_cow_map].
    assert (C : canon n = own f) by (apply canon_own; assumption). assert (C' : canon n' = own f) by (apply canon_own; assumption).
    rewrite (visit_twice deny (map a_field fs) (own f) (a_field f) (map canon_entry es)); [reflexivity| |reflexivity|lia| | |intros ? ? []|].
    - apply field_of_in; [apply own_different|apply in_map; exact I].
    - intros k vs J. apply in_map_iff in J as ([k0 vs0] & [= <- <-] & J). destruct (grouped_full _ _ G _ _ J) as [Ne Fl].
      split; [exact Ne|]. rewrite canon_field. assert (P0 : present ps k0) by (apply (grouped_key ps es); [exact G|]; apply in_map_iff; exists (k0, vs0); auto).
      destruct G as [_ G]. apply G in J as [_ ->].
      destruct (named fs k0) as [g|] eqn:E; cbn [option_map].
      + apply named_some in E as [Ig Ng]. destruct (R g k0 Ig Ng P0) as [v Gv]. exists v. pose proof (de_gives pf msg (f_type (a_field g)) _ Ne Fl) as D.
        destruct (fst (de pf msg (f_type (a_field g)) (values_of k0 ps))) as [w|e|p]; [|destruct (D v Gv)|destruct D].
        apply D in Gv as ->. reflexivity.
      + destruct deny; [|reflexivity]. destruct (Kn eq_refl k0 P0) as (g & Ig & Ng). destruct (proj1 (named_none k0) E g Ig Ng).
    - intros a k b E Fk Nk J. rewrite canon_keys in E.
      assert (Ex : exists k1 k2, In k1 (map fst es) /\ In k2 (map fst es) /\ k1 <> k2 /\ canon k1 = k /\ canon k2 = k).
      { destruct G as [Nd _]. clear - E J Nd. revert a E. induction (map fst es) as [|x l IH]; intros a E; [destruct a; discriminate E|].
        inversion Nd as [|? ? N1 N2]; subst. destruct a as [|y a]; cbn in E; injection E as E1 E2.
        - subst b. apply in_map_iff in J as (k2 & <- & J2). exists x, k2. split; [left; reflexivity|]. split; [right; exact J2|].
          split; [intros ->; contradiction|]. split; [exact E1|reflexivity].
        - destruct (IH N2 a E2) as (k1 & k2 & I1 & I2 & R). exists k1, k2. split; [right; exact I1|]. split; [right; exact I2|exact R]. }
      destruct Ex as (k1 & k2 & I1 & I2 & Nk12 & <- & E2). rewrite canon_field in Fk.
      destruct (named fs k1) as [g|] eqn:E1; [|apply Fk; reflexivity]. apply named_some in E1 as [Ig Ng].
      assert (Cg : canon k1 = own g) by (apply canon_own; assumption).
      assert (g = f); [|subst g; congruence]. apply O; [exact Ig|]. exists k1, k2. split; [exact Ng|].
      split; [apply canon_own; [exact Ig|congruence]|]. split; [exact Nk12|].
      split; apply (grouped_key ps es); assumption.
    - right. destruct (canon_twice (map fst es) n n') as (a & b & E & J).
      + apply (grouped_key ps es); assumption.
      + apply (grouped_key ps es); assumption.
      + exact Nn.
      + congruence.
      + exists a, b. rewrite canon_keys, <- C. auto.
  Qed.

  Lemma alias_own ps es deny : grouped ps es -> (forall f n, In f fs -> In n (a_aliases f) -> ~ present ps n) ->
    from_cow_map_alias pf msg fs deny es = from_cow_map pf msg (TgStruct (map a_field fs) deny) es.
  Proof.
    intros G H. rewrite alias_canon. f_equal. rewrite <- (map_id es) at 2. apply map_ext_in. intros [k vs] I.
    unfold canon_entry. cbn [fst snd]. f_equal. unfold canon. destruct (named fs k) as [f|] eqn:E; [|reflexivity].
    apply named_some in E as [If [->|J]]; [reflexivity|]. destruct (H f k If J). apply (grouped_key ps es); [exact G|].
    apply in_map_iff. exists (k, vs). auto.
  Qed.

  (** What a handler gets. *)

  Context (it1 it2 : list entry -> list entry) (I1 : iteration it1) (I2 : iteration it2).
  Context (X : Type) (src : source) (c : context X) (q : bytes) (D : has_data src c q).
  Notation read deny := (alias_from pf msg it1 it2 src fs deny c).

  Lemma alias_data deny : read deny = queries_result (from_cow_map_alias pf msg fs deny (handed it1 it2 q)).
  Proof.
    destruct src; cbn [has_data alias_from] in *.
    - subst q. reflexivity.
    - destruct D as (B & O & ->). unfold ctx_form_alias. rewrite one_chunk_read by assumption. reflexivity.
  Qed.

  Lemma handed_pairs ps : form_pairs q ps -> grouped ps (handed it1 it2 q).
  Proof. intros P. apply parse_spec in P as <-. apply handed_grouped; assumption. Qed.

  Lemma alias_struct_api deny l ps : form_pairs q ps ->
    read deny = inl (inl (RStruct l)) <->
    Forall2 (alias_value pf ps) fs l /\ (deny = true -> forall k, present ps k -> exists f, In f fs /\ name_of f k).
  Proof. intros P. rewrite alias_data, result_done. apply alias_target, handed_pairs, P. Qed.

  Lemma alias_or_error_api deny : (exists l, read deny = inl (inl (RStruct l))) \/ (exists e, read deny = inr (EForm e)).
  Proof.
    rewrite alias_data. pose proof (alias_calm (parse q) (handed it1 it2 q) deny (handed_grouped it1 it2 q I1 I2)) as C.
    destruct (from_cow_map_alias pf msg fs deny (handed it1 it2 q)) as [[l| | | ]|e|p]; try contradiction; [left|right]; eexists; reflexivity.
  Qed.

  Lemma alias_twice_api deny f ps : form_pairs q ps -> In f fs -> twice ps f ->
    (deny = true -> forall k, present ps k -> exists g, In g fs /\ name_of g k) ->
    (forall g n, In g fs -> name_of g n -> present ps n -> exists v, gives pf (f_type (a_field g)) (values_of n ps) v) ->
    (forall g, In g fs -> twice ps g -> g = f) ->
    read deny = inr (EForm (FMessage (lit "duplicate field `" ++ own f ++ lit "`"))).
  Proof. intros P. intros. rewrite alias_data. apply result_fail. eapply alias_twice; eauto. apply handed_pairs, P. Qed.

  Lemma alias_twice_error_api deny f ps : form_pairs q ps -> In f fs -> twice ps f -> exists e, read deny = inr (EForm e).
  Proof.
    intros P I (n & n' & N & N' & Nn & Pn & Pn'). destruct (alias_or_error_api deny) as [[l E]|E]; [|exact E]. exfalso.
    apply (alias_struct_api deny l ps P) in E as [V _].
    assert (exists v, alias_value pf ps f v) as [v A].
    { clear - V I. induction V as [|g w gs l W _ IH]; [contradiction|]. destruct I as [->|I]; eauto. }
    destruct A as [(m & _ & _ & U & _)|[Z _]]; [|exact (Z n N Pn)]. apply Nn. rewrite (U n N Pn), (U n' N' Pn'). reflexivity.
  Qed.

  Lemma alias_own_api deny ps : form_pairs q ps -> (forall f n, In f fs -> In n (a_aliases f) -> ~ present ps n) ->
    read deny = read_from pf msg it1 it2 src (TgStruct (map a_field fs) deny) c.
  Proof. intros P H. rewrite alias_data, (read_data pf msg _ _ src c q _ D), (alias_own ps); [reflexivity|apply handed_pairs, P|exact H]. Qed.
End Alias.
