(** Structs, maps and the other targets; [query_params] and [form]. *)

From Coq Require Import String ZArith.
From Verif Require Import Base BaseFacts Utf8 RouteTrie UrlEncoded Http Form AppSpec FormSpec FormLemmas.
Local Open Scope list_scope.

Section Targets.
  Context {F : Type} (parse_float : bool -> str -> F + str) (serde_msg : mismatch -> str).
  Notation value := (value F).
  Notation field := (field F).
  Notation de := (de parse_float serde_msg).
  Notation gives := (gives parse_float).
  Notation visit_struct := (visit_struct parse_float serde_msg).
  Notation visit_entries := (visit_entries parse_float serde_msg).
  Notation visit_flat := (visit_flat parse_float serde_msg).
  Notation visit_collected := (visit_collected (F:=F) serde_msg).
  Notation collected_entries := (collected_entries (F:=F) serde_msg).
  Notation de_content := (de_content (F:=F) serde_msg).
  Notation de_flat := (de_flat (F:=F) serde_msg).
  Notation from_cow_map := (from_cow_map parse_float serde_msg).
  Notation parse_queries := (parse_queries parse_float serde_msg).
  Notation field_value := (field_value parse_float).
  Notation map_of := (map_of parse_float).

  Definition field_of (fs : list field) (k : str) : option field := find (fun f => str_eqb k (f_name f)) fs.

  Definition at_entries (first : bool) (input es : list entry) : Prop :=
    if first then input = es else exists x, input = x :: es.

  Lemma next_key_spec k first input es : at_entries first input es ->
    next_key serde_msg k first input = match es with
                             | [] => (Done None, [])
                             | _ :: _ => (omap Some (de_key serde_msg k es), es)
                             end.
  Proof. intros A. unfold next_key. destruct first; [cbn in A; subst|destruct A as [x ->]; cbn]; destruct es; reflexivity. Qed.

  (** ** Panics *)

  Definition no_panic {A} (o : out A) : Prop := match o with Panics _ => False | _ => True end.

  Lemma visit_struct_calm fs deny es : forall fuel first input acc, at_entries first input es -> length es < fuel ->
    (forall k vs, In (k, vs) es -> vs <> [] /\ forall f, In f fs -> no_panic (fst (de (f_type f) vs))) ->
    no_panic (visit_struct fs deny fuel first input acc).
  Proof.
    induction es as [|[k vs] es IH]; intros fuel first input acc A L H; (destruct fuel as [|n]; [cbn in L; lia|]);
      cbn [Form.visit_struct]; rewrite (next_key_spec _ _ _ _ A); [exact Logic.I|].
    cbn [de_key omap]. destruct (H k vs (or_introl eq_refl)) as [Ne Hf].
    assert (IH' : forall acc', no_panic (visit_struct fs deny n false ((k, vs) :: es) acc')).
    { intros acc'. apply IH; [exists (k, vs); reflexivity|cbn in L; lia|]. intros k' vs' I. apply (H k' vs'). right. exact I. }
    destruct (find _ fs) as [f|] eqn:E.
    - apply find_some in E as [I _]. destruct (aget str_eqb k acc); [exact Logic.I|]. cbn [next_value].
      specialize (Hf f I). destruct (fst (de (f_type f) vs)); [apply IH'|exact Logic.I|exact Hf].
    - destruct deny; [exact Logic.I|]. unfold next_ignored. cbn [next_value Form.de fst]. destruct vs as [|s vs]; [congruence|]. cbn [omap]. apply IH'.
  Qed.

  Lemma visit_entries_calm k t es : forall fuel first input acc, at_entries first input es -> length es < fuel ->
    (forall k vs, In (k, vs) es -> no_panic (fst (de t vs))) ->
    no_panic (visit_entries k t fuel first input acc).
  Proof.
    induction es as [|[key vs] es IH]; intros fuel first input acc A L H; (destruct fuel as [|n]; [cbn in L; lia|]);
      cbn [Form.visit_entries]; rewrite (next_key_spec _ _ _ _ A); [exact Logic.I|].
    destruct k; cbn [de_key omap]; try exact Logic.I.
    specialize (H key vs (or_introl eq_refl)) as Hv. cbn [next_value].
    destruct (fst (de t vs)); [|exact Logic.I|exact Hv].
    apply IH; [exists (key, vs); reflexivity|cbn in L; lia|]. intros k' vs' I. apply (H k' vs'). right. exact I.
  Qed.

  Lemma fill_calm fs acc : no_panic (fill (F:=F) fs acc).
  Proof.
    induction fs as [|f fs IH]; cbn; [exact Logic.I|]. unfold missing.
    destruct (aget str_eqb (f_name f) acc); [destruct (fill fs acc); exact IH|].
    destruct (f_default f); [destruct (fill fs acc); exact IH|].
    destruct (f_type f); try exact Logic.I. destruct (fill fs acc); exact IH.
  Qed.

  (** The entries collected for a flattened field. *)
  Definition others (fs : list field) (es : list entry) : list (str * str) :=
    flat_map (fun e => match field_of fs (fst e) with Some _ => [] | None => [(fst e, hd [] (snd e))] end) es.

  Lemma visit_flat_struct fs es : forall fuel first input acc rest, at_entries first input es ->
    visit_flat fs fuel first input acc rest =
    omap (fun a => (a, rest ++ others fs es)) (visit_struct fs false fuel first input acc).
  Proof.
    induction es as [|[k vs] es IH]; intros fuel first input acc rest A; (destruct fuel as [|n]; [reflexivity|]);
      cbn [Form.visit_flat Form.visit_struct]; rewrite (next_key_spec _ _ _ _ A).
    { cbn. rewrite app_nil_r. reflexivity. }
    cbn [de_key omap]. assert (A' : at_entries false ((k, vs) :: es) es) by (exists (k, vs); reflexivity).
    cbn [others flat_map fst snd]. change (flat_map _ es) with (others fs es).
    change (find (fun f : Form.field F => str_eqb k (f_name f)) fs) with (field_of fs k).
    destruct (field_of fs k) as [f|].
    - destruct (aget str_eqb k acc); [reflexivity|]. cbn [next_value].
      destruct (fst (de (f_type f) vs)); [|reflexivity|reflexivity]. cbn [app]. apply IH. exact A'.
    - unfold next_ignored. cbn [next_value Form.de fst]. destruct vs as [|s vs]; [reflexivity|]. cbn [omap hd].
      rewrite (IH n false _ acc (rest ++ [(k, s)]) A'). rewrite <- app_assoc. reflexivity.
  Qed.

  Lemma content_calm t s : no_panic (de_content t s).
  Proof.
    induction t; cbn; try exact Logic.I.
    - destruct s as [|c [|c' s]]; exact Logic.I.
    - destruct (de_content t s); exact IHt.
    - destruct (de_content t s); exact IHt.
    - destruct (existsb _ names); exact Logic.I.
  Qed.

  Lemma flat_calm inner rest : no_panic (de_flat inner rest).
  Proof.
    destruct inner as [gs|t]; cbn [Form.de_flat].
    - assert (K : forall acc, no_panic (visit_collected gs rest acc)).
      { induction rest as [|[k s] rest IH]; intros acc; cbn [Form.visit_collected]; [exact Logic.I|].
        destruct (find _ gs) as [g|]; [|apply IH]. destruct (aget str_eqb k acc); [exact Logic.I|].
        pose proof (content_calm (f_type g) s) as C. destruct (de_content (f_type g) s); [apply IH|exact Logic.I|exact C]. }
      specialize (K []). destruct (visit_collected gs rest []); [|exact Logic.I|exact K].
      pose proof (fill_calm gs a) as C. destruct (fill gs a); exact C.
    - assert (K : forall acc, no_panic (collected_entries t rest acc)).
      { induction rest as [|[k s] rest IH]; intros acc; cbn [Form.collected_entries]; [exact Logic.I|].
        pose proof (content_calm t s) as C. destruct (de_content t s); [apply IH|exact Logic.I|exact C]. }
      specialize (K []). destruct (collected_entries t rest []); exact K.
  Qed.

  (** However much stack there is, it is not enough. *)
  Lemma de_any_endless fuel es : es <> [] -> de_any (F:=F) parse_float serde_msg fuel true es = None.
  Proof.
    intros Ne. induction fuel as [|n IH]; [reflexivity|]. cbn [Form.de_any].
    destruct es as [|e es]; [congruence|]. rewrite IH. reflexivity.
  Qed.

  Lemma any_target on_empty es : from_cow_map (TgAny on_empty) es =
    match es with
    | [] => match on_empty with inl v => Done v | inr e => Fail e end
    | _ :: _ => Panics PStack
    end.
  Proof.
    cbn [Form.from_cow_map]. destruct es as [|e es]; [reflexivity|]. rewrite de_any_endless; [reflexivity|discriminate].
  Qed.

  Lemma from_cow_map_calm tg es :
    (forall k vs, In (k, vs) es -> vs <> []) ->
    match tg with
    | TgAny _ => es = []
    | TgStruct fs _ | TgFlat fs _ => forall k vs f, In (k, vs) es -> In f fs -> no_panic (fst (de (f_type f) vs))
    | TgMap _ t => forall k vs, In (k, vs) es -> no_panic (fst (de t vs))
    | _ => True
    end -> no_panic (from_cow_map tg es).
  Proof.
    intros Ne H. destruct tg as [fs deny|fs inner|k t|e| | |]; [| | |rewrite any_target, H; destruct e; exact Logic.I|..]; cbn [Form.from_cow_map].
    - assert (K : no_panic (visit_struct fs deny (S (length es)) true es [])).
      { apply (visit_struct_calm fs deny es); [reflexivity|apply Nat.lt_succ_diag_r|]. intros k vs I. split; [eapply Ne; eauto|]. intros f If. eapply H; eauto. }
      destruct (visit_struct _ _ _ _ _ _); [|exact Logic.I|exact K].
      pose proof (fill_calm fs a) as K2. destruct (fill fs a); exact K2.
    - assert (K : no_panic (visit_struct fs false (S (length es)) true es [])).
      { apply (visit_struct_calm fs false es); [reflexivity|apply Nat.lt_succ_diag_r|]. intros k vs I. split; [eapply Ne; eauto|]. intros f If. eapply H; eauto. }
      rewrite (visit_flat_struct fs es) by reflexivity.
      destruct (visit_struct _ _ _ _ _ _); cbn [omap]; [|exact Logic.I|exact K].
      pose proof (fill_calm fs a) as K2. destruct (fill fs a); [|exact Logic.I|exact K2].
      pose proof (flat_calm inner ([] ++ others fs es)) as K3. destruct (de_flat _ _); exact K3.
    - assert (K : no_panic (visit_entries k t (S (length es)) true es [])).
      { apply (visit_entries_calm k t es); [reflexivity|apply Nat.lt_succ_diag_r|exact H]. }
      destruct (visit_entries _ _ _ _ _ _); exact K.
    - destruct es as [|[k vs] es]; exact Logic.I.
    - destruct es as [|[k vs] es]; exact Logic.I.
    - destruct es as [|[k vs] es]; exact Logic.I.
  Qed.

  Lemma de_full_calm t l : l <> [] -> full l -> no_panic (fst (de t l)).
  Proof.
    intros Ne Fl. pose proof (de_gives parse_float serde_msg t l Ne Fl) as K.
    destruct (fst (de t l)); [exact Logic.I|exact Logic.I|exact K].
  Qed.

  (** C44, first variant: no empty list and no empty text. *)
  Lemma from_cow_map_full tg es : (forall e, tg <> TgAny e) -> (forall k vs, In (k, vs) es -> vs <> [] /\ full vs) ->
    no_panic (from_cow_map tg es).
  Proof.
    intros Na H. apply from_cow_map_calm; [intros k vs I; apply (H k vs I)|].
    destruct tg as [fs deny|fs inner|k t|e| | |]; auto; [| | |destruct (Na e); reflexivity].
    - intros k vs f I If. destruct (H k vs I). apply de_full_calm; assumption.
    - intros k vs f I If. destruct (H k vs I). apply de_full_calm; assumption.
    - intros k' vs I. destruct (H k' vs I). apply de_full_calm; assumption.
  Qed.

  (** C44, second variant: no empty list, options only outside of sequences. *)
  Lemma from_cow_map_outside tg es : (forall e, tg <> TgAny e) -> (forall k vs, In (k, vs) es -> vs <> []) -> target_options_outside tg ->
    no_panic (from_cow_map tg es).
  Proof.
    intros Na H O. apply from_cow_map_calm; [exact H|].
    destruct tg as [fs deny|fs inner|k t|e| | |]; cbn in O; auto; [| | |destruct (Na e); reflexivity].
    - intros k vs f I If. pose proof (de_outside parse_float serde_msg (f_type f) vs (O f If) (H k vs I)) as K.
      destruct (de (f_type f) vs) as [[v|e|p] i]; exact K.
    - intros k vs f I If. pose proof (de_outside parse_float serde_msg (f_type f) vs (O f If) (H k vs I)) as K.
      destruct (de (f_type f) vs) as [[v|e|p] i]; exact K.
    - intros k' vs I. pose proof (de_outside parse_float serde_msg t vs O (H k' vs I)) as K.
      destruct (de t vs) as [[v|e|p] i]; exact K.
  Qed.

  (** ** Structs *)

  Definition bad_entry (fs : list field) (deny : bool) (e : entry) : Prop :=
    match field_of fs (fst e) with
    | Some f => forall v, ~ gives (f_type f) (snd e) v
    | None => deny = true
    end.

  Lemma visit_struct_spec fs deny es : forall fuel first input acc, at_entries first input es -> length es < fuel ->
    NoDup (map fst es) -> (forall k v, In (k, v) acc -> ~ In k (map fst es)) ->
    (forall k vs, In (k, vs) es -> vs <> [] /\ full vs) ->
    match visit_struct fs deny fuel first input acc with
    | Done acc' => exists added, acc' = acc ++ added /\
        (forall k v, In (k, v) added -> exists vs f, In (k, vs) es /\ field_of fs k = Some f /\ gives (f_type f) vs v) /\
        (forall k vs, In (k, vs) es ->
           match field_of fs k with
           | Some f => exists v, In (k, v) added /\ gives (f_type f) vs v
           | None => deny = false
           end)
    | Fail _ => exists e, In e es /\ bad_entry fs deny e
    | Panics _ => False
    end.
  Proof.
    induction es as [|[k vs] es IH]; intros fuel first input acc A L Nd Na Hv; (destruct fuel as [|n]; [cbn in L; lia|]);
      cbn [Form.visit_struct]; rewrite (next_key_spec _ _ _ _ A).
    { exists []. rewrite app_nil_r. split; [reflexivity|]. split; intros ? ? []. }
    cbn [de_key omap]. change (find (fun f : Form.field F => str_eqb k (f_name f)) fs) with (field_of fs k).
    destruct (Hv k vs (or_introl eq_refl)) as [Ne Fl].
    inversion Nd as [|? ? Nk Nd']; subst.
    assert (Hv' : forall k vs, In (k, vs) es -> vs <> [] /\ full vs) by (intros k' vs' I; apply (Hv k' vs'); right; exact I).
    assert (A' : at_entries false ((k, vs) :: es) es) by (exists (k, vs); reflexivity).
    assert (L' : length es < n) by (cbn in L; lia).
    destruct (field_of fs k) as [f|] eqn:E.
    - assert (G0 : aget str_eqb k acc = None).
      { apply aget_None; [apply str_eqb_eq|]. intros [v I]. apply (Na _ _ I). left. reflexivity. }
      rewrite G0. cbn [next_value]. pose proof (de_gives parse_float serde_msg (f_type f) vs Ne Fl) as D.
      destruct (fst (de (f_type f) vs)) as [v|e|p]; [|exists (k, vs); split; [left; reflexivity|]; unfold bad_entry; cbn; rewrite E; exact D|exact D].
      assert (Na' : forall k' v', In (k', v') (acc ++ [(k, v)]) -> ~ In k' (map fst es)).
      { intros k' v' I. apply in_app_iff in I as [I|[[= <- <-]|[]]]; [|exact Nk].
        specialize (Na _ _ I). intros I2. apply Na. right. exact I2. }
      specialize (IH n false ((k, vs) :: es) (acc ++ [(k, v)]) A' L' Nd' Na' Hv').
      destruct (visit_struct fs deny n false ((k, vs) :: es) (acc ++ [(k, v)])) as [acc'|e|p]; [| |exact IH].
      + destruct IH as (added & -> & K1 & K2). exists ((k, v) :: added). rewrite <- app_assoc. split; [reflexivity|]. split.
        * intros k' v' [[= <- <-]|I].
          -- exists vs, f. split; [left; reflexivity|]. split; [exact E|]. apply D. reflexivity.
          -- destruct (K1 _ _ I) as (vs' & f' & I' & R). exists vs', f'. split; [right; exact I'|exact R].
        * intros k' vs' [[= <- <-]|I].
          -- rewrite E. exists v. split; [left; reflexivity|]. apply D. reflexivity.
          -- specialize (K2 _ _ I). destruct (field_of fs k'); [|exact K2].
             destruct K2 as (v' & I' & G). exists v'. split; [right; exact I'|exact G].
      + destruct IH as (e' & I & B). exists e'. split; [right; exact I|exact B].
    - destruct deny; [exists (k, vs); split; [left; reflexivity|]; unfold bad_entry; cbn; rewrite E; reflexivity|].
      unfold next_ignored. cbn [next_value Form.de fst]. destruct vs as [|s vs]; [congruence|]. cbn [omap].
      assert (Na' : forall k' v', In (k', v') acc -> ~ In k' (map fst es)).
      { intros k' v' I I2. apply (Na _ _ I). right. exact I2. }
      specialize (IH n false _ acc A' L' Nd' Na' Hv').
      destruct (visit_struct fs false n false ((k, s :: vs) :: es) acc) as [acc'|e|p]; [| |exact IH].
      + destruct IH as (added & -> & K1 & K2). exists added. split; [reflexivity|]. split.
        * intros k' v' I. destruct (K1 _ _ I) as (vs' & f' & I' & R). exists vs', f'. split; [right; exact I'|exact R].
        * intros k' vs' [[= <- <-]|I]; [rewrite E; reflexivity|]. apply (K2 _ _ I).
      + destruct IH as (e' & I & B). exists e'. split; [right; exact I|exact B].
  Qed.

  Lemma field_of_in fs f : NoDup (map f_name fs) -> In f fs -> field_of fs (f_name f) = Some f.
  Proof.
    unfold field_of. induction fs as [|g fs IH]; cbn; [contradiction|]. intros Nd [->|I].
    - rewrite str_eqb_refl. reflexivity.
    - inversion Nd; subst. destruct (str_eqb_spec (f_name f) (f_name g)) as [E|]; [|auto].
      exfalso. match goal with H : ~ In _ _ |- _ => apply H end. rewrite <- E. apply in_map. exact I.
  Qed.

  Lemma field_of_some fs k f : field_of fs k = Some f -> In f fs /\ f_name f = k.
  Proof. intros E. apply find_some in E as [I E]. apply str_eqb_eq in E. auto. Qed.
  Lemma field_of_none fs k : field_of fs k = None <-> ~ In k (map f_name fs).
  Proof.
    split.
    - intros E I. apply in_map_iff in I as (f & <- & I). apply (find_none _ _ E) in I. rewrite str_eqb_refl in I. discriminate I.
    - intros N. destruct (field_of fs k) as [f|] eqn:E; [|reflexivity]. apply field_of_some in E as [I <-].
      exfalso. apply N. apply in_map. exact I.
  Qed.

  (** The value of a field after the entries were read. *)
  Lemma fill_spec (P : field -> value -> Prop) fs acc :
    (forall f, In f fs -> match aget str_eqb (f_name f) acc with
                          | Some v => forall v', P f v' <-> v' = v
                          | None => match missing f with
                                    | Done v => forall v', P f v' <-> v' = v
                                    | Fail _ => forall v, ~ P f v
                                    | Panics _ => False
                                    end
                          end) ->
    match fill fs acc with
    | Done l => forall l', Forall2 P fs l' <-> l' = l
    | Fail _ => forall l, ~ Forall2 P fs l
    | Panics _ => False
    end.
  Proof.
    induction fs as [|f fs IH]; intros H; cbn [fill].
    { intros l'. split; [intros F2; inversion F2; reflexivity|intros ->; constructor]. }
    assert (IH' := IH (fun g I => H g (or_intror I))). specialize (H f (or_introl eq_refl)). clear IH.
    assert (K : match (match aget str_eqb (f_name f) acc with Some v => Done v | None => missing f end) with
                | Done v => forall v', P f v' <-> v' = v
                | Fail _ => forall v, ~ P f v
                | Panics _ => False
                end) by (destruct (aget str_eqb (f_name f) acc); exact H).
    destruct (match aget str_eqb (f_name f) acc with Some v => Done v | None => missing f end) as [v|e|p]; [| |exact K].
    - destruct (fill fs acc) as [l|e|p]; cbn; [| |exact IH'].
      + intros l'. split.
        * intros F2. inversion F2; subst. f_equal; [apply K|apply IH']; assumption.
        * intros ->. constructor; [apply K; reflexivity|apply IH'; reflexivity].
      + intros l F2. inversion F2; subst. eapply IH'; eauto.
    - intros l F2. inversion F2; subst. eapply K; eauto.
  Qed.

  Lemma fill_missing (fs : list field) acc pre (f : field) post :
    fs = pre ++ f :: post ->
    (forall g, In g pre -> aget str_eqb (f_name g) acc <> None \/ exists v, missing g = Done v) ->
    aget str_eqb (f_name f) acc = None -> required f ->
    fill fs acc = Fail (FMessage (lit "missing field `" ++ f_name f ++ lit "`")).
  Proof.
    intros -> Hp Hf [Rd Rt]. induction pre as [|g pre IH]; cbn [app fill].
    - rewrite Hf. unfold missing. rewrite Rd. destruct (f_type f) eqn:E; try reflexivity. exfalso. eapply Rt; reflexivity.
    - assert (exists v, match aget str_eqb (f_name g) acc with Some v => Done v | None => missing g end = Done v) as [v ->].
      { destruct (Hp g (or_introl eq_refl)) as [N|[v E]]; destruct (aget str_eqb (f_name g) acc); eauto. congruence. }
      rewrite IH; [reflexivity|]. intros x I. apply Hp. right. exact I.
  Qed.

  Lemma grouped_full ps es : grouped ps es -> forall k vs, In (k, vs) es -> vs <> [] /\ full vs.
  Proof.
    intros (_ & G) k vs I. apply G in I as [Ne ->]. split; [exact Ne|]. apply Forall_forall.
    intros s Is. eapply values_nonempty; eauto.
  Qed.

  Definition known (ps : list (str * str)) (fs : list field) (deny : bool) : Prop :=
    deny = true -> forall k, values_of k ps <> [] -> In k (map f_name fs).

  Lemma nodup_app_sep {A} (a b : list A) : NoDup (a ++ b) -> forall x, In x a -> ~ In x b.
  Proof.
    induction a as [|y a IH]; cbn; intros Nd x I Ib; [exact I|]. inversion Nd; subst. destruct I as [->|I].
    - match goal with H : ~ In _ (_ ++ _) |- _ => apply H end. apply in_app_iff. auto.
    - eapply IH; eauto.
  Qed.

  Lemma nodup_app_r {A} (a b : list A) : NoDup (a ++ b) -> NoDup b.
  Proof. induction a as [|x a IH]; cbn; intros Nd; [exact Nd|]. inversion Nd; auto. Qed.
  Lemma nodup_app_l {A} (a b : list A) : NoDup (a ++ b) -> NoDup a.
  Proof.
    induction a as [|x a IH]; cbn; intros Nd; [constructor|]. inversion Nd; subst. constructor; [|auto].
    intros I. match goal with H : ~ In _ _ |- _ => apply H end. apply in_app_iff. auto.
  Qed.

  (** The fields read are those of the pairs. *)
  Lemma struct_read ps es fs deny added : grouped ps es -> NoDup (map f_name fs) ->
    (forall k v, In (k, v) added -> exists vs f, In (k, vs) es /\ field_of fs k = Some f /\ gives (f_type f) vs v) ->
    (forall k vs, In (k, vs) es ->
       match field_of fs k with
       | Some f => exists v, In (k, v) added /\ gives (f_type f) vs v
       | None => deny = false
       end) ->
    known ps fs deny /\
    (forall f, In f fs ->
       match aget str_eqb (f_name f) added with
       | Some v => values_of (f_name f) ps <> [] /\ forall v', gives (f_type f) (values_of (f_name f) ps) v' <-> v' = v
       | None => values_of (f_name f) ps = []
       end).
  Proof.
    intros G Nf K1 K2. pose proof G as (Nd & G'). split.
    - intros -> k Nv. assert (I : In (k, values_of k ps) es) by (apply G'; auto). specialize (K2 _ _ I).
      destruct (field_of fs k) as [f|] eqn:E; [|discriminate K2]. apply field_of_some in E as [If <-]. apply in_map. exact If.
    - intros f If. destruct (aget str_eqb (f_name f) added) as [v|] eqn:E.
      + apply aget_Some_In in E; [|apply str_eqb_eq]. destruct (K1 _ _ E) as (vs & f' & I & Ef & Gv).
        rewrite (field_of_in _ _ Nf If) in Ef. injection Ef as <-. destruct (grouped_full _ _ G _ _ I) as [Ne Fl].
        apply G' in I as [_ ->]. split; [exact Ne|]. intros v'.
        pose proof (de_gives parse_float serde_msg (f_type f) _ Ne Fl) as D.
        destruct (fst (de (f_type f) (values_of (f_name f) ps))) as [w|e|p]; [|exfalso; eapply D; eauto|contradiction].
        apply D in Gv as ->. apply D.
      + destruct (values_of (f_name f) ps) as [|w ws] eqn:V; [reflexivity|].
        assert (I : In (f_name f, values_of (f_name f) ps) es) by (apply G'; rewrite V; split; [discriminate|reflexivity]).
        specialize (K2 _ _ I). rewrite (field_of_in _ _ Nf If) in K2. destruct K2 as (v & Ia & _).
        exfalso. assert (E2 : aget str_eqb (f_name f) added <> None).
        { intros En. apply aget_None in En; [|apply str_eqb_eq]. apply En. exists v. exact Ia. }
        contradiction.
  Qed.

  Lemma struct_target ps es fs deny : grouped ps es -> NoDup (map f_name fs) ->
    match from_cow_map (TgStruct fs deny) es with
    | Done r => exists l, r = RStruct l /\ known ps fs deny /\ forall l', Forall2 (field_value ps) fs l' <-> l' = l
    | Fail _ => known ps fs deny -> forall l, ~ Forall2 (field_value ps) fs l
    | Panics _ => False
    end.
  Proof.
    intros G Nf. cbn [Form.from_cow_map]. pose proof G as (Nd & G').
    pose proof (visit_struct_spec fs deny es (S (length es)) true es [] eq_refl (Nat.lt_succ_diag_r _) Nd
                  ltac:(intros ? ? []) (grouped_full _ _ G)) as K.
    destruct (visit_struct fs deny (S (length es)) true es []) as [acc|e|p]; [| |exact K].
    - destruct K as (added & -> & K1 & K2). cbn [app].
      destruct (struct_read ps es fs deny added G Nf K1 K2) as [Kn R].
      pose proof (fill_spec (field_value ps) fs added) as Fs.
      assert (H : forall f, In f fs -> match aget str_eqb (f_name f) added with
                          | Some v => forall v', field_value ps f v' <-> v' = v
                          | None => match missing f with
                                    | Done v => forall v', field_value ps f v' <-> v' = v
                                    | Fail _ => forall v, ~ field_value ps f v
                                    | Panics _ => False
                                    end
                          end).
      { intros f If. specialize (R f If). unfold FormSpec.field_value. destruct (aget str_eqb (f_name f) added) as [v|].
        - destruct R as [Ne R]. intros v'. rewrite <- R. split; [intros [[_ X]|[X _]]; [exact X|contradiction]|auto].
        - rewrite R. unfold missing. destruct (f_default f) as [d|] eqn:Ed.
          + intros v'. split; [intros [[X _]|[_ [[= <-]|[X _]]]]; [congruence|reflexivity|discriminate X]|].
            intros ->. right. auto.
          + destruct (f_type f) eqn:Et;
              try (intros ? [[X _]|[_ [X|[_ [[? X] _]]]]]; [congruence|discriminate X|discriminate X]).
            intros v'. split; [intros [[X _]|[_ [X|[_ [_ X]]]]]; [congruence|discriminate X|exact X]|].
            intros ->. right. split; [reflexivity|]. right. split; [reflexivity|]. split; [eexists; reflexivity|reflexivity]. }
      specialize (Fs H). destruct (fill fs added) as [l|e|p]; cbn [omap]; [exists l; auto|intros _; exact Fs|exact Fs].
    - destruct K as ([k vs] & I & B). intros Kn l F2. unfold bad_entry in B. cbn [fst snd] in B.
      pose proof I as I'. apply G' in I' as [Ne ->].
      destruct (field_of fs k) as [f|] eqn:Ef.
      + apply field_of_some in Ef as [If <-]. assert (exists v, field_value ps f v) as [v Fv].
        { clear -F2 If. induction F2 as [|g w fs l W _ IH]; [contradiction|]. destruct If as [->|If]; eauto. }
        destruct Fv as [[_ Fv]|[X _]]; [|contradiction]. eapply B; eauto.
      + apply field_of_none in Ef. apply Ef. apply Kn; [exact B|exact Ne].
  Qed.

  Lemma struct_missing ps es fs deny pre f post : grouped ps es -> NoDup (map f_name fs) -> known ps fs deny ->
    (forall g, In g fs -> values_of (f_name g) ps <> [] -> exists v, gives (f_type g) (values_of (f_name g) ps) v) ->
    fs = pre ++ f :: post ->
    (forall g, In g pre -> exists v, field_value ps g v) ->
    required f -> values_of (f_name f) ps = [] ->
    from_cow_map (TgStruct fs deny) es = Fail (FMessage (lit "missing field `" ++ f_name f ++ lit "`")).
  Proof.
    intros G Nf Kn Hg Efs Hp Rq Ev. cbn [Form.from_cow_map]. pose proof G as (Nd & G').
    pose proof (visit_struct_spec fs deny es (S (length es)) true es [] eq_refl (Nat.lt_succ_diag_r _) Nd
                  ltac:(intros ? ? []) (grouped_full _ _ G)) as K.
    destruct (visit_struct fs deny (S (length es)) true es []) as [acc|e|p]; [| |contradiction].
    - destruct K as (added & -> & K1 & K2). cbn [app].
      destruct (struct_read ps es fs deny added G Nf K1 K2) as [_ R].
      erewrite (fill_missing fs added pre f post Efs); [reflexivity| | |exact Rq].
      + intros g Ig. assert (If : In g fs) by (rewrite Efs; apply in_app_iff; auto). specialize (R g If).
        destruct (aget str_eqb (f_name g) added); [left; discriminate|]. right.
        destruct (Hp g Ig) as [v [[X _]|[_ [D|(D & (t & T) & _)]]]]; [contradiction| |].
        * exists v. unfold missing. rewrite D. reflexivity.
        * exists VNone. unfold missing. rewrite D, T. reflexivity.
      + assert (If : In f fs) by (rewrite Efs; apply in_app_iff; right; left; reflexivity). specialize (R f If).
        destruct (aget str_eqb (f_name f) added); [destruct R; contradiction|reflexivity].
    - destruct K as ([k vs] & I & B). unfold bad_entry in B. cbn [fst snd] in B.
      pose proof I as I'. apply G' in I' as [Ne ->].
      destruct (field_of fs k) as [g|] eqn:Ef.
      + apply field_of_some in Ef as [If <-]. destruct (Hg g If Ne) as [v Gv]. exfalso. eapply B; eauto.
      + apply field_of_none in Ef. exfalso. apply Ef. apply Kn; [exact B|exact Ne].
  Qed.

  (** ** Maps *)

  Lemma visit_entries_spec t es : forall fuel first input acc, at_entries first input es -> length es < fuel ->
    NoDup (map fst (acc : list (str * value)) ++ map fst es) ->
    (forall k vs, In (k, vs) es -> vs <> [] /\ full vs) ->
    match visit_entries KString t fuel first input acc with
    | Done acc' => exists added, acc' = acc ++ added /\ Forall2 (fun e x => fst e = fst x /\ gives t (snd e) (snd x)) es added
    | Fail _ => exists k vs, In (k, vs) es /\ forall v, ~ gives t vs v
    | Panics _ => False
    end.
  Proof.
    induction es as [|[k vs] es IH]; intros fuel first input acc A L Nd Hv; (destruct fuel as [|n]; [cbn in L; lia|]);
      cbn [Form.visit_entries]; rewrite (next_key_spec _ _ _ _ A).
    { exists []. rewrite app_nil_r. auto. }
    cbn [de_key omap]. destruct (Hv k vs (or_introl eq_refl)) as [Ne Fl].
    cbn [next_value]. pose proof (de_gives parse_float serde_msg t vs Ne Fl) as D.
    destruct (fst (de t vs)) as [v|e|p]; [|exists k, vs; split; [left; reflexivity|exact D]|exact D].
    assert (G0 : aget str_eqb k acc = None).
    { apply aget_None; [apply str_eqb_eq|]. intros [w I]. apply (in_map fst) in I.
      eapply nodup_app_sep; [exact Nd|exact I|]. left. reflexivity. }
    rewrite ainsert_fresh by exact G0.
    assert (A' : at_entries false ((k, vs) :: es) es) by (exists (k, vs); reflexivity).
    specialize (IH n false ((k, vs) :: es) (acc ++ [(k, v)]) A' ltac:(cbn in L; lia)).
    rewrite map_app, <- app_assoc in IH. specialize (IH Nd (fun k' vs' I => Hv k' vs' (or_intror I))).
    destruct (visit_entries KString t n false ((k, vs) :: es) (acc ++ [(k, v)])) as [acc'|e|p]; [| |exact IH].
    - destruct IH as (added & -> & F2). exists ((k, v) :: added). rewrite <- app_assoc. split; [reflexivity|].
      constructor; [|exact F2]. cbn. split; [reflexivity|]. apply D. reflexivity.
    - destruct IH as (k' & vs' & I & B). exists k', vs'. split; [right; exact I|exact B].
  Qed.

  Lemma map_target ps es t : grouped ps es ->
    match from_cow_map (TgMap KString t) es with
    | Done r => exists m, r = RMap m /\ map_of ps t m
    | Fail _ => exists k, values_of k ps <> [] /\ forall v, ~ gives t (values_of k ps) v
    | Panics _ => False
    end.
  Proof.
    intros G. pose proof G as (Nd & G'). cbn [Form.from_cow_map].
    pose proof (visit_entries_spec t es (S (length es)) true es [] eq_refl (Nat.lt_succ_diag_r _) Nd (grouped_full _ _ G)) as K.
    destruct (visit_entries KString t (S (length es)) true es []) as [acc|e|p]; [| |exact K]; cbn [omap].
    - destruct K as (m & -> & F2). cbn [app]. exists m. split; [reflexivity|].
      assert (Ek : map fst m = map fst es) by (clear -F2; induction F2 as [|? ? ? ? [E _] _ IH]; [reflexivity|]; cbn; congruence).
      split; [rewrite Ek; exact Nd|]. split.
      + intros k v I. assert (exists vs, In (k, vs) es /\ gives t vs v) as (vs & Ie & Gv).
        { clear -F2 I. induction F2 as [|[k1 vs1] [k2 v2] es m [E Gv] _ IH]; [contradiction|]. cbn in *. subst.
          destruct I as [[= -> ->]|I]; [eauto|]. destruct (IH I) as (vs & ? & ?). eauto. }
        apply G' in Ie as [Ne ->]. auto.
      + intros k Nv. assert (I : In (k, values_of k ps) es) by (apply G'; auto).
        apply (in_map fst) in I. cbn in I. rewrite <- Ek in I. apply in_map_iff in I as ([k' v] & E & I). cbn in E. subst. eauto.
    - destruct K as (k & vs & I & B). apply G' in I as [Ne ->]. eauto.
  Qed.

  Lemma gives_det t l v v' : gives t l v -> gives t l v' -> v = v'.
  Proof. intros [r R] [r' R']. eapply reads_det in R'; [|exact R]. apply R'. Qed.

  Lemma nodup_keys {A} (m : list (str * A)) : NoDup (map fst m) -> NoDup m.
  Proof. apply NoDup_map_inv. Qed.

  Lemma map_of_perm ps t m m' : map_of ps t m -> map_of ps t m' -> Permutation m m'.
  Proof.
    intros (N1 & A1 & B1) (N2 & A2 & B2). apply NoDup_Permutation; [apply nodup_keys; exact N1|apply nodup_keys; exact N2|].
    assert (K : forall m m', (forall k v, In (k, v) m -> values_of k ps <> [] /\ gives t (values_of k ps) v) ->
              (forall k v, In (k, v) m' -> values_of k ps <> [] /\ gives t (values_of k ps) v) ->
              (forall k, values_of k ps <> [] -> exists v, In (k, v) m') -> forall x, In x m -> In x m').
    { clear. intros m m' A1 A2 B2 [k v] I. destruct (A1 _ _ I) as [Ne G]. destruct (B2 _ Ne) as [v' I'].
      destruct (A2 _ _ I') as [_ G']. rewrite (gives_det _ _ _ _ G G'). exact I'. }
    intros x. split; apply K; auto.
  Qed.

  (** ** Flattened fields *)
  Notation plain := (plain (F:=F)).
  Notation plain_value := (plain_value (F:=F)).

  Lemma plain_det t s v v' : plain t s v -> plain t s v' -> v = v'.
  Proof.
    intros P. revert v'. induction P; intros v' P'; inversion P'; subst; try reflexivity; f_equal; auto.
  Qed.

  Lemma content_plain t s :
    match de_content t s with
    | Done v => forall v', plain t s v' <-> v' = v
    | Fail _ => forall v, ~ plain t s v
    | Panics _ => False
    end.
  Proof.
    assert (K : forall t, match de_content t s with Done v => plain t s v | Fail _ => forall v, ~ plain t s v | Panics _ => False end).
    { clear t. induction t; cbn; try (intros v P; inversion P; fail).
      - destruct s as [|c [|c' s']]; [intros v P; inversion P|constructor|intros v P; inversion P].
      - constructor.
      - destruct (de_content t s); cbn; [constructor; exact IHt|intros v P; inversion P; subst; eapply IHt; eauto|exact IHt].
      - destruct (de_content t s); cbn; [constructor; exact IHt|intros v P; inversion P; subst; eapply IHt; eauto|exact IHt].
      - destruct (existsb (str_eqb s) names) eqn:E.
        + apply existsb_exists in E as (x & I & E). apply str_eqb_eq in E. subst x. constructor. exact I.
        + intros v P. inversion P; subst. assert (existsb (str_eqb s) names = true); [|congruence].
          apply existsb_exists. exists s. split; [assumption|apply str_eqb_refl]. }
    specialize (K t). destruct (de_content t s); [|exact K|exact K].
    intros v'. split; [intros P; eapply plain_det; eauto|intros ->; exact K].
  Qed.

  Lemma visit_collected_spec gs rest : forall acc,
    NoDup (map fst rest) -> (forall k v, In (k, v) acc -> ~ In k (map fst rest)) ->
    match visit_collected gs rest acc with
    | Done acc' => exists added, acc' = acc ++ added /\
        (forall k v, In (k, v) added -> exists s g, In (k, s) rest /\ field_of gs k = Some g /\ plain (f_type g) s v) /\
        (forall k s g, In (k, s) rest -> field_of gs k = Some g -> exists v, In (k, v) added /\ plain (f_type g) s v)
    | Fail _ => exists k s g, In (k, s) rest /\ field_of gs k = Some g /\ forall v, ~ plain (f_type g) s v
    | Panics _ => False
    end.
  Proof.
    induction rest as [|[k s] rest IH]; intros acc Nd Na; cbn [Form.visit_collected].
    { exists []. rewrite app_nil_r. split; [reflexivity|]. split; intros ? ? *; intros []. }
    change (find (fun f : Form.field F => str_eqb k (f_name f)) gs) with (field_of gs k).
    inversion Nd as [|? ? Nk Nd']; subst.
    destruct (field_of gs k) as [g|] eqn:E.
    - assert (G0 : aget str_eqb k acc = None).
      { apply aget_None; [apply str_eqb_eq|]. intros [v I]. apply (Na _ _ I). left. reflexivity. }
      rewrite G0. pose proof (content_plain (f_type g) s) as D.
      destruct (de_content (f_type g) s) as [v|e|p]; [|exists k, s, g; split; [left; reflexivity|auto]|exact D].
      assert (Na' : forall k' v', In (k', v') (acc ++ [(k, v)]) -> ~ In k' (map fst rest)).
      { intros k' v' I. apply in_app_iff in I as [I|[[= <- <-]|[]]]; [|exact Nk].
        specialize (Na _ _ I). intros I2. apply Na. right. exact I2. }
      specialize (IH (acc ++ [(k, v)]) Nd' Na').
      destruct (visit_collected gs rest (acc ++ [(k, v)])) as [acc'|e|p]; [| |exact IH].
      + destruct IH as (added & -> & K1 & K2). exists ((k, v) :: added). rewrite <- app_assoc. split; [reflexivity|]. split.
        * intros k' v' [[= <- <-]|I].
          -- exists s, g. split; [left; reflexivity|]. split; [exact E|]. apply D. reflexivity.
          -- destruct (K1 _ _ I) as (s' & g' & I' & R). exists s', g'. split; [right; exact I'|exact R].
        * intros k' s' g' [[= <- <-]|I] Eg.
          -- rewrite E in Eg. injection Eg as <-. exists v. split; [left; reflexivity|]. apply D. reflexivity.
          -- destruct (K2 _ _ _ I Eg) as (v' & I' & G). exists v'. split; [right; exact I'|exact G].
      + destruct IH as (k' & s' & g' & I & B). exists k', s', g'. split; [right; exact I|exact B].
    - assert (Na' : forall k' v', In (k', v') acc -> ~ In k' (map fst rest)).
      { intros k' v' I I2. apply (Na _ _ I). right. exact I2. }
      specialize (IH acc Nd' Na').
      destruct (visit_collected gs rest acc) as [acc'|e|p]; [| |exact IH].
      + destruct IH as (added & -> & K1 & K2). exists added. split; [reflexivity|]. split.
        * intros k' v' I. destruct (K1 _ _ I) as (s' & g' & I' & R). exists s', g'. split; [right; exact I'|exact R].
        * intros k' s' g' [[= <- <-]|I] Eg; [congruence|]. apply (K2 _ _ _ I Eg).
      + destruct IH as (k' & s' & g' & I & B). exists k', s', g'. split; [right; exact I|exact B].
  Qed.

  Lemma collected_entries_spec t rest : forall acc,
    NoDup (map fst (acc : list (str * value)) ++ map fst rest) ->
    match collected_entries t rest acc with
    | Done acc' => exists added, acc' = acc ++ added /\ Forall2 (fun e x => fst e = fst x /\ plain t (snd e) (snd x)) rest added
    | Fail _ => exists k s, In (k, s) rest /\ forall v, ~ plain t s v
    | Panics _ => False
    end.
  Proof.
    induction rest as [|[k s] rest IH]; intros acc Nd; cbn [Form.collected_entries].
    { exists []. rewrite app_nil_r. auto. }
    pose proof (content_plain t s) as D.
    destruct (de_content t s) as [v|e|p]; [|exists k, s; split; [left; reflexivity|exact D]|exact D].
    assert (G0 : aget str_eqb k acc = None).
    { apply aget_None; [apply str_eqb_eq|]. intros [w I]. apply (in_map fst) in I.
      eapply nodup_app_sep; [exact Nd|exact I|]. left. reflexivity. }
    rewrite ainsert_fresh by exact G0.
    specialize (IH (acc ++ [(k, v)])). rewrite map_app, <- app_assoc in IH. specialize (IH Nd).
    destruct (collected_entries t rest (acc ++ [(k, v)])) as [acc'|e|p]; [| |exact IH].
    - destruct IH as (added & -> & F2). exists ((k, v) :: added). rewrite <- app_assoc. split; [reflexivity|].
      constructor; [|exact F2]. cbn. split; [reflexivity|]. apply D. reflexivity.
    - destruct IH as (k' & s' & I & B). exists k', s'. split; [right; exact I|exact B].
  Qed.

  Lemma in_others ps es fs k s : grouped ps es ->
    In (k, s) (others fs es) <-> ~ In k (map f_name fs) /\ exists r, values_of k ps = s :: r.
  Proof.
    intros (Nd & G). unfold others. rewrite in_flat_map, <- field_of_none. split.
    - intros ([k' vs] & I & H). cbn [fst snd] in H. destruct (field_of fs k') eqn:E; [destruct H|]. destruct H as [[= <- <-]|[]].
      split; [exact E|]. apply G in I as [Ne ->]. destruct (values_of k' ps) as [|w ws]; [congruence|]. exists ws. reflexivity.
    - intros (E & r & V). exists (k, values_of k ps). split; [apply G; rewrite V; split; [discriminate|reflexivity]|].
      cbn [fst snd]. rewrite E, V. left. reflexivity.
  Qed.

  Lemma others_nodup fs es : NoDup (map fst es) -> NoDup (map fst (others fs es)).
  Proof.
    assert (K : forall es k, In k (map fst (others fs es)) -> In k (map fst es)).
    { clear es. intros es k I. apply in_map_iff in I as ([k' s] & <- & I). unfold others in I. apply in_flat_map in I as (e & Ie & I).
      destruct (field_of fs (fst e)); [destruct I|]. destruct I as [[= <- _]|[]]. apply (in_map fst) in Ie. exact Ie. }
    induction es as [|[k vs] es IH]; cbn; intros Nd; [constructor|]. inversion Nd as [|? ? Nk Nd']; subst. specialize (IH Nd').
    destruct (field_of fs k); cbn; [exact IH|]. constructor; [|exact IH]. intros I. apply Nk. apply K. exact I.
  Qed.

  Lemma flat_inner ps es fs inner : grouped ps es -> apart fs inner ->
    match de_flat inner (others fs es) with
    | Done r => flat_value ps (map f_name fs) inner r
    | Fail _ => forall r, ~ flat_value ps (map f_name fs) inner r
    | Panics _ => False
    end.
  Proof.
    intros G Ap. pose proof (others_nodup fs es (proj1 G)) as Nd.
    pose proof (fun k s => in_others ps es fs k s G) as Io.
    destruct inner as [gs|t]; cbn [Form.de_flat flat_value].
    - cbn [apart] in Ap. rewrite map_app in Ap.
      assert (Ng : NoDup (map f_name gs)) by (eapply nodup_app_r; exact Ap).
      assert (Sep : forall g, In g gs -> ~ In (f_name g) (map f_name fs)).
      { intros g Ig If. eapply nodup_app_sep; [exact Ap|exact If|]. apply in_map. exact Ig. }
      pose proof (visit_collected_spec gs (others fs es) [] Nd ltac:(intros ? ? [])) as K.
      destruct (visit_collected gs (others fs es) []) as [acc|e|p]; [| |exact K].
      + destruct K as (added & -> & K1 & K2). cbn [app].
        pose proof (fill_spec (plain_value ps) gs added) as Fs.
        assert (H : forall g, In g gs -> match aget str_eqb (f_name g) added with
                          | Some v => forall v', plain_value ps g v' <-> v' = v
                          | None => match missing g with
                                    | Done v => forall v', plain_value ps g v' <-> v' = v
                                    | Fail _ => forall v, ~ plain_value ps g v
                                    | Panics _ => False
                                    end
                          end).
        { intros g Ig. unfold FormSpec.plain_value. destruct (aget str_eqb (f_name g) added) as [v|] eqn:E.
          - apply aget_Some_In in E; [|apply str_eqb_eq]. destruct (K1 _ _ E) as (s & g' & I & Eg & P).
            rewrite (field_of_in _ _ Ng Ig) in Eg. injection Eg as <-. apply Io in I as (_ & r & V). rewrite V. intros v'. split.
            + intros [(s' & r' & [= <- <-] & P')|[X _]]; [eapply plain_det; eauto|discriminate X].
            + intros ->. left. eauto.
          - assert (V : values_of (f_name g) ps = []).
            { destruct (values_of (f_name g) ps) as [|s r] eqn:V; [reflexivity|]. exfalso.
              destruct (K2 (f_name g) s g) as (v & I & _).
              - apply Io. split; [apply Sep; exact Ig|eauto].
              - apply field_of_in; assumption.
              - apply aget_None in E; [|apply str_eqb_eq]. apply E. exists v. exact I. }
            rewrite V. unfold missing. destruct (f_default g) as [d|] eqn:Ed.
            + intros v'. split; [intros [(? & ? & [=] & _)|[_ [[= <-]|[X _]]]]; [reflexivity|discriminate X]|].
              intros ->. right. auto.
            + destruct (f_type g) eqn:Et;
                try (intros ? [(? & ? & [=] & _)|[_ [X|[_ [[? X] _]]]]]; discriminate X).
              intros v'. split; [intros [(? & ? & [=] & _)|[_ [X|[_ [_ X]]]]]; [discriminate X|exact X]|].
              intros ->. right. split; [reflexivity|]. right. split; [reflexivity|]. split; [eexists; reflexivity|reflexivity]. }
        specialize (Fs H). destruct (fill gs added) as [l|e|p]; cbn [omap].
        * exists l. split; [reflexivity|]. apply Fs. reflexivity.
        * intros r (l & -> & F2). eapply Fs; eauto.
        * exact Fs.
      + destruct K as (k & s & g & I & Eg & B). intros r (l & -> & F2).
        apply field_of_some in Eg as [Ig <-]. apply Io in I as (_ & r & V).
        assert (exists v, plain_value ps g v) as [v Pv].
        { clear -F2 Ig. induction F2 as [|h w gs l W _ IH]; [contradiction|]. destruct Ig as [->|Ig]; eauto. }
        destruct Pv as [(s' & r' & V' & P)|[X _]]; [|congruence]. rewrite V in V'. injection V' as <- <-. eapply B; eauto.
    - pose proof (collected_entries_spec t (others fs es) [] Nd) as K.
      destruct (collected_entries t (others fs es) []) as [acc|e|p]; [| |exact K]; cbn [omap].
      + destruct K as (m & -> & F2). cbn [app]. exists m. split; [reflexivity|].
        assert (Ek : map fst m = map fst (others fs es)) by (clear -F2; induction F2 as [|? ? ? ? [E _] _ IH]; [reflexivity|]; cbn; congruence).
        split; [rewrite Ek; exact Nd|]. split.
        * intros k v I. assert (exists s, In (k, s) (others fs es) /\ plain t s v) as (s & Ie & P).
          { clear -F2 I. induction F2 as [|[k1 s1] [k2 v2] rest m [E Gv] _ IH]; [contradiction|]. cbn in *. subst.
            destruct I as [[= -> ->]|I]; [eauto|]. destruct (IH I) as (vs & ? & ?). eauto. }
          apply Io in Ie as (N & r & V). eauto 6.
        * intros k Nk Nv. destruct (values_of k ps) as [|s r] eqn:V; [congruence|].
          assert (I : In (k, s) (others fs es)) by (apply Io; eauto).
          apply (in_map fst) in I. cbn in I. rewrite <- Ek in I. apply in_map_iff in I as ([k' v] & E & I). cbn in E. subst. eauto.
      + destruct K as (k & s & I & B). intros r (m & -> & _ & A & C). apply Io in I as (Nk & r & V).
        destruct (C k Nk) as [v I]; [rewrite V; discriminate|]. destruct (A _ _ I) as (_ & s' & r' & V' & P).
        rewrite V in V'. injection V' as <- <-. eapply B; eauto.
  Qed.

  Lemma flat_split fs inner es : from_cow_map (TgFlat fs inner) es =
    match from_cow_map (TgStruct fs false) es with
    | Done (RStruct l) => omap (RFlat l) (de_flat inner (others fs es))
    | Done _ => Panics PUnreachable
    | Fail e => Fail e
    | Panics p => Panics p
    end.
  Proof.
    cbn [Form.from_cow_map]. rewrite (visit_flat_struct fs es) by reflexivity.
    destruct (visit_struct fs false (S (length es)) true es []) as [acc|e|p]; cbn [omap]; try reflexivity.
    destruct (fill fs acc); reflexivity.
  Qed.

  Lemma flat_target ps es fs inner : grouped ps es -> apart fs inner ->
    match from_cow_map (TgFlat fs inner) es with
    | Done r => exists l r', r = RFlat l r' /\ Forall2 (field_value ps) fs l /\ flat_value ps (map f_name fs) inner r'
    | Fail _ => forall l r', Forall2 (field_value ps) fs l -> ~ flat_value ps (map f_name fs) inner r'
    | Panics _ => False
    end.
  Proof.
    intros G Ap. rewrite flat_split.
    assert (Nf : NoDup (map f_name fs)).
    { destruct inner; cbn [apart] in Ap; [|exact Ap]. rewrite map_app in Ap. eapply nodup_app_l; exact Ap. }
    pose proof (struct_target ps es fs false G Nf) as K. pose proof (flat_inner ps es fs inner G Ap) as I.
    destruct (from_cow_map (TgStruct fs false) es) as [r|e|p]; [| |exact K].
    - destruct K as (l & -> & _ & K). destruct (de_flat inner (others fs es)) as [r'|e|p]; cbn [omap]; [| |exact I].
      + exists l, r'. split; [reflexivity|]. split; [apply K; reflexivity|exact I].
      + intros l' r' _. apply I.
    - intros l r' F2. exfalso. eapply K; [intros [=]|exact F2].
  Qed.

  Lemma field_value_det ps f v v' : field_value ps f v -> field_value ps f v' -> v = v'.
  Proof.
    intros [[N G]|[N D]] [[N' G']|[N' D']]; try contradiction.
    - eapply gives_det; eauto.
    - destruct D as [D|(D & _ & ->)]; destruct D' as [D'|(D' & _ & ->)]; congruence.
  Qed.

  Lemma plain_value_det ps f v v' : plain_value ps f v -> plain_value ps f v' -> v = v'.
  Proof.
    intros [(s & r & V & P)|[N D]] [(s' & r' & V' & P')|[N' D']]; try congruence.
    - rewrite V in V'. injection V' as <- <-. eapply plain_det; eauto.
    - destruct D as [D|(D & _ & ->)]; destruct D' as [D'|(D' & _ & ->)]; congruence.
  Qed.

  Lemma Forall2_det {A B} (P : A -> B -> Prop) l m m' : (forall x y y', P x y -> P x y' -> y = y') ->
    Forall2 P l m -> Forall2 P l m' -> m = m'.
  Proof. intros D F2. revert m'. induction F2; intros m' F2'; inversion F2'; subst; f_equal; eauto. Qed.

  Lemma flat_value_det ps names inner l r r' : flat_value ps names inner r -> flat_value ps names inner r' ->
    same_value (F:=F) (RFlat l r) (RFlat l r').
  Proof.
    destruct inner as [gs|t]; cbn [flat_value].
    - intros (x & -> & Fx) (y & -> & Fy). cbn. rewrite (Forall2_det (plain_value ps) gs x y); [reflexivity| |exact Fx|exact Fy].
      intros f v v'. apply plain_value_det.
    - intros (m & -> & N1 & A1 & B1) (m' & -> & N2 & A2 & B2). cbn. split; [reflexivity|].
      apply NoDup_Permutation; [apply nodup_keys; exact N1|apply nodup_keys; exact N2|].
      assert (K : forall m m' : list (str * value),
        (forall k v, In (k, v) m -> ~ In k names /\ exists s rest, values_of k ps = s :: rest /\ plain t s v) ->
        (forall k v, In (k, v) m' -> ~ In k names /\ exists s rest, values_of k ps = s :: rest /\ plain t s v) ->
        (forall k, ~ In k names -> values_of k ps <> [] -> exists v, In (k, v) m') -> forall x, In x m -> In x m').
      { clear. intros m m' A1 A2 B2 [k v] I. destruct (A1 _ _ I) as (Nk & s & r & V & P).
        destruct (B2 _ Nk) as [v' I']; [rewrite V; discriminate|].
        destruct (A2 _ _ I') as (_ & s' & r' & V' & P'). rewrite V in V'. injection V' as <- <-.
        rewrite (plain_det _ _ _ _ P P'). exact I'. }
      intros x. split; apply K; auto.
  Qed.
End Targets.
