(** The errors of all targets. *)

From Coq Require Import String ZArith.
From Verif Require Import Base BaseFacts Utf8 RouteTrie UrlEncoded UrlSpec UrlLemmas Http Form AppSpec FormSpec.
From Verif Require Import AppLemmas4 FormLemmas FormLemmas2 FormLemmas3 FormWitness FormLemmas4 FormLemmas5 FormLemmas6 MoreLemmas.
From Verif Require Import Adjacent AdjacentSpec AdjacentLemmas ErrorSpec ErrorLemmas.
Local Open Scope string_scope.
Local Open Scope list_scope.

(** Any key may come first. *)
Lemma first_entry q k : values_of k (parse q) <> [] ->
  exists it1 it2 es, iteration it1 /\ iteration it2 /\ handed it1 it2 q = (k, values_of k (parse q)) :: es.
Proof.
  intros N. exists (fun l => l), (key_first k). pose proof (parsed_grouped q) as [Nd G].
  assert (I : In (k, values_of k (parse q)) (parsed_form_map q)) by (apply G; auto).
  unfold handed. rewrite cow_map_id by exact Nd. unfold key_first at 2.
  assert (J : In (k, values_of k (parse q)) (filter (fun e => str_eqb k (fst e)) (parsed_form_map q))).
  { apply filter_In. split; [exact I|apply str_eqb_refl]. }
  destruct (filter (fun e => str_eqb k (fst e)) (parsed_form_map q)) as [|[k' vs] es] eqn:E; [destruct J|].
  assert (K : In (k', vs) (filter (fun e => str_eqb k (fst e)) (parsed_form_map q))) by (rewrite E; left; reflexivity).
  apply filter_In in K as [K1 K2]. cbn in K2. apply str_eqb_eq in K2. subst k'. apply G in K1 as [_ ->].
  eexists. split; [intros l; reflexivity|]. split; [apply key_first_iteration|]. reflexivity.
Qed.

Lemma values_full k ps : full (values_of k ps).
Proof. apply Forall_forall. intros s I. eapply values_nonempty; eauto. Qed.

Section Targets.
  Context {F : Type} (pf : bool -> str -> F + str) (msg : mismatch -> str).
  Notation value := (value F).
  Notation field := (field F).
  Notation de := (de pf msg).
  Notation gives := (gives pf).
  Notation complains := (complains pf msg).
  Notation struct_fault := (struct_fault pf msg).
  Notation struct_says := (struct_says pf msg).
  Notation inner_says := (inner_says (F:=F) msg).
  Notation target_says := (target_says pf msg).
  Notation visit_struct := (visit_struct pf msg).
  Notation visit_entries := (visit_entries pf msg).
  Notation visit_collected := (visit_collected (F:=F) msg).
  Notation collected_entries := (collected_entries (F:=F) msg).
  Notation de_flat := (de_flat (F:=F) msg).
  Notation from_cow_map := (from_cow_map pf msg).
  Notation field_value := (field_value pf).

  Lemma value_fails t vs e : vs <> [] -> full vs -> fst (de t vs) = Fail e -> exists m, e = FMessage m /\ complains t vs m.
  Proof.
    intros Ne Fl E. destruct (de t vs) as [o i] eqn:D. cbn in E. subst o. exact (de_critic pf msg t vs e i Ne Fl D).
  Qed.

  Lemma complains_gives t l m : complains t l m -> forall v, ~ gives t l v.
  Proof. intros C v [r R]. eapply complains_reads; eauto. Qed.

  Lemma gives_or t l : l <> [] -> full l -> (exists v, gives t l v) \/ exists m, complains t l m.
  Proof.
    intros Ne Fl. pose proof (de_gives pf msg t l Ne Fl) as D. destruct (fst (de t l)) as [v|e|p] eqn:E; [|right|contradiction].
    - left. exists v. apply D. reflexivity.
    - destruct (value_fails t l e Ne Fl E) as (m & _ & C). eauto.
  Qed.

  (** ** Structs *)

  Lemma visit_struct_fault fs deny es : forall fuel first input acc e, at_entries first input es -> length es < fuel ->
    NoDup (map fst es) -> (forall k v, In (k, v) acc -> ~ In k (map fst es)) ->
    (forall k vs, In (k, vs) es -> vs <> [] /\ full vs) ->
    visit_struct fs deny fuel first input acc = Fail e ->
    exists k vs m, In (k, vs) es /\ e = FMessage m /\
      match field_of fs k with
      | Some f => complains (f_type f) vs m
      | None => deny = true /\ m = msg (MUnknown k)
      end.
  Proof.
    induction es as [|[k vs] es IH]; intros fuel first input acc e A L Nd Na Hv; (destruct fuel as [|n]; [cbn in L; lia|]);
      cbn [Form.visit_struct]; rewrite (next_key_spec msg _ _ _ _ A); [discriminate|].
    cbn [de_key omap]. change (find (fun f : Form.field F => str_eqb k (f_name f)) fs) with (field_of fs k).
    destruct (Hv k vs (or_introl eq_refl)) as [Ne Fl]. inversion Nd as [|? ? Nk Nd']; subst.
    assert (Hv' : forall k vs, In (k, vs) es -> vs <> [] /\ full vs) by (intros k' vs' I; apply (Hv k' vs'); right; exact I).
    assert (A' : at_entries false ((k, vs) :: es) es) by (exists (k, vs); reflexivity).
    assert (L' : length es < n) by (cbn in L; lia).
    destruct (field_of fs k) as [f|] eqn:E.
    - assert (G0 : aget str_eqb k acc = None).
      { apply aget_None; [apply str_eqb_eq|]. intros [v I]. apply (Na _ _ I). left. reflexivity. }
      rewrite G0. cbn [next_value]. destruct (fst (de (f_type f) vs)) as [v|e'|p] eqn:D; [| |discriminate].
      + assert (Na' : forall k' v', In (k', v') (acc ++ [(k, v)]) -> ~ In k' (map fst es)).
        { intros k' v' I. apply in_app_iff in I as [I|[[= <- <-]|[]]]; [|exact Nk].
          specialize (Na _ _ I). intros I2. apply Na. right. exact I2. }
        intros X. destruct (IH n false _ _ e A' L' Nd' Na' Hv' X) as (k' & vs' & m & I & R). exists k', vs', m. split; [right; exact I|exact R].
      + intros [= ->]. destruct (value_fails _ _ _ Ne Fl D) as (m & -> & C). exists k, vs, m. split; [left; reflexivity|].
        split; [reflexivity|]. rewrite E. exact C.
    - destruct deny.
      { intros [= <-]. exists k, vs, (msg (MUnknown k)). split; [left; reflexivity|]. split; [reflexivity|]. rewrite E. auto. }
      unfold next_ignored. cbn [next_value Form.de fst]. destruct vs as [|s vs]; [congruence|]. cbn [omap].
      assert (Na' : forall k' v', In (k', v') acc -> ~ In k' (map fst es)).
      { intros k' v' I I2. apply (Na _ _ I). right. exact I2. }
      intros X. destruct (IH n false _ _ e A' L' Nd' Na' Hv' X) as (k' & vs' & m & I & R). exists k', vs', m. split; [right; exact I|exact R].
  Qed.

  Lemma fill_fails (fs : list field) acc e : fill fs acc = Fail e ->
    exists pre f post, fs = pre ++ f :: post /\
      (forall g, In g pre -> aget str_eqb (f_name g) acc <> None \/ exists v, missing g = Done v) /\
      aget str_eqb (f_name f) acc = None /\ required f /\ e = FMessage (lit "missing field `" ++ f_name f ++ lit "`").
  Proof.
    induction fs as [|f fs IH]; cbn [fill]; [discriminate|].
    destruct (aget str_eqb (f_name f) acc) as [v|] eqn:E.
    - destruct (fill fs acc) as [l|e'|p]; cbn [omap]; intros X; try discriminate X. injection X as ->.
      destruct (IH eq_refl) as (pre & g & post & -> & P & R). exists (f :: pre), g, post. split; [reflexivity|]. split; [|exact R].
      intros h [<-|I]; [left; rewrite E; discriminate|apply P; exact I].
    - destruct (missing f) as [v|e'|p] eqn:M; [| |discriminate].
      + destruct (fill fs acc) as [l|e'|p]; cbn [omap]; intros X; try discriminate X. injection X as ->.
        destruct (IH eq_refl) as (pre & g & post & -> & P & R). exists (f :: pre), g, post. split; [reflexivity|]. split; [|exact R].
        intros h [<-|I]; [right; eauto|apply P; exact I].
      + intros [= ->]. exists [], f, fs. split; [reflexivity|]. split; [intros g []|]. split; [exact E|].
        unfold missing in M. destruct (f_default f) as [d|] eqn:Ed; [discriminate M|].
        destruct (f_type f) eqn:Et; try discriminate M; injection M as <-; (split; [|reflexivity]); (split; [exact Ed|]); intros t'; rewrite Et; discriminate.
  Qed.

  Lemma missing_value (ps : list (str * str)) (g : field) v : values_of (f_name g) ps = [] -> missing g = Done v ->
    field_value ps g v /\ plain_value ps g v.
  Proof.
    intros V M. unfold missing in M. unfold FormSpec.field_value, plain_value. rewrite V.
    destruct (f_default g) as [d|] eqn:Ed.
    - injection M as ->. split; right; auto.
    - destruct (f_type g) eqn:Et; try discriminate M. injection M as <-. split; right; (split; [reflexivity|]); right; eauto.
  Qed.

  Lemma struct_sound ps es fs deny e : grouped ps es -> NoDup (map f_name fs) -> from_cow_map (TgStruct fs deny) es = Fail e ->
    exists m, e = FMessage m /\ struct_says ps fs deny m.
  Proof.
    intros G Nf. cbn [Form.from_cow_map]. pose proof G as (Nd & G').
    pose proof (visit_struct_spec pf msg fs deny es (S (length es)) true es [] eq_refl (Nat.lt_succ_diag_r _) Nd
                  ltac:(intros ? ? []) (grouped_full _ _ G)) as K.
    pose proof (visit_struct_fault fs deny es (S (length es)) true es []) as K'.
    destruct (visit_struct fs deny (S (length es)) true es []) as [acc|e'|p]; [| |discriminate].
    - destruct K as (added & -> & K1 & K2). cbn [app].
      destruct (struct_read pf msg ps es fs deny added G Nf K1 K2) as [Kn R].
      destruct (fill fs added) as [l|e'|p] eqn:Fi; cbn [omap]; intros X; try discriminate X. injection X as ->.
      apply fill_fails in Fi as (pre & f & post & -> & P & Em & Rq & ->). eexists. split; [reflexivity|]. apply ss_missing.
      + intros m Fm. destruct Fm as [g m0 I C|k -> N Nk].
        * specialize (R g I). pose proof (complains_nonempty pf msg _ _ _ C) as Ne.
          destruct (aget str_eqb (f_name g) added) as [v|]; [|congruence]. destruct R as [_ R].
          exact (complains_gives _ _ _ C v (proj2 (R v) eq_refl)).
        * apply Nk. apply Kn; [reflexivity|exact N].
      + exists pre, post. split; [reflexivity|]. split; [|split; [exact Rq|]].
        * intros g I. assert (If : In g (pre ++ f :: post)) by (apply in_app_iff; auto). specialize (R g If).
          destruct (aget str_eqb (f_name g) added) as [v|] eqn:Eg.
          -- destruct R as [Ne R]. exists v. left. split; [exact Ne|]. apply R. reflexivity.
          -- destruct (P g I) as [N|[v M]]; [congruence|]. exists v. apply missing_value; assumption.
        * specialize (R f (in_elt _ _ _)). rewrite Em in R. exact R.
    - intros [= ->]. destruct (K' e eq_refl (Nat.lt_succ_diag_r _) Nd ltac:(intros ? ? []) (grouped_full _ _ G) eq_refl) as (k & vs & m & I & -> & B).
      exists m. split; [reflexivity|]. apply ss_fault. apply G' in I as [Ne ->]. destruct (field_of fs k) as [f|] eqn:Ef.
      + apply field_of_some in Ef as [If <-]. eapply sf_field; eauto.
      + destruct B as [-> ->]. apply field_of_none in Ef. apply sf_unknown; auto.
  Qed.

  Lemma struct_complete q fs deny m : NoDup (map f_name fs) -> struct_says (parse q) fs deny m ->
    exists it1 it2, iteration it1 /\ iteration it2 /\ from_cow_map (TgStruct fs deny) (handed it1 it2 q) = Fail (FMessage m).
  Proof.
    intros Nf J. destruct J as [m [f m0 I C|k -> N Nk]|f Nof (pre & post & Efs & Hp & Rq & V)].
    - destruct (first_entry q (f_name f) (complains_nonempty pf msg _ _ _ C)) as (it1 & it2 & es & I1 & I2 & E).
      exists it1, it2. split; [exact I1|]. split; [exact I2|]. rewrite E. cbn [Form.from_cow_map Form.visit_struct next_key de_key omap].
      change (find (fun g : Form.field F => str_eqb (f_name f) (f_name g)) fs) with (field_of fs (f_name f)).
      rewrite (field_of_in _ _ Nf I). cbn [aget next_value].
      apply (de_complains pf msg) in C as [-> _]; [reflexivity|apply values_full].
    - destruct (first_entry q k N) as (it1 & it2 & es & I1 & I2 & E).
      exists it1, it2. split; [exact I1|]. split; [exact I2|]. rewrite E. cbn [Form.from_cow_map Form.visit_struct next_key de_key omap].
      change (find (fun g : Form.field F => str_eqb k (f_name g)) fs) with (field_of fs k).
      apply field_of_none in Nk. rewrite Nk. reflexivity.
    - exists (fun l => l), (fun l => l). split; [intros l; reflexivity|]. split; [intros l; reflexivity|].
      eapply (struct_missing pf msg (parse q)); eauto.
      + apply handed_grouped; intros l; reflexivity.
      + intros -> k N. destruct (field_of fs k) as [g|] eqn:Eg; [apply field_of_some in Eg as [Ig <-]; apply in_map; exact Ig|].
        apply field_of_none in Eg. exfalso. eapply Nof. apply sf_unknown; eauto.
      + intros g Ig Ne. destruct (gives_or (f_type g) _ Ne (values_full _ _)) as [Gv|[m C]]; [exact Gv|].
        exfalso. eapply Nof. eapply sf_field; eauto.
  Qed.

  (** ** Maps *)

  Lemma visit_entries_fault t es : forall fuel first input acc e, at_entries first input es -> length es < fuel ->
    (forall k vs, In (k, vs) es -> vs <> [] /\ full vs) ->
    visit_entries KString t fuel first input acc = Fail e ->
    exists k vs m, In (k, vs) es /\ e = FMessage m /\ complains t vs m.
  Proof.
    induction es as [|[k vs] es IH]; intros fuel first input acc e A L Hv; (destruct fuel as [|n]; [cbn in L; lia|]);
      cbn [Form.visit_entries]; rewrite (next_key_spec msg _ _ _ _ A); [discriminate|].
    cbn [de_key omap]. destruct (Hv k vs (or_introl eq_refl)) as [Ne Fl].
    cbn [next_value]. destruct (fst (de t vs)) as [v|e'|p] eqn:D; [| |discriminate].
    - assert (A' : at_entries false ((k, vs) :: es) es) by (exists (k, vs); reflexivity). intros X.
      destruct (IH n false _ _ e A' ltac:(cbn in L; lia) (fun k' vs' I => Hv k' vs' (or_intror I)) X) as (k' & vs' & m & I & R).
      exists k', vs', m. split; [right; exact I|exact R].
    - intros [= ->]. destruct (value_fails _ _ _ Ne Fl D) as (m & -> & C). exists k, vs, m. split; [left; reflexivity|]. auto.
  Qed.

  (** ** Flattened fields *)

  Lemma collected_fault gs rest : forall acc e,
    NoDup (map fst rest) -> (forall k v, In (k, v) acc -> ~ In k (map fst rest)) ->
    visit_collected gs rest acc = Fail e ->
    exists k s g m, In (k, s) rest /\ field_of gs k = Some g /\ e = FMessage m /\ unparsed_says msg (f_type g) s m.
  Proof.
    induction rest as [|[k s] rest IH]; intros acc e Nd Na; cbn [Form.visit_collected]; [discriminate|].
    change (find (fun f : Form.field F => str_eqb k (f_name f)) gs) with (field_of gs k).
    inversion Nd as [|? ? Nk Nd']; subst. destruct (field_of gs k) as [g|] eqn:E.
    - assert (G0 : aget str_eqb k acc = None).
      { apply aget_None; [apply str_eqb_eq|]. intros [v I]. apply (Na _ _ I). left. reflexivity. }
      rewrite G0. destruct (de_content msg (f_type g) s) as [v|e'|p] eqn:D; [| |discriminate].
      + assert (Na' : forall k' v', In (k', v') (acc ++ [(k, v)]) -> ~ In k' (map fst rest)).
        { intros k' v' I. apply in_app_iff in I as [I|[[= <- <-]|[]]]; [|exact Nk].
          specialize (Na _ _ I). intros I2. apply Na. right. exact I2. }
        intros X. destruct (IH _ e Nd' Na' X) as (k' & s' & g' & m & I & R). exists k', s', g', m. split; [right; exact I|exact R].
      + intros [= ->]. destruct (de_content_fails msg _ _ _ D) as [m ->]. apply de_content_says in D. exists k, s, g, m.
        split; [left; reflexivity|]. auto.
    - assert (Na' : forall k' v', In (k', v') acc -> ~ In k' (map fst rest)).
      { intros k' v' I I2. apply (Na _ _ I). right. exact I2. }
      intros X. destruct (IH _ e Nd' Na' X) as (k' & s' & g' & m & I & R). exists k', s', g', m. split; [right; exact I|exact R].
  Qed.

  Lemma entries_fault t rest : forall acc e, collected_entries t rest acc = Fail e ->
    exists k s m, In (k, s) rest /\ e = FMessage m /\ unparsed_says msg t s m.
  Proof.
    induction rest as [|[k s] rest IH]; intros acc e; cbn [Form.collected_entries]; [discriminate|].
    destruct (de_content msg t s) as [v|e'|p] eqn:D; [| |discriminate].
    - intros X. destruct (IH _ e X) as (k' & s' & m & I & R). exists k', s', m. split; [right; exact I|exact R].
    - intros [= ->]. destruct (de_content_fails msg _ _ _ D) as [m ->]. apply de_content_says in D. exists k, s, m.
      split; [left; reflexivity|]. auto.
  Qed.

  Lemma apart_inner (fs gs : list field) : apart fs (FlatStruct gs) ->
    NoDup (map f_name fs) /\ NoDup (map f_name gs) /\ forall g, In g gs -> ~ In (f_name g) (map f_name fs).
  Proof.
    cbn [apart]. rewrite map_app. intros Ap. split; [eapply nodup_app_l; exact Ap|]. split; [eapply nodup_app_r; exact Ap|].
    intros g Ig If. eapply nodup_app_sep; [exact Ap|exact If|]. apply in_map. exact Ig.
  Qed.

  Lemma apart_names (fs : list field) inner : apart fs inner -> NoDup (map f_name fs).
  Proof. destruct inner; [intros A; apply (apart_inner _ _ A)|]. auto. Qed.

  Lemma inner_sound ps es fs inner e : grouped ps es -> apart fs inner -> de_flat inner (others fs es) = Fail e ->
    exists m, e = FMessage m /\ inner_says ps (map f_name fs) inner m.
  Proof.
    intros G Ap. pose proof (others_nodup fs es (proj1 G)) as Nd.
    pose proof (fun k s => in_others ps es fs k s G) as Io.
    destruct inner as [gs|t]; cbn [Form.de_flat].
    - destruct (apart_inner _ _ Ap) as (Nf & Ng & Sep).
      pose proof (visit_collected_spec msg gs (others fs es) [] Nd ltac:(intros ? ? [])) as K.
      pose proof (collected_fault gs (others fs es) []) as K'.
      destruct (visit_collected gs (others fs es) []) as [acc|e'|p]; [| |discriminate].
      + destruct K as (added & -> & K1 & K2). cbn [app].
        destruct (fill gs added) as [l|e'|p] eqn:Fi; cbn [omap]; intros X; try discriminate X. injection X as ->.
        apply fill_fails in Fi as (pre & f & post & -> & P & Em & Rq & ->). eexists. split; [reflexivity|].
        assert (None_val : forall g, In g (pre ++ f :: post) -> aget str_eqb (f_name g) added = None -> values_of (f_name g) ps = []).
        { intros g Ig E. destruct (values_of (f_name g) ps) as [|s r] eqn:V; [reflexivity|]. exfalso.
          destruct (K2 (f_name g) s g) as (v & I & _).
          - apply Io. split; [apply Sep; exact Ig|eauto].
          - apply field_of_in; assumption.
          - apply aget_None in E; [|apply str_eqb_eq]. apply E. exists v. exact I. }
        apply in_missing.
        * intros h s r m Ih V U. destruct (K2 (f_name h) s h) as (v & _ & Pl).
          -- apply Io. split; [apply Sep; exact Ih|eauto].
          -- apply field_of_in; assumption.
          -- apply (de_content_says (F:=F)) in U. pose proof (content_plain (F:=F) msg (f_type h) s) as D. rewrite U in D. exact (D v Pl).
        * exists pre, post. split; [reflexivity|]. split; [|split; [exact Rq|apply None_val; [apply in_elt|exact Em]]].
          intros h Ih. assert (If : In h (pre ++ f :: post)) by (apply in_app_iff; auto).
          destruct (aget str_eqb (f_name h) added) as [v|] eqn:Eh.
          -- apply aget_Some_In in Eh; [|apply str_eqb_eq]. destruct (K1 _ _ Eh) as (s & g' & I & Eg & Pl).
             rewrite (field_of_in _ _ Ng If) in Eg. injection Eg as <-. apply Io in I as (_ & r & V). exists v. left. eauto.
          -- destruct (P h Ih) as [N|[v M]]; [congruence|]. exists v. apply missing_value; [apply None_val; assumption|exact M].
      + intros [= ->]. destruct (K' e Nd ltac:(intros ? ? []) eq_refl) as (k & s & g & m & I & Eg & -> & U).
        apply field_of_some in Eg as [Ig <-]. apply Io in I as (_ & r & V). exists m. split; [reflexivity|]. eapply in_field; eauto.
    - destruct (collected_entries t (others fs es) []) as [acc|e'|p] eqn:E; cbn [omap]; intros X; try discriminate X. injection X as ->.
      apply entries_fault in E as (k & s & m & I & -> & U). apply Io in I as (Nk & r & V). exists m. split; [reflexivity|]. eapply in_entry; eauto.
  Qed.

  Lemma inner_complete q fs inner m : apart fs inner -> inner_says (parse q) (map f_name fs) inner m ->
    exists it1 it2, iteration it1 /\ iteration it2 /\ de_flat inner (others fs (handed it1 it2 q)) = Fail (FMessage m).
  Proof.
    intros Ap J. destruct J as [gs g s r m Ig V U|gs g Nof (pre & post & Egs & Hp & Rq & V)|t k s r m Nk V U].
    - destruct (apart_inner _ _ Ap) as (Nf & Ng & Sep).
      destruct (first_entry q (f_name g)) as (it1 & it2 & es & I1 & I2 & E); [rewrite V; discriminate|].
      exists it1, it2. split; [exact I1|]. split; [exact I2|]. rewrite E, V. unfold others. cbn [flat_map fst snd hd].
      rewrite (proj2 (field_of_none fs (f_name g)) (Sep g Ig)). cbn [app Form.de_flat Form.visit_collected].
      change (find (fun h : Form.field F => str_eqb (f_name g) (f_name h)) gs) with (field_of gs (f_name g)).
      rewrite (field_of_in _ _ Ng Ig). cbn [aget]. apply (de_content_says (F:=F)) in U. rewrite U. reflexivity.
    - exists (fun l => l), (fun l => l). split; [intros l; reflexivity|]. split; [intros l; reflexivity|].
      destruct (apart_inner _ _ Ap) as (Nf & Ng & Sep).
      assert (G : grouped (parse q) (handed (fun l => l) (fun l => l) q)) by (apply handed_grouped; intros l; reflexivity).
      set (es := handed (fun l => l) (fun l => l) q) in *.
      pose proof (others_nodup fs es (proj1 G)) as Nd. pose proof (fun k s => in_others (parse q) es fs k s G) as Io.
      cbn [Form.de_flat]. pose proof (visit_collected_spec msg gs (others fs es) [] Nd ltac:(intros ? ? [])) as K.
      pose proof (collected_fault gs (others fs es) []) as K'.
      destruct (visit_collected gs (others fs es) []) as [acc|e'|p]; [| |contradiction].
      + destruct K as (added & -> & K1 & K2). cbn [app].
        assert (Get : forall h v, In h gs -> aget str_eqb (f_name h) added = Some v -> values_of (f_name h) (parse q) <> []).
        { intros h v Ih Eh. apply aget_Some_In in Eh; [|apply str_eqb_eq]. destruct (K1 _ _ Eh) as (s & g' & I & Eg & _).
          apply Io in I as (_ & r & W). rewrite W. discriminate. }
        erewrite (fill_missing gs added pre g post Egs); [reflexivity| | |exact Rq].
        * intros h Ih. assert (If : In h gs) by (rewrite Egs; apply in_app_iff; auto).
          destruct (Hp h Ih) as [v [(s & r & W & Pl)|(W & D)]].
          -- left. destruct (K2 (f_name h) s h) as (w & I & _); [apply Io; split; [apply Sep; exact If|eauto]|apply field_of_in; assumption|].
             intros X. apply aget_None in X; [|apply str_eqb_eq]. apply X. eauto.
          -- right. unfold missing. destruct D as [D|(D & (t & T) & _)]; rewrite D; [eauto|]. rewrite T. eauto.
        * destruct (aget str_eqb (f_name g) added) as [v|] eqn:Eg; [|reflexivity]. exfalso.
          apply (Get g v); [rewrite Egs; apply in_elt|exact Eg|exact V].
      + exfalso. destruct (K' e' Nd ltac:(intros ? ? []) eq_refl) as (k & s & h & m & I & Eh & -> & U).
        apply field_of_some in Eh as [Ih <-]. apply Io in I as (_ & r & W). eapply Nof; eauto.
    - destruct (first_entry q k) as (it1 & it2 & es & I1 & I2 & E); [rewrite V; discriminate|].
      exists it1, it2. split; [exact I1|]. split; [exact I2|]. rewrite E, V. unfold others. cbn [flat_map fst snd hd].
      rewrite (proj2 (field_of_none fs k) Nk). cbn [app Form.de_flat Form.collected_entries].
      apply (de_content_says (F:=F)) in U. rewrite U. reflexivity.
  Qed.

  (** ** All targets *)

  Lemma grouped_cons ps k vs es : grouped ps ((k, vs) :: es) -> values_of k ps <> [].
  Proof. intros [_ G]. destruct (proj1 (G k vs) (or_introl eq_refl)) as [N ->]. exact N. Qed.

  Lemma grouped_empty ps : grouped ps [] -> forall k, values_of k ps = [].
  Proof.
    intros [_ G] k. destruct (values_of k ps) as [|s r] eqn:V; [reflexivity|]. exfalso.
    apply (proj2 (G k (s :: r))). split; [discriminate|symmetry; exact V].
  Qed.

  Lemma target_sound ps es tg e : grouped ps es -> named_apart tg -> from_cow_map tg es = Fail e ->
    target_says ps tg (error_text (EForm e)).
  Proof.
    intros G Na E. destruct tg as [fs deny|fs inner|k t|on_empty| | |].
    - destruct (struct_sound ps es fs deny e G Na E) as (m & -> & J). exact J.
    - cbn [ErrorSpec.target_says]. rewrite flat_split in E. pose proof (apart_names _ _ Na) as Nf.
      pose proof (struct_target pf msg ps es fs false G Nf) as K. pose proof (struct_sound ps es fs false) as K'.
      destruct (from_cow_map (TgStruct fs false) es) as [r|e'|p]; [| |discriminate E].
      + destruct K as (l & -> & _ & K). right. split; [exists l; apply K; reflexivity|].
        destruct (de_flat inner (others fs es)) as [r|e'|p] eqn:D; cbn [omap] in E; try discriminate E. injection E as ->.
        destruct (inner_sound ps es fs inner e G Na D) as (m & -> & J). exact J.
      + injection E as ->. left. destruct (K' e G Nf eq_refl) as (m & -> & J). exact J.
    - cbn [ErrorSpec.target_says]. cbn [Form.from_cow_map] in E.
      destruct (visit_entries k t (S (length es)) true es []) as [r|e'|p] eqn:D; cbn [omap] in E; try discriminate E. injection E as ->.
      destruct k.
      + destruct (visit_entries_fault t es (S (length es)) true es [] e eq_refl (Nat.lt_succ_diag_r _) (grouped_full _ _ G) D) as (k & vs & m & I & -> & C).
        apply (proj2 G) in I as [_ ->]. exists k. exact C.
      + destruct es as [|[k vs] es]; [discriminate D|]. cbn in D. injection D as <-. exists k. split; [eapply grouped_cons; eauto|reflexivity].
      + destruct es as [|[k vs] es]; [discriminate D|]. cbn in D. injection D as <-. split; [exists k; eapply grouped_cons; eauto|reflexivity].
    - rewrite any_target in E. destruct es as [|[k vs] es]; [|discriminate E]. split; [apply grouped_empty; exact G|].
      destruct on_empty as [v|e']; [discriminate E|]. injection E as ->. eauto.
    - destruct es as [|[k vs] es]; [|discriminate E]. injection E as <-. split; [apply grouped_empty; exact G|reflexivity].
    - destruct es as [|[k vs] es]; cbn in E; injection E as <-.
      + left. split; [apply grouped_empty; exact G|reflexivity].
      + right. exists k. split; [eapply grouped_cons; eauto|reflexivity].
    - cbn in E. injection E as <-. reflexivity.
  Qed.

  Lemma target_complete q tg m : named_apart tg -> target_says (parse q) tg m ->
    exists it1 it2, iteration it1 /\ iteration it2 /\
      exists e, from_cow_map tg (handed it1 it2 q) = Fail e /\ error_text (EForm e) = m.
  Proof.
    assert (Id : iteration (fun l : list entry => l)) by (intros l; reflexivity).
    assert (Emp : (forall k, values_of k (parse q) = []) -> handed (fun l => l) (fun l => l) q = []).
    { intros N. pose proof (handed_grouped _ _ q Id Id) as G. destruct (handed (fun l => l) (fun l => l) q) as [|[k vs] es]; [reflexivity|].
      exfalso. exact (grouped_cons _ _ _ _ G (N k)). }
    intros Na J. destruct tg as [fs deny|fs inner|k t|on_empty| | |]; cbn [ErrorSpec.target_says] in J.
    - destruct (struct_complete q fs deny m Na J) as (it1 & it2 & I1 & I2 & E). exists it1, it2. split; [exact I1|]. split; [exact I2|].
      rewrite E. eauto.
    - pose proof (apart_names _ _ Na) as Nf. destruct J as [J|[(vs & F2) J]].
      + destruct (struct_complete q fs false m Nf J) as (it1 & it2 & I1 & I2 & E). exists it1, it2. split; [exact I1|]. split; [exact I2|].
        rewrite flat_split, E. eauto.
      + destruct (inner_complete q fs inner m Na J) as (it1 & it2 & I1 & I2 & E). exists it1, it2. split; [exact I1|]. split; [exact I2|].
        rewrite flat_split, E. pose proof (handed_grouped _ _ q I1 I2) as G.
        pose proof (struct_target pf msg (parse q) _ fs false G Nf) as K.
        destruct (from_cow_map (TgStruct fs false) (handed it1 it2 q)) as [r|e|p]; [| |contradiction].
        * destruct K as (l & -> & _). cbn [omap]. eauto.
        * exfalso. eapply K; [intros [=]|exact F2].
    - destruct k.
      + destruct J as [k C]. destruct (first_entry q k (complains_nonempty pf msg _ _ _ C)) as (it1 & it2 & es & I1 & I2 & E).
        exists it1, it2. split; [exact I1|]. split; [exact I2|]. rewrite E. cbn [Form.from_cow_map Form.visit_entries next_key de_key omap next_value].
        apply (de_complains pf msg) in C as [-> _]; [|apply values_full]. cbn. eauto.
      + destruct J as (k & N & ->). destruct (first_entry q k N) as (it1 & it2 & es & I1 & I2 & E).
        exists it1, it2. split; [exact I1|]. split; [exact I2|]. rewrite E. cbn. eauto.
      + destruct J as ([k N] & ->). destruct (first_entry q k N) as (it1 & it2 & es & I1 & I2 & E).
        exists it1, it2. split; [exact I1|]. split; [exact I2|]. rewrite E. cbn. eauto.
    - destruct J as (N & e & -> & ->). exists (fun l => l), (fun l => l). split; [exact Id|]. split; [exact Id|].
      rewrite (Emp N). cbn. eauto.
    - destruct J as (N & ->). exists (fun l => l), (fun l => l). split; [exact Id|]. split; [exact Id|]. rewrite (Emp N). cbn. eauto.
    - destruct J as [(N & ->)|(k & N & ->)].
      + exists (fun l => l), (fun l => l). split; [exact Id|]. split; [exact Id|]. rewrite (Emp N). cbn. eauto.
      + destruct (first_entry q k N) as (it1 & it2 & es & I1 & I2 & E).
        exists it1, it2. split; [exact I1|]. split; [exact I2|]. rewrite E. cbn. eauto.
    - subst m. exists (fun l => l), (fun l => l). split; [exact Id|]. split; [exact Id|]. cbn. eauto.
  Qed.

  (** C91 *)
  Lemma read_fails it1 it2 {X} src (c : context X) q ps tg e : has_data src c q -> form_pairs q ps -> named_apart tg ->
    iteration it1 -> iteration it2 -> read_from pf msg it1 it2 src tg c = inr e -> target_says ps tg (error_text e).
  Proof.
    intros D P Na I1 I2. apply parse_spec in P. subst ps. rewrite (read_data pf msg _ _ src c _ _ D).
    unfold parse_queries. fold (handed it1 it2 q). pose proof (handed_grouped _ _ q I1 I2) as G.
    destruct (from_cow_map tg (handed it1 it2 q)) as [v|e'|p] eqn:E; cbn [queries_result]; intros Y; try discriminate Y.
    injection Y as <-. eapply target_sound; eauto.
  Qed.

  Lemma struct_error it1 it2 fs deny q e : iteration it1 -> iteration it2 -> NoDup (map f_name fs) ->
    parse_queries pf msg it1 it2 (TgStruct fs deny) q = Fail e -> exists m, e = FMessage m /\ struct_says (parse q) fs deny m.
  Proof. intros I1 I2 N. exact (struct_sound _ _ fs deny e (handed_grouped _ _ q I1 I2) N). Qed.

  Lemma read_says {X} src (c : context X) q ps tg m : has_data src c q -> form_pairs q ps -> named_apart tg ->
    ((exists it1 it2 e, iteration it1 /\ iteration it2 /\ read_from pf msg it1 it2 src tg c = inr e /\ error_text e = m) <->
     target_says ps tg m).
  Proof.
    intros D P Na. split.
    - intros (it1 & it2 & e & I1 & I2 & E & <-). exact (read_fails it1 it2 src c q ps tg e D P Na I1 I2 E).
    - intros J. apply parse_spec in P. subst ps. destruct (target_complete q tg m Na J) as (it1 & it2 & I1 & I2 & e & E & T).
      exists it1, it2, (EForm e). split; [exact I1|]. split; [exact I2|]. rewrite (read_data pf msg _ _ src c _ _ D).
      unfold parse_queries. fold (handed it1 it2 q). rewrite E. auto.
  Qed.
End Targets.
