(** The errors of enums with a tag and a content. *)

From Coq Require Import String ZArith.
From Verif Require Import Base BaseFacts Utf8 RouteTrie UrlEncoded UrlSpec UrlLemmas Http Form AppSpec FormSpec.
From Verif Require Import AppLemmas4 FormLemmas FormLemmas2 FormLemmas3 FormWitness FormLemmas4 FormLemmas5 FormLemmas6 MoreLemmas.
From Verif Require Import Adjacent AdjacentSpec AdjacentLemmas ErrorSpec ErrorLemmas ErrorLemmas2.
Local Open Scope string_scope.
Local Open Scope list_scope.

Lemma filter_keys {V} (p : str -> bool) (l : list (str * V)) : map fst (filter (fun e => p (fst e)) l) = filter p (map fst l).
Proof. induction l as [|[k v] l IH]; cbn; [reflexivity|]. destruct (p k); cbn; congruence. Qed.

Lemma filter_one {V} k (v : V) l : NoDup (map fst l) -> In (k, v) l -> filter (fun e => str_eqb k (fst e)) l = [(k, v)].
Proof.
  induction l as [|[k' v'] l IH]; cbn; [contradiction|]. intros Nd I. inversion Nd as [|? ? N1 N2]; subst.
  destruct I as [[= -> ->]|I].
  - rewrite str_eqb_refl. f_equal. destruct (filter _ l) as [|[x y] r] eqn:E; [reflexivity|]. exfalso.
    assert (J : In (x, y) (filter (fun e => str_eqb k (fst e)) l)) by (rewrite E; left; reflexivity).
    apply filter_In in J as [J K]. cbn in K. apply str_eqb_eq in K. subst x. apply N1. apply (in_map fst) in J. exact J.
  - destruct (BaseFacts.str_eqb_spec k k') as [->|N]; [|apply IH; assumption]. exfalso. apply N1. apply (in_map fst) in I. exact I.
Qed.

(** Any two keys may come first. *)
Lemma two_entries q k k' : k <> k' -> values_of k (parse q) <> [] -> values_of k' (parse q) <> [] ->
  exists it1 it2 es, iteration it1 /\ iteration it2 /\
    handed it1 it2 q = (k, values_of k (parse q)) :: (k', values_of k' (parse q)) :: es.
Proof.
  intros Nk N N'. exists (fun l => l), (fun l => key_first k (key_first k' l)). pose proof (parsed_grouped q) as [Nd G].
  assert (I : In (k, values_of k (parse q)) (parsed_form_map q)) by (apply G; auto).
  assert (I' : In (k', values_of k' (parse q)) (parsed_form_map q)) by (apply G; auto).
  unfold handed. rewrite cow_map_id by exact Nd.
  assert (Nd' : NoDup (map fst (key_first k' (parsed_form_map q)))).
  { eapply Permutation_NoDup; [|exact Nd]. apply Permutation_map. symmetry. apply key_first_iteration. }
  assert (J : In (k, values_of k (parse q)) (key_first k' (parsed_form_map q))).
  { eapply Permutation_in; [symmetry; apply key_first_iteration|exact I]. }
  eexists. split; [intros l; reflexivity|]. split.
  { intros l. transitivity (key_first k' l); apply key_first_iteration. }
  unfold key_first at 1. rewrite (filter_one _ _ _ Nd' J). unfold key_first at 1. rewrite (filter_one _ _ _ Nd I').
  cbn [app filter fst]. destruct (BaseFacts.str_eqb_spec k k'); [contradiction|]. reflexivity.
Qed.

Section Adjacent.
  Context {F : Type} (pf : bool -> str -> F + str) (msg : mismatch -> str) (aj : adjacent).
  Notation evalue := (str * option (value F))%type.
  Notation relevant_key := (relevant_key pf msg aj).
  Notation from_adjacent := (from_cow_map_adjacent pf msg aj).
  Notation relevant := (relevant aj).
  Notation says := (adjacent_says pf msg aj).

  Lemma relevant_fault es : forall fuel first input e i, at_entries first input es -> length es < fuel ->
    (forall k vs, In (k, vs) es -> vs <> []) -> relevant_key fuel first input = (Fail e, i) ->
    aj_deny aj = true /\ exists k vs, In (k, vs) es /\ k <> aj_tag aj /\ k <> aj_key aj /\ e = FMessage (msg (MUnknown k)).
  Proof.
    induction es as [|[k vs] es IH]; intros fuel first input e i A L H; (destruct fuel as [|n]; [cbn in L; lia|]);
      cbn [Adjacent.relevant_key]; rewrite (next_key_spec msg _ _ _ _ A); [discriminate|].
    cbn [de_key omap]. destruct (BaseFacts.str_eqb_spec k (aj_tag aj)) as [|Kt]; [discriminate|].
    destruct (BaseFacts.str_eqb_spec k (aj_key aj)) as [|Kk]; [discriminate|].
    destruct (aj_deny aj) eqn:D.
    { intros [= <- _]. split; [reflexivity|]. exists k, vs. split; [left; reflexivity|]. auto. }
    specialize (H k vs (or_introl eq_refl)) as Ne.
    unfold next_ignored. cbn [next_value Form.de fst]. destruct vs as [|s vs]; [congruence|]. cbn [omap]. intros X.
    destruct (IH n false ((k, s :: vs) :: es) e i (ex_intro _ _ eq_refl) ltac:(cbn in L; lia) (fun k' vs' I => H k' vs' (or_intror I)) X) as [Q _].
    discriminate Q.
  Qed.

  Lemma key_tag fuel first input vs es : at_entries first input ((aj_tag aj, vs) :: es) ->
    relevant_key (S fuel) first input = (Done (Some KTag), (aj_tag aj, vs) :: es).
  Proof. intros A. cbn [Adjacent.relevant_key]. rewrite (next_key_spec msg _ _ _ _ A). cbn [de_key omap]. rewrite str_eqb_refl. reflexivity. Qed.

  Lemma key_content fuel first input vs es : aj_tag aj <> aj_key aj -> at_entries first input ((aj_key aj, vs) :: es) ->
    relevant_key (S fuel) first input = (Done (Some KContent), (aj_key aj, vs) :: es).
  Proof.
    intros N A. cbn [Adjacent.relevant_key]. rewrite (next_key_spec msg _ _ _ _ A). cbn [de_key omap].
    destruct (BaseFacts.str_eqb_spec (aj_key aj) (aj_tag aj)); [congruence|]. rewrite str_eqb_refl. reflexivity.
  Qed.

  Section Entries.
    Context (ps : list (str * str)) (es : list entry) (G : grouped ps es) (So : sound_enum aj).

    (** The keys not looked at yet. *)
    Definition part (l : list entry) : Prop := (forall k vs, In (k, vs) l -> In (k, vs) es) /\ length l <= length es.

    Lemma key_fault first input l e i : at_entries first input l -> part l ->
      relevant_key (S (length es)) first input = (Fail e, i) -> exists m, e = FMessage m /\ says ps m.
    Proof.
      intros A [Pa Le] X.
      destruct (relevant_fault l _ _ _ e i A (le_n_S _ _ Le) (fun k vs I => proj2 (entry_values _ _ G k vs (Pa k vs I))) X)
        as (D & k & vs & I & Nt & Nk & ->).
      eexists. split; [reflexivity|]. apply Pa in I. destruct (entry_values _ _ G k vs I) as [-> N]. apply as_unknown; assumption.
    Qed.

    Lemma part_tail l1 e l2 : es = l1 ++ e :: l2 -> part l2.
    Proof.
      intros E. split; [|rewrite E, app_length; cbn; lia]. intros k vs I. rewrite E. apply in_app_iff. right. right. exact I.
    Qed.

    Lemma remaining_fault l1 x l2 r e : es = l1 ++ x :: l2 -> filter relevant l2 = [] ->
      remaining pf msg aj (S (length es)) (x :: l2) r = Fail e -> exists m, e = FMessage m /\ says ps m.
    Proof.
      intros E Fl. unfold remaining. pose proof (part_tail _ _ _ E) as Pa.
      pose proof (key_fault false (x :: l2) l2) as K.
      pose proof (relevant_spec pf msg aj l2 (S (length es)) false (x :: l2) (ex_intro _ _ eq_refl) (le_n_S _ _ (proj2 Pa))
                    (tail_full ps es G _ _ _ E)) as Q.
      destruct (relevant_key _ false (x :: l2)) as [[[a|]|y|p] i]; cbn [fst]; intros X; try discriminate X.
      - exfalso. destruct Q as (f1 & f & f2 & _ & -> & _ & N & _).
        destruct f as [k vs]. cbn [fst] in N. subst k. destruct (relevant_none aj _ Fl vs) as [A B].
        destruct a; [apply A|apply B]; apply in_elt.
      - injection X as ->. eapply K; [eexists; reflexivity|exact Pa|reflexivity].
    Qed.

    Lemma untagged_says : admitted aj ps -> values_of (aj_tag aj) ps = [] ->
      exists m, FMessage (lit "missing field `" ++ aj_tag aj ++ lit "`") = FMessage m /\ says ps m.
    Proof. intros A V. eexists. split; [reflexivity|]. apply as_untagged; assumption. Qed.

    Lemma unknown_variant s r : values_of (aj_tag aj) ps = s :: r -> find (fun v => str_eqb s (va_name v)) (aj_variants aj) = None ->
      says ps (msg (MVariant s)).
    Proof.
      intros V N. eapply as_variant; [exact V|]. intros I. apply in_map_iff in I as (v & <- & I).
      apply (find_none _ _ N) in I. rewrite str_eqb_refl in I. discriminate I.
    Qed.

    Lemma from_says e : from_adjacent es = Fail e -> exists m, e = FMessage m /\ says ps m.
    Proof.
      unfold from_cow_map_adjacent.
      assert (Pe : part es) by (split; auto).
      pose proof (relevant_spec pf msg aj es (S (length es)) true es eq_refl (Nat.lt_succ_diag_r _) (fun k vs I => proj2 (entry_values ps es G k vs I))) as K1.
      pose proof (key_fault true es es) as J1.
      destruct (relevant_key (S (length es)) true es) as [[[[]|]|x|p] i]; [| | | |discriminate].
      - destruct K1 as (es1 & en & es2 & -> & E & F1 & Ne & D1).
        destruct (split_known ps es G _ _ _ E) as (Ve & Vn & Me). cbn [name_of] in Ne. rewrite Ne in *.
        destruct en as [k vs]. cbn [fst snd] in *. subst k.
        unfold read_tag. cbn [next_value Form.de fst]. destruct vs as [|s vs]; [congruence|].
        pose proof (tagged_find aj ps So s vs (eq_sym Ve)) as T.
        destruct (find (fun v => str_eqb s (va_name v)) (aj_variants aj)) as [v|] eqn:Fd.
        2:{ intros [= <-]. eexists. split; [reflexivity|]. eapply unknown_variant; eauto. }
        pose proof (part_tail _ _ _ E) as P2.
        pose proof (relevant_spec pf msg aj es2 (S (length es)) false ((aj_tag aj, s :: vs) :: es2) (ex_intro _ _ eq_refl) (le_n_S _ _ (proj2 P2)) (tail_full ps es G _ _ _ E)) as K2.
        pose proof (key_fault false ((aj_tag aj, s :: vs) :: es2) es2) as J2.
        destruct (relevant_key _ false _) as [[[[]|]|x|p] i]; [| | | |discriminate].
        + exfalso. destruct K2 as (f1 & [k ws] & f2 & _ & -> & _ & N & _). cbn in N. subst k. apply (Me ws). rewrite !in_app_iff.
          right. right. left. reflexivity.
        + destruct K2 as (f1 & [k ws] & f2 & -> & -> & F2 & N & D2). cbn [fst name_of] in N. subst k.
          assert (F3 : filter relevant f2 = []) by (eapply (after_both aj ps es G es1 _ f1 _ f2 KTag); eauto).
          assert (E' : es = (es1 ++ (aj_tag aj, s :: vs) :: f1) ++ (aj_key aj, ws) :: f2) by (rewrite E, <- app_assoc; reflexivity).
          destruct (split_known ps es G _ _ _ E') as (Vk & Wn & _). cbn [fst snd] in Vk, Wn.
          assert (Fw : full ws) by (eapply grouped_full; [exact G|]; rewrite E'; apply in_elt).
          unfold read_content. cbn [next_value]. destruct v as [n [t|]]; cbn [va_content va_name] in *.
          * destruct (fst (Form.de pf msg t ws)) as [y|x|p] eqn:Dd; cbn [omap]; [| |discriminate].
            -- destruct (remaining _ _ _ _ _ _) as [r|x|p] eqn:Rm; intros X; try discriminate X. injection X as ->.
               eapply remaining_fault; [exact E'|exact F3|exact Rm].
            -- intros [= ->]. destruct (value_fails pf msg t ws e Wn Fw Dd) as (m & -> & C). exists m. split; [reflexivity|].
               apply (as_content pf msg aj ps n t); [apply T; reflexivity|]. rewrite <- Vk. exact C.
          * cbn [Form.de fst]. destruct ws as [|w ws]; [congruence|]. cbn [omap]. intros [= <-]. eexists. split; [reflexivity|].
            apply (as_superfluous pf msg aj ps n w ws); [apply T; reflexivity|auto].
        + destruct K2 as [F2 D2].
          assert (Vk : values_of (aj_key aj) ps = []).
          { apply (no_values ps es G). intros ws I. rewrite E in I. apply in_app_iff in I as [I|[I|I]].
            - exact (proj2 (relevant_none aj _ F1 ws) I).
            - injection I as Q _. destruct So as [Q' _]. exact (Q' Q).
            - exact (proj2 (relevant_none aj _ F2 ws) I). }
          assert (Ad : admitted aj ps).
          { apply (admitted_iff aj ps es G). intros D x I. rewrite E, (D1 D), (D2 D) in I. destruct I as [<-|[]]. apply (name_relevant aj _ KTag). reflexivity. }
          unfold no_content. destruct v as [n [t|]]; cbn [va_content va_name] in *; [|discriminate].
          unfold missing. cbn [f_default f_type f_name].
          assert (Tg : tagged aj ps (Variant n (Some t))) by (apply T; reflexivity).
          destruct t; cbn [omap]; try discriminate; intros [= <-]; eexists; (split; [reflexivity|]);
            (eapply as_missing; [exact Ad|exact Tg|discriminate|exact Vk]).
        + intros [= ->]. eapply J2; [eexists; reflexivity|exact P2|reflexivity].
      - destruct K1 as (es1 & en & es2 & -> & E & F1 & Ne & D1).
        destruct (split_known ps es G _ _ _ E) as (Ve & Vn & Me). cbn [name_of] in Ne. rewrite Ne in *.
        destruct en as [k vs]. cbn [fst snd] in *. subst k.
        cbn [next_value Form.de fst]. destruct vs as [|s vs]; [congruence|].
        pose proof (part_tail _ _ _ E) as P2.
        pose proof (relevant_spec pf msg aj es2 (S (length es)) false ((aj_key aj, s :: vs) :: es2) (ex_intro _ _ eq_refl) (le_n_S _ _ (proj2 P2)) (tail_full ps es G _ _ _ E)) as K2.
        pose proof (key_fault false ((aj_key aj, s :: vs) :: es2) es2) as J2.
        destruct (relevant_key _ false _) as [[[[]|]|x|p] i]; [| | | |discriminate].
        + destruct K2 as (f1 & [k ws] & f2 & -> & -> & F2 & N & D2). cbn [fst name_of] in N. subst k.
          assert (F3 : filter relevant f2 = []) by (eapply (after_both aj ps es G es1 _ f1 _ f2 KContent); eauto).
          assert (E' : es = (es1 ++ (aj_key aj, s :: vs) :: f1) ++ (aj_tag aj, ws) :: f2) by (rewrite E, <- app_assoc; reflexivity).
          destruct (split_known ps es G _ _ _ E') as (Vk & Wn & _). cbn [fst snd] in Vk, Wn.
          unfold read_tag. cbn [next_value Form.de fst]. destruct ws as [|w ws]; [congruence|].
          pose proof (tagged_find aj ps So w ws (eq_sym Vk)) as T.
          destruct (find (fun v => str_eqb w (va_name v)) (aj_variants aj)) as [v|] eqn:Fd.
          2:{ intros [= <-]. eexists. split; [reflexivity|]. eapply unknown_variant; eauto. }
          unfold read_later. destruct v as [n [t|]]; cbn [va_content va_name] in *.
          * destruct (de_content msg t s) as [y|x|p] eqn:Dd; cbn [omap]; [| |discriminate].
            -- destruct (remaining _ _ _ _ _ _) as [r|x|p] eqn:Rm; intros X; try discriminate X. injection X as ->.
               eapply remaining_fault; [exact E'|exact F3|exact Rm].
            -- intros [= ->]. destruct (de_content_fails msg _ _ _ Dd) as [m ->]. apply de_content_says in Dd. exists m. split; [reflexivity|].
               apply (as_text pf msg aj ps n t s vs); [apply T; reflexivity|auto|exact Dd].
          * cbn [de_content omap]. intros [= <-]. eexists. split; [reflexivity|].
            apply (as_superfluous pf msg aj ps n s vs); [apply T; reflexivity|auto].
        + exfalso. destruct K2 as (f1 & [k ws] & f2 & _ & -> & _ & N & _). cbn in N. subst k. apply (Me ws). rewrite !in_app_iff.
          right. right. left. reflexivity.
        + destruct K2 as [F2 D2]. intros [= <-]. apply untagged_says.
          * apply (admitted_iff aj ps es G). intros D x I. rewrite E, (D1 D), (D2 D) in I. destruct I as [<-|[]]. apply (name_relevant aj _ KContent). reflexivity.
          * apply (no_values ps es G). intros ws I. rewrite E in I. apply in_app_iff in I as [I|[I|I]].
            -- exact (proj1 (relevant_none aj _ F1 ws) I).
            -- injection I as Q _. destruct So as [Q' _]. congruence.
            -- exact (proj1 (relevant_none aj _ F2 ws) I).
        + intros [= ->]. eapply J2; [eexists; reflexivity|exact P2|reflexivity].
      - destruct K1 as [F1 D1]. intros [= <-]. apply untagged_says.
        + apply (admitted_iff aj ps es G). intros D x I. rewrite (D1 D) in I. destruct I.
        + apply (no_values ps es G). intros vs. apply (relevant_none aj). exact F1.
      - intros [= ->]. eapply J1; [reflexivity|exact Pe|reflexivity].
    Qed.
  End Entries.

  Lemma not_tagged ps v : values_of (aj_tag aj) ps = [] -> ~ tagged aj ps v.
  Proof. intros V [_ [r E]]. congruence. Qed.

  Lemma complete q m : sound_enum aj -> says (parse q) m ->
    exists it1 it2, iteration it1 /\ iteration it2 /\ from_adjacent (handed it1 it2 q) = Fail (FMessage m).
  Proof.
    intros So J. pose proof So as [Ntk _].
    assert (Id : iteration (fun l : list entry => l)) by (intros l; reflexivity).
    assert (Gi : grouped (parse q) (handed (fun l => l) (fun l => l) q)) by (apply handed_grouped; exact Id).
    destruct J as [k D N Nt Nk|Ad V|s r V Ni|n t m Tg C|n t s r m Tg V U|n s r Tg V|n t Ad Tg Nop V].
    - destruct (first_entry q k N) as (it1 & it2 & es & I1 & I2 & E). exists it1, it2. split; [exact I1|]. split; [exact I2|]. rewrite E.
      unfold from_cow_map_adjacent. cbn [length Adjacent.relevant_key next_key de_key omap].
      destruct (BaseFacts.str_eqb_spec k (aj_tag aj)); [contradiction|]. destruct (BaseFacts.str_eqb_spec k (aj_key aj)); [contradiction|].
      rewrite D. reflexivity.
    - exists (fun l => l), (fun l => l). split; [exact Id|]. split; [exact Id|].
      pose proof (from_spec pf msg aj (parse q) _ Gi So) as K. pose proof (from_says (parse q) _ Gi So) as K'.
      destruct (from_adjacent (handed (fun l => l) (fun l => l) q)) as [r|e|p]; [| |contradiction].
      + exfalso. destruct K as [_ K]. exact (untagged pf aj (parse q) _ V r K).
      + destruct (K' e eq_refl) as (m & -> & S). do 2 f_equal.
        destruct S as [k D N Nt Nk|_ _|s r V' Ni|n t m Tg C|n t s r m Tg V' U|n s r Tg V'|n t _ Tg Nop V'];
          try (exfalso; exact (not_tagged _ _ V Tg)); [|reflexivity|congruence].
        exfalso. destruct (Ad D k N); contradiction.
    - destruct (first_entry q (aj_tag aj)) as (it1 & it2 & es & I1 & I2 & E); [rewrite V; discriminate|].
      exists it1, it2. split; [exact I1|]. split; [exact I2|]. rewrite E, V.
      unfold from_cow_map_adjacent. cbn [length Adjacent.relevant_key next_key de_key omap]. rewrite str_eqb_refl.
      unfold read_tag. cbn [next_value Form.de fst]. destruct (find (fun v => str_eqb s (va_name v)) (aj_variants aj)) as [v|] eqn:Fd; [|reflexivity].
      exfalso. apply Ni. apply find_some in Fd as [I S]. apply str_eqb_eq in S. subst s. apply in_map. exact I.
    - pose proof (complains_nonempty pf msg _ _ _ C) as Nk. pose proof Tg as [_ [r V]].
      destruct (two_entries q (aj_tag aj) (aj_key aj) Ntk) as (it1 & it2 & es & I1 & I2 & E); [rewrite V; discriminate|exact Nk|].
      exists it1, it2. split; [exact I1|]. split; [exact I2|]. rewrite E, V.
      unfold from_cow_map_adjacent. erewrite key_tag by reflexivity.
      unfold read_tag. cbn [next_value Form.de fst]. pose proof (tagged_find aj (parse q) So _ _ V) as T. cbn [va_name] in *.
      destruct (find (fun v => str_eqb n (va_name v)) (aj_variants aj)) as [v|]; [|exfalso; exact (T _ Tg)]. apply T in Tg. subst v.
      erewrite (key_content _ _ _ _ es Ntk) by (eexists; reflexivity).
      unfold read_content. cbn [va_content va_name next_value].
      apply (de_complains pf msg) in C as [-> _]; [reflexivity|apply values_full].
    - pose proof Tg as [_ [r' V']].
      destruct (two_entries q (aj_key aj) (aj_tag aj) (not_eq_sym Ntk)) as (it1 & it2 & es & I1 & I2 & E); [rewrite V; discriminate|rewrite V'; discriminate|].
      exists it1, it2. split; [exact I1|]. split; [exact I2|]. rewrite E, V, V'.
      unfold from_cow_map_adjacent. erewrite (key_content _ _ _ _ _ Ntk) by reflexivity.
      cbn [next_value Form.de fst]. erewrite (key_tag _ _ _ _ es) by (eexists; reflexivity). unfold read_tag. cbn [next_value Form.de fst]. pose proof (tagged_find aj (parse q) So _ _ V') as T. cbn [va_name] in *.
      destruct (find (fun v => str_eqb n (va_name v)) (aj_variants aj)) as [v|]; [|exfalso; exact (T _ Tg)]. apply T in Tg. subst v.
      unfold read_later. cbn [va_content va_name]. apply (de_content_says (F:=F)) in U. rewrite U. reflexivity.
    - pose proof Tg as [_ [r' V']].
      destruct (two_entries q (aj_tag aj) (aj_key aj) Ntk) as (it1 & it2 & es & I1 & I2 & E); [rewrite V'; discriminate|rewrite V; discriminate|].
      exists it1, it2. split; [exact I1|]. split; [exact I2|]. rewrite E, V, V'.
      unfold from_cow_map_adjacent. erewrite key_tag by reflexivity.
      unfold read_tag. cbn [next_value Form.de fst]. pose proof (tagged_find aj (parse q) So _ _ V') as T. cbn [va_name] in *.
      destruct (find (fun v => str_eqb n (va_name v)) (aj_variants aj)) as [v|]; [|exfalso; exact (T _ Tg)]. apply T in Tg. subst v.
      erewrite (key_content _ _ _ _ es Ntk) by (eexists; reflexivity). reflexivity.
    - exists (fun l => l), (fun l => l). split; [exact Id|]. split; [exact Id|].
      pose proof (from_spec pf msg aj (parse q) _ Gi So) as K. pose proof (from_says (parse q) _ Gi So) as K'.
      destruct (from_adjacent (handed (fun l => l) (fun l => l) q)) as [r|e|p]; [| |contradiction].
      + exfalso. destruct K as [_ K]. unfold good in K. destruct (late aj (handed (fun l => l) (fun l => l) q)).
        * destruct K as [n' t' s' rest' y Tg' Ke Gv]. congruence.
        * destruct K as [n' Tg' Ke|n' t' Tg' Ke|n' t' y Tg' Ke Gv]; [| |congruence]; pose proof (tagged_unique aj _ _ _ So Tg Tg') as Q; try discriminate Q.
          injection Q as _ ->. exact (Nop _ eq_refl).
      + destruct (K' e eq_refl) as (m & -> & S). do 2 f_equal. pose proof Tg as [Iv [r V1]].
        destruct S as [k D N Nt Nk|_ V'|s r' V' Ni|n' t' m Tg' C|n' t' s r' m Tg' V' U|n' s r' Tg' V'|n' t' _ Tg' Nop' V'];
          [|congruence| | |congruence|congruence|reflexivity].
        * exfalso. destruct (Ad D k N); contradiction.
        * exfalso. rewrite V1 in V'. injection V' as <- <-. apply Ni. apply (in_map va_name) in Iv. exact Iv.
        * exfalso. apply (complains_nonempty pf msg _ _ _ C). exact V.
  Qed.

  (** C91 *)
  Lemma adjacent_fails it1 it2 {X} src (c : context X) q ps e : has_data src c q -> form_pairs q ps -> sound_enum aj ->
    iteration it1 -> iteration it2 -> adjacent_from pf msg it1 it2 src aj c = inr e -> says ps (error_text e).
  Proof.
    intros D P So I1 I2. apply parse_spec in P. subst ps. rewrite (adjacent_data pf msg aj _ _ src c _ D).
    pose proof (from_says _ _ (handed_grouped _ _ q I1 I2) So) as K.
    destruct (from_adjacent (handed it1 it2 q)) as [v|e'|p]; cbn [adjacent_result]; intros Y; try discriminate Y.
    injection Y as <-. destruct (K e' eq_refl) as (m & -> & S). exact S.
  Qed.

  Lemma adjacent_exact {X} src (c : context X) q ps m : has_data src c q -> form_pairs q ps -> sound_enum aj ->
    ((exists it1 it2 e, iteration it1 /\ iteration it2 /\ adjacent_from pf msg it1 it2 src aj c = inr e /\ error_text e = m) <->
     says ps m).
  Proof.
    intros D P So. split.
    - intros (it1 & it2 & e & I1 & I2 & E & <-). exact (adjacent_fails it1 it2 src c q ps e D P So I1 I2 E).
    - intros J. apply parse_spec in P. subst ps. destruct (complete q m So J) as (it1 & it2 & I1 & I2 & E).
      exists it1, it2, (EForm (FMessage m)). split; [exact I1|]. split; [exact I2|]. rewrite (adjacent_data pf msg aj _ _ src c _ D), E. auto.
  Qed.
End Adjacent.
