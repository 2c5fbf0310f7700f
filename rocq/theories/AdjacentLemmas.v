(** Enums with a tag and a content. *)

From Coq Require Import String ZArith.
From Verif Require Import Base BaseFacts Utf8 RouteTrie UrlEncoded UrlSpec UrlLemmas Http Form AppSpec FormSpec.
From Verif Require Import AppLemmas4 FormLemmas FormLemmas2 FormLemmas3 FormWitness FormLemmas4 FormLemmas5 FormLemmas6.
From Verif Require Import Adjacent AdjacentSpec.
Local Open Scope string_scope.
Local Open Scope list_scope.

Section Adjacent.
  Context {F : Type} (pf : bool -> str -> F + str) (msg : mismatch -> str) (aj : adjacent).
  Notation evalue := (str * option (value F))%type.
  Notation relevant_key := (relevant_key pf msg aj).
  Notation from_adjacent := (from_cow_map_adjacent pf msg aj).

  Definition relevant (e : entry) : bool := str_eqb (fst e) (aj_tag aj) || str_eqb (fst e) (aj_key aj).
  Definition name_of (a : akey) : str := match a with KTag => aj_tag aj | KContent => aj_key aj end.

  Lemma relevant_spec es : forall fuel first input, at_entries first input es -> length es < fuel ->
    (forall k vs, In (k, vs) es -> vs <> []) ->
    match relevant_key fuel first input with
    | (Done None, _) => filter relevant es = [] /\ (aj_deny aj = true -> es = [])
    | (Done (Some a), i) => exists es1 e es2, i = e :: es2 /\ es = es1 ++ e :: es2 /\ filter relevant es1 = [] /\
        fst e = name_of a /\ (aj_deny aj = true -> es1 = [])
    | (Fail _, _) => aj_deny aj = true /\ exists e, In e es /\ relevant e = false
    | (Panics _, _) => False
    end.
  Proof.
    induction es as [|[k vs] es IH]; intros fuel first input A L H; (destruct fuel as [|n]; [cbn in L; lia|]);
      cbn [Adjacent.relevant_key]; rewrite (next_key_spec msg _ _ _ _ A).
    { split; [reflexivity|]. reflexivity. }
    cbn [de_key omap]. destruct (str_eqb k (aj_tag aj)) eqn:Kt.
    { apply str_eqb_eq in Kt. exists [], (k, vs), es. repeat split; auto. }
    destruct (str_eqb k (aj_key aj)) eqn:Kk.
    { apply str_eqb_eq in Kk. exists [], (k, vs), es. repeat split; auto. }
    assert (R : relevant (k, vs) = false) by (unfold relevant; cbn [fst]; rewrite Kt, Kk; reflexivity).
    destruct (aj_deny aj) eqn:D; [split; [reflexivity|]; exists (k, vs); split; [left; reflexivity|exact R]|].
    specialize (H k vs (or_introl eq_refl)) as Ne.
    unfold next_ignored. cbn [next_value Form.de fst]. destruct vs as [|s vs]; [congruence|]. cbn [omap].
    specialize (IH n false ((k, s :: vs) :: es)).
    assert (IH' := IH (ex_intro _ _ eq_refl) ltac:(cbn in L; lia) (fun k' vs' I => H k' vs' (or_intror I))). clear IH.
    destruct (relevant_key n false ((k, s :: vs) :: es)) as [[[a|]|e|p] i].
    - destruct IH' as (es1 & e & es2 & -> & -> & Fl & N & _). exists ((k, s :: vs) :: es1), e, es2.
      repeat split; auto; [cbn [filter]; rewrite R; exact Fl|discriminate].
    - cbn [filter]. rewrite R. split; [apply IH'|discriminate].
    - destruct IH' as [? _]; discriminate.
    - exact IH'.
  Qed.

  Lemma relevant_none es : filter relevant es = [] -> forall vs, ~ In (aj_tag aj, vs) es /\ ~ In (aj_key aj, vs) es.
  Proof.
    intros E vs. split; intros I.
    - assert (K : In (aj_tag aj, vs) (filter relevant es)); [|rewrite E in K; exact K].
      apply filter_In. split; [exact I|]. unfold relevant. cbn [fst]. rewrite str_eqb_refl. reflexivity.
    - assert (K : In (aj_key aj, vs) (filter relevant es)); [|rewrite E in K; exact K].
      apply filter_In. split; [exact I|]. unfold relevant. cbn [fst]. rewrite str_eqb_refl. apply orb_true_r.
  Qed.

  (** The content comes first. *)
  Definition late (es : list entry) : bool :=
    match find relevant es with Some e => negb (str_eqb (fst e) (aj_tag aj)) | None => false end.

  Lemma late_at es1 e es2 : filter relevant es1 = [] -> relevant e = true ->
    late (es1 ++ e :: es2) = negb (str_eqb (fst e) (aj_tag aj)).
  Proof.
    unfold late. induction es1 as [|x es1 IH]; cbn; intros E R; [rewrite R; reflexivity|].
    destruct (relevant x); [discriminate|]. apply IH; assumption.
  Qed.

  Lemma variants_unique (l : list variant) a b : NoDup (map va_name l) -> In a l -> In b l -> va_name a = va_name b -> a = b.
  Proof.
    induction l as [|x l IH]; cbn; [contradiction|]. intros N. inversion N; subst.
    intros [->|I] [->|J] E; auto; exfalso; [rewrite E in *|rewrite <- E in *]; match goal with H : ~ In _ _ |- _ => apply H end;
      apply in_map; assumption.
  Qed.

  Section Entries.
    Context (ps : list (str * str)) (es : list entry) (G : grouped ps es) (So : sound_enum aj).

    Lemma entry_values k vs : In (k, vs) es -> vs = values_of k ps /\ vs <> [].
    Proof. intros I. apply G in I as [A B]. split; [exact B|exact A]. Qed.

    Lemma values_entry k : values_of k ps <> [] -> In (k, values_of k ps) es.
    Proof. intros N. apply G. split; [exact N|reflexivity]. Qed.

    Lemma no_values k : (forall vs, ~ In (k, vs) es) -> values_of k ps = [].
    Proof.
      intros N. destruct (values_of k ps) eqn:E; [reflexivity|]. exfalso. apply (N (values_of k ps)). apply values_entry.
      rewrite E. discriminate.
    Qed.

    Lemma admitted_iff : admitted aj ps <-> (aj_deny aj = true -> forall e, In e es -> relevant e = true).
    Proof.
      unfold admitted, relevant. split; intros H D.
      - intros [k vs] I. cbn [fst]. destruct (entry_values _ _ I) as [-> N].
        destruct (H D k N) as [->| ->]; rewrite str_eqb_refl; [reflexivity|apply orb_true_r].
      - intros k N. specialize (H D _ (values_entry k N)). cbn [fst] in H. apply orb_prop in H as [E|E]; apply str_eqb_eq in E; auto.
    Qed.

    Lemma tagged_find s rest : values_of (aj_tag aj) ps = s :: rest ->
      match find (fun v => str_eqb s (va_name v)) (aj_variants aj) with
      | Some v => forall v', tagged aj ps v' <-> v' = v
      | None => forall v', ~ tagged aj ps v'
      end.
    Proof.
      intros E. destruct (find _ _) as [v|] eqn:Fd.
      - apply find_some in Fd as [I S]. apply str_eqb_eq in S. subst s. intros v'. unfold tagged. rewrite E. split.
        + intros [I' [r [= K _]]]. destruct So as [_ N]. apply (variants_unique (aj_variants aj)); auto.
        + intros ->. split; [exact I|]. exists rest. reflexivity.
      - intros v' [I [r K]]. rewrite E in K. injection K as -> _.
        apply (find_none _ _ Fd) in I. rewrite str_eqb_refl in I. discriminate.
    Qed.

    Definition good (r : evalue) : Prop := if late es then unparsed aj ps r else meant pf aj ps r.

    Lemma meant_tagged r : meant pf aj ps r -> exists v, tagged aj ps v.
    Proof. intros []; eauto. Qed.
    Lemma unparsed_tagged (r : evalue) : unparsed aj ps r -> exists v, tagged aj ps v.
    Proof. intros []; eauto. Qed.
    Lemma good_tagged r : good r -> exists v, tagged aj ps v.
    Proof. unfold good. destruct (late es); [apply unparsed_tagged|apply meant_tagged]. Qed.
    Lemma untagged : values_of (aj_tag aj) ps = [] -> forall r, ~ good r.
    Proof. intros E r K. apply good_tagged in K as (v & _ & rest & K). congruence. Qed.

    Lemma split_known es1 e es2 : es = es1 ++ e :: es2 ->
      snd e = values_of (fst e) ps /\ snd e <> [] /\ forall vs, ~ In (fst e, vs) (es1 ++ es2).
    Proof.
      intros E. destruct e as [k vs]. destruct (entry_values k vs) as [A B].
      { rewrite E. apply in_elt. }
      split; [exact A|]. split; [exact B|]. cbn [fst]. intros ws I. destruct G as [N _]. rewrite E, map_app in N. cbn in N.
      apply NoDup_remove_2 in N. apply N. rewrite <- map_app. apply (in_map fst) in I. exact I.
    Qed.

    Lemma tail_full es1 e es2 : es = es1 ++ e :: es2 -> forall k vs, In (k, vs) es2 -> vs <> [].
    Proof. intros E k vs I. apply (entry_values k vs). rewrite E. apply in_app_iff. right. right. exact I. Qed.

    (** The keys after the two. *)
    Lemma remaining_spec es1 e es2 r : es = es1 ++ e :: es2 -> filter relevant es2 = [] ->
      match remaining pf msg aj (S (length es)) (e :: es2) r with
      | Done r' => r' = r /\ (aj_deny aj = true -> es2 = [])
      | Fail _ => ~ admitted aj ps
      | Panics _ => False
      end.
    Proof.
      intros E Fl. unfold remaining.
      assert (L : length es2 < S (length es)) by (rewrite E, app_length; cbn; lia).
      pose proof (relevant_spec es2 (S (length es)) false (e :: es2) (ex_intro _ _ eq_refl) L (tail_full _ _ _ E)) as K.
      destruct (relevant_key _ false (e :: es2)) as [[[a|]|x|p] i]; cbn [fst].
      - exfalso. destruct K as (f1 & f & f2 & _ & -> & _ & N & _).
        destruct f as [k vs]. cbn [fst] in N. subst k. destruct (relevant_none _ Fl vs) as [A B].
        destruct a; [apply A|apply B]; apply in_elt.
      - split; [reflexivity|]. apply K.
      - destruct K as [D (f & I & R)]. intros Ad. rewrite (proj1 admitted_iff Ad D f) in R; [discriminate|].
        rewrite E. apply in_app_iff. right. right. exact I.
      - exact K.
    Qed.

    Lemma name_relevant e a : fst e = name_of a -> relevant e = true.
    Proof. unfold relevant. intros ->. destruct a; cbn; rewrite str_eqb_refl; [reflexivity|apply orb_true_r]. Qed.

    (** The other one of the two keys cannot come twice, nor can the first. *)
    Lemma after_both es1 e es2 f es3 a : es = es1 ++ e :: es2 ++ f :: es3 -> filter relevant es1 = [] -> filter relevant es2 = [] ->
      fst e = name_of a -> fst f = name_of (match a with KTag => KContent | KContent => KTag end) ->
      filter relevant es3 = [].
    Proof.
      intros E F1 F2 Ne Nf. destruct (filter relevant es3) as [|[k vs] l] eqn:Fl; [reflexivity|]. exfalso.
      assert (I : In (k, vs) (filter relevant es3)) by (rewrite Fl; left; reflexivity).
      apply filter_In in I as [I R]. unfold relevant in R. cbn [fst] in R.
      destruct (split_known es1 e (es2 ++ f :: es3) E) as (_ & _ & Me).
      assert (E' : es = (es1 ++ e :: es2) ++ f :: es3) by (rewrite E, <- app_assoc; reflexivity).
      destruct (split_known _ _ _ E') as (_ & _ & Mf).
      assert (Ie : k = fst e -> False).
      { intros ->. apply (Me vs). rewrite !in_app_iff. right. right. right. exact I. }
      assert (If : k = fst f -> False).
      { intros ->. apply (Mf vs). rewrite !in_app_iff. right. exact I. }
      rewrite Ne in Ie. rewrite Nf in If. apply orb_prop in R as [R|R]; apply str_eqb_eq in R; destruct a; auto.
    Qed.

    Lemma all_known es1 e es2 f es3 a b : es = es1 ++ e :: es2 ++ f :: es3 -> fst e = name_of a -> fst f = name_of b ->
      (aj_deny aj = true -> es1 = []) -> (aj_deny aj = true -> es2 = []) -> (aj_deny aj = true -> es3 = []) -> admitted aj ps.
    Proof.
      intros E Ne Nf D1 D2 D3. apply admitted_iff. intros D x I. rewrite E, (D1 D), (D2 D), (D3 D) in I.
      destruct I as [<-|[<-|[]]]; eapply name_relevant; eauto.
    Qed.

    Lemma from_spec :
      match from_adjacent es with
      | Done r => admitted aj ps /\ good r
      | Fail _ => admitted aj ps -> forall r, ~ good r
      | Panics _ => False
      end.
    Proof.
      unfold from_cow_map_adjacent.
      pose proof (relevant_spec es (S (length es)) true es eq_refl (Nat.lt_succ_diag_r _) (fun k vs I => proj2 (entry_values k vs I))) as K1.
      destruct (relevant_key (S (length es)) true es) as [[[[]|]|x|p] i].
      - destruct K1 as (es1 & e & es2 & -> & E & F1 & Ne & D1).
        destruct (split_known _ _ _ E) as (Ve & Vn & Me). cbn [name_of] in Ne. rewrite Ne in *.
        assert (Lt : late es = false) by (rewrite E, late_at; [rewrite Ne, str_eqb_refl; reflexivity|exact F1|eapply (name_relevant e KTag); exact Ne]).
        destruct e as [k vs]. cbn [fst snd] in *. subst k.
        unfold read_tag. cbn [next_value Form.de fst]. destruct vs as [|s vs]; [congruence|].
        pose proof (tagged_find s vs (eq_sym Ve)) as T. destruct (find _ _) as [v|]; [|intros _ r K; apply good_tagged in K as [v K]; exact (T v K)].
        assert (L : length es2 < S (length es)) by (rewrite E, app_length; cbn; lia).
        pose proof (relevant_spec es2 (S (length es)) false ((aj_tag aj, s :: vs) :: es2) (ex_intro _ _ eq_refl) L (tail_full _ _ _ E)) as K2.
        destruct (relevant_key _ false _) as [[[[]|]|x|p] i]; [| | |intros Ad; exfalso|exact K2].
        + exfalso. destruct K2 as (f1 & [k ws] & f2 & _ & -> & _ & N & _). cbn in N. subst k. apply (Me ws). rewrite !in_app_iff.
          right. right. left. reflexivity.
        + destruct K2 as (f1 & [k ws] & f2 & -> & -> & F2 & N & D2). cbn [fst name_of] in N. subst k.
          assert (F3 : filter relevant f2 = []) by (eapply (after_both es1 _ f1 _ f2 KTag); eauto).
          assert (E' : es = (es1 ++ (aj_tag aj, s :: vs) :: f1) ++ (aj_key aj, ws) :: f2) by (rewrite E, <- app_assoc; reflexivity).
          destruct (split_known _ _ _ E') as (Vk & Wn & _). cbn [fst snd] in Vk, Wn.
          assert (Fw : full ws) by (eapply grouped_full; [exact G|]; rewrite E'; apply in_elt).
          unfold read_content. cbn [next_value]. destruct v as [n [t|]]; cbn [va_content va_name] in *.
          * pose proof (de_gives pf msg t ws Wn Fw) as Dg. destruct (fst (Form.de pf msg t ws)) as [y|x|p]; cbn [omap]; [| |exact Dg].
            -- pose proof (remaining_spec _ _ _ (n, Some y) E' F3) as Rm. destruct (remaining _ _ _ _ _ _) as [r|x|p]; [|intros Ad; exfalso; exact (Rm Ad)|exact Rm].
               destruct Rm as [-> D3]. split; [eapply (all_known es1 _ f1 _ f2 KTag KContent); eauto|].
               unfold good. rewrite Lt. apply (me_some pf aj ps n t y); [apply T; reflexivity|congruence|].
               rewrite <- Vk. apply Dg. reflexivity.
            -- intros _ r K. unfold good in K. rewrite Lt in K. destruct K as [m Tg Ke|m t' Tg Ke|m t' y Tg Ke Gv]; try congruence.
               apply T in Tg. injection Tg as -> ->. rewrite <- Vk in Gv. exact (Dg y Gv).
          * cbn [Form.de fst]. destruct ws as [|w ws]; [congruence|]. cbn [omap]. intros _ r K. unfold good in K. rewrite Lt in K.
            destruct K as [m Tg Ke|m t' Tg Ke|m t' y Tg Ke Gv]; try congruence. apply T in Tg. discriminate.
        + destruct K2 as [F2 D2].
          assert (Vk : values_of (aj_key aj) ps = []).
          { apply no_values. intros ws I. rewrite E in I. apply in_app_iff in I as [I|[I|I]].
            - exact (proj2 (relevant_none _ F1 ws) I).
            - injection I as Q _. destruct So as [Q' _]. exact (Q' Q).
            - exact (proj2 (relevant_none _ F2 ws) I). }
          assert (Ad : admitted aj ps).
          { apply admitted_iff. intros D x I. rewrite E, (D1 D), (D2 D) in I. destruct I as [<-|[]]. apply (name_relevant _ KTag). reflexivity. }
          unfold no_content. destruct v as [n [t|]]; cbn [va_content va_name] in *.
          * unfold missing. cbn [f_default f_type f_name].
            destruct t; cbn [omap]; try (intros _ r K; unfold good in K; rewrite Lt in K;
              destruct K as [m Tg Ke|m t' Tg Ke|m t' y Tg Ke Gv]; try congruence; apply T in Tg; discriminate).
            split; [exact Ad|]. unfold good. rewrite Lt. eapply me_none; [apply T; reflexivity|exact Vk].
          * split; [exact Ad|]. unfold good. rewrite Lt. apply me_unit; [apply T; reflexivity|exact Vk].
        + destruct K2 as [D (f & I & R)]. rewrite (proj1 admitted_iff Ad D f) in R; [discriminate|]. rewrite E. apply in_app_iff. right. right. exact I.
      - destruct K1 as (es1 & e & es2 & -> & E & F1 & Ne & D1).
        destruct (split_known _ _ _ E) as (Ve & Vn & Me). cbn [name_of] in Ne. rewrite Ne in *.
        assert (Lt : late es = true).
        { rewrite E, late_at; [|exact F1|eapply (name_relevant e KContent); exact Ne].
          rewrite Ne. destruct (str_eqb_spec (aj_key aj) (aj_tag aj)) as [Q|]; [|reflexivity]. destruct So as [Q' _]. congruence. }
        destruct e as [k vs]. cbn [fst snd] in *. subst k.
        cbn [next_value Form.de fst]. destruct vs as [|s vs]; [congruence|].
        assert (L : length es2 < S (length es)) by (rewrite E, app_length; cbn; lia).
        pose proof (relevant_spec es2 (S (length es)) false ((aj_key aj, s :: vs) :: es2) (ex_intro _ _ eq_refl) L (tail_full _ _ _ E)) as K2.
        destruct (relevant_key _ false _) as [[[[]|]|x|p] i]; [| | |intros Ad; exfalso|exact K2].
        + destruct K2 as (f1 & [k ws] & f2 & -> & -> & F2 & N & D2). cbn [fst name_of] in N. subst k.
          assert (F3 : filter relevant f2 = []) by (eapply (after_both es1 _ f1 _ f2 KContent); eauto).
          assert (E' : es = (es1 ++ (aj_key aj, s :: vs) :: f1) ++ (aj_tag aj, ws) :: f2) by (rewrite E, <- app_assoc; reflexivity).
          destruct (split_known _ _ _ E') as (Vk & Wn & _). cbn [fst snd] in Vk, Wn.
          unfold read_tag. cbn [next_value Form.de fst]. destruct ws as [|w ws]; [congruence|].
          pose proof (tagged_find w ws (eq_sym Vk)) as T. destruct (find _ _) as [v|]; [|intros _ r K; apply good_tagged in K as [v K]; exact (T v K)].
          unfold read_later. destruct v as [n [t|]]; cbn [va_content va_name] in *.
          * pose proof (content_plain (F:=F) msg t s) as Dg. destruct (de_content msg t s) as [y|x|p]; cbn [omap]; [| |exact Dg].
            -- pose proof (remaining_spec _ _ _ (n, Some y) E' F3) as Rm. destruct (remaining _ _ _ _ _ _) as [r|x|p]; [|intros Ad; exfalso; exact (Rm Ad)|exact Rm].
               destruct Rm as [-> D3]. split; [eapply (all_known es1 _ f1 _ f2 KContent KTag); eauto|].
               unfold good. rewrite Lt. apply (un_some aj ps n t s vs y); [apply T; reflexivity|auto|].
               apply Dg. reflexivity.
            -- intros _ r K. unfold good in K. rewrite Lt in K. destruct K as [m t' s' rest' y Tg Ke Gv].
               apply T in Tg. injection Tg as -> ->. rewrite <- Ve in Ke. injection Ke as <- <-. exact (Dg y Gv).
          * cbn [de_content omap]. intros _ r K. unfold good in K. rewrite Lt in K.
            destruct K as [m t' s' rest' y Tg Ke Gv]. apply T in Tg. discriminate.
        + exfalso. destruct K2 as (f1 & [k ws] & f2 & _ & -> & _ & N & _). cbn in N. subst k. apply (Me ws). rewrite !in_app_iff.
          right. right. left. reflexivity.
        + destruct K2 as [F2 D2]. intros _. apply untagged. apply no_values. intros ws I. rewrite E in I.
          apply in_app_iff in I as [I|[I|I]].
          * exact (proj1 (relevant_none _ F1 ws) I).
          * injection I as Q _. destruct So as [Q' _]. congruence.
          * exact (proj1 (relevant_none _ F2 ws) I).
        + destruct K2 as [D (f & I & R)]. rewrite (proj1 admitted_iff Ad D f) in R; [discriminate|]. rewrite E. apply in_app_iff. right. right. exact I.
      - destruct K1 as [F1 D1]. intros _. apply untagged. apply no_values. intros vs. apply relevant_none. exact F1.
      - destruct K1 as [D (f & I & R)]. intros Ad. rewrite (proj1 admitted_iff Ad D f I) in R. discriminate.
      - exact K1.
    Qed.
  End Entries.

  Lemma tagged_unique ps v v' : sound_enum aj -> tagged aj ps v -> tagged aj ps v' -> v = v'.
  Proof.
    intros [_ N] [I [r E]] [I' [r' E']]. apply (variants_unique (aj_variants aj)); auto. rewrite E in E'. congruence.
  Qed.

  Lemma meant_det ps r r' : sound_enum aj -> meant pf aj ps r -> meant pf aj ps r' -> r = r'.
  Proof.
    intros So M M'. destruct M as [n T E|n t T E|n t x T E Gv]; destruct M' as [n' T' E'|n' t' T' E'|n' t' x' T' E' Gv'];
      pose proof (tagged_unique _ _ _ So T T') as Q; try congruence.
    injection Q as <- <-. rewrite (gives_det pf t _ x x' Gv Gv'). reflexivity.
  Qed.

  Lemma unparsed_det ps (r r' : evalue) : sound_enum aj -> unparsed aj ps r -> unparsed aj ps r' -> r = r'.
  Proof.
    intros So [n t s rest x T E P] [n' t' s' rest' x' T' E' P']. pose proof (tagged_unique _ _ _ So T T') as Q.
    injection Q as <- <-. rewrite E in E'. injection E' as <- <-. rewrite (plain_det t s x x' P P'). reflexivity.
  Qed.

  Lemma good_det ps es r r' : sound_enum aj -> good ps es r -> good ps es r' -> r = r'.
  Proof. unfold good. destruct (late es); [apply unparsed_det|apply meant_det]. Qed.

  Lemma adjacent_data it1 it2 {X} src (c : context X) q : has_data src c q ->
    adjacent_from pf msg it1 it2 src aj c = adjacent_result (from_adjacent (handed it1 it2 q)).
  Proof.
    destruct src; cbn [has_data adjacent_from].
    - intros ->. reflexivity.
    - intros (B & O & ->). unfold ctx_form_adjacent. rewrite one_chunk_read by assumption. reflexivity.
  Qed.

  Section Orders.
    Context {X : Type} (src : source) (c : context X) (q : bytes) (ps : list (str * str)).
    Context (D : has_data src c q) (P : form_pairs q ps) (So : sound_enum aj).

    Lemma handed_pairs it1 it2 : iteration it1 -> iteration it2 -> grouped ps (handed it1 it2 q).
    Proof. intros I1 I2. apply parse_spec in P. subst ps. apply handed_grouped; assumption. Qed.

    Lemma order_exact it1 it2 r : iteration it1 -> iteration it2 ->
      (adjacent_from pf msg it1 it2 src aj c = inl (inl r) <-> admitted aj ps /\ good ps (handed it1 it2 q) r).
    Proof.
      intros I1 I2. rewrite (adjacent_data _ _ _ _ _ D). pose proof (from_spec ps _ (handed_pairs it1 it2 I1 I2) So) as K.
      destruct (from_adjacent _) as [r'|e|p]; cbn [adjacent_result].
      - destruct K as [A K]. split; [intros [= ->]; auto|]. intros [_ K']. do 2 f_equal. eapply good_det; eauto.
      - split; [discriminate|]. intros [A K']. exfalso. exact (K A r K').
      - destruct K.
    Qed.

    Lemma adjacent_total it1 it2 : iteration it1 -> iteration it2 ->
      (exists r, adjacent_from pf msg it1 it2 src aj c = inl (inl r)) \/
      (exists e, adjacent_from pf msg it1 it2 src aj c = inr (EForm e)).
    Proof.
      intros I1 I2. rewrite (adjacent_data _ _ _ _ _ D). pose proof (from_spec ps _ (handed_pairs it1 it2 I1 I2) So) as K.
      destruct (from_adjacent _) as [r'|e|p]; cbn [adjacent_result]; eauto. destruct K.
    Qed.

    Lemma late_content it1 it2 : iteration it1 -> iteration it2 -> late (handed it1 it2 q) = true -> values_of (aj_key aj) ps <> [].
    Proof.
      intros I1 I2. unfold late. destruct (find _ _) as [[k vs]|] eqn:E; [|discriminate]. cbn [fst]. intros N.
      apply find_some in E as [I R]. unfold relevant in R. cbn [fst] in R.
      destruct (str_eqb k (aj_tag aj)); [discriminate|]. apply str_eqb_eq in R. subst k.
      destruct (entry_values ps _ (handed_pairs it1 it2 I1 I2) _ _ I) as [-> K]. exact K.
    Qed.

    Lemma adjacent_orders it1 it2 : iteration it1 -> iteration it2 ->
      (forall r, adjacent_from pf msg it1 it2 src aj c = inl (inl r) <-> admitted aj ps /\ meant pf aj ps r) \/
      (values_of (aj_key aj) ps <> [] /\
       forall r, adjacent_from pf msg it1 it2 src aj c = inl (inl r) <-> admitted aj ps /\ unparsed aj ps r).
    Proof.
      intros I1 I2. pose proof (fun r => order_exact it1 it2 r I1 I2) as K. pose proof (late_content it1 it2 I1 I2) as L. unfold good in K.
      destruct (late (handed it1 it2 q)); [right; split; [apply L; reflexivity|]|left]; exact K.
    Qed.

    (** One key to the front. *)
    Definition front (k : str) (l : list entry) : list entry :=
      filter (fun e => str_eqb (fst e) k) l ++ filter (fun e => negb (str_eqb (fst e) k)) l.

    Lemma front_iteration k : iteration (front k).
    Proof.
      unfold front. intros l. induction l as [|e l IH]; [constructor|]. cbn [filter]. destruct (str_eqb (fst e) k); cbn [negb app].
      - constructor. exact IH.
      - symmetry. apply Permutation_cons_app. symmetry. exact IH.
    Qed.

    Lemma front_late k l vs : In (k, vs) l -> relevant (k, vs) = true -> late (front k l) = negb (str_eqb k (aj_tag aj)).
    Proof.
      intros I R. unfold late, front. destruct (filter (fun e => str_eqb (fst e) k) l) as [|[k' ws] m] eqn:E.
      - exfalso. assert (K : In (k, vs) (filter (fun e => str_eqb (fst e) k) l)) by (apply filter_In; cbn [fst]; rewrite str_eqb_refl; auto).
        rewrite E in K. destruct K.
      - assert (K : In (k', ws) (filter (fun e => str_eqb (fst e) k) l)) by (rewrite E; left; reflexivity).
        apply filter_In in K as [_ K]. cbn [fst] in K. apply str_eqb_eq in K. subst k'. cbn [app find].
        change (relevant (k, ws)) with (relevant (k, vs)). rewrite R. reflexivity.
    Qed.

    Lemma cow_in k : values_of k ps <> [] -> In (k, values_of k ps) (cow_form_map (parsed_form_map q)).
    Proof. intros N. apply (handed_pairs (fun l => l) (fun l => l) iteration_id iteration_id). split; [exact N|reflexivity]. Qed.

    Lemma adjacent_first : exists it1 it2, iteration it1 /\ iteration it2 /\
      forall r, adjacent_from pf msg it1 it2 src aj c = inl (inl r) <-> admitted aj ps /\ meant pf aj ps r.
    Proof.
      exists (fun l => l), (front (aj_tag aj)). split; [apply iteration_id|]. split; [apply front_iteration|]. intros r.
      rewrite (order_exact _ _ r iteration_id (front_iteration _)).
      destruct (values_of (aj_tag aj) ps) as [|s rest] eqn:E.
      - split; intros [_ K]; exfalso; [apply good_tagged in K|apply meant_tagged in K]; destruct K as (v & _ & rest & K); congruence.
      - unfold good, handed. rewrite (front_late _ _ (values_of (aj_tag aj) ps)).
        + rewrite str_eqb_refl. reflexivity.
        + apply cow_in. rewrite E. discriminate.
        + apply (name_relevant _ KTag). reflexivity.
    Qed.

    Lemma adjacent_last : values_of (aj_key aj) ps <> [] -> exists it1 it2, iteration it1 /\ iteration it2 /\
      forall r, adjacent_from pf msg it1 it2 src aj c = inl (inl r) <-> admitted aj ps /\ unparsed aj ps r.
    Proof.
      intros N. exists (fun l => l), (front (aj_key aj)). split; [apply iteration_id|]. split; [apply front_iteration|]. intros r.
      rewrite (order_exact _ _ r iteration_id (front_iteration _)). unfold good, handed.
      rewrite (front_late _ _ (values_of (aj_key aj) ps)).
      - destruct (str_eqb_spec (aj_key aj) (aj_tag aj)) as [Q|_]; [destruct So as [Q' _]; congruence|]. reflexivity.
      - apply cow_in. exact N.
      - apply (name_relevant _ KContent). reflexivity.
    Qed.

    Lemma text_same r : text_contents aj -> values_of (aj_key aj) ps <> [] -> meant pf aj ps r <-> unparsed aj ps r.
    Proof.
      intros Tx N. split.
      - intros [n T E|n t T E|n t x T E Gv]; try congruence. destruct (values_of (aj_key aj) ps) as [|s rest] eqn:V; [congruence|].
        eapply un_some; [exact T|exact V|]. eapply text_plain; [|exact Gv]. destruct T as [I _]. exact (Tx _ _ I eq_refl).
      - intros [n t s rest x T E Pl]. apply (me_some pf aj ps n t x); [exact T|exact N|]. rewrite E.
        apply text_plain; [|exact Pl]. destruct T as [I _]. exact (Tx _ _ I eq_refl).
    Qed.

    Lemma adjacent_texts it1 it2 r : iteration it1 -> iteration it2 -> text_contents aj ->
      (adjacent_from pf msg it1 it2 src aj c = inl (inl r) <-> admitted aj ps /\ meant pf aj ps r).
    Proof.
      intros I1 I2 Tx. destruct (adjacent_orders it1 it2 I1 I2) as [K|[N K]]; [apply K|]. rewrite K, (text_same r Tx N). reflexivity.
    Qed.

    Lemma adjacent_bare it1 it2 r : iteration it1 -> iteration it2 -> values_of (aj_key aj) ps = [] ->
      (adjacent_from pf msg it1 it2 src aj c = inl (inl r) <-> admitted aj ps /\ meant pf aj ps r).
    Proof.
      intros I1 I2 E. destruct (adjacent_orders it1 it2 I1 I2) as [K|[N K]]; [apply K|]. congruence.
    Qed.
  End Orders.
End Adjacent.

Definition shape : adjacent :=
  Adjacent (lit "type") (lit "value") [Variant (lit "Id") (Some (TInt i32)); Variant (lit "Name") (Some TString); Variant (lit "All") None] false.

Lemma shape_sound : sound_enum shape.
Proof. split; [discriminate|]. repeat constructor; cbn; intuition discriminate. Qed.

Lemma id_meant {F} (pf : bool -> str -> F + str) :
  meant pf shape [(lit "type", lit "Id"); (lit "value", lit "5")] (lit "Id", Some (VInt 5)).
Proof.
  apply (me_some _ _ _ _ (TInt i32)).
  - split; [left; reflexivity|]. exists []. reflexivity.
  - discriminate.
  - exists []. constructor. constructor. exists (lit "5"). split; [discriminate|].
    split; [intros x [<-|[]]; split; vm_compute; discriminate|].
    split; [split; [vm_compute; discriminate|reflexivity]|]. left. split; [left; reflexivity|reflexivity].
Qed.

Lemma w_adjacent : forall (F : Type) (pf : bool -> str -> F + str) msg, exists aj s ps r it1 it2,
  sound_enum aj /\ form_pairs (utf8 s) ps /\ admitted aj ps /\ meant pf aj ps r /\ iteration it1 /\ iteration it2 /\
  forall (X : Type) src (c : context X), has_data src c (utf8 s) ->
    (exists e, adjacent_from pf msg it1 it2 src aj c = inr (EForm e)) /\
    (exists it3 it4, iteration it3 /\ iteration it4 /\ adjacent_from pf msg it3 it4 src aj c = inl (inl r)).
Proof.
  intros F pf msg. exists shape, (lit "type=Id&value=5"), [(lit "type", lit "Id"); (lit "value", lit "5")], (lit "Id", Some (VInt 5)).
  exists (fun l => l), (@rev _). split; [apply shape_sound|].
  assert (P : form_pairs (utf8 (lit "type=Id&value=5")) [(lit "type", lit "Id"); (lit "value", lit "5")]) by (apply parse_spec; reflexivity).
  split; [exact P|]. split; [discriminate|]. split; [apply id_meant|]. split; [apply iteration_id|]. split; [apply iteration_rev|].
  intros X src c D. split.
  - rewrite (adjacent_data _ _ _ _ _ _ _ _ D). eexists. vm_compute. reflexivity.
  - exists (fun l => l), (fun l => l). split; [apply iteration_id|]. split; [apply iteration_id|].
    rewrite (adjacent_data _ _ _ _ _ _ _ _ D). vm_compute. reflexivity.
Qed.
