(** The property lemmas of queries and forms. *)

From Coq Require Import String ZArith.
From Verif Require Import Base BaseFacts Utf8 RouteTrie UrlEncoded UrlFacts Http Form AppSpec AppLemmas4 FormSpec FormLemmas FormLemmas2.
Local Open Scope list_scope.

Section Queries.
  Context {F : Type} (parse_float : bool -> str -> F + str) (serde_msg : mismatch -> str).
  Notation value := (value F).
  Notation field := (field F).
  Notation de := (de parse_float serde_msg).
  Notation gives := (gives parse_float).
  Notation from_cow_map := (from_cow_map parse_float serde_msg).
  Notation parse_queries := (parse_queries parse_float serde_msg).
  Notation field_value := (field_value parse_float).
  Notation map_of := (map_of parse_float).
  Notation scalar_text := (scalar_text parse_float).

  Section Orders.
  Context (it1 it2 : list entry -> list entry) (I1 : iteration it1) (I2 : iteration it2).

  Lemma handed_full q k vs : In (k, vs) (handed it1 it2 q) -> vs <> [] /\ full vs.
  Proof. apply (grouped_full (parse q)). apply handed_grouped; assumption. Qed.

  (** C43 *)
  Lemma queries_total tg q p : (forall e, tg <> TgAny e) -> parse_queries it1 it2 tg q <> Panics p.
  Proof.
    intros Na E. pose proof (from_cow_map_full parse_float serde_msg tg (handed it1 it2 q) Na (handed_full q)) as K.
    unfold Form.parse_queries in E. unfold handed in K. rewrite E in K. exact K.
  Qed.

  Lemma query_params_total {X} tg (c : context X) p : (forall e, tg <> TgAny e) ->
    ctx_query_params parse_float serde_msg it1 it2 tg c <> inl (inr p).
  Proof.
    intros Na. unfold ctx_query_params. pose proof (fun p => queries_total tg (utf8 (query_text c)) p Na) as K. unfold query_text in K.
    destruct (Form.parse_queries _ _ _ _ _ _) as [v|e|p']; try discriminate. intros E. apply (K p'). reflexivity.
  Qed.

  Lemma form_total {X} tg (c : context X) p : (forall e, tg <> TgAny e) ->
    fst (ctx_form parse_float serde_msg it1 it2 tg c) <> inl (inr p).
  Proof.
    intros Na. unfold ctx_form, read_body. cbn. destruct (aggregate _) as [buf|]; [|discriminate].
    pose proof (fun p => queries_total tg (buf_chunk buf) p Na) as K.
    destruct (Form.parse_queries _ _ _ _ _ _) as [v|e|p']; try discriminate. intros E. apply (K p'). reflexivity.
  Qed.

  (** C45 *)
  Lemma struct_queries fs deny q : NoDup (map f_name fs) ->
    match parse_queries it1 it2 (TgStruct fs deny) q with
    | Done r => exists l, r = RStruct l /\ known (parse q) fs deny /\ forall l', Forall2 (field_value (parse q)) fs l' <-> l' = l
    | Fail _ => known (parse q) fs deny -> forall l, ~ Forall2 (field_value (parse q)) fs l
    | Panics _ => False
    end.
  Proof. intros Nf. apply (struct_target parse_float serde_msg (parse q) (handed it1 it2 q)); [apply handed_grouped; assumption|exact Nf]. Qed.

  Lemma struct_result fs deny q l : NoDup (map f_name fs) ->
    parse_queries it1 it2 (TgStruct fs deny) q = Done (RStruct l) <->
    Forall2 (field_value (parse q)) fs l /\
    (deny = true -> forall k, values_of k (parse q) <> [] -> In k (map f_name fs)).
  Proof.
    intros Nf. pose proof (struct_queries fs deny q Nf) as K.
    destruct (parse_queries it1 it2 (TgStruct fs deny) q) as [r|e|p].
    - destruct K as (l0 & -> & Kn & K). rewrite K. split; [intros [= ->]; auto|intros [-> _]; reflexivity].
    - split; [intros [=]|]. intros [F2 Kn]. exfalso. exact (K Kn l F2).
    - contradiction.
  Qed.

  Lemma struct_or_error fs deny q : NoDup (map f_name fs) ->
    (exists l, parse_queries it1 it2 (TgStruct fs deny) q = Done (RStruct l)) \/
    (exists e, parse_queries it1 it2 (TgStruct fs deny) q = Fail e).
  Proof.
    intros Nf. pose proof (struct_queries fs deny q Nf) as K.
    destruct (parse_queries it1 it2 (TgStruct fs deny) q) as [r|e|p]; [|eauto|contradiction].
    destruct K as (l0 & -> & _). eauto.
  Qed.

  Lemma struct_missing_field fs deny q pre f post : NoDup (map f_name fs) ->
    (deny = true -> forall k, values_of k (parse q) <> [] -> In k (map f_name fs)) ->
    (forall g, In g fs -> values_of (f_name g) (parse q) <> [] ->
       exists v, gives (f_type g) (values_of (f_name g) (parse q)) v) ->
    fs = pre ++ f :: post -> (forall g, In g pre -> exists v, field_value (parse q) g v) ->
    required f -> values_of (f_name f) (parse q) = [] ->
    parse_queries it1 it2 (TgStruct fs deny) q = Fail (FMessage (lit "missing field `" ++ f_name f ++ lit "`")).
  Proof.
    intros Nf Kn Hg E Hp Rq Ev.
    exact (struct_missing parse_float serde_msg (parse q) (handed it1 it2 q) fs deny pre f post
             (handed_grouped it1 it2 q I1 I2) Nf Kn Hg E Hp Rq Ev).
  Qed.

  (** Maps. *)
  Lemma map_queries t q :
    match parse_queries it1 it2 (TgMap KString t) q with
    | Done r => exists m, r = RMap m /\ map_of (parse q) t m
    | Fail _ => exists k, values_of k (parse q) <> [] /\ forall v, ~ gives t (values_of k (parse q)) v
    | Panics _ => False
    end.
  Proof. apply (map_target parse_float serde_msg (parse q) (handed it1 it2 q)). apply handed_grouped; assumption. Qed.

  Lemma map_result t q m : map_of (parse q) t m ->
    exists m', parse_queries it1 it2 (TgMap KString t) q = Done (RMap m') /\ Permutation m m'.
  Proof.
    intros M. pose proof (map_queries t q) as K. destruct (parse_queries it1 it2 (TgMap KString t) q) as [r|e|p].
    - destruct K as (m' & -> & M'). exists m'. split; [reflexivity|]. eapply map_of_perm; eauto.
    - destruct K as (k & Ne & K). destruct M as (_ & A & B). destruct (B k Ne) as [v I]. apply A in I as [_ G].
      exfalso. eapply K; eauto.
    - contradiction.
  Qed.

  Lemma map_result_only t q r : parse_queries it1 it2 (TgMap KString t) q = Done r ->
    exists m, r = RMap m /\ map_of (parse q) t m.
  Proof. intros E. pose proof (map_queries t q) as K. rewrite E in K. exact K. Qed.

  Lemma gives_strings t l v : is_scalar t -> gives (TVec t) l v <-> l <> [] /\ exists vs, v = VSeq vs /\ Forall2 (scalar_text t) l vs.
  Proof.
    intros Sc. assert (K : forall l vs, reads_all parse_float t l vs <-> Forall2 (scalar_text t) l vs).
    { clear -Sc. induction l as [|s l IH]; intros vs.
      - split; [intros R; inversion R; subst; [constructor|]|intros F2; inversion F2; constructor].
        match goal with H : reads _ _ [] _ _ |- _ => apply reads_nonempty in H end. congruence.
      - split.
        + intros R. inversion R as [|? ? v r vs' R1 R2]; subst. inversion R1; subst; try contradiction.
          constructor; [assumption|]. apply IH. exact R2.
        + intros F2. inversion F2; subst. econstructor; [constructor; eassumption|]. apply IH. assumption. }
    split.
    - intros [r R]. inversion R as [? ? ? ? S1| | | ? ? vs Ne RA| |]; subst; [inversion S1|].
      split; [exact Ne|]. exists vs. split; [reflexivity|]. apply K. exact RA.
    - intros [Ne (vs & -> & F2)]. exists []. constructor; [exact Ne|]. apply K. exact F2.
  Qed.

  Lemma gives_scalar t s l v : is_scalar t -> gives t (s :: l) v <-> scalar_text t s v.
  Proof.
    intros Sc. split.
    - intros [r R]. inversion R; subst; try contradiction. assumption.
    - intros S1. exists l. constructor. exact S1.
  Qed.

  (** C41 *)
  Lemma grouped_queries q : exists m,
    parse_queries it1 it2 (TgMap KString (TVec TString)) q = Done (RMap m) /\ NoDup (map fst m) /\
    forall k v, In (k, v) m <-> values_of k (parse q) <> [] /\ v = VSeq (map VString (values_of k (parse q))).
  Proof.
    assert (G : forall l v, l <> [] -> gives (TVec TString) l v <-> v = VSeq (map VString l)).
    { intros l v Ne. rewrite gives_strings by exact Logic.I.
      assert (F2 : forall l vs, Forall2 (scalar_text TString) l vs <-> vs = map VString l).
      { clear. induction l as [|s l IH]; intros vs.
        - split; [intros H; inversion H; reflexivity|intros ->; constructor].
        - split.
          + intros H. inversion H as [|? ? ? ? S1 S2]; subst. inversion S1; subst. apply IH in S2 as ->. reflexivity.
          + intros ->. constructor; [constructor|apply IH; reflexivity]. }
      split.
      - intros [_ (vs & -> & H)]. apply F2 in H as ->. reflexivity.
      - intros ->. split; [exact Ne|]. eexists. split; [reflexivity|]. apply F2. reflexivity. }
    pose proof (map_queries (TVec TString) q) as K.
    destruct (parse_queries it1 it2 (TgMap KString (TVec TString)) q) as [r|e|p].
    - destruct K as (m & -> & Nd & A & B). exists m. split; [reflexivity|]. split; [exact Nd|]. intros k v. split.
      + intros I. apply A in I as [Ne Gv]. split; [exact Ne|]. apply G; assumption.
      + intros [Ne ->]. destruct (B k Ne) as [v I]. pose proof I as I'. apply A in I' as [_ Gv]. apply G in Gv as ->; assumption.
    - destruct K as (k & Ne & K). exfalso. eapply K. apply G; [exact Ne|reflexivity].
    - contradiction.
  Qed.

  (** C46 *)
  Lemma combine_Forall2 {A B} (P : A -> B -> Prop) l m x y : Forall2 P l m -> In (x, y) (combine l m) -> P x y.
  Proof. induction 1; cbn; [contradiction|]. intros [[= <- <-]|I]; auto. Qed.

  Lemma struct_scalar fs deny q l f v s rest : NoDup (map f_name fs) ->
    parse_queries it1 it2 (TgStruct fs deny) q = Done (RStruct l) -> In (f, v) (combine fs l) ->
    values_of (f_name f) (parse q) = s :: rest ->
    is_scalar (f_type f) -> scalar_text (f_type f) s v.
  Proof.
    intros Nf E I Ev Sc. apply struct_result in E as [F2 _]; [|exact Nf].
    pose proof (combine_Forall2 _ _ _ _ _ F2 I) as [[_ G]|[X _]]; [|congruence].
    rewrite Ev in G. apply (proj1 (gives_scalar _ s rest v Sc) G).
  Qed.

  Lemma struct_vec fs deny q l f v t : NoDup (map f_name fs) ->
    parse_queries it1 it2 (TgStruct fs deny) q = Done (RStruct l) -> In (f, v) (combine fs l) ->
    values_of (f_name f) (parse q) <> [] -> f_type f = TVec t -> is_scalar t ->
    exists vs, v = VSeq vs /\ Forall2 (scalar_text t) (values_of (f_name f) (parse q)) vs.
  Proof.
    intros Nf E I Ev Et Sc. apply struct_result in E as [F2 _]; [|exact Nf].
    pose proof (combine_Forall2 _ _ _ _ _ F2 I) as [[_ G]|[X _]]; [|congruence].
    rewrite Et in G. apply gives_strings in G; [|exact Sc]. apply G.
  Qed.

  Lemma struct_rejects fs deny q f s : NoDup (map f_name fs) -> In f fs -> In s (values_of (f_name f) (parse q)) ->
    (is_scalar (f_type f) /\ (exists rest, values_of (f_name f) (parse q) = s :: rest) /\ (forall v, ~ scalar_text (f_type f) s v) \/
     exists t, f_type f = TVec t /\ is_scalar t /\ forall v, ~ scalar_text t s v) ->
    exists e, parse_queries it1 it2 (TgStruct fs deny) q = Fail e.
  Proof.
    intros Nf If Is C. destruct (struct_or_error fs deny q Nf) as [[l E]|E]; [|exact E]. exfalso.
    apply struct_result in E as [F2 _]; [|exact Nf].
    assert (exists v, field_value (parse q) f v) as [v Fv].
    { clear -F2 If. induction F2 as [|g w fs l W _ IH]; [contradiction|]. destruct If as [->|If]; eauto. }
    destruct Fv as [[_ G]|[X _]]; [|rewrite X in Is; contradiction].
    destruct C as [(Sc & (rest & Er) & N)|(t & Et & Sc & N)].
    - rewrite Er in G. apply (N v). exact (proj1 (gives_scalar _ s rest v Sc) G).
    - rewrite Et in G. apply gives_strings in G as [_ (vs & -> & F2')]; [|exact Sc].
      clear -F2' Is N. induction F2' as [|x y l vs H _ IH]; [contradiction|]. destruct Is as [->|Is]; [|auto]. exact (N _ H).
  Qed.
  End Orders.

  (** C42 *)
  Lemma grouped_nil ps es : grouped ps es -> es = [] <-> forall k, values_of k ps = [].
  Proof.
    intros (_ & G). split.
    - intros -> k. destruct (values_of k ps) eqn:E; [reflexivity|]. exfalso. apply (proj2 (G k (values_of k ps))). rewrite E. split; [discriminate|reflexivity].
    - intros H. destruct es as [|[k vs] es]; [reflexivity|]. exfalso.
      destruct (proj1 (G k vs)) as [N E]; [left; reflexivity|]. apply N. rewrite E. apply H.
  Qed.

  Lemma order_irrelevant it1 it2 it3 it4 tg q :
    iteration it1 -> iteration it2 -> iteration it3 -> iteration it4 ->
    match tg with TgStruct fs _ => NoDup (map f_name fs) | TgFlat fs inner => apart fs inner | _ => True end ->
    (tg = TgString -> one_key (parse q)) ->
    same_outcome (parse_queries it1 it2 tg q) (parse_queries it3 it4 tg q).
  Proof.
    intros P1 P2 P3 P4 Nf Os.
    pose proof (handed_grouped it1 it2 q P1 P2) as G. pose proof (handed_grouped it3 it4 q P3 P4) as G'.
    assert (Em : handed it1 it2 q = [] <-> handed it3 it4 q = []) by (rewrite (grouped_nil _ _ G), (grouped_nil _ _ G'); reflexivity).
    destruct tg as [fs deny|fs inner|[| |] t|on_empty| | |].
    - pose proof (struct_queries it1 it2 P1 P2 fs deny q Nf) as K. pose proof (struct_queries it3 it4 P3 P4 fs deny q Nf) as K'.
      destruct (parse_queries it1 it2 (TgStruct fs deny) q) as [r|e|p]; destruct (parse_queries it3 it4 (TgStruct fs deny) q) as [r'|e'|p']; try contradiction; cbn.
      + destruct K as (l & -> & _ & K). destruct K' as (l' & -> & _ & K').
        cbn. f_equal. apply K'. apply K. reflexivity.
      + destruct K as (l & -> & Kn & K). exfalso. apply (K' Kn l). apply K. reflexivity.
      + destruct K' as (l & -> & Kn & K'). exfalso. apply (K Kn l). apply K'. reflexivity.
      + exact Logic.I.
    - pose proof (flat_target parse_float serde_msg (parse q) _ fs inner G Nf) as K.
      pose proof (flat_target parse_float serde_msg (parse q) _ fs inner G' Nf) as K'.
      unfold Form.parse_queries. fold (handed it1 it2 q) (handed it3 it4 q).
      destruct (from_cow_map (TgFlat fs inner) (handed it1 it2 q)) as [r|e|p]; destruct (from_cow_map (TgFlat fs inner) (handed it3 it4 q)) as [r'|e'|p']; try contradiction; cbn [same_outcome].
      + destruct K as (l & x & -> & K1 & K2). destruct K' as (l' & x' & -> & K1' & K2').
        rewrite (Forall2_det (field_value (parse q)) fs l' l) by (try assumption; intros f v v'; apply field_value_det).
        eapply flat_value_det; eauto.
      + destruct K as (l & x & -> & K1 & K2). exfalso. eapply K'; eauto.
      + destruct K' as (l & x & -> & K1 & K2). exfalso. eapply K; eauto.
      + exact Logic.I.
    - pose proof (map_queries it1 it2 P1 P2 t q) as K. pose proof (map_queries it3 it4 P3 P4 t q) as K'.
      destruct (parse_queries it1 it2 (TgMap KString t) q) as [r|e|p]; destruct (parse_queries it3 it4 (TgMap KString t) q) as [r'|e'|p']; try contradiction; cbn.
      + destruct K as (m & -> & M). destruct K' as (m' & -> & M'). eapply map_of_perm; eauto.
      + destruct K as (m & -> & _ & A & B). destruct K' as (k & Ne & N). destruct (B k Ne) as [v I]. apply A in I as [_ Gv]. eapply N; eauto.
      + destruct K' as (m & -> & _ & A & B). destruct K as (k & Ne & N). destruct (B k Ne) as [v I]. apply A in I as [_ Gv]. eapply N; eauto.
      + exact Logic.I.
    - unfold Form.parse_queries. fold (handed it1 it2 q) (handed it3 it4 q).
      destruct (handed it1 it2 q) as [|[k vs] es]; destruct (handed it3 it4 q) as [|[k' vs'] es']; cbn; auto;
        [exfalso; destruct Em as [Em _]; discriminate (Em eq_refl)|exfalso; destruct Em as [_ Em]; discriminate (Em eq_refl)].
    - unfold Form.parse_queries. fold (handed it1 it2 q) (handed it3 it4 q).
      destruct (handed it1 it2 q) as [|[k vs] es]; destruct (handed it3 it4 q) as [|[k' vs'] es']; cbn; auto;
        [exfalso; destruct Em as [Em _]; discriminate (Em eq_refl)|exfalso; destruct Em as [_ Em]; discriminate (Em eq_refl)].
    - unfold Form.parse_queries. fold (handed it1 it2 q) (handed it3 it4 q). rewrite !any_target.
      destruct (handed it1 it2 q) as [|e es]; destruct (handed it3 it4 q) as [|e' es']; cbn;
        [|exfalso; destruct Em as [Em _]; discriminate (Em eq_refl)|exfalso; destruct Em as [_ Em]; discriminate (Em eq_refl)|reflexivity].
      destruct on_empty as [v|e]; [|exact Logic.I]. destruct v as [| | |l []]; cbn; auto using Permutation_refl.
    - unfold Form.parse_queries. fold (handed it1 it2 q) (handed it3 it4 q).
      destruct (handed it1 it2 q) as [|[k vs] es]; destruct (handed it3 it4 q) as [|[k' vs'] es']; cbn; auto;
        [exfalso; destruct Em as [Em _]; discriminate (Em eq_refl)|exfalso; destruct Em as [_ Em]; discriminate (Em eq_refl)|].
      destruct G as (_ & G). destruct G' as (_ & G').
      destruct (proj1 (G k vs)) as [N1 E1]; [left; reflexivity|]. destruct (proj1 (G' k' vs')) as [N2 E2]; [left; reflexivity|].
      rewrite (Os eq_refl k k'); [reflexivity|rewrite <- E1; exact N1|rewrite <- E2; exact N2].
    - unfold Form.parse_queries. fold (handed it1 it2 q) (handed it3 it4 q).
      destruct (handed it1 it2 q) as [|[k vs] es]; destruct (handed it3 it4 q) as [|[k' vs'] es']; cbn; auto.
    - unfold Form.parse_queries. fold (handed it1 it2 q) (handed it3 it4 q).
      destruct (handed it1 it2 q) as [|[k vs] es]; destruct (handed it3 it4 q) as [|[k' vs'] es']; cbn; auto.
  Qed.

  (** C47 *)
  Lemma int_param {X} t key (c : context X) z :
    ctx_param (fun s => match parse_int t s with inl z => Some z | inr _ => None end) key c = inl z <->
    exists s, pget key (ctx_params c) = Some s /\ int_text t s z.
  Proof.
    unfold ctx_param. destruct (pget key (ctx_params c)) as [s|].
    - rewrite <- (parse_int_spec t s z) || idtac. split.
      + intros E. exists s. split; [reflexivity|]. apply parse_int_spec. destruct (parse_int t s); congruence.
      + intros (s' & [= <-] & I). apply parse_int_spec in I. rewrite I. reflexivity.
    - split; [discriminate|intros (s & [=] & _)].
  Qed.

  Lemma written_not_empty z : written z <> [].
  Proof.
    unfold written. destruct (z <? 0)%Z; [discriminate|]. destruct (AppLemmas2.dec_numeral (Z.to_N z)) as (Ne & _). exact Ne.
  Qed.

  Lemma written_scalar z : Forall scalar (written z).
  Proof.
    assert (D : forall n, Forall scalar (dec n)).
    { intros n. apply Forall_forall. intros c I. destruct (AppLemmas2.dec_numeral n) as (_ & Dg & _).
      specialize (Dg c I). left. lia. }
    unfold written. destruct (z <? 0)%Z; [|apply D]. constructor; [left; lia|apply D].
  Qed.

  Lemma int_round_trip it1 it2 t k z q : iteration it1 -> iteration it2 -> Forall scalar k -> in_range t z ->
    encodes [(k, written z)] q ->
    parse_queries it1 it2 (TgStruct [Field k (TInt t) None] false) q = Done (RStruct [VInt z]).
  Proof.
    intros P1 P2 Sk R E. apply struct_result; auto; [repeat constructor; auto|]. split; [|discriminate].
    assert (Ep : parse q = [(k, written z)]).
    { apply parse_encoded; [|exact E]. intros p [<-|[]]. split; [exact Sk|apply written_scalar]. }
    constructor; [|constructor]. left. cbn [f_name f_type]. rewrite Ep. unfold values_of. cbn [filter fst snd].
    rewrite str_eqb_refl. pose proof (written_not_empty z) as Nw. destruct (written z) as [|c w] eqn:Ew; [congruence|].
    cbn [is_empty negb andb map snd]. split; [discriminate|]. exists []. constructor. constructor.
    rewrite <- Ew. apply written_text. exact R.
  Qed.

  (** C50 *)
  Lemma visit_skipping (d : list str -> out value * list str) n :
    (forall r, d ([] :: r) = (Done VNone, r)) ->
    (forall c s r, d ((c :: s) :: r) = (Done (VSome (VString (c :: s))), (c :: s) :: r)) ->
    forall l x fuel, length l <= n -> length l < fuel ->
    fst (visit_vec d fuel false (x :: l)) =
    match l with
    | [] => Done []
    | _ => match skipping l with Some r => Done (map option_value r) | None => Panics PIndex end
    end.
  Proof.
    intros D1 D2. induction n as [|n IH]; intros l x fuel Ln Lf.
    { destruct l; [|cbn in Ln; lia]. destruct fuel; [lia|]. reflexivity. }
    destruct l as [|s l]; [destruct fuel; [lia|]; reflexivity|].
    destruct fuel as [|fuel]; [lia|]. cbn [visit_vec]. unfold next_element. cbn [length Nat.eqb andb negb].
    destruct s as [|c s].
    - rewrite D1. cbn [omap]. destruct l as [|y l].
      + destruct fuel as [|fuel]; [cbn in Lf; lia|]. reflexivity.
      + specialize (IH l y fuel ltac:(cbn in Ln; lia) ltac:(cbn in Lf; lia)).
        match goal with |- context [visit_vec d fuel false ?z] => change z with (y :: l); destruct (visit_vec d fuel false (y :: l)) as [o j] end. cbn [fst] in *.
        rewrite IH. cbn [skipping]. destruct l as [|w l]; [reflexivity|].
        destruct (skipping (w :: l)); reflexivity.
    - rewrite D2. cbn [omap]. specialize (IH l (c :: s) fuel ltac:(cbn in Ln; lia) ltac:(cbn in Lf; lia)).
      match goal with K : fst (visit_vec d fuel false ?y) = _ |- context [visit_vec d fuel false ?z] => change z with y; destruct (visit_vec d fuel false y) as [o j] end. cbn [fst] in *.
      rewrite IH. cbn [skipping]. destruct l as [|w l]; [reflexivity|]. destruct (skipping (w :: l)); reflexivity.
  Qed.

  Lemma visit_skipping_first (d : list str -> out value * list str) l fuel :
    (forall r, d ([] :: r) = (Done VNone, r)) ->
    (forall c s r, d ((c :: s) :: r) = (Done (VSome (VString (c :: s))), (c :: s) :: r)) ->
    d [] = (Panics PIndex, []) -> S (length l) < fuel ->
    fst (visit_vec d fuel true l) =
    match skipping l with Some r => Done (map option_value r) | None => Panics PIndex end.
  Proof.
    intros D1 D2 D0 Lf. destruct fuel as [|fuel]; [lia|]. cbn [visit_vec]. unfold next_element. cbn [negb]. rewrite andb_false_r.
    destruct l as [|s l]; [rewrite D0; reflexivity|]. destruct s as [|c s].
    - rewrite D1. cbn [omap]. destruct l as [|y l].
      { destruct fuel as [|fuel]; [cbn in Lf; lia|]. reflexivity. }
      pose proof (visit_skipping d (length l) D1 D2 l y fuel ltac:(lia) ltac:(cbn in Lf; lia)) as K.
      match goal with |- context [visit_vec d fuel false ?z] => change z with (y :: l); destruct (visit_vec d fuel false (y :: l)) as [o j] end. cbn [fst] in *. rewrite K. cbn [skipping].
      destruct l as [|w l]; [reflexivity|]. destruct (skipping (w :: l)); reflexivity.
    - rewrite D2. cbn [omap].
      pose proof (visit_skipping d (length l) D1 D2 l (c :: s) fuel ltac:(lia) ltac:(cbn in Lf; lia)) as K.
      match goal with K : fst (visit_vec d fuel false ?y) = _ |- context [visit_vec d fuel false ?z] => change z with y; destruct (visit_vec d fuel false y) as [o j] end. cbn [fst] in *. rewrite K. cbn [skipping].
      destruct l as [|w l]; [reflexivity|]. destruct (skipping (w :: l)); reflexivity.
  Qed.

  Lemma skipping_result k l :
    from_cow_map (TgMap KString (TVec (TOption TString))) [(k, l)] =
    match skipping l with
    | Some r => Done (RMap [(k, VSeq (map option_value r))])
    | None => Panics PIndex
    end.
  Proof.
    assert (E := visit_skipping_first (de (TOption TString)) l (S (S (length l))) (fun _ => eq_refl) (fun _ _ _ => eq_refl) eq_refl ltac:(lia)).
    assert (E2 : fst (de (TVec (TOption TString)) l) =
                 match skipping l with Some r => Done (VSeq (map option_value r)) | None => Panics PIndex end).
    { change (de (TVec (TOption TString)) l) with
        (let '(o, i) := visit_vec (de (TOption TString)) (S (S (length l))) true l in (omap VSeq o, i)).
      destruct (visit_vec _ _ _ _) as [o j]. cbn [fst] in *. rewrite E. destruct (skipping l); reflexivity. }
    cbn [Form.from_cow_map visit_entries length]. unfold next_key. cbn [de_key omap next_value]. rewrite E2.
    destruct (skipping l); reflexivity.
  Qed.

  Lemma no_empty_skipping l : l <> [] -> full l -> skipping l = Some (map Some l).
  Proof.
    induction l as [|s l IH]; [congruence|]. intros _ Fl. inversion Fl as [|? ? Hs Fl']; subst.
    cbn [skipping]. destruct s as [|c s]; [congruence|]. destruct l as [|w l]; [reflexivity|].
    rewrite IH; [reflexivity|discriminate|exact Fl'].
  Qed.

  Lemma no_empty_options k l : l <> [] -> (forall s, In s l -> s <> []) ->
    from_cow_map (TgMap KString (TVec (TOption TString))) [(k, l)] =
    Done (RMap [(k, VSeq (map (fun s => VSome (VString s)) l))]).
  Proof.
    intros Ne Fl. rewrite skipping_result, no_empty_skipping; [rewrite map_map; reflexivity|exact Ne|].
    apply Forall_forall. exact Fl.
  Qed.

  (** C44 *)
  Lemma full_map_total tg es p : (forall e, tg <> TgAny e) -> (forall k vs, In (k, vs) es -> vs <> [] /\ forall s, In s vs -> s <> []) ->
    from_cow_map tg es <> Panics p.
  Proof.
    intros Na H E. pose proof (from_cow_map_full parse_float serde_msg tg es Na) as K. rewrite E in K. apply K.
    intros k vs I. destruct (H k vs I) as [Ne Fl]. split; [exact Ne|]. apply Forall_forall. exact Fl.
  Qed.

  Lemma outside_map_total tg es p : (forall e, tg <> TgAny e) -> (forall k vs, In (k, vs) es -> vs <> []) -> target_options_outside tg ->
    from_cow_map tg es <> Panics p.
  Proof.
    intros Na H O E. pose proof (from_cow_map_outside parse_float serde_msg tg es Na H O) as K. rewrite E in K. exact K.
  Qed.

  (** C48 *)
  Lemma posted it1 it2 (X : Type) (c : context X) ps :
    iteration it1 -> iteration it2 ->
    (forall p, In p ps -> Forall scalar (fst p) /\ Forall scalar (snd p)) ->
    broken (rq_body (ctx_request c)) = false -> one_chunk (rq_body (ctx_request c)) ->
    encodes ps (body_bytes (rq_body (ctx_request c))) ->
    exists m, fst (ctx_form parse_float serde_msg it1 it2 (TgMap KString (TVec TString)) c) = inl (inl (RMap m)) /\ NoDup (map fst m) /\
      forall k v, In (k, v) m <-> values_of k ps <> [] /\ v = VSeq (map VString (values_of k ps)).
  Proof.
    intros P1 P2 Sc Br Oc E. destruct (grouped_queries it1 it2 P1 P2 (body_bytes (rq_body (ctx_request c)))) as (m & Em & Nd & K).
    exists m. unfold ctx_form. rewrite one_chunk_read by assumption. rewrite Em. cbn [queries_result].
    split; [reflexivity|]. split; [exact Nd|]. rewrite (parse_encoded ps _ Sc E) in K. exact K.
  Qed.

  (** C51 *)
  Lemma number_keys_fail es kt t : kt <> KString -> es <> [] -> exists e, from_cow_map (TgMap kt t) es = Fail e.
  Proof. intros N. destruct es as [|[k vs] es]; [congruence|]. intros _. destruct kt; [congruence| |]; eexists; reflexivity. Qed.
End Queries.
