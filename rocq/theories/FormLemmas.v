(** Integers, grouping of values, and the deserializer of values. *)

From Coq Require Import String ZArith.
From Verif Require Import Base BaseFacts Utf8 RouteTrie UrlEncoded Http Form AppSpec AppLemmas2 FormSpec.
Local Open Scope list_scope.

(** ** Integers *)

Section Ints.
  Local Open Scope Z_scope.

  Lemma digit_spec c d : digit c = Some d <-> (48 <= c <= 57)%N /\ d = Z.of_N (c - 48).
  Proof.
    unfold digit, within. destruct (N.leb_spec 48 c); destruct (N.leb_spec c 57); cbn; split;
      try (intros [=]; subst); try (intros [? ->]); try reflexivity; try lia.
  Qed.

  Definition run (acc : Z) (s : str) : Z := fold_left (fun a c => a * 10 + Z.of_N (c - 48)) s acc.

  Lemma run_mono s acc : 0 <= acc -> acc <= run acc s.
  Proof.
    revert acc. induction s as [|c s IH]; cbn [run fold_left]; intros acc P; [lia|].
    fold (run (acc * 10 + Z.of_N (c - 48)) s). pose proof (IH (acc * 10 + Z.of_N (c - 48)) ltac:(lia)). lia.
  Qed.

  Lemma parse_pos_spec hi s : forall acc z, 0 <= acc <= hi ->
    parse_pos hi acc s = inl z <-> all_digits s /\ z = run acc s /\ z <= hi.
  Proof.
    induction s as [|c s IH]; intros acc z A; cbn [parse_pos].
    - unfold run. cbn. split; [intros [= <-]|intros (_ & -> & _); reflexivity].
      split; [intros c []|]. lia.
    - destruct (digit c) as [d|] eqn:D.
      + apply digit_spec in D as [R ->].
        assert (M : forall z, z = run acc (c :: s) -> acc * 10 + Z.of_N (c - 48) <= z).
        { intros ? ->. apply (run_mono s (acc * 10 + Z.of_N (c - 48))). lia. }
        destruct (Z.ltb_spec hi (acc * 10)).
        { split; [intros [=]|]. intros (_ & E & L). pose proof (M _ E). lia. }
        destruct (Z.ltb_spec hi (acc * 10 + Z.of_N (c - 48))).
        { split; [intros [=]|]. intros (_ & E & L). pose proof (M _ E). lia. }
        rewrite IH by lia. unfold run. cbn [fold_left]. split; intros (Dg & E).
        * split; [|exact E]. intros x [<-|I]; [exact R|apply Dg; exact I].
        * split; [|exact E]. intros x I. apply Dg. right. exact I.
      + split; [intros [=]|]. intros (Dg & _). exfalso.
        assert (X : digit c = Some (Z.of_N (c - 48))) by (apply digit_spec; split; [apply Dg; left|]; reflexivity).
        congruence.
  Qed.

  Lemma parse_neg_spec lo s : forall acc z, 0 <= acc <= - lo ->
    parse_neg lo (- acc) s = inl z <-> all_digits s /\ z = - run acc s /\ lo <= z.
  Proof.
    induction s as [|c s IH]; intros acc z A; cbn [parse_neg].
    - unfold run. cbn. split; [intros [= <-]|intros (_ & -> & _); reflexivity].
      split; [intros c []|]. lia.
    - destruct (digit c) as [d|] eqn:D.
      + apply digit_spec in D as [R ->].
        assert (M : acc * 10 + Z.of_N (c - 48) <= run acc (c :: s)).
        { apply (run_mono s (acc * 10 + Z.of_N (c - 48))). lia. }
        destruct (Z.ltb_spec (- acc * 10) lo).
        { split; [intros [=]|]. intros (_ & E & L). lia. }
        destruct (Z.ltb_spec (- acc * 10 - Z.of_N (c - 48)) lo).
        { split; [intros [=]|]. intros (_ & E & L). lia. }
        replace (- acc * 10 - Z.of_N (c - 48)) with (- (acc * 10 + Z.of_N (c - 48))) by lia.
        rewrite IH by lia. unfold run. cbn [fold_left]. split; intros (Dg & E).
        * split; [|exact E]. intros x [<-|I]; [exact R|apply Dg; exact I].
        * split; [|exact E]. intros x I. apply Dg. right. exact I.
      + split; [intros [=]|]. intros (Dg & _). exfalso.
        assert (X : digit c = Some (Z.of_N (c - 48))) by (apply digit_spec; split; [apply Dg; left|]; reflexivity).
        congruence.
  Qed.

  Lemma run_value s : run 0 s = Z.of_N (digits_value s).
  Proof.
    unfold run, digits_value. change 0 with (Z.of_N 0) at 1. generalize 0%N as a.
    induction s as [|c s IH]; intros a; [reflexivity|]. cbn [fold_left]. rewrite <- IH. f_equal. lia.
  Qed.

  Lemma int_text_cons c t s z : int_text t (c :: s) z ->
    (c = 43%N /\ s <> [] /\ all_digits s /\ z = Z.of_N (digits_value s) /\ in_range t z) \/
    (c = 45%N /\ i_signed t = true /\ s <> [] /\ all_digits s /\ z = - Z.of_N (digits_value s) /\ in_range t z) \/
    ((48 <= c <= 57)%N /\ all_digits (c :: s) /\ z = Z.of_N (digits_value (c :: s)) /\ in_range t z).
  Proof.
    intros (ds & Ne & Dg & R & [[[<-|E] ->]|(Sg & E & ->)]).
    - right. right. split; [apply Dg; left; reflexivity|]. auto 10.
    - injection E as -> ->. left. auto 10.
    - injection E as -> ->. right. left. auto 10.
  Qed.

  Lemma parse_int_spec t s z : parse_int t s = inl z <-> int_text t s z.
  Proof.
    assert (Hmax : 0 <= i_max t /\ (forall z, 0 <= z -> in_range t z <-> z <= i_max t)).
    { unfold i_max, in_range. destruct (i_signed t).
      - pose proof (Z.pow_pos_nonneg 2 (Z.pos (i_bits t) - 1) ltac:(lia) ltac:(lia)). split; [lia|]. intros. lia.
      - pose proof (Z.pow_pos_nonneg 2 (Z.pos (i_bits t)) ltac:(lia) ltac:(lia)). split; [lia|]. intros. lia. }
    assert (Hmin : i_signed t = true -> 0 <= - i_min t /\ (forall z, z <= 0 -> in_range t z <-> i_min t <= z)).
    { intros Sg. unfold i_min, in_range. rewrite Sg.
      pose proof (Z.pow_pos_nonneg 2 (Z.pos (i_bits t) - 1) ltac:(lia) ltac:(lia)). split; [lia|]. intros. lia. }
    destruct Hmax as (M0 & Mr). destruct s as [|c r]; cbn [parse_int].
    { split; [intros [=]|]. intros (ds & Ne & _ & _ & [[[E|E] _]|(_ & E & _)]); congruence. }
    destruct (N.eqb_spec c 43) as [->|N1].
    { cbn [orb andb]. destruct r as [|c' r]; cbn [is_empty].
      - split; [intros [=]|]. intros I. apply int_text_cons in I as [(_ & Ne & _)|[(F & _)|(F & _)]]; [congruence|discriminate F|lia].
      - rewrite parse_pos_spec by lia. split.
        + intros (Dg & -> & L). exists (c' :: r). split; [discriminate|]. split; [exact Dg|].
          rewrite run_value in *. split; [apply Mr; [lia|exact L]|]. left. auto.
        + intros I. apply int_text_cons in I as [(_ & Ne & Dg & -> & R)|[(F & _)|(F & _)]]; [|discriminate F|lia].
          split; [exact Dg|]. rewrite run_value. split; [reflexivity|]. apply Mr; [lia|exact R]. }
    destruct (N.eqb_spec c 45) as [->|N2].
    { cbn [orb andb]. destruct r as [|c' r]; cbn [is_empty].
      - split; [intros [=]|]. intros I. apply int_text_cons in I as [(F & _)|[(_ & _ & Ne & _)|(F & _)]]; [discriminate F|congruence|lia].
      - destruct (i_signed t) eqn:Sg.
        + destruct (Hmin eq_refl) as (L0 & Lr). change 0 with (- 0) at 1. rewrite parse_neg_spec by lia. split.
          * intros (Dg & -> & L). exists (c' :: r). split; [discriminate|]. split; [exact Dg|].
            rewrite run_value in *. split; [apply Lr; [lia|exact L]|]. right. auto.
          * intros I. apply int_text_cons in I as [(F & _)|[(_ & _ & Ne & Dg & -> & R)|(F & _)]]; [discriminate F| |lia].
            split; [exact Dg|]. rewrite run_value. split; [reflexivity|]. apply Lr; [lia|exact R].
        + split.
          * rewrite parse_pos_spec by lia. intros (Dg & _). specialize (Dg 45%N ltac:(left; reflexivity)). lia.
          * intros I. apply int_text_cons in I as [(F & _)|[(_ & F & _)|(F & _)]]; [discriminate F|congruence|lia]. }
    cbn [orb andb]. rewrite parse_pos_spec by lia. split.
    - intros (Dg & -> & L). exists (c :: r). split; [discriminate|]. split; [exact Dg|].
      rewrite run_value in *. split; [apply Mr; [lia|exact L]|]. left. auto.
    - intros I. apply int_text_cons in I as [(F & _)|[(F & _)|(_ & Dg & -> & R)]]; [contradiction|contradiction|].
      split; [exact Dg|]. rewrite run_value. split; [reflexivity|]. apply Mr; [lia|exact R].
  Qed.

  (** The usual rendering is read back. *)
  Lemma written_text t z : in_range t z -> int_text t (written z) z.
  Proof.
    intros R. unfold written. destruct (Z.ltb_spec z 0).
    - destruct (dec_numeral (Z.to_N (- z))) as (Ne & Dg & _ & E).
      exists (dec (Z.to_N (- z))). split; [exact Ne|]. split; [exact Dg|]. split; [exact R|]. right.
      assert (Sg : i_signed t = true). { unfold in_range in R. destruct (i_signed t); [reflexivity|lia]. }
      split; [exact Sg|]. split; [reflexivity|]. rewrite E. lia.
    - destruct (dec_numeral (Z.to_N z)) as (Ne & Dg & _ & E).
      exists (dec (Z.to_N z)). split; [exact Ne|]. split; [exact Dg|]. split; [exact R|]. left.
      split; [left; reflexivity|]. rewrite E. lia.
  Qed.
End Ints.

(** ** Grouping *)

Definition grouped (ps : list (str * str)) (es : list entry) : Prop :=
  NoDup (map fst es) /\ forall k vs, In (k, vs) es <-> vs <> [] /\ vs = values_of k ps.

Lemma aget_In {V} (k : str) (v : V) l : NoDup (map fst l) -> In (k, v) l -> aget str_eqb k l = Some v.
Proof.
  induction l as [|[k' v'] l IH]; cbn; [contradiction|]. intros Nd [[= -> ->]|I].
  - rewrite str_eqb_refl. reflexivity.
  - inversion Nd as [|? ? N1 N2]; subst. destruct (str_eqb_spec k k') as [->|]; [|auto].
    exfalso. apply N1. apply (in_map fst) in I. exact I.
Qed.

Lemma ainsert_keys {V} (k : str) (v : V) l x : In x (map fst (ainsert str_eqb k v l)) <-> x = k \/ In x (map fst l).
Proof.
  induction l as [|[k' v'] l IH]; cbn; [intuition|].
  destruct (str_eqb_spec k k') as [->|]; cbn; [intuition|]. rewrite IH. intuition.
Qed.

Lemma ainsert_nodup {V} (k : str) (v : V) l : NoDup (map fst l) -> NoDup (map fst (ainsert str_eqb k v l)).
Proof.
  induction l as [|[k' v'] l IH]; cbn; intros Nd; [repeat constructor; auto|].
  inversion Nd as [|? ? N1 N2]; subst. destruct (str_eqb_spec k k') as [->|]; cbn; [exact Nd|].
  constructor; [|auto]. rewrite ainsert_keys. intros [->|I]; auto.
Qed.

Lemma in_aget {V} (k : str) (v : V) l : NoDup (map fst l) -> In (k, v) l <-> aget str_eqb k l = Some v.
Proof.
  intros Nd. split; [apply aget_In; exact Nd|]. apply aget_Some_In. apply str_eqb_eq.
Qed.

Lemma values_of_snoc k ps key val : values_of k (ps ++ [(key, val)]) =
  values_of k ps ++ (if str_eqb k key && negb (is_empty val) then [val] else []).
Proof.
  unfold values_of. rewrite filter_app, map_app. f_equal. cbn. destruct (_ && _); reflexivity.
Qed.

Lemma parsed_grouped q : grouped (parse q) (parsed_form_map q).
Proof.
  unfold parsed_form_map. match goal with |- context [fold_left ?g] => set (f := g) end.
  assert (G : forall ps m ps0, grouped ps0 m -> grouped (ps0 ++ ps) (fold_left f ps m)).
  { induction ps as [|[key val] ps IH]; intros m ps0 G; [rewrite app_nil_r; exact G|].
    cbn [fold_left]. change (ps0 ++ (key, val) :: ps) with (ps0 ++ [(key, val)] ++ ps). rewrite app_assoc.
    apply IH. clear IH. destruct G as (Nd & G). unfold f. destruct val as [|c val]; cbn [negb is_empty].
    { split; [exact Nd|]. intros k vs. rewrite values_of_snoc. cbn [is_empty negb]. rewrite andb_false_r, app_nil_r. apply G. }
    unfold push. split; [apply ainsert_nodup; exact Nd|]. intros k vs.
    rewrite in_aget by (apply ainsert_nodup; exact Nd). rewrite values_of_snoc. cbn [is_empty negb]. rewrite andb_true_r.
    assert (V : match aget str_eqb key m with Some vs => vs | None => [] end = values_of key ps0).
    { destruct (aget str_eqb key m) as [ws|] eqn:E.
      - apply in_aget in E; [|exact Nd]. apply G in E. apply E.
      - destruct (values_of key ps0) as [|w ws] eqn:W; [reflexivity|].
        assert (I : In (key, w :: ws) m) by (apply G; split; [discriminate|symmetry; exact W]).
        apply in_aget in I; [|exact Nd]. congruence. }
    destruct (str_eqb_spec k key) as [->|N].
    - rewrite aget_ainsert_same by (apply str_eqb_eq). rewrite V. split.
      + intros [= <-]. split; [destruct (values_of key ps0); discriminate|reflexivity].
      + intros [_ ->]. reflexivity.
    - rewrite aget_ainsert_other; [|apply str_eqb_eq|congruence]. rewrite app_nil_r, <- in_aget by exact Nd. apply G. }
  change (parse q) with ([] ++ parse q). apply G. split; [constructor|]. intros k vs. cbn.
  split; [contradiction|]. intros [N ->]. apply N. reflexivity.
Qed.

Lemma cow_map_id es : NoDup (map fst es) -> cow_form_map es = es.
Proof.
  unfold cow_form_map. match goal with |- context [fold_left ?g] => set (f := g) end. intros Nd.
  assert (G : forall l m, NoDup (map fst (m ++ l)) -> fold_left f l m = m ++ l).
  { induction l as [|[k vs] es0 IH]; intros m N; [rewrite app_nil_r; reflexivity|]. cbn [fold_left]. unfold f at 2.
    assert (A : aget str_eqb k m = None).
    { apply aget_None; [apply str_eqb_eq|]. intros [v I]. rewrite map_app in N. cbn in N.
      apply NoDup_remove_2 in N. apply N. rewrite in_app_iff. left. apply (in_map fst) in I. exact I. }
    rewrite A, ainsert_fresh by exact A. rewrite IH; [rewrite <- app_assoc; reflexivity|].
    rewrite <- app_assoc. exact N. }
  apply G. exact Nd.
Qed.

Lemma grouped_perm ps a b : Permutation a b -> grouped ps b -> grouped ps a.
Proof.
  intros P (Nd & G). split.
  - eapply Permutation_NoDup; [|exact Nd]. apply Permutation_map. symmetry. exact P.
  - intros k vs. rewrite <- G. split; apply Permutation_in; [|symmetry]; exact P.
Qed.

Definition handed (it1 it2 : list entry -> list entry) (q : bytes) : list entry :=
  it2 (cow_form_map (it1 (parsed_form_map q))).

Lemma handed_grouped it1 it2 q : iteration it1 -> iteration it2 -> grouped (parse q) (handed it1 it2 q).
Proof.
  intros P1 P2. unfold handed. pose proof (parsed_grouped q) as G.
  assert (G1 : grouped (parse q) (it1 (parsed_form_map q))) by (eapply grouped_perm; [apply P1|exact G]).
  eapply grouped_perm; [apply P2|]. rewrite cow_map_id by apply G1. exact G1.
Qed.

Lemma values_nonempty k ps s : In s (values_of k ps) -> s <> [].
Proof.
  unfold values_of. intros I. apply in_map_iff in I as ([a b] & <- & I). apply filter_In in I as [_ I].
  apply andb_true_iff in I as [_ I]. cbn in *. destruct b; [discriminate I|discriminate].
Qed.

(** ** Values *)

Section Values.
  Context {F : Type} (parse_float : bool -> str -> F + str) (serde_msg : mismatch -> str).
  Notation value := (value F).
  Notation de := (de parse_float serde_msg).
  Notation reads := (reads parse_float).
  Notation reads_all := (reads_all parse_float).
  Notation reads_each := (reads_each parse_float).

  Lemma vty_ind' (P : vty -> Prop) :
    (forall it, P (TInt it)) -> P TInt128 -> P TBool -> (forall w, P (TFloat w)) -> P TChar -> P TString -> P TUnit ->
    (forall t, P t -> P (TOption t)) -> (forall t, P t -> P (TNewtype t)) -> (forall t, P t -> P (TVec t)) ->
    (forall ts, Forall P ts -> P (TTuple ts)) -> (forall names, P (TEnum names)) -> P TMismatch -> forall t, P t.
  Proof.
    intros H1 H2 H3 H4 H5 H6 H7 H8 H9 H10 H11 H13 H12. fix IH 1. intros t.
    refine (match t with
            | TInt it => H1 it | TInt128 => H2 | TBool => H3 | TFloat w => H4 w | TChar => H5 | TString => H6 | TUnit => H7
            | TOption t' => H8 t' (IH t') | TNewtype t' => H9 t' (IH t') | TVec t' => H10 t' (IH t')
            | TTuple ts => H11 ts ((fix all (l : list vty) : Forall P l :=
                 match l with [] => Forall_nil P | x :: r => Forall_cons x (IH x) (all r) end) ts)
            | TEnum names => H13 names | TMismatch => H12 end).
  Qed.

  Definition suffix {A} (i l : list A) : Prop := exists p, l = p ++ i.

  Lemma suffix_refl {A} (l : list A) : suffix l l.
  Proof. exists []. reflexivity. Qed.
  Lemma suffix_trans {A} (a b c : list A) : suffix a b -> suffix b c -> suffix a c.
  Proof. intros [p ->] [q ->]. exists (q ++ p). apply app_assoc. Qed.
  Lemma suffix_cons {A} (x : A) i l : suffix i l -> suffix i (x :: l).
  Proof. intros [p ->]. exists (x :: p). reflexivity. Qed.
  Lemma suffix_length {A} (i l : list A) : suffix i l -> length i <= length l.
  Proof. intros [p ->]. rewrite app_length. lia. Qed.
  Lemma suffix_Forall {A} (P : A -> Prop) i l : suffix i l -> Forall P l -> Forall P i.
  Proof. intros [p ->] Fa. apply Forall_app in Fa. apply Fa. Qed.

  Notation nonempty := (fun s : str => s <> []).

  (** An element reader that does not panic on non-empty slices satisfying [G], and
      leaves a non-empty slice. *)
  Definition calm (G : list str -> Prop) (d : list str -> out value * list str) : Prop :=
    forall l, l <> [] -> G l ->
      match d l with
      | (Panics _, _) => False
      | (_, i) => i <> [] /\ suffix i l
      end.

  Definition closed (G : list str -> Prop) : Prop := forall i l, suffix i l -> G l -> G i.

  Lemma next_calm G d first l : closed G -> calm G d -> l <> [] -> G l ->
    match next_element d first l with
    | (Panics _, _) => False
    | (Done None, i) => i = l /\ length l = 1 /\ first = false
    | (Done (Some v), i) =>
        exists m, (if first then m = l else l = hd [] l :: m /\ m <> []) /\ m <> [] /\ d m = (Done v, i) /\ i <> [] /\ suffix i m
    | (Fail e, i) =>
        (exists m, (if first then m = l else l = hd [] l :: m /\ m <> []) /\ m <> [] /\ d m = (Fail e, i)) /\ i <> [] /\ suffix i l
    end.
  Proof.
    intros Cl C Ne Gl. unfold next_element. destruct first; cbn [negb].
    - rewrite andb_false_r. specialize (C l Ne Gl). destruct (d l) as [[v|e|p] i] eqn:E; cbn.
      + exists l. auto.
      + destruct C. split; [|auto]. exists l. auto.
      + exact C.
    - rewrite andb_true_r. destruct l as [|x [|y r]]; [congruence|cbn; auto|]. cbn [length Nat.eqb].
      assert (S1 : suffix (y :: r) (x :: y :: r)) by (exists [x]; reflexivity).
      specialize (C (y :: r) ltac:(discriminate) (Cl _ _ S1 Gl)).
      destruct (d (y :: r)) as [[v|e|p] i] eqn:E; cbn.
      + exists (y :: r). destruct C. repeat split; try discriminate; auto.
      + destruct C as [C1 C2]. split; [exists (y :: r); repeat split; try discriminate; exact E|]. split; [exact C1|].
        eapply suffix_trans; eauto.
      + exact C.
  Qed.

  Lemma visit_vec_calm G d : closed G -> calm G d -> forall fuel (first : bool) (l : list str), l <> [] -> G l ->
    (if first then length l < fuel else length l <= fuel) ->
    match visit_vec d fuel first l with
    | (Panics _, _) => False
    | (_, i) => i <> [] /\ suffix i l
    end.
  Proof.
    intros Cl C. induction fuel as [|n IH]; intros first l Ne Gl L.
    { destruct first; destruct l; cbn in *; try congruence; lia. }
    cbn [visit_vec]. pose proof (next_calm G d first l Cl C Ne Gl) as K.
    destruct (next_element d first l) as [[[v|]|e|p] i].
    - destruct K as (m & E & Nm & Ed & Ni & Si).
      assert (Sm : suffix m l) by (destruct first; [subst; apply suffix_refl|destruct E as [E _]; rewrite E; apply suffix_cons, suffix_refl]).
      assert (Lm : length i <= n).
      { pose proof (suffix_length _ _ Si). destruct first; [subst; lia|]. destruct E as [E _].
        apply (f_equal (@length _)) in E. cbn in E. lia. }
      specialize (IH false i Ni (Cl _ _ (suffix_trans _ _ _ Si Sm) Gl) Lm).
      destruct (visit_vec d n false i) as [[vs|e|p] j]; cbn; [| |exact IH];
        (destruct IH as [I1 I2]; split; [exact I1|]; eapply suffix_trans; [exact I2|]; eapply suffix_trans; eauto).
    - destruct K as (-> & _). split; [exact Ne|apply suffix_refl].
    - destruct K as (_ & K). exact K.
    - exact K.
  Qed.

  Lemma visit_tuple_calm G : closed G -> forall ds n (first : bool) (l : list str), Forall (calm G) ds -> l <> [] -> G l ->
    match visit_tuple serde_msg ds n first l with
    | (Panics _, _) => False
    | (_, i) => i <> [] /\ suffix i l
    end.
  Proof.
    intros Cl. induction ds as [|d ds IH]; intros n first l Fa Ne Gl; cbn [visit_tuple].
    { split; [exact Ne|apply suffix_refl]. }
    inversion Fa as [|? ? C Fa']; subst.
    pose proof (next_calm G d first l Cl C Ne Gl) as K.
    destruct (next_element d first l) as [[[v|]|e|p] i].
    - destruct K as (m & E & Nm & Ed & Ni & Si).
      assert (Sm : suffix m l) by (destruct first; [subst; apply suffix_refl|destruct E as [E _]; rewrite E; apply suffix_cons, suffix_refl]).
      specialize (IH (S n) false i Fa' Ni (Cl _ _ (suffix_trans _ _ _ Si Sm) Gl)).
      destruct (visit_tuple serde_msg ds (S n) false i) as [[vs|e|p] j]; cbn; [| |exact IH];
        (destruct IH as [I1 I2]; split; [exact I1|]; eapply suffix_trans; [exact I2|]; eapply suffix_trans; eauto).
    - destruct K as (-> & _). split; [exact Ne|apply suffix_refl].
    - destruct K as (_ & K). exact K.
    - exact K.
  Qed.

  Lemma scalar_calm {A} (parse : str -> A + str) mk l : l <> [] ->
    match from_string (F:=F) parse mk l with Panics _ => False | _ => True end.
  Proof. intros Ne. destruct l as [|s l]; [congruence|]. cbn. destruct (parse s); exact Logic.I. Qed.

  Definition full (l : list str) : Prop := Forall nonempty l.
  Lemma full_closed : closed full.
  Proof. intros i l S. apply suffix_Forall. exact S. Qed.
  Lemma true_closed : closed (fun _ => True).
  Proof. intros i l _ _. exact Logic.I. Qed.

  Lemma de_calm t : calm full (de t).
  Proof.
    induction t as [it| | |w| | | |t IH|t IH|t IH|ts IH|names|] using vty_ind'; intros l Ne Fl; cbn [de].
    - pose proof (scalar_calm (parse_int it) VInt l Ne). destruct (from_string _ _ l); auto using suffix_refl.
    - auto using suffix_refl.
    - pose proof (scalar_calm parse_bool VBool l Ne). destruct (from_string _ _ l); auto using suffix_refl.
    - pose proof (scalar_calm (parse_float w) VFloat l Ne). destruct (from_string _ _ l); auto using suffix_refl.
    - destruct l as [|[|c s] l]; [congruence| |]; auto using suffix_refl.
    - destruct l as [|s l]; [congruence|]; auto using suffix_refl.
    - destruct l as [|[|c s] l]; [congruence| |]; [|auto using suffix_refl]. inversion Fl. congruence.
    - specialize (IH l Ne Fl). destruct l as [|[|c s] l]; [congruence|inversion Fl; congruence|].
      destruct (de t _) as [[v|e|p] i]; exact IH.
    - specialize (IH l Ne Fl). destruct (de t l) as [[v|e|p] i]; exact IH.
    - pose proof (visit_vec_calm full (de t) full_closed IH (S (S (length l))) true l Ne Fl ltac:(cbn; lia)) as K.
      destruct (visit_vec _ _ _ _) as [[v|e|p] i]; exact K.
    - pose proof (visit_tuple_calm full full_closed (map de ts) 0 true l) as K.
      destruct (visit_tuple _ _ _ _ _) as [[v|e|p] i]; apply K; auto; apply Forall_map; exact IH.
    - destruct l as [|s l]; [congruence|]; auto using suffix_refl.
    - destruct l as [|s l]; [congruence|]; auto using suffix_refl.
  Qed.

  Lemma de_calm_no_option t : no_option t -> calm (fun _ => True) (de t).
  Proof.
    induction t as [it| | |w| | | |t IH|t IH|t IH|ts IH|names|] using vty_ind'; intros No l Ne Gl; cbn [de];
      try contradiction.
    - pose proof (scalar_calm (parse_int it) VInt l Ne). destruct (from_string _ _ l); auto using suffix_refl.
    - auto using suffix_refl.
    - pose proof (scalar_calm parse_bool VBool l Ne). destruct (from_string _ _ l); auto using suffix_refl.
    - pose proof (scalar_calm (parse_float w) VFloat l Ne). destruct (from_string _ _ l); auto using suffix_refl.
    - destruct l as [|[|c s] l]; [congruence| |]; auto using suffix_refl.
    - destruct l as [|s l]; [congruence|]; auto using suffix_refl.
    - specialize (IH No l Ne Gl). destruct (de t l) as [[v|e|p] i]; exact IH.
    - pose proof (visit_vec_calm _ (de t) true_closed (IH No) (S (S (length l))) true l Ne Gl ltac:(cbn; lia)) as K.
      destruct (visit_vec _ _ _ _) as [[v|e|p] i]; exact K.
    - pose proof (visit_tuple_calm _ true_closed (map de ts) 0 true l) as K.
      assert (Fa : Forall (calm (fun _ => True)) (map de ts)).
      { apply Forall_map. cbn [no_option] in No. clear -IH No. induction IH as [|t ts K _ IH']; constructor.
        - apply K. apply No. - apply IH'. apply No. }
      destruct (visit_tuple _ _ _ _ _) as [[v|e|p] i]; apply K; auto.
    - destruct l as [|s l]; [congruence|]; auto using suffix_refl.
    - destruct l as [|s l]; [congruence|]; auto using suffix_refl.
  Qed.

  Lemma de_outside t l : options_outside t -> l <> [] -> match de t l with (Panics _, _) => False | _ => True end.
  Proof.
    revert l. induction t as [it| | |w| | | |t IH|t IH|t IH|ts IH|names|] using vty_ind'; intros l O Ne;
      try (match goal with |- context [Form.de _ _ ?t l] => pose proof (de_calm_no_option t O l Ne Logic.I) as K end; destruct (de _ l) as [[v|e|p] i]; [exact Logic.I|exact Logic.I|exact K]).
    - cbn [de]. destruct l as [|[|c s] l]; exact Logic.I.
    - cbn [de]. specialize (IH l O Ne). destruct l as [|[|c s] l]; [congruence|exact Logic.I|].
      destruct (de t _) as [[v|e|p] i]; exact IH.
    - cbn [de]. specialize (IH l O Ne). destruct (de t l) as [[v|e|p] i]; exact IH.
  Qed.

  (** ** Reading and [de] *)

  Lemma scalar_det t s v v' : scalar_text parse_float t s v -> scalar_text parse_float t s v' -> v = v'.
  Proof.
    intros A B. destruct A; inversion B; subst; try reflexivity.
    - apply parse_int_spec in H, H1. congruence.
    - congruence.
  Qed.

  Scheme reads_mind := Induction for FormSpec.reads Sort Prop
    with reads_all_mind := Induction for FormSpec.reads_all Sort Prop
    with reads_each_mind := Induction for FormSpec.reads_each Sort Prop.

  Lemma reads_nonempty t l v r : reads t l v r -> l <> [].
  Proof.
    revert t l v r.
    apply (reads_mind F parse_float (fun t l v r _ => l <> []) (fun t l vs _ => True)
             (fun ts l vs r _ => ts <> [] -> l <> [])); auto; try discriminate; try (intros; congruence).
    intros t ts l vs r _ K. apply K. discriminate.
  Qed.

  Lemma reads_det t l v r : reads t l v r -> forall v' r', reads t l v' r' -> v = v' /\ r = r'.
  Proof.
    revert t l v r.
    apply (reads_mind F parse_float
             (fun t l v r _ => forall v' r', reads t l v' r' -> v = v' /\ r = r')
             (fun t l vs _ => forall vs', reads_all t l vs' -> vs = vs')
             (fun ts l vs r _ => forall vs' r', reads_each ts l vs' r' -> vs = vs' /\ r = r')).
    - intros t s v r Sc v' r' R. inversion R; subst; try (inversion Sc; fail).
      split; [eapply scalar_det; eauto|reflexivity].
    - intros t l v r _ IH v' r' R. inversion R as [? ? ? ? Sc| ? ? ? ? R2| | | |]; subst; [inversion Sc|].
      apply IH in R2 as [-> ->]. auto.
    - intros t l v r _ IH v' r' R. inversion R as [? ? ? ? Sc| | ? ? ? ? R2| | |]; subst; [inversion Sc|].
      apply IH in R2 as [-> ->]. auto.
    - intros t l vs Ne _ IH v' r' R. inversion R as [? ? ? ? Sc| | | ? ? ? ? R2| |]; subst; [inversion Sc|].
      apply IH in R2 as ->. auto.
    - intros t ts l vs r _ IH v' r' R. inversion R as [? ? ? ? Sc| | | | ? ? ? ? ? R2|]; subst; [inversion Sc|].
      apply IH in R2 as [-> ->]. auto.
    - intros s r v' r' R. inversion R as [? ? ? ? Sc| | | | |]; subst; [inversion Sc|]. auto.
    - intros t vs' R. inversion R as [|? ? ? ? ? R1]; subst; [reflexivity|]. apply reads_nonempty in R1. congruence.
    - intros t l v r vs R1 IH1 _ IH2 vs' R. inversion R as [|? ? ? ? ? R2 R3]; subst.
      + apply reads_nonempty in R1. congruence.
      + apply IH1 in R2 as [-> ->]. apply IH2 in R3 as ->. reflexivity.
    - intros l vs' r' R. inversion R; subst. auto.
    - intros t ts l v m vs r _ IH1 _ IH2 vs' r' R. inversion R as [|? ? ? ? ? ? ? R2 R3]; subst.
      apply IH1 in R2 as [-> ->]. apply IH2 in R3 as [-> ->]. auto.
  Qed.

  (** What an element reader has to do for type [t]. *)
  Definition reader (t : vty) (d : list str -> out value * list str) : Prop :=
    forall l, l <> [] -> full l ->
      match d l with
      | (Done v, i) => reads t l v (tl i)
      | (Fail _, _) => forall v r, ~ reads t l v r
      | (Panics _, _) => True
      end.

  Lemma visit_vec_reads t d : calm full d -> reader t d -> forall fuel (first : bool) (l : list str), l <> [] -> full l ->
    match visit_vec d fuel first l with
    | (Done vs, i) => reads_all t (if first then l else tl l) vs /\ tl i = []
    | (Fail _, _) => forall vs, ~ reads_all t (if first then l else tl l) vs
    | (Panics _, _) => True
    end.
  Proof.
    intros C R. induction fuel as [|n IH]; intros first l Ne Fl; [exact Logic.I|].
    cbn [visit_vec]. pose proof (next_calm full d first l full_closed C Ne Fl) as K.
    destruct (next_element d first l) as [[[v|]|e|p] i].
    - destruct K as (m & E & Nm & Ed & Ni & Si).
      assert (Sm : suffix m l) by (destruct first; [subst; apply suffix_refl|destruct E as [E _]; rewrite E; apply suffix_cons, suffix_refl]).
      assert (M : (if first then l else tl l) = m) by (destruct first; [auto|destruct E as [E _]; rewrite E; reflexivity]).
      rewrite M. assert (Fm : full m) by (eapply full_closed; eauto).
      assert (Fi : full i) by (eapply full_closed; eauto).
      pose proof (R m Nm Fm) as Rm. rewrite Ed in Rm. specialize (IH false i Ni Fi).
      destruct (visit_vec d n false i) as [[vs|e|p] j]; cbn.
      + destruct IH as [I1 I2]. split; [econstructor; eauto|exact I2].
      + intros vs RA. inversion RA; subst; [congruence|].
        match goal with H : reads t _ _ _ |- _ => destruct (reads_det _ _ _ _ Rm _ _ H) as [<- <-] end. eapply IH; eauto.
      + exact Logic.I.
    - destruct K as (-> & L & ->). destruct l as [|x [|y l]]; try discriminate L. cbn. split; [constructor|reflexivity].
    - destruct K as ((m & E & Nm & Ed) & _).
      assert (M : (if first then l else tl l) = m) by (destruct first; [auto|destruct E as [E _]; rewrite E; reflexivity]).
      rewrite M. assert (Sm : suffix m l) by (destruct first; [subst; apply suffix_refl|destruct E as [E _]; rewrite E; apply suffix_cons, suffix_refl]).
      pose proof (R m Nm (full_closed _ _ Sm Fl)) as Rm. rewrite Ed in Rm.
      intros vs RA. inversion RA; subst; [congruence|]. eapply Rm; eauto.
    - exact Logic.I.
  Qed.

  Lemma visit_tuple_reads ts : forall ds n (first : bool) (l : list str), Forall (calm full) ds -> Forall2 reader ts ds ->
    l <> [] -> full l -> (first = true -> ts <> []) ->
    match visit_tuple serde_msg ds n first l with
    | (Done vs, i) => reads_each ts (if first then l else tl l) vs (tl i)
    | (Fail _, _) => forall vs r, ~ reads_each ts (if first then l else tl l) vs r
    | (Panics _, _) => True
    end.
  Proof.
    induction ts as [|t ts IH]; intros ds n first l Fc F2 Ne Fl Ft; inversion F2; subst; cbn [visit_tuple].
    { destruct first; [exfalso; apply Ft; reflexivity|]. constructor. }
    rename y into d. rename l' into ds'. inversion Fc as [|? ? C Fc']; subst.
    pose proof (next_calm full d first l full_closed C Ne Fl) as K.
    destruct (next_element d first l) as [[[v|]|e|p] i].
    - destruct K as (m & E & Nm & Ed & Ni & Si).
      assert (Sm : suffix m l) by (destruct first; [subst; apply suffix_refl|destruct E as [E _]; rewrite E; apply suffix_cons, suffix_refl]).
      assert (M : (if first then l else tl l) = m) by (destruct first; [auto|destruct E as [E _]; rewrite E; reflexivity]).
      rewrite M. assert (Fm : full m) by (eapply full_closed; eauto).
      assert (Fi : full i) by (eapply full_closed; eauto).
      pose proof (H1 m Nm Fm) as Rm. rewrite Ed in Rm.
      specialize (IH ds' (S n) false i Fc' H3 Ni Fi ltac:(discriminate)).
      destruct (visit_tuple serde_msg ds' (S n) false i) as [[vs|e|p] j]; cbn.
      + econstructor; eauto.
      + intros vs r RA. inversion RA; subst.
        match goal with H : reads t _ _ _ |- _ => destruct (reads_det _ _ _ _ Rm _ _ H) as [<- <-] end. eapply IH; eauto.
      + exact Logic.I.
    - destruct K as (-> & L & ->). destruct l as [|x [|y l]]; try discriminate L. cbn.
      intros vs r RA. inversion RA; subst. match goal with H : reads t _ _ _ |- _ => apply reads_nonempty in H end. congruence.
    - destruct K as ((m & E & Nm & Ed) & _).
      assert (M : (if first then l else tl l) = m) by (destruct first; [auto|destruct E as [E _]; rewrite E; reflexivity]).
      rewrite M. assert (Sm : suffix m l) by (destruct first; [subst; apply suffix_refl|destruct E as [E _]; rewrite E; apply suffix_cons, suffix_refl]).
      pose proof (H1 m Nm (full_closed _ _ Sm Fl)) as Rm. rewrite Ed in Rm.
      intros vs r RA. inversion RA; subst. eapply Rm; eauto.
    - exact Logic.I.
  Qed.

  Lemma parse_bool_spec s b : parse_bool s = inl b <-> scalar_text parse_float TBool s (VBool b).
  Proof.
    unfold parse_bool. destruct (str_eqb_spec s (lit "true")) as [->|N1].
    - split; [intros [= <-]; constructor|]. intros S. inversion S; subst; reflexivity.
    - destruct (str_eqb_spec s (lit "false")) as [->|N2].
      + split; [intros [= <-]; constructor|]. intros S. inversion S; subst; reflexivity.
      + split; [intros [=]|]. intros S. inversion S; subst; congruence.
  Qed.

  Lemma from_string_reads {A} t (parse : str -> A + str) mk l :
    (forall s x, parse s = inl x -> scalar_text parse_float t s (mk x)) ->
    (forall s v, scalar_text parse_float t s v -> exists x, parse s = inl x) ->
    (forall s r v r', reads t (s :: r) v r' -> scalar_text parse_float t s v) -> l <> [] ->
    match from_string parse mk l with
    | Done v => reads t l v (tl l)
    | Fail _ => forall v r, ~ reads t l v r
    | Panics _ => True
    end.
  Proof.
    intros K1 K2 K3 Ne. destruct l as [|s l]; [congruence|]. cbn. destruct (parse s) as [x|e] eqn:E.
    - constructor. apply K1. exact E.
    - intros v r R. apply K3 in R. apply K2 in R as [x Ex]. congruence.
  Qed.

  Lemma de_reader t : reader t (de t).
  Proof.
    induction t as [it| | |w| | | |t IH|t IH|t IH|ts IH|names|] using vty_ind'; intros l Ne Fl; cbn [de].
    - apply from_string_reads; auto.
      + intros s x E. constructor. apply parse_int_spec. exact E.
      + intros s v S. inversion S; subst. exists z. apply parse_int_spec. assumption.
      + intros s r v r' R. inversion R; subst. assumption.
    - intros v r R. inversion R; subst. match goal with H : scalar_text _ _ _ _ |- _ => inversion H end.
    - apply from_string_reads; auto.
      + intros s x E. apply parse_bool_spec. exact E.
      + intros s v S. inversion S; subst; eexists; reflexivity.
      + intros s r v r' R. inversion R; subst. assumption.
    - apply from_string_reads; auto.
      + intros s x E. constructor. exact E.
      + intros s v S. inversion S; subst. eauto.
      + intros s r v r' R. inversion R; subst. assumption.
    - destruct l as [|[|c s] l]; [congruence| |].
      + inversion Fl. congruence.
      + constructor. constructor.
    - destruct l as [|s l]; [congruence|]. constructor. constructor.
    - destruct l as [|[|c s] l]; [congruence| |].
      + inversion Fl. congruence.
      + constructor. constructor.
    - specialize (IH l Ne Fl). destruct l as [|[|c s] l]; [congruence|inversion Fl; congruence|].
      destruct (de t _) as [[v|e|p] i]; cbn.
      + constructor. exact IH.
      + intros v r R. inversion R as [? ? ? ? Sc| ? ? ? ? R2| | | |]; subst; [inversion Sc|]. eapply IH; eauto.
      + exact Logic.I.
    - specialize (IH l Ne Fl). destruct (de t _) as [[v|e|p] i]; cbn.
      + constructor. exact IH.
      + intros v r R. inversion R as [? ? ? ? Sc| | ? ? ? ? R2| | |]; subst; [inversion Sc|]. eapply IH; eauto.
      + exact Logic.I.
    - pose proof (visit_vec_reads t (de t) (de_calm t) IH (S (S (length l))) true l Ne Fl) as K.
      destruct (visit_vec _ _ _ _) as [[v|e|p] i]; cbn.
      + destruct K as [K1 K2]. rewrite K2. constructor; assumption.
      + intros v r R. inversion R; subst; [match goal with H : scalar_text _ _ _ _ |- _ => inversion H end|]. eapply K; eauto.
      + exact Logic.I.
    - destruct ts as [|t ts].
      { cbn. destruct l as [|s l]; [congruence|]. apply rd_empty. }
      pose proof (visit_tuple_reads (t :: ts) (map de (t :: ts)) 0 true l) as K.
      assert (F1 : Forall (calm full) (map de (t :: ts))) by (apply Forall_map, Forall_forall; intros; apply de_calm).
      assert (F2 : Forall2 reader (t :: ts) (map de (t :: ts))).
      { clear -IH. induction IH; constructor; auto. }
      specialize (K F1 F2 Ne Fl ltac:(discriminate)).
      destruct (visit_tuple _ _ _ _ _) as [[v|e|p] i]; cbn.
      + constructor. exact K.
      + intros v r R. inversion R; subst; [match goal with H : scalar_text _ _ _ _ |- _ => inversion H end|]. eapply K; eauto.
      + exact Logic.I.
    - destruct l as [|s l]; [congruence|]. intros v r R. inversion R; subst. match goal with H : scalar_text _ _ _ _ |- _ => inversion H end.    - destruct l as [|s l]; [congruence|]. intros v r R. inversion R; subst. match goal with H : scalar_text _ _ _ _ |- _ => inversion H end.
  Qed.

  Lemma de_gives t l : l <> [] -> full l ->
    match fst (de t l) with
    | Done v => forall v', gives parse_float t l v' <-> v' = v
    | Fail _ => forall v, ~ gives parse_float t l v
    | Panics _ => False
    end.
  Proof.
    intros Ne Fl. pose proof (de_reader t l Ne Fl) as R. pose proof (de_calm t l Ne Fl) as C.
    destruct (de t l) as [[v|e|p] i]; cbn.
    - intros v'. split; [intros [r R']; apply (reads_det _ _ _ _ R') in R as [-> _]; reflexivity|].
      intros ->. exists (tl i). exact R.
    - intros v [r R']. eapply R; eauto.
    - exact C.
  Qed.
End Values.
