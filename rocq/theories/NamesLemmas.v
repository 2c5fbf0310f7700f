(** Proofs about header names given as text. *)

From Coq Require Import String Lia.
From Verif Require Import Base Utf8 RouteTrie Router TableSpec PropSpec Http App AppSpec ReplySpec Names NamesSpec.
From Verif Require Import Wire BaseFacts Utf8Facts RouteFacts RouteLemmas RouteWitness AppLemmas AppWitness ReplyLemmas ReplyLemmas2.
Local Open Scope list_scope.

Lemma contains_in c s : contains c s = true <-> In c s.
Proof.
  unfold contains. rewrite existsb_exists. split.
  - intros (x & I & E). apply N.eqb_eq in E. subst. exact I.
  - intros I. exists c. split; [exact I|apply N.eqb_refl].
Qed.

Lemma special_range c : In c (lit "!#$%&'*+-.^_`|~") -> (c < 128)%N /\ lower c = c /\ c <> 34%N.
Proof. cbn. intros I. repeat (destruct I as [<-|I]; [repeat split; try reflexivity; discriminate|]). destruct I. Qed.

Lemma name_byte_spec q c n : name_byte q c = Some n <-> (tchar c \/ (q = true /\ c = 34%N)) /\ n = lower c.
Proof.
  unfold name_byte.
  destruct (((48 <=? c) && (c <=? 57)) || ((97 <=? c) && (c <=? 122)))%N eqn:E1.
  - assert (R : (48 <= c <= 57 \/ 97 <= c <= 122)%N).
    { apply orb_true_iff in E1 as [E|E]; apply andb_true_iff in E as [A B]; apply N.leb_le in A, B; lia. }
    assert (L : lower c = c).
    { unfold lower. destruct ((65 <=? c) && (c <=? 90))%N eqn:E; [|reflexivity].
      apply andb_true_iff in E as [A B]; apply N.leb_le in A, B; lia. }
    rewrite L. split; [intros [= <-]; split; [left; unfold tchar; tauto|reflexivity]|intros [_ ->]; reflexivity].
  - assert (R : ~ (48 <= c <= 57)%N /\ ~ (97 <= c <= 122)%N).
    { apply orb_false_iff in E1 as [P1 P2]. apply andb_false_iff in P1, P2.
      split; intros [P Q]; [destruct P1 as [A|A]|destruct P2 as [A|A]]; apply N.leb_gt in A; lia. }
    clear E1. destruct ((65 <=? c) && (c <=? 90))%N eqn:E2.
    + unfold lower. rewrite E2. apply andb_true_iff in E2 as [A B]; apply N.leb_le in A, B.
      split; [intros [= <-]; split; [left; unfold tchar; tauto|reflexivity]|intros [_ ->]; reflexivity].
    + assert (R' : ~ (65 <= c <= 90)%N).
      { apply andb_false_iff in E2. intros [P Q]. destruct E2 as [A|A]; apply N.leb_gt in A; lia. }
      assert (L : lower c = c) by (unfold lower; rewrite E2; reflexivity). rewrite L.
      destruct (contains c _) eqn:E3.
      * apply contains_in in E3.
        split; [intros [= <-]; split; [left; unfold tchar; tauto|reflexivity]|intros [_ ->]; reflexivity].
      * assert (NI : ~ In c (lit "!#$%&'*+-.^_`|~")) by (intros I; apply contains_in in I; congruence).
        destruct q; cbn [andb].
        -- destruct (c =? 34)%N eqn:E4.
           ++ apply N.eqb_eq in E4. split; [intros [= <-]; auto|intros [_ ->]; reflexivity].
           ++ apply N.eqb_neq in E4. split; [discriminate|intros [[T|[_ T]] _]; [unfold tchar in T; tauto|contradiction]].
        -- split; [discriminate|intros [[T|[T _]] _]; [unfold tchar in T; tauto|discriminate T]].
Qed.

Lemma tchar_ascii q c : tchar c \/ (q = true /\ c = 34%N) -> (c < 128)%N.
Proof.
  unfold tchar. intros [[T|[T|[T|T]]]|[_ T]]; try lia. apply special_range in T. tauto.
Qed.

Lemma name_bytes_spec q s n : name_bytes q s = Some n <->
  (forall c, In c s -> tchar c \/ (q = true /\ c = 34%N)) /\ n = map lower s.
Proof.
  revert n. induction s as [|b s IH]; intros n; cbn [name_bytes map].
  - split; [intros [= <-]; split; [intros c []|reflexivity]|intros [_ ->]; reflexivity].
  - destruct (name_byte q b) as [b'|] eqn:E.
    + apply name_byte_spec in E as [T ->]. destruct (name_bytes q s) as [n'|] eqn:E'.
      * destruct (proj1 (IH n') eq_refl) as [F ->]. split.
        -- intros [= <-]. split; [|reflexivity]. intros c [<-|I]; [exact T|exact (F c I)].
        -- intros [_ ->]. reflexivity.
      * split; [discriminate|]. intros [F ->]. enough (None = Some (map lower s)) by discriminate.
        apply IH. split; [|reflexivity]. intros c I. apply F. right. exact I.
    + split; [discriminate|]. intros [F ->]. exfalso.
      assert (H : name_byte q b = Some (lower b)) by (apply name_byte_spec; split; [apply F; left; reflexivity|reflexivity]).
      rewrite E in H. discriminate H.
Qed.

Lemma from_bytes_spec q s n : from_bytes q s = Some n <-> names_header q s /\ n = map lower s.
Proof.
  unfold from_bytes, names_header. destruct s as [|b s]; cbn [is_empty orb].
  - split; [discriminate|intros ((E & _) & _); contradiction E; reflexivity].
  - destruct (65535 <? N.of_nat (length (b :: s)))%N eqn:L.
    + apply N.ltb_lt in L. split; [discriminate|]. intros ((_ & L' & _) & _). unfold char in *. lia.
    + apply N.ltb_ge in L. rewrite name_bytes_spec. split.
      * intros [F ->]. split; [|reflexivity]. split; [discriminate|]. split; [exact L|exact F].
      * intros [(_ & _ & F) ->]. split; [exact F|reflexivity].
Qed.

Lemma utf8_name q k : (forall c, In c (utf8 k) -> tchar c \/ (q = true /\ c = 34%N)) -> utf8 k = k.
Proof.
  induction k as [|c k IH]; intros F; [reflexivity|]. change (utf8 (c :: k)) with (utf8_char c ++ utf8 k) in *.
  assert (C : utf8_char c = [c]).
  { unfold utf8_char in *. destruct (c <? 128)%N; [reflexivity|]. exfalso.
    destruct (c <? 2048)%N; [|destruct (c <? 65536)%N];
      match type of F with context [?h :: _] =>
        pose proof (tchar_ascii q h (F h (or_introl eq_refl))) as L end; clear F;
      match type of L with (_ + ?x < _)%N => pose proof (N.le_0_l x); set (y := x) in *; clearbody y; lia end. }
  rewrite C in *. cbn [app]. f_equal. apply IH. intros x I. apply F. right. exact I.
Qed.

Lemma utf8_ascii (s : str) : Forall (fun c => (c < 128)%N) s -> utf8 s = s.
Proof.
  induction 1 as [|c s L _ IH]; [reflexivity|]. change (utf8 (c :: s)) with (utf8_char c ++ utf8 s). rewrite IH.
  unfold utf8_char. apply N.ltb_lt in L. rewrite L. reflexivity.
Qed.

Lemma header_name_spec q k n : header_name q k = Some n <-> names_header q k /\ n = map lower k.
Proof.
  unfold header_name. rewrite from_bytes_spec. split; intros [N ->].
  - destruct N as (N1 & N2 & N3). pose proof (utf8_name q k N3) as E. rewrite E in *.
    split; [split; [|split]; assumption|reflexivity].
  - assert (E : utf8 k = k).
    { apply utf8_ascii. apply Forall_forall. intros c I. destruct N as (_ & _ & N). exact (tchar_ascii q c (N c I)). }
    rewrite E. split; [exact N|reflexivity].
Qed.

Lemma header_name_none q k : header_name q k = None <-> ~ names_header q k.
Proof.
  split.
  - intros E N. pose proof (proj2 (header_name_spec q k _) (conj N eq_refl)). congruence.
  - intros N. destruct (header_name q k) as [n|] eqn:E; [|reflexivity]. apply header_name_spec in E as [N' _]. contradiction.
Qed.

(** ** Case *)

Lemma lower_lower c : lower (lower c) = lower c.
Proof.
  unfold lower. destruct ((65 <=? c) && (c <=? 90))%N eqn:E; [|rewrite E; reflexivity].
  destruct ((65 <=? c + 32) && (c + 32 <=? 90))%N eqn:E'; [|reflexivity].
  apply andb_true_iff in E as [A B], E' as [A' B']. apply N.leb_le in A, B, A', B'. lia.
Qed.
Lemma map_lower_lower k : map lower (map lower k) = map lower k.
Proof. rewrite map_map. apply map_ext. apply lower_lower. Qed.

Lemma eqb_iff a b : str_eqb a b = true <-> a = b.
Proof. destruct (str_eqb_spec a b) as [E|E]; split; intros H; auto; try discriminate H; contradiction. Qed.

Lemma same_dec a b : same_name a b \/ ~ same_name a b.
Proof.
  unfold same_name. destruct (str_eqb (map lower a) (map lower b)) eqn:E.
  - left. apply eqb_iff. exact E.
  - right. intros H. apply eqb_iff in H. congruence.
Qed.

Definition low (l : list (str * str)) : list (hname * str) := map (fun kv => (map lower (fst kv), snd kv)) l.

Lemma last_none k l : last_value (map lower k) (low l) = None <-> forall x, In x l -> ~ same_name (fst x) k.
Proof.
  induction l as [|[k' v] l IH]; cbn [low map last_value fst snd]; [split; [intros _ x []|reflexivity]|].
  fold (low l). destruct (last_value (map lower k) (low l)) as [w|].
  - split; [discriminate|]. intros F. enough (Some w = None) by discriminate. apply IH. intros x I. apply F. right. exact I.
  - destruct (str_eqb (map lower k) (map lower k')) eqn:E.
    + split; [discriminate|]. intros F. exfalso. apply (F (k', v) (or_introl eq_refl)). apply eqb_iff in E. symmetry. exact E.
    + split; [|reflexivity]. intros _ x [<-|I]; [|apply IH; [reflexivity|exact I]].
      intros S. cbn in S. assert (str_eqb (map lower k) (map lower k') = true) by (apply eqb_iff; symmetry; exact S). congruence.
Qed.

Lemma last_value_under k l v : last_value (map lower k) (low l) = Some v <-> last_under k l v.
Proof.
  revert v. induction l as [|[k' w] l IH]; intros v; cbn [low map last_value fst snd].
  - split; [discriminate|]. intros (l1 & x & l2 & E & _). destruct l1; discriminate E.
  - fold (low l). destruct (last_value (map lower k) (low l)) as [u|] eqn:L.
    + rewrite IH. clear IH. split.
      * intros (l1 & x & l2 & -> & S & F). exists ((k', w) :: l1), x, l2. auto.
      * intros (l1 & x & l2 & E & S & F). destruct l1 as [|y l1]; [injection E as -> -> ->|injection E as <- ->].
        -- exfalso. assert (LN : last_value (map lower k) (low l2) = None) by (apply last_none; exact F). congruence.
        -- exists l1, x, l2. auto.
    + pose proof (proj1 (last_none k l) L) as LN. destruct (str_eqb (map lower k) (map lower k')) eqn:E.
      * apply eqb_iff in E. split.
        -- intros [= <-]. exists [], k', l. split; [reflexivity|]. split; [symmetry; exact E|exact LN].
        -- intros (l1 & x & l2 & E' & S & F). destruct l1 as [|y l1]; [injection E' as -> -> ->; reflexivity|injection E' as H1 H2].
           exfalso. subst l. apply (LN (x, v)); [apply in_or_app; right; left; reflexivity|exact S].
      * split; [discriminate|]. intros (l1 & x & l2 & E' & S & F). exfalso. destruct l1 as [|y l1]; [injection E' as -> -> ->|injection E' as H1 H2].
        -- assert (str_eqb (map lower k) (map lower x) = true) by (apply eqb_iff; symmetry; exact S). congruence.
        -- subst l. apply (LN (x, v)); [apply in_or_app; right; left; reflexivity|exact S].
Qed.

(** ** Replies: from the names as spelled to the names sent *)

Definition canon (a : look) : look := Look (lk_status a) (lk_body a) (low (lk_headers a)).

Lemma low_app a b : low (a ++ b) = low a ++ low b.
Proof. apply map_app. Qed.
Lemma low_id l : Forall in_lower (map fst l) -> low l = l.
Proof.
  induction l as [|[k v] l IH]; intros F; [reflexivity|]. cbn in F. inversion_clear F as [|? ? F1 F2].
  cbn. rewrite F1. f_equal. exact (IH F2).
Qed.

Section Text.
  Context {U A : Type} (q : bool).

  Lemma headers_text l hs : headers_of (header_name q) l hs <->
    hs = low l /\ forall n, In n (map fst l) -> names_header q n.
  Proof.
    unfold headers_of. revert hs. induction l as [|[k v] l IH]; intros hs.
    - split; [intros F; inversion_clear F; split; [reflexivity|intros n []]|intros [-> _]; constructor].
    - split.
      + intros F. inversion_clear F as [|? [k' v'] ? hs' [E1 E2] F']. cbn [fst snd] in *. apply header_name_spec in E1 as [N ->].
        apply IH in F' as [-> F']. subst v'. split; [reflexivity|]. intros n [<-|I]; [exact N|exact (F' n I)].
      + intros [-> F]. constructor.
        * cbn [fst snd]. split; [|reflexivity]. apply header_name_spec. split; [apply F; left; reflexivity|reflexivity].
        * apply IH. split; [reflexivity|]. intros n I. apply F. right. exact I.
  Qed.
  Lemma headers_some l hs : headers_of Some l hs <-> hs = l.
  Proof.
    unfold headers_of. revert hs. induction l as [|[k v] l IH]; intros hs.
    - split; [intros F; inversion_clear F; reflexivity|intros ->; constructor].
    - split.
      + intros F. inversion_clear F as [|? [k' v'] ? hs' [E1 E2] F']. cbn [fst snd] in *. injection E1 as <-. subst v'.
        apply IH in F'. subst hs'. reflexivity.
      + intros ->. constructor; [split; reflexivity|]. apply IH. reflexivity.
  Qed.

  Lemma call_text tr k a0 b : Forall in_lower (rtyped k) ->
    (call_is (U:=U) (A:=A) (header_name q) tr k (canon a0) b <->
     exists b0, b = canon b0 /\ call_is Some tr k a0 b0 /\ forall n, In n (rnames k) -> names_header q n).
  Proof.
    intros T. destruct a0 as [s x hs]. unfold canon. cbn [lk_status lk_body lk_headers]. split.
    - intros C. inversion C; subst; cbn [rtyped rnames] in *;
        try (eexists (Look _ _ _); cbn [lk_status lk_body lk_headers]; split; [|split; [constructor; eassumption|intros ? []]]; reflexivity);
        try (eexists (Look _ _ _); cbn [lk_status lk_body lk_headers]; split; [|split; [constructor|intros ? []]];
             rewrite low_app; reflexivity);
        try (eexists (Look _ _ _); cbn [lk_status lk_body lk_headers]; split; [|split; [constructor; eassumption|intros ? []]];
             rewrite low_app; reflexivity).
      + eexists (Look _ _ _); cbn [lk_status lk_body lk_headers]. split; [|split; [constructor|intros ? []]].
        rewrite low_app. cbn. inversion_clear T as [|? ? L _]. rewrite L. reflexivity.
      + match goal with H : header_name _ _ = Some _ |- _ => apply header_name_spec in H as [N ->] end.
        eexists (Look _ _ _); cbn [lk_status lk_body lk_headers].
        split; [|split; [constructor; reflexivity|intros m [<-|[]]; exact N]]. rewrite low_app. reflexivity.
      + eexists (Look _ _ _); cbn [lk_status lk_body lk_headers]. split; [|split; [constructor|intros ? []]].
        rewrite low_app, (low_id l T). reflexivity.
      + match goal with H : headers_of _ _ _ |- _ => apply headers_text in H as [-> N] end.
        eexists (Look _ _ _); cbn [lk_status lk_body lk_headers].
        split; [|split; [constructor; apply headers_some; reflexivity|exact N]]. rewrite low_app. reflexivity.
    - intros (b0 & -> & C & N). inversion C; subst; cbn [rtyped rnames lk_status lk_body lk_headers] in *; rewrite ?low_app;
        try (constructor; assumption).
      + cbn [low map fst snd]. inversion_clear T as [|? ? L _]. rewrite L. constructor.
      + match goal with H : Some _ = Some _ |- _ => injection H as <- end.
        constructor. apply header_name_spec. split; [apply N; left; reflexivity|reflexivity].
      + rewrite (low_id l T). constructor.
      + match goal with H : headers_of _ _ _ |- _ => apply headers_some in H; subst end.
        constructor. apply headers_text. split; [reflexivity|exact N].
  Qed.

  Lemma calls_text tr l a0 b : Forall in_lower (flat_map rtyped l) ->
    (calls_are (U:=U) (A:=A) (header_name q) tr l (canon a0) b <->
     exists b0, b = canon b0 /\ calls_are Some tr l a0 b0 /\ forall n, In n (flat_map rnames l) -> names_header q n).
  Proof.
    revert tr a0. induction l as [|k l IH]; intros tr a0 T; cbn [flat_map] in *.
    - split.
      + intros C. inversion C; subst. exists a0. split; [reflexivity|]. split; [constructor|intros n []].
      + intros (b0 & -> & C & _). inversion C; subst. constructor.
    - apply Forall_app in T as [T1 T2]. split.
      + intros C. inversion C as [|tr1 ? ? b1 tr2 ? ? C1 C2]; subst. apply (call_text _ _ _ _ T1) in C1 as (b1' & -> & C1 & N1).
        apply (IH _ _ T2) in C2 as (b0 & -> & C2 & N2). exists b0. split; [reflexivity|]. split; [econstructor; eassumption|].
        intros n I. apply in_app_or in I as [I|I]; auto.
      + intros (b0 & -> & C & N). inversion C as [|tr1 ? ? b1 tr2 ? ? C1 C2]; subst. econstructor.
        * apply (call_text _ _ _ _ T1). exists b1. split; [reflexivity|]. split; [exact C1|]. intros n I. apply N, in_or_app. auto.
        * apply (IH _ _ T2). exists b0. split; [reflexivity|]. split; [exact C2|]. intros n I. apply N, in_or_app. auto.
  Qed.

  Definition first_names (s : rstart) : list str := match s with SHeadersStr _ l => map fst l | _ => [] end.
  Definition first_typed (s : rstart) : list hname :=
    match s with SHeader _ k _ => [k] | SHeaders _ l => map fst l | _ => [] end.

  Lemma first_text s b : Forall in_lower (first_typed s) ->
    (first_is (header_name q) s b <->
     exists b0, b = canon b0 /\ first_is Some s b0 /\ forall n, In n (first_names s) -> names_header q n).
  Proof.
    intros T. split.
    - intros F. inversion F; subst; cbn [first_names first_typed] in *;
        try (eexists (Look _ _ _); split; [|split; [constructor; eassumption|intros ? []]]; reflexivity).
      + eexists (Look _ _ _); split; [|split; [constructor; eassumption|intros ? []]].
        unfold canon. cbn. inversion_clear T as [|? ? L _]. rewrite L. reflexivity.
      + eexists (Look _ _ _); split; [|split; [constructor; eassumption|intros ? []]].
        unfold canon. cbn [lk_status lk_body lk_headers]. rewrite (low_id l T). reflexivity.
      + match goal with H : headers_of _ _ _ |- _ => apply headers_text in H as [-> N] end.
        eexists (Look _ _ _); split; [|split; [constructor; [eassumption|apply headers_some; reflexivity]|exact N]]. reflexivity.
    - intros (b0 & -> & F & N). inversion F; subst; unfold canon; cbn [first_names first_typed lk_status lk_body lk_headers] in *;
        try (constructor; assumption).
      + cbn [low map fst snd]. inversion_clear T as [|? ? L _]. rewrite L. constructor. assumption.
      + rewrite (low_id l T). constructor. assumption.
      + match goal with H : headers_of _ _ _ |- _ => apply headers_some in H; subst end.
        constructor; [assumption|]. apply headers_text. split; [reflexivity|exact N].
  Qed.

  Lemma responder_text x a : responder_is x a <-> exists a0, a = canon a0 /\ responder_is x a0.
  Proof.
    assert (C : forall a, responder_is x a -> canon a = a) by (intros b R; inversion R; reflexivity).
    split.
    - intros R. exists a. split; [symmetry; exact (C a R)|exact R].
    - intros (a0 & -> & R). rewrite (C a0 R). exact R.
  Qed.

  Lemma start_text tr s b : Forall in_lower (typed_in s []) ->
    (start_is (U:=U) (A:=A) (header_name q) tr s b <->
     exists b0, b = canon b0 /\ start_is Some tr s b0 /\ forall n, In n (names_in s []) -> names_header q n).
  Proof.
    intros T. unfold names_in, typed_in in *. cbn [flat_map] in *. rewrite ?app_nil_r in *. split.
    - intros S. inversion S as [x a R|ser a C|tr' path a C|tr' st l a b' F C]; subst.
      + apply responder_text in R as (b0 & -> & R). exists b0. split; [reflexivity|]. split; [constructor; exact R|intros ? []].
      + apply (calls_text [] [CJson ser] (Look 200%N [] []) b (Forall_nil _)) in C as (b0 & -> & C & _).
        exists b0. split; [reflexivity|]. split; [constructor; exact C|intros ? []].
      + apply (calls_text tr [CFile path] (Look 200%N [] []) b (Forall_nil _)) in C as (b0 & -> & C & _).
        exists b0. split; [reflexivity|]. split; [constructor; exact C|intros ? []].
      + assert (T' : Forall in_lower (first_typed st ++ flat_map rtyped l)) by (destruct st; exact T).
        apply Forall_app in T' as [T1 T2].
        apply (first_text _ _ T1) in F as (a0 & -> & F & N1). apply (calls_text _ _ _ _ T2) in C as (b0 & -> & C & N2).
        exists b0. split; [reflexivity|]. split; [econstructor; eassumption|].
        assert (N : forall n, In n (first_names st ++ flat_map rnames l) -> names_header q n)
          by (intros n I; apply in_app_or in I as [I|I]; auto).
        destruct st; exact N.
    - intros (b0 & -> & S & N). inversion S as [x a R|ser a C|tr' path a C|tr' st l a b' F C]; subst.
      + constructor. apply responder_text. eauto.
      + constructor. apply (calls_text [] [CJson ser] (Look 200%N [] []) _ (Forall_nil _)).
        exists b0. split; [reflexivity|]. split; [exact C|intros ? []].
      + constructor. apply (calls_text tr [CFile path] (Look 200%N [] []) _ (Forall_nil _)).
        exists b0. split; [reflexivity|]. split; [exact C|intros ? []].
      + assert (T' : Forall in_lower (first_typed st ++ flat_map rtyped l)) by (destruct st; exact T).
        assert (N' : forall n, In n (first_names st ++ flat_map rnames l) -> names_header q n) by (destruct st; exact N).
        apply Forall_app in T' as [T1 T2]. econstructor.
        * apply (first_text _ _ T1). exists a. split; [reflexivity|]. split; [exact F|]. intros n I. apply N', in_or_app. auto.
        * apply (calls_text _ _ _ _ T2). exists b0. split; [reflexivity|]. split; [exact C|]. intros n I. apply N', in_or_app. auto.
  Qed.

  Lemma on_response_typed l : flat_map rtyped (map on_response l) = flat_map btyped l.
  Proof. induction l as [|k l IH]; [reflexivity|]. cbn [map flat_map]. rewrite IH. destruct k; reflexivity. Qed.
  Lemma on_response_names l : flat_map rnames (map on_response l) = flat_map names l.
  Proof. induction l as [|k l IH]; [reflexivity|]. cbn [map flat_map]. rewrite IH. destruct k; reflexivity. Qed.

  Lemma names_split s bl : names_in s bl = names_in s [] ++ flat_map names bl.
  Proof. unfold names_in. cbn [flat_map]. rewrite app_nil_r. reflexivity. Qed.
  Lemma typed_split s bl : typed_in s bl = typed_in s [] ++ flat_map btyped bl.
  Proof. unfold typed_in. cbn [flat_map]. rewrite app_nil_r. reflexivity. Qed.

  Lemma written_text tr s bl a : Forall in_lower (typed_in s bl) ->
    (written (U:=U) (A:=A) (header_name q) tr s bl a <->
     exists a0, a = canon a0 /\ written Some tr s bl a0 /\ forall n, In n (names_in s bl) -> names_header q n).
  Proof.
    rewrite typed_split, names_split. intros T. apply Forall_app in T as [T1 T2]. rewrite <- on_response_typed in T2.
    unfold written. split.
    - intros (b & S & C). apply (start_text _ _ _ T1) in S as (b0 & -> & S & N1).
      apply (calls_text _ _ _ _ T2) in C as (a0 & -> & C & N2). rewrite on_response_names in N2.
      exists a0. split; [reflexivity|]. split; [eauto|]. intros n I. apply in_app_or in I as [I|I]; auto.
    - intros (a0 & -> & (b0 & S & C) & N). exists (canon b0). split.
      + apply (start_text _ _ _ T1). exists b0. split; [reflexivity|]. split; [exact S|]. intros n I. apply N, in_or_app. auto.
      + apply (calls_text _ _ _ _ T2). exists a0. split; [reflexivity|]. split; [exact C|].
        rewrite on_response_names. intros n I. apply N, in_or_app. auto.
  Qed.

  Lemma sendable_canon a : sendable (canon a) <-> sendable a.
  Proof.
    unfold sendable, canon, low. cbn [lk_headers]. split; intros F k v I.
    - apply (F (map lower k) v). apply in_map_iff. exists (k, v). split; [reflexivity|exact I].
    - apply in_map_iff in I as ([k' v'] & [= <- <-] & I). exact (F k' v' I).
  Qed.

  Lemma received_canon a r : received (canon a) r -> received_text a r.
  Proof.
    intros (H1 & H2 & H3 & H4 & H5). unfold canon in *. cbn [lk_status lk_body lk_headers] in *.
    repeat (split; [assumption|]). split.
    - apply Forall_forall. intros n I. apply in_map_iff in I as ([n' v] & <- & I). cbn [fst].
      apply H5 in I. apply last_value_in in I. unfold low in I. apply in_map_iff in I as ([k w] & [= <- <-] & _).
      apply map_lower_lower.
    - intros k v. rewrite H5. apply last_value_under.
  Qed.

  Lemma gets_text prog s bl : Forall in_lower (typed_in s bl) ->
    client_gets (U:=U) (A:=A) (header_name q) prog s bl -> client_gets_text q prog s bl.
  Proof.
    intros T (G1 & G2). split.
    - intros tr o R. destruct (G1 tr o R) as [(a & r & W & S & E & RC)|[(a & W & S & E)|(E & n & I & N)]].
      + apply (written_text _ _ _ _ T) in W as (a0 & -> & W & N). left. exists a0, r. split; [exact W|]. split; [exact N|].
        split; [apply sendable_canon; exact S|]. split; [exact E|apply received_canon; exact RC].
      + apply (written_text _ _ _ _ T) in W as (a0 & -> & W & N). right. left. exists a0. split; [exact W|]. split; [exact N|].
        split; [intros S'; apply S, sendable_canon, S'|exact E].
      + right. right. split; [exact E|]. exists n. split; [exact I|]. apply header_name_none. exact N.
    - intros tr a W N. destruct (G2 tr (canon a)) as (_ & tr' & E & S1 & S2).
      + apply (written_text _ _ _ _ T). eauto.
      + exists tr'. split; [exact E|]. split.
        * intros S. destruct (S1 (proj2 (sendable_canon a) S)) as (r & R & RC). exists r. split; [exact R|apply received_canon, RC].
        * intros S. apply S2. intros S'. apply S, sendable_canon, S'.
  Qed.
End Text.

Theorem text_received {X U A : Type} q (l : list (op (handler X U A) (middleware X U A))) t st (rq : request X) ts ps s bl :
  built l t -> resolves (table_of l) (segments (rq_path rq)) ts ps ->
  handler_for (rq_method rq) (routes_at (table_of l) ts) = Some (reply (header_name q) s bl) ->
  (forall m, In m (mws_for (table_of l) ts) -> exists d, m = logger d) -> proper s -> Forall in_lower (typed_in s bl) ->
  client_gets_text q (serve t st rq) s bl.
Proof. intros B R H L P T. exact (gets_text q _ _ _ T (reply_received _ _ _ _ _ _ _ _ _ B R H L P)). Qed.

Theorem text_received_any {X U A : Type} q (t : trie (handler X U A) (middleware X U A)) st (rq : request X) r m s bl :
  search_route t (rq_path rq) = LSome r -> rr_get_route r (rq_method rq) = Some (Route m (reply (header_name q) s bl)) ->
  (forall m, In m (rr_mws r) -> exists d, m = logger d) -> proper s -> Forall in_lower (typed_in s bl) ->
  client_gets_text q (serve t st rq) s bl.
Proof. intros S G L P T. exact (gets_text q _ _ _ T (reply_received_any _ _ _ _ _ _ _ _ S G L P)). Qed.

(** ** Headers of requests *)

Lemma append_spec lines hs : append_lines lines = Some hs <->
  (forall x, In x lines -> names_header false (fst x)) /\ hs = low lines.
Proof.
  revert hs. induction lines as [|[k v] l IH]; intros hs; cbn [append_lines].
  - split; [intros [= <-]; split; [intros x []|reflexivity]|intros [_ ->]; reflexivity].
  - destruct (from_bytes false k) as [n|] eqn:E.
    + apply from_bytes_spec in E as [N ->]. destruct (append_lines l) as [hs'|] eqn:E'.
      * destruct (proj1 (IH hs') eq_refl) as [F ->]. split.
        -- intros [= <-]. split; [|reflexivity]. intros x [<-|I]; [exact N|exact (F x I)].
        -- intros [_ ->]. reflexivity.
      * split; [discriminate|]. intros [F ->]. enough (None = Some (low l)) by discriminate.
        apply IH. split; [|reflexivity]. intros x I. apply F. right. exact I.
    + split; [discriminate|]. intros [F _]. exfalso.
      assert (H : from_bytes false k = Some (map lower k))
        by (apply from_bytes_spec; split; [apply (F (k, v)); left; reflexivity|reflexivity]).
      rewrite E in H. discriminate H.
Qed.

Lemma same_eqb k k' : str_eqb (map lower k) (map lower k') = true <-> same_name k' k.
Proof. rewrite eqb_iff. split; intros E; symmetry; exact E. Qed.

Lemma get_first q k l v : header_get q k (low l) = Some v <-> names_header q k /\ first_under k l v.
Proof.
  unfold header_get. destruct (header_name q k) as [n|] eqn:E.
  - apply header_name_spec in E as [N ->]. split.
    + intros F. split; [exact N|]. induction l as [|[k' w] l IH]; cbn [low map find fst] in F; [discriminate F|].
      destruct (str_eqb (map lower k) (map lower k')) eqn:S.
      * injection F as <-. exists [], k', l. split; [reflexivity|]. split; [apply same_eqb; exact S|intros x []].
      * destruct (IH F) as (l1 & x & l2 & -> & S' & NS). exists ((k', w) :: l1), x, l2. split; [reflexivity|]. split; [exact S'|].
        intros y [<-|I]; [cbn; rewrite <- same_eqb; congruence|exact (NS y I)].
    + intros (_ & l1 & x & l2 & -> & S & NS). induction l1 as [|[k' w] l1 IH]; cbn [app low map find fst snd].
      * apply same_eqb in S. rewrite S. reflexivity.
      * destruct (str_eqb (map lower k) (map lower k')) eqn:S'.
        -- exfalso. apply same_eqb in S'. exact (NS (k', w) (or_introl eq_refl) S').
        -- apply IH. intros y I. apply NS. right. exact I.
  - apply header_name_none in E. split; [discriminate|intros [N _]; contradiction].
Qed.

Lemma get_all_values q k l : names_header q k -> values_under k l (header_get_all q k (low l)).
Proof.
  intros N. unfold header_get_all. rewrite (proj2 (header_name_spec q k _) (conj N eq_refl)).
  induction l as [|[k' w] l IH]; [constructor|]. cbn [low map filter fst].
  destruct (str_eqb (map lower k) (map lower k')) eqn:S.
  - cbn [map snd]. apply vu_same; [apply same_eqb; exact S|exact IH].
  - apply vu_other; [rewrite <- same_eqb; congruence|exact IH].
Qed.

Lemma lines_taken (lines : list (str * str)) :
  (exists hs, append_lines lines = Some hs) <-> (forall x, In x lines -> names_header false (fst x)).
Proof.
  split.
  - intros (hs & E). apply append_spec in E. tauto.
  - intros F. exists (low lines). apply append_spec. auto.
Qed.

Lemma headers_read (X : Type) q other m target b lines hs (rq : request X) ps st (c : context X) :
  append_lines lines = Some hs -> arrives other m target hs b = Some rq -> starts rq ps st c ->
  forall k,
  (forall v, header_get q k (rq_headers (ctx_request c)) = Some v <-> names_header q k /\ first_under k lines v) /\
  (names_header q k -> values_under k lines (header_get_all q k (rq_headers (ctx_request c)))).
Proof.
  intros E AR (_ & _ & _ & _ & _ & HE & _) k. apply append_spec in E as [_ ->].
  unfold arrives in AR. destruct (method_of m); [|discriminate AR]. destruct (uri_of other target) as [[p qu]|]; [|discriminate AR].
  injection AR as <-. rewrite HE. cbn [rq_headers]. split; [intros v; apply get_first|apply get_all_values].
Qed.

Lemma header_names q (k : str) :
  (header_name q k <> None <-> names_header q k) /\
  forall k', names_header q k -> names_header q k' -> (header_name q k = header_name q k' <-> same_name k k').
Proof.
  split.
  - split.
    + intros D. destruct (header_name q k) as [n|] eqn:E; [|contradiction D; reflexivity]. apply header_name_spec in E. tauto.
    + intros N E. apply header_name_none in E. contradiction.
  - intros k' N N'. rewrite (proj2 (header_name_spec q k _) (conj N eq_refl)), (proj2 (header_name_spec q k' _) (conj N' eq_refl)).
    unfold same_name. split; [intros [= E]; exact E|intros ->; reflexivity].
Qed.

Lemma spellings (X U A : Type) :
  let s := HBuild RUnit in
  let bl := [BHeaderStr (lit "X-Id") (lit "1"); BHeaderStr (lit "x-id") (lit "2")] in
  exists t : trie (handler X U A) (middleware X U A),
    built [ORoute GET (lit "/a") (reply (header_name false) s bl)] t /\
    forall st, runs (serve t st (get_req (lit "/a"))) [] (Value (HttpResponse 200%N [(lit "x-id", lit "2")] (Body [] false))).
Proof.
  intros s bl.
  assert (L : forall H M (h : H), exists t : trie H M, built [ORoute GET (lit "/a") h] t /\
    search_route t (lit "/a") = LSome (RR (RV [] [(GET, Route GET h)]) [])).
  { intros H M h. eexists. split; [built_by|]. vm_compute. reflexivity. }
  destruct (L (handler X U A) (middleware X U A) (reply (header_name false) s bl)) as (t & B & S).
  exists t. split; [exact B|]. intros st. unfold serve. cbn [rq_path get_req]. rewrite S. clear. destruct st as [[? ?]|]; vm_compute; apply run_ret.
Qed.

Lemma names_example (X U A : Type) :
  let s := HBuild (RStatic (lit "<p>")) in
  let bl := [BHeadersStr [(lit "Content-TYPE", lit "text/html"); (lit "X-Id", lit "1")]; BHeader (lit "x-id") (lit "2")] in
  let h := @reply X U A (header_name true) s bl in
  let l := [@OService (handler X U A) (middleware X U A) (logger true); ORoute GET (lit "/a") h] in
  (exists t ts ps, built l t /\ resolves (table_of l) (segments (lit "/a")) ts ps /\
    handler_for GET (routes_at (table_of l) ts) = Some h /\ mws_for (table_of l) ts = [logger true]) /\
  proper s /\ Forall in_lower (typed_in s bl) /\
  names_header false (lit "Content-TYPE") /\ ~ names_header true (lit "a b") /\ ~ names_header true [] /\
  last_under (lit "content-type") [(lit "Content-Type", lit "1"); (lit "x", lit "2"); (lit "CONTENT-type", lit "3")] (lit "3").
Proof.
  intros s bl h l. split.
  - assert (L : forall H M (h : H) (m : M), let l := [OService m; ORoute GET (lit "/a") h] in
      exists t ts ps, built l t /\ resolves (table_of l) (segments (lit "/a")) ts ps /\
        handler_for GET (routes_at (table_of l) ts) = Some h /\ mws_for (table_of l) ts = [m]).
    { clear. intros H M h m l.
      assert (E : exists t rv, built l t /\ search_route t (lit "/a") = LSome rv /\
        rr_get_route rv GET = Some (Route GET h) /\ rr_mws rv = [m]).
      { eexists; eexists; split; [built_by|]; split; [vm_compute; reflexivity|]; split; vm_compute; reflexivity. }
      destruct E as (t & rv & B & E & G & W). destruct (lookup_some _ t _ rv B E) as (ts & ps & R & (D1 & D & _)).
      exists t, ts, ps. split; [exact B|]. split; [exact R|]. split; [|congruence].
      specialize (D GET). rewrite G in D. destruct (handler_for GET (routes_at (table_of l) ts)) as [h'|]; [|discriminate D].
      injection D as ->. reflexivity. }
    exact (L (handler X U A) (middleware X U A) h (logger true)).
  - split; [discriminate|]. split; [repeat constructor|].
    assert (D : forall q k, header_name q k = Some (map lower k) -> names_header q k) by (intros q k E; apply header_name_spec in E; tauto).
    split; [apply D; vm_compute; reflexivity|]. split; [apply header_name_none; vm_compute; reflexivity|].
    split; [apply header_name_none; vm_compute; reflexivity|].
    exists [(lit "Content-Type", lit "1"); (lit "x", lit "2")], (lit "CONTENT-type"), []. split; [reflexivity|].
    split; [reflexivity|intros x []].
Qed.
