(** Proofs about structs sent in a query or a form. *)

From Coq Require Import String ZArith Lia.
From Verif Require Import Base BaseFacts Utf8 UrlEncoded RouteTrie Http Form App AppSpec FormSpec UrlSpec SentSpec.
From Verif Require Import FormLemmas FormLemmas2 FormLemmas3 FormLemmas4 FormLemmas5 FormLemmas6 UrlLemmas UrlFacts Wire WireSpec WireLemmas UserSpec.
Local Open Scope list_scope.

Section Sent.
  Context {F : Type} (pf : bool -> str -> F + str).
  Notation sends_one := (sends_one pf).
  Notation sends_each := (sends_each pf).
  Notation sends := (sends pf).
  Notation reads := (reads pf).
  Notation gives := (gives pf).

  Definition full (s : str) : bool := negb (is_empty s).

  Lemma values_texts k ps : values_of k ps = filter full (texts_of k ps).
  Proof.
    unfold values_of, texts_of, full. induction ps as [|[k' s] ps IH]; [reflexivity|]. cbn [filter fst snd].
    destruct (str_eqb k k'); cbn [andb map filter snd]; [|exact IH]. destruct (is_empty s); cbn [negb map snd]; rewrite IH; reflexivity.
  Qed.

  Lemma full_all l : (forall s, In s l -> s <> []) -> filter full l = l.
  Proof.
    induction l as [|s l IH]; intros A; [reflexivity|]. cbn [filter]. unfold full at 1.
    assert (N : s <> []) by (apply A; left; reflexivity). destruct s as [|x s]; [congruence|]. cbn [is_empty negb].
    rewrite IH; [reflexivity|]. intros s' I. apply A. right. exact I.
  Qed.

  Lemma full_none l : filter full l = [] <-> forall s, In s l -> s = [].
  Proof.
    split.
    - intros E s I. destruct s as [|x s]; [reflexivity|]. exfalso. assert (J : In (x :: s) (filter full l)) by (apply filter_In; auto).
      rewrite E in J. exact J.
    - induction l as [|s l IH]; intros A; [reflexivity|]. cbn [filter]. rewrite (A s) by (left; reflexivity). cbn. apply IH.
      intros s' I. apply A. right. exact I.
  Qed.

  Lemma full_length l : length (filter full l) <= length l /\ (length (filter full l) = length l -> forall s, In s l -> s <> []).
  Proof.
    induction l as [|s l [IH1 IH2]]; [split; [reflexivity|intros _ ? []]|]. cbn [filter]. destruct s as [|x s]; cbn [full is_empty negb length].
    - split; [lia|]. intros E. lia.
    - split; [lia|]. intros E s' [<-|I]; [discriminate|]. apply IH2; [lia|exact I].
  Qed.

  (** ** Forth *)

  Lemma one_reads t v s : sends_one t v s -> forall r, reads t (s :: r) v r.
  Proof.
    induction 1; intros r; try (apply rd_scalar; constructor; auto using written_text; fail).
    - apply rd_option, IHsends_one.
    - apply rd_newtype, IHsends_one.
  Qed.

  Lemma each_reads ts vs l : sends_each ts vs l -> forall r, reads_each pf ts (l ++ r) vs r.
  Proof. induction 1; intros r; [constructor|]. econstructor; [apply one_reads; eassumption|apply IHsends_each]. Qed.

  Lemma all_reads t vs l : Forall2 (sends_one t) vs l -> reads_all pf t l vs.
  Proof. induction 1; [constructor|]. econstructor; [apply one_reads; eassumption|assumption]. Qed.

  Lemma sends_gives t v l : sends t v l -> l <> [] -> reads t l v [].
  Proof.
    induction 1 as [t v s O|t|t v l S IH|t v l S IH|t vs l A|ts vs l E]; intros N.
    - apply one_reads. exact O.
    - congruence.
    - apply rd_option, IH, N.
    - apply rd_newtype, IH, N.
    - apply rd_vec; [exact N|]. apply all_reads. exact A.
    - destruct E as [|t ts v vs s l O E]; [congruence|]. apply rd_tuple. rewrite <- (app_nil_r (s :: l)). apply each_reads. constructor; assumption.
  Qed.

  (** ** Back: as many texts are read as were sent *)

  Lemma one_takes t v s : sends_one t v s -> forall l r, reads t l v r -> exists s', l = s' :: r.
  Proof.
    induction 1; intros l0 r R; inversion R; subst; eauto; match goal with H : scalar_text _ _ _ _ |- _ => inversion H end.
  Qed.

  Lemma all_takes t vs l : Forall2 (sends_one t) vs l -> forall l', reads_all pf t l' vs -> length l' = length l.
  Proof.
    induction 1 as [|v s vs l O A IH]; intros l' R; inversion R as [|? ? ? r ? R1 R2]; subst; [reflexivity|].
    destruct (one_takes _ _ _ O _ _ R1) as (s' & ->). cbn [length]. rewrite (IH _ R2). reflexivity.
  Qed.

  Lemma each_takes ts vs l : sends_each ts vs l -> forall l' r, reads_each pf ts l' vs r -> length l <= length l'.
  Proof.
    induction 1 as [|t ts v vs s l O E IH]; intros l' r R; inversion R as [|? ? ? ? m ? ? R1 R2]; subst; [cbn; lia|].
    destruct (one_takes _ _ _ O _ _ R1) as (s' & ->). cbn [length]. specialize (IH _ _ R2). lia.
  Qed.

  Lemma sends_takes t v l : sends t v l -> forall l' r, reads t l' v r -> length l <= length l'.
  Proof.
    induction 1 as [t v s O|t|t v l S IH|t v l S IH|t vs l A|ts vs l E]; intros l' r R.
    - destruct (one_takes _ _ _ O _ _ R) as (s' & ->). cbn. lia.
    - cbn. lia.
    - inversion R as [? ? ? ? S'|? ? ? ? R'| | | |]; subst; [inversion S'|]. exact (IH _ _ R').
    - inversion R as [? ? ? ? S'| |? ? ? ? R'| | |]; subst; [inversion S'|]. exact (IH _ _ R').
    - inversion R as [? ? ? ? S'| | |? ? ? N R'| |]; subst; [inversion S'|]. rewrite (all_takes _ _ _ A _ R'). lia.
    - inversion R as [? ? ? ? S'| | | |? ? ? ? ? R'|]; subst; [inversion S'| |inversion E; cbn; lia]. exact (each_takes _ _ _ E _ _ R').
  Qed.

  Lemma none_option t l : sends t VNone l -> exists t', t = TOption t'.
  Proof. intros S. inversion S as [? ? ? O| | | | |]; subst; [inversion O|eauto]. Qed.

  Lemma field_back ps f v : sends (f_type f) v (texts_of (f_name f) ps) ->
    (field_value pf ps f v <-> comes_back ps f v).
  Proof.
    intros S. unfold field_value, comes_back. rewrite values_texts. set (l := texts_of (f_name f) ps) in *. split.
    - intros [(N & r & R)|(E & D)].
      + left. pose proof (sends_takes _ _ _ S _ _ R) as L. destruct (full_length l) as [L1 L2].
        split; [intros E; rewrite E in N; apply N; reflexivity|]. apply L2. lia.
      + right. split; [apply full_none; exact E|]. destruct D as [D|(D & _ & ->)]; auto.
    - intros [(N & A)|(A & D)].
      + left. rewrite (full_all l A). split; [exact N|]. exists []. exact (sends_gives _ _ _ S N).
      + right. split; [apply full_none; exact A|]. destruct D as [D|(D & ->)]; [left; exact D|right].
        split; [exact D|]. split; [exact (none_option _ _ S)|reflexivity].
  Qed.

  Lemma struct_back msg it1 it2 : iteration it1 -> iteration it2 -> forall (X : Type) src (c : context X) q, has_data src c q ->
    forall fs deny vs ps, NoDup (map f_name fs) -> sent_as pf fs vs ps ->
    (forall p, In p ps -> Forall scalar (fst p) /\ Forall scalar (snd p)) -> encodes ps q ->
    (read_from pf msg it1 it2 src (TgStruct fs deny) c = inl (inl (RStruct vs)) <-> Forall2 (comes_back ps) fs vs).
  Proof.
    intros I1 I2 X src c q D fs deny vs ps N (S & K) Sc E.
    assert (P : form_pairs q ps) by (apply parse_spec; apply parse_encoded; assumption).
    rewrite (struct_api pf msg it1 it2 I1 I2 X src c q D fs deny vs ps P N).
    assert (A : Forall2 (field_value pf ps) fs vs <-> Forall2 (comes_back ps) fs vs).
    { clear - S. induction S as [|f v fs vs S1 S IH]; [split; constructor|].
      split; intros Q; inversion Q; subst; constructor; try (apply (field_back ps f v S1); assumption); apply IH; assumption. }
    rewrite A. split; [tauto|]. intros B. split; [exact B|]. intros _ k V. destruct (texts_of k ps) as [|s l] eqn:T.
    - exfalso. apply V. rewrite values_texts, T. reflexivity.
    - assert (J : In s (texts_of k ps)) by (rewrite T; left; reflexivity). apply in_map_iff in J as (p & _ & J).
      apply filter_In in J as (J & Ek). apply str_eqb_eq in Ek. subst k. exact (K p J).
  Qed.
End Sent.

Lemma struct_sent {F : Type} (pf : bool -> str -> F + str) msg it1 it2 (X : Type) other ms m (p q : str) headers b ps fs deny vs :
  iteration it1 -> iteration it2 ->
  In (ms, m) known_methods -> (exists r, p = c_slash :: r) -> Forall path_char p ->
  (forall x, In x ps -> Forall scalar (fst x) /\ Forall scalar (snd x)) -> encodes ps q -> Forall query_char q ->
  (N.of_nat (length (p ++ 63%N :: q)) <= 65534)%N ->
  NoDup (map f_name fs) -> sent_as pf fs vs ps -> Forall2 (comes_back ps) fs vs ->
  exists rq : request X, arrives other ms (p ++ 63%N :: q) headers b = Some rq /\ rq_method rq = m /\ rq_path rq = p /\
    forall c : context X, rq_query (ctx_request c) = rq_query rq ->
      ctx_query_params pf msg it1 it2 (TgStruct fs deny) c = inl (inl (RStruct vs)).
Proof.
  intros I1 I2 Km Hp Pc Sc E Qc L N S B.
  destruct (query_pairs X other ms m p q headers b ps Km Hp Pc Sc E Qc L) as (rq & A & Em & Ep & _ & D).
  exists rq. split; [exact A|]. split; [exact Em|]. split; [exact Ep|]. intros c Eq.
  exact (proj2 (struct_back pf msg it1 it2 I1 I2 X FromQuery c q (D c Eq) fs deny vs ps N S Sc E) B).
Qed.

(** ** What does not come back *)

Section Lost.
  Context {F : Type} (pf : bool -> str -> F + str).

  Definition lone (t : vty) : list (field F) := [Field (lit "s") t None].

  Lemma lone_names t : NoDup (map f_name (lone t)).
  Proof. repeat constructor. intros []. Qed.

  Lemma lone_keys t (ps : list (str * str)) : (forall p, In p ps -> fst p = lit "s") -> forall p, In p ps -> In (fst p) (map f_name (lone t)).
  Proof. intros A p I. left. symmetry. exact (A p I). Qed.

  Lemma lone_read msg it1 it2 (X : Type) src (c : context X) q t r ps : iteration it1 -> iteration it2 -> has_data src c q ->
    form_pairs q ps -> field_value pf ps (Field (lit "s") t None) r -> 
    read_from pf msg it1 it2 src (TgStruct (lone t) false) c = inl (inl (RStruct [r])).
  Proof.
    intros I1 I2 D P V. apply (struct_api pf msg it1 it2 I1 I2 X src c q D (lone t) false [r] ps P (lone_names t)).
    split; [constructor; [exact V|constructor]|discriminate].
  Qed.

  Lemma some_lost msg it1 it2 : iteration it1 -> iteration it2 ->
    exists fs v v' ps q, NoDup (map f_name fs) /\ sent_as pf fs [v] ps /\ encodes ps q /\ v <> v' /\
      forall (X : Type) src (c : context X), has_data src c q ->
        read_from pf msg it1 it2 src (TgStruct fs false) c = inl (inl (RStruct [v'])).
  Proof.
    intros I1 I2. exists (lone (TOption TString)), (VSome (VString [])), VNone, [(lit "s", [])], (utf8 (lit "s=")).
    split; [apply lone_names|]. split.
    { split; [|apply lone_keys; intros p [<-|[]]; reflexivity]. constructor; [|constructor]. apply sd_one. constructor. constructor. }
    split.
    { change (utf8 (lit "s=")) with (standard [(lit "s", [])]). apply standard_encodes. intros p [<-|[]]. split; repeat (constructor; [left; reflexivity|]); constructor. }
    split; [discriminate|]. intros X src c D.
    apply (lone_read msg it1 it2 X src c (utf8 (lit "s=")) _ _ [(lit "s", [])] I1 I2 D); [apply parse_spec; reflexivity|].
    right. split; [reflexivity|]. right. split; [reflexivity|]. split; [eexists; reflexivity|reflexivity].
  Qed.

  Lemma element_lost msg it1 it2 : iteration it1 -> iteration it2 ->
    exists fs v v' ps q, NoDup (map f_name fs) /\ sent_as pf fs [VSeq v] ps /\ encodes ps q /\ length v <> length v' /\
      forall (X : Type) src (c : context X), has_data src c q ->
        read_from pf msg it1 it2 src (TgStruct fs false) c = inl (inl (RStruct [VSeq v'])).
  Proof.
    intros I1 I2. exists (lone (TVec TString)), [VString []; VString (lit "a")], [VString (lit "a")], [(lit "s", []); (lit "s", lit "a")], (utf8 (lit "s=&s=a")).
    split; [apply lone_names|]. split.
    { split; [|apply lone_keys; intros p [<-|[<-|[]]]; reflexivity]. constructor; [|constructor]. apply sd_vec. repeat constructor. }
    split.
    { change (utf8 (lit "s=&s=a")) with (standard [(lit "s", []); (lit "s", lit "a")]). apply standard_encodes.
      intros p [<-|[<-|[]]]; split; repeat (constructor; [left; reflexivity|]); constructor. }
    split; [discriminate|]. intros X src c D.
    apply (lone_read msg it1 it2 X src c (utf8 (lit "s=&s=a")) _ _ [(lit "s", []); (lit "s", lit "a")] I1 I2 D); [apply parse_spec; reflexivity|].
    left. split; [discriminate|]. exists []. apply rd_vec; [discriminate|]. econstructor; [apply rd_scalar; constructor|constructor].
  Qed.

  (** A text or a vector that is empty is missing. *)
  Lemma empty_missing msg it1 it2 : iteration it1 -> iteration it2 ->
    forall (X : Type) src (c : context X) q, has_data src c q -> forall k t v deny ps, Forall scalar k ->
    sent_as pf [Field k t None] [v] ps -> encodes ps q ->
    (t = TString /\ v = VString [] \/ exists t', t = TVec t' /\ v = VSeq []) ->
    read_from pf msg it1 it2 src (TgStruct [Field k t None] deny) c = inr (EForm (FMessage (lit "missing field `" ++ k ++ lit "`"))).
  Proof.
    intros I1 I2 X src c q D k t v deny ps Sk (S & K) E C.
    assert (S1 : sends pf t v (texts_of k ps)) by (inversion S; subst; assumption).
    assert (T : texts_of k ps = [[]] /\ t = TString \/ texts_of k ps = [] /\ exists t', t = TVec t').
    { destruct C as [(-> & ->)|(t' & -> & ->)].
      - left. split; [|reflexivity]. inversion S1 as [? ? ? O| | | | |]; subst. inversion O; subst. reflexivity.
      - right. split; [|eauto]. inversion S1 as [? ? ? O| | | |? ? ? A|]; subst; [inversion O|]. inversion A. reflexivity. }
    assert (V : forall p, In p ps -> fst p = k /\ snd p = []).
    { intros p I. assert (Ek : fst p = k). { destruct (K p I) as [Ek|[]]. symmetry. exact Ek. }
      split; [exact Ek|]. assert (J : In (snd p) (texts_of k ps)).
      { apply in_map_iff. exists p. split; [reflexivity|]. apply filter_In. split; [exact I|]. apply str_eqb_eq. symmetry. exact Ek. }
      destruct T as [(T & _)|(T & _)]; rewrite T in J; [destruct J as [J|[]]; symmetry; exact J|destruct J]. }
    assert (P : form_pairs q ps).
    { apply parse_spec, parse_encoded; [|exact E]. intros [k0 s0] I. destruct (V _ I) as [E1 E2]. cbn [fst snd] in *. subst k0 s0. split; [exact Sk|constructor]. }
    assert (Em : forall k', values_of k' ps = []).
    { intros k'. rewrite values_texts. apply full_none. intros s J. apply in_map_iff in J as (p & <- & J). apply filter_In in J as [J _].
      exact (proj2 (V p J)). }
    apply (missing_field_api pf msg it1 it2 I1 I2 X src c q D [Field k t None] deny [] (Field k t None) [] ps P).
    - repeat constructor. intros [].
    - intros _ k' N. rewrite Em in N. congruence.
    - intros g _ N. rewrite Em in N. congruence.
    - reflexivity.
    - intros g [].
    - split; [reflexivity|]. intros t' Et. cbn in Et. destruct T as [(_ & ->)|(_ & t2 & ->)]; discriminate Et.
    - apply Em.
  Qed.
End Lost.
