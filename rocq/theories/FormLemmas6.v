(** Form data read by handlers. *)

From Coq Require Import String ZArith.
From Verif Require Import Base BaseFacts Utf8 RouteTrie UrlEncoded UrlSpec UrlLemmas Http Form AppSpec FormSpec.
From Verif Require Import AppLemmas4 FormLemmas FormLemmas2 FormLemmas3 FormWitness FormLemmas4 FormLemmas5.
Local Open Scope string_scope.
Local Open Scope list_scope.

Section Api.
  Context {F : Type} (pf : bool -> str -> F + str) (msg : mismatch -> str).
  Notation parse_queries := (parse_queries pf msg).
  Notation read_from := (read_from pf msg).
  Notation field_value := (field_value pf).
  Notation gives := (gives pf).

  Lemma read_data it1 it2 {X} src (c : context X) q tg : has_data src c q ->
    read_from it1 it2 src tg c = queries_result (parse_queries it1 it2 tg q).
  Proof.
    destruct src; cbn [has_data FormSpec.read_from].
    - intros ->. reflexivity.
    - intros (B & O & ->). unfold ctx_form. rewrite one_chunk_read by assumption. reflexivity.
  Qed.

  Lemma result_done (o : out (tvalue F)) v : queries_result o = inl (inl v) <-> o = Done v.
  Proof. destruct o; cbn; split; intros H; inversion H; reflexivity. Qed.

  Lemma result_fail (o : out (tvalue F)) e : queries_result o = inr (EForm e) <-> o = Fail e.
  Proof. destruct o; cbn; split; intros H; inversion H; reflexivity. Qed.

  (** C70 *)
  Lemma alike it1 it2 tg {X Y} (c : context X) (d : context Y) :
    broken (rq_body (ctx_request d)) = false -> one_chunk (rq_body (ctx_request d)) ->
    body_bytes (rq_body (ctx_request d)) = utf8 (query_text c) ->
    fst (ctx_form pf msg it1 it2 tg d) = ctx_query_params pf msg it1 it2 tg c.
  Proof.
    intros B O E. change (read_from it1 it2 FromBody tg d = read_from it1 it2 FromQuery tg c).
    rewrite (read_data _ _ FromBody d (utf8 (query_text c))) by (cbn; auto).
    rewrite (read_data _ _ FromQuery c (utf8 (query_text c))) by reflexivity. reflexivity.
  Qed.

  (** C42 *)
  Lemma w_order_api : exists s it1 it2 it3 it4 k k',
    iteration it1 /\ iteration it2 /\ iteration it3 /\ iteration it4 /\ k <> k' /\
    forall (X : Type) src (c : context X), has_data src c (utf8 s) ->
      read_from it1 it2 src TgString c = inl (inl (RKey k)) /\ read_from it3 it4 src TgString c = inl (inl (RKey k')).
  Proof.
    exists (lit "a=1&b=2"), (fun l => l), (fun l => l), (fun l => l), (@rev _), (lit "a"), (lit "b").
    split; [apply iteration_id|]. split; [apply iteration_id|]. split; [apply iteration_id|]. split; [apply iteration_rev|].
    split; [discriminate|]. intros X src c D. rewrite !(read_data _ _ src c _ _ D). split; vm_compute; reflexivity.
  Qed.

  Lemma order_api it1 it2 it3 it4 tg {X} src (c : context X) q ps : has_data src c q -> form_pairs q ps ->
    iteration it1 -> iteration it2 -> iteration it3 -> iteration it4 ->
    match tg with TgStruct fs _ => NoDup (map f_name fs) | TgFlat fs inner => apart fs inner | _ => True end ->
    (tg = TgString -> one_key ps) ->
    same_reading (read_from it1 it2 src tg c) (read_from it3 it4 src tg c).
  Proof.
    intros D P I1 I2 I3 I4 N O. rewrite !(read_data _ _ src c _ _ D).
    pose proof (order_irrelevant_pairs F pf msg it1 it2 it3 it4 tg q ps P I1 I2 I3 I4 N O) as S.
    destruct (Form.parse_queries pf msg it1 it2 tg q), (Form.parse_queries pf msg it3 it4 tg q); exact S.
  Qed.

  (** C43 *)
  Lemma total_api it1 it2 : iteration it1 -> iteration it2 ->
    forall (X : Type) src tg (c : context X) p, (forall e, tg <> TgAny e) -> read_from it1 it2 src tg c <> inl (inr p).
  Proof.
    intros I1 I2 X [] tg c p N; [apply query_params_total|apply form_total]; assumption.
  Qed.

  Lemma w_int_api it1 it2 t k z : iteration it1 -> iteration it2 -> Forall scalar k -> in_range t z ->
    forall (X : Type) src (c : context X) q, has_data src c q -> encodes [(k, written z)] q ->
    read_from it1 it2 src (TgStruct [Field k (TInt t) None] false) c = inl (inl (RStruct [VInt z])).
  Proof.
    intros I1 I2 S R X src c q D E. rewrite (read_data _ _ src c _ _ D). apply result_done. eapply int_round_trip; eauto.
  Qed.

  Section Orders.
  Context (it1 it2 : list entry -> list entry) (I1 : iteration it1) (I2 : iteration it2).
  Context (X : Type) (src : source) (c : context X) (q : bytes) (D : has_data src c q).
  Notation read tg := (read_from it1 it2 src tg c).

  Lemma grouped_api ps : form_pairs q ps -> exists m,
    read (TgMap KString (TVec TString)) = inl (inl (RMap m)) /\ NoDup (map fst m) /\
    forall k v, In (k, v) m <-> values_of k ps <> [] /\ v = VSeq (map VString (values_of k ps)).
  Proof.
    intros P. rewrite (read_data _ _ src c _ _ D). destruct (grouped_queries_pairs F pf msg it1 it2 I1 I2 q ps P) as (m & E & K).
    exists m. rewrite E. split; [reflexivity|exact K].
  Qed.

  Lemma overflow_api on_empty ps : form_pairs q ps -> (exists k, values_of k ps <> []) ->
    read (TgAny on_empty) = inl (inr PStack).
  Proof.
    intros P N. rewrite (read_data _ _ src c _ _ D), (any_overflows pf msg it1 it2 I1 I2 _ _ _ P N). reflexivity.
  Qed.

  Lemma struct_api fs deny l ps : form_pairs q ps -> NoDup (map f_name fs) ->
    read (TgStruct fs deny) = inl (inl (RStruct l)) <->
    Forall2 (field_value ps) fs l /\
    (deny = true -> forall k, values_of k ps <> [] -> In k (map f_name fs)).
  Proof.
    intros P N. rewrite (read_data _ _ src c _ _ D), result_done. eapply struct_result_pairs; eassumption.
  Qed.

  Lemma struct_or_error_api fs deny : NoDup (map f_name fs) ->
    (exists l, read (TgStruct fs deny) = inl (inl (RStruct l))) \/
    (exists e, read (TgStruct fs deny) = inr (EForm e)).
  Proof.
    intros N. rewrite (read_data _ _ src c _ _ D). destruct (struct_or_error pf msg it1 it2 I1 I2 fs deny q N) as [[l E]|[e E]];
      rewrite E; [left|right]; eexists; reflexivity.
  Qed.

  Lemma missing_field_api fs deny pre f post ps : form_pairs q ps -> NoDup (map f_name fs) ->
    (deny = true -> forall k, values_of k ps <> [] -> In k (map f_name fs)) ->
    (forall g, In g fs -> values_of (f_name g) ps <> [] ->
       exists v, gives (f_type g) (values_of (f_name g) ps) v) ->
    fs = pre ++ f :: post -> (forall g, In g pre -> exists v, field_value ps g v) ->
    required f -> values_of (f_name f) ps = [] ->
    read (TgStruct fs deny) = inr (EForm (FMessage (lit "missing field `" ++ f_name f ++ lit "`"))).
  Proof.
    intros. rewrite (read_data _ _ src c _ _ D). apply result_fail. eapply struct_missing_field_pairs; eassumption.
  Qed.

  Lemma map_api t r ps : form_pairs q ps ->
    read (TgMap KString t) = inl (inl r) -> exists m, r = RMap m /\ map_of pf ps t m.
  Proof.
    intros P. rewrite (read_data _ _ src c _ _ D), result_done. eapply map_result_only_pairs; eassumption.
  Qed.

  Lemma map_found_api t m ps : form_pairs q ps -> map_of pf ps t m ->
    exists m', read (TgMap KString t) = inl (inl (RMap m')) /\ Permutation m m'.
  Proof.
    intros P M. rewrite (read_data _ _ src c _ _ D).
    destruct (map_result_pairs F pf msg it1 it2 I1 I2 t q m ps P M) as (m' & E & K). exists m'. rewrite E. split; [reflexivity|exact K].
  Qed.

  Lemma scalar_api fs deny l f v s rest ps : form_pairs q ps -> NoDup (map f_name fs) ->
    read (TgStruct fs deny) = inl (inl (RStruct l)) -> In (f, v) (combine fs l) ->
    values_of (f_name f) ps = s :: rest ->
    is_scalar (f_type f) -> scalar_text pf (f_type f) s v.
  Proof.
    intros P N. rewrite (read_data _ _ src c _ _ D), result_done. eapply struct_scalar_pairs; eassumption.
  Qed.

  Lemma vec_api fs deny l f v t ps : form_pairs q ps -> NoDup (map f_name fs) ->
    read (TgStruct fs deny) = inl (inl (RStruct l)) -> In (f, v) (combine fs l) ->
    values_of (f_name f) ps <> [] -> f_type f = TVec t -> is_scalar t ->
    exists vs, v = VSeq vs /\ Forall2 (scalar_text pf t) (values_of (f_name f) ps) vs.
  Proof.
    intros P N. rewrite (read_data _ _ src c _ _ D), result_done. eapply struct_vec_pairs; eassumption.
  Qed.

  Lemma rejects_api fs deny f s ps : form_pairs q ps -> NoDup (map f_name fs) ->
    In f fs -> In s (values_of (f_name f) ps) ->
    (is_scalar (f_type f) /\ (exists rest, values_of (f_name f) ps = s :: rest) /\ (forall v, ~ scalar_text pf (f_type f) s v) \/
     exists t, f_type f = TVec t /\ is_scalar t /\ forall v, ~ scalar_text pf t s v) ->
    exists e, read (TgStruct fs deny) = inr (EForm e).
  Proof.
    intros P N I1' I2' K. rewrite (read_data _ _ src c _ _ D).
    destruct (struct_rejects_pairs F pf msg it1 it2 I1 I2 fs deny q f s ps P N I1' I2' K) as (e & E).
    exists e. rewrite E. reflexivity.
  Qed.

  Lemma enum_field_api fs deny ps f : form_pairs q ps -> NoDup (map f_name fs) ->
    In f fs -> enum_type (f_type f) -> values_of (f_name f) ps <> [] ->
    exists e, read (TgStruct fs deny) = inr (EForm e).
  Proof.
    intros P N I1' T V. rewrite (read_data _ _ src c _ _ D).
    destruct (enum_field_fails pf msg it1 it2 I1 I2 fs deny q ps f P N I1' T V) as (e & E). exists e. rewrite E. reflexivity.
  Qed.

  Lemma enum_map_api t ps : form_pairs q ps -> enum_type t -> (exists k, values_of k ps <> []) ->
    exists e, read (TgMap KString t) = inr (EForm e).
  Proof.
    intros P T V. rewrite (read_data _ _ src c _ _ D).
    destruct (enum_map_fails pf msg it1 it2 I1 I2 t q ps P T V) as (e & E). exists e. rewrite E. reflexivity.
  Qed.

  Lemma flat_texts_api fs gs l l' :
    NoDup (map f_name (fs ++ gs)) -> (forall g, In g gs -> text_type (f_type g)) -> length l = length fs ->
    read (TgFlat fs (FlatStruct gs)) = inl (inl (RFlat l (RStruct l'))) <->
    read (TgStruct (fs ++ gs) false) = inl (inl (RStruct (l ++ l'))).
  Proof.
    intros N T L. rewrite !(read_data _ _ src c _ _ D), !result_done. apply flat_same; assumption.
  Qed.

  Lemma flat_result_api fs inner ps r : form_pairs q ps -> apart fs inner ->
    read (TgFlat fs inner) = inl (inl r) ->
    exists l r', r = RFlat l r' /\ Forall2 (field_value ps) fs l /\ flat_value ps (map f_name fs) inner r'.
  Proof.
    intros P A. rewrite (read_data _ _ src c _ _ D), result_done. eapply (flat_result pf msg it1 it2 I1 I2); eassumption.
  Qed.

  Lemma flat_found_api fs inner ps l r : form_pairs q ps -> apart fs inner ->
    Forall2 (field_value ps) fs l -> flat_value ps (map f_name fs) inner r ->
    exists r', read (TgFlat fs inner) = inl (inl (RFlat l r')) /\
      same_value (F:=F) (RFlat l r) (RFlat l r').
  Proof.
    intros P A V W. rewrite (read_data _ _ src c _ _ D).
    destruct (flat_found pf msg it1 it2 I1 I2 fs inner q ps l r P A V W) as (r' & E & S). exists r'. rewrite E.
    split; [reflexivity|exact S].
  Qed.
  End Orders.

  Lemma w_enum_api it1 it2 : iteration it1 -> iteration it2 -> exists k names s q, In s names /\ encodes [(k, s)] q /\
    forall (X : Type) src (c : context X), has_data src c q ->
    exists e, read_from it1 it2 src (TgStruct [Field k (TEnum names) None] false) c = inr (EForm e).
  Proof.
    intros I1 I2. destruct (w_enum pf msg it1 it2 I1 I2) as (k & names & s & q & e & I & E & R).
    exists k, names, s, q. split; [exact I|]. split; [exact E|]. intros X src c D.
    exists e. rewrite (read_data _ _ src c _ _ D), R. reflexivity.
  Qed.

  Lemma w_flat_api it1 it2 : iteration it1 -> iteration it2 -> exists fs gs q l, NoDup (map f_name (fs ++ gs)) /\
    forall (X : Type) src (c : context X), has_data src c q ->
    read_from it1 it2 src (TgStruct (fs ++ gs) false) c = inl (inl (RStruct l)) /\
    exists e, read_from it1 it2 src (TgFlat fs (FlatStruct gs)) c = inr (EForm e).
  Proof.
    intros I1 I2. destruct (w_flat pf msg it1 it2 I1 I2) as (fs & gs & q & l & e & N & E1 & E2).
    exists fs, gs, q, l. split; [exact N|]. intros X src c D. rewrite !(read_data _ _ src c _ _ D), E1, E2.
    split; [reflexivity|]. exists e. reflexivity.
  Qed.
End Api.
