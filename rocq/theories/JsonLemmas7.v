(** Proofs about bodies that are JSON texts. *)

From Coq Require Import String Lia ZArith.
From Verif Require Import Base BaseFacts Utf8 Utf8Facts RouteTrie Router TableSpec PropSpec Http Form App AppSpec UserSpec UserLemmas2 AppLemmas4 ReplyLemmas Json JsonSpec JsonLemmas JsonLemmas2 JsonLemmas3 JsonLemmas4 JsonLemmas5 JsonLemmas6 JsonLemmas8.
Local Open Scope list_scope.

Lemma Forall2_three {A B} (R : A -> B -> Prop) (P : B -> B -> Prop) l :
  Forall (fun x => forall y z, R x y -> R x z -> P y z) l -> forall m n, Forall2 R l m -> Forall2 R l n -> Forall2 P m n.
Proof.
  induction 1 as [|x l H _ IH]; intros m n M N; inversion M; inversion N; subst; constructor; auto.
Qed.

Lemma all_read_same {A B} (f : A -> option B) m n : Forall2 (fun x y => f x = f y) m n -> all_read f m = all_read f n.
Proof.
  induction 1 as [|x y m n E _ IH]; [reflexivity|]. unfold all_read in *. rewrite E, IH. reflexivity.
Qed.

Lemma read_map_same {A} (f : raw -> option A) m n :
  Forall2 (fun p q => string_of (fst p) = string_of (fst q) /\ f (snd p) = f (snd q)) m n -> forall acc, read_map f m acc = read_map f n acc.
Proof.
  induction 1 as [|[k x] [k' y] m n [K E] _ IH]; intros acc; [reflexivity|]. cbn [fst snd] in *. unfold read_map in *. rewrite K, E.
  destruct (string_of k'); [|reflexivity]. destruct (f y); [apply IH|reflexivity].
Qed.

Lemma first_chunk (l : list bytes) : (forall x, In x l -> x = []) \/
  exists l1 x l2, l = l1 ++ x :: l2 /\ x <> [] /\ forall y, In y l1 -> y = [].
Proof.
  induction l as [|x l IH]; [left; intros x []|]. destruct x as [|a x].
  - destruct IH as [A|(l1 & x & l2 & -> & NX & A)].
    + left. intros y [<-|I]; [reflexivity|exact (A y I)].
    + right. exists ([] :: l1), x, l2. split; [reflexivity|]. split; [exact NX|]. intros y [<-|I]; [reflexivity|exact (A y I)].
  - right. exists [], (a :: x), l. split; [reflexivity|]. split; [discriminate|]. intros y [].
Qed.

Section Bodies.
  Context {F : Type}.
  Context (float_lit : bytes -> option F) (float_int : Z -> F) (float_text : F -> str) (zero_float : bool).
  Notation num := (num F). Notation doc := (doc F). Notation jval := (jval F). Notation jty := (jty F).
  Notation doc_of := (doc_of float_lit zero_float).
  Notation read := (read float_lit float_int zero_float).
  Notation fits := (fits float_lit float_int zero_float).
  Notation to_text := (to_text float_text).
  Notation from_slice := (from_slice float_lit float_int zero_float).
  Notation reader_of := (reader_of float_lit float_int zero_float).
  Notation ctx_read_json := (ctx_read_json float_lit float_int zero_float).

  Lemma doc_same j : forall r r' d, shape j r -> shape j r' -> doc_of r d = doc_of r' d.
  Proof.
    induction j as [| | | |l IH|l IH] using json_ind'; intros r r' d S S'; inversion S as [| | | |? rs SL|? rs SL]; subst; inversion S' as [| | | |? rs' SL'|? rs' SL']; subst; cbn [Json.doc_of].
    - reflexivity.
    - reflexivity.
    - reflexivity.
    - repeat match goal with H : string_of _ = Some _ |- _ => rewrite H; clear H end. reflexivity.
    - destruct (enter d) as [d'|]; [|reflexivity]. f_equal. apply all_read_same.
      apply (Forall2_three shape _ l); [|exact SL|exact SL']. eapply Forall_impl; [|exact IH]. intros x H y z Y Z. apply H; assumption.
    - destruct (enter d) as [d'|]; [|reflexivity]. f_equal. apply read_map_same.
      apply (Forall2_three entry_shape _ l); [|exact SL|exact SL']. eapply Forall_impl; [|exact IH]. intros x H y z [K Y] [K' Z]. split; [congruence|]. apply H; assumption.
  Qed.

  Definition same_at (t : jty) : Prop := forall j r r' d, shape j r -> shape j r' -> read t d r = read t d r'.

  Definition alike (f : reader (F := F)) : Prop := forall j r r', shape j r -> shape j r' -> r_read f r = r_read f r'.

  Lemma set_field_same k j r r' rs : Forall alike rs -> shape j r -> shape j r' -> forall slots, set_field k r rs slots = set_field k r' rs slots.
  Proof.
    intros A S S'. induction A as [|f rs H _ IH]; intros [|s ss]; try reflexivity. cbn [set_field]. rewrite IH, (H j r r' S S'). reflexivity.
  Qed.

  Lemma set_fields_same deny rs : Forall alike rs -> forall js l l', Forall2 entry_shape js l -> Forall2 entry_shape js l' ->
    forall slots, set_fields deny l rs slots = set_fields deny l' rs slots.
  Proof.
    intros A js. induction js as [|j js IH]; intros l l' S S' slots; inversion S as [|? [p x] ? ? [K SX] SL]; inversion S' as [|? [p' x'] ? ? [K' SX'] SL']; subst; [reflexivity|].
    cbn [set_fields fst snd] in *. rewrite K, K', (set_field_same _ _ _ _ rs A SX SX'). destruct (deny && _); [reflexivity|]. destruct (set_field _ _ rs slots); [apply IH; assumption|reflexivity].
  Qed.

  Lemma read_seq_same rs : Forall alike rs -> forall js l l', Forall2 shape js l -> Forall2 shape js l' -> read_seq rs l = read_seq rs l'.
  Proof.
    induction 1 as [|f rs H _ IH]; intros js l l' S S'; destruct S as [|j r js l SX SL]; inversion S' as [|? r' ? ? SX' SL']; subst; try reflexivity.
    cbn [read_seq]. rewrite (H j r r' SX SX'), (IH js l _ SL SL'). reflexivity.
  Qed.

  Lemma read_same t : same_at t.
  Proof.
    induction t as [|i| | |t IH|t IH|t IH|deny fs IH| | | |ts IH|vs IH] using jty_ind'; intros j r r' d S S'.
    - inversion S; subst; inversion S'; subst; try reflexivity; cbn [Json.read]; congruence.
    - inversion S; subst; inversion S'; subst; try reflexivity; cbn [Json.read]; congruence.
    - inversion S; subst; inversion S'; subst; try reflexivity; cbn [Json.read]; congruence.
    - inversion S; subst; inversion S'; subst; try reflexivity; cbn [Json.read]; congruence.
    - cbn [Json.read]. rewrite (IH j r r' d S S'). inversion S; subst; inversion S'; subst; reflexivity.
    - inversion S as [| | | |? rs SL|]; subst; inversion S' as [| | | |? rs' SL'|]; subst; try discriminate; try reflexivity.
      cbn [Json.read]. destruct (enter d) as [d'|]; [|reflexivity]. f_equal. apply all_read_same.
      eapply Forall2_three; [|exact SL|exact SL']. apply Forall_forall. intros x _ y z Y Z. eapply IH; eassumption.
    - inversion S as [| | | | |? rs SL]; subst; inversion S' as [| | | | |? rs' SL']; subst; try discriminate; try reflexivity.
      cbn [Json.read]. destruct (enter d) as [d'|]; [|reflexivity]. f_equal. apply read_map_same.
      apply (Forall2_three entry_shape _ l); [|exact SL|exact SL']. apply Forall_forall. intros x _ y z [K Y] [K' Z]. split; [congruence|]. eapply IH; eassumption.
    - rewrite !read_struct. destruct (enter d) as [d'|]; [|reflexivity].
      assert (A : Forall alike (map (reader_of d') fs)).
      { clear S S'. induction IH as [|[[n df] t] fs H _ IHF]; cbn [map]; constructor; [|exact IHF]. intros j0 r0 r0' S0 S0'. exact (H j0 r0 r0' d' S0 S0'). }
      inversion S as [| | | |? rs SL|? rs SL]; subst; inversion S' as [| | | |? rs' SL'|? rs' SL']; subst; try discriminate; try reflexivity.
      + rewrite (read_seq_same _ A _ _ _ SL SL'). reflexivity.
      + rewrite (set_fields_same _ _ A _ _ _ SL SL'). reflexivity.
    - cbn [Json.read]. rewrite (doc_same j r r' d S S'). reflexivity.
    - inversion S; subst; inversion S'; subst; try reflexivity; cbn [Json.read]; congruence.
    - inversion S; subst; inversion S'; subst; try reflexivity. cbn [Json.read].
      repeat match goal with H : string_of _ = Some _ |- _ => rewrite H; clear H end. reflexivity.
    - inversion S as [| | | |? rs SL|]; subst; inversion S' as [| | | |? rs' SL'|]; subst; try discriminate; try reflexivity.
      cbn [Json.read]. destruct (enter d) as [d'|]; [|reflexivity]. f_equal. clear S S'. revert l rs rs' SL SL'.
      induction IH as [|t ts HT _ IHT]; intros l rs rs' SL SL'; destruct SL as [|j r l rs SX SL]; inversion SL' as [|? r' ? rs'' SX' SL'']; subst; try reflexivity.
      cbn [map read_tuple]. rewrite (HT j r r' d' SX SX'), (IHT l rs rs'' SL SL''). reflexivity.
    - rewrite !read_enum. rewrite Forall_forall in IH.
      inversion S as [| | |s ps K|? rs SL|? rs SL]; subst; inversion S' as [| | |s' ps' K'|? rs' SL'|? rs' SL']; subst; try discriminate; try reflexivity.
      + rewrite K, K'. reflexivity.
      + destruct SL as [|[k j] [ps x] l rs [K SX] SL]; inversion SL' as [|? [ps' x'] ? rs'' [K' SX'] SL'']; subst; [reflexivity|].
        destruct SL; inversion SL''; subst; [|reflexivity]. cbn [fst snd] in *. rewrite K, K'. destruct (enter d) as [d'|]; [|reflexivity].
        destruct (variant k vs) as [[t|]|] eqn:V; [|inversion SX; subst; inversion SX'; subst; reflexivity|reflexivity].
        apply variant_in in V. pose proof (IH _ V) as HV. cbn in HV. rewrite (HV j x x' d' SX SX'). reflexivity.
  Qed.

  (** ** Whole bodies *)

  Lemma from_text j b t : json_text j b -> exists r, shape j r /\ from_slice t b = read t max_depth r.
  Proof.
    intros T. unfold Json.from_slice. change (2 + 2 * length b) with (S (1 + 2 * length b)).
    destruct (lex_json_text j b T (1 + 2 * length b) ltac:(lia)) as (x & r & LX & S & SH).
    exists x. split; [exact SH|]. rewrite LX, (skip_all _ S). reflexivity.
  Qed.

  Lemma text_reads (t : jty) j b v : sound_type t -> json_text j b -> from_slice t b = Some v -> fits t j v.
  Proof. intros ST T E. destruct (from_text j b t T) as (r & SH & Q). rewrite Q in E. exact (read_sound _ _ _ t ST _ _ _ _ SH E). Qed.

  Lemma text_accepts (t : jty) j b v : sound_type t -> json_text j b -> depth j <= 127 -> fits t j v -> exists v', from_slice t b = Some v' /\ same_val v v'.
  Proof.
    intros ST T L E. destruct (from_text j b t T) as (r & SH & Q). rewrite Q.
    destruct (read_defined _ _ _ t ST _ _ max_depth _ SH ltac:(unfold max_depth; lia) E) as (v' & R).
    exists v'. split; [exact R|]. exact (fits_one _ _ _ t ST j v v' E (read_sound _ _ _ t ST _ _ _ _ SH R)).
  Qed.

  Lemma text_same (t : jty) j b b' : json_text j b -> json_text j b' -> from_slice t b = from_slice t b'.
  Proof.
    intros T T'. destruct (from_text j b t T) as (r & SH & ->). destruct (from_text j b' t T') as (r' & SH' & ->).
    exact (read_same t _ _ _ _ SH SH').
  Qed.

  Lemma text_deep (t : jty) j b : skips_nothing t -> json_text j b -> 127 < depth j -> from_slice t b = None.
  Proof.
    intros SK T L. destruct (from_text j b t T) as (r & SH & ->).
    destruct (read t max_depth r) as [x|] eqn:E; [|reflexivity].
    pose proof (read_depth _ _ _ t SK j r max_depth x SH ltac:(unfold max_depth; lia) E). unfold max_depth in *. lia.
  Qed.

  Lemma text_only (t : jty) b v : skips_nothing t -> from_slice t b = Some v -> exists j, json_text j b.
  Proof.
    intros SK E. unfold Json.from_slice in E. destruct (lex (2 + 2 * length b) b) as [[x r]|] eqn:LX; [|discriminate].
    destruct (is_empty (skip r)) eqn:SKR; [|discriminate].
    destruct (proj1 (lex_sound _) _ _ _ LX (read_strict _ _ _ t SK _ _ _ E)) as (w & j & c & B & SW & W & _).
    exists j, w, c, r. repeat split; [exact SW| |exact W|exact B]. apply skip_nil. destruct (skip r); [reflexivity|discriminate].
  Qed.

  (** ** Chunks *)

  Lemma json_chunks {X} msg (t : jty) j (c : context X) v : json_text j (body_bytes (rq_body (ctx_request c))) -> ~ is_number j ->
    fst (ctx_read_json msg t c) = inl v -> from_slice t (body_bytes (rq_body (ctx_request c))) = Some v.
  Proof.
    intros T NN. unfold Json.ctx_read_json, ctx_json.
    destruct (read_first (fun b => match (match from_slice t b with Some v => inl v | None => inr (msg b) end) with inl x => inl x | inr e => inr (EJson e) end) c) as (R1 & R2 & R3).
    destruct (broken (rq_body (ctx_request c))) eqn:BR; [rewrite (R1 eq_refl); discriminate|].
    pose proof (first_chunk (chunks (rq_body (ctx_request c)))) as C.
    destruct C as [A|(l1 & x & l2 & E & NX & A)].
    - rewrite (R2 eq_refl A). intros Q. destruct (from_slice t []) eqn:Z; [|discriminate]. discriminate Z.
    - rewrite (R3 l1 x l2 eq_refl E NX A). intros Q. destruct (from_slice t x) as [v'|] eqn:Z; [|discriminate]. injection Q as ->.
      assert (B : body_bytes (rq_body (ctx_request c)) = x ++ concat l2).
      { unfold body_bytes. rewrite E, concat_app. cbn [concat]. replace (concat l1) with (@nil N); [reflexivity|].
        clear - A. induction l1 as [|y l1 IH]; [reflexivity|]. cbn [concat]. rewrite (A y (or_introl eq_refl)). apply IH. intros z I. apply A. right. exact I. }
      rewrite B in *. exact (cut_off float_lit float_int zero_float j x (concat l2) t v T NN Z).
  Qed.

  Lemma json_one {X} msg (t : jty) (c : context X) : broken (rq_body (ctx_request c)) = false -> one_chunk (rq_body (ctx_request c)) ->
    fst (ctx_read_json msg t c) =
    match from_slice t (body_bytes (rq_body (ctx_request c))) with
    | Some v => inl v
    | None => inr (EJson (msg (body_bytes (rq_body (ctx_request c)))))
    end.
  Proof.
    intros B O. unfold Json.ctx_read_json, ctx_json. rewrite (one_chunk_read _ c B O). destruct (from_slice t _); reflexivity.
  Qed.

  Lemma json_first {X} msg (t : jty) (c : context X) x rest v : broken (rq_body (ctx_request c)) = false ->
    chunks (rq_body (ctx_request c)) = x :: rest -> x <> [] -> from_slice t x = Some v -> fst (ctx_read_json msg t c) = inl v.
  Proof.
    intros B E N Q. unfold Json.ctx_read_json, ctx_json.
    destruct (read_first (fun b => match (match from_slice t b with Some v => inl v | None => inr (msg b) end) with inl x => inl x | inr e => inr (EJson e) end) c) as (_ & _ & R3).
    rewrite (R3 [] x rest B E N ltac:(intros y [])), Q. reflexivity.
  Qed.

  (** ** Served *)

  Notation slice_of msg t := (fun b => match from_slice t b with Some v => inl v | None => inr (msg b) end).

  Lemma json_served {X U A} (msg : bytes -> str) (ty : jty) (l : list (op (handler X U A) (middleware X U A))) t st rq rest ps j :
    built l t -> reaches l rq (with_json (slice_of msg ty) rest) ps ->
    broken (rq_body rq) = false -> one_chunk (rq_body rq) ->
    sound_type ty -> json_text j (body_bytes (rq_body rq)) -> depth j <= 127 ->
    (forall v, fits ty j v -> exists v' c c', same_val v v' /\ (forall n, pget n (ctx_params c) = first_binding ps n) /\ starts rq (ctx_params c) st c /\ same_but_body c c' /\
       rq_body (ctx_request c') = body_empty /\ handles (serve t st rq) (rest v' c')) /\
    ((forall v, ~ fits ty j v) -> fails_with (serve t st rq) (msg (body_bytes (rq_body rq)))).
  Proof.
    intros B R BR O ST T L. destruct (json_errors _ l t st rq rest ps B R) as (_ & H). destruct (H BR O) as [HE HV]. split.
    - intros v FV. destruct (text_accepts ty j _ v ST T L FV) as (v' & E & FV'). rewrite E in HV.
      destruct (HV v' eq_refl) as (c & c' & Ep & S & SB & EB & HH). exists v', c, c'. auto 10.
    - intros NF. apply HE. destruct (from_slice ty (body_bytes (rq_body rq))) as [v|] eqn:E; [|reflexivity].
      destruct (NF v (text_reads ty j _ v ST T E)).
  Qed.

  (** ** There and back *)

  Lemma json_echo {X} msg (t : jty) v (c : context X) (r : response) : has_type t v -> val_depth v <= 127 ->
    broken (rq_body (ctx_request c)) = false -> one_chunk (rq_body (ctx_request c)) ->
    body_bytes (rq_body (ctx_request c)) = body_bytes (res_body (Http.json (inl (to_text v)) r)) ->
    fst (ctx_read_json msg t c) = inl v.
  Proof.
    intros H L B O E. rewrite (json_one msg t c B O), E. cbn [Http.json set_body res_body].
    rewrite look_of_body. rewrite (round_trip float_lit float_int float_text zero_float t v H) by (unfold max_depth; lia). reflexivity.
  Qed.

  Lemma doc_json_depth (d : doc) : depth (doc_json d) = doc_depth d.
  Proof.
    induction d as [|b|[z|f]|s|l IH|l IH] using doc_ind'; try reflexivity; cbn [doc_json depth doc_depth]; f_equal; rewrite max_map; cbn [snd].
    - induction IH as [|x l H _ IHL]; [reflexivity|]. cbn [fold_right]. rewrite H, IHL. reflexivity.
    - induction IH as [|x l H _ IHL]; [reflexivity|]. cbn [fold_right]. rewrite H, IHL. reflexivity.
  Qed.

  Lemma deep_lost (d : doc) : plain_doc d -> 127 < doc_depth d -> from_slice JTValue (utf8 (to_text (JVDoc d))) = None.
  Proof.
    intros P L. apply (text_deep JTValue (doc_json d)); [exact I| |rewrite doc_json_depth; exact L].
    exists [], (utf8 (to_text (JVDoc d))), []. split; [constructor|]. split; [constructor|]. split; [exact (doc_writes float_text d P)|]. rewrite app_nil_r. reflexivity.
  Qed.

  Definition one_a : jty := JTStruct false [(lit "a", None, JTInt (Ity true 32))].
  Definition ill : bytes := utf8 (lit "{""a"":1,""zz"":""") ++ [255%N] ++ utf8 (lit """}").

  Lemma ill_accepted : sound_type one_a /\ from_slice one_a ill = Some (JVStruct [(lit "a", JVInt 1)]) /\ forall j, ~ json_text j ill.
  Proof.
    split; [|split].
    - cbn. repeat split; try discriminate. constructor; [intros []|constructor].
    - reflexivity.
    - intros j T. destruct (lex_json_text j ill T 100 ltac:(vm_compute; lia)) as (x & r & LX & _ & SH).
      vm_compute in LX. injection LX as <- <-. inversion SH as [| | | | |l rs SL]; subst.
      inversion SL as [|? ? ? ? _ SL']; subst. inversion SL' as [|? ? ? ? [_ SX] _]; subst. cbn [snd] in SX. inversion SX as [| | |s ps E| |]; subst. vm_compute in E. discriminate.
  Qed.
End Bodies.
