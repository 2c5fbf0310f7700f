(** Properties C82-C85: JSON bodies.

    [from_slice fl fi zf t b]: serde_json's [from_slice] for the type [t]; [fl], [fi] and
    [zf] are what is left open about floats ([Json]). [ctx_read_json]: [Context::json].
    [json_text j b]: the bytes [b] are a JSON text of the document [j]; [fits t j v]: [v] is
    what the type [t] makes of [j]; [depth]: levels of nesting; [sound_type t]: the fields of
    a struct and the variants of an enum have different names; [skips_nothing t]: the structs
    in [t] deny unknown fields; [has_type t v]: [v] is a value of type [t], without floats and
    without an [Option] of an [Option], of a [Value] or of a unit; [same_val v v']: the same
    value, the order of the entries of its maps aside;
    [loose_text b]: [b] follows the grammar of JSON, but the contents of its strings need not
    be UTF-8 nor their \u escapes characters ([JsonSpec]). *)

From Coq Require Import String ZArith Lia.
From Verif Require Import Base Utf8 RouteTrie Router TableSpec PropSpec Http Form App AppSpec UserSpec Json JsonSpec.
From Verif Require Import AppWitness UserLemmas JsonLemmas JsonLemmas6 JsonLemmas8 JsonLemmas7 JsonLemmas9.
Local Open Scope string_scope.
Local Open Scope list_scope.

(** * C82: a JSON body is read by what it says *)

Theorem C82_reads : forall (F : Type) (fl : bytes -> option F) (fi : Z -> F) (zf : bool) (t : jty F) j b v,
  sound_type t -> json_text j b -> from_slice fl fi zf t b = Some v -> fits fl fi zf t j v.
Proof. exact (@text_reads). Qed.
Print Assumptions C82_reads.

(** [JsonResult] of the tests (context.rs 385-389), a document that it reads and one with
    blanks, an escape, an unknown member and the fields the other way round. *)
Definition json_result F : jty F := JTStruct false [(lit "id", None, JTInt (Ity true 32)); (lit "mode", None, JTString)].

Example C82_example : forall F (fl : bytes -> option F) fi zf,
  let j := JObj [(lit "mode", JStr (lit "edit")); (lit "more", JArr [JNull]); (lit "id", JNum true 7 [])] in
  sound_type (json_result F) /\ depth j <= 127 /\
  json_text j (lit " {""mode"" : ""\u0065dit"", ""more"":[ null] ,""id"":-7} ") /\
  fits fl fi zf (json_result F) j (JVStruct [(lit "id", JVInt (-7)); (lit "mode", JVStr (lit "edit"))]) /\
  from_slice fl fi zf (json_result F) (lit " {""mode"" : ""\u0065dit"", ""more"":[ null] ,""id"":-7} ") =
    Some (JVStruct [(lit "id", JVInt (-7)); (lit "mode", JVStr (lit "edit"))]) /\
  (forall v, ~ fits fl fi zf (json_result F) (JObj [(lit "id", JNum false 7 [])]) v) /\
  (forall v, ~ fits fl fi zf (json_result F) (JObj [(lit "id", JNum false 1 []); (lit "id", JNum false 1 []); (lit "mode", JStr [])]) v).
Proof.
  intros F fl fi zf j.
  assert (E : from_slice fl fi zf (json_result F) (lit " {""mode"" : ""\u0065dit"", ""more"":[ null] ,""id"":-7} ") =
    Some (JVStruct [(lit "id", JVInt (-7)); (lit "mode", JVStr (lit "edit"))])) by reflexivity.
  assert (ST : sound_type (json_result F)).
  { cbn. repeat split; try discriminate. constructor; [intros [?|[]]; discriminate|]. constructor; [intros []|constructor]. }
  assert (T : json_text j (lit " {""mode"" : ""\u0065dit"", ""more"":[ null] ,""id"":-7} ")).
  { assert (SP : space [32%N]) by (repeat constructor). assert (S0 : space []) by constructor.
    exists [32%N], (lit "{""mode"" : ""\u0065dit"", ""more"":[ null] ,""id"":-7}"), [32%N].
    split; [exact SP|]. split; [exact SP|]. split; [|reflexivity].
    assert (EQ : lit "{""mode"" : ""\u0065dit"", ""more"":[ null] ,""id"":-7}" =
      123%N :: ([] ++ 34%N :: lit "mode" ++ 34%N :: [32%N] ++ 58%N :: [32%N] ++ (34%N :: lit "\u0065dit" ++ [34%N]) ++ [] ++ 44%N ::
        ([32%N] ++ 34%N :: lit "more" ++ 34%N :: [] ++ 58%N :: [] ++ (91%N :: ([32%N] ++ lit "null" ++ []) ++ [93%N]) ++ [32%N] ++ 44%N ::
          ([] ++ 34%N :: lit "id" ++ 34%N :: [] ++ 58%N :: [] ++ ([45%N] ++ dec 7 ++ []) ++ []))) ++ [125%N]) by reflexivity.
    assert (P : forall s, Forall (fun c => (32 <= c < 128)%N /\ c <> 34%N /\ c <> 92%N) s -> string_text s s).
    { induction 1 as [|c s (L & Q & B) _ IH]; [constructor|]. pose proof (st_plain c s s) as H.
      unfold utf8_char in H. rewrite (proj2 (N.ltb_lt c 128) (proj2 L)) in H. apply H; auto; [|apply L]. unfold scalar. lia. }
    assert (P1 : string_text (lit "mode") (lit "mode")) by (apply P; cbn; repeat constructor; discriminate).
    assert (P2 : string_text (lit "more") (lit "more")) by (apply P; cbn; repeat constructor; discriminate).
    assert (P3 : string_text (lit "id") (lit "id")) by (apply P; cbn; repeat constructor; discriminate).
    assert (P4 : string_text (lit "edit") (lit "\u0065dit")).
    { apply (st_hex 101%N (lit "0065") (lit "dit") (lit "dit")); [unfold scalar; lia| |apply P; cbn; repeat constructor; discriminate].
      exists 48%N, 48%N, 54%N, 53%N, 0%N, 0%N, 6%N, 5%N. unfold hex_digit. repeat split; try lia. }
    rewrite EQ. apply w_obj. apply m_more; auto; [apply w_str; exact P4|]. apply m_more; auto; [apply w_arr; apply e_last; auto; apply w_null|].
    apply m_last; auto. apply (w_num true 7 []). exists [], []. split; [left; reflexivity|]. split; [left; reflexivity|reflexivity]. }
  split; [exact ST|]. split; [cbn; lia|]. split; [exact T|]. split; [exact (C82_reads F fl fi zf _ _ _ _ ST T E)|]. split; [exact E|].
  split; intros v [(l & ys & J & _ & _ & A)|(l & ys & J & _)]; try discriminate; injection J as <-;
    (destruct ys as [|y ys]; [destruct A|]); destruct A as (A1 & A).
  - destruct ys as [|y2 ys]; [destruct A|]. destruct A as ([(x & N & _)|(_ & [N|(_ & (t & N) & _)])] & _); discriminate.
  - destruct A1 as [(x & N & _)|(N & _)]; discriminate.
Qed.

Theorem C82_accepts : forall (F : Type) (fl : bytes -> option F) (fi : Z -> F) (zf : bool) (t : jty F) j b v,
  sound_type t -> json_text j b -> depth j <= 127 -> fits fl fi zf t j v ->
  exists v', from_slice fl fi zf t b = Some v' /\ same_val v v'.
Proof. exact (@text_accepts). Qed.
Print Assumptions C82_accepts.

(** A list written with blanks; what the type [Vec<bool>] makes of it. *)
Definition true_list : json := JArr [JBool true; JBool false].
Lemma true_list_text : json_text true_list (lit " [ true,false]").
Proof.
  exists [32%N], (lit "[ true,false]"), []. split; [repeat constructor|]. split; [constructor|]. split; [|reflexivity].
  apply (w_arr _ (lit " true,false")). apply (e_more [32%N] (JBool true) (lit "true") [] _ (lit "false")); [repeat constructor|constructor|constructor|].
  apply (e_last [] (JBool false) (lit "false") []); constructor.
Qed.
Lemma true_list_fits F (fl : bytes -> option F) fi zf : fits fl fi zf (JTVec JTBool) true_list (JVSeq [JVBool true; JVBool false]).
Proof.
  eexists. eexists. split; [reflexivity|]. split; [|reflexivity].
  constructor; [|constructor; [|constructor]]; eexists; split; reflexivity.
Qed.

Example C82_accepts_example : forall F (fl : bytes -> option F) fi zf,
  sound_type (@JTVec F JTBool) /\ json_text true_list (lit " [ true,false]") /\ depth true_list <= 127 /\
  fits fl fi zf (JTVec JTBool) true_list (JVSeq [JVBool true; JVBool false]) /\
  from_slice fl fi zf (JTVec JTBool) (lit " [ true,false]") = Some (JVSeq [JVBool true; JVBool false]).
Proof.
  intros. split; [exact I|]. split; [exact true_list_text|]. split; [cbn; lia|]. split; [apply true_list_fits|reflexivity].
Qed.

(** An enum with a unit, a newtype, a tuple and a struct variant; the last one denies unknown
    fields. *)
Definition shape_ty F : jty F :=
  JTEnum [(lit "Dot", None); (lit "Name", Some JTString); (lit "Pair", Some (JTTuple [JTChar; JTOption JTUnit]));
          (lit "Rect", Some (JTStruct true [(lit "w", None, JTInt (Ity false 8)); (lit "h", Some (JVInt 1), JTInt (Ity false 8))]))].

Example C82_enum_example : forall F (fl : bytes -> option F) fi zf, let ask b := from_slice fl fi zf (shape_ty F) (lit b) in
  sound_type (shape_ty F) /\
  ask """Dot""" = Some (JVEnum (lit "Dot") None) /\ ask "{""Dot"":null}" = Some (JVEnum (lit "Dot") None) /\
  ask "{""Name"":""Dot""}" = Some (JVEnum (lit "Name") (Some (JVStr (lit "Dot")))) /\ ask """Name""" = None /\ ask "{""Dot"":1}" = None /\
  ask "{""Pair"":[""x"",null]}" = Some (JVEnum (lit "Pair") (Some (JVTuple [JVChar 120%N; JVOpt None]))) /\ ask "{""Pair"":[""x""]}" = None /\
  ask "{""Pair"":[""xy"",null]}" = None /\ ask "{""Pair"":[""x"",null,1]}" = None /\
  ask "{""Rect"":{""w"":2}}" = Some (JVEnum (lit "Rect") (Some (JVStruct [(lit "w", JVInt 2); (lit "h", JVInt 1)]))) /\
  ask "{""Rect"":[2,3]}" = Some (JVEnum (lit "Rect") (Some (JVStruct [(lit "w", JVInt 2); (lit "h", JVInt 3)]))) /\
  ask "{""Rect"":{""w"":2,""d"":4}}" = None /\ ask "{""Name"":""a"",""Dot"":null}" = None /\ ask "{""Line"":1}" = None /\
  fits fl fi zf (shape_ty F) (JObj [(lit "Dot", JNull)]) (JVEnum (lit "Dot") None) /\
  (forall v, ~ fits fl fi zf (shape_ty F) (JObj [(lit "Rect", JObj [(lit "w", JNum false 2 []); (lit "d", JNull)])]) v).
Proof.
  intros F fl fi zf ask. split.
  { cbn. repeat split; try discriminate; repeat (constructor; [cbn; intros H; repeat (destruct H as [H|H]; [discriminate|]); exact H|]); constructor. }
  repeat split; try reflexivity; [left; split; [right|]; reflexivity|].
  intros v [[[E|E] _]|[(x & y & E & _)|[(x & y & E & _)|[(x & y & E & FX & _)|[]]]]]; try discriminate. injection E as <-.
  destruct FX as [(l & ys & E & _ & KN & _)|(l & ys & E & _)]; [|discriminate]. injection E as <-.
  destruct (KN eq_refl (lit "d") (or_intror (or_introl eq_refl))) as [Q|[Q|[]]]; discriminate.
Qed.

(** A document gives at most one value of a type. *)
Theorem C82_one_value : forall (F : Type) (fl : bytes -> option F) (fi : Z -> F) (zf : bool) (t : jty F) j v w,
  sound_type t -> fits fl fi zf t j v -> fits fl fi zf t j w -> same_val v w.
Proof. intros F fl fi zf t j v w ST. exact (fits_one fl fi zf t ST j v w). Qed.
Print Assumptions C82_one_value.

(** The order of the entries of a map is open, not what they are. *)
Example C82_one_value_example : forall F (fl : bytes -> option F) fi zf,
  let j := JObj [(lit "a", JNull); (lit "b", JBool false); (lit "a", JBool true)] in
  let t := @JTMap F (JTOption JTBool) in
  let v := JVMap [(lit "a", JVOpt (Some (JVBool true))); (lit "b", JVOpt (Some (JVBool false)))] in
  let w := JVMap [(lit "b", JVOpt (Some (JVBool false))); (lit "a", JVOpt (Some (JVBool true)))] in
  sound_type t /\ fits fl fi zf t j v /\ fits fl fi zf t j w /\ v <> w.
Proof.
  intros F fl fi zf j t v w. split; [exact I|].
  assert (P : forall m, m = [(lit "a", JVOpt (Some (JVBool true))); (lit "b", JVOpt (Some (@JVBool F false)))] \/
                        m = [(lit "b", JVOpt (Some (JVBool false))); (lit "a", JVOpt (Some (JVBool true)))] -> fits fl fi zf t j (JVMap m)).
  { intros m E. exists [(lit "a", JNull); (lit "b", JBool false); (lit "a", JBool true)], [JVOpt None; JVOpt (Some (JVBool false)); JVOpt (Some (JVBool true))], m.
    split; [reflexivity|]. split.
    - constructor; [left; split; reflexivity|]. constructor; [|constructor; [|constructor]]; right; (split; [discriminate|]); eexists; (split; [eexists; split; reflexivity|reflexivity]).
    - split; [|reflexivity]. destruct E as [->| ->]; (split; [|split]).
      + constructor; [intros [?|[]]; discriminate|]. constructor; [intros []|constructor].
      + intros k. cbn [map fst combine In]. tauto.
      + intros k y [E|[E|[]]]; injection E as <- <-; eexists; (split; [|reflexivity]); [exists [JVOpt None]|exists []]; reflexivity.
      + constructor; [intros [?|[]]; discriminate|]. constructor; [intros []|constructor].
      + intros k. cbn [map fst combine In]. tauto.
      + intros k y [E|[E|[]]]; injection E as <- <-; eexists; (split; [|reflexivity]); [exists []|exists [JVOpt None]]; reflexivity. }
  split; [apply P; left; reflexivity|]. split; [apply P; right; reflexivity|discriminate].
Qed.

(** Blanks and escapes do not matter. *)
Theorem C82_same_document : forall (F : Type) (fl : bytes -> option F) (fi : Z -> F) (zf : bool) (t : jty F) j b b',
  json_text j b -> json_text j b' -> from_slice fl fi zf t b = from_slice fl fi zf t b'.
Proof. exact (@text_same). Qed.
Print Assumptions C82_same_document.

Example C82_same_document_example : json_text true_list (lit " [ true,false]") /\ json_text true_list (lit "[true,false ]").
Proof.
  split; [exact true_list_text|].
  exists [], (lit "[true,false ]"), []. split; [constructor|]. split; [constructor|]. split; [|reflexivity].
  apply (w_arr _ (lit "true,false ")). apply (e_more [] (JBool true) (lit "true") [] _ (lit "false ")); [constructor..|].
  apply (e_last [] (JBool false) (lit "false") [32%N]); repeat constructor.
Qed.

(** A handler that reads its body as JSON. *)
Theorem C82_served : forall (F : Type) (fl : bytes -> option F) (fi : Z -> F) (zf : bool) (X U A : Type) (msg : bytes -> str)
    (ty : jty F) (l : list (op (handler X U A) (middleware X U A))) t st rq rest ps j,
  built l t ->
  reaches l rq (with_json (fun b => match from_slice fl fi zf ty b with Some v => inl v | None => inr (msg b) end) rest) ps ->
  broken (rq_body rq) = false -> one_chunk (rq_body rq) ->
  sound_type ty -> json_text j (body_bytes (rq_body rq)) -> depth j <= 127 ->
  (forall v, fits fl fi zf ty j v -> exists v' c c', same_val v v' /\
       (forall n, pget n (ctx_params c) = first_binding ps n) /\ starts rq (ctx_params c) st c /\ same_but_body c c' /\
     rq_body (ctx_request c') = body_empty /\ handles (serve t st rq) (rest v' c')) /\
  ((forall v, ~ fits fl fi zf ty j v) -> fails_with (serve t st rq) (msg (body_bytes (rq_body rq)))).
Proof. exact (@json_served). Qed.
Print Assumptions C82_served.

(** The list posted to a handler that reads a [Vec<bool>], and to one that reads a
    number. *)
Example C82_served_example : forall F (fl : bytes -> option F) fi zf X U A msg (ty : jty F),
  let h : handler X U A := with_json (fun b => match from_slice fl fi zf ty b with Some v => inl v | None => inr (msg b) end) (fun _ => no_answer) in
  let b := Body [lit " [ true,false]"] false in
  let rq := Request GET (lit "/a") None [] [] b in
  (exists t ps, @built _ (middleware X U A) [ORoute GET (lit "/a") h] t /\
     reaches [@ORoute _ (middleware X U A) GET (lit "/a") h] rq h ps) /\
  broken b = false /\ one_chunk b /\ json_text true_list (body_bytes b) /\ depth true_list <= 127 /\
  fits fl fi zf (JTVec JTBool) true_list (JVSeq [JVBool true; JVBool false]) /\
  (forall v, ~ fits fl fi zf (JTInt (Ity true 32)) true_list v).
Proof.
  intros. split; [apply one_reaches; [reflexivity|apply UserLemmas.one_a]|]. split; [reflexivity|]. split.
  { right. exists [], (lit " [ true,false]"), []. split; [reflexivity|]. intros y [[]|[]]. }
  split; [exact true_list_text|]. split; [cbn; lia|]. split; [apply true_list_fits|].
  intros v (neg & n & tl & z & E & _). discriminate E.
Qed.

(** Documents of more than 127 levels are not read, as a [Value] or another type that skips
    nothing. *)
Theorem C82_deep : forall (F : Type) (fl : bytes -> option F) (fi : Z -> F) (zf : bool) (t : jty F) j b,
  skips_nothing t -> json_text j b -> 127 < depth j -> from_slice fl fi zf t b = None.
Proof. exact (@text_deep). Qed.
Print Assumptions C82_deep.

(** Brackets in brackets. *)
Example C82_deep_example : forall F n, let j := Nat.iter n (fun x => JArr [x]) (JArr []) in
  @skips_nothing F JTValue /\ json_text j (repeat 91%N (S n) ++ repeat 93%N (S n)) /\ depth j = S n.
Proof.
  intros F n j. split; [exact I|]. split.
  - exists [], (repeat 91%N (S n) ++ repeat 93%N (S n)), []. split; [constructor|]. split; [constructor|].
    split; [|rewrite app_nil_r; reflexivity]. induction n as [|n IH].
    + apply (w_arr0 []). constructor.
    + replace (repeat 91%N (S (S n)) ++ repeat 93%N (S (S n))) with
        (91%N :: (repeat 91%N (S n) ++ repeat 93%N (S n)) ++ [93%N]).
      * apply w_arr. rewrite <- (app_nil_r (repeat 91%N (S n) ++ repeat 93%N (S n))). apply (e_last []); [constructor|exact IH|constructor].
      * rewrite <- app_assoc, <- repeat_cons. reflexivity.
  - induction n as [|n IH]; [reflexivity|]. change (S (Nat.max (depth (Nat.iter n (fun x => JArr [x]) (JArr []))) 0) = S (S n)).
    rewrite Nat.max_0_r. f_equal. exact IH.
Qed.

(** The numerals in JSON texts ([dec] in [JsonSpec]) are the decimal ones without leading zeros. *)
Theorem C82_numerals : forall s n, s = dec n <-> numeral s n.
Proof. exact dec_exact. Qed.
Print Assumptions C82_numerals.

Example C82_numerals_example : numeral (lit "120") 120 /\ numeral (lit "0") 0 /\ ~ numeral (lit "012") 12.
Proof. split; [apply dec_exact; reflexivity|]. split; [apply dec_exact; reflexivity|]. intros N. apply dec_exact in N. discriminate N. Qed.

(** * C83: a JSON body in several chunks is never cut short *)

(** Refuted for numbers: "12" and "3" in two chunks are read as 12. *)
Theorem C83_refuted : forall (F : Type) (fl : bytes -> option F) (fi : Z -> F) (zf : bool) (X : Type) msg (c : context X),
  broken (rq_body (ctx_request c)) = false -> chunks (rq_body (ctx_request c)) = [lit "12"; lit "3"] ->
  fst (ctx_read_json fl fi zf msg (JTInt (Ity false 32)) c) = inl (JVInt 12) /\
  from_slice fl fi zf (JTInt (Ity false 32)) (body_bytes (rq_body (ctx_request c))) = Some (JVInt 123).
Proof.
  intros F fl fi zf X msg c B E. split.
  - exact (json_first fl fi zf msg (JTInt (Ity false 32)) c (lit "12") [lit "3"] (JVInt 12) B E ltac:(discriminate) eq_refl).
  - unfold body_bytes. rewrite E. reflexivity.
Qed.
Print Assumptions C83_refuted.

(** Refuted for bodies that are not JSON: whatever follows a first chunk that can be read
    alone is never looked at. *)
Theorem C83_rest_refuted : forall (F : Type) (fl : bytes -> option F) (fi : Z -> F) (zf : bool) (X : Type) msg (t : jty F) (c : context X) x rest v,
  broken (rq_body (ctx_request c)) = false -> chunks (rq_body (ctx_request c)) = x :: rest -> x <> [] ->
  from_slice fl fi zf t x = Some v -> fst (ctx_read_json fl fi zf msg t c) = inl v.
Proof. exact (@json_first). Qed.
Print Assumptions C83_rest_refuted.

(** True for texts of other documents: what is read is what the whole body says. *)
Theorem C83_partial : forall (F : Type) (fl : bytes -> option F) (fi : Z -> F) (zf : bool) (X : Type) msg (t : jty F) j (c : context X) v,
  json_text j (body_bytes (rq_body (ctx_request c))) -> ~ is_number j ->
  fst (ctx_read_json fl fi zf msg t c) = inl v -> from_slice fl fi zf t (body_bytes (rq_body (ctx_request c))) = Some v.
Proof. exact (@json_chunks). Qed.
Print Assumptions C83_partial.

(** "[true" and "]" in two chunks: an error; "[true]" and a blank: the list. *)
Example C83_example : forall F (fl : bytes -> option F) fi zf X (x : X) msg,
  let ask l := fst (ctx_read_json fl fi zf msg (JTVec JTBool)
                      (context_new (Request POST (lit "/") None [] [(1%N, x)] (Body l false)) [])) in
  ask [lit "[true"; lit "]"] = inr (EJson (msg (lit "[true"))) /\
  ask [[]; lit "[true]"; lit " "] = inl (JVSeq [JVBool true]) /\
  ask [lit "[true]"; lit "!"] = inl (JVSeq [JVBool true]) /\
  from_slice fl fi zf (JTVec JTBool) (lit "[true]!") = None /\
  json_text (JArr [JBool true]) (lit "[true] ") /\ ~ is_number (JArr [JBool true]).
Proof.
  intros F fl fi zf X x msg ask. repeat split; try reflexivity; [|intros []].
  exists [], (lit "[true]"), [32%N]. split; [constructor|]. split; [repeat constructor|]. split; [|reflexivity].
  apply (w_arr [JBool true] (lit "true")). apply (e_last [] (JBool true) (lit "true") []); try constructor.
Qed.

(** * C84: what is answered as JSON comes back as it was *)

Theorem C84_partial : forall (F : Type) (fl : bytes -> option F) (fi : Z -> F) (ft : F -> str) (zf : bool) (t : jty F) v,
  has_type t v -> val_depth v < 128 -> from_slice fl fi zf t (utf8 (to_text ft v)) = Some v.
Proof. exact (@round_trip). Qed.
Print Assumptions C84_partial.

Example C84_example : forall F (ft : F -> str),
  let t := JTVec (JTStruct false [(lit "name", None, JTString); (lit "tags", None, JTMap (JTOption (JTInt (Ity true 8))))]) in
  let v := JVSeq [JVStruct [(lit "name", JVStr [34; 233; 7; 128512]%N); (lit "tags", JVMap [(lit "a", JVOpt None); (lit "b", JVOpt (Some (JVInt (-128))))])]] in
  @has_type F t v /\ val_depth v = 3 /\ to_text ft v = lit "[{""name"":""\""" ++ [233%N] ++ lit "\u0007" ++ [128512%N] ++ lit """,""tags"":{""a"":null,""b"":-128}}]".
Proof.
  intros F ft t v. split; [|split; reflexivity]. eexists. split; [reflexivity|]. constructor; [|constructor].
  split; [constructor; [intros [?|[]]; discriminate|]; constructor; [intros []|constructor]|].
  assert (SC : forall s, forallb (fun c => (c <? 128)%N) s = true -> Forall scalar s).
  { intros s H. apply Forall_forall. intros c I. rewrite forallb_forall in H. specialize (H c I). apply N.ltb_lt in H. unfold scalar. lia. }
  split; [constructor; [apply SC; reflexivity|]; constructor; [apply SC; reflexivity|constructor]|].
  exists [JVStr [34; 233; 7; 128512]%N; JVMap [(lit "a", JVOpt None); (lit "b", JVOpt (Some (JVInt (-128))))]]. split; [reflexivity|]. split; [|split; [|exact I]].
  - eexists. split; [reflexivity|]. repeat constructor; unfold scalar; lia.
  - eexists. split; [reflexivity|]. split; [constructor; [intros [?|[]]; discriminate|]; constructor; [intros []|constructor]|].
    split; [constructor; [apply SC; reflexivity|]; constructor; [apply SC; reflexivity|constructor]|].
    constructor; [split; [intros []|left; reflexivity]|]. constructor; [|constructor]. split; [intros []|right]. eexists. split; [reflexivity|].
    split; [discriminate|]. eexists. split; [reflexivity|]. vm_compute. split; discriminate.
Qed.

(** A tuple of the variants of the enum above, and its text. *)
Example C84_enum_example : forall F (ft : F -> str),
  let t := JTTuple [shape_ty F; shape_ty F; JTUnit] in
  let v := JVTuple [JVEnum (lit "Dot") None; JVEnum (lit "Rect") (Some (JVStruct [(lit "w", JVInt 2); (lit "h", JVInt 3)])); JVUnit] in
  @has_type F t v /\ val_depth v = 3 /\ to_text ft v = lit "[""Dot"",{""Rect"":{""w"":2,""h"":3}},null]".
Proof.
  intros F ft t v. split; [|split; reflexivity].
  assert (SC : forall s, forallb (fun c => (c <? 128)%N) s = true -> Forall scalar s).
  { intros s H. apply Forall_forall. intros c I. rewrite forallb_forall in H. specialize (H c I). apply N.ltb_lt in H. unfold scalar. lia. }
  assert (D : forall l : list str, (fix nodup l := match l with [] => true | x :: r => negb (existsb (str_eqb x) r) && nodup r end) l = true -> NoDup l).
  { induction l as [|x r IH]; intros H; constructor; apply andb_prop in H; destruct H as [H1 H2]; [|exact (IH H2)].
    intros I. assert (E : existsb (str_eqb x) r = true) by (apply existsb_exists; exists x; split; [exact I|apply BaseFacts.str_eqb_refl]). rewrite E in H1. discriminate. }
  assert (V : NoDup (map fst [(lit "Dot", @None (jty F)); (lit "Name", Some JTString); (lit "Pair", Some (JTTuple [JTChar; JTOption JTUnit]));
          (lit "Rect", Some (JTStruct true [(lit "w", None, JTInt (Ity false 8)); (lit "h", Some (JVInt 1), JTInt (Ity false 8))]))]) /\
        Forall (fun w => Forall scalar (fst w)) [(lit "Dot", @None (jty F)); (lit "Name", Some JTString); (lit "Pair", Some (JTTuple [JTChar; JTOption JTUnit]));
          (lit "Rect", Some (JTStruct true [(lit "w", None, JTInt (Ity false 8)); (lit "h", Some (JVInt 1), JTInt (Ity false 8))]))]).
  { split; [apply D; reflexivity|]. repeat (constructor; [apply SC; reflexivity|]). constructor. }
  exists [JVEnum (lit "Dot") None; JVEnum (lit "Rect") (Some (JVStruct [(lit "w", JVInt 2); (lit "h", JVInt 3)])); JVUnit].
  split; [reflexivity|]. split; [|split; [|split; [reflexivity|exact I]]].
  - destruct V as [V1 V2]. split; [exact V1|]. split; [exact V2|]. left. reflexivity.
  - destruct V as [V1 V2]. split; [exact V1|]. split; [exact V2|]. right. right. right. left. eexists. split; [reflexivity|].
    split; [apply D; reflexivity|]. split; [repeat (constructor; [apply SC; reflexivity|]); constructor|].
    exists [JVInt 2; JVInt 3]. split; [reflexivity|].
    split; [split; [discriminate|]; eexists; split; [reflexivity|]; vm_compute; split; discriminate|].
    split; [|exact I]. split; [discriminate|]; eexists; split; [reflexivity|]; vm_compute; split; discriminate.
Qed.

(** From the body of a response to the value of a handler it is posted to. *)
Theorem C84_echo_partial : forall (F : Type) (fl : bytes -> option F) (fi : Z -> F) (ft : F -> str) (zf : bool) (X : Type) msg (t : jty F) v
    (c : context X) (r : response),
  has_type t v -> val_depth v <= 127 ->
  broken (rq_body (ctx_request c)) = false -> one_chunk (rq_body (ctx_request c)) ->
  body_bytes (rq_body (ctx_request c)) = body_bytes (res_body (Http.json (inl (to_text ft v)) r)) ->
  fst (ctx_read_json fl fi zf msg t c) = inl v.
Proof. exact (@json_echo). Qed.
Print Assumptions C84_echo_partial.

(** A map, its text as a body in one piece. *)
Example C84_echo_example : forall F (ft : F -> str) X, let t := @JTMap F JTBool in let v := JVMap [(lit "a", JVBool true)] in
  let c : context X := context_new (Request POST (lit "/") None [] [] (Body [[]; lit "{""a"":true}"] false)) [] in
  has_type t v /\ val_depth v <= 127 /\ broken (rq_body (ctx_request c)) = false /\ one_chunk (rq_body (ctx_request c)) /\
  body_bytes (rq_body (ctx_request c)) = body_bytes (res_body (Http.json (inl (to_text ft v)) response_ok)).
Proof.
  intros F ft X t v c. split.
  { eexists. split; [reflexivity|]. split; [constructor; [intros []|constructor]|]. split.
    - constructor; [|constructor]. constructor; [|constructor]. left. reflexivity.
    - constructor; [|constructor]. eexists. reflexivity. }
  split; [cbn; lia|]. split; [reflexivity|]. split; [|reflexivity].
  right. exists [[]], (lit "{""a"":true}"), []. split; [reflexivity|]. intros y [[<-|[]]|[]]. reflexivity.
Qed.

(** Refuted for an [Option] of an [Option]: [Some(None)] comes back as [None]. *)
Theorem C84_refuted : forall (F : Type) (fl : bytes -> option F) (fi : Z -> F) (ft : F -> str) (zf : bool),
  from_slice fl fi zf (JTOption (JTOption JTBool)) (utf8 (to_text ft (JVOpt (Some (JVOpt None))))) = Some (JVOpt None).
Proof. reflexivity. Qed.
Print Assumptions C84_refuted.

(** And for an [Option] of a unit. *)
Theorem C84_unit_refuted : forall (F : Type) (fl : bytes -> option F) (fi : Z -> F) (ft : F -> str) (zf : bool),
  from_slice fl fi zf (JTOption JTUnit) (utf8 (to_text ft (JVOpt (Some JVUnit)))) = Some (JVOpt None).
Proof. reflexivity. Qed.
Print Assumptions C84_unit_refuted.

(** Refuted for [Value]s of more than 127 levels: they are written, but cannot be read. *)
Theorem C84_deep_refuted : forall (F : Type) (fl : bytes -> option F) (fi : Z -> F) (ft : F -> str) (zf : bool) (d : doc F),
  plain_doc d -> 127 < doc_depth d -> from_slice fl fi zf JTValue (utf8 (to_text ft (JVDoc d))) = None.
Proof. exact (@deep_lost). Qed.
Print Assumptions C84_deep_refuted.

(** * C85: a body that is not JSON is an error *)

(** Refuted: the members a struct has no field for may contain anything between quotes, as the byte 255 here. *)
Theorem C85_refuted : forall (F : Type) (fl : bytes -> option F) (fi : Z -> F) (zf : bool),
  exists (t : jty F) b v, sound_type t /\ from_slice fl fi zf t b = Some v /\ forall j, ~ json_text j b.
Proof. intros F fl fi zf. exact (ex_intro _ one_a (ex_intro _ ill (ex_intro _ _ (ill_accepted fl fi zf)))). Qed.
Print Assumptions C85_refuted.

(** True for types whose structs deny unknown fields. *)
Theorem C85_partial : forall (F : Type) (fl : bytes -> option F) (fi : Z -> F) (zf : bool) (t : jty F) b v,
  skips_nothing t -> from_slice fl fi zf t b = Some v -> exists j, json_text j b.
Proof. exact (@text_only). Qed.
Print Assumptions C85_partial.

(** A text that is refused by the type, too. *)
Example C85_example : forall F (fl : bytes -> option F) fi zf,
  skips_nothing (@JTMap F JTString) /\ from_slice fl fi zf (JTMap JTString) (lit "{""a"":""b""}") = Some (JVMap [(lit "a", JVStr (lit "b"))]) /\
  from_slice fl fi zf (@JTMap F JTString) (utf8 (lit "{""a"":""") ++ [255%N] ++ utf8 (lit """}")) = None /\
  from_slice fl fi zf (@JTMap F JTString) (lit "{""a"":""b"",}") = None /\
  skips_nothing (shape_ty F) /\ from_slice fl fi zf (shape_ty F) (lit "{""Rect"":{""w"":2}}") <> None.
Proof. repeat split. discriminate. Qed.

(** True for every type, up to the contents of strings. *)
Theorem C85_grammar_partial : forall (F : Type) (fl : bytes -> option F) (fi : Z -> F) (zf : bool) (t : jty F) b v,
  from_slice fl fi zf t b = Some v -> loose_text b.
Proof. exact (@reads_loose). Qed.
Print Assumptions C85_grammar_partial.

(** A struct that ignores a member with the byte 255, but no member without a value. *)
Example C85_grammar_example : forall F (fl : bytes -> option F) fi zf,
  from_slice fl fi zf one_a (utf8 (lit "{""a"":1,""b"":[""") ++ [255%N] ++ utf8 (lit """]}")) = Some (JVStruct [(lit "a", JVInt 1)]) /\
  from_slice fl fi zf one_a (lit "{""a"":1,""b"":}") = None /\ from_slice fl fi zf one_a (lit "{""a"":1,""b"":[1,]}") = None /\
  from_slice fl fi zf one_a (lit "{""a"":1,""b"":01}") = None /\ from_slice fl fi zf one_a (lit "{""a"":1,""b"":""\x""}") = None.
Proof. repeat split. Qed.

(** Every JSON text is such a text. *)
Theorem C85_json_loose : forall j b, json_text j b -> loose_text b.
Proof. exact json_loose. Qed.
Print Assumptions C85_json_loose.

Example C85_json_loose_example : exists j, json_text j (lit "[1,null]").
Proof.
  exists (JArr [JNum false 1 []; JNull]). exists [], (lit "[1,null]"), []. split; [constructor|]. split; [constructor|]. split; [|reflexivity].
  apply (w_arr _ (lit "1,null")). apply (e_more [] (JNum false 1 []) (lit "1") [] [JNull] (lit "null")); [constructor| |constructor|].
  - apply (w_num false 1 []). exists [], []. repeat split; left; reflexivity.
  - apply (e_last [] JNull (lit "null") []); constructor.
Qed.

(** No more is required: a member that the struct has no field for may have any such text as its value, however deep. *)
Theorem C85_ignored_refuted : forall (F : Type) (fl : bytes -> option F) (fi : Z -> F) (zf : bool)
    (fs : list (str * option (jval F) * jty F)) k kb b,
  string_text k kb -> ~ In k (map (fun f => fst (fst f)) fs) -> loose_text b ->
  from_slice fl fi zf (JTStruct false fs) (123%N :: 34%N :: kb ++ 34%N :: 58%N :: b ++ [125%N]) = from_slice fl fi zf (JTStruct false fs) (lit "{}").
Proof. exact (@ignored_member). Qed.
Print Assumptions C85_ignored_refuted.

(** A lone surrogate: not JSON text of any character. *)
Example C85_ignored_example : forall F (fl : bytes -> option F) fi zf,
  loose_text (lit """\ud800""") /\ from_slice fl fi zf (JTStruct false []) (lit "{""x"":""\ud800""}") = Some (JVStruct []).
Proof.
  intros. split; [|reflexivity]. exists [], (lit """\ud800"""), []. split; [constructor|]. split; [constructor|]. split; [|reflexivity].
  apply (lo_str (lit "\ud800")). apply (ls_hex 55296 (lit "d800") []); [|constructor].
  exists 100%N, 56%N, 48%N, 48%N, 13%N, 8%N, 0%N, 0%N. unfold hex_digit. repeat split; (left; split; lia) || (right; split; lia).
Qed.
