(** Reading input in handlers behind middlewares, for every accepted router.

    [keeps_input], [returns_errors], [fails_behind], [emptied] are defined in
    [ThroughSpec]; [with_param], [with_query], [with_form], [with_json] in [UserSpec];
    [text], [text_mws] in [TextSpec]; [field_value], [values_of] in [FormSpec];
    [form_pairs] in [UrlSpec]; [struct_says], what the error says, in [ErrorSpec]. *)

From Coq Require Import String.
From Verif Require Import Base Utf8 UrlEncoded RouteTrie Router TableSpec PropSpec TextSpec Http Form App AppSpec FormSpec UrlSpec UserSpec ThroughSpec ErrorSpec.
From Verif Require Import AppWitness TextWitness UrlLemmas ThroughLemmas ThroughWitness.
Local Open Scope list_scope.

(** * C64: errors of the functions that read input *)

Theorem C64_param_behind : forall (X U A : Type) (l : list (op (handler X U A) (middleware X U A))) t st (rq : request X) p b,
  build l = (t, None) -> no_star p -> seg_match p (segments (rq_path rq)) b ->
  let mws := text_mws (table_of l) (text p) in
  Forall keeps_input mws -> forall (T : Type) (parse : str -> option T) n rest,
  registered l p (CRoute (rq_method rq) (with_param parse n rest)) ->
  exists c, (forall n', pget n' (ctx_params c) = first_binding b n') /\ starts rq (ctx_params c) st c /\
    (first_binding b n = None -> fails_behind mws c (serve t st rq) ENone (lit "Input should not be None")) /\
    (forall s, first_binding b n = Some s -> parse s = None ->
       fails_behind mws c (serve t st rq) (EParam (lit "Failed to parse param " ++ n)) (lit "Failed to parse param " ++ n)) /\
    (forall s x, first_binding b n = Some s -> parse s = Some x -> handles (serve t st rq) (next mws (rest x) c)).
Proof. exact (@param_behind). Qed.
Print Assumptions C64_param_behind.

(** A path with a colon inside a segment; Logger on the way. *)
Example C64_param_behind_example : let first := fun s : str => match s with [] => None | c :: _ => Some c end in
  let h n : handler unit unit unit := with_param first n (fun _ => no_answer) in
  forall n, let l := colons_of (h n) (@logger unit unit unit true) in
  let p := [lit "a:b"; lit ":id"] in let b := [(lit "id", lit "7")] in
  (exists t, build l = (t, None)) /\ no_star p /\ seg_match p (segments (lit "/a:b/7")) b /\
  Forall keeps_input (text_mws (table_of l) (text p)) /\ Forall returns_errors (text_mws (table_of l) (text p)) /\
  registered l p (CRoute GET (h n)) /\
  first_binding b (lit "nr") = None /\ first_binding b (lit "id") = Some (lit "7") /\ first (lit "7") = Some 55%N.
Proof.
  intros first h n l p b. destruct (colons_meet (h n) (@logger unit unit unit true) (logger_keeps true) (logger_returns true)) as (B & N & S & K & R & G).
  split; [exact B|]. split; [exact N|]. split; [exact S|]. split; [exact K|]. split; [exact R|]. split; [exact G|].
  split; [|split]; vm_compute; reflexivity.
Qed.

Theorem C64_query_behind : forall (X U A : Type) (l : list (op (handler X U A) (middleware X U A))) t st (rq : request X) p b,
  build l = (t, None) -> no_star p -> seg_match p (segments (rq_path rq)) b ->
  let mws := text_mws (table_of l) (text p) in
  Forall keeps_input mws -> forall (F : Type) (pf : bool -> str -> F + str) msg it1 it2,
  iteration it1 -> iteration it2 -> forall fs deny, NoDup (map f_name fs) -> forall rest qs,
  form_pairs (utf8 (match rq_query rq with Some q => q | None => [] end)) qs ->
  registered l p (CRoute (rq_method rq) (with_query pf msg it1 it2 (TgStruct fs deny) rest)) ->
  let good vs := Forall2 (field_value pf qs) fs vs /\ (deny = true -> forall k, values_of k qs <> [] -> In k (map f_name fs)) in
  exists c, (forall n', pget n' (ctx_params c) = first_binding b n') /\ starts rq (ctx_params c) st c /\
    (forall vs, good vs -> handles (serve t st rq) (next mws (rest (RStruct vs)) c)) /\
    ((forall vs, ~ good vs) -> exists m, struct_says pf msg qs fs deny m /\ fails_behind mws c (serve t st rq) (EForm (FMessage m)) m).
Proof. exact (@query_behind). Qed.
Print Assumptions C64_query_behind.

(** One required string; the request gives it, or not. *)
Example C64_query_behind_example : forall (F : Type) (pf : bool -> str -> F + str) msg,
  let fs := [Field (F:=F) (lit "name") TString None] in
  let h : handler unit unit unit := with_query pf msg (fun l => l) (@rev _) (TgStruct fs false) (fun _ => no_answer) in
  let l := colons_of h (@logger unit unit unit true) in
  let p := [lit "a:b"; lit ":id"] in let b := [(lit "id", lit "7")] in
  (exists t, build l = (t, None)) /\ no_star p /\ seg_match p (segments (lit "/a:b/7")) b /\
  Forall keeps_input (text_mws (table_of l) (text p)) /\ Forall returns_errors (text_mws (table_of l) (text p)) /\
  registered l p (CRoute GET h) /\ NoDup (map f_name fs) /\
  (exists qs, form_pairs (utf8 (lit "name=x")) qs /\ Forall2 (field_value pf qs) fs [VString (lit "x")]) /\
  (exists qs, form_pairs (utf8 (lit "nom=x")) qs /\ (forall vs, ~ Forall2 (field_value pf qs) fs vs) /\
     struct_says pf msg qs fs false (lit "missing field `name`")).
Proof.
  intros F pf msg fs h l p b. destruct (colons_meet h (@logger unit unit unit true) (logger_keeps true) (logger_returns true)) as (B & N & S & K & R & G).
  split; [exact B|]. split; [exact N|]. split; [exact S|]. split; [exact K|]. split; [exact R|]. split; [exact G|].
  split; [repeat constructor; intros []|]. split.
  - exists [(lit "name", lit "x")]. split; [apply parse_spec; vm_compute; reflexivity|].
    constructor; [|constructor]. left. split; [discriminate|]. exists []. apply rd_scalar, st_string.
  - exists [(lit "nom", lit "x")]. split; [apply parse_spec; vm_compute; reflexivity|]. split; [apply name_missing|apply name_says].
Qed.

Theorem C64_form_behind : forall (X U A : Type) (l : list (op (handler X U A) (middleware X U A))) t st (rq : request X) p b,
  build l = (t, None) -> no_star p -> seg_match p (segments (rq_path rq)) b ->
  let mws := text_mws (table_of l) (text p) in
  Forall keeps_input mws -> forall (F : Type) (pf : bool -> str -> F + str) msg it1 it2,
  iteration it1 -> iteration it2 -> forall fs deny, NoDup (map f_name fs) -> forall rest qs,
  form_pairs (body_bytes (rq_body rq)) qs ->
  registered l p (CRoute (rq_method rq) (with_form pf msg it1 it2 (TgStruct fs deny) rest)) ->
  let good vs := Forall2 (field_value pf qs) fs vs /\ (deny = true -> forall k, values_of k qs <> [] -> In k (map f_name fs)) in
  exists c, (forall n', pget n' (ctx_params c) = first_binding b n') /\ starts rq (ctx_params c) st c /\
    (broken (rq_body rq) = true -> fails_behind mws c (serve t st rq) ENone (lit "Input should not be None")) /\
    (broken (rq_body rq) = false -> one_chunk (rq_body rq) ->
       (forall vs, good vs -> handles (serve t st rq) (next mws (fun c' => rest (RStruct vs) (emptied c')) c)) /\
       ((forall vs, ~ good vs) -> exists m, struct_says pf msg qs fs deny m /\ fails_behind mws c (serve t st rq) (EForm (FMessage m)) m)).
Proof. exact (@form_behind). Qed.
Print Assumptions C64_form_behind.

Example C64_form_behind_example : forall (F : Type) (pf : bool -> str -> F + str) msg,
  let fs := [Field (F:=F) (lit "name") TString None] in
  let h : handler unit unit unit := with_form pf msg (fun l => l) (@rev _) (TgStruct fs false) (fun _ => no_answer) in
  let l := colons_of h (@logger unit unit unit true) in
  let p := [lit "a:b"; lit ":id"] in let b := [(lit "id", lit "7")] in
  (exists t, build l = (t, None)) /\ no_star p /\ seg_match p (segments (lit "/a:b/7")) b /\
  Forall keeps_input (text_mws (table_of l) (text p)) /\ Forall returns_errors (text_mws (table_of l) (text p)) /\
  registered l p (CRoute GET h) /\ NoDup (map f_name fs) /\
  (exists qs, form_pairs (body_bytes (Body [utf8 (lit "name=x")] false)) qs /\ Forall2 (field_value pf qs) fs [VString (lit "x")]) /\
  (exists qs, form_pairs (body_bytes (Body [utf8 (lit "nom=x")] false)) qs /\ (forall vs, ~ Forall2 (field_value pf qs) fs vs) /\
     struct_says pf msg qs fs false (lit "missing field `name`")).
Proof.
  intros F pf msg fs h l p b. destruct (colons_meet h (@logger unit unit unit true) (logger_keeps true) (logger_returns true)) as (B & N & S & K & R & G).
  split; [exact B|]. split; [exact N|]. split; [exact S|]. split; [exact K|]. split; [exact R|]. split; [exact G|].
  split; [repeat constructor; intros []|]. split.
  - exists [(lit "name", lit "x")]. split; [apply parse_spec; vm_compute; reflexivity|].
    constructor; [|constructor]. left. split; [discriminate|]. exists []. apply rd_scalar, st_string.
  - exists [(lit "nom", lit "x")]. split; [apply parse_spec; vm_compute; reflexivity|]. split; [apply name_missing|apply name_says].
Qed.

Theorem C64_json_behind : forall (X U A : Type) (l : list (op (handler X U A) (middleware X U A))) t st (rq : request X) p b,
  build l = (t, None) -> no_star p -> seg_match p (segments (rq_path rq)) b ->
  let mws := text_mws (table_of l) (text p) in
  Forall keeps_input mws -> forall (T : Type) (from_slice : bytes -> T + str) rest,
  registered l p (CRoute (rq_method rq) (with_json from_slice rest)) ->
  exists c, (forall n', pget n' (ctx_params c) = first_binding b n') /\ starts rq (ctx_params c) st c /\
    (broken (rq_body rq) = true -> fails_behind mws c (serve t st rq) ENone (lit "Input should not be None")) /\
    (broken (rq_body rq) = false -> one_chunk (rq_body rq) ->
       (forall e, from_slice (body_bytes (rq_body rq)) = inr e -> fails_behind mws c (serve t st rq) (EJson e) e) /\
       (forall x, from_slice (body_bytes (rq_body rq)) = inl x ->
          handles (serve t st rq) (next mws (fun c' => rest x (emptied c')) c))).
Proof. exact (@json_behind). Qed.
Print Assumptions C64_json_behind.

(** A reader that takes one byte; a body of one and a body of none. *)
Example C64_json_behind_example : let one := fun v : bytes => match v with [x] => inl x | _ => inr (lit "no") end in
  let h : handler unit unit unit := with_json one (fun _ => no_answer) in
  let l := colons_of h (@logger unit unit unit true) in
  let p := [lit "a:b"; lit ":id"] in let b := [(lit "id", lit "7")] in
  (exists t, build l = (t, None)) /\ no_star p /\ seg_match p (segments (lit "/a:b/7")) b /\
  Forall keeps_input (text_mws (table_of l) (text p)) /\ Forall returns_errors (text_mws (table_of l) (text p)) /\
  registered l p (CRoute GET h) /\
  one (body_bytes (Body [[55%N]] false)) = inl 55%N /\ one_chunk (Body [[55%N]] false) /\
  one (body_bytes body_empty) = inr (lit "no") /\ one_chunk body_empty.
Proof.
  intros one h l p b. destruct (colons_meet h (@logger unit unit unit true) (logger_keeps true) (logger_returns true)) as (B & N & S & K & R & G).
  split; [exact B|]. split; [exact N|]. split; [exact S|]. split; [exact K|]. split; [exact R|]. split; [exact G|].
  split; [reflexivity|]. split; [|split; [reflexivity|left; reflexivity]].
  right. exists [], [55%N], []. split; [reflexivity|]. intros y [[]|[]].
Qed.

(** Logger meets both conditions. *)
Theorem C64_logger : forall (X U A : Type) d, keeps_input (@logger X U A d) /\ returns_errors (@logger X U A d).
Proof. exact (fun X U A d => conj (logger_keeps d) (logger_returns d)). Qed.
Print Assumptions C64_logger.

(** What the client gets, and what is printed, when a parameter does not parse. *)
Example C64_logger_example : let h : handler unit unit unit := with_param (fun _ : str => @None nat) (lit "id") (fun _ => no_answer) in
  exists t, build (colons_of h (logger false)) = (t, None) /\
  runs (serve t None (get_req (lit "/a:b/7"))) 
    [EvPrint (LRequest GET (lit "/a:b/7") None); EvPrint (LError (lit "Failed to parse param id"))]
    (Value (HttpResponse 500%N [] (Body [utf8 (lit "Failed to parse param id")] false))).
Proof.
  intros h. destruct (colons_built h (@logger unit unit unit false)) as ((t & B & E) & _).
  exists t. split; [exact B|]. unfold serve. cbn [rq_path get_req]. rewrite E. vm_compute. repeat econstructor.
Qed.
