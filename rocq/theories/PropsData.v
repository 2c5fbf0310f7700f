(** Typed data and the app state in handlers behind middlewares, for every accepted router.

    [keeps_data], [gives_data], [with_data] are defined in [DataSpec]; [adder] in
    [UserSpec]; [never_skips], [handles], [starts] in [AppSpec]; [text], [text_mws] in
    [TextSpec]; [registered], [seg_match] in [PropSpec]. *)

From Coq Require Import String.
From Verif Require Import Base RouteTrie Router TableSpec PropSpec TextSpec Http App AppSpec UserSpec DataSpec.
From Verif Require Import AppWitness DataLemmas DataWitness.
Local Open Scope list_scope.

(** * C73: typed data travels along the middlewares *)

(** One of the middlewares gives [next] a value, those after it leave that type alone. *)
Theorem C73_behind : forall (X U A : Type) (l : list (op (handler X U A) (middleware X U A))) t st (rq : request X) p b,
  build l = (t, None) -> no_star p -> seg_match p (segments (rq_path rq)) b ->
  forall ty x rest pre m post, registered l p (CRoute (rq_method rq) (with_data ty rest)) ->
  text_mws (table_of l) (text p) = pre ++ m :: post ->
  Forall never_skips pre -> gives_data ty x m -> Forall (keeps_data ty) post ->
  exists c, (forall n, pget n (ctx_params c) = first_binding b n) /\ starts rq (ctx_params c) st c /\
    handles (serve t st rq) (next (text_mws (table_of l) (text p)) (rest (Some x)) c).
Proof. exact (@data_behind). Qed.
Print Assumptions C73_behind.

(** Logger and two middlewares that add values of different types; the handler reads the
    first one, or the second. *)
Example C73_behind_example : forall rest : option nat -> handler nat unit unit,
  let a1 : middleware nat unit unit := adder (1%N, 5) in let a2 : middleware nat unit unit := adder (2%N, 6) in
  let p := [lit "a:b"; lit ":id"] in
  (forall ty, let l := three_of (with_data ty rest) (logger true) a1 a2 in
     (exists t, build l = (t, None)) /\ registered l p (CRoute GET (with_data ty rest)) /\ no_star p /\
     seg_match p (segments (lit "/a:b/7")) [(lit "id", lit "7")] /\
     text_mws (table_of l) (text p) = [logger true; a2] ++ a1 :: [] /\
     text_mws (table_of l) (text p) = [logger true] ++ a2 :: [a1]) /\
  Forall never_skips [logger true; a2] /\ gives_data 1%N 5 a1 /\
  Forall never_skips [@logger nat unit unit true] /\ gives_data 2%N 6 a2 /\ Forall (keeps_data 2%N) [a1].
Proof.
  intros rest a1 a2 p. split.
  - intros ty l. destruct (three_built (with_data ty rest) (logger true) a1 a2) as (B & G & N & S & E). auto 10.
  - split; [constructor; [apply logger_no_skip|constructor; [apply adder_no_skip|constructor]]|].
    split; [apply adder_gives|]. split; [constructor; [apply logger_no_skip|constructor]|].
    split; [apply adder_gives|]. constructor; [apply adder_keeps; discriminate|constructor].
Qed.

(** * C32: the app state is visible to every matched request *)

(** The handler finds the state, or else the value that came with the request, if all
    middlewares leave that type alone. *)
Theorem C32_behind : forall (X U A : Type) (l : list (op (handler X U A) (middleware X U A))) t st (rq : request X) p b,
  build l = (t, None) -> no_star p -> seg_match p (segments (rq_path rq)) b ->
  forall ty rest, registered l p (CRoute (rq_method rq) (with_data ty rest)) ->
  Forall (keeps_data ty) (text_mws (table_of l) (text p)) ->
  exists c, (forall n, pget n (ctx_params c) = first_binding b n) /\ starts rq (ctx_params c) st c /\
    (forall x, st = Some (ty, x) -> handles (serve t st rq) (next (text_mws (table_of l) (text p)) (rest (Some x)) c)) /\
    ((forall x, st <> Some (ty, x)) ->
       handles (serve t st rq) (next (text_mws (table_of l) (text p)) (rest (aget N.eqb ty (rq_ext rq))) c)).
Proof. exact (@state_behind). Qed.
Print Assumptions C32_behind.

(** Logger and two middlewares that add values of other types than that of the state. *)
Example C32_behind_example : forall rest : option nat -> handler nat unit unit,
  let a1 : middleware nat unit unit := adder (1%N, 5) in let a2 : middleware nat unit unit := adder (2%N, 6) in
  let p := [lit "a:b"; lit ":id"] in let l := three_of (with_data 3%N rest) (logger true) a1 a2 in
  (exists t, build l = (t, None)) /\ registered l p (CRoute GET (with_data 3%N rest)) /\ no_star p /\
  seg_match p (segments (lit "/a:b/7")) [(lit "id", lit "7")] /\
  Forall (keeps_data 3%N) (text_mws (table_of l) (text p)).
Proof.
  intros rest a1 a2 p l. destruct (three_built (with_data 3%N rest) (logger true) a1 a2) as (B & G & N & S & E).
  split; [exact B|]. split; [exact G|]. split; [exact N|]. split; [exact S|]. unfold l, p. rewrite E.
  constructor; [apply logger_data|]. constructor; [apply adder_keeps; discriminate|].
  constructor; [apply adder_keeps; discriminate|constructor].
Qed.
