(** Middlewares that guard a path.

    [refuses], [at_or_below], [above], [not_found], [no_handler] are defined in
    [GuardSpec]; [keeps_input] in [ThroughSpec]; [never_skips], [handles], [starts] in
    [AppSpec]; [text], [text_mws] in [TextSpec]; [flat], [mws_for] in [TableSpec];
    [built], [registered], [seg_match] in [PropSpec]. *)

From Coq Require Import String.
From Verif Require Import Base Utf8 RouteTrie Router TableSpec PropSpec TextSpec Http App AppSpec ThroughSpec GuardSpec.
From Verif Require Import AppWitness TextWitness GuardLemmas GuardWitness.
Local Open Scope list_scope.

(** * C90: a guard on a path protects everything below it *)

(** The full statement is false: a guard that refuses every request, and a request below
    its path that is answered by a handler alone. *)
Theorem C90_refuted : forall X U A : Type, exists (l : list (op (handler X U A) (middleware X U A))) t p g q h rq,
  built l t /\ registered l p (CMw g) /\ no_star p /\ at_or_below p rq /\ (forall rq', refuses g rq') /\
  (forall q' m, registered l q' (CMw m) -> never_skips m /\ keeps_input m) /\
  registered l q (CRoute (rq_method rq) h) /\
  forall st, exists c, starts rq (ctx_params c) st c /\ handles (serve t st rq) (h c).
Proof. exact (@w_unguarded). Qed.
Print Assumptions C90_refuted.

(** Every route whose path starts with the guard's path is protected, in every router
    that can be built. *)
Theorem C90_routes_partial : forall (X U A : Type) (l : list (op (handler X U A) (middleware X U A))) t st (rq : request X) p g,
  build l = (t, None) -> registered l p (CMw g) -> refuses g rq ->
  (forall q m, registered l q (CMw m) -> never_skips m /\ keeps_input m) ->
  not_found (serve t st rq) \/
  exists q h c, registered l q (CRoute (rq_method rq) h) /\ starts rq (ctx_params c) st c /\
    handles (serve t st rq) (next (text_mws (table_of l) (text q)) h c) /\
    (prefix (text p) (text q) -> no_handler (serve t st rq) (text_mws (table_of l) (text q)) c).
Proof. exact (@guarded_routes). Qed.
Print Assumptions C90_routes_partial.

(** A guard at a path with a colon inside a segment: it refuses requests without a
    header, and only those. *)
Example C90_routes_partial_example : forall X U A : Type,
  let l := colons_of (@no_answer X U A) (@token X U A) in let p := [lit "a:b"] in let q := [lit "a:b"; lit ":id"] in
  let rq hd := @Request X GET (lit "/a:b/7") None hd [] body_empty in
  (exists t r, build l = (t, None) /\ search_route t (lit "/a:b/7") = LSome r /\ rr_get_route r GET = Some (Route GET no_answer)) /\
  registered l p (CMw (@token X U A)) /\ refuses (@token X U A) (rq []) /\
  ~ refuses (@token X U A) (rq [(lit "authorization", lit "x")]) /\
  (forall q m, registered l q (CMw m) -> never_skips m /\ keeps_input m) /\
  registered l q (CRoute GET no_answer) /\ prefix (text p) (text q).
Proof.
  intros X U A l p q rq. split; [eexists; eexists; split; [vm_compute; reflexivity|]; split; vm_compute; reflexivity|].
  split; [vm_compute; auto|]. split; [apply token_refuses; reflexivity|].
  split; [apply (token_admits _ (lit "x")); reflexivity|].
  split; [intros q' m I; rewrite (colons_mws _ _ _ _ I); exact token_polite|].
  split; [vm_compute; auto|]. exists (lit ":id"). vm_compute. reflexivity.
Qed.

(** Every request at or below the guard's path: no handler is run, unless the route that
    answers is a wildcard above the guard. *)
Theorem C90_requests_partial : forall (X U A : Type) (l : list (op (handler X U A) (middleware X U A))) t st (rq : request X) p g,
  built l t -> registered l p (CMw g) -> no_star p -> at_or_below p rq -> refuses g rq ->
  (forall q m, registered l q (CMw m) -> never_skips m /\ keeps_input m) ->
  not_found (serve t st rq) \/
  exists q h c, registered l q (CRoute (rq_method rq) h) /\ starts rq (ctx_params c) st c /\
    let mws := mws_for (table_of l) (flat q) in
    handles (serve t st rq) (next mws h c) /\
    ((In g mws /\ no_handler (serve t st rq) mws c) \/ exists q0, q = q0 ++ [s_star] /\ above q0 p).
Proof. exact (@guarded_below). Qed.
Print Assumptions C90_requests_partial.

(** A directory with a guarded part: the page registered there is behind the guard, the
    other files are not. *)
Example C90_requests_partial_example : forall X U A : Type,
  let h : handler X U A := static_virtual_file_handler (lit "/files") (lit "public") in
  let l := files_of h no_answer (@token X U A) in let p := [lit "files"; lit "private"] in
  let rq last := @Request X GET (lit "/files/private/" ++ last) None [] [] body_empty in
  exists t, built l t /\ registered l p (CMw (@token X U A)) /\ no_star p /\
    at_or_below p (rq (lit "list")) /\ at_or_below p (rq (lit "keys.txt")) /\
    (forall last, refuses (@token X U A) (rq last)) /\
    (forall q m, registered l q (CMw m) -> never_skips m /\ keeps_input m) /\
    (exists r, search_route t (rq_path (rq (lit "list"))) = LSome r /\ rr_get_route r GET = Some (Route GET no_answer) /\ rr_mws r = [@token X U A]) /\
    (exists r, search_route t (rq_path (rq (lit "keys.txt"))) = LSome r /\ rr_get_route r GET = Some (Route GET h) /\ rr_mws r = []) /\
    above [lit "files"] p.
Proof.
  intros X U A h l p rq. destruct (files_built h (@no_answer X U A) (@token X U A)) as (t & B & Im & N & _ & _ & W & R1 & R2).
  exists t. split; [exact B|]. split; [exact Im|]. split; [exact N|].
  split; [apply below_private; [split; [discriminate|intros [x Ex]; discriminate Ex]|vm_compute; reflexivity]|].
  split; [apply below_private; [split; [discriminate|intros [x Ex]; discriminate Ex]|vm_compute; reflexivity]|].
  split; [intros last; apply token_refuses; reflexivity|].
  split; [intros q m I; rewrite (W _ _ I); exact token_polite|].
  split; [exact R1|]. split; [exact R2|].
  exists [lit "files"], [lit "private"]. repeat split. discriminate.
Qed.
