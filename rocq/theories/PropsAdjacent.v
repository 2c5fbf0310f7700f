(** Property C81 and additions to C42, C43: enums with a tag and a content as the target of
    [query_params] and [form].

    [adjacent_from src aj c]: what a handler gets; [meant aj ps r]: [r] is the variant named
    by the tag in the pairs [ps], with the content read by its type; [unparsed aj ps r]: the
    same, with the first text of the content as it is; [sound_enum aj]: different keys,
    different variants ([AdjacentSpec]). *)

From Coq Require Import String ZArith.
From Verif Require Import Base Utf8 RouteTrie UrlEncoded Http Form AppSpec FormSpec UrlSpec Adjacent AdjacentSpec.
From Verif Require Import BaseFacts UrlLemmas FormWitness AdjacentLemmas.
Local Open Scope string_scope.
Local Open Scope list_scope.

(** * C81: the variant named by the tag with its content *)

(** Refuted: "type=Id&value=5" is an error in one order of the hash map, and the number in
    another (this refutes C42 for these targets, too). *)
Theorem C81_refuted : forall (F : Type) (pf : bool -> str -> F + str) msg, exists aj s ps r it1 it2,
  sound_enum aj /\ form_pairs (utf8 s) ps /\ admitted aj ps /\ meant pf aj ps r /\ iteration it1 /\ iteration it2 /\
  forall (X : Type) src (c : context X), has_data src c (utf8 s) ->
    (exists e, adjacent_from pf msg it1 it2 src aj c = inr (EForm e)) /\
    (exists it3 it4, iteration it3 /\ iteration it4 /\ adjacent_from pf msg it3 it4 src aj c = inl (inl r)).
Proof. exact (@w_adjacent). Qed.
Print Assumptions C81_refuted.

(** Every order reads either the value meant, or the unparsed one. *)
Theorem C81_either_partial : forall (F : Type) (pf : bool -> str -> F + str) msg aj (X : Type) src (c : context X) q ps,
  has_data src c q -> form_pairs q ps -> sound_enum aj -> forall it1 it2, iteration it1 -> iteration it2 ->
  (forall r, adjacent_from pf msg it1 it2 src aj c = inl (inl r) <-> admitted aj ps /\ meant pf aj ps r) \/
  (values_of (aj_key aj) ps <> [] /\
   forall r, adjacent_from pf msg it1 it2 src aj c = inl (inl r) <-> admitted aj ps /\ unparsed aj ps r).
Proof. exact (@adjacent_orders). Qed.
Print Assumptions C81_either_partial.

(** The two results for "type=Id&value=7" ([shape] is the enum
    [{ Id(i32), Name(String), All }] with the keys "type" and "value"). *)
Example C81_either_example : sound_enum shape /\ iteration (fun l : list (str * list str) => l) /\ iteration (@rev (str * list str)) /\
  (exists ps, form_pairs (utf8 (lit "type=Id&value=7")) ps /\ values_of (lit "value") ps <> [] /\ admitted shape ps /\
     forall F (pf : bool -> str -> F + str), meant pf shape ps (lit "Id", Some (VInt 7)) /\ ~ exists r, unparsed (F:=F) shape ps r) /\
  has_data FromQuery (asked (lit "type=Id&value=7")) (utf8 (lit "type=Id&value=7")) /\
  adjacent_from no_float no_msg (fun l => l) (fun l => l) FromQuery shape (asked (lit "type=Id&value=7")) =
    inl (inl (lit "Id", Some (VInt 7))) /\
  exists e, adjacent_from no_float no_msg (fun l => l) (@rev _) FromQuery shape (asked (lit "type=Id&value=7")) = inr (EForm e).
Proof.
  split; [apply shape_sound|]. split; [apply iteration_id|]. split; [apply iteration_rev|]. split.
  { eexists. split; [apply parse_spec; reflexivity|]. split; [discriminate|]. split; [discriminate|]. intros F pf. split.
    - eapply me_some; [split; [left; reflexivity|exists []; reflexivity]|discriminate|].
      exists []. apply rd_scalar, st_int, FormLemmas.parse_int_spec. reflexivity.
    - intros (r & U). inversion U as [n t s rest x [I [rs T]] V P E]. vm_compute in T, V. injection T as <- <-. injection V as <- <-.
      destruct I as [[= <-]|[E'|[E'|[]]]]; [inversion P|discriminate E'|discriminate E']. }
  split; [apply asked_data|]. split; [vm_compute; reflexivity|]. eexists. vm_compute. reflexivity.
Qed.

(** Both happen. *)
Theorem C81_first_partial : forall (F : Type) (pf : bool -> str -> F + str) msg aj (X : Type) src (c : context X) q ps,
  has_data src c q -> form_pairs q ps -> sound_enum aj -> exists it1 it2, iteration it1 /\ iteration it2 /\
  forall r, adjacent_from pf msg it1 it2 src aj c = inl (inl r) <-> admitted aj ps /\ meant pf aj ps r.
Proof. exact (@adjacent_first). Qed.
Print Assumptions C81_first_partial.

Example C81_first_example : exists ps, form_pairs (utf8 (lit "value=9&type=Id")) ps /\ sound_enum shape /\
  has_data FromBody (sent (lit "value=9&type=Id")) (utf8 (lit "value=9&type=Id")) /\
  adjacent_from no_float no_msg (@rev _) (fun l => l) FromBody shape (sent (lit "value=9&type=Id")) =
    inl (inl (lit "Id", Some (VInt 9))).
Proof.
  eexists. split; [apply parse_spec; reflexivity|]. split; [apply shape_sound|]. split; [apply sent_data; discriminate|].
  vm_compute. reflexivity.
Qed.

Theorem C81_last_partial : forall (F : Type) (pf : bool -> str -> F + str) msg aj (X : Type) src (c : context X) q ps,
  has_data src c q -> form_pairs q ps -> sound_enum aj -> values_of (aj_key aj) ps <> [] ->
  exists it1 it2, iteration it1 /\ iteration it2 /\
  forall r, adjacent_from pf msg it1 it2 src aj c = inl (inl r) <-> admitted aj ps /\ unparsed aj ps r.
Proof. exact (@adjacent_last). Qed.
Print Assumptions C81_last_partial.

Example C81_last_example : exists ps, form_pairs (utf8 (lit "value=9&type=Id")) ps /\ values_of (lit "value") ps <> [] /\
  exists e, adjacent_from no_float no_msg (fun l => l) (fun l => l) FromBody shape (sent (lit "value=9&type=Id")) = inr (EForm e).
Proof. eexists. split; [apply parse_spec; reflexivity|]. split; [discriminate|]. eexists. vm_compute. reflexivity. Qed.

(** What is true in every order: contents that are texts... *)
Theorem C81_texts_partial : forall (F : Type) (pf : bool -> str -> F + str) msg aj (X : Type) src (c : context X) q ps,
  has_data src c q -> form_pairs q ps -> sound_enum aj -> forall it1 it2 r, iteration it1 -> iteration it2 -> text_contents aj ->
  (adjacent_from pf msg it1 it2 src aj c = inl (inl r) <-> admitted aj ps /\ meant pf aj ps r).
Proof. exact (@adjacent_texts). Qed.
Print Assumptions C81_texts_partial.

(** Texts only. *)
Example C81_texts_example : let aj := Adjacent (lit "t") (lit "c") [Variant (lit "A") (Some (TOption TString)); Variant (lit "B") None] true in
  sound_enum aj /\ text_contents aj /\ admitted aj [(lit "c", lit "x"); (lit "t", lit "A")] /\
  ~ admitted aj [(lit "d", lit "x"); (lit "t", lit "A")].
Proof.
  split; [split; [discriminate|repeat constructor; cbn; intuition discriminate]|]. split.
  { intros v t [<-|[<-|[]]]; [intros [= <-]; repeat constructor|discriminate]. }
  split.
  - intros _ k. cbn [values_of filter fst snd]. unfold values_of. cbn [filter fst snd].
    destruct (str_eqb_spec k (lit "c")) as [->|]; [auto|]. destruct (str_eqb_spec k (lit "t")) as [->|]; [auto|].
    intros K. contradiction K. reflexivity.
  - intros K. destruct (K eq_refl (lit "d")) as [E|E]; discriminate.
Qed.

(** ... and data without content. *)
Theorem C81_bare_partial : forall (F : Type) (pf : bool -> str -> F + str) msg aj (X : Type) src (c : context X) q ps,
  has_data src c q -> form_pairs q ps -> sound_enum aj -> forall it1 it2 r, iteration it1 -> iteration it2 ->
  values_of (aj_key aj) ps = [] ->
  (adjacent_from pf msg it1 it2 src aj c = inl (inl r) <-> admitted aj ps /\ meant pf aj ps r).
Proof. exact (@adjacent_bare). Qed.
Print Assumptions C81_bare_partial.

Example C81_bare_example : exists ps, form_pairs (utf8 (lit "x=1&type=All&value=")) ps /\ values_of (lit "value") ps = [] /\
  adjacent_from no_float no_msg (fun l => l) (@rev _) FromQuery shape (asked (lit "x=1&type=All&value=")) =
    inl (inl (lit "All", None)).
Proof. eexists. split; [apply parse_spec; reflexivity|]. split; [reflexivity|]. vm_compute. reflexivity. Qed.

(** C43: no panic. *)
Theorem C43_adjacent : forall (F : Type) (pf : bool -> str -> F + str) msg aj (X : Type) src (c : context X) q ps,
  has_data src c q -> form_pairs q ps -> sound_enum aj -> forall it1 it2, iteration it1 -> iteration it2 ->
  (exists r, adjacent_from pf msg it1 it2 src aj c = inl (inl r)) \/
  (exists e, adjacent_from pf msg it1 it2 src aj c = inr (EForm e)).
Proof. exact (@adjacent_total). Qed.
Print Assumptions C43_adjacent.

Example C43_adjacent_example : exists ps, form_pairs (utf8 (lit "type=Nope&value=1")) ps /\ sound_enum shape /\
  exists e, adjacent_from no_float no_msg (fun l => l) (fun l => l) FromQuery shape (asked (lit "type=Nope&value=1")) = inr (EForm e).
Proof. eexists. split; [apply parse_spec; reflexivity|]. split; [apply shape_sound|]. eexists. vm_compute. reflexivity. Qed.

(** An enum [{ Id(i32), Name(String), All }] with the keys "type" and "value". *)
Example C81_example : sound_enum shape /\
  (forall F (pf : bool -> str -> F + str), meant pf shape [(lit "type", lit "Id"); (lit "value", lit "5")] (lit "Id", Some (VInt 5))) /\
  (forall F (pf : bool -> str -> F + str), meant pf shape [(lit "x", lit "1"); (lit "type", lit "All"); (lit "value", [])] (lit "All", None)) /\
  (forall F, unparsed (F:=F) shape [(lit "value", lit "7"); (lit "type", lit "Name")] (lit "Name", Some (VString (lit "7")))).
Proof.
  split; [apply shape_sound|]. split; [intros; apply id_meant|]. split; intros.
  - apply me_unit; [|reflexivity]. split; [right; right; left; reflexivity|]. exists []. reflexivity.
  - eapply un_some; [|reflexivity|constructor]. split; [right; left; reflexivity|]. exists []. reflexivity.
Qed.
