(** Property C91: what the errors of [query_params] and [form] say.

    [read_from src tg c]: what a handler gets that reads the target [tg] from the query or
    the body of [c]; [it1], [it2]: the orders in which its hash maps are iterated;
    [target_says ps tg m], [adjacent_says aj ps m]: [m] names a fault of the pairs [ps]
    ([ErrorSpec]). *)

From Coq Require Import String ZArith.
From Verif Require Import Base Utf8 RouteTrie UrlEncoded Http Form AppSpec FormSpec UrlSpec Adjacent AdjacentSpec ErrorSpec.
From Verif Require Import BaseFacts UrlLemmas FormWitness AdjacentLemmas ErrorLemmas ErrorLemmas2 ErrorLemmas3 ErrorWitness.
Local Open Scope string_scope.
Local Open Scope list_scope.

(** * C91: the error says what is wrong with the data *)

(** Whatever the order: if there is an error, it is about a fault of the data. *)
Theorem C91_error : forall (F : Type) (pf : bool -> str -> F + str) msg it1 it2 (X : Type) src (c : context X) q ps tg e,
  has_data src c q -> form_pairs q ps -> named_apart tg -> iteration it1 -> iteration it2 ->
  read_from pf msg it1 it2 src tg c = inr e -> target_says pf msg ps tg (error_text e).
Proof. exact (@read_fails). Qed.
Print Assumptions C91_error.

(** [struct { id: i32, age: u8 }] from "id=12x&age=300": two faults. *)
Example C91_error_example : has_data FromQuery (asked (lit "id=12x&age=300")) (utf8 (lit "id=12x&age=300")) /\
  form_pairs (utf8 (lit "id=12x&age=300")) [(lit "id", lit "12x"); (lit "age", lit "300")] /\
  named_apart (TgStruct person false) /\
  read_from no_float no_msg (fun l => l) (fun l => l) FromQuery (TgStruct person false) (asked (lit "id=12x&age=300")) =
    inr (EForm (FMessage (lit "invalid digit found in string"))) /\
  read_from no_float no_msg (fun l => l) (@rev _) FromQuery (TgStruct person false) (asked (lit "id=12x&age=300")) =
    inr (EForm (FMessage (lit "number too large to fit in target type"))).
Proof.
  split; [apply asked_data|]. split; [apply parse_spec; reflexivity|]. split; [apply person_apart|]. split; vm_compute; reflexivity.
Qed.

(** The faults are exactly the errors of some order. *)
Theorem C91_fault : forall (F : Type) (pf : bool -> str -> F + str) msg (X : Type) src (c : context X) q ps tg m,
  has_data src c q -> form_pairs q ps -> named_apart tg ->
  ((exists it1 it2 e, iteration it1 /\ iteration it2 /\ read_from pf msg it1 it2 src tg c = inr e /\ error_text e = m) <->
   target_says pf msg ps tg m).
Proof. exact (@read_says). Qed.
Print Assumptions C91_fault.

(** The missing "age" is only named if there is nothing else: not in "id=x", but in "id=1". *)
Example C91_fault_example :
  has_data FromBody (sent (lit "id=x")) (utf8 (lit "id=x")) /\ form_pairs (utf8 (lit "id=x")) [(lit "id", lit "x")] /\
  target_says no_float no_msg [(lit "id", lit "x")] (TgStruct person false) (lit "invalid digit found in string") /\
  ~ target_says no_float no_msg [(lit "id", lit "x")] (TgStruct person false) (lit "missing field `age`") /\
  target_says no_float no_msg [(lit "id", lit "1")] (TgStruct person false) (lit "missing field `age`").
Proof.
  split; [apply sent_data; discriminate|]. split; [apply parse_spec; reflexivity|]. exact person_says.
Qed.

(** The same for enums with a tag and a content. *)
Theorem C91_enum_error : forall (F : Type) (pf : bool -> str -> F + str) msg aj it1 it2 (X : Type) src (c : context X) q ps e,
  has_data src c q -> form_pairs q ps -> sound_enum aj -> iteration it1 -> iteration it2 ->
  adjacent_from pf msg it1 it2 src aj c = inr e -> adjacent_says pf msg aj ps (error_text e).
Proof. exact (@adjacent_fails). Qed.
Print Assumptions C91_enum_error.

(** [shape]: [{ Id(i32), Name(String), All }] with the keys "type" and "value". *)
Example C91_enum_error_example :
  form_pairs (utf8 (lit "value=x")) [(lit "value", lit "x")] /\ sound_enum shape /\
  adjacent_from no_float no_msg (fun l => l) (fun l => l) FromQuery shape (asked (lit "value=x")) =
    inr (EForm (FMessage (lit "missing field `type`"))) /\
  adjacent_from no_float no_msg (fun l => l) (fun l => l) FromQuery shape (asked (lit "type=Name")) =
    inr (EForm (FMessage (lit "missing field `value`"))) /\
  adjacent_from no_float no_msg (fun l => l) (fun l => l) FromBody shape (sent (lit "type=Id&value=x")) =
    inr (EForm (FMessage (lit "invalid digit found in string"))).
Proof.
  split; [apply parse_spec; reflexivity|]. split; [apply shape_sound|]. split; [|split]; vm_compute; reflexivity.
Qed.

Theorem C91_enum_fault : forall (F : Type) (pf : bool -> str -> F + str) msg aj (X : Type) src (c : context X) q ps m,
  has_data src c q -> form_pairs q ps -> sound_enum aj ->
  ((exists it1 it2 e, iteration it1 /\ iteration it2 /\ adjacent_from pf msg it1 it2 src aj c = inr e /\ error_text e = m) <->
   adjacent_says pf msg aj ps m).
Proof. exact (@adjacent_exact). Qed.
Print Assumptions C91_enum_fault.

(** Two errors for "type=Id&value=x": the text is no number, or, if the value comes first, a
    string where a number is expected. *)
Example C91_enum_fault_example : forall msg, let ps := [(lit "type", lit "Id"); (lit "value", lit "x")] in
  form_pairs (utf8 (lit "type=Id&value=x")) ps /\ sound_enum shape /\
  adjacent_says no_float msg shape ps (lit "invalid digit found in string") /\
  adjacent_says no_float msg shape ps (msg (MString (lit "x"))) /\
  (msg (MString (lit "x")) <> lit "missing field `value`" -> ~ adjacent_says no_float msg shape ps (lit "missing field `value`")).
Proof.
  intros msg ps. split; [apply parse_spec; reflexivity|]. split; [apply shape_sound|]. exact (shape_says msg).
Qed.

(** [str::parse] of the integers: what its error says about a text. *)
Theorem C91_number : forall t s m, parse_int t s = inr m <-> int_says t s m.
Proof. exact parse_int_says. Qed.
Print Assumptions C91_number.

Example C91_number_example : int_says i32 (lit "-") (lit "invalid digit found in string") /\
  int_says i32 (lit "-2147483649") (lit "number too small to fit in target type") /\
  int_says i32 (lit "21474836481x") (lit "number too large to fit in target type") /\
  int_says i32 (lit "1x") (lit "invalid digit found in string") /\ int_says i32 [] (lit "cannot parse integer from empty string").
Proof. repeat split; apply parse_int_says; vm_compute; reflexivity. Qed.
