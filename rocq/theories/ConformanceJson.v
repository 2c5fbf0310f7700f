(** The tests of [json] in context.rs 512-545 and examples/json.rs, replayed on the model:
    evidence that the model is faithful, not a property. *)

From Coq Require Import String ZArith.
From Verif Require Import Base Utf8 RouteTrie Http Form Json PropsJson.
Local Open Scope string_scope.
Local Open Scope list_scope.

Section Tests.
  Context {F : Type} (fl : bytes -> option F) (fi : Z -> F) (ft : F -> str) (zf : bool) (msg : bytes -> str).

  Let body := Body [utf8 (lit "{""id"":1,""mode"":""edit""}")] false.
  Let ctx : context unit := context_new (Request GET (lit "/") None [] [] body) [].

  Example test_json_struct : fst (ctx_read_json fl fi zf msg (json_result F) ctx) =
    inl (JVStruct [(lit "id", JVInt 1); (lit "mode", JVStr (lit "edit"))]).
  Proof. reflexivity. Qed.

  Example test_json_value : exists m, fst (ctx_read_json fl fi zf msg JTValue ctx) = inl (JVDoc (DObj m)) /\
    aget str_eqb (lit "id") m = Some (DNum (NInt 1)) /\ aget str_eqb (lit "mode") m = Some (DStr (lit "edit")).
  Proof. eexists. split; [reflexivity|]. split; reflexivity. Qed.

  (** examples/json.rs: the answer to GET /user. *)
  Example examples_json : to_text ft (JVStruct [(lit "name", JVStr (lit "Obsidian"))]) = lit "{""name"":""Obsidian""}".
  Proof. reflexivity. Qed.

  (** response.rs 181-206, [test_complete_response]: the JSON of the struct. *)
  Example test_complete_response_text :
    to_text ft (JVStruct [(lit "name", JVStr (lit "Jun Kai")); (lit "age", JVInt 27)]) = lit "{""name"":""Jun Kai"",""age"":27}".
  Proof. reflexivity. Qed.
End Tests.
