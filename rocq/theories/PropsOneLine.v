(** Property C96: answers with JSON are one line.

    [Http.json (inl (to_text ft v)) r]: the response [r] after [json] with the value [v];
    [ft] is how floats are written ([Json]). *)

From Coq Require Import String ZArith Lia.
From Verif Require Import Base Utf8 Http Json AppSpec.
From Verif Require Import OneLineLemmas.
Local Open Scope string_scope.
Local Open Scope list_scope.

(** * C96: no control characters, whatever the texts in the value *)

Theorem C96 : forall (F : Type) (ft : F -> str),
  (forall x, Forall (fun c : char => (32 <= c)%N) (ft x) /\ ft x <> []) -> forall (v : jval F) (r : response),
  Forall (fun b => (32 <= b)%N) (body_bytes (res_body (Http.json (inl (to_text ft v)) r))) /\
  body_bytes (res_body (Http.json (inl (to_text ft v)) r)) <> [].
Proof. exact (@json_line). Qed.
Print Assumptions C96.

(** A text with a line break, a tab and the character 1 in it. *)
Example C96_example : let ft := fun _ : unit => lit "1.5" in
  (forall x, Forall (fun c : char => (32 <= c)%N) (ft x) /\ ft x <> []) /\
  body_bytes (res_body (Http.json (inl (to_text ft (JVSeq [JVStr ([10; 9; 1] ++ lit "a")%N; JVFloat tt]))) response_ok)) =
  lit "[""\n\t\u0001a"",1.5]".
Proof. cbn zeta. split; [intros _; split; [apply visible_known; reflexivity|discriminate]|]. vm_compute. reflexivity. Qed.
