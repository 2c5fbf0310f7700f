(** What the calls on an [App] mean. *)

From Coq Require Import String.
From Verif Require Import Base RouteTrie Router Http App AppCalls.
Local Open Scope list_scope.

Section AppCallsSpec.
  Context {X U A : Type}.
  Notation acall := (acall X U A).

  (** The calls that reach the router, in order. *)
  Definition registrations (l : list acall) : list (op (handler X U A) (middleware X U A)) :=
    flat_map (fun c => match c with Registers o => [o] | SetState _ => [] end) l.

  (** The state set last, if any. *)
  Definition last_state (l : list acall) (s : option X) : Prop :=
    match s with
    | None => forall x, ~ In (SetState x) l
    | Some x => exists before after, l = before ++ SetState x :: after /\ forall y, ~ In (SetState y) after
    end.

  (** The calls that register a handler, by the method in the request line. *)
  Definition verbs : list (str * (str -> handler X U A -> acall)) :=
    [(lit "GET", app_get); (lit "POST", app_post); (lit "PUT", app_put); (lit "PATCH", app_patch);
     (lit "DELETE", app_delete)].
End AppCallsSpec.
