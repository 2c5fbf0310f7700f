(** Vocabulary for handlers that read typed data behind middlewares. *)

From Coq Require Import String.
From Verif Require Import Base RouteTrie Router Http App AppSpec.
Local Open Scope list_scope.

Section Data.
  Context {X U A : Type}.
  Notation context := (context X).
  Notation middleware := (middleware X U A).
  Notation mprog := (mprog X U A).

  (** Whatever the middleware does and however often it calls [next], it does so with the
      value of the type [ty] it was given (or with none, if it was given none). *)
  Fixpoint hands_data (ty : N) (c : context) (p : mprog) : Prop :=
    match p with
    | MDone _ | MCrash _ => True
    | MNext _ c' k => ctx_get ty c' = ctx_get ty c /\ forall r, hands_data ty c (k r)
    | MPrint _ k => hands_data ty c k
    | MRead _ k => forall r, hands_data ty c (k r)
    | MAsk _ k => forall a, hands_data ty c (k a)
    end.
  Definition keeps_data (ty : N) (m : middleware) : Prop := forall c, hands_data ty c (m c).

  (** A middleware that calls [next] with the value [x] of the type [ty], whatever else it does. *)
  Fixpoint hands_value (ty : N) (x : X) (p : mprog) : Prop :=
    match p with
    | MDone _ | MCrash _ => True
    | MNext _ c' k => ctx_get ty c' = Some x /\ forall r, hands_value ty x (k r)
    | MPrint _ k => hands_value ty x k
    | MRead _ k => forall r, hands_value ty x (k r)
    | MAsk _ k => forall a, hands_value ty x (k a)
    end.
  Definition gives_data (ty : N) (x : X) (m : middleware) : Prop := forall c, hands_value ty x (m c).

  (** A handler that goes on with the value of the type [ty] it finds. *)
  Definition with_data (ty : N) (rest : option X -> handler X U A) : handler X U A := fun c => rest (ctx_get ty c) c.
End Data.
