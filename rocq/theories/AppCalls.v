(** Model of the [App] value (src/app.rs 20-143): its calls, and the server made of it. *)

From Verif Require Import Base RouteTrie Router Http App Server.
Local Open Scope list_scope.

Section AppCalls.
  Context {X U A : Type}.
  Notation handler := (handler X U A).
  Notation middleware := (middleware X U A).
  Notation op := (op handler middleware).

  (** app.rs 20-26: [App]; [X] holds the values of the app state's type. *)
  Record application := MkApp { app_router : trie handler middleware; app_data : option X }.

  (** app.rs 48-53: [App::new]. *)
  Definition new_app : application := MkApp trie_new None.

  (** A call of a method of [App]; one that delegates to the router, or 139-141
      [set_app_state]. *)
  Inductive acall := Registers (o : op) | SetState (x : X).

  (** app.rs 55-57. *)
  Definition app_get (path : str) (h : handler) : acall := Registers (ORoute GET path h).
  (** app.rs 59-61. *)
  Definition app_post (path : str) (h : handler) : acall := Registers (ORoute POST path h).
  (** app.rs 63-65. *)
  Definition app_put (path : str) (h : handler) : acall := Registers (ORoute PUT path h).
  (** app.rs 67-69. *)
  Definition app_patch (path : str) (h : handler) : acall := Registers (ORoute PATCH path h).
  (** app.rs 71-73. *)
  Definition app_delete (path : str) (h : handler) : acall := Registers (ORoute DELETE path h).

  (** app.rs 90-95 [scope]; the closure makes the calls [sub]. *)
  Definition app_scope (name : str) (sub : list op) : acall := Registers (OScope name sub).

  (** app.rs 98-100: [use_service_to]. *)
  Definition app_use_service_to (path : str) (m : middleware) : acall := Registers (OServiceTo path m).
  (** app.rs 103-105: [use_service]. *)
  Definition app_use_service (m : middleware) : acall := Registers (OService m).
  (** app.rs 108-110: [use_router]. *)
  Definition app_use_router (path : str) (sub : list op) : acall := Registers (ORouter path sub).
  (** app.rs 113-115: [use_static_to]. *)
  Definition app_use_static_to (virtual_path dir_path : str) : acall := Registers (use_static_to virtual_path dir_path).
  (** app.rs 118-120: [use_static]. *)
  Definition app_use_static (dir_path : str) : acall := Registers (use_static dir_path).

  (** One call: app.rs 55-120 on the router, 139-141 on the state. *)
  Definition run_acall (a : application) (c : acall) : upd application :=
    match c with
    | Registers o => let '(t, st) := run_op (app_router a) o in (MkApp t (app_data a), st)
    | SetState x => (MkApp (app_router a) (Some x), None)
    end.

  (** A sequence of calls; it ends at the first panic. *)
  Fixpoint run_acalls (a : application) (l : list acall) : upd application :=
    match l with
    | [] => (a, None)
    | c :: r => let '(a', st) := run_acall a c in
                match st with
                | Some p => (a', Some p)
                | None => run_acalls a' r
                end
    end.

  (** app.rs 28-42: [App::default]. *)
  Definition default_app (debug : bool) : application := fst (run_acall new_app (app_use_service (logger debug))).

  (** app.rs 143-147: [listen]: the server.  [ty] numbers the type of the app state. *)
  Definition listen (ty : N) (a : application) : service X U A :=
    Service (app_router a) (option_map (fun x => (ty, x)) (app_data a)).
End AppCalls.

Arguments application : clear implicits.
Arguments acall : clear implicits.
