(** The small programs of /repo/examples served by the model: what a client of each gets
    for the request the program is made for.  Tests of the model, not proofs. *)

From Coq Require Import String.
From Verif Require Import Base Utf8 RouteTrie Router Http App AppSpec Server AppCalls.
Local Open Scope string_scope.
Local Open Scope list_scope.

(** The app made by the calls [l], asked for [GET path], runs to the response [r]
    without any file or user action. *)
Definition answers_get {X : Type} (ty : N) (l : list (acall X unit unit)) (path : str) (r : http_response) : Prop :=
  match run_acalls new_app l with
  | (a, None) => runs (call_service (make_service (listen ty a)) (Request GET path None [] [] body_empty)) [] (Value r)
  | _ => False
  end.

Definition plain (s : str) : http_response :=
  HttpResponse 200%N [(lit "content-type", lit "text/plain; charset=utf-8")] (Body [utf8 s] false).

(** examples/hello.rs 7 and hello_handler.rs 3-5, 11. *)
Definition hello_world : handler unit unit unit := fun c => Ret (b_ok (build_res c (RStatic (lit "Hello World")))).

Example hello : answers_get 0%N [app_get (lit "/") hello_world] (lit "/") (plain (lit "Hello World")).
Proof. vm_compute. apply run_ret. Qed.

(** examples/json.rs 4-14, 20. *)
Definition get_user : handler unit unit unit := fun c => Ret (b_ok (build_json c (inl (lit "{""name"":""Obsidian""}")))).

Example json_user : answers_get 0%N [app_get (lit "/user") get_user] (lit "/user")
  (HttpResponse 200%N [(lit "content-type", lit "application/json")] (Body [utf8 (lit "{""name"":""Obsidian""}")] false)).
Proof. vm_compute. apply run_ret. Qed.

(** examples/app_state.rs 12-25; the state is the string. *)
Definition with_state : handler str unit unit := fun c =>
  Ret (match ctx_get 7%N c with
       | None => inr ENone
       | Some s => b_ok (build_res c (ROptString (Some (lit "connection string: " ++ s))))
       end).

Example app_state : answers_get 7%N [SetState (lit "localhost:1433"); app_get (lit "/") with_state] (lit "/")
  (plain (lit "connection string: localhost:1433")).
Proof. vm_compute. apply run_ret. Qed.

(** Without the call of [set_app_state] the client is told. *)
Example app_without_state : answers_get 7%N [app_get (lit "/") with_state] (lit "/")
  (HttpResponse 500%N [] (Body [utf8 (lit "Input should not be None")] false)).
Proof. vm_compute. apply run_ret. Qed.
