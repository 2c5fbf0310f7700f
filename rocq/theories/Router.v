(** Model of src/router.rs (registration and lookup API) and of the registration
    part of src/app.rs, as histories of calls. *)

From Verif Require Import Base RouteTrie.

Section Router.
  Context {H M : Type}.

  (** A registration call on a [Router].  A mounted router is given by the calls
      that built it. *)
  Inductive op :=
  | ORoute (m : method) (path : str) (h : H)     (* router.rs 51-69, 109-113 *)
  | OServiceTo (path : str) (mw : M)             (* router.rs 72-74 *)
  | OService (mw : M)                            (* router.rs 77-79 *)
  | ORouter (path : str) (sub : list op).        (* router.rs 101-103 *)

  (** app.rs 90-95: [App::scope]: build a new router, mount it at "/name". *)
  Definition OScope (name : str) (sub : list op) : op := ORouter (c_slash :: name) sub.

  (** router.rs 51-103: the effect of one call on the trie of the router; a panic while the mounted
      router is being built happens before the outer router is touched. *)
  Fixpoint run_op (t : trie H M) (o : op) {struct o} : upd (trie H M) :=
    match o with
    | ORoute m path h => insert_route t path (Route m h)
    | OServiceTo path mw => insert_middleware t path mw
    | OService mw => insert_default_middleware t mw
    | ORouter path sub =>
        let '(src, st) :=
          (fix run_sub (t : trie H M) (l : list op) {struct l} : upd (trie H M) :=
             match l with
             | [] => (t, None)
             | o :: r => let '(t', st) := run_op t o in
                         match st with
                         | Some p => (t', Some p)
                         | None => run_sub t' r
                         end
             end) trie_new sub in
        match st with
        | Some p => (t, Some p)
        | None => insert_sub_route t path src
        end
    end.

  (** A sequence of calls (router.rs 51-103); it ends at the first panic. *)
  Fixpoint run_ops (t : trie H M) (l : list op) {struct l} : upd (trie H M) :=
    match l with
    | [] => (t, None)
    | o :: r => let '(t', st) := run_op t o in
                match st with
                | Some p => (t', Some p)
                | None => run_ops t' r
                end
    end.

  (** router.rs 45-49: [Router::new], followed by the calls [l]. *)
  Definition build (l : list op) : upd (trie H M) := run_ops trie_new l.
End Router.

Arguments op : clear implicits.
