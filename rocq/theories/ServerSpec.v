(** What connections do, seen one at a time.  Nothing here refers to the states and
    steps of [Server]; [serve] is the handling of a single request on its own. *)

From Verif Require Import Base RouteTrie Router Http App AppSpec Server.
Local Open Scope list_scope.

Section Spec.
  Context {X U A : Type}.
  Notation label := (label X U A).

  (** The steps of connection [i] in a log. *)
  Definition own (i : nat) (log : list (nat * label)) : list label :=
    flat_map (fun x => if Nat.eqb (fst x) i then [snd x] else []) log.

  (** [starts_with c tr]: some run of [c] has done [tr] so far. *)
  Inductive starts_with {T} : comp U A T -> list (event U A) -> Prop :=
  | sw_nil c : starts_with c []
  | sw_print l k tr : starts_with k tr -> starts_with (Print l k) (EvPrint l :: tr)
  | sw_read path k res tr : starts_with (k res) tr -> starts_with (Read path k) (EvRead path res :: tr)
  | sw_ask u k a tr : starts_with (k a) tr -> starts_with (Ask u k) (EvAsk u a :: tr).

  (** A sequence of requests, each handled on its own from beginning to end; the last
      may be unfinished, dropped, or end in a panic. *)
  Inductive exchanges (srv : request X -> comp U A http_response) : list label -> Prop :=
  | xc_idle : exchanges srv []
  | xc_gone : exchanges srv [Disconnect]
  | xc_answered rq tr r rest : runs (srv rq) tr (Value r) -> exchanges srv rest ->
      exchanges srv (Receive rq :: map Act tr ++ Answer r :: rest)
  | xc_panicked rq tr p : runs (srv rq) tr (Panicked p) ->
      exchanges srv (Receive rq :: map Act tr ++ [Break p])
  | xc_dropped rq tr : starts_with (srv rq) tr -> exchanges srv (Receive rq :: map Act tr ++ [Disconnect])
  | xc_unfinished rq tr : starts_with (srv rq) tr -> exchanges srv (Receive rq :: map Act tr).

  Definition conversation (srv : request X -> comp U A http_response) (l : list label) : Prop :=
    l = [] \/ exists l', l = Accept :: l' /\ exchanges srv l'.

  (** On connection [i] request [rq], after [tr], got response [r]. *)
  Definition answered (i : nat) (rq : request X) (tr : list (event U A)) (r : http_response)
      (log : list (nat * label)) : Prop :=
    exists before after, own i log = before ++ Receive rq :: map Act tr ++ Answer r :: after.

  (** Files do not change, and the same question gets the same answer. *)
  Definition constant (files : str -> str + str) (answers : U -> A) (log : list (nat * label)) : Prop :=
    (forall i path res, In (i, Act (EvRead path res)) log -> res = files path) /\
    (forall i u a, In (i, Act (EvAsk u a)) log -> a = answers u).

  (** On connection [i] request [rq] has been received, has done [tr], and is not
      finished. *)
  Definition in_flight (i : nat) (rq : request X) (tr : list (event U A)) (log : list (nat * label)) : Prop :=
    exists before, own i log = before ++ Receive rq :: map Act tr.

  (** The end of a request: a response, a panic, or nobody left to answer. *)
  Definition final (l : label) : Prop :=
    (exists r, l = Answer r) \/ (exists p, l = Break p) \/ l = Disconnect.

  (** Connection [i] is never forgotten. *)
  Definition fair (i : nat) (ev : nat -> nat * label) : Prop :=
    forall n, exists m, n <= m /\ fst (ev m) = i.
End Spec.
