(** What the Logger adds to the run of what follows it. *)

From Verif Require Import Base RouteTrie Router Http App AppSpec.

Section Log.
  Context {X U A : Type}.
  Notation outcome := (outcome (result X)).
  Notation event := (event U A).

  (** The lines printed on the way in. *)
  Definition log_before (debug : bool) (c : context X) : list event :=
    EvPrint (LRequest (rq_method (ctx_request c)) (rq_path (ctx_request c)) (rq_query (ctx_request c))) ::
    (if debug then [EvPrint LDebug] else []).

  (** [log_after o0 lines o]: what follows ends with [o0]; the lines printed then, and how
      the Logger itself ends. *)
  Inductive log_after : outcome -> list event -> outcome -> Prop :=
  | la_sent c r : ctx_response c = Some r -> log_after (Value (inl c)) [EvPrint (LSent (res_status r))] (Value (inl c))
  | la_error e : log_after (Value (inr e)) [EvPrint (LError (error_text e))] (Value (inr e))
  | la_none c : ctx_response c = None -> log_after (Value (inl c)) [] (Panicked PUnwrapNone)
  | la_panic p : log_after (Panicked p) [] (Panicked p).
End Log.
