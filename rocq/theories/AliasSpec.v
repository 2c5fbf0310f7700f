(** Specification of structs whose fields have several names, read from query and form data. *)

From Coq Require Import String ZArith.
From Verif Require Import Base Utf8 AppSpec Http Form FormSpec Alias.
Local Open Scope list_scope.

(** What a handler gets. *)
Definition alias_from {F X} (pf : bool -> str -> F + str) msg it1 it2 (src : source) (fs : list (afield F)) (deny : bool)
  (c : context X) : (tvalue F + panic) + oerror :=
  match src with
  | FromQuery => ctx_query_alias pf msg it1 it2 fs deny c
  | FromBody => fst (ctx_form_alias pf msg it1 it2 fs deny c)
  end.

Section Alias.
  Context {F : Type} (pf : bool -> str -> F + str).

  (** [n] is a name of [f]: its own one or an alias. *)
  Definition name_of (f : afield F) (n : str) : Prop := n = f_name (a_field f) \/ In n (a_aliases f).

  (** Fields have different own names, and no name in common. *)
  Definition different (fs : list (afield F)) : Prop :=
    NoDup (map (fun f => f_name (a_field f)) fs) /\
    forall f g n, In f fs -> In g fs -> name_of f n -> name_of g n -> f = g.

  (** The data have values for [k]. *)
  Definition present (ps : list (str * str)) (k : str) : Prop := values_of k ps <> [].

  (** The value of a field: from the values of the only one of its names in the data, or
      the default if none is there. *)
  Definition alias_value (ps : list (str * str)) (f : afield F) (v : value F) : Prop :=
    (exists n, name_of f n /\ present ps n /\ (forall n', name_of f n' -> present ps n' -> n' = n) /\
       gives pf (f_type (a_field f)) (values_of n ps) v) \/
    ((forall n, name_of f n -> ~ present ps n) /\
     (f_default (a_field f) = Some v \/
      f_default (a_field f) = None /\ (exists t, f_type (a_field f) = TOption t) /\ v = VNone)).

  (** A pair, and the same one with its key replaced by the own name of the field it names. *)
  Definition renamed (fs : list (afield F)) (p p' : str * str) : Prop :=
    snd p' = snd p /\
    ((exists f, In f fs /\ name_of f (fst p) /\ fst p' = f_name (a_field f)) \/
     ((forall f, In f fs -> ~ name_of f (fst p)) /\ fst p' = fst p)).

  (** [f] is given under two names. *)
  Definition twice (ps : list (str * str)) (f : afield F) : Prop :=
    exists n n', name_of f n /\ name_of f n' /\ n <> n' /\ present ps n /\ present ps n'.
End Alias.
