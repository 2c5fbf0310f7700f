(** Specification of enums with a tag and a content, read from query and form data. *)

From Coq Require Import String ZArith.
From Verif Require Import Base Utf8 AppSpec Http Form FormSpec Adjacent.
Local Open Scope list_scope.

(** What a handler gets. *)
Definition adjacent_from {F X} (pf : bool -> str -> F + str) msg it1 it2 (src : source) (aj : adjacent) (c : context X)
  : ((str * option (value F)) + panic) + oerror :=
  match src with
  | FromQuery => ctx_query_adjacent pf msg aj it1 it2 c
  | FromBody => fst (ctx_form_adjacent pf msg aj it1 it2 c)
  end.

(** Two different keys, different names. *)
Definition sound_enum (aj : adjacent) : Prop :=
  aj_tag aj <> aj_key aj /\ NoDup (map va_name (aj_variants aj)).

(** The first value of the tag names [v]. *)
Definition tagged (aj : adjacent) (ps : list (str * str)) (v : variant) : Prop :=
  In v (aj_variants aj) /\ exists rest, values_of (aj_tag aj) ps = va_name v :: rest.

(** No other keys than these two, if others are denied. *)
Definition admitted (aj : adjacent) (ps : list (str * str)) : Prop :=
  aj_deny aj = true -> forall k, values_of k ps <> [] -> k = aj_tag aj \/ k = aj_key aj.

Section Adjacent.
  Context {F : Type} (pf : bool -> str -> F + str).

  (** The value meant: a variant and the reading of its content. *)
  Inductive meant (aj : adjacent) (ps : list (str * str)) : str * option (value F) -> Prop :=
  | me_unit n : tagged aj ps (Variant n None) -> values_of (aj_key aj) ps = [] -> meant aj ps (n, None)
  | me_none n t : tagged aj ps (Variant n (Some (TOption t))) -> values_of (aj_key aj) ps = [] ->
      meant aj ps (n, Some VNone)
  | me_some n t x : tagged aj ps (Variant n (Some t)) -> values_of (aj_key aj) ps <> [] ->
      gives pf t (values_of (aj_key aj) ps) x -> meant aj ps (n, Some x).

  (** The value obtained if the content comes before the tag: its first text, unparsed. *)
  Inductive unparsed (aj : adjacent) (ps : list (str * str)) : str * option (value F) -> Prop :=
  | un_some n t s rest x : tagged aj ps (Variant n (Some t)) -> values_of (aj_key aj) ps = s :: rest ->
      plain t s x -> unparsed aj ps (n, Some x).
End Adjacent.

(** The content of every variant is a text (or there is none). *)
Definition text_contents (aj : adjacent) : Prop :=
  forall v t, In v (aj_variants aj) -> va_content v = Some t -> text_type t.
