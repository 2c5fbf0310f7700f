(** Structs as clients send them in a query or a form. *)

From Coq Require Import String ZArith.
From Verif Require Import Base Utf8 Form FormSpec.
Local Open Scope list_scope.

Section Sent.
  Context {F : Type} (parse_float : bool -> str -> F + str).

  (** A value that is one text.  (A float is any text that the type of the field reads as it.) *)
  Inductive sends_one : vty -> value F -> str -> Prop :=
  | so_int t z : in_range t z -> sends_one (TInt t) (VInt z) (written z)
  | so_true : sends_one TBool (VBool true) (lit "true")
  | so_false : sends_one TBool (VBool false) (lit "false")
  | so_float w f s : parse_float w s = inl f -> sends_one (TFloat w) (VFloat f) s
  | so_char c : sends_one TChar (VChar c) [c]
  | so_string s : sends_one TString (VString s) s
  | so_some t v s : sends_one t v s -> sends_one (TOption t) (VSome v) s
  | so_newtype t v s : sends_one t v s -> sends_one (TNewtype t) (VNewtype v) s.

  Inductive sends_each : list vty -> list (value F) -> list str -> Prop :=
  | se_nil : sends_each [] [] []
  | se_cons t ts v vs s l : sends_one t v s -> sends_each ts vs l -> sends_each (t :: ts) (v :: vs) (s :: l).

  (** The texts of a value: none for [None], one per element of a vector or tuple. *)
  Inductive sends : vty -> value F -> list str -> Prop :=
  | sd_one t v s : sends_one t v s -> sends t v [s]
  | sd_none t : sends (TOption t) VNone []
  | sd_some t v l : sends t v l -> sends (TOption t) (VSome v) l
  | sd_newtype t v l : sends t v l -> sends (TNewtype t) (VNewtype v) l
  | sd_vec t vs l : Forall2 (sends_one t) vs l -> sends (TVec t) (VSeq vs) l
  | sd_tuple ts vs l : sends_each ts vs l -> sends (TTuple ts) (VTuple vs) l.

  (** The texts sent with a name. *)
  Definition texts_of (k : str) (ps : list (str * str)) : list str :=
    map snd (filter (fun p => str_eqb k (fst p)) ps).

  (** The pairs [ps] are a struct with the fields [fs] and the values [vs]: for each field the texts of its value, in any
      order of the fields. *)
  Definition sent_as (fs : list (field F)) (vs : list (value F)) (ps : list (str * str)) : Prop :=
    Forall2 (fun f v => sends (f_type f) v (texts_of (f_name f) ps)) fs vs /\
    forall p, In p ps -> In (fst p) (map f_name fs).

  (** No text of the field is empty, and there is one; or there are only empty ones (or none) and the value is what the
      field gets then. *)
  Definition comes_back (ps : list (str * str)) (f : field F) (v : value F) : Prop :=
    (texts_of (f_name f) ps <> [] /\ forall s, In s (texts_of (f_name f) ps) -> s <> []) \/
    ((forall s, In s (texts_of (f_name f) ps) -> s = []) /\
     (f_default f = Some v \/ f_default f = None /\ v = VNone)).
End Sent.
