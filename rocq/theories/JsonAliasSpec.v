(** Specification of structs whose fields have several names, read from JSON. *)

From Coq Require Import String ZArith.
From Verif Require Import Base Http Form Json JsonSpec JsonAlias.
Local Open Scope list_scope.

Section JsonAlias.
  Context {F : Type}.

  (** [n] is a name of [f]: its own one or an alias. *)
  Definition jname_of (f : jafield F) (n : str) : Prop := n = ja_name f \/ In n (ja_aliases f).

  (** Fields have different own names, and no name in common. *)
  Definition jdifferent (fs : list (jafield F)) : Prop :=
    NoDup (map ja_name fs) /\ forall f g n, In f fs -> In g fs -> jname_of f n -> jname_of g n -> f = g.

  (** The same member under the own name of the field it names. *)
  Definition jrenamed (fs : list (jafield F)) (m m' : str * json) : Prop :=
    snd m' = snd m /\
    ((exists f, In f fs /\ jname_of f (fst m) /\ fst m' = ja_name f) \/
     ((forall f, In f fs -> ~ jname_of f (fst m)) /\ fst m' = fst m)).

  (** The struct without the aliases. *)
  Definition without_aliases (deny : bool) (fs : list (jafield F)) : jty F :=
    JTStruct deny (map (fun f => (ja_name f, ja_default f, ja_type f)) fs).
End JsonAlias.
