(** Sizes of sequences of registration calls. *)

From Verif Require Import Base RouteTrie Router.

Section Sizes.
  Context {H M : Type}.

  (** The calls, with those that build mounted routers. *)
  Fixpoint calls_in (o : op H M) : nat :=
    match o with
    | ORouter _ sub => S (list_sum (map calls_in sub))
    | _ => 1
    end.
  Definition calls (l : list (op H M)) : nat := list_sum (map calls_in l).

  (** The segments of all paths given to the calls. *)
  Fixpoint pieces_in (o : op H M) : nat :=
    match o with
    | ORoute _ path _ | OServiceTo path _ => length (segments path)
    | OService _ => 0
    | ORouter path sub => length (segments path) + list_sum (map pieces_in sub)
    end.
  Definition pieces (l : list (op H M)) : nat := list_sum (map pieces_in l).

  (** The length of the longest path, with those of the routers it is mounted in. *)
  Fixpoint longest_in (o : op H M) : nat :=
    match o with
    | ORoute _ path _ | OServiceTo path _ => length path
    | OService _ => 0
    | ORouter path sub => length path + list_max (map longest_in sub)
    end.
  Definition longest (l : list (op H M)) : nat := list_max (map longest_in l).
End Sizes.
