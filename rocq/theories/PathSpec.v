(** Specification of paths as pieces between slashes, independent of [segments] and
    [join_slash] of [Base]. *)

From Verif Require Import Base.

(** The non-empty pieces between the slashes of a path. *)
Inductive pieces : str -> list str -> Prop :=
| pc_end : pieces [] []
| pc_slash r l : pieces r l -> pieces (47%N :: r) l
| pc_last a : a <> [] -> ~ In 47%N a -> pieces a [a]
| pc_more a r l : a <> [] -> ~ In 47%N a -> pieces r l -> pieces (a ++ 47%N :: r) (a :: l).

(** Pieces with one slash between any two of them. *)
Inductive joined : list str -> str -> Prop :=
| jn_one a : joined [a] a
| jn_more a l s : joined l s -> joined (a :: l) (a ++ 47%N :: s).
