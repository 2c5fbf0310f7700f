(** The requests answered by a router with a single route. *)

From Verif Require Import Base TableSpec PropSpec.

(** [joined p R b]: the request segments [R] are the segments of the path [p], with
    parameter values [b], where slashes may be left out after a literal segment: a
    request segment may be several consecutive segments of [p] written together, the
    first of them literal (the others are then taken as they are written, also
    parameters and the wildcard). *)
Inductive joined : list str -> list str -> list (str * str) -> Prop :=
| jn_nil : joined [] [] []
| jn_lit s g p R b : literal_seg s -> joined p R b -> joined ((s :: g) ++ p) (concat (s :: g) :: R) b
| jn_par n s p R b : joined p R b -> joined ((c_colon :: n) :: p) (s :: R) ((n, s) :: b).

(** A path [q/*] is also answered for what is below [q], and for [q] itself if its last
    request segment is read literally. *)
Inductive alone : list str -> list str -> list (str * str) -> Prop :=
| al_path p R b : joined p R b -> alone p R b
| al_bare q s g R b : joined q R b -> literal_seg s -> alone (q ++ (s :: g) ++ [s_star]) (R ++ [concat (s :: g)]) b
| al_below q R x R' b : joined q R b -> alone (q ++ [s_star]) (R ++ x :: R') b.
