(** Routing of any accepted calls, colons anywhere, in terms of the texts of paths:
    their segments without the slashes.  Nothing here refers to the trie except the
    type of lookup results, and [caught_table], which asks it which calls panic. *)

From Verif Require Import Base RouteTrie Router TableSpec.

Definition text (p : list str) : str := concat p.

(** The non-empty beginnings of a text, longest first. *)
Fixpoint starts_down (pre w : str) : list str :=
  match w with
  | [] => []
  | c :: r => starts_down (pre ++ [c]) r ++ [pre ++ [c]]
  end.

(** [a] is the beginning of [w]. *)
Fixpoint begins (a w : str) : bool :=
  match a, w with
  | [], _ => true
  | x :: a', y :: w' => if N.eqb x y then begins a' w' else false
  | _, _ => false
  end.

Section Texts.
  Context {H M : Type}.

  (** Routes and middlewares registered on a text, in order. *)
  Definition routes_on (T : table H M) (w : str) : list (method * H) :=
    flat_map (fun e : entry H M =>
                match snd e with
                | CRoute m h => if str_eqb (text (fst e)) w then [(m, h)] else []
                | _ => []
                end) T.
  Definition mws_on (T : table H M) (w : str) : list M :=
    flat_map (fun e : entry H M =>
                match snd e with
                | CMw m => if str_eqb (text (fst e)) w then [m] else []
                | _ => []
                end) T.

  (** The middlewares that apply to a text, in order: those of the root, then those of
      its beginnings, longest first. *)
  Definition text_mws (T : table H M) (w : str) : list M :=
    mws_on T [] ++ flat_map (mws_on T) (starts_down [] w).

  (** The middlewares registered on beginnings of a text, in registration order. *)
  Definition mws_along (T : table H M) (w : str) : list M :=
    flat_map (fun e : entry H M =>
                match snd e with
                | CMw m => if begins (text (fst e)) w then [m] else []
                | _ => []
                end) T.

  (** The result of a lookup that ends at a text: its routes, the middlewares that apply. *)
  Definition hands_out (T : table H M) (w : str) (r : route_result H M) : Prop :=
    rr_mws r = text_mws T w /\
    forall m, rr_get_route r m = option_map (Route m) (handler_for m (routes_on T w)).

  (** The table after a call that ended with [e].  A call that panicked registers nothing,
      except that a duplicate takes the place of the route it duplicates: it counts as
      registered before all others. *)
  Definition end_table (T : table H M) (o : op H M) (e : option panic) : table H M :=
    match e, o with
    | None, _ => after T o
    | Some PDuplicate, ORoute m path h => (segments path, CRoute m h) :: T
    | Some _, _ => T
    end.

  (** The table after calls whose panics are caught. *)
  Fixpoint caught_table (t : trie H M) (T : table H M) (l : list (op H M)) : table H M :=
    match l with
    | [] => T
    | o :: r => caught_table (fst (run_op t o)) (end_table T o (snd (run_op t o))) r
    end.
End Texts.
