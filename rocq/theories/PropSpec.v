(** Vocabulary of the property statements about routing.  Nothing here refers to
    the trie except the type of lookup results. *)

From Verif Require Import Base RouteTrie Router TableSpec.

(** A segment that is neither a parameter nor the wildcard. *)
Definition literal_seg (s : str) : Prop := s <> s_star /\ ~ exists r, s = c_colon :: r.
Definition literal (p : list str) : Prop := forall s, In s p -> literal_seg s.

(** No wildcard segment. *)
Definition no_star (p : list str) : Prop := ~ In s_star p.

(** No parameter segment. *)
Definition no_par (p : list str) : Prop := forall s, In s p -> ~ exists r, s = c_colon :: r.

(** The usual reading of route paths: [seg_match p R b]: the request segments [R]
    match the path [p] segment by segment, with parameter values [b]. *)
Inductive seg_match : list str -> list str -> list (str * str) -> Prop :=
| sm_nil : seg_match [] [] []
| sm_lit s p R b : literal_seg s -> seg_match p R b -> seg_match (s :: p) (s :: R) b
| sm_par n s p R b : seg_match p R b -> seg_match ((c_colon :: n) :: p) (s :: R) ((n, s) :: b)
| sm_star R : R <> [] -> seg_match [s_star] R [].

(** Matching up to slashes: a request segment is absorbed by one parameter, or is
    the text of some consecutive pieces of the path. *)
Inductive loose_match : list tok -> list str -> list (str * str) -> Prop :=
| lm_nil : loose_match [] [] []
| lm_lit c us ts R b : loose_match ts R b -> loose_match ((Ch c :: us) ++ ts) (spell (Ch c :: us) :: R) b
| lm_par n s ts R b : loose_match ts R b -> loose_match (Par n :: ts) (s :: R) ((n, s) :: b)
| lm_star R : loose_match [Star] R [].

(** Two ways of writing a path that differ only by redundant slashes. *)
Inductive same_path : str -> str -> Prop :=
| sp_refl a : same_path a a
| sp_sym a b : same_path a b -> same_path b a
| sp_trans a b c : same_path a b -> same_path b c -> same_path a c
| sp_lead a : same_path (c_slash :: a) a
| sp_trail a : same_path (a ++ [c_slash]) a
| sp_double a b : same_path (a ++ c_slash :: c_slash :: b) (a ++ c_slash :: b).

Section Spec.
  Context {H M : Type}.

  (** The router [t] is the result of the successful calls [l], none of which creates
      a boundary right before a colon inside a segment. *)
  Definition built (l : list (op H M)) (t : trie H M) : Prop :=
    all_tidy [] l /\ build l = (t, None).

  (** What the calls [l] have registered. *)
  Definition registered (l : list (op H M)) (p : list str) (c : content H M) : Prop :=
    In (p, c) (table_of l).

  (** The result of a lookup that ends at [ts] with parameters [ps]. *)
  Definition delivers (T : table H M) (ts : list tok) (ps : list (str * str))
    (r : route_result H M) : Prop :=
    rr_mws r = mws_for T ts /\
    (forall m, rr_get_route r m = option_map (Route m) (handler_for m (routes_at T ts))) /\
    (forall n, pget n (rr_params r) = first_binding ps n).

  (** Two lookup results that no user can tell apart. *)
  Definition same_result (a b : route_result H M) : Prop :=
    rr_mws a = rr_mws b /\
    (forall m, rr_get_route a m = rr_get_route b m) /\
    (forall n, pget n (rr_params a) = pget n (rr_params b)).
  Definition same_lookup (a b : lookup H M) : Prop :=
    match a, b with
    | LNone, LNone => True
    | LSome x, LSome y => same_result x y
    | _, _ => False
    end.

  (** No router mounted at a path ending in '*'. *)
  Definition no_star_mount (l : list (op H M)) : Prop :=
    forall p, registered l p CNode -> no_star p.

  Definition root_mount (o : op H M) : Prop :=
    exists path sub, o = ORouter path sub /\ segments path = [].

  (** No router mounted at "/" by the calls [l]. *)
  Definition no_root_mount (l : list (op H M)) : Prop := forall o, In o l -> ~ root_mount o.

  (** The call registers a handler for [m] at the path text of [p]. *)
  Definition same_route (o : op H M) (p : list str) (m : method) : Prop :=
    exists path h, o = ORoute m path h /\ flat (segments path) = flat p.

  Definition not_router (o : op H M) : Prop :=
    match o with ORouter _ _ => False | _ => True end.

  (** At most one middleware on each path text. *)
  Definition single_mws (l : list (op H M)) : Prop :=
    forall ts, length (mws_at (table_of l) ts) <= 1.

  (** The calls that register directly what a router built by [o] and mounted at
      [path] would register.  ([use_service_to] with a root path registers nothing.) *)
  Definition under (path : str) (o : op H M) : list (op H M) :=
    match o with
    | ORoute m q h => [ORoute m (path ++ c_slash :: q) h]
    | OServiceTo q mw =>
        match segments q with
        | [] => []
        | _ => [OServiceTo (path ++ c_slash :: q) mw]
        end
    | OService mw => [OServiceTo path mw]
    | ORouter q sub => [ORouter (path ++ c_slash :: q) sub]
    end.

  (** The calls that count: mounting a router at the root puts its calls in the place of
      all those before. *)
  Fixpoint replaces (o : op H M) : option (list (op H M)) :=
    match o with
    | ORouter path sub =>
        match segments path with
        | [] => Some ((fix count (before l : list (op H M)) {struct l} : list (op H M) :=
                         match l with
                         | [] => before
                         | o :: r => count (match replaces o with Some k => k | None => before ++ [o] end) r
                         end) [] sub)
        | _ => None
        end
    | _ => None
    end.
  Fixpoint counting_from (before l : list (op H M)) : list (op H M) :=
    match l with
    | [] => before
    | o :: r => counting_from (match replaces o with Some k => k | None => before ++ [o] end) r
    end.
  Definition counting (l : list (op H M)) : list (op H M) := counting_from [] l.

  (** All the calls, panics being caught and ignored. *)
  Fixpoint run_caught (t : trie H M) (l : list (op H M)) : trie H M :=
    match l with [] => t | o :: r => run_caught (fst (run_op t o)) r end.

  (** The table then: accepted calls count, rejected ones may leave nodes behind. *)
  Inductive caught : table H M -> list (op H M) -> table H M -> Prop :=
  | ca_nil T : caught T [] T
  | ca_ok T o l U : tidy T o -> accepted T o -> caught (after T o) l U -> caught T (o :: l) U
  | ca_rej T o l pn T' U : tidy T o -> ~ accepted T o -> rejected T o pn T' -> caught T' l U -> caught T (o :: l) U.

  (** The middlewares registered on prefixes of [ts], in registration order. *)
  Fixpoint is_prefix (a b : list tok) : bool :=
    match a, b with
    | [], _ => true
    | x :: a', y :: b' => if tok_eq_dec x y then is_prefix a' b' else false
    | _, _ => false
    end.
  Definition mws_on_prefix (T : table H M) (ts : list tok) : list M :=
    flat_map (fun e : entry H M =>
                match snd e with
                | CMw m => if is_prefix (flat (fst e)) ts then [m] else []
                | _ => []
                end) T.
End Spec.
