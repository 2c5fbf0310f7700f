(** What the panic of a rejected registration says, in terms of the paths registered before
    ([TableSpec], [TextSpec]).  Nothing here refers to the trie, except that a mounted router
    counts as rejected when one of the calls that build it panics. *)

From Coq Require Import String.
From Verif Require Import Base RouteTrie Router TableSpec TextSpec WireSpec.
Local Open Scope string_scope.
Local Open Scope list_scope.

(** How a method is written. *)
Definition shows (m : method) (s : str) : Prop := In (s, m) known_methods \/ m = EXT s.

Section Message.
  Context {H M : Type}.
  Notation op := (op H M).
  Notation table := (table H M).

  (** A text where the paths of a table branch or a segment of one of them ends. *)
  Definition cut (T : table) (w : str) : Prop :=
    (exists q c i, In (q, c) T /\ w = text (firstn i q)) \/
    (exists q c q' c' x r x' r', In (q, c) T /\ In (q', c') T /\ text q = w ++ x :: r /\ text q' = w ++ x' :: r' /\ x <> x').

  (** From the text [w] the paths of the table lead over [b] to the next such place. *)
  Definition next_cut (T : table) (w b : str) : Prop :=
    b <> [] /\ cut T (w ++ b) /\ forall z y, b = z ++ y -> z <> [] -> y <> [] -> ~ cut T (w ++ z).

  (** The path [p] clashes: its segment [v ++ a], after the segments [p0], has [v] in common
      with the paths registered; it goes on with [a] to the end of the segment, paths
      registered go on with [b], and one of the two is a parameter. *)
  Definition clashes (T : table) (p : list str) (a b : str) : Prop :=
    exists p0 v p1, p = p0 ++ (v ++ a) :: p1 /\ a <> [] /\ a <> b /\
      (v = [] \/ cut T (text p0 ++ v)) /\ next_cut T (text p0 ++ v) b /\
      ((exists r, a = c_colon :: r) \/ (exists r, b = c_colon :: r)).

  (** How each kind of call starts the report of a clash. *)
  Definition opening (o : op) : str :=
    match o with
    | ORoute _ _ _ => lit "Insert Route: "
    | OServiceTo _ _ | OService _ => lit "Middleware: "
    | ORouter _ _ => lit "SubRouter: "
    end.

  (** The router mounted by the call could be built. *)
  Definition sub_built (o : op) : Prop :=
    match o with ORouter _ sub => snd (build sub) = None | _ => True end.

  (** [says T o pn m]: after registrations with table [T] the call [o] may be rejected, for
      the reason [pn], saying [m]. *)
  Inductive says : table -> op -> panic -> str -> Prop :=
  | say_inner T path pre o post pn m : snd (build pre) = None -> snd (build (pre ++ [o])) = Some pn -> says (table_of pre) o pn m ->
      says T (ORouter path (pre ++ o :: post)) pn m
  | say_name T o path : op_path o = Some path -> sub_built o -> star_panic (segments path) PStarInName ->
      says T o PStarInName (lit "ERROR: Consisting * in route name at: " ++ path)
  | say_last T o path : op_path o = Some path -> sub_built o -> star_panic (segments path) PStarNotLast ->
      says T o PStarNotLast (lit "ERROR: * must be in the last at: " ++ path)
  | say_clash T o path a b : op_path o = Some path -> sub_built o -> clashes T (segments path) a b ->
      says T o PAmbiguous (opening o ++ lit "ERROR: Ambigous definition between " ++ a ++ lit " and " ++ b ++ lit " at " ++ path)
  | say_twice T m s path h q h0 : segments path <> [] -> shows m s -> In (q, CRoute m h0) T -> text q = text (segments path) ->
      says T (ORoute m path h) PDuplicate (lit "Duplicated route method '" ++ s ++ lit "' at '" ++ path ++ lit "' detected")
  | say_root T m s path h q h0 : segments path = [] -> shows m s -> In (q, CRoute m h0) T -> text q = [] ->
      says T (ORoute m path h) PDuplicate (lit "Duplicated route method '" ++ s ++ lit "' at '/' detected")
  | say_mount T path sub q c : snd (build sub) = None -> segments path <> [] -> In (q, c) T ->
      (text q = text (segments path) /\ c <> CNode \/ strict_prefix (text (segments path)) (text q)) ->
      says T (ORouter path sub) PMountConflict
        (lit "There is conflict between main router and sub router at '" ++ path ++
         lit "'. Make sure main router does not consist any routing data in '" ++ path ++ lit "'.").

  (** Apart from clashes, the place of a call is free. *)
  Definition free (T : table) (o : op) : Prop :=
    match o with
    | ORoute m path _ => star_ok (segments path) /\ ~ exists q h0, In (q, CRoute m h0) T /\ text q = text (segments path)
    | OServiceTo path _ => star_ok (segments path)
    | OService _ => True
    | ORouter path sub => snd (build sub) = None /\ star_ok (segments path) /\
        (segments path = [] \/
         ~ exists q c, In (q, c) T /\ (text q = text (segments path) /\ c <> CNode \/ strict_prefix (text (segments path)) (text q)))
    end.

  (** Apart from clashes, the call is rejected for the reason [pn]: that of the first call
      rejected while the mounted router is built; the first misplaced '*'; a place that is taken. *)
  Definition denied (T : table) (o : op) (pn : panic) : Prop :=
    match o with
    | ORoute m path _ => star_panic (segments path) pn \/
        star_ok (segments path) /\ pn = PDuplicate /\ exists q h0, In (q, CRoute m h0) T /\ text q = text (segments path)
    | OServiceTo path _ => star_panic (segments path) pn
    | OService _ => False
    | ORouter path sub => snd (build sub) = Some pn \/ snd (build sub) = None /\
        (star_panic (segments path) pn \/
         star_ok (segments path) /\ pn = PMountConflict /\ segments path <> [] /\
         exists q c, In (q, c) T /\ (text q = text (segments path) /\ c <> CNode \/ strict_prefix (text (segments path)) (text q)))
    end.
End Message.
