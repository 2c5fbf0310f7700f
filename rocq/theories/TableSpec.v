(** Specification of routing, without any reference to the trie.

    A router is specified by its table: the list of the registrations made so far,
    each a path (list of non-empty segments) with a content.  Paths are compared as
    token strings: a literal segment contributes its characters, [:name] one
    parameter token, [*] one star token.  Nothing marks the end of a segment: this
    is what the code does (two different paths can have the same token string), and
    what the properties that the code violates are about. *)

From Verif Require Import Base RouteTrie Router.

Inductive tok := Ch (c : char) | Par (name : str) | Star.

Definition is_par (t : tok) : Prop := exists n, t = Par n.

(** Tokens of one segment. *)
Definition seg_toks (s : str) : list tok :=
  match s with
  | [] => []
  | c :: r => if N.eqb c c_colon then [Par r]
              else if str_eqb s s_star then [Star]
              else map Ch s
  end.

(** Tokens of a path. *)
Definition flat (p : list str) : list tok := flat_map seg_toks p.

(** Characters by which a token is written. *)
Definition spell1 (t : tok) : str :=
  match t with Ch c => [c] | Par n => c_colon :: n | Star => [c_star] end.
Definition spell (ts : list tok) : str := flat_map spell1 ts.

Definition prefix {A} (a b : list A) : Prop := exists r, b = a ++ r.
Definition strict_prefix {A} (a b : list A) : Prop := exists x r, b = a ++ x :: r.

(** Two token strings part after [w]: they agree up to [w] and continue with
    different tokens [a] and [b]. *)
Definition part_at (x y w : list tok) (a b : tok) : Prop :=
  a <> b /\ prefix (w ++ [a]) x /\ prefix (w ++ [b]) y.

(** A '*' may only be a whole segment, the last one. *)
Definition star_ok (p : list str) : Prop :=
  forall i s, nth_error p i = Some s -> In c_star s -> s = s_star /\ S i = length p.

(** The first segment with a misplaced '*' decides the panic. *)
Definition star_panic (p : list str) (pn : panic) : Prop :=
  exists p0 s p1,
    p = p0 ++ s :: p1 /\ (forall x, In x p0 -> ~ In c_star x) /\ In c_star s /\
    ((s <> s_star /\ pn = PStarInName) \/ (s = s_star /\ p1 <> [] /\ pn = PStarNotLast)).

(** Colons only at the start of a segment. *)
Definition colon_ok (p : list str) : Prop :=
  forall s, In s p -> In c_colon s -> exists r, s = c_colon :: r.

(** Two paths are ambiguous: they part where one of them continues with a
    parameter. *)
Definition ambiguous (p q : list str) : Prop :=
  exists w a b, part_at (flat p) (flat q) w a b /\ (is_par a \/ is_par b).

Section Table.
  Context {H M : Type}.

  (** Content of a registration; [CNode] is the mount point of a router. *)
  Inductive content := CRoute (m : method) (h : H) | CMw (mw : M) | CNode.

  Definition entry := (list str * content)%type.
  Definition table := list entry.

  Definition tok_eq_dec : forall a b : tok, {a = b} + {a <> b}.
  Proof. repeat decide equality. Defined.
  Definition toks_eq_dec : forall a b : list tok, {a = b} + {a <> b} := list_eq_dec tok_eq_dec.

  (** Routes and middlewares registered at a token string, in order. *)
  Definition routes_at (T : table) (ts : list tok) : list (method * H) :=
    flat_map (fun e : entry =>
                match snd e with
                | CRoute m h => if toks_eq_dec (flat (fst e)) ts then [(m, h)] else []
                | _ => []
                end) T.
  Definition mws_at (T : table) (ts : list tok) : list M :=
    flat_map (fun e : entry =>
                match snd e with
                | CMw m => if toks_eq_dec (flat (fst e)) ts then [m] else []
                | _ => []
                end) T.

  (** Something is registered at [ts]. *)
  Definition has_value (T : table) (ts : list tok) : Prop :=
    routes_at T ts <> [] \/ mws_at T ts <> [].

  (** The token strings at which a request segment may end: the root, the end of
      each segment of each registered path, and the places where two registered
      paths part. *)
  Definition boundary (T : table) (ts : list tok) : Prop :=
    ts = []
    \/ (exists p c i, In (p, c) T /\ ts = flat (firstn i p))
    \/ (exists p c q d a b, In (p, c) T /\ In (q, d) T /\ part_at (flat p) (flat q) ts a b).

  (** ** Registration *)

  Definition unambiguous (T : table) (p : list str) : Prop :=
    forall q c, In (q, c) T -> ~ ambiguous p q.

  Definition with_prefix (p : list str) (S : table) : table :=
    map (fun e : entry => (p ++ fst e, snd e)) S.

  (** The table after a successful call. *)
  Fixpoint after (T : table) (o : op H M) {struct o} : table :=
    match o with
    | ORoute m path h => T ++ [(segments path, CRoute m h)]
    | OServiceTo path mw =>
        match segments path with
        | [] => T
        | p => T ++ [(p, CMw mw)]
        end
    | OService mw => T ++ [([], CMw mw)]
    | ORouter path sub =>
        let S := (fix afters (T : table) (l : list (op H M)) {struct l} : table :=
                    match l with [] => T | o :: r => afters (after T o) r end) [] sub in
        match segments path with
        | [] => S
        | p => T ++ (p, CNode) :: with_prefix p S
        end
    end.

  Fixpoint afters (T : table) (l : list (op H M)) : table :=
    match l with [] => T | o :: r => afters (after T o) r end.

  Definition table_of (l : list (op H M)) : table := afters [] l.

  (** When a call is accepted. *)
  Fixpoint accepted (T : table) (o : op H M) {struct o} : Prop :=
    match o with
    | ORoute m path _ =>
        let p := segments path in
        star_ok p /\ unambiguous T p /\
        ~ (exists h, In (m, h) (routes_at T (flat p)))
    | OServiceTo path _ =>
        let p := segments path in
        star_ok p /\ unambiguous T p
    | OService _ => True
    | ORouter path sub =>
        let p := segments path in
        (fix accs (T : table) (l : list (op H M)) {struct l} : Prop :=
           match l with [] => True | o :: r => accepted T o /\ accs (after T o) r end) [] sub
        /\ star_ok p
        /\ (p = [] \/
            (unambiguous T p /\ ~ has_value T (flat p) /\
             ~ exists q c, In (q, c) T /\ strict_prefix (flat p) (flat q)))
    end.

  Fixpoint all_accepted (T : table) (l : list (op H M)) : Prop :=
    match l with [] => True | o :: r => accepted T o /\ all_accepted (after T o) r end.

  (** The path of a call, and whether the router it mounts was built successfully. *)
  Definition op_path (o : op H M) : option str :=
    match o with
    | ORoute _ path _ | OServiceTo path _ | ORouter path _ => Some path
    | OService _ => None
    end.
  Definition sub_accepted (o : op H M) : Prop :=
    match o with ORouter _ sub => all_accepted [] sub | _ => True end.

  (** ** Rejected calls *)

  (** The first handler registered for [m] at [ts] replaced. *)
  Fixpoint overwrite (T : table) (ts : list tok) (m : method) (h : H) : table :=
    match T with
    | [] => []
    | (p, CRoute m' h') :: r =>
        if method_eqb m m' then
          if toks_eq_dec (flat p) ts then (p, CRoute m h) :: r
          else (p, CRoute m' h') :: overwrite r ts m h
        else (p, CRoute m' h') :: overwrite r ts m h
    | e :: r => e :: overwrite r ts m h
    end.

  (** [rejected T o pn T']: on the table [T] the call [o] is rejected with the panic
      [pn], and if the panic is caught the router then has the table [T'].  A
      rejected call can leave behind valueless nodes (entries [CNode]). *)
  Inductive rejected : table -> op H M -> panic -> table -> Prop :=
  | rj_sub T path sub l1 o l2 pn T' :
      sub = l1 ++ o :: l2 -> all_accepted [] l1 -> rejected (afters [] l1) o pn T' ->
      rejected T (ORouter path sub) pn T
  | rj_star T o path pn :
      op_path o = Some path -> sub_accepted o -> star_panic (segments path) pn ->
      rejected T o pn T
  | rj_ambiguous T o path i :
      op_path o = Some path -> sub_accepted o -> star_ok (segments path) ->
      i < length (segments path) ->
      unambiguous T (firstn i (segments path)) ->
      ~ unambiguous T (firstn (S i) (segments path)) ->
      rejected T o PAmbiguous (T ++ [(firstn i (segments path), CNode)])
  | rj_duplicate T m path h h0 :
      let p := segments path in
      star_ok p -> unambiguous T p -> In (m, h0) (routes_at T (flat p)) ->
      rejected T (ORoute m path h) PDuplicate (overwrite T (flat p) m h ++ [(p, CNode)])
  | rj_mount T path sub :
      let p := segments path in
      sub_accepted (ORouter path sub) -> p <> [] -> star_ok p -> unambiguous T p ->
      (has_value T (flat p) \/ exists q c, In (q, c) T /\ strict_prefix (flat p) (flat q)) ->
      rejected T (ORouter path sub) PMountConflict (T ++ [(p, CNode)]).

  (** ** Colons inside segments *)

  (** A ':' that is not the first character of its segment is an ordinary character,
      unless the trie gets a node that starts with it: the code then takes the rest of
      that node for a parameter.  A table is free of such cases if no boundary lies
      right before such a colon. *)
  Definition colons_apart (T : table) : Prop :=
    forall p c w r, In (p, c) T -> flat p = w ++ Ch c_colon :: r -> ~ boundary T w.

  (** The call [o] on the table [T] creates no such case. *)
  Fixpoint tidy (T : table) (o : op H M) {struct o} : Prop :=
    match o with
    | ORoute _ path _ | OServiceTo path _ => colons_apart (T ++ [(segments path, CNode)])
    | OService _ => True
    | ORouter path sub =>
        colons_apart (T ++ [(segments path, CNode)]) /\
        (fix all (T : table) (l : list (op H M)) {struct l} : Prop :=
           match l with [] => True | o :: r => tidy T o /\ all (after T o) r end) [] sub
    end.
  Fixpoint all_tidy (T : table) (l : list (op H M)) : Prop :=
    match l with [] => True | o :: r => tidy T o /\ all_tidy (after T o) r end.

  (** A simple sufficient condition: all the paths used by a history have their colons
      at the start of segments. *)
  Fixpoint clean (o : op H M) : Prop :=
    match o with
    | ORoute _ path _ | OServiceTo path _ => colon_ok (segments path)
    | OService _ => True
    | ORouter path sub =>
        colon_ok (segments path) /\
        (fix all (l : list (op H M)) : Prop :=
           match l with [] => True | o :: r => clean o /\ all r end) sub
    end.
  Definition all_clean (l : list (op H M)) : Prop := Forall clean l.

  (** ** Resolution of a request *)

  (** [reads T pre R ts ps]: after the tokens [pre], the request segments [R] can be
      read as the tokens [ts], binding the parameters [ps] (in path order).  A
      segment is read either as a parameter token, or literally, starting with a
      character.  Each segment must end at a boundary of the table. *)
  Inductive reads (T : table) : list tok -> list str -> list tok -> list (str * str) -> Prop :=
  | rd_nil pre : reads T pre [] [] []
  | rd_lit pre c us R ts ps :
      boundary T (pre ++ Ch c :: us) ->
      reads T (pre ++ Ch c :: us) R ts ps ->
      reads T pre (spell (Ch c :: us) :: R) ((Ch c :: us) ++ ts) ps
  | rd_par pre n s R ts ps :
      boundary T (pre ++ [Par n]) ->
      reads T (pre ++ [Par n]) R ts ps ->
      reads T pre (s :: R) (Par n :: ts) ((n, s) :: ps).

  (** The whole request is read up to a registration. *)
  Definition exact_hit (T : table) (R : list str) (ts : list tok) (ps : list (str * str)) : Prop :=
    reads T [] R ts ps /\ has_value T ts.

  (** The whole request is read, its last segment literally, nothing is registered
      there, but a wildcard is registered right below. *)
  Definition below_hit (T : table) (R : list str) (ts : list tok) (ps : list (str * str)) : Prop :=
    exists R0 ts0 c us,
      R = R0 ++ [spell (Ch c :: us)] /\
      reads T [] R0 ts0 ps /\
      boundary T (ts0 ++ Ch c :: us) /\
      ~ has_value T (ts0 ++ Ch c :: us) /\
      ts = (ts0 ++ Ch c :: us) ++ [Star] /\
      has_value T ts.

  (** The first [k] segments are read up to a place with a wildcard below; at least
      one segment remains. *)
  Definition wild_hit (T : table) (R : list str) (k : nat) (ts : list tok) (ps : list (str * str)) : Prop :=
    k < length R /\
    exists ts0, reads T [] (firstn k R) ts0 ps /\ ts = ts0 ++ [Star] /\ boundary T ts.

  (** The registration that answers the request segments [R]. *)
  Inductive resolves (T : table) (R : list str) (ts : list tok) (ps : list (str * str)) : Prop :=
  | res_exact : exact_hit T R ts ps -> resolves T R ts ps
  | res_below : below_hit T R ts ps -> resolves T R ts ps
  | res_wild k :
      wild_hit T R k ts ps -> has_value T ts ->
      (forall ts' ps', ~ exact_hit T R ts' ps') ->
      (forall ts' ps', ~ below_hit T R ts' ps') ->
      (forall k' ts' ps', wild_hit T R k' ts' ps' -> k' <= k) ->
      resolves T R ts ps.

  (** The non-empty prefixes of a token string, longest first. *)
  Fixpoint prefixes_down (pre ts : list tok) : list (list tok) :=
    match ts with
    | [] => []
    | t :: r => prefixes_down (pre ++ [t]) r ++ [pre ++ [t]]
    end.

  (** The middlewares that apply to [ts], in order: root, then longest prefix first. *)
  Definition mws_for (T : table) (ts : list tok) : list M :=
    mws_at T [] ++ flat_map (mws_at T) (prefixes_down [] ts).

  (** The value a parameter list gives to a name: the leftmost binding. *)
  Fixpoint first_binding (ps : list (str * str)) (n : str) : option str :=
    match ps with
    | [] => None
    | (k, v) :: r => if str_eqb n k then Some v else first_binding r n
    end.

  (** First handler registered for a method in a list of routes. *)
  Fixpoint handler_for (m : method) (l : list (method * H)) : option H :=
    match l with
    | [] => None
    | (m', h) :: r => if method_eqb m m' then Some h else handler_for m r
    end.
End Table.

Arguments content : clear implicits.
Arguments entry : clear implicits.
Arguments table : clear implicits.
