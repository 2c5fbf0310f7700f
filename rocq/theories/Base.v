(** Basic data used by every part of the model: Rust strings, byte slicing,
    splitting, and hash maps.

    A Rust [String]/[&str] is modelled as the list of its Unicode scalar values
    ([char]s); [len()] is the UTF-8 byte length, and slicing by byte offsets
    fails (a Rust panic) when the offset is not on a character boundary or is
    out of range.  (std library behaviour, part of the trusted base.) *)

From Coq Require Export NArith Arith Lia Bool Permutation.
From Coq Require Import String Ascii.
From Coq Require Export List.
Export ListNotations.

(** [char]: a Unicode scalar value (std). *)
Definition char := N.
(** [String], [&str] (std). *)
Definition str := list char.

(** String literals for examples. *)
Definition lit (s : string) : str := map N_of_ascii (list_ascii_of_string s).

(** The characters the router looks for (route_trie.rs 87, 90, 323, 405). *)
Definition c_slash : char := 47%N.   (* '/' *)
Definition c_colon : char := 58%N.   (* ':' *)
Definition c_star  : char := 42%N.   (* '*' *)
Definition c_space : char := 32%N.   (* ' ' *)

(** The wildcard segment (route_trie.rs 335, 499, 543). *)
Definition s_star : str := [c_star].

(** [==] on strings (std). *)
Fixpoint str_eqb (a b : str) : bool :=
  match a, b with
  | [], [] => true
  | x :: a', y :: b' => N.eqb x y && str_eqb a' b'
  | _, _ => false
  end.

(** [char::len_utf8] (route_trie.rs 426, 522). *)
Definition len_utf8 (c : char) : nat :=
  if N.ltb c 128 then 1
  else if N.ltb c 2048 then 2
  else if N.ltb c 65536 then 3
  else 4.

(** [str::len]: number of bytes (route_trie.rs 91, 433, 436, 528, 534). *)
Fixpoint blen (s : str) : nat :=
  match s with
  | [] => 0
  | c :: r => len_utf8 c + blen r
  end.

(** [&s[n..]] (route_trie.rs 358, 364, 365, 469, 480, 531): [None] is the panic "byte
    index n is not a char boundary" / "out of bounds". *)
Fixpoint slice_from (s : str) (n : nat) : option str :=
  match n with
  | 0 => Some s
  | _ => match s with
         | [] => None
         | c :: r => if Nat.leb (len_utf8 c) n
                     then slice_from r (n - len_utf8 c)
                     else None
         end
  end.

(** [&s[..n]], see [slice_from] (route_trie.rs 366). *)
Fixpoint slice_to (s : str) (n : nat) : option str :=
  match n with
  | 0 => Some []
  | _ => match s with
         | [] => None
         | c :: r => if Nat.leb (len_utf8 c) n
                     then match slice_to r (n - len_utf8 c) with
                          | Some p => Some (c :: p)
                          | None => None
                          end
                     else None
         end
  end.

(** [s.split(sep)] for a char separator (route_trie.rs 87): always at least one piece. *)
Fixpoint split_on (sep : char) (s : str) : list str :=
  match s with
  | [] => [[]]
  | c :: r =>
      if N.eqb c sep then [] :: split_on sep r
      else match split_on sep r with
           | [] => [[c]]
           | p :: ps => (c :: p) :: ps
           end
  end.

(** [is_empty] of strings, slices and vectors (std). *)
Definition is_empty {A} (l : list A) : bool :=
  match l with [] => true | _ => false end.

(** [path.split('/').filter(|key| !key.is_empty())], the idiom used by every
    routing function (route_trie.rs 87, 150-151, 195-198, 240-241;
    router.rs 116-120, 122-125, 129-136, 148-154). *)
Definition segments (path : str) : list str :=
  filter (fun k => negb (is_empty k)) (split_on c_slash path).

(** [x.contains(c)] (route_trie.rs 90, 154, 244). *)
Definition contains (c : char) (s : str) : bool := existsb (N.eqb c) s.

(** [vec.join("/")] (router.rs 141, 156). *)
Fixpoint join_slash (l : list str) : str :=
  match l with
  | [] => []
  | [a] => a
  | a :: r => a ++ c_slash :: join_slash r
  end.

(** Hash maps as association lists without duplicate keys.  [ainsert] is
    [HashMap::insert]: it returns the previous value, and a fresh key goes to the
    end.  Only operations whose result does not depend on iteration order are
    modelled through these; where the code iterates over a hash map the model
    takes an arbitrary permutation of the entries. *)
Section Assoc.
  Context {K V : Type} (eqb : K -> K -> bool).
  (** [HashMap::get]. *)
  Fixpoint aget (k : K) (l : list (K * V)) : option V :=
    match l with
    | [] => None
    | (k', v) :: r => if eqb k k' then Some v else aget k r
    end.
  (** [HashMap::insert]. *)
  Fixpoint ainsert (k : K) (v : V) (l : list (K * V)) : list (K * V) :=
    match l with
    | [] => [(k, v)]
    | (k', v') :: r => if eqb k k' then (k, v) :: r else (k', v') :: ainsert k v r
    end.
End Assoc.

(** The panics that the modelled code can raise.  A panic is an explicit value of
    the model. *)
Inductive panic :=
| PStarInName      (* "ERROR: Consisting * in route name" *)
| PStarNotLast     (* "ERROR: * must be in the last" *)
| PAmbiguous       (* "ERROR: Ambigous definition between .. and .." *)
| PDuplicate       (* "Duplicated route method" *)
| PMountConflict   (* "There is conflict between main router and sub router" *)
| PSlice           (* byte index not on a char boundary / out of range *)
| PIndex           (* slice or vec index out of range *)
| PRemove          (* Vec::remove on an empty vector *)
| PUnreachable     (* unreachable!() *)
| PUnwrapNone      (* Option::unwrap on None / Result::unwrap on Err *)
| PHeaderValue     (* HeaderValue::from_static on invalid bytes *)
| PUnimplemented   (* unimplemented!() *)
| PStack           (* stack overflow: unbounded recursion *)
| PUser.           (* a panic raised by user code (handler, middleware) *)
