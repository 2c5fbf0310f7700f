(** What a JSON text says (RFC 8259), and what the types of [jty] make of it.  The model of
    the parser is not used. *)

From Coq Require Import String ZArith Permutation.
From Verif Require Import Base Utf8 RouteTrie Http Form Json.
Local Open Scope list_scope.

(** A document.  A number is its sign, its integer part, and the text of its fraction and
    exponent. *)
Inductive json :=
| JNull | JBool (b : bool) | JNum (neg : bool) (n : N) (tl : bytes) | JStr (s : str)
| JArr (l : list json) | JObj (l : list (str * json)).

(** ** Texts *)

(** Blanks between tokens. *)
Definition space (w : bytes) : Prop := Forall (fun x => In x [32; 9; 10; 13]%N) w.

(** A digit, a non-empty row of digits. *)
Definition digit_char (x : N) : Prop := (48 <= x <= 57)%N.
Definition digit_row (ds : bytes) : Prop := ds <> [] /\ Forall digit_char ds.

(** Fraction and exponent. *)
Definition fraction (b : bytes) : Prop := b = [] \/ exists ds, digit_row ds /\ b = 46%N :: ds.
Definition exponent (b : bytes) : Prop :=
  b = [] \/ exists e sg ds, In e [69; 101]%N /\ In sg [[]; [43%N]; [45%N]] /\ digit_row ds /\ b = e :: sg ++ ds.
Definition number_tail (b : bytes) : Prop := exists fr ex, fraction fr /\ exponent ex /\ b = fr ++ ex.

(** The hexadecimal digit [x] for the number [d]. *)
Definition hex_digit (x d : N) : Prop :=
  (d < 10 /\ x = 48 + d)%N \/ (10 <= d < 16 /\ (x = 55 + d \/ x = 87 + d))%N.
Definition hex_word (n : N) (b : bytes) : Prop :=
  exists x1 x2 x3 x4 d1 d2 d3 d4, b = [x1; x2; x3; x4] /\
    hex_digit x1 d1 /\ hex_digit x2 d2 /\ hex_digit x3 d3 /\ hex_digit x4 d4 /\
    n = (d1 * 4096 + d2 * 256 + d3 * 16 + d4)%N.

(** The characters with an escape of their own, and the letters of these escapes. *)
Definition letters : list (char * N) :=
  [(34, 34); (92, 92); (47, 47); (8, 98); (12, 102); (10, 110); (13, 114); (9, 116)]%N.

(** The ways of writing a string between quotes. *)
Inductive string_text : str -> bytes -> Prop :=
| st_end : string_text [] []
| st_plain c s b : scalar c -> (32 <= c)%N -> c <> 34%N -> c <> 92%N ->
    string_text s b -> string_text (c :: s) (utf8_char c ++ b)
| st_letter c x s b : In (c, x) letters -> string_text s b -> string_text (c :: s) (92%N :: x :: b)
| st_hex c h s b : scalar c -> hex_word c h -> string_text s b ->
    string_text (c :: s) (92%N :: 117%N :: h ++ b)
| st_pair c hi lo h h' s b :
    (55296 <= hi < 56320)%N -> (56320 <= lo < 57344)%N ->
    c = (65536 + (hi - 55296) * 1024 + (lo - 56320))%N -> hex_word hi h -> hex_word lo h' ->
    string_text s b -> string_text (c :: s) (92%N :: 117%N :: h ++ 92%N :: 117%N :: h' ++ b).

(** The ways of writing a document. *)
Inductive writes : json -> bytes -> Prop :=
| w_null : writes JNull (lit "null")
| w_true : writes (JBool true) (lit "true")
| w_false : writes (JBool false) (lit "false")
| w_num neg n tl : number_tail tl -> writes (JNum neg n tl) ((if neg : bool then [45%N] else []) ++ dec n ++ tl)
| w_str s b : string_text s b -> writes (JStr s) (34%N :: b ++ [34%N])
| w_arr0 w : space w -> writes (JArr []) (91%N :: w ++ [93%N])
| w_arr l b : elements l b -> writes (JArr l) (91%N :: b ++ [93%N])
| w_obj0 w : space w -> writes (JObj []) (123%N :: w ++ [125%N])
| w_obj l b : members l b -> writes (JObj l) (123%N :: b ++ [125%N])
with elements : list json -> bytes -> Prop :=
| e_last w j b w' : space w -> writes j b -> space w' -> elements [j] (w ++ b ++ w')
| e_more w j b w' l c : space w -> writes j b -> space w' -> elements l c ->
    elements (j :: l) (w ++ b ++ w' ++ 44%N :: c)
with members : list (str * json) -> bytes -> Prop :=
| m_last w k kb w1 w2 j b w3 : space w -> string_text k kb -> space w1 -> space w2 -> writes j b -> space w3 ->
    members [(k, j)] (w ++ 34%N :: kb ++ 34%N :: w1 ++ 58%N :: w2 ++ b ++ w3)
| m_more w k kb w1 w2 j b w3 l c : space w -> string_text k kb -> space w1 -> space w2 -> writes j b -> space w3 ->
    members l c -> members ((k, j) :: l) (w ++ 34%N :: kb ++ 34%N :: w1 ++ 58%N :: w2 ++ b ++ w3 ++ 44%N :: c).

(** A body that is the text of a document. *)
Definition json_text (j : json) (b : bytes) : Prop :=
  exists w c w', space w /\ space w' /\ writes j c /\ b = w ++ c ++ w'.

Definition is_number (j : json) : Prop := match j with JNum _ _ _ => True | _ => False end.

(** Levels of nesting. *)
Fixpoint depth (j : json) : nat :=
  match j with
  | JArr l => S (fold_right (fun x => Nat.max (depth x)) 0 l)
  | JObj l => S (fold_right (fun x => Nat.max (depth (snd x))) 0 l)
  | _ => 0
  end.

(** ** Texts that are only looked over *)

(** A string whose bytes need not be UTF-8 and whose escapes need not be characters. *)
Inductive loose_string : bytes -> Prop :=
| ls_end : loose_string []
| ls_byte x b : (32 <= x)%N -> x <> 34%N -> x <> 92%N -> loose_string b -> loose_string (x :: b)
| ls_letter c x b : In (c, x) letters -> loose_string b -> loose_string (92%N :: x :: b)
| ls_hex n h b : hex_word n h -> loose_string b -> loose_string (92%N :: 117%N :: h ++ b).

(** JSON with such strings. *)
Inductive loose : bytes -> Prop :=
| lo_null : loose (lit "null")
| lo_true : loose (lit "true")
| lo_false : loose (lit "false")
| lo_num neg n tl : number_tail tl -> loose ((if neg : bool then [45%N] else []) ++ dec n ++ tl)
| lo_str b : loose_string b -> loose (34%N :: b ++ [34%N])
| lo_arr0 w : space w -> loose (91%N :: w ++ [93%N])
| lo_arr b : loose_elements b -> loose (91%N :: b ++ [93%N])
| lo_obj0 w : space w -> loose (123%N :: w ++ [125%N])
| lo_obj b : loose_members b -> loose (123%N :: b ++ [125%N])
with loose_elements : bytes -> Prop :=
| le_last w b w' : space w -> loose b -> space w' -> loose_elements (w ++ b ++ w')
| le_more w b w' c : space w -> loose b -> space w' -> loose_elements c -> loose_elements (w ++ b ++ w' ++ 44%N :: c)
with loose_members : bytes -> Prop :=
| lm_last w kb w1 w2 b w3 : space w -> loose_string kb -> space w1 -> space w2 -> loose b -> space w3 ->
    loose_members (w ++ 34%N :: kb ++ 34%N :: w1 ++ 58%N :: w2 ++ b ++ w3)
| lm_more w kb w1 w2 b w3 c : space w -> loose_string kb -> space w1 -> space w2 -> loose b -> space w3 ->
    loose_members c -> loose_members (w ++ 34%N :: kb ++ 34%N :: w1 ++ 58%N :: w2 ++ b ++ w3 ++ 44%N :: c).

Definition loose_text (b : bytes) : Prop := exists w c w', space w /\ space w' /\ loose c /\ b = w ++ c ++ w'.

(** ** Meaning *)

(** The values of the members with a name. *)
Definition members_named {A} (k : str) (l : list (str * A)) : list A :=
  map snd (filter (fun m => str_eqb (fst m) k) l).

(** The last member with a name. *)
Definition last_named {A} (k : str) (l : list (str * A)) (x : A) : Prop :=
  exists l0, members_named k l = l0 ++ [x].

(** The map [m] holds, for every name in [l], what [ok] says of the last member with it. *)
Definition holds_last {A B} (ok : A -> B -> Prop) (l : list (str * A)) (m : list (str * B)) : Prop :=
  NoDup (map fst m) /\
  (forall k, In k (map fst m) <-> In k (map fst l)) /\
  (forall k y, In (k, y) m -> exists x, last_named k l x /\ ok x y).

Section Meaning.
  Context {F : Type}.
  Context (float_lit : bytes -> option F) (float_int : Z -> F) (zero_float : bool).
  Notation num := (num F). Notation doc := (doc F). Notation jval := (jval F). Notation jty := (jty F).

  (** The number a text denotes: an integer if there is neither fraction nor exponent and it
      is at least [-2^63] and below [2^64]. *)
  Inductive denotes : bool -> N -> bytes -> num -> Prop :=
  | den_pos n : (n < 2 ^ 64)%N -> denotes false n [] (NInt (Z.of_N n))
  | den_neg n : (0 < n <= 2 ^ 63)%N -> denotes true n [] (NInt (- Z.of_N n))
  | den_zero : zero_float = false -> denotes true 0 [] (NInt 0)
  | den_zero_float f : zero_float = true -> float_lit (lit "-0") = Some f -> denotes true 0 [] (NFloat f)
  | den_large n f : (2 ^ 64 <= n)%N -> float_lit (dec n) = Some f -> denotes false n [] (NFloat f)
  | den_small n f : (2 ^ 63 < n)%N -> float_lit (45%N :: dec n) = Some f -> denotes true n [] (NFloat f)
  | den_float neg n tl f : tl <> [] -> float_lit ((if neg : bool then [45%N] else []) ++ dec n ++ tl) = Some f ->
      denotes neg n tl (NFloat f).

  (** The [serde_json::Value] of a document. *)
  Fixpoint doc_fits (j : json) (d : doc) {struct j} : Prop :=
    match j with
    | JNull => d = DNull
    | JBool b => d = DBool b
    | JNum neg n tl => exists x, denotes neg n tl x /\ d = DNum x
    | JStr s => d = DStr s
    | JArr l =>
        exists ds, d = DArr ds /\
          (fix all (l : list json) (ds : list doc) : Prop :=
             match l, ds with
             | [], [] => True
             | x :: l', y :: ds' => doc_fits x y /\ all l' ds'
             | _, _ => False
             end) l ds
    | JObj l =>
        exists ys m, d = DObj m /\
          (fix all (l : list (str * json)) (ys : list doc) : Prop :=
             match l, ys with
             | [], [] => True
             | (_, x) :: l', y :: ys' => doc_fits x y /\ all l' ys'
             | _, _ => False
             end) l ys /\
          holds_last eq (combine (map fst l) ys) m
    end.

  (** The value of type [t] that a document gives. *)
  Fixpoint fits (t : jty) (j : json) (v : jval) {struct t} : Prop :=
    match t with
    | JTBool => exists b, j = JBool b /\ v = JVBool b
    | JTInt i => exists neg n tl z, j = JNum neg n tl /\ denotes neg n tl (NInt z) /\ (i_min i <= z <= i_max i)%Z /\ v = JVInt z
    | JTFloat => exists neg n tl, j = JNum neg n tl /\
        ((exists f, denotes neg n tl (NFloat f) /\ v = JVFloat f) \/
         (exists z, denotes neg n tl (NInt z) /\ v = JVFloat (float_int z)))
    | JTString => exists s, j = JStr s /\ v = JVStr s
    | JTOption t' => (j = JNull /\ v = JVOpt None) \/ (j <> JNull /\ exists y, fits t' j y /\ v = JVOpt (Some y))
    | JTVec t' => exists l ys, j = JArr l /\ Forall2 (fits t') l ys /\ v = JVSeq ys
    | JTMap t' => exists l ys m, j = JObj l /\ Forall2 (fits t') (map snd l) ys /\
        holds_last eq (combine (map fst l) ys) m /\ v = JVMap m
    | JTStruct deny fs =>
        (exists l ys, j = JObj l /\ v = JVStruct (combine (map (fun f => fst (fst f)) fs) ys) /\
           (deny = true -> forall k, In k (map fst l) -> In k (map (fun f => fst (fst f)) fs)) /\
           (fix all (fs : list (str * option jval * jty)) (ys : list jval) : Prop :=
              match fs, ys with
              | [], [] => True
              | (n, df, t') :: fs', y :: ys' =>
                  ((exists x, members_named n l = [x] /\ fits t' x y) \/
                   (members_named n l = [] /\
                    (df = Some y \/ df = None /\ (exists t'', t' = JTOption t'') /\ y = JVOpt None)))
                  /\ all fs' ys'
              | _, _ => False
              end) fs ys) \/
        (exists l ys, j = JArr l /\ v = JVStruct (combine (map (fun f => fst (fst f)) fs) ys) /\
           (fix all (fs : list (str * option jval * jty)) (l : list json) (ys : list jval) : Prop :=
              match fs, l, ys with
              | [], [], [] => True
              | (n, df, t') :: fs', x :: l', y :: ys' => fits t' x y /\ all fs' l' ys'
              | (n, df, t') :: fs', [], y :: ys' => df = Some y /\ all fs' [] ys'
              | _, _, _ => False
              end) fs l ys)
    | JTValue => exists d, doc_fits j d /\ v = JVDoc d
    | JTUnit => j = JNull /\ v = JVUnit
    | JTChar => exists c, j = JStr [c] /\ v = JVChar c
    | JTTuple ts =>
        exists l ys, j = JArr l /\ v = JVTuple ys /\
          (fix all (ts : list jty) (l : list json) (ys : list jval) : Prop :=
             match ts, l, ys with
             | [], [], [] => True
             | t' :: ts', x :: l', y :: ys' => fits t' x y /\ all ts' l' ys'
             | _, _, _ => False
             end) ts l ys
    | JTEnum vs =>
        (fix some (vs : list (str * option jty)) : Prop :=
           match vs with
           | [] => False
           | (n, None) :: vs' => ((j = JStr n \/ j = JObj [(n, JNull)]) /\ v = JVEnum n None) \/ some vs'
           | (n, Some t') :: vs' => (exists x y, j = JObj [(n, x)] /\ fits t' x y /\ v = JVEnum n (Some y)) \/ some vs'
           end) vs
    end.

  (** Types as Rust has them: the names of the fields of a struct differ, and those of the
      variants of an enum. Integers have at most 64 bits, since serde_json reads wider ones
      by other rules. *)
  Fixpoint sound_type (t : jty) : Prop :=
    match t with
    | JTInt i => (i_bits i <= 64)%positive
    | JTOption t' | JTVec t' | JTMap t' => sound_type t'
    | JTStruct _ fs =>
        NoDup (map (fun f => fst (fst f)) fs) /\
        (fix all (fs : list (str * option jval * jty)) : Prop :=
           match fs with [] => True | (_, _, t') :: fs' => sound_type t' /\ all fs' end) fs
    | JTTuple ts => (fix all (ts : list jty) : Prop := match ts with [] => True | t' :: ts' => sound_type t' /\ all ts' end) ts
    | JTEnum vs =>
        NoDup (map fst vs) /\
        (fix all (vs : list (str * option jty)) : Prop :=
           match vs with
           | [] => True
           | (_, None) :: vs' => all vs'
           | (_, Some t') :: vs' => sound_type t' /\ all vs'
           end) vs
    | _ => True
    end.

  (** Types none of whose parts is skipped when it is read: structs deny unknown fields. *)
  Fixpoint skips_nothing (t : jty) : Prop :=
    match t with
    | JTOption t' | JTVec t' | JTMap t' => skips_nothing t'
    | JTStruct deny fs =>
        deny = true /\
        (fix all (fs : list (str * option jval * jty)) : Prop :=
           match fs with [] => True | (_, _, t') :: fs' => skips_nothing t' /\ all fs' end) fs
    | JTTuple ts => (fix all (ts : list jty) : Prop := match ts with [] => True | t' :: ts' => skips_nothing t' /\ all ts' end) ts
    | JTEnum vs =>
        (fix all (vs : list (str * option jty)) : Prop :=
           match vs with
           | [] => True
           | (_, None) :: vs' => all vs'
           | (_, Some t') :: vs' => skips_nothing t' /\ all vs'
           end) vs
    | _ => True
    end.

  (** ** Values *)

  (** Values of a [serde_json::Value] without floats. *)
  Fixpoint plain_doc (d : doc) : Prop :=
    match d with
    | DNull | DBool _ => True
    | DNum (NInt z) => (- 2 ^ 63 <= z < 2 ^ 64)%Z
    | DNum (NFloat _) => False
    | DStr s => Forall scalar s
    | DArr l => (fix all (l : list doc) : Prop := match l with [] => True | x :: r => plain_doc x /\ all r end) l
    | DObj l =>
        NoDup (map fst l) /\
        (fix all (l : list (str * doc)) : Prop :=
           match l with [] => True | (k, x) :: r => Forall scalar k /\ plain_doc x /\ all r end) l
    end.

  (** [Option] of a type that can itself be written as null. *)
  Definition nullable (t : jty) : Prop := match t with JTOption _ | JTValue | JTUnit => True | _ => False end.

  (** The values of a type, without floats; no [Option] of a nullable type. *)
  Fixpoint has_type (t : jty) (v : jval) {struct t} : Prop :=
    match t with
    | JTBool => exists b, v = JVBool b
    | JTInt i => (i_bits i <= 64)%positive /\ exists z, v = JVInt z /\ (i_min i <= z <= i_max i)%Z
    | JTFloat => False
    | JTString => exists s, v = JVStr s /\ Forall scalar s
    | JTOption t' => ~ nullable t' /\ (v = JVOpt None \/ exists y, v = JVOpt (Some y) /\ has_type t' y)
    | JTVec t' => exists l, v = JVSeq l /\ Forall (has_type t') l
    | JTMap t' => exists l, v = JVMap l /\ NoDup (map fst l) /\
        Forall (fun m => Forall scalar (fst m)) l /\ Forall (has_type t') (map snd l)
    | JTStruct _ fs =>
        NoDup (map (fun f => fst (fst f)) fs) /\ Forall (fun f => Forall scalar (fst (fst f))) fs /\
        exists ys, v = JVStruct (combine (map (fun f => fst (fst f)) fs) ys) /\
          (fix all (fs : list (str * option jval * jty)) (ys : list jval) : Prop :=
             match fs, ys with
             | [], [] => True
             | (_, _, t') :: fs', y :: ys' => has_type t' y /\ all fs' ys'
             | _, _ => False
             end) fs ys
    | JTValue => exists d, v = JVDoc d /\ plain_doc d
    | JTUnit => v = JVUnit
    | JTChar => exists c, v = JVChar c /\ scalar c
    | JTTuple ts =>
        exists ys, v = JVTuple ys /\
          (fix all (ts : list jty) (ys : list jval) : Prop :=
             match ts, ys with
             | [], [] => True
             | t' :: ts', y :: ys' => has_type t' y /\ all ts' ys'
             | _, _ => False
             end) ts ys
    | JTEnum vs =>
        NoDup (map fst vs) /\ Forall (fun w => Forall scalar (fst w)) vs /\
        (fix some (vs : list (str * option jty)) : Prop :=
           match vs with
           | [] => False
           | (n, None) :: vs' => v = JVEnum n None \/ some vs'
           | (n, Some t') :: vs' => (exists y, v = JVEnum n (Some y) /\ has_type t' y) \/ some vs'
           end) vs
    end.

  (** Levels of nesting of a value. *)
  Fixpoint doc_depth (d : doc) : nat :=
    match d with
    | DArr l => S (fold_right (fun x => Nat.max (doc_depth x)) 0 l)
    | DObj l => S (fold_right (fun x => Nat.max (doc_depth (snd x))) 0 l)
    | _ => 0
    end.
  Fixpoint val_depth (v : jval) : nat :=
    match v with
    | JVOpt (Some x) => val_depth x
    | JVSeq l => S (fold_right (fun x => Nat.max (val_depth x)) 0 l)
    | JVMap l | JVStruct l => S (fold_right (fun x => Nat.max (val_depth (snd x))) 0 l)
    | JVDoc d => doc_depth d
    | JVTuple l => S (fold_right (fun x => Nat.max (val_depth x)) 0 l)
    | JVEnum _ (Some x) => S (val_depth x)
    | _ => 0
    end.

  (** Equal values; the order of the entries of a map is of no account. *)
  Inductive same_doc : doc -> doc -> Prop :=
  | sd_refl d : same_doc d d
  | sd_arr l l' : Forall2 same_doc l l' -> same_doc (DArr l) (DArr l')
  | sd_obj m n m' : Permutation m n -> Forall2 (fun a b => fst a = fst b /\ same_doc (snd a) (snd b)) n m' ->
      same_doc (DObj m) (DObj m').
  Inductive same_val : jval -> jval -> Prop :=
  | sv_refl v : same_val v v
  | sv_some x y : same_val x y -> same_val (JVOpt (Some x)) (JVOpt (Some y))
  | sv_seq l l' : Forall2 same_val l l' -> same_val (JVSeq l) (JVSeq l')
  | sv_map m n m' : Permutation m n -> Forall2 (fun a b => fst a = fst b /\ same_val (snd a) (snd b)) n m' ->
      same_val (JVMap m) (JVMap m')
  | sv_struct l l' : Forall2 (fun a b => fst a = fst b /\ same_val (snd a) (snd b)) l l' -> same_val (JVStruct l) (JVStruct l')
  | sv_tuple l l' : Forall2 same_val l l' -> same_val (JVTuple l) (JVTuple l')
  | sv_enum n x y : same_val x y -> same_val (JVEnum n (Some x)) (JVEnum n (Some y))
  | sv_doc d d' : same_doc d d' -> same_val (JVDoc d) (JVDoc d').
End Meaning.
