(** Model of serde_json 1.0 as [Context::json] (src/context.rs 241-252, line 251
    [serde_json::from_slice]), [Context::build_json] (283-285) and [Response::json]
    (src/router/response.rs 122-130, line 123 [serde_json::to_string]) use it.

    [from_slice] reads and checks a text in one pass; here it is first cut into a tree
    ([lex], which accepts what [Deserializer::ignore_value] accepts) and the tree is read by
    the [Deserialize] of the target ([read]).  Both fail together with the one pass; which of
    several errors is reported, and its text, is not modelled.

    Simplifications: floating point numbers are an abstract type with arbitrary conversions.
    Not modelled: 128-bit integers, borrowed data, flattened fields, aliases, enums with
    other taggings than the default one, maps with keys that are not strings. *)

From Coq Require Import String ZArith.
From Verif Require Import Base Utf8 RouteTrie Http Form.
Local Open Scope list_scope.

(** ** The text of a document *)

(** Parts of a string: a byte, a two-character escape, the number of an escape with [u]. *)
Inductive piece := PByte (b : N) | PChar (c : char) | PHex (n : N).

(** What a text consists of.  A number is its sign, its digits, and the text of its
    fraction and exponent. *)
Inductive raw :=
| RNull | RBool (b : bool) | RNum (neg : bool) (ds tl : bytes) | RStr (ps : list piece)
| RArr (l : list raw) | RObj (l : list (list piece * raw)).

(** serde_json de.rs: [parse_whitespace]. *)
Fixpoint skip (b : bytes) : bytes :=
  match b with
  | x :: r => if (x =? 32)%N || (x =? 10)%N || (x =? 9)%N || (x =? 13)%N then skip r else b
  | [] => []
  end.

(** serde_json read.rs: [decode_hex_val]. *)
Definition hex_val (x : N) : option N :=
  if within 48 57 x then Some (x - 48)%N
  else if within 65 70 x then Some (x - 55)%N
  else if within 97 102 x then Some (x - 87)%N
  else None.

(** serde_json read.rs: [decode_hex_escape]. *)
Definition hex4 (a b c d : N) : option N :=
  match hex_val a, hex_val b, hex_val c, hex_val d with
  | Some w, Some x, Some y, Some z => Some (((w * 16 + x) * 16 + y) * 16 + z)%N
  | _, _, _, _ => None
  end.

(** serde_json read.rs: [parse_escape], all escapes but [u]. *)
Definition short_escape (x : N) : option char :=
  if N.eqb x 34 then Some 34%N
  else if N.eqb x 92 then Some 92%N
  else if N.eqb x 47 then Some 47%N
  else if N.eqb x 98 then Some 8%N
  else if N.eqb x 102 then Some 12%N
  else if N.eqb x 110 then Some 10%N
  else if N.eqb x 114 then Some 13%N
  else if N.eqb x 116 then Some 9%N
  else None.

(** A part put before the others. *)
Definition put {A B} (x : A) (o : option (list A * B)) : option (list A * B) :=
  match o with Some (l, r) => Some (x :: l, r) | None => None end.

(** serde_json read.rs: [ignore_str], [ignore_escape]; starts behind the quote. *)
Fixpoint lex_str (b : bytes) : option (list piece * bytes) :=
  match b with
  | [] => None
  | x :: r =>
      if N.eqb x 34 then Some ([], r)
      else if N.eqb x 92 then
        match r with
        | [] => None
        | e :: r1 =>
            if N.eqb e 117 then
              match r1 with
              | h1 :: h2 :: h3 :: h4 :: r2 =>
                  match hex4 h1 h2 h3 h4 with
                  | Some n => put (PHex n) (lex_str r2)
                  | None => None
                  end
              | _ => None
              end
            else match short_escape e with
                 | Some c => put (PChar c) (lex_str r1)
                 | None => None
                 end
        end
      else if (x <? 32)%N then None
      else put (PByte x) (lex_str r)
  end.

(** A digit. *)
Definition is_digit (x : N) : bool := within 48 57 x.

(** The digits at the start of a text, and the rest. *)
Fixpoint digits (b : bytes) : bytes * bytes :=
  match b with
  | x :: r => if is_digit x then let '(ds, r') := digits r in (x :: ds, r') else ([], b)
  | [] => ([], [])
  end.

(** serde_json de.rs: the digits of [parse_integer]: no zero before other digits. *)
Definition lex_int (b : bytes) : option (bytes * bytes) :=
  match digits b with
  | ([], _) => None
  | (x :: ds, r) => if N.eqb x 48 && negb (is_empty ds) then None else Some (x :: ds, r)
  end.

(** serde_json de.rs: [parse_decimal], up to the exponent. *)
Definition lex_frac (b : bytes) : option (bytes * bytes) :=
  match b with
  | x :: r =>
      if N.eqb x 46 then
        match digits r with
        | ([], _) => None
        | (ds, r') => Some (x :: ds, r')
        end
      else Some ([], b)
  | [] => Some ([], [])
  end.

(** serde_json de.rs: [parse_exponent]. *)
Definition lex_exp (b : bytes) : option (bytes * bytes) :=
  match b with
  | x :: r =>
      if (x =? 101)%N || (x =? 69)%N then
        let '(sg, r0) := match r with
                         | s :: r1 => if (s =? 43)%N || (s =? 45)%N then ([s], r1) else ([], r)
                         | [] => ([], [])
                         end in
        match digits r0 with
        | ([], _) => None
        | (ds, r') => Some (x :: sg ++ ds, r')
        end
      else Some ([], b)
  | [] => Some ([], [])
  end.

(** serde_json de.rs: [parse_any_number], [ignore_number]; starts behind the sign. *)
Definition lex_num (neg : bool) (b : bytes) : option (raw * bytes) :=
  match lex_int b with
  | None => None
  | Some (ds, r) =>
      match lex_frac r with
      | None => None
      | Some (fr, r1) =>
          match lex_exp r1 with
          | None => None
          | Some (ex, r2) => Some (RNum neg ds (fr ++ ex), r2)
          end
      end
  end.

(** serde_json de.rs: [parse_ident]. *)
Fixpoint ident (w b : bytes) : option bytes :=
  match w, b with
  | [], _ => Some b
  | x :: w', y :: b' => if N.eqb x y then ident w' b' else None
  | _ :: _, [] => None
  end.

(** serde_json de.rs: [deserialize_any], [SeqAccess], [end_seq], [MapAccess],
    [parse_object_colon], [end_map]; [n] bounds the number of nested calls. *)
Fixpoint lex (n : nat) (b : bytes) : option (raw * bytes) :=
  match n with
  | O => None
  | S n =>
      match skip b with
      | [] => None
      | x :: r =>
          if N.eqb x 110 then option_map (pair RNull) (ident (lit "ull") r)
          else if N.eqb x 116 then option_map (pair (RBool true)) (ident (lit "rue") r)
          else if N.eqb x 102 then option_map (pair (RBool false)) (ident (lit "alse") r)
          else if N.eqb x 45 then lex_num true r
          else if is_digit x then lex_num false (x :: r)
          else if N.eqb x 34 then
            match lex_str r with Some (ps, r') => Some (RStr ps, r') | None => None end
          else if N.eqb x 91 then
            match skip r with
            | [] => None
            | y :: r1 =>
                if N.eqb y 93 then Some (RArr [], r1)
                else match lex_elements n r with Some (l, r') => Some (RArr l, r') | None => None end
            end
          else if N.eqb x 123 then
            match skip r with
            | [] => None
            | y :: r1 =>
                if N.eqb y 125 then Some (RObj [], r1)
                else match lex_members n r with Some (l, r') => Some (RObj l, r') | None => None end
            end
          else None
      end
  end
with lex_elements (n : nat) (b : bytes) : option (list raw * bytes) :=
  match n with
  | O => None
  | S n =>
      match lex n b with
      | None => None
      | Some (v, r) =>
          match skip r with
          | [] => None
          | y :: r1 =>
              if N.eqb y 93 then Some ([v], r1)
              else if N.eqb y 44 then put v (lex_elements n r1)
              else None
          end
      end
  end
with lex_members (n : nat) (b : bytes) : option (list (list piece * raw) * bytes) :=
  match n with
  | O => None
  | S n =>
      match skip b with
      | [] => None
      | x :: r =>
          if N.eqb x 34 then
            match lex_str r with
            | None => None
            | Some (k, r0) =>
                match skip r0 with
                | [] => None
                | z :: r1 =>
                    if N.eqb z 58 then
                      match lex n r1 with
                      | None => None
                      | Some (v, r2) =>
                          match skip r2 with
                          | [] => None
                          | y :: r3 =>
                              if N.eqb y 125 then Some ([(k, v)], r3)
                              else if N.eqb y 44 then put (k, v) (lex_members n r3)
                              else None
                          end
                      end
                    else None
                end
            end
          else None
      end
  end.

(** ** Reading it *)

(** serde_json read.rs: [parse_str], [parse_escape]: the bytes of a string; of two
    surrogates one character. *)
Fixpoint unescape (ps : list piece) : option bytes :=
  match ps with
  | [] => Some []
  | PByte b :: r => option_map (cons b) (unescape r)
  | PChar c :: r => option_map (app (utf8_char c)) (unescape r)
  | PHex n :: r =>
      if within 56320 57343 n then None
      else if within 55296 56319 n then
        match r with
        | PHex m :: r' =>
            if within 56320 57343 m
            then option_map (app (utf8_char ((n - 55296) * 1024 + (m - 56320) + 65536)%N)) (unescape r')
            else None
        | _ => None
        end
      else option_map (app (utf8_char n)) (unescape r)
  end.

(** serde_json read.rs: [as_str]. *)
Definition string_of (ps : list piece) : option str :=
  match unescape ps with Some b => from_utf8 b | None => None end.

(** The number written by decimal digits. *)
Definition digits_num (ds : bytes) : N := fold_left (fun a x => (a * 10 + (x - 48))%N) ds 0%N.

(** serde_json de.rs: [remaining_depth], [check_recursion]. *)
Definition enter (d : nat) : option nat := match d with S (S d') => Some (S d') | _ => None end.

(** serde_json de.rs: [from_slice] starts with this [remaining_depth]. *)
Definition max_depth : nat := 128.

(** [Result::and_then] and [collect] for vectors of results. *)
Definition all_read {A B} (f : A -> option B) : list A -> option (list B) :=
  fix go l :=
    match l with
    | [] => Some []
    | x :: r => match f x with
                | None => None
                | Some y => option_map (cons y) (go r)
                end
    end.

(** serde: [MapVisitor] of [HashMap]; serde_json value/de.rs: [visit_map] of [Value]. *)
Definition read_map {A} (rd : raw -> option A) : list (list piece * raw) -> list (str * A) -> option (list (str * A)) :=
  fix go l acc :=
    match l with
    | [] => Some acc
    | (k, x) :: r =>
        match string_of k, rd x with
        | Some k', Some y => go r (ainsert str_eqb k' y acc)
        | _, _ => None
        end
    end.

Section Json.
  (** [F]: [f64]; [float_lit]: the value of a number written out, [None] if it is out of
      range; [float_int]: [as f64]; [float_text]: how a float is printed ([null] if it is
      not finite); [zero_float]: [-0] is read as a float (as later versions do). *)
  Context {F : Type}.
  Context (float_lit : bytes -> option F) (float_int : Z -> F) (float_text : F -> str) (zero_float : bool).

  (** serde_json number.rs: [Number]. *)
  Inductive num := NInt (z : Z) | NFloat (f : F).

  (** serde_json value/mod.rs: [Value]; an object is a map, see [ainsert]. *)
  Inductive doc :=
  | DNull | DBool (b : bool) | DNum (n : num) | DStr (s : str) | DArr (l : list doc)
  | DObj (l : list (str * doc)).

  (** Values of the types [jty]; a struct with the names of its fields, an enum with the name
      of the variant and what it carries. *)
  Inductive jval :=
  | JVBool (b : bool) | JVInt (z : Z) | JVFloat (f : F) | JVStr (s : str) | JVOpt (o : option jval)
  | JVSeq (l : list jval) | JVMap (l : list (str * jval)) | JVStruct (l : list (str * jval))
  | JVDoc (d : doc) | JVUnit | JVChar (c : char) | JVTuple (l : list jval)
  | JVEnum (n : str) (o : option jval).

  (** Targets of [json]: [bool], integers up to 64 bits, [f64], [String], [Option], [Vec],
      maps with string keys, structs with derived [Deserialize] (whether unknown fields are
      denied; name, default, type of each field), [serde_json::Value], [()] and unit structs,
      [char], tuples, arrays and tuple structs, enums with derived [Deserialize] (name of
      each variant, and the type it carries: a tuple for a tuple variant, a struct for a
      struct variant).  A newtype struct is its content. *)
  Inductive jty :=
  | JTBool | JTInt (i : ity) | JTFloat | JTString | JTOption (t : jty) | JTVec (t : jty)
  | JTMap (t : jty) | JTStruct (deny : bool) (fs : list (str * option jval * jty)) | JTValue
  | JTUnit | JTChar | JTTuple (ts : list jty) | JTEnum (vs : list (str * option jty)).

  (** serde_json de.rs: [parse_integer], [parse_number], [parse_long_integer]. *)
  Definition number (neg : bool) (ds tl : bytes) : option num :=
    let n := digits_num ds in
    let float := option_map NFloat (float_lit ((if neg then [45%N] else []) ++ ds ++ tl)) in
    if is_empty tl then
      if neg then
        if (n =? 0)%N && zero_float then float
        else if (n <=? 2 ^ 63)%N then Some (NInt (- Z.of_N n)) else float
      else if (n <? 2 ^ 64)%N then Some (NInt (Z.of_N n)) else float
    else float.

  (** serde_json value/de.rs: [Value::deserialize]. *)
  Fixpoint doc_of (r : raw) (d : nat) {struct r} : option doc :=
    match r with
    | RNull => Some DNull
    | RBool b => Some (DBool b)
    | RNum neg ds tl => option_map DNum (number neg ds tl)
    | RStr ps => option_map DStr (string_of ps)
    | RArr l =>
        match enter d with
        | None => None
        | Some d' => option_map DArr (all_read (fun x => doc_of x d') l)
        end
    | RObj l =>
        match enter d with
        | None => None
        | Some d' => option_map DObj (read_map (fun x => doc_of x d') l [])
        end
    end.

  (** A field of a struct as its visitor sees it: name, what it is if it is missing, how to
      read it.  serde: [missing_field]: a missing [Option] is [None]. *)
  Record reader := Reader { r_name : str; r_missing : option jval; r_default : option jval; r_read : raw -> option jval }.

  (** serde: one turn of the loop of the derived [visit_map]; a field that is already
      there is an error, an unknown key is ignored. *)
  Fixpoint set_field (k : str) (x : raw) (rs : list reader) (slots : list (option jval)) : option (list (option jval)) :=
    match rs, slots with
    | f :: rs', s :: ss =>
        if str_eqb k (r_name f) then
          match s with
          | Some _ => None
          | None => option_map (fun y => Some y :: ss) (r_read f x)
          end
        else option_map (cons s) (set_field k x rs' ss)
    | _, _ => Some slots
    end.

  (** serde: the loop of the derived [visit_map]; with [deny_unknown_fields], an unknown key
      is an error. *)
  Fixpoint set_fields (deny : bool) (l : list (list piece * raw)) (rs : list reader) (slots : list (option jval))
    : option (list (option jval)) :=
    match l with
    | [] => Some slots
    | (k, x) :: r =>
        match string_of k with
        | None => None
        | Some k' =>
            if deny && negb (existsb (fun f => str_eqb k' (r_name f)) rs) then None
            else match set_field k' x rs slots with
                 | None => None
                 | Some slots' => set_fields deny r rs slots'
                 end
        end
    end.

  (** serde: the end of the derived [visit_map]. *)
  Fixpoint finish (rs : list reader) (slots : list (option jval)) : option (list (str * jval)) :=
    match rs, slots with
    | f :: rs', s :: ss =>
        match (match s with Some y => Some y | None => r_missing f end) with
        | None => None
        | Some y => option_map (cons (r_name f, y)) (finish rs' ss)
        end
    | _, _ => Some []
    end.

  (** serde: the derived [visit_seq]; serde_json de.rs: [end_seq]. *)
  Fixpoint read_seq (rs : list reader) (l : list raw) : option (list (str * jval)) :=
    match rs, l with
    | [], [] => Some []
    | [], _ :: _ => None
    | f :: rs', x :: l' =>
        match r_read f x with
        | None => None
        | Some y => option_map (cons (r_name f, y)) (read_seq rs' l')
        end
    | f :: rs', [] =>
        match r_default f with
        | None => None
        | Some y => option_map (cons (r_name f, y)) (read_seq rs' [])
        end
    end.

  (** serde de/impls.rs: [visit_seq] of tuples; serde_json de.rs: [end_seq]. *)
  Fixpoint read_tuple (fs : list (raw -> option jval)) (l : list raw) : option (list jval) :=
    match fs, l with
    | [], [] => Some []
    | f :: fs', x :: l' =>
        match f x with
        | None => None
        | Some y => option_map (cons y) (read_tuple fs' l')
        end
    | _, _ => None
    end.

  (** serde: the derived identifier of a variant: its index by its name. *)
  Fixpoint variant {A} (k : str) (vs : list (str * A)) : option A :=
    match vs with
    | [] => None
    | (n, x) :: r => if str_eqb k n then Some x else variant k r
    end.

  (** serde: [missing_field], [serde(default)]. *)
  Definition missing (df : option jval) (t : jty) : option jval :=
    match df, t with
    | Some y, _ => Some y
    | None, JTOption _ => Some (JVOpt None)
    | None, _ => None
    end.

  (** serde and serde_json de.rs: [T::deserialize] for the types of [jty]. *)
  Fixpoint read (t : jty) (d : nat) (r : raw) {struct t} : option jval :=
    match t with
    | JTBool => match r with RBool b => Some (JVBool b) | _ => None end
    | JTInt i =>
        match r with
        | RNum neg ds tl =>
            match number neg ds tl with
            | Some (NInt z) => if (i_min i <=? z)%Z && (z <=? i_max i)%Z then Some (JVInt z) else None
            | _ => None
            end
        | _ => None
        end
    | JTFloat =>
        match r with
        | RNum neg ds tl =>
            match number neg ds tl with
            | Some (NInt z) => Some (JVFloat (float_int z))
            | Some (NFloat f) => Some (JVFloat f)
            | None => None
            end
        | _ => None
        end
    | JTString => match r with RStr ps => option_map JVStr (string_of ps) | _ => None end
    | JTOption t' =>
        match r with
        | RNull => Some (JVOpt None)
        | _ => option_map (fun y => JVOpt (Some y)) (read t' d r)
        end
    | JTVec t' =>
        match r, enter d with
        | RArr l, Some d' => option_map JVSeq (all_read (read t' d') l)
        | _, _ => None
        end
    | JTMap t' =>
        match r, enter d with
        | RObj l, Some d' => option_map JVMap (read_map (read t' d') l [])
        | _, _ => None
        end
    | JTStruct deny fs =>
        match enter d with
        | None => None
        | Some d' =>
            let rs := map (fun f : str * option jval * jty =>
                             let '(n, df, t') := f in Reader n (missing df t') df (read t' d')) fs in
            match r with
            | RObj l =>
                match set_fields deny l rs (map (fun _ => None) fs) with
                | None => None
                | Some slots => option_map JVStruct (finish rs slots)
                end
            | RArr l => option_map JVStruct (read_seq rs l)
            | _ => None
            end
        end
    | JTValue => option_map JVDoc (doc_of r d)
    | JTUnit => match r with RNull => Some JVUnit | _ => None end
    | JTChar =>
        match r with
        | RStr ps => match string_of ps with Some [c] => Some (JVChar c) | _ => None end
        | _ => None
        end
    | JTTuple ts =>
        match r, enter d with
        | RArr l, Some d' => option_map JVTuple (read_tuple (map (fun t' => read t' d') ts) l)
        | _, _ => None
        end
    | JTEnum vs =>
        (** serde_json de.rs: [deserialize_enum], [UnitVariantAccess], [VariantAccess]. *)
        match r with
        | RStr ps =>
            match string_of ps with
            | None => None
            | Some k => match variant k vs with Some None => Some (JVEnum k None) | _ => None end
            end
        | RObj [(ps, x)] =>
            match enter d, string_of ps with
            | Some d', Some k =>
                match variant k (map (fun v : str * option jty =>
                                        let '(n, p) := v in
                                        (n, match p with None => None | Some t' => Some (read t' d') end)) vs) with
                | None => None
                | Some None => match x with RNull => Some (JVEnum k None) | _ => None end
                | Some (Some f) => option_map (fun y => JVEnum k (Some y)) (f x)
                end
            | _, _ => None
            end
        | _ => None
        end
    end.

  (** serde_json de.rs: [from_slice], with [Deserializer::end]. *)
  Definition from_slice (t : jty) (b : bytes) : option jval :=
    match lex (2 + 2 * length b) b with
    | Some (r, rest) => if is_empty (skip rest) then read t max_depth r else None
    | None => None
    end.

  (** context.rs 241-252: [json] of a request body; [msg] are the texts of errors. *)
  Definition ctx_read_json {X} (msg : bytes -> str) (t : jty) (c : context X) : (jval + oerror) * context X :=
    ctx_json (fun b => match from_slice t b with Some v => inl v | None => inr (msg b) end) c.

  (** ** Writing *)

  (** A hexadecimal digit, lower case. *)
  Definition hex_char (x : N) : char := if (x <? 10)%N then (48 + x)%N else (87 + x)%N.

  (** serde_json ser.rs: [format_escaped_str_contents], [ESCAPE]. *)
  Definition escape_char (c : char) : str :=
    if N.eqb c 34 then [92; 34]%N
    else if N.eqb c 92 then [92; 92]%N
    else if N.eqb c 8 then [92; 98]%N
    else if N.eqb c 9 then [92; 116]%N
    else if N.eqb c 10 then [92; 110]%N
    else if N.eqb c 12 then [92; 102]%N
    else if N.eqb c 13 then [92; 114]%N
    else if (c <? 32)%N then [92; 117; 48; 48; hex_char (c / 16); hex_char (c mod 16)]%N
    else [c].

  (** serde_json ser.rs: [format_escaped_str]. *)
  Definition quoted (s : str) : str := 34%N :: flat_map escape_char s ++ [34%N].

  (** serde_json ser.rs: [begin_array_value], [begin_object_key]: commas between. *)
  Fixpoint commas (l : list str) : str :=
    match l with
    | [] => []
    | [x] => x
    | x :: r => x ++ 44%N :: commas r
    end.

  (** serde_json ser.rs: integers (itoa) and floats. *)
  Definition int_text (z : Z) : str := if (z <? 0)%Z then 45%N :: dec (Z.to_N (- z)) else dec (Z.to_N z).

  (** serde_json value/ser.rs: [Serialize] of [Value]. *)
  Fixpoint doc_text (d : doc) : str :=
    match d with
    | DNull => lit "null"
    | DBool b => if b then lit "true" else lit "false"
    | DNum (NInt z) => int_text z
    | DNum (NFloat f) => float_text f
    | DStr s => quoted s
    | DArr l => 91%N :: commas (map doc_text l) ++ [93%N]
    | DObj l => 123%N :: commas (map (fun '(k, x) => quoted k ++ 58%N :: doc_text x) l) ++ [125%N]
    end.

  (** serde_json ser.rs: [to_string] of the types of [jty]; it never fails for them. *)
  Fixpoint to_text (v : jval) : str :=
    match v with
    | JVBool b => if b then lit "true" else lit "false"
    | JVInt z => int_text z
    | JVFloat f => float_text f
    | JVStr s => quoted s
    | JVOpt None => lit "null"
    | JVOpt (Some x) => to_text x
    | JVSeq l => 91%N :: commas (map to_text l) ++ [93%N]
    | JVMap l => 123%N :: commas (map (fun '(k, x) => quoted k ++ 58%N :: to_text x) l) ++ [125%N]
    | JVStruct l => 123%N :: commas (map (fun '(k, x) => quoted k ++ 58%N :: to_text x) l) ++ [125%N]
    | JVDoc d => doc_text d
    | JVUnit => lit "null"
    | JVChar c => quoted [c]
    | JVTuple l => 91%N :: commas (map to_text l) ++ [93%N]
    | JVEnum n None => quoted n
    | JVEnum n (Some x) => 123%N :: quoted n ++ 58%N :: to_text x ++ [125%N]
    end.
End Json.
Arguments num : clear implicits. Arguments doc : clear implicits. Arguments jval : clear implicits. Arguments jty : clear implicits.
