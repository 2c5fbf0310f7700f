(** Model of src/router/req_deserializer.rs, of [Context::parse_queries],
    [Context::query_params] and [Context::form] (src/context.rs 139-147, 176-187,
    292-316), and of the parts of serde 1.0.126 and of the standard library they
    call: the [Deserialize] implementations of the types in [vty] and [target], and
    [str::parse] of integers and [bool].

    Simplifications: floating point parsing and the texts of serde's type mismatch
    errors are arbitrary functions.  Not modelled: structs and maps as *keys* of a map,
    more than one flattened field, [Option] of a flattened field, [alias], borrowed and
    byte targets, sets.  Enums with a tag and a content are in [Adjacent]. *)

From Coq Require Import String ZArith.
From Verif Require Import Base Utf8 RouteTrie UrlEncoded Http.
Local Open Scope list_scope.

(** ** Target types *)

(** Integer types: signed or not, number of bits. *)
Record ity := Ity { i_signed : bool; i_bits : positive }.

(** Two of the integer types of req_deserializer.rs 318, 324. *)
Definition u8 := Ity false 8.
(** [i32]. *)
Definition i32 := Ity true 32.

(** [MIN] of an integer type (std). *)
Definition i_min (t : ity) : Z := if i_signed t then (- 2 ^ (Z.pos (i_bits t) - 1))%Z else 0%Z.
(** [MAX] of an integer type (std). *)
Definition i_max (t : ity) : Z :=
  if i_signed t then (2 ^ (Z.pos (i_bits t) - 1) - 1)%Z else (2 ^ Z.pos (i_bits t) - 1)%Z.

(** Types of values (of struct fields and of maps). *)
Inductive vty :=
| TInt (t : ity)              (* u8 .. u64, i8 .. i64, usize, isize *)
| TInt128                     (* u128, i128 *)
| TBool
| TFloat (double : bool)      (* f32, f64 *)
| TChar
| TString                     (* String; serde_json::Value, which becomes a string *)
| TUnit                       (* () and unit structs *)
| TOption (t : vty)
| TNewtype (t : vty)          (* struct W(T) *)
| TVec (t : vty)
| TTuple (ts : list vty)      (* tuples and arrays *)
| TEnum (names : list str)    (* enums; the names are those of the unit variants *)
| TMismatch.                  (* structs, maps, tuple structs *)

(** Types of keys of a map. *)
Inductive kty :=
| KString
| KNumber                     (* integers up to 64 bits, floats, bool *)
| KOther.                     (* char, Option, newtypes, enums, unit, tuples *)

(** An entry of the map given to the deserializer. *)
Notation entry := (str * list str)%type.

Section Form.
  (** [F]: floating point numbers; [parse_float]: their [FromStr], with the error
      text; [serde_msg]: the texts of serde's errors. *)
  Context {F : Type}.

  (** Values of the types [vty]. *)
  Inductive value :=
  | VInt (z : Z) | VBool (b : bool) | VFloat (f : F) | VChar (c : char) | VString (s : str)
  | VUnit | VNone | VSome (v : value) | VNewtype (v : value)
  | VSeq (l : list value) | VTuple (l : list value) | VEnum (s : str).

  (** A field of a struct with derived [Deserialize]: [f_default] if the attribute
      [serde(default)] is there. *)
  Record field := Field { f_name : str; f_type : vty; f_default : option value }.

  (** A field with [serde(flatten)]: a struct, or a map with string keys. *)
  Inductive flat := FlatStruct (fields : list field) | FlatMap (v : vty).

  (** Values of these types; a struct is the list of its field values, a map the list
      of its entries, a flattened field is kept apart from the others. *)
  Inductive tvalue :=
  | RStruct (l : list value) | RMap (l : list (str * value)) | RKey (s : str)
  | RFlat (l : list value) (r : tvalue).

  (** Types given to [query_params], [form], [from_cow_map].  [TgAny]: types that read
      whatever comes: untagged and internally tagged enums, [IgnoredAny]; [on_empty] is
      what they make of an empty map. *)
  Inductive target :=
  | TgStruct (fields : list field) (deny : bool)  (* deny: serde(deny_unknown_fields) *)
  | TgFlat (fields : list field) (inner : flat)   (* with one flattened field *)
  | TgMap (k : kty) (v : vty)                     (* HashMap, BTreeMap, serde_json::Value *)
  | TgAny (on_empty : tvalue + form_error)
  | TgString
  | TgNumber                                      (* integers up to 64 bits, floats, bool *)
  | TgOther.                                      (* Option, newtypes, Vec, tuples, enums, (), char *)

  (** The reasons of serde's errors ([de::Error::invalid_type] and others), made into a message by
      req_deserializer.rs 417-421. *)
  Inductive mismatch :=
  | MString (s : str) | MMap | MLength (n : nat) | MUnknown (k : str) | MInt128 | MChar (s : str) | MVariant (s : str).

  Context (parse_float : bool -> str -> F + str) (serde_msg : mismatch -> str).

  (** A result, an error, or a panic. *)
  Inductive out (A : Type) := Done (a : A) | Fail (e : form_error) | Panics (p : panic).
  Arguments Done {A}. Arguments Fail {A}. Arguments Panics {A}.

  (** [Result::map]. *)
  Definition omap {A B} (f : A -> B) (o : out A) : out B :=
    match o with Done a => Done (f a) | Fail e => Fail e | Panics p => Panics p end.

  (** ** [str::parse] *)

  (** [char::to_digit(10)] (std). *)
  Definition digit (c : char) : option Z :=
    if within 48 57 c then Some (Z.of_N (c - 48)) else None.

  (** The texts of [ParseIntError] (std). *)
  Definition int_empty : str := lit "cannot parse integer from empty string".
  Definition int_invalid : str := lit "invalid digit found in string".
  Definition int_large : str := lit "number too large to fit in target type".
  Definition int_small : str := lit "number too small to fit in target type".

  (** The loops of [from_str_radix]: [checked_mul], then [checked_add] or [checked_sub]. *)
  Fixpoint parse_pos (hi acc : Z) (s : str) : Z + str :=
    match s with
    | [] => inl acc
    | c :: r =>
        match digit c with
        | None => inr int_invalid
        | Some d =>
            if (hi <? acc * 10)%Z then inr int_large
            else if (hi <? acc * 10 + d)%Z then inr int_large
            else parse_pos hi (acc * 10 + d)%Z r
        end
    end.
  (** The loop for negative numbers. *)
  Fixpoint parse_neg (lo acc : Z) (s : str) : Z + str :=
    match s with
    | [] => inl acc
    | c :: r =>
        match digit c with
        | None => inr int_invalid
        | Some d =>
            if (acc * 10 <? lo)%Z then inr int_small
            else if (acc * 10 - d <? lo)%Z then inr int_small
            else parse_neg lo (acc * 10 - d)%Z r
        end
    end.

  (** [str::parse] of an integer type ([from_str_radix] with radix 10); the error is
      its display text. *)
  Definition parse_int (t : ity) (s : str) : Z + str :=
    match s with
    | [] => inr int_empty
    | c :: r =>
        if ((c =? 43) || (c =? 45))%N && is_empty r then inr int_invalid
        else if (c =? 43)%N then parse_pos (i_max t) 0 r
        else if (c =? 45)%N && i_signed t then parse_neg (i_min t) 0 r
        else parse_pos (i_max t) 0 s
    end.

  (** [str::parse::<bool>]. *)
  Definition parse_bool (s : str) : bool + str :=
    if str_eqb s (lit "true") then inl true
    else if str_eqb s (lit "false") then inl false
    else inr (lit "provided string was not `true` or `false`").

  (** ** req_deserializer.rs 199-361: [FormValueDeserializer], [FromSeq]

      The state is the slice [input]; each function returns the new slice too. *)

  (** Lines 186-197: [from_string_forms_impl]; [input[0]] panics on an empty slice.
      The deserializer of the parsed value gives it to the visitor of the same type. *)
  Definition from_string {A} (parse : str -> A + str) (mk : A -> value) (input : list str) : out value :=
    match input with
    | [] => Panics PIndex
    | s :: _ => match parse s with
                | inl x => Done (mk x)
                | inr e => Fail (FMessage e)
                end
    end.

  (** Lines 342-361: [FromSeq::next_element_seed]; [d] deserializes the element. *)
  Definition next_element (d : list str -> out value * list str) (first : bool) (input : list str)
    : out (option value) * list str :=
    if (length input =? 1)%nat && negb first then (Done None, input)
    else
      match (if first then Some input
             else match input with [] => None | _ :: r => Some r end) with
      | None => (Panics PIndex, input)
      | Some i => let '(o, i') := d i in (omap Some o, i')
      end.

  (** serde: [visit_seq] of [Vec<T>]: elements until there is none.  The loop ends
      because every further element shortens the slice ([fuel] never runs out:
      [Form*Lemmas]). *)
  Fixpoint visit_vec (d : list str -> out value * list str) (fuel : nat) (first : bool) (input : list str)
    : out (list value) * list str :=
    match fuel with
    | O => (Panics PUnreachable, input)
    | S n =>
        match next_element d first input with
        | (Done None, i) => (Done [], i)
        | (Done (Some v), i) => let '(o, j) := visit_vec d n false i in (omap (cons v) o, j)
        | (Fail e, i) => (Fail e, i)
        | (Panics p, i) => (Panics p, i)
        end
    end.

  (** serde: [visit_seq] of tuples and arrays: as many elements as there are
      components; [n] is the index of the next one. *)
  Fixpoint visit_tuple (ds : list (list str -> out value * list str)) (n : nat) (first : bool) (input : list str)
    : out (list value) * list str :=
    match ds with
    | [] => (Done [], input)
    | d :: r =>
        match next_element d first input with
        | (Done None, i) => (Fail (FMessage (serde_msg (MLength n))), i)
        | (Done (Some v), i) => let '(o, j) := visit_tuple r (S n) false i in (omap (cons v) o, j)
        | (Fail e, i) => (Fail e, i)
        | (Panics p, i) => (Panics p, i)
        end
    end.

  (** Lines 210-329: [T::deserialize(&mut FormValueDeserializer { input })].
      - 227-239, 213-218: strings, and [deserialize_any] for the types of 306-314;
      - 241-249 char, 251-261 option, 263-279 unit, 281-290 newtype, 292-297 tuple. *)
  Fixpoint de (t : vty) (input : list str) : out value * list str :=
    match t with
    | TInt it => (from_string (parse_int it) VInt input, input)
    | TInt128 => (Fail (FMessage (serde_msg MInt128)), input)
    | TBool => (from_string parse_bool VBool input, input)
    | TFloat w => (from_string (parse_float w) VFloat input, input)
    | TChar => (match input with
                | [] => Panics PIndex
                | [] :: _ => Fail FNone
                | (c :: _) :: _ => Done (VChar c)
                end, input)
    | TString => (match input with [] => Panics PIndex | s :: _ => Done (VString s) end, input)
    | TUnit => match input with
               | [] :: r => (Done VUnit, r)
               | _ => (Done VUnit, input)
               end
    | TOption t' => match input with
                    | [] :: r => (Done VNone, r)
                    | _ => let '(o, i) := de t' input in (omap VSome o, i)
                    end
    | TNewtype t' => let '(o, i) := de t' input in (omap VNewtype o, i)
    | TVec t' => let '(o, i) := visit_vec (de t') (S (S (length input))) true input in (omap VSeq o, i)
    | TTuple ts => let '(o, i) := visit_tuple (map de ts) 0 true input in (omap VTuple o, i)
    | TEnum _ | TMismatch =>
                   (match input with
                    | [] => Panics PIndex
                    | s :: _ => Fail (FMessage (serde_msg (MString s)))
                    end, input)
    end.

  (** ** req_deserializer.rs 76-184, 363-402: [FormDeserializer], [FromMap]

      The state [input] is what the iterator still has to give. *)

  (** [T::deserialize(&mut FormDeserializer { input })] for key types: lines 131-146
      for strings (153 identifiers), 87-98 for numbers, where the key is given to the
      visitor as a string, 155-169 for the others, whose visitor gets a map. *)
  Definition de_key (k : kty) (input : list entry) : out str :=
    match k, input with
    | KString, (key, _) :: _ => Done key
    | KString, [] => Fail FNone
    | KNumber, (key, _) :: _ => Fail (FMessage (serde_msg (MString key)))
    | KNumber, [] => Fail FNone
    | KOther, _ => Fail (FMessage (serde_msg MMap))
    end.

  (** Lines 377-391: [next_key_seed]. *)
  Definition next_key (k : kty) (first : bool) (input : list entry) : out (option str) * list entry :=
    let input := if first then input else tl input in
    match input with
    | [] => (Done None, input)
    | _ :: _ => (omap Some (de_key k input), input)
    end.

  (** Lines 393-401: [next_value_seed]. *)
  Definition next_value (t : vty) (input : list entry) : out value :=
    match input with
    | (_, vs) :: _ => fst (de t vs)
    | [] => Fail FNone
    end.

  (** serde: [next_value] of [IgnoredAny] (by [deserialize_any], any string is fine). *)
  Definition next_ignored (input : list entry) : out unit :=
    omap (fun _ => tt) (next_value TString input).

  (** serde: derived [visit_map] of a struct; [acc]: the fields read so far. *)
  Fixpoint visit_struct (fields : list field) (deny : bool) (fuel : nat) (first : bool)
    (input : list entry) (acc : list (str * value)) : out (list (str * value)) :=
    match fuel with
    | O => Panics PUnreachable
    | S n =>
        match next_key KString first input with
        | (Fail e, _) => Fail e
        | (Panics p, _) => Panics p
        | (Done None, _) => Done acc
        | (Done (Some key), i) =>
            match find (fun f => str_eqb key (f_name f)) fields with
            | Some f =>
                match aget str_eqb key acc with
                | Some _ => Fail (FMessage (lit "duplicate field `" ++ key ++ lit "`"))
                | None =>
                    match next_value (f_type f) i with
                    | Fail e => Fail e
                    | Panics p => Panics p
                    | Done v => visit_struct fields deny n false i (acc ++ [(key, v)])
                    end
                end
            | None =>
                if deny then Fail (FMessage (serde_msg (MUnknown key)))
                else match next_ignored i with
                     | Fail e => Fail e
                     | Panics p => Panics p
                     | Done _ => visit_struct fields deny n false i acc
                     end
            end
        end
    end.

  (** serde: the value of a field that was not read ([missing_field] gives [None] to
      [Option]s and an error otherwise). *)
  Definition missing (f : field) : out value :=
    match f_default f with
    | Some v => Done v
    | None => match f_type f with
              | TOption _ => Done VNone
              | _ => Fail (FMessage (lit "missing field `" ++ f_name f ++ lit "`"))
              end
    end.

  (** serde: the end of the derived [visit_map]: the fields in order, read or [missing]. *)
  Fixpoint fill (fields : list field) (acc : list (str * value)) : out (list value) :=
    match fields with
    | [] => Done []
    | f :: r =>
        match (match aget str_eqb (f_name f) acc with Some v => Done v | None => missing f end) with
        | Done v => omap (cons v) (fill r acc)
        | Fail e => Fail e
        | Panics p => Panics p
        end
    end.

  (** serde: [visit_map] of maps; keys are inserted one after the other. *)
  Fixpoint visit_entries (k : kty) (t : vty) (fuel : nat) (first : bool) (input : list entry)
    (acc : list (str * value)) : out (list (str * value)) :=
    match fuel with
    | O => Panics PUnreachable
    | S n =>
        match next_key k first input with
        | (Fail e, _) => Fail e
        | (Panics p, _) => Panics p
        | (Done None, _) => Done acc
        | (Done (Some key), i) =>
            match next_value t i with
            | Fail e => Fail e
            | Panics p => Panics p
            | Done v => visit_entries k t n false i (ainsert str_eqb key v acc)
            end
        end
    end.

  (** serde: [T::deserialize(ContentDeserializer::new(Content::String(s)))], used for the
      values of flattened fields.  Nothing is parsed here: numbers, bools, units and
      sequences reject the string. *)
  Fixpoint de_content (t : vty) (s : str) : out value :=
    match t with
    | TInt128 => Fail (FMessage (serde_msg MInt128))
    | TChar => match s with [c] => Done (VChar c) | _ => Fail (FMessage (serde_msg (MChar s))) end
    | TString => Done (VString s)
    | TOption t' => omap VSome (de_content t' s)
    | TNewtype t' => omap VNewtype (de_content t' s)
    | TEnum names => if existsb (str_eqb s) names then Done (VEnum s) else Fail (FMessage (serde_msg (MVariant s)))
    | TInt _ | TBool | TFloat _ | TUnit | TVec _ | TTuple _ | TMismatch => Fail (FMessage (serde_msg (MString s)))
    end.

  (** serde: derived [visit_map] of a struct with a flattened field: entries of unknown
      keys are collected, their values by [deserialize_any], that is as strings. *)
  Fixpoint visit_flat (fields : list field) (fuel : nat) (first : bool)
    (input : list entry) (acc : list (str * value)) (rest : list (str * str))
    : out (list (str * value) * list (str * str)) :=
    match fuel with
    | O => Panics PUnreachable
    | S n =>
        match next_key KString first input with
        | (Fail e, _) => Fail e
        | (Panics p, _) => Panics p
        | (Done None, _) => Done (acc, rest)
        | (Done (Some key), i) =>
            match find (fun f => str_eqb key (f_name f)) fields with
            | Some f =>
                match aget str_eqb key acc with
                | Some _ => Fail (FMessage (lit "duplicate field `" ++ key ++ lit "`"))
                | None =>
                    match next_value (f_type f) i with
                    | Fail e => Fail e
                    | Panics p => Panics p
                    | Done v => visit_flat fields n false i (acc ++ [(key, v)]) rest
                    end
                end
            | None =>
                match next_value TString i with
                | Fail e => Fail e
                | Panics p => Panics p
                | Done (VString s) => visit_flat fields n false i acc (rest ++ [(key, s)])
                | Done _ => Panics PUnreachable
                end
            end
        end
    end.

  (** serde: [FlatMapDeserializer::deserialize_struct] with the derived [visit_map] of the
      inner struct: collected entries that are fields of it. *)
  Fixpoint visit_collected (fields : list field) (rest : list (str * str)) (acc : list (str * value))
    : out (list (str * value)) :=
    match rest with
    | [] => Done acc
    | (key, s) :: r =>
        match find (fun f => str_eqb key (f_name f)) fields with
        | None => visit_collected fields r acc
        | Some f =>
            match aget str_eqb key acc with
            | Some _ => Fail (FMessage (lit "duplicate field `" ++ key ++ lit "`"))
            | None => match de_content (f_type f) s with
                      | Fail e => Fail e
                      | Panics p => Panics p
                      | Done v => visit_collected fields r (acc ++ [(key, v)])
                      end
            end
        end
    end.

  (** serde: [FlatMapDeserializer::deserialize_map] with the visitor of a map: all
      collected entries. *)
  Fixpoint collected_entries (t : vty) (rest : list (str * str)) (acc : list (str * value))
    : out (list (str * value)) :=
    match rest with
    | [] => Done acc
    | (key, s) :: r =>
        match de_content t s with
        | Fail e => Fail e
        | Panics p => Panics p
        | Done v => collected_entries t r (ainsert str_eqb key v acc)
        end
    end.

  (** serde: the flattened field, from the collected entries. *)
  Definition de_flat (inner : flat) (rest : list (str * str)) : out tvalue :=
    match inner with
    | FlatStruct fields =>
        match visit_collected fields rest [] with
        | Done acc => omap RStruct (fill fields acc)
        | Fail e => Fail e
        | Panics p => Panics p
        end
    | FlatMap t => omap RMap (collected_entries t rest [])
    end.

  (** What types of [TgAny] read: serde's [Content]. *)
  Inductive content := CString (s : str) | CMap (l : list (content * content)).

  (** serde: [Content::deserialize(&mut FormDeserializer)], which is [deserialize_any]
      (lines 114-129), so [ContentVisitor::visit_map]: keys and values are [Content]s
      again, keys read from the same deserializer.  [None]: not finished after [fuel]
      nested and successive calls. *)
  Fixpoint de_any (fuel : nat) (first : bool) (input : list entry) : option (out content * list entry) :=
    match fuel with
    | O => None
    | S n =>
        let input := if first then input else tl input in
        match input with
        | [] => Some (Done (CMap []), input)
        | _ :: _ =>
            match de_any n true input with
            | None => None
            | Some (Fail e, i) => Some (Fail e, i)
            | Some (Panics p, i) => Some (Panics p, i)
            | Some (Done k, i) =>
                match next_value TString i with
                | Fail e => Some (Fail e, i)
                | Panics p => Some (Panics p, i)
                | Done (VString s) =>
                    match de_any n false i with
                    | Some (Done (CMap l), j) => Some (Done (CMap ((k, CString s) :: l)), j)
                    | o => o
                    end
                | Done _ => Some (Panics PUnreachable, i)
                end
            end
        end
    end.

  (** Lines 65-74: [from_cow_map] on a map iterated in the order of [es].
      114-129 [deserialize_any], [deserialize_map]; 131-146, 171-183 for strings and
      numbers. *)
  Definition from_cow_map (tg : target) (es : list entry) : out tvalue :=
    match tg with
    | TgStruct fields deny =>
        match visit_struct fields deny (S (length es)) true es [] with
        | Done acc => omap RStruct (fill fields acc)
        | Fail e => Fail e
        | Panics p => Panics p
        end
    | TgFlat fields inner =>
        match visit_flat fields (S (length es)) true es [] [] with
        | Done (acc, rest) =>
            match fill fields acc with
            | Done l => omap (RFlat l) (de_flat inner rest)
            | Fail e => Fail e
            | Panics p => Panics p
            end
        | Fail e => Fail e
        | Panics p => Panics p
        end
    | TgAny on_empty =>
        (* no amount of stack is enough if there are entries: [de_any_endless] *)
        match de_any (S (length es)) true es with
        | None => Panics PStack
        | Some (Done (CMap []), _) => match on_empty with inl v => Done v | inr e => Fail e end
        | Some (Done _, _) => Panics PUnreachable
        | Some (Fail e, _) => Fail e
        | Some (Panics p, _) => Panics p
        end
    | TgMap k t => omap RMap (visit_entries k t (S (length es)) true es [])
    | TgString => omap RKey (de_key KString es)
    | TgNumber => omap RKey (de_key KNumber es)
    | TgOther => omap RKey (de_key KOther es)
    end.

  (** ** src/context.rs *)

  (** Lines 302-304: [entry(key).or_insert_with(Vec::new).push(val)]. *)
  Definition push (key val : str) (m : list entry) : list entry :=
    ainsert str_eqb key (match aget str_eqb key m with Some vs => vs | None => [] end ++ [val]) m.

  (** Lines 296-306. *)
  Definition parsed_form_map (query : bytes) : list entry :=
    fold_left (fun m '(key, val) => if negb (is_empty val) then push key val m else m) (parse query) [].

  (** Lines 309-313: [cow_form_map], from the entries in the order of [es]. *)
  Definition cow_form_map (es : list entry) : list entry :=
    fold_left (fun m '(key, val) =>
                 match aget str_eqb key m with Some _ => m | None => ainsert str_eqb key val m end) es [].

  (** Lines 292-316: [parse_queries].  [it1] and [it2] are the orders in which the two
      maps are iterated: arbitrary permutations. *)
  Definition parse_queries (it1 it2 : list entry -> list entry) (tg : target) (query : bytes) : out tvalue :=
    from_cow_map tg (it2 (cow_form_map (it1 (parsed_form_map query)))).

  (** Lines 146, 186, 315: [?] on the result: a panic is [inl (inr p)]. *)
  Definition queries_result (o : out tvalue) : (tvalue + panic) + oerror :=
    match o with
    | Done v => inl (inl v)
    | Fail e => inr (EForm e)
    | Panics p => inl (inr p)
    end.

  (** Lines 139-147: [query_params]. *)
  Definition ctx_query_params {X} (it1 it2 : list entry -> list entry) (tg : target) (c : context X)
    : (tvalue + panic) + oerror :=
    queries_result (parse_queries it1 it2 tg
      (utf8 (match rq_query (ctx_request c) with Some q => q | None => [] end))).

  (** Lines 176-187: [form]. *)
  Definition ctx_form {X} (it1 it2 : list entry -> list entry) (tg : target) (c : context X)
    : ((tvalue + panic) + oerror) * context X :=
    read_body (fun b => queries_result (parse_queries it1 it2 tg b)) c.
End Form.

Arguments value : clear implicits.
Arguments field : clear implicits.
Arguments flat : clear implicits.
Arguments target : clear implicits.
Arguments tvalue : clear implicits.
Arguments Done {A}. Arguments Fail {A}. Arguments Panics {A}.
