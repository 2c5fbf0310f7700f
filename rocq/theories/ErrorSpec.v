(** Specification of the errors of [query_params] and [form]: what they say, in terms of the
    pairs of the data.

    The texts of std and of the form deserializer are spelled out; those of serde
    ([de::Error::invalid_type] and the like) are [msg] of their reason, see [Form]. *)

From Coq Require Import String ZArith.
From Verif Require Import Base Utf8 AppSpec Http Form FormSpec Adjacent AdjacentSpec.
Local Open Scope string_scope.
Local Open Scope list_scope.

(** ** Numbers *)

(** [s] without its sign is [ds]; a '-' (45) is a sign for signed types only. *)
Definition sign_off (t : ity) (s : str) (negative : bool) (ds : str) : Prop :=
  match negative with
  | true => i_signed t = true /\ s = 45%N :: ds
  | false => s = 43%N :: ds \/
             (s = ds /\ (forall r, s <> 43%N :: r) /\ (i_signed t = true -> forall r, s <> 45%N :: r))
  end.

(** The number with these digits. *)
Definition number (negative : bool) (ds : str) : Z :=
  if negative then (- Z.of_N (digits_value ds))%Z else Z.of_N (digits_value ds).

(** [int_says t s m]: [s] is no number of type [t], and [m] says why: the first character
    that is no digit, or that makes the number too large or too small, decides. *)
Inductive int_says (t : ity) : str -> str -> Prop :=
| is_nothing : int_says t [] (lit "cannot parse integer from empty string")
| is_sign c : c = 43%N \/ c = 45%N -> int_says t [c] (lit "invalid digit found in string")
| is_invalid s neg pre c post : sign_off t s neg (pre ++ c :: post) -> all_digits pre -> in_range t (number neg pre) ->
    ~ (48 <= c <= 57)%N -> int_says t s (lit "invalid digit found in string")
| is_beyond s neg pre c post : sign_off t s neg (pre ++ c :: post) -> all_digits (pre ++ [c]) -> in_range t (number neg pre) ->
    ~ in_range t (number neg (pre ++ [c])) ->
    int_says t s (if neg then lit "number too small to fit in target type" else lit "number too large to fit in target type").

Section Says.
  Context {F : Type} (pf : bool -> str -> F + str) (msg : mismatch -> str).

  (** ** Values *)

  (** [complains t l m]: the texts [l] give no [t], and [m] says why: the complaint is about
      the first text that cannot be read; a tuple may also run out of texts. *)
  Inductive complains : vty -> list str -> str -> Prop :=
  | co_int it s r m : int_says it s m -> complains (TInt it) (s :: r) m
  | co_int128 s r : complains TInt128 (s :: r) (msg MInt128)
  | co_bool s r : s <> lit "true" -> s <> lit "false" ->
      complains TBool (s :: r) (lit "provided string was not `true` or `false`")
  | co_float w s r m : pf w s = inr m -> complains (TFloat w) (s :: r) m
  | co_option t l m : complains t l m -> complains (TOption t) l m
  | co_newtype t l m : complains t l m -> complains (TNewtype t) l m
  | co_vec t n l vs l' m : reads_each pf (repeat t n) l vs l' -> complains t l' m -> complains (TVec t) l m
  | co_tuple ts1 t ts2 l vs l' m : reads_each pf ts1 l vs l' -> complains t l' m -> complains (TTuple (ts1 ++ t :: ts2)) l m
  | co_short ts1 t ts2 l vs : l <> [] -> reads_each pf ts1 l vs [] ->
      complains (TTuple (ts1 ++ t :: ts2)) l (msg (MLength (length ts1)))
  | co_enum names s r : complains (TEnum names) (s :: r) (msg (MString s))
  | co_mismatch s r : complains TMismatch (s :: r) (msg (MString s)).

  (** The same for the values of flattened fields, which are not parsed. *)
  Inductive unparsed_says : vty -> str -> str -> Prop :=
  | us_int128 s : unparsed_says TInt128 s (msg MInt128)
  | us_char s : (forall c, s <> [c]) -> unparsed_says TChar s (msg (MChar s))
  | us_enum names s : ~ In s names -> unparsed_says (TEnum names) s (msg (MVariant s))
  | us_option t s m : unparsed_says t s m -> unparsed_says (TOption t) s m
  | us_newtype t s m : unparsed_says t s m -> unparsed_says (TNewtype t) s m
  | us_string t s : match t with
                    | TInt _ | TBool | TFloat _ | TUnit | TVec _ | TTuple _ | TMismatch => True
                    | _ => False
                    end -> unparsed_says t s (msg (MString s)).

  (** ** Structs and maps *)

  (** [f] is the first field of [fs] that is missing; [has f]: it has a value. *)
  Definition first_missing (has : field F -> Prop) (ps : list (str * str)) (fs : list (field F)) (f : field F) : Prop :=
    exists pre post, fs = pre ++ f :: post /\ (forall g, In g pre -> has g) /\ required f /\ values_of (f_name f) ps = [].

  (** A field that is there cannot be read, or there is an unknown one that is denied... *)
  Inductive struct_fault (ps : list (str * str)) (fs : list (field F)) (deny : bool) : str -> Prop :=
  | sf_field f m : In f fs -> complains (f_type f) (values_of (f_name f) ps) m -> struct_fault ps fs deny m
  | sf_unknown k : deny = true -> values_of k ps <> [] -> ~ In k (map f_name fs) -> struct_fault ps fs deny (msg (MUnknown k)).

  (** ... or, only if neither is the case, a field is missing. *)
  Inductive struct_says (ps : list (str * str)) (fs : list (field F)) (deny : bool) : str -> Prop :=
  | ss_fault m : struct_fault ps fs deny m -> struct_says ps fs deny m
  | ss_missing f : (forall m, ~ struct_fault ps fs deny m) -> first_missing (fun g => exists v, field_value pf ps g v) ps fs f ->
      struct_says ps fs deny (lit "missing field `" ++ f_name f ++ lit "`").

  (** A flattened field is looked at when all the others have values. *)
  Inductive inner_says (ps : list (str * str)) (names : list str) : flat F -> str -> Prop :=
  | in_field gs g s r m : In g gs -> values_of (f_name g) ps = s :: r -> unparsed_says (f_type g) s m ->
      inner_says ps names (FlatStruct gs) m
  | in_missing gs g : (forall h s r m, In h gs -> values_of (f_name h) ps = s :: r -> ~ unparsed_says (f_type h) s m) ->
      first_missing (fun h => exists v, plain_value ps h v) ps gs g ->
      inner_says ps names (FlatStruct gs) (lit "missing field `" ++ f_name g ++ lit "`")
  | in_entry t k s r m : ~ In k names -> values_of k ps = s :: r -> unparsed_says t s m -> inner_says ps names (FlatMap t) m.

  (** ** All targets *)

  (** [target_says ps tg m]: reading [tg] from the pairs [ps] may fail with [m]. *)
  Definition target_says (ps : list (str * str)) (tg : target F) (m : str) : Prop :=
    match tg with
    | TgStruct fs deny => struct_says ps fs deny m
    | TgFlat fs inner => struct_says ps fs false m \/
                         (exists vs, Forall2 (field_value pf ps) fs vs) /\ inner_says ps (map f_name fs) inner m
    | TgMap KString t => exists k, complains t (values_of k ps) m
    | TgMap KNumber _ => exists k, values_of k ps <> [] /\ m = msg (MString k)
    | TgMap KOther _ => (exists k, values_of k ps <> []) /\ m = msg MMap
    | TgAny on_empty => (forall k, values_of k ps = []) /\ exists e, on_empty = inr e /\ m = error_text (EForm e)
    | TgString => (forall k, values_of k ps = []) /\ m = lit "Input should not be None"
    | TgNumber => (forall k, values_of k ps = []) /\ m = lit "Input should not be None" \/
                  exists k, values_of k ps <> [] /\ m = msg (MString k)
    | TgOther => m = msg MMap
    end.

  (** The names are different, as in every struct. *)
  Definition named_apart (tg : target F) : Prop :=
    match tg with
    | TgStruct fs _ => NoDup (map f_name fs)
    | TgFlat fs inner => apart fs inner
    | _ => True
    end.

  (** ** Enums with a tag and a content *)

  Inductive adjacent_says (aj : adjacent) (ps : list (str * str)) : str -> Prop :=
  | as_unknown k : aj_deny aj = true -> values_of k ps <> [] -> k <> aj_tag aj -> k <> aj_key aj ->
      adjacent_says aj ps (msg (MUnknown k))
  | as_untagged : admitted aj ps -> values_of (aj_tag aj) ps = [] ->
      adjacent_says aj ps (lit "missing field `" ++ aj_tag aj ++ lit "`")
  | as_variant s r : values_of (aj_tag aj) ps = s :: r -> ~ In s (map va_name (aj_variants aj)) ->
      adjacent_says aj ps (msg (MVariant s))
  | as_content n t m : tagged aj ps (Variant n (Some t)) -> complains t (values_of (aj_key aj) ps) m -> adjacent_says aj ps m
  | as_text n t s r m : tagged aj ps (Variant n (Some t)) -> values_of (aj_key aj) ps = s :: r -> unparsed_says t s m ->
      adjacent_says aj ps m
  | as_superfluous n s r : tagged aj ps (Variant n None) -> values_of (aj_key aj) ps = s :: r -> adjacent_says aj ps (msg (MString s))
  | as_missing n t : admitted aj ps -> tagged aj ps (Variant n (Some t)) -> (forall t', t <> TOption t') -> values_of (aj_key aj) ps = [] ->
      adjacent_says aj ps (lit "missing field `" ++ aj_key aj ++ lit "`").
End Says.
