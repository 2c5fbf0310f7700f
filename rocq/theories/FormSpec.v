(** Specification of query and form data, without reference to the deserializer.

    The types of targets and values are those of [Form]; [parse] of [UrlEncoded]
    gives the pairs of some encoded data. *)

From Coq Require Import String ZArith.
From Verif Require Import Base Utf8 AppSpec Http Form.
Local Open Scope list_scope.

(** ** Encoded data *)

(** [c] is a hexadecimal digit of value [d]. *)
Definition hex_char (c d : N) : Prop :=
  ((48 <= c <= 57 /\ d = c - 48) \/ (65 <= c <= 70 /\ d = c - 55) \/ (97 <= c <= 102 /\ d = c - 87))%N.

(** [e] is a way to write byte [b]: as it is, if it is not reserved, a space as '+',
    or by its hexadecimal code. *)
Inductive writes_byte (reserved : list N) (b : N) : bytes -> Prop :=
| wb_plain : ~ In b reserved -> writes_byte reserved b [b]
| wb_space : b = 32%N -> writes_byte reserved b [43%N]
| wb_hex h l dh dl : hex_char h dh -> hex_char l dl -> b = (16 * dh + dl)%N ->
    writes_byte reserved b [37; h; l]%N.

Definition writes_text (reserved : list N) (s : str) (e : bytes) : Prop :=
  exists parts, Forall2 (writes_byte reserved) (utf8 s) parts /\ e = concat parts.

(** A pair is written "name=value"; '=' may be left as it is in the value.
    (Reserved: '&' 38, '=' 61, '+' 43, '%' 37.) *)
Definition writes_pair (p : str * str) (e : bytes) : Prop :=
  exists name value, writes_text [38; 61; 43; 37]%N (fst p) name /\
    writes_text [38; 43; 37]%N (snd p) value /\ e = name ++ [61%N] ++ value.

Fixpoint join_amp (l : list bytes) : bytes :=
  match l with
  | [] => []
  | [a] => a
  | a :: r => a ++ 38%N :: join_amp r
  end.

(** [q] is the list of pairs [ps] in encoded form. *)
Definition encodes (ps : list (str * str)) (q : bytes) : Prop :=
  exists parts, Forall2 writes_pair ps parts /\ q = join_amp parts.

(** The standard serializer of the URL standard: letters, digits, '*', '-', '.', '_'
    as they are, a space as '+', everything else in capital hexadecimal. *)
Definition hex_capital (d : N) : N := (if d <? 10 then 48 + d else 55 + d)%N.
Definition standard_byte (b : N) : bytes :=
  (if ((48 <=? b) && (b <=? 57)) || ((65 <=? b) && (b <=? 90)) || ((97 <=? b) && (b <=? 122))
      || (b =? 42) || (b =? 45) || (b =? 46) || (b =? 95)
   then [b]
   else if b =? 32 then [43]
   else [37; hex_capital (b / 16); hex_capital (b mod 16)])%N.
Definition standard_text (s : str) : bytes := flat_map standard_byte (utf8 s).
Definition standard (ps : list (str * str)) : bytes :=
  join_amp (map (fun p => standard_text (fst p) ++ [61%N] ++ standard_text (snd p)) ps).

(** ** Values by key *)

(** The non-empty values of [k] in [ps], in order. *)
Definition values_of (k : str) (ps : list (str * str)) : list str :=
  map snd (filter (fun p => str_eqb k (fst p) && negb (is_empty (snd p))) ps).

(** ** Numbers *)

Definition in_range (t : ity) (z : Z) : Prop :=
  if i_signed t
  then (- 2 ^ (Z.pos (i_bits t) - 1) <= z < 2 ^ (Z.pos (i_bits t) - 1))%Z
  else (0 <= z < 2 ^ Z.pos (i_bits t))%Z.

Definition all_digits (s : str) : Prop := forall c, In c s -> (48 <= c <= 57)%N.

(** [s] is a numeral of [z], written with an optional '+' (43), or with '-' (45) if
    the type is signed, and [z] fits. *)
Definition int_text (t : ity) (s : str) (z : Z) : Prop :=
  exists ds, ds <> [] /\ all_digits ds /\ in_range t z /\
    ((s = ds \/ s = 43%N :: ds) /\ z = Z.of_N (digits_value ds) \/
     i_signed t = true /\ s = 45%N :: ds /\ z = (- Z.of_N (digits_value ds))%Z).

(** The usual way to write an integer. *)
Definition written (z : Z) : str :=
  if (z <? 0)%Z then 45%N :: dec (Z.to_N (- z)) else dec (Z.to_N z).

(** ** Values of a field *)

Section Reads.
  Context {F : Type} (parse_float : bool -> str -> F + str).

  (** One text gives a scalar. *)
  Inductive scalar_text : vty -> str -> value F -> Prop :=
  | st_int t s z : int_text t s z -> scalar_text (TInt t) s (VInt z)
  | st_true : scalar_text TBool (lit "true") (VBool true)
  | st_false : scalar_text TBool (lit "false") (VBool false)
  | st_float w s f : parse_float w s = inl f -> scalar_text (TFloat w) s (VFloat f)
  | st_char c s : scalar_text TChar (c :: s) (VChar c)
  | st_string s : scalar_text TString s (VString s)
  | st_unit s : scalar_text TUnit s VUnit.

  (** [reads t l v r]: reading a [t] from the texts [l] takes some of them, gives [v]
      and leaves [r].  A scalar takes one text, an option what its content takes, a
      vector all texts, a tuple what its components take one after the other. *)
  Inductive reads : vty -> list str -> value F -> list str -> Prop :=
  | rd_scalar t s v r : scalar_text t s v -> reads t (s :: r) v r
  | rd_option t l v r : reads t l v r -> reads (TOption t) l (VSome v) r
  | rd_newtype t l v r : reads t l v r -> reads (TNewtype t) l (VNewtype v) r
  | rd_vec t l vs : l <> [] -> reads_all t l vs -> reads (TVec t) l (VSeq vs) []
  | rd_tuple t ts l vs r : reads_each (t :: ts) l vs r -> reads (TTuple (t :: ts)) l (VTuple vs) r
  | rd_empty s r : reads (TTuple []) (s :: r) (VTuple []) r
  with reads_all : vty -> list str -> list (value F) -> Prop :=
  | ra_nil t : reads_all t [] []
  | ra_cons t l v r vs : reads t l v r -> reads_all t r vs -> reads_all t l (v :: vs)
  with reads_each : list vty -> list str -> list (value F) -> list str -> Prop :=
  | re_nil l : reads_each [] l [] l
  | re_cons t ts l v m vs r : reads t l v m -> reads_each ts m vs r -> reads_each (t :: ts) l (v :: vs) r.

  (** The value of a field or map entry with texts [l]; texts left over are ignored. *)
  Definition gives (t : vty) (l : list str) (v : value F) : Prop := exists rest, reads t l v rest.

  (** The value of field [f] of a struct read from the pairs [ps]. *)
  Definition field_value (ps : list (str * str)) (f : field F) (v : value F) : Prop :=
    let vs := values_of (f_name f) ps in
    (vs <> [] /\ gives (f_type f) vs v) \/
    (vs = [] /\ (f_default f = Some v \/
                 f_default f = None /\ (exists t, f_type f = TOption t) /\ v = VNone)).

  (** A field that must be there: neither an option nor defaulted. *)
  Definition required (f : field F) : Prop := f_default f = None /\ forall t, f_type f <> TOption t.

  (** [m] is the map with the values of all keys of [ps]. *)
  Definition map_of (ps : list (str * str)) (t : vty) (m : list (str * value F)) : Prop :=
    NoDup (map fst m) /\
    (forall k v, In (k, v) m -> values_of k ps <> [] /\ gives t (values_of k ps) v) /\
    (forall k, values_of k ps <> [] -> exists v, In (k, v) m).

  (** The same result: maps have no order, an error is an error. *)
  Definition same_value (a b : tvalue F) : Prop :=
    match a, b with
    | RMap m, RMap m' => Permutation m m'
    | RFlat l (RMap m), RFlat l' (RMap m') => l = l' /\ Permutation m m'
    | _, _ => a = b
    end.
  (** What a handler gets. *)
  Definition same_reading (a b : (tvalue F + panic) + oerror) : Prop :=
    match a, b with
    | inl (inl x), inl (inl y) => same_value x y
    | inl (inr p), inl (inr p') => p = p'
    | inr (EForm _), inr (EForm _) => True
    | _, _ => False
    end.

  Definition same_outcome (a b : out (tvalue F)) : Prop :=
    match a, b with
    | Done x, Done y => same_value x y
    | Fail _, Fail _ => True
    | Panics p, Panics p' => p = p'
    | _, _ => False
    end.

  (** Flattened fields are read from the first value of their key, as a text: [plain t s
      v] does not parse anything. *)
  Inductive plain : vty -> str -> value F -> Prop :=
  | pl_string s : plain TString s (VString s)
  | pl_char c : plain TChar [c] (VChar c)
  | pl_enum names s : In s names -> plain (TEnum names) s (VEnum s)
  | pl_option t s v : plain t s v -> plain (TOption t) s (VSome v)
  | pl_newtype t s v : plain t s v -> plain (TNewtype t) s (VNewtype v).

  Definition plain_value (ps : list (str * str)) (f : field F) (v : value F) : Prop :=
    (exists s rest, values_of (f_name f) ps = s :: rest /\ plain (f_type f) s v) \/
    (values_of (f_name f) ps = [] /\
     (f_default f = Some v \/ f_default f = None /\ (exists t, f_type f = TOption t) /\ v = VNone)).

  (** [m] is the map of the keys of [ps] other than [names]. *)
  Definition plain_map (ps : list (str * str)) (names : list str) (t : vty) (m : list (str * value F)) : Prop :=
    NoDup (map fst m) /\
    (forall k v, In (k, v) m -> ~ In k names /\ exists s rest, values_of k ps = s :: rest /\ plain t s v) /\
    (forall k, ~ In k names -> values_of k ps <> [] -> exists v, In (k, v) m).

  (** The value of a flattened field; [names]: the fields beside it. *)
  Definition flat_value (ps : list (str * str)) (names : list str) (inner : flat F) (r : tvalue F) : Prop :=
    match inner with
    | FlatStruct gs => exists l, r = RStruct l /\ Forall2 (plain_value ps) gs l
    | FlatMap t => exists m, r = RMap m /\ plain_map ps names t m
    end.

  (** The fields of a flattened struct are none of the others. *)
  Definition apart (fs : list (field F)) (inner : flat F) : Prop :=
    match inner with
    | FlatStruct gs => NoDup (map f_name (fs ++ gs))
    | FlatMap _ => NoDup (map f_name fs)
    end.
End Reads.

(** An order of iteration: any rearrangement. *)
Definition iteration {A} (it : list A -> list A) : Prop := forall l, Permutation (it l) l.

(** The part of a type that is not below a vector or tuple contains all its options
    and units. *)
Fixpoint no_option (t : vty) : Prop :=
  match t with
  | TUnit | TOption _ => False
  | TNewtype t' | TVec t' => no_option t'
  | TTuple ts => (fix all (l : list vty) : Prop := match l with [] => True | x :: r => no_option x /\ all r end) ts
  | _ => True
  end.
Fixpoint options_outside (t : vty) : Prop :=
  match t with
  | TOption t' | TNewtype t' => options_outside t'
  | TUnit => True
  | TVec t' => no_option t'
  | TTuple ts => (fix all (l : list vty) : Prop := match l with [] => True | x :: r => no_option x /\ all r end) ts
  | _ => True
  end.
Definition target_options_outside {F} (tg : target F) : Prop :=
  match tg with
  | TgStruct fs _ | TgFlat fs _ => forall f, In f fs -> options_outside (f_type f)
  | TgMap _ t => options_outside t
  | _ => True
  end.

(** What happens to the texts of a [Vec<Option<String>>] in fact: the text after an
    empty one is skipped, and there is a panic ([None]) if there is none. *)
Fixpoint skipping (l : list str) : option (list (option str)) :=
  match l with
  | [] => None
  | [] :: r =>
      match r with
      | [] => None
      | _ :: r' => match r' with [] => Some [None] | _ => option_map (cons None) (skipping r') end
      end
  | s :: r => match r with [] => Some [Some s] | _ => option_map (cons (Some s)) (skipping r) end
  end.

Definition option_value {F} (o : option str) : value F :=
  match o with Some s => VSome (VString s) | None => VNone end.

Definition is_scalar (t : vty) : Prop :=
  match t with TInt _ | TBool | TFloat _ | TChar | TString | TUnit => True | _ => False end.

(** The text after '?' of the request. *)
Definition query_text {X} (c : context X) : str :=
  match rq_query (ctx_request c) with Some q => q | None => [] end.

(** The two ways of a handler to read encoded data: [query_params] and [form]. *)
Inductive source := FromQuery | FromBody.

Definition read_from {F X} (pf : bool -> str -> F + str) msg it1 it2 (src : source) (tg : target F) (c : context X)
  : (tvalue F + panic) + oerror :=
  match src with
  | FromQuery => ctx_query_params pf msg it1 it2 tg c
  | FromBody => fst (ctx_form pf msg it1 it2 tg c)
  end.

(** [q] is the data: the text after '?', or a body that arrives in one chunk (see C40). *)
Definition has_data {X} (src : source) (c : context X) (q : bytes) : Prop :=
  match src with
  | FromQuery => q = utf8 (query_text c)
  | FromBody => broken (rq_body (ctx_request c)) = false /\ one_chunk (rq_body (ctx_request c)) /\
                q = body_bytes (rq_body (ctx_request c))
  end.

(** At most one key has values. *)
Definition one_key (ps : list (str * str)) : Prop :=
  forall k k', values_of k ps <> [] -> values_of k' ps <> [] -> k = k'.

(** Enums, also inside of options, newtypes and vectors. *)
Inductive enum_type : vty -> Prop :=
| et_enum names : enum_type (TEnum names)
| et_option t : enum_type t -> enum_type (TOption t)
| et_newtype t : enum_type t -> enum_type (TNewtype t)
| et_vec t : enum_type t -> enum_type (TVec t).

(** Strings, also inside of options and newtypes. *)
Inductive text_type : vty -> Prop :=
| tt_string : text_type TString
| tt_option t : text_type t -> text_type (TOption t)
| tt_newtype t : text_type t -> text_type (TNewtype t).
