(** Specification of url-encoded data of any form, well-formed or not: the parser of
    the URL standard and the replacement of ill-formed UTF-8 by U+FFFD as the Unicode
    standard recommends (section 3.9). *)

From Verif Require Import Base Utf8 AppSpec Http Form FormSpec.
Local Open Scope N_scope.

(** '+' (43) is a space, '%' (37) with two hexadecimal digits a byte, and everything
    else is itself. *)
Inductive unescapes : bytes -> bytes -> Prop :=
| ue_nil : unescapes [] []
| ue_plus r o : unescapes r o -> unescapes (43 :: r) (32 :: o)
| ue_hex h l dh dl r o : hex_char h dh -> hex_char l dl -> unescapes r o ->
    unescapes (37 :: h :: l :: r) (16 * dh + dl :: o)
| ue_other x r o : x <> 43 ->
    ~ (x = 37 /\ exists h l dh dl r', r = h :: l :: r' /\ hex_char h dh /\ hex_char l dl) ->
    unescapes r o -> unescapes (x :: r) (x :: o).

(** [p] begins the encoding of some character. *)
Definition begins_char (p : bytes) : Prop := exists c s, scalar c /\ utf8_char c = p ++ s.

(** [p] is a maximal ill-formed part at the start of [p ++ r]: no character is encoded
    there, and [p] is the longest part that begins one, or a single byte. *)
Definition ill_formed (p r : bytes) : Prop :=
  p <> [] /\ (forall c s, scalar c -> p ++ r <> utf8_char c ++ s) /\
  (begins_char p \/ length p = 1%nat) /\
  forall p' r', p ++ r = p' ++ r' -> (length p < length p')%nat -> ~ begins_char p'.

(** [s] is the text of the bytes [b], with U+FFFD for each maximal ill-formed part. *)
Inductive text_of : bytes -> str -> Prop :=
| to_nil : text_of [] []
| to_char c r s : scalar c -> text_of r s -> text_of (utf8_char c ++ r) (c :: s)
| to_ill p r s : ill_formed p r -> text_of r s -> text_of (p ++ r) (65533 :: s).

Definition decodes (e : bytes) (s : str) : Prop := exists b, unescapes e b /\ text_of b s.

(** A part between two '&' (38): name and value are separated by the first '=' (61),
    the value is empty if there is none. *)
Definition decodes_pair (e : bytes) (p : str * str) : Prop :=
  exists name value, ~ In 61 name /\ (e = name ++ 61 :: value \/ e = name /\ value = []) /\
    decodes name (fst p) /\ decodes value (snd p).

(** The pairs of [q]: one for each non-empty part. *)
Definition form_pairs (q : bytes) (ps : list (str * str)) : Prop :=
  exists parts, q = join_amp parts /\ (forall e, In e parts -> ~ In 38 e) /\
    Forall2 decodes_pair (filter (fun e => negb (is_empty e)) parts) ps.
