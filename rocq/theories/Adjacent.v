(** Model of [query_params] and [form] (src/context.rs 139-147, 176-187, 292-316) for one
    more kind of target: enums with [serde(tag = "...", content = "...")], whose derived
    [Deserialize] of serde 1.0.126 drives src/router/req_deserializer.rs.

    Simplifications: those of [Form]; struct variants, which no text can be read as, are
    newtype variants of a [TMismatch].  Not modelled: [serde(other)], [alias],
    [deserialize_with]. *)

From Coq Require Import String ZArith.
From Verif Require Import Base Utf8 RouteTrie UrlEncoded Http Form.
Local Open Scope list_scope.

(** A variant: [None] if it has no content; the content of a tuple variant is a
    [TTuple]. *)
Record variant := Variant { va_name : str; va_content : option vty }.

(** The enum: its keys, its variants, and whether [serde(deny_unknown_fields)] is there. *)
Record adjacent := Adjacent { aj_tag : str; aj_key : str; aj_variants : list variant; aj_deny : bool }.

(** serde: [TagOrContentField]. *)
Inductive akey := KTag | KContent.

Section Adjacent.
  Context {F : Type} (parse_float : bool -> str -> F + str) (serde_msg : mismatch -> str) (aj : adjacent).

  (** A value: the name of the variant and its content. *)
  Notation evalue := (str * option (value F))%type.

  (** serde: [next_relevant_key]: the keys other than the two are ignored (with
      req_deserializer.rs 377-401), or an error. *)
  Fixpoint relevant_key (fuel : nat) (first : bool) (input : list entry) : out (option akey) * list entry :=
    match fuel with
    | O => (Panics PUnreachable, input)
    | S n =>
        match next_key serde_msg KString first input with
        | (Fail e, i) => (Fail e, i)
        | (Panics p, i) => (Panics p, i)
        | (Done None, i) => (Done None, i)
        | (Done (Some key), i) =>
            if str_eqb key (aj_tag aj) then (Done (Some KTag), i)
            else if str_eqb key (aj_key aj) then (Done (Some KContent), i)
            else if aj_deny aj then (Fail (FMessage (serde_msg (MUnknown key))), i)
            else match next_ignored parse_float serde_msg i with
                 | Fail e => (Fail e, i)
                 | Panics p => (Panics p, i)
                 | Done _ => relevant_key n false i
                 end
        end
    end.

  (** The tag: [next_value] of the generated [__Field], by [deserialize_identifier]
      (req_deserializer.rs 299-304, 227-239). *)
  Definition read_tag (input : list entry) : out variant :=
    match next_value parse_float serde_msg TString input with
    | Fail e => Fail e
    | Panics p => Panics p
    | Done (VString s) =>
        match find (fun v => str_eqb s (va_name v)) (aj_variants aj) with
        | Some v => Done v
        | None => Fail (FMessage (serde_msg (MVariant s)))
        end
    | Done _ => Panics PUnreachable
    end.

  (** The content if the tag is known: [next_value_seed] with the type of the variant; a
      variant without content accepts no text ([UntaggedUnitVisitor]). *)
  Definition read_content (v : variant) (input : list entry) : out evalue :=
    match va_content v with
    | Some t => omap (fun x => (va_name v, Some x)) (next_value parse_float serde_msg t input)
    | None => omap (fun x => (va_name v, Some x)) (next_value parse_float serde_msg TMismatch input)
    end.

  (** The content if it comes before the tag: it is kept as a [Content::String]... *)
  Definition read_later (v : variant) (s : str) : out evalue :=
    match va_content v with
    | Some t => omap (fun x => (va_name v, Some x)) (de_content serde_msg t s)
    | None => omap (fun x => (va_name v, Some x)) (de_content serde_msg TMismatch s)
    end.

  (** ... and if it does not come at all. *)
  Definition no_content (v : variant) : out evalue :=
    match va_content v with
    | None => Done (va_name v, None)
    | Some t => omap (fun x => (va_name v, Some x)) (missing (Field (aj_key aj) t None))
    end.

  (** serde: [de::Error::duplicate_field]. *)
  Definition duplicate {A} (k : str) : out A := Fail (FMessage (lit "duplicate field `" ++ k ++ lit "`")).
  (** serde: [de::Error::missing_field]. *)
  Definition missing_tag {A} : out A := Fail (FMessage (lit "missing field `" ++ aj_tag aj ++ lit "`")).

  (** serde: [visit_remaining_keys]. *)
  Definition remaining (fuel : nat) (input : list entry) (r : evalue) : out evalue :=
    match fst (relevant_key fuel false input) with
    | Fail e => Fail e
    | Panics p => Panics p
    | Done None => Done r
    | Done (Some KTag) => duplicate (aj_tag aj)
    | Done (Some KContent) => duplicate (aj_key aj)
    end.

  (** serde: derived [visit_map] of the enum, called by [deserialize_struct]
      (req_deserializer.rs 155-169, 114-129, 65-74) on a map iterated in the order of [es]. *)
  Definition from_cow_map_adjacent (es : list entry) : out evalue :=
    let fuel := S (length es) in
    match relevant_key fuel true es with
    | (Fail e, _) => Fail e
    | (Panics p, _) => Panics p
    | (Done None, _) => missing_tag
    | (Done (Some KTag), i) =>
        match read_tag i with
        | Fail e => Fail e
        | Panics p => Panics p
        | Done v =>
            match relevant_key fuel false i with
            | (Fail e, _) => Fail e
            | (Panics p, _) => Panics p
            | (Done None, _) => no_content v
            | (Done (Some KTag), _) => duplicate (aj_tag aj)
            | (Done (Some KContent), j) =>
                match read_content v j with
                | Fail e => Fail e
                | Panics p => Panics p
                | Done r => remaining fuel j r
                end
            end
        end
    | (Done (Some KContent), i) =>
        match next_value parse_float serde_msg TString i with
        | Fail e => Fail e
        | Panics p => Panics p
        | Done (VString s) =>
            match relevant_key fuel false i with
            | (Fail e, _) => Fail e
            | (Panics p, _) => Panics p
            | (Done None, _) => missing_tag
            | (Done (Some KContent), _) => duplicate (aj_key aj)
            | (Done (Some KTag), j) =>
                match read_tag j with
                | Fail e => Fail e
                | Panics p => Panics p
                | Done v =>
                    match read_later v s with
                    | Fail e => Fail e
                    | Panics p => Panics p
                    | Done r => remaining fuel j r
                    end
                end
            end
        | Done _ => Panics PUnreachable
        end
    end.

  (** src/context.rs 292-316: [parse_queries], see [Form.parse_queries]. *)
  Definition parse_queries_adjacent (it1 it2 : list entry -> list entry) (query : bytes) : out evalue :=
    from_cow_map_adjacent (it2 (cow_form_map (it1 (parsed_form_map query)))).

  (** [?] on the result (context.rs 146, 186), see [Form.queries_result]. *)
  Definition adjacent_result (o : out evalue) : (evalue + panic) + oerror :=
    match o with
    | Done v => inl (inl v)
    | Fail e => inr (EForm e)
    | Panics p => inl (inr p)
    end.

  (** src/context.rs 139-147: [query_params]. *)
  Definition ctx_query_adjacent {X} (it1 it2 : list entry -> list entry) (c : context X)
    : (evalue + panic) + oerror :=
    adjacent_result (parse_queries_adjacent it1 it2
      (utf8 (match rq_query (ctx_request c) with Some q => q | None => [] end))).

  (** src/context.rs 176-187: [form]. *)
  Definition ctx_form_adjacent {X} (it1 it2 : list entry -> list entry) (c : context X)
    : ((evalue + panic) + oerror) * context X :=
    read_body (fun b => adjacent_result (parse_queries_adjacent it1 it2 b)) c.
End Adjacent.
