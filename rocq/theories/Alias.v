(** Model of [query_params] and [form] (src/context.rs 139-147, 176-187, 292-316) for structs
    with [serde(alias = "...")] at some fields, whose derived [Deserialize] of serde 1.0.126
    drives src/router/req_deserializer.rs.

    Simplifications: those of [Form].  Not modelled: aliases of fields beside flattened
    ones, aliases of variants. *)

From Coq Require Import String ZArith.
From Verif Require Import Base Utf8 RouteTrie UrlEncoded Http Form.
Local Open Scope string_scope.
Local Open Scope list_scope.

(** A field and its aliases (there may be none). *)
Record afield {F : Type} := AField { a_field : field F; a_aliases : list str }.
Arguments afield : clear implicits.
Arguments AField {F} _ _.

Section Alias.
  Context {F : Type} (parse_float : bool -> str -> F + str) (serde_msg : mismatch -> str).

  (** The names of a field: its own one and its aliases. *)
  Definition names (f : afield F) : list str := f_name (a_field f) :: a_aliases f.

  (** serde: [visit_str] of the derived [__FieldVisitor]: the arms in the order of the
      fields. *)
  Definition named (fields : list (afield F)) (key : str) : option (afield F) :=
    find (fun f => existsb (str_eqb key) (names f)) fields.

  (** serde: derived [visit_map]; [acc]: the fields read so far, by their own names (with
      req_deserializer.rs 377-401), see [Form.visit_struct]. *)
  Fixpoint visit_alias (fields : list (afield F)) (deny : bool) (fuel : nat) (first : bool)
    (input : list entry) (acc : list (str * value F)) : out (list (str * value F)) :=
    match fuel with
    | O => Panics PUnreachable
    | S n =>
        match next_key serde_msg KString first input with
        | (Fail e, _) => Fail e
        | (Panics p, _) => Panics p
        | (Done None, _) => Done acc
        | (Done (Some key), i) =>
            match named fields key with
            | Some f =>
                match aget str_eqb (f_name (a_field f)) acc with
                | Some _ => Fail (FMessage (lit "duplicate field `" ++ f_name (a_field f) ++ lit "`"))
                | None =>
                    match next_value parse_float serde_msg (f_type (a_field f)) i with
                    | Fail e => Fail e
                    | Panics p => Panics p
                    | Done v => visit_alias fields deny n false i (acc ++ [(f_name (a_field f), v)])
                    end
                end
            | None =>
                if deny then Fail (FMessage (serde_msg (MUnknown key)))
                else match next_ignored parse_float serde_msg i with
                     | Fail e => Fail e
                     | Panics p => Panics p
                     | Done _ => visit_alias fields deny n false i acc
                     end
            end
        end
    end.

  (** req_deserializer.rs 65-74, 114-129: see [Form.from_cow_map]. *)
  Definition from_cow_map_alias (fields : list (afield F)) (deny : bool) (es : list entry) : out (tvalue F) :=
    match visit_alias fields deny (S (length es)) true es [] with
    | Done acc => omap RStruct (fill (map a_field fields) acc)
    | Fail e => Fail e
    | Panics p => Panics p
    end.

  (** src/context.rs 292-316: [parse_queries], see [Form.parse_queries]. *)
  Definition parse_queries_alias (it1 it2 : list entry -> list entry) (fields : list (afield F)) (deny : bool)
    (query : bytes) : out (tvalue F) :=
    from_cow_map_alias fields deny (it2 (cow_form_map (it1 (parsed_form_map query)))).

  (** src/context.rs 139-147: [query_params]. *)
  Definition ctx_query_alias {X} (it1 it2 : list entry -> list entry) (fields : list (afield F)) (deny : bool)
    (c : context X) : (tvalue F + panic) + oerror :=
    queries_result (parse_queries_alias it1 it2 fields deny
      (utf8 (match rq_query (ctx_request c) with Some q => q | None => [] end))).

  (** src/context.rs 176-187: [form]. *)
  Definition ctx_form_alias {X} (it1 it2 : list entry -> list entry) (fields : list (afield F)) (deny : bool)
    (c : context X) : ((tvalue F + panic) + oerror) * context X :=
    read_body (fun b => queries_result (parse_queries_alias it1 it2 fields deny b)) c.
End Alias.
