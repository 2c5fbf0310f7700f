(** Model of [json] of a context (src/context.rs 241-252) for a struct with
    [serde(alias = "...")] at some fields, read from a whole body.

    Simplifications: those of [Json].  Not modelled: such structs inside of other types. *)

From Coq Require Import String ZArith.
From Verif Require Import Base Utf8 Http Form Json.
Local Open Scope list_scope.

(** A field: name, aliases, default, type. *)
Record jafield {F : Type} := JAField { ja_name : str; ja_aliases : list str; ja_default : option (jval F); ja_type : jty F }.
Arguments jafield : clear implicits.
Arguments JAField {F} _ _ _ _.

Section JsonAlias.
  Context {F : Type}.
  Context (float_lit : bytes -> option F) (float_int : Z -> F) (zero_float : bool).
  Notation jval := (jval F).
  Notation read := (read float_lit float_int zero_float).

  (** serde: the arm of the derived [visit_str] for a field. *)
  Definition called (k : str) (f : reader (F := F) * list str) : bool :=
    str_eqb k (r_name (fst f)) || existsb (str_eqb k) (snd f).

  (** serde: one turn of the loop of the derived [visit_map], see [Json.set_field]. *)
  Fixpoint set_field_alias (k : str) (x : raw) (rs : list (reader (F := F) * list str)) (slots : list (option jval))
    : option (list (option jval)) :=
    match rs, slots with
    | f :: rs', s :: ss =>
        if called k f then
          match s with
          | Some _ => None
          | None => option_map (fun y => Some y :: ss) (r_read (fst f) x)
          end
        else option_map (cons s) (set_field_alias k x rs' ss)
    | _, _ => Some slots
    end.

  (** serde: the loop of the derived [visit_map], see [Json.set_fields]. *)
  Fixpoint set_fields_alias (deny : bool) (l : list (list piece * raw)) (rs : list (reader (F := F) * list str))
    (slots : list (option jval)) : option (list (option jval)) :=
    match l with
    | [] => Some slots
    | (k, x) :: r =>
        match string_of k with
        | None => None
        | Some k' =>
            if deny && negb (existsb (called k') rs) then None
            else match set_field_alias k' x rs slots with
                 | None => None
                 | Some slots' => set_fields_alias deny r rs slots'
                 end
        end
    end.

  (** serde: derived [Deserialize] of the struct, see [Json.read]; from an array its fields
      are read in order. *)
  Definition read_alias (deny : bool) (fs : list (jafield F)) (d : nat) (r : raw) : option jval :=
    match enter d with
    | None => None
    | Some d' =>
        let rs := map (fun f => (Reader (ja_name f) (missing (ja_default f) (ja_type f)) (ja_default f) (read (ja_type f) d'),
                                 ja_aliases f)) fs in
        match r with
        | RObj l =>
            match set_fields_alias deny l rs (map (fun _ => None) fs) with
            | None => None
            | Some slots => option_map JVStruct (finish (map fst rs) slots)
            end
        | RArr l => option_map JVStruct (read_seq (map fst rs) l)
        | _ => None
        end
    end.

  (** serde_json de.rs: [from_slice], see [Json.from_slice]. *)
  Definition from_slice_alias (deny : bool) (fs : list (jafield F)) (b : bytes) : option jval :=
    match lex (2 + 2 * length b) b with
    | Some (r, rest) => if is_empty (skip rest) then read_alias deny fs max_depth r else None
    | None => None
    end.

  (** context.rs 241-252: [json] of a request body; [msg] are the texts of errors. *)
  Definition ctx_read_json_alias {X} (msg : bytes -> str) (deny : bool) (fs : list (jafield F)) (c : context X)
    : (jval + oerror) * context X :=
    ctx_json (fun b => match from_slice_alias deny fs b with Some v => inl v | None => inr (msg b) end) c.
End JsonAlias.
