(** The parser of [application/x-www-form-urlencoded] data used by the code:
    [form_urlencoded::parse] of crate [form_urlencoded] 1.0 (url 2.2.2) and
    [percent_decode] of crate [percent-encoding] 2.1.  These crates are not in /repo;
    this is their documented behaviour, part of the trusted base.

    Called at /repo/src/context.rs 297. *)

From Verif Require Import Base Utf8.
Local Open Scope N_scope.

(** The bytes with a meaning in the encoding. *)
Definition c_amp : N := 38.      (* '&' *)
Definition c_eq : N := 61.       (* '=' *)
Definition c_plus : N := 43.     (* '+' *)
Definition c_percent : N := 37.  (* '%' *)

(** [char::to_digit(16)]. *)
Definition hex_digit (c : N) : option N :=
  if within 48 57 c then Some (c - 48)
  else if within 65 70 c then Some (c - 55)
  else if within 97 102 c then Some (c - 87)
  else None.

(** [percent_decode]: '%' followed by two hexadecimal digits is a byte, any other
    '%' is itself. *)
Fixpoint percent_decode (b : bytes) : bytes :=
  match b with
  | [] => []
  | x :: r =>
      if x =? c_percent then
        match r with
        | h :: l :: r2 =>
            match hex_digit h, hex_digit l with
            | Some dh, Some dl => (dh * 16 + dl) :: percent_decode r2
            | _, _ => x :: percent_decode r
            end
        | _ => x :: percent_decode r
        end
      else x :: percent_decode r
  end.

(** [replace_plus]. *)
Definition replace_plus (b : bytes) : bytes := map (fun x => if x =? c_plus then 32 else x) b.

(** [form_urlencoded::decode]. *)
Definition decode (b : bytes) : str := from_utf8_lossy (percent_decode (replace_plus b)).

(** [splitn(2, |b| b == sep)]: the part before the first separator, and the part
    after it. *)
Fixpoint split_first (sep : N) (b : bytes) : bytes * option bytes :=
  match b with
  | [] => ([], None)
  | x :: r =>
      if x =? sep then ([], Some r)
      else let '(p, q) := split_first sep r in (x :: p, q)
  end.

(** [unwrap_or(&[][..])] (form_urlencoded). *)
Definition or_empty (o : option bytes) : bytes := match o with Some b => b | None => [] end.

(** One pair of [Parse::next]. *)
Definition parse_pair (sequence : bytes) : str * str :=
  let '(name, value) := split_first c_eq sequence in (decode name, decode (or_empty value)).

(** [form_urlencoded::parse(..).into_owned()], collected: [Parse::next] takes the
    text up to the next '&' and skips it when empty.  (The sequences are those of
    [split_on]; an empty rest gives no further pair.) *)
Definition parse (input : bytes) : list (str * str) :=
  map parse_pair (filter (fun s => negb (is_empty s)) (split_on c_amp input)).
