(** UTF-8, as in the Rust standard library ([String::into_bytes],
    [String::from_utf8], [String::from_utf8_lossy]); part of the trusted base.

    Strings of the model are lists of Unicode scalar values, bodies and files are
    lists of bytes. *)

From Verif Require Import Base.
Local Open Scope N_scope.

(** [&[u8]], [Vec<u8>] (std). *)
Definition bytes := list N.

(** A Unicode scalar value: what a Rust [char] can hold. *)
Definition scalar (c : char) : Prop := c < 55296 \/ (57344 <= c /\ c < 1114112).

(** [char::encode_utf8]. *)
Definition utf8_char (c : char) : bytes :=
  if c <? 128 then [c]
  else if c <? 2048 then [192 + c / 64; 128 + c mod 64]
  else if c <? 65536 then [224 + c / 4096; 128 + (c / 64) mod 64; 128 + c mod 64]
  else [240 + c / 262144; 128 + (c / 4096) mod 64; 128 + (c / 64) mod 64; 128 + c mod 64].

(** [str::as_bytes] (std; [Body::from] of a text, response_body.rs 15, 21). *)
Fixpoint utf8 (s : str) : bytes :=
  match s with
  | [] => []
  | c :: r => utf8_char c ++ utf8 r
  end.

(** [lo..=hi] as a pattern. *)
Definition within (lo hi b : N) : bool := (lo <=? b) && (b <=? hi).

(** The decoder of the standard library: each well-formed sequence gives its
    character, each maximal part of an ill-formed sequence gives [None]. *)
Fixpoint utf8_parts (b : bytes) : list (option char) :=
  match b with
  | [] => []
  | x :: r =>
      if x <? 128 then Some x :: utf8_parts r
      else if within 194 223 x then
        match r with
        | y :: r1 =>
            if within 128 191 y then Some ((x - 192) * 64 + (y - 128)) :: utf8_parts r1
            else None :: utf8_parts r
        | [] => [None]
        end
      else if within 224 239 x then
        match r with
        | y :: r1 =>
            if within (if x =? 224 then 160 else 128) (if x =? 237 then 159 else 191) y then
              match r1 with
              | z :: r2 =>
                  if within 128 191 z
                  then Some ((x - 224) * 4096 + (y - 128) * 64 + (z - 128)) :: utf8_parts r2
                  else None :: utf8_parts r1
              | [] => [None]
              end
            else None :: utf8_parts r
        | [] => [None]
        end
      else if within 240 244 x then
        match r with
        | y :: r1 =>
            if within (if x =? 240 then 144 else 128) (if x =? 244 then 143 else 191) y then
              match r1 with
              | z :: r2 =>
                  if within 128 191 z then
                    match r2 with
                    | w :: r3 =>
                        if within 128 191 w
                        then Some ((x - 240) * 262144 + (y - 128) * 4096 + (z - 128) * 64 + (w - 128)) :: utf8_parts r3
                        else None :: utf8_parts r2
                    | [] => [None]
                    end
                  else None :: utf8_parts r1
              | [] => [None]
              end
            else None :: utf8_parts r
        | [] => [None]
        end
      else None :: utf8_parts r
  end.

(** [String::from_utf8_lossy]. *)
Definition from_utf8_lossy (b : bytes) : str :=
  map (fun o => match o with Some c => c | None => 65533 end) (utf8_parts b).

(** All characters, if there is no ill-formed part. *)
Fixpoint all_some (l : list (option char)) : option str :=
  match l with
  | [] => Some []
  | None :: _ => None
  | Some c :: r => match all_some r with Some s => Some (c :: s) | None => None end
  end.

(** [String::from_utf8] (std; used by [fs::read_to_string], response.rs 133). *)
Definition from_utf8 (b : bytes) : option str := all_some (utf8_parts b).
