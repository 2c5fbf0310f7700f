(** Model of header names given as text: [HeaderName::from_bytes] of http 0.2, called by
    src/router/response.rs 71-76, 100-106, and [HeaderMap::get] with a text, called by users
    on [Context::headers] (src/context.rs 38-40).  Also the header lines that hyper 0.14 puts
    into the request.

    Not code of the repository.  Some releases of http 0.2 accept the quote in names, others do
    not: this is the parameter [q]. *)

From Coq Require Import String.
From Verif Require Import Base Utf8 Http.
Local Open Scope list_scope.

(** http, header/name.rs: the table [HEADER_CHARS], [None] for its zeros (response.rs 73). *)
Definition name_byte (q : bool) (b : N) : option N :=
  if (((48 <=? b) && (b <=? 57)) || ((97 <=? b) && (b <=? 122)))%N then Some b
  else if ((65 <=? b) && (b <=? 90))%N then Some (b + 32)%N
  else if contains b (lit "!#$%&'*+-.^_`|~") then Some b
  else if q && (b =? 34)%N then Some b
  else None.

(** All bytes, see [name_byte] (response.rs 73). *)
Fixpoint name_bytes (q : bool) (s : bytes) : option hname :=
  match s with
  | [] => Some []
  | b :: r =>
      match name_byte q b, name_bytes q r with
      | Some b', Some r' => Some (b' :: r')
      | _, _ => None
      end
  end.

(** [HeaderName::from_bytes]: 1 to 65535 bytes (response.rs 73, 103). *)
Definition from_bytes (q : bool) (s : bytes) : option hname :=
  if is_empty s || (65535 <? N.of_nat (length s))%N then None else name_bytes q s.

(** [HeaderName::from_bytes(key.as_bytes())] (response.rs 73, 103). *)
Definition header_name (q : bool) (k : str) : option hname := from_bytes q (utf8 k).

(** [HeaderMap::get] with a [&str]: the first value; a text that is no name has none
    (context.rs 38-40). *)
Definition header_get (q : bool) (k : str) (hs : list (hname * str)) : option str :=
  match header_name q k with
  | Some n => option_map snd (find (fun kv => str_eqb n (fst kv)) hs)
  | None => None
  end.

(** [HeaderMap::get_all] with a [&str] (context.rs 38-40). *)
Definition header_get_all (q : bool) (k : str) (hs : list (hname * str)) : list str :=
  match header_name q k with
  | Some n => map snd (filter (fun kv => str_eqb n (fst kv)) hs)
  | None => []
  end.

(** hyper, proto/h1/role.rs: the name and the value of each line, already cut at the colon
    and trimmed, are appended in order (app.rs 153-158 gets the request).  httparse knows the
    bytes of names as [name_byte false]. *)
Fixpoint append_lines (lines : list (bytes * str)) : option (list (hname * str)) :=
  match lines with
  | [] => Some []
  | (k, v) :: r =>
      match from_bytes false k, append_lines r with
      | Some n, Some hs => Some ((n, v) :: hs)
      | _, _ => None
      end
  end.
