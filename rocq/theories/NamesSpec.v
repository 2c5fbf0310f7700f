(** Header names: tokens, compared without regard to case. *)

From Coq Require Import String.
From Verif Require Import Base Utf8 RouteTrie Router TableSpec PropSpec Http App AppSpec ReplySpec.
Local Open Scope list_scope.

(** RFC 7230: the characters of a token. *)
Definition tchar (c : char) : Prop :=
  (48 <= c <= 57)%N \/ (65 <= c <= 90)%N \/ (97 <= c <= 122)%N \/ In c (lit "!#$%&'*+-.^_`|~").

(** A header name; if [q], quotes are allowed in it. *)
Definition names_header (q : bool) (k : str) : Prop :=
  k <> [] /\ (N.of_nat (length k) <= 65535)%N /\ forall c, In c k -> tchar c \/ (q = true /\ c = 34%N).

(** The letter in lower case. *)
Definition lower (c : char) : char := if ((65 <=? c) && (c <=? 90))%N then (c + 32)%N else c.
Definition same_name (a b : str) : Prop := map lower a = map lower b.

(** [last_under k l v]: [v] is the last value in [l] given under the name [k], in any
    spelling.  [first_under] likewise. *)
Definition last_under (k : str) (l : list (str * str)) (v : str) : Prop :=
  exists l1 k' l2, l = l1 ++ (k', v) :: l2 /\ same_name k' k /\ forall x, In x l2 -> ~ same_name (fst x) k.
Definition first_under (k : str) (l : list (str * str)) (v : str) : Prop :=
  exists l1 k' l2, l = l1 ++ (k', v) :: l2 /\ same_name k' k /\ forall x, In x l1 -> ~ same_name (fst x) k.

(** The values given under the name [k], in order. *)
Inductive values_under (k : str) : list (str * str) -> list str -> Prop :=
| vu_nil : values_under k [] []
| vu_same k' v l vs : same_name k' k -> values_under k l vs -> values_under k ((k', v) :: l) (v :: vs)
| vu_other k' v l vs : ~ same_name k' k -> values_under k l vs -> values_under k ((k', v) :: l) vs.

(** ** Replies *)

(** The names given as [HeaderName]s, which are in lower case always. *)
Definition btyped (k : bcall) : list hname :=
  match k with BHeader k _ => [k] | BHeaders l => map fst l | _ => [] end.
Definition rtyped (k : rcall) : list hname :=
  match k with CHeader k _ => [k] | CHeaders l => map fst l | _ => [] end.
Definition typed_in (s : hstart) (l : list bcall) : list hname :=
  match s with
  | HResponse (SHeader _ k _) l' => k :: flat_map rtyped l'
  | HResponse (SHeaders _ l0) l' => map fst l0 ++ flat_map rtyped l'
  | HResponse _ l' => flat_map rtyped l'
  | _ => []
  end ++ flat_map btyped l.
Definition in_lower (k : str) : Prop := map lower k = k.

(** The response sent is [a], whose header names are as written by the handler: in lower
    case, and under each name in whatever spelling the last value. *)
Definition received_text (a : look) (r : http_response) : Prop :=
  h_status r = lk_status a /\ body_bytes (h_body r) = lk_body a /\ broken (h_body r) = false /\
  NoDup (map fst (h_headers r)) /\ Forall in_lower (map fst (h_headers r)) /\
  (forall k v, In (map lower k, v) (h_headers r) <-> last_under k (lk_headers a) v).

(** [client_gets], where [written Some] has the names of the headers as they are spelled by
    the handler. *)
Definition client_gets_text {U A} (q : bool) (prog : comp U A http_response) (s : hstart) (bl : list bcall) : Prop :=
  (forall tr o, runs prog tr o ->
     (exists a r, written Some (unlogged tr) s bl a /\ (forall n, In n (names_in s bl) -> names_header q n) /\
        sendable a /\ o = Value r /\ received_text a r) \/
     (exists a, written Some (unlogged tr) s bl a /\ (forall n, In n (names_in s bl) -> names_header q n) /\
        ~ sendable a /\ o = Panicked PHeaderValue) \/
     (o = Panicked PUnwrapNone /\ exists n, In n (names_in s bl) /\ ~ names_header q n)) /\
  (forall tr a, written Some tr s bl a -> (forall n, In n (names_in s bl) -> names_header q n) ->
     exists tr', unlogged tr' = tr /\
       (sendable a -> exists r, runs prog tr' (Value r) /\ received_text a r) /\
       (~ sendable a -> runs prog tr' (Panicked PHeaderValue))).
