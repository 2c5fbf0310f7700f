(** Properties C79, C80: request lines.

    [target_is s p q]: the target [s] consists of the path [p], the query [q] and a
    fragment; [known_methods] ([WireSpec]).  [uri_of], [method_of], [arrives] are what the
    http crate makes of a target, of a method and of a whole request line ([Wire]);
    [other] is what it makes of targets that begin with neither '/' nor '*'. *)

From Coq Require Import String Lia.
From Verif Require Import Base Utf8 RouteTrie Http Form AppSpec UrlSpec FormSpec UserSpec Wire WireSpec.
From Verif Require Import UrlFacts WireLemmas.
Local Open Scope string_scope.
Local Open Scope list_scope.

(** * C79: what arrives *)

(** The path and the query that a target stands for are determined by the grammar. *)
Theorem C79_target : forall other (s : str) p q, (exists r, s = c_slash :: r) -> (N.of_nat (length s) <= 65534)%N ->
  (uri_of other s = Some (p, q) <-> target_is s p q).
Proof. exact uri_spec. Qed.
Print Assumptions C79_target.

Example C79_example :
  target_is (lit "/a/b?x=1&y=?/#frag?#") (lit "/a/b") (Some (lit "x=1&y=?/")) /\
  (forall other, uri_of other (lit "/a/b?x=1&y=?/#frag?#") = Some (lit "/a/b", Some (lit "x=1&y=?/"))) /\
  (forall other, uri_of other (lit "/a b") = None).
Proof.
  assert (E : forall other, uri_of other (lit "/a/b?x=1&y=?/#frag?#") = Some (lit "/a/b", Some (lit "x=1&y=?/"))) by (intros; vm_compute; reflexivity).
  split. { apply (uri_spec (fun _ => None)); [vm_compute; eauto|vm_compute; discriminate|apply E]. }
  split; [exact E|]. intros other. vm_compute. reflexivity.
Qed.

(** Longer targets never arrive. *)
Theorem C79_long : forall other (s : str), (65534 < N.of_nat (length s))%N -> uri_of other s = None.
Proof. exact uri_long. Qed.
Print Assumptions C79_long.

(** One character more than is allowed. *)
Example C79_long_example : (65534 < N.of_nat (length (c_slash :: repeat 97%N (N.to_nat 65534))))%N.
Proof. cbn [length]. rewrite repeat_length, Nnat.Nat2N.inj_succ, Nnat.N2Nat.id. reflexivity. Qed.

(** Targets that do not begin with '/': "*" is a path of its own, the empty target is refused,
    and the rest is left to [other] (absolute forms, not modelled). *)
Theorem C79_other : forall other (s : str) p q, (forall r, s <> c_slash :: r) -> (N.of_nat (length s) <= 65534)%N ->
  (uri_of other s = Some (p, q) <->
   s = lit "*" /\ p = lit "*" /\ q = None \/ s <> [] /\ s <> lit "*" /\ other s = Some (p, q)).
Proof. exact uri_other. Qed.
Print Assumptions C79_other.

Example C79_other_example : (forall other, uri_of other (lit "*") = Some (lit "*", None)) /\
  uri_of (fun _ => None) (lit "x") = None /\ (forall other, uri_of other [] = None).
Proof. repeat split. Qed.

(** Methods are the nine known names, in capitals, or any other token. *)
Theorem C79_method : forall (s : str) m, method_of s = Some m <->
  In (s, m) known_methods \/
  (m = EXT s /\ (forall m', ~ In (s, m') known_methods) /\ s <> [] /\ Forall (fun b => token_byte b = true) s).
Proof. exact method_spec. Qed.
Print Assumptions C79_method.

Example C79_method_example : method_of (lit "GET") = Some GET /\ In (lit "GET", GET) known_methods /\
  method_of (lit "get") = Some (EXT (lit "get")) /\ method_of (lit "G T") = None /\ method_of [] = None.
Proof. split; [|split; [left|]]; repeat split; vm_compute; reflexivity. Qed.

(** * C80: queries *)

(** Pairs sent in the query of a target, in any encoding, arrive: the request gets to
    the handler of the path with exactly those pairs as the data of its query. *)
Theorem C80_pairs : forall (X : Type) other ms m (p q : str) headers b ps,
  In (ms, m) known_methods -> (exists r, p = c_slash :: r) -> Forall path_char p ->
  (forall x, In x ps -> Forall scalar (fst x) /\ Forall scalar (snd x)) -> encodes ps q -> Forall query_char q ->
  (N.of_nat (length (p ++ 63%N :: q)) <= 65534)%N ->
  exists rq : request X, arrives other ms (p ++ 63%N :: q) headers b = Some rq /\ rq_method rq = m /\ rq_path rq = p /\
    form_pairs q ps /\ forall c : context X, rq_query (ctx_request c) = rq_query rq -> has_data FromQuery c q.
Proof. exact query_pairs. Qed.
Print Assumptions C80_pairs.

(** An encoding that no serializer writes: letters as escapes, and a value that is not
    escaped where it might be. *)
Example C80_pairs_example : let ps := [(lit "q", lit "x"); (lit "r", lit "a/?b")] in let q := lit "%71=%78&r=a/?b" in
  In (lit "GET", GET) known_methods /\ Forall path_char (lit "/find") /\
  (forall x, In x ps -> Forall scalar (fst x) /\ Forall scalar (snd x)) /\ encodes ps q /\ Forall query_char q /\
  (N.of_nat (length (lit "/find" ++ 63%N :: q)) <= 65534)%N.
Proof.
  cbv zeta. split; [left; reflexivity|]. split; [repeat (constructor; [apply path_byte_spec; reflexivity|]); constructor|].
  split; [intros x [<-|[<-|[]]]; split; repeat (constructor; [left; reflexivity|]); constructor|]. split.
  - exists [lit "%71=%78"; lit "r=a/?b"]. split; [|reflexivity].
    constructor; [|constructor; [|constructor]].
    + exists (lit "%71"), (lit "%78"). split; [|split; [|reflexivity]].
      * exists [lit "%71"]. split; [|reflexivity]. constructor; [|constructor].
        apply (wb_hex _ _ _ _ 7%N 1%N); [left; split; [split; discriminate|reflexivity]..|reflexivity].
      * exists [lit "%78"]. split; [|reflexivity]. constructor; [|constructor].
        apply (wb_hex _ _ _ _ 7%N 8%N); [left; split; [split; discriminate|reflexivity]..|reflexivity].
    + exists (lit "r"), (lit "a/?b"). split; [|split; [|reflexivity]].
      * exists [lit "r"]. split; [|reflexivity]. constructor; [|constructor]. apply wb_plain. cbv. intuition discriminate.
      * exists [lit "a"; lit "/"; lit "?"; lit "b"]. split; [|reflexivity].
        repeat (constructor; [apply wb_plain; cbv; intuition discriminate|]). constructor.
  - split; [repeat (constructor; [apply query_byte_spec; reflexivity|]); constructor|]. vm_compute. discriminate.
Qed.

(** So [query_params] reads them as the map of their non-empty values by key. *)
Theorem C80_sent : forall (F : Type) (pf : bool -> str -> F + str) msg it1 it2 (X : Type) other ms m (p q : str) headers b ps,
  iteration it1 -> iteration it2 ->
  In (ms, m) known_methods -> (exists r, p = c_slash :: r) -> Forall path_char p ->
  (forall x, In x ps -> Forall scalar (fst x) /\ Forall scalar (snd x)) -> encodes ps q -> Forall query_char q ->
  (N.of_nat (length (p ++ 63%N :: q)) <= 65534)%N ->
  exists rq : request X, arrives other ms (p ++ 63%N :: q) headers b = Some rq /\ rq_method rq = m /\ rq_path rq = p /\
    forall c : context X, rq_query (ctx_request c) = rq_query rq ->
    exists mp, ctx_query_params pf msg it1 it2 (TgMap KString (TVec TString)) c = inl (inl (RMap mp)) /\ NoDup (map fst mp) /\
      forall k v, In (k, v) mp <-> values_of k ps <> [] /\ v = VSeq (map VString (values_of k ps)).
Proof. exact query_sent. Qed.
Print Assumptions C80_sent.

(** Two values of one key, and a value that is empty. *)
Example C80_sent_example : let ps := [(lit "q#", [8364; 32]%N); (lit "r", []); (lit "q#", lit "a&b")] in
  iteration (@rev (str * list str)) /\ In (lit "POST", POST) known_methods /\ Forall path_char (lit "/find") /\
  (forall x, In x ps -> Forall scalar (fst x) /\ Forall scalar (snd x)) /\
  encodes ps (lit "q%23=%E2%82%AC+&r=&q%23=a%26b") /\ Forall query_char (lit "q%23=%E2%82%AC+&r=&q%23=a%26b") /\
  values_of (lit "q#") ps = [[8364; 32]%N; lit "a&b"] /\ values_of (lit "r") ps = [].
Proof.
  intros ps.
  assert (Sc : forall x, In x ps -> Forall scalar (fst x) /\ Forall scalar (snd x)).
  { intros x [<-|[<-|[<-|[]]]]; split; repeat (constructor; [left; reflexivity|]); constructor. }
  split; [intros l; apply Permutation.Permutation_sym, Permutation.Permutation_rev|]. split; [right; left; reflexivity|].
  split; [repeat (constructor; [apply path_byte_spec; reflexivity|]); constructor|]. split; [exact Sc|].
  change (lit "q%23=%E2%82%AC+&r=&q%23=a%26b") with (standard ps).
  split; [apply standard_encodes, Sc|]. split; [apply standard_chars, Sc|]. split; vm_compute; reflexivity.
Qed.

(** The standard serializer writes only characters that may stand in a query. *)
Theorem C80_standard : forall ps, (forall x, In x ps -> Forall scalar (fst x) /\ Forall scalar (snd x)) ->
  encodes ps (standard ps) /\ Forall query_char (standard ps).
Proof. exact (fun ps Sc => conj (standard_encodes ps Sc) (standard_chars ps Sc)). Qed.
Print Assumptions C80_standard.

Example C80_example : forall X other headers b,
  let ps := [(lit "q#", [8364; 32]%N); (lit "q#", lit "a&b")] in
  standard ps = lit "q%23=%E2%82%AC+&q%23=a%26b" /\
  exists rq : request X, arrives other (lit "GET") (lit "/find?q%23=%E2%82%AC+&q%23=a%26b") headers b = Some rq /\
    rq_method rq = GET /\ rq_path rq = lit "/find" /\ rq_query rq = Some (standard ps).
Proof. intros X other headers b ps. split; [vm_compute; reflexivity|]. eexists. repeat split; vm_compute; reflexivity. Qed.
