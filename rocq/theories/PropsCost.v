(** Properties C66, C75 and C76: what lookups and routers cost.

    [search_route_cost] is [search_route] with a counter of the child nodes looked at;
    [search_route_limited stack] is [search_route] with room for [stack] open calls of
    the recursive search; [table_of l] is the list of registrations made by the calls [l];
    [calls], [pieces] and [longest] (CostSpec) count the calls, the segments of their
    paths, and the characters of the longest path.  [run_caught trie_new l] is the trie
    after the calls [l], whatever they are, where the panics of failing calls are
    caught. *)

From Coq Require Import String.
From Verif Require Import Base RouteTrie Router TableSpec PropSpec RouteFacts RouteLemmas RouteWitness Cost CostSpec CostLemmas CostLemmas2.
Local Open Scope string_scope.
Local Open Scope list_scope.

Theorem C66_lookup_cost : forall (H M : Type) (l : list (op H M)) t path, built l t ->
  fst (search_route_cost t path) = search_route t path /\
  snd (search_route_cost t path) <= length (table_of l) * S (length path).
Proof. exact (@search_cost). Qed.
Print Assumptions C66_lookup_cost.

Example C66_example :
  let l := [ORoute GET (lit "/a/b/c") 1; ORoute GET (lit "/abc/*") 2; OServiceTo (lit "/a/bcd") 3; ORoute POST (lit "/x/:y/z") 4] in
  exists t, built l t /\ length (table_of l) = 4 /\
    snd (search_route_cost t (lit "/a/bcd/e")) = 6 /\ snd (search_route_cost t (lit "/x/q/w")) = 4.
Proof. eexists. split; [built_by|]. split; [|split]; vm_compute; reflexivity. Qed.

(** For any calls whatsoever. *)
Theorem C66_any_calls : forall (H M : Type) (l : list (op H M)) path,
  let t := run_caught trie_new l in
  fst (search_route_cost t path) = search_route t path /\
  snd (search_route_cost t path) <= calls l * S (length path).
Proof. exact (@caught_cost). Qed.
Print Assumptions C66_any_calls.

(** Most of these calls are rejected. *)
Definition odd_calls : list (op nat nat) :=
  [ORoute GET (lit "/ab*cd") 3; ORoute GET (lit "/abc/:d") 6; ORoute GET (lit "/:a/x") 1; ORoute GET (lit "/:b/y") 2;
   ORoute GET (lit "/*/q") 4; ORouter (lit "/m") [ORoute GET (lit "/n/o") 5]; ORoute GET (lit "/abd") 7].

Example C66_any_example :
  snd (build odd_calls) <> None /\ calls odd_calls = 8 /\
  snd (search_route_cost (run_caught trie_new odd_calls) (lit "/abc/d/e")) = 5.
Proof. split; [discriminate|split; vm_compute; reflexivity]. Qed.

(** C75: the depth of the recursion is limited by the registered paths. *)
Theorem C75_stack : forall (H M : Type) (l : list (op H M)) stack path, longest l < stack ->
  search_route_limited stack (run_caught trie_new l) path = search_route (run_caught trie_new l) path.
Proof. exact (@caught_stack). Qed.
Print Assumptions C75_stack.

(** Six calls are enough for a request of a thousand segments; one is not. *)
Example C75_example :
  let l : list (op nat nat) := [ORoute GET (lit "/a/:b") 1; ORoute GET (lit "/a/*") 2] in
  let long := concat (repeat (lit "/a") 1000) in
  longest l = 5 /\ length long = 2000 /\
  search_route_limited 6 (run_caught trie_new l) long = search_route (run_caught trie_new l) long /\
  search_route_limited 6 (run_caught trie_new l) long <> LPanic PStack /\
  search_route_limited 1 (run_caught trie_new l) long = LPanic PStack.
Proof. vm_compute. repeat split; discriminate. Qed.

(** C76: the number of nodes. *)
Theorem C76_nodes : forall (H M : Type) (l : list (op H M)),
  node_count (run_caught trie_new l) <= 1 + calls l + pieces l.
Proof. exact (@caught_size). Qed.
Print Assumptions C76_nodes.

(** Only the paths count, not the number of handlers and methods. *)
Example C76_example :
  let l : list (op nat nat) := [ORoute GET (lit "/ab/c") 1; ORoute GET (lit "/ad") 2] in
  node_count (run_caught trie_new l) = 5 /\ 1 + calls l + pieces l = 6 /\
  node_count (run_caught trie_new (l ++ [ORoute POST (lit "/ad") 3; OServiceTo (lit "/ab/c") 4])) = 5.
Proof. vm_compute. repeat split. Qed.
