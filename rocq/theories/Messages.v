(** Model of the texts of the panics of src/router/route_trie.rs: what a rejected
    registration prints.  The functions of [RouteTrie] keep only the reason of a panic;
    those below go the same way through the trie and give its text.

    [None] stands for a run without a panic. *)

From Coq Require Import String.
From Verif Require Import Base RouteTrie Router.
Local Open Scope string_scope.
Local Open Scope list_scope.

(** http 0.2, method.rs: [Display] of [Method], used by route_trie.rs 117-120, 130-133,
    285-288, 294-297. *)
Definition method_name (m : method) : str :=
  match m with
  | GET => lit "GET" | POST => lit "POST" | PUT => lit "PUT" | PATCH => lit "PATCH" | DELETE => lit "DELETE"
  | HEAD => lit "HEAD" | OPTIONS => lit "OPTIONS" | CONNECT => lit "CONNECT" | TRACE => lit "TRACE"
  | EXT s => s
  end.

Section Messages.
  Context {H M : Type}.
  Notation node := (node H M).
  Notation trie := (trie H M).

  (** [self.child_nodes.get_mut(i)] and [self.child_nodes.get(i)], route_trie.rs 351-390. *)
  Definition at_nth (f : node -> option str) : nat -> list node -> option str :=
    fix go (i : nat) (cs : list node) {struct cs} : option str :=
      match cs with
      | [] => None
      | c :: rest => match i with 0 => f c | S j => go j rest end
      end.

  (** route_trie.rs 326-400: [Node::process_insertion]; [k] is what the caller says about the
      node returned, [err] what it says about the error of lines 389-396, whose [Display]
      (obsidian_error.rs 19-30) is the text given here. *)
  Fixpoint process_text (self : node) (key : str) (k : node -> option str) (err : str -> str) {struct self} : option str :=
    match self with
    | Node skey sval cs =>
        let a := get_insertion_action (Node skey sval cs) key in
        match a_name a with
        | ACreateNewNode => k (node_new key None)
        | ANextNode => at_nth k (a_index a) cs
        | ASplitKey =>
            match slice_from key (a_count a) with
            | None => None
            | Some key' => at_nth (fun c => process_text c key' k err) (a_index a) cs
            end
        | ASplitNode =>
            at_nth
              (fun c =>
                 match slice_from (nkey c) (a_count a), slice_from key (a_count a), slice_to key (a_count a) with
                 | Some child_key, Some new_key, Some pre_key =>
                     if is_empty new_key
                     then k (Node pre_key None [Node child_key (nval c) (nkids c)])
                     else k (node_new new_key None)
                 | _, _, _ => None
                 end) (a_index a) cs
        | AError =>
            at_nth (fun c => Some (err (lit "ERROR: Ambigous definition between " ++ key ++ lit " and " ++ nkey c)))
              (a_index a) cs
        end
    end.

  (** route_trie.rs 107-144, 165-188, 260-278: the loop over the segments. *)
  Fixpoint walk_text (curr_node : node) (split_key : list str) (final : node -> option str) (err : str -> str)
    {struct split_key} : option str :=
    match split_key with
    | [] => None
    | k :: rest =>
        process_text curr_node k
          (fun next_node => if is_empty rest then final next_node else walk_text next_node rest final err) err
    end.

  (** route_trie.rs 89-97, 153-161, 243-251: the checks on '*'. *)
  Definition star_text (path : str) (p : panic) : str :=
    match p with
    | PStarInName => lit "ERROR: Consisting * in route name at: " ++ path
    | _ => lit "ERROR: * must be in the last at: " ++ path
    end.

  (** route_trie.rs 111-135, 281-303: the method reported is that of the route found. *)
  Definition duplicate_text (m : method) (path : str) (n : node) : option str :=
    match nval n with
    | None => None
    | Some val =>
        match get_route (rv_route val) m with
        | None => None
        | Some duplicated =>
            Some (lit "Duplicated route method '" ++ method_name (r_method duplicated) ++ lit "' at '" ++ path ++ lit "' detected")
        end
    end.

  (** route_trie.rs 85-145: [RouteTrie::insert_route]. *)
  Definition insert_route_text (t : trie) (path : str) (r : route H) : option str :=
    let split_key := segments path in
    match star_check (List.length split_key) 0 split_key with
    | Some p => Some (star_text path p)
    | None =>
        if is_empty split_key then duplicate_text (r_method r) [c_slash] t
        else walk_text t split_key (duplicate_text (r_method r) path) (fun e => lit "Insert Route: " ++ e ++ lit " at " ++ path)
    end.

  (** route_trie.rs 148-189: [RouteTrie::insert_middleware]. *)
  Definition insert_middleware_text (t : trie) (path : str) : option str :=
    let split_key := segments path in
    match star_check (List.length split_key) 0 split_key with
    | Some p => Some (star_text path p)
    | None => walk_text t split_key (fun _ => None) (fun e => lit "Middleware: " ++ e ++ lit " at " ++ path)
    end.

  (** route_trie.rs 264-266. *)
  Definition conflict_text (path : str) (n : node) : option str :=
    if match nval n with Some _ => true | None => false end || negb (is_empty (nkids n))
    then Some (lit "There is conflict between main router and sub router at '" ++ path ++
               lit "'. Make sure main router does not consist any routing data in '" ++ path ++ lit "'.")
    else None.

  (** route_trie.rs 238-279: [RouteTrie::insert_sub_route]. *)
  Definition insert_sub_route_text (des : trie) (path : str) : option str :=
    let split_key := segments path in
    match star_check (List.length split_key) 0 split_key with
    | Some p => Some (star_text path p)
    | None =>
        if is_empty split_key then None
        else walk_text des split_key (conflict_text path) (fun e => lit "SubRouter: " ++ e ++ lit " at " ++ path)
    end.

  (** router.rs 51-103: one call; the calls that build a mounted router come first. *)
  Fixpoint op_text (t : trie) (o : op H M) {struct o} : option str :=
    match o with
    | ORoute m path h => insert_route_text t path (Route m h)
    | OServiceTo path mw => insert_middleware_text t path
    | OService mw => None
    | ORouter path sub =>
        match
          (fix sub_text (t : trie) (l : list (op H M)) {struct l} : option str :=
             match l with
             | [] => None
             | o :: r => match op_text t o with
                         | Some m => Some m
                         | None => sub_text (fst (run_op t o)) r
                         end
             end) trie_new sub
        with
        | Some m => Some m
        | None => insert_sub_route_text t path
        end
    end.

  (** A sequence of calls (router.rs 51-103): the text of the panic that ends it. *)
  Fixpoint ops_text (t : trie) (l : list (op H M)) {struct l} : option str :=
    match l with
    | [] => None
    | o :: r => match op_text t o with
                | Some m => Some m
                | None => ops_text (fst (run_op t o)) r
                end
    end.

  (** router.rs 45-49: [Router::new], followed by the calls [l]. *)
  Definition build_text (l : list (op H M)) : option str := ops_text trie_new l.
End Messages.
