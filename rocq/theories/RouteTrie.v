(** Model of src/router/route_trie.rs and src/router/resource.rs.

    [H] stands for [Arc<dyn Handler>] and [M] for [Arc<dyn Middleware>]: the trie
    only stores and clones them.

    A function that mutates the trie through [&mut] returns the new trie together
    with [Some p] if it panicked with [p] after the mutations done so far, so a
    caught panic leaves exactly the returned trie.  The functions returning
    [Result<&mut Node, ObsidianError>] take as a continuation what the caller does
    with the returned reference. *)

From Verif Require Import Base.

(** [hyper::Method] (resource.rs 1). *)
Inductive method :=
| GET | POST | PUT | PATCH | DELETE | HEAD | OPTIONS | CONNECT | TRACE
| EXT (name : str).

(** [Method::eq], as the key of resource.rs 10. *)
Definition method_eqb (a b : method) : bool :=
  match a, b with
  | GET, GET | POST, POST | PUT, PUT | PATCH, PATCH | DELETE, DELETE
  | HEAD, HEAD | OPTIONS, OPTIONS | CONNECT, CONNECT | TRACE, TRACE => true
  | EXT x, EXT y => str_eqb x y
  | _, _ => false
  end.

(** [HashMap<String, String>] of parameters (route_trie.rs 32). *)
Definition params := list (str * str).
(** [params_data.get(key)], context.rs 106-107. *)
Definition pget : str -> params -> option str := aget str_eqb.
(** [params.insert(..)], route_trie.rs 469, 480. *)
Definition pinsert : str -> str -> params -> params := ainsert str_eqb.

Section Trie.
  Context {H M : Type}.

  (** route.rs 6-9: [Route]. *)
  Record route := Route { r_method : method; r_handler : H }.

  (** resource.rs 9-11: [Resource], a hash map from methods to routes. *)
  Definition resource := list (method * route).

  (** resource.rs 13-19: [Resource::default]. *)
  Definition resource_default : resource := [].

  (** resource.rs 22-24: [Resource::add_route]: new map, and the old route. *)
  Definition add_route (m : method) (r : route) (res : resource)
    : resource * option route :=
    (ainsert method_eqb m r res, aget method_eqb m res).

  (** resource.rs 26-28: [Resource::get_route]. *)
  Definition get_route (res : resource) (m : method) : option route :=
    aget method_eqb m res.

  (** route_trie.rs 12-16: [RouteValue]; 24-28 [RouteValue::new]. *)
  Record rvalue := RV { rv_mws : list M; rv_route : resource }.

  (** route_trie.rs 12: [#[derive(Default)]]. *)
  Definition rv_default : rvalue := RV [] resource_default.

  (** route_trie.rs 306-311: [Node]. *)
  Inductive node := Node (key : str) (value : option rvalue) (child_nodes : list node).

  (** The fields [key], [value], [child_nodes] of route_trie.rs 308-310. *)
  Definition nkey (n : node) : str := match n with Node k _ _ => k end.
  (** route_trie.rs 309. *)
  Definition nval (n : node) : option rvalue := match n with Node _ v _ => v end.
  (** route_trie.rs 310. *)
  Definition nkids (n : node) : list node := match n with Node _ _ cs => cs end.

  (** route_trie.rs 314-320: [Node::new]. *)
  Definition node_new (key : str) (value : option rvalue) : node := Node key value [].

  (** [key.chars().next().unwrap_or(' ') == ':'], route_trie.rs 323 and 405. *)
  Definition starts_colon (key : str) : bool :=
    N.eqb (match key with [] => c_space | c :: _ => c end) c_colon.

  (** route_trie.rs 322-324: [Node::is_param]. *)
  Definition is_param (n : node) : bool := starts_colon (nkey n).

  (** route_trie.rs 415-430 and 511-526: the "match characters" loop: bytes of
      the longest common prefix of the node key and the given key. *)
  Fixpoint match_count (node_key key : str) : nat :=
    match node_key, key with
    | k :: node_key', t :: key' =>
        if N.eqb t k then len_utf8 t + match_count node_key' key' else 0
    | _, _ => 0
    end.

  (** route_trie.rs 573-580: [ActionName]. *)
  Inductive action_name := ANextNode | ACreateNewNode | ASplitNode | ASplitKey | AError.

  (** route_trie.rs 582-609: [Action] with its payload. *)
  Record action := Action { a_name : action_name; a_count : nat; a_index : nat }.

  (** route_trie.rs 403-448: [Node::get_insertion_action]; [i] is the index of the
      first element of [cs]. *)
  Fixpoint get_insertion_action_from (cs : list node) (key : str) (i : nat) : action :=
    match cs with
    | [] => Action ACreateNewNode 0 0
    | c :: rest =>
        if is_param c || starts_colon key then
          if str_eqb key (nkey c) then Action ANextNode 0 i else Action AError 0 i
        else
          let count := match_count (nkey c) key in
          if Nat.eqb count (blen key) && Nat.eqb count (blen (nkey c))
          then Action ANextNode count i
          else if Nat.eqb count (blen (nkey c))
          then Action ASplitKey count i
          else if negb (Nat.eqb count 0)
          then Action ASplitNode count i
          else get_insertion_action_from rest key (S i)
    end.

  (** route_trie.rs 403-448: [Node::get_insertion_action]. *)
  Definition get_insertion_action (self : node) (key : str) : action :=
    get_insertion_action_from (nkids self) key 0.

  (** What remains after a mutation: the new value, and the panic if any. *)
  Definition upd (A : Type) : Type := (A * option panic)%type.

  (** Use of [self.child_nodes.get_mut(i)]: mutate the child at [i]; a missing
      child makes [process_insertion] fall through to [unreachable!()]. *)
  Definition upd_nth (f : node -> upd node) : nat -> list node -> upd (list node) :=
    fix go (i : nat) (cs : list node) {struct cs} : upd (list node) :=
      match cs with
      | [] => ([], Some PUnreachable)
      | c :: rest =>
          match i with
          | 0 => let '(c', st) := f c in (c' :: rest, st)
          | S j => let '(rest', st) := go j rest in (c :: rest', st)
          end
      end.

  (** route_trie.rs 326-400: [Node::process_insertion].  [k] is what the caller
      does with the returned [&mut Node].  The error result (389-396) is turned
      into a panic by all three callers (141-143, 185-187, 275-277); the model
      panics directly. *)
  Fixpoint process_insertion (self : node) (key : str) (k : node -> upd node)
    {struct self} : upd node :=
    match self with
    | Node skey sval cs =>
        let a := get_insertion_action (Node skey sval cs) key in
        match a_name a with
        | ACreateNewNode =>
            let '(n', st) := k (node_new key None) in
            if str_eqb key s_star
            then (Node skey sval (cs ++ [n']), st)
            else (Node skey sval (n' :: cs), st)
        | ANextNode =>
            let '(cs', st) := upd_nth k (a_index a) cs in
            (Node skey sval cs', st)
        | ASplitKey =>
            match slice_from key (a_count a) with
            | None => (Node skey sval cs, Some PSlice)
            | Some key' =>
                let '(cs', st) :=
                  upd_nth (fun c => process_insertion c key' k) (a_index a) cs in
                (Node skey sval cs', st)
            end
        | ASplitNode =>
            let '(cs', st) :=
              upd_nth
                (fun c =>
                   match slice_from (nkey c) (a_count a),
                         slice_from key (a_count a),
                         slice_to key (a_count a) with
                   | Some child_key, Some new_key, Some pre_key =>
                       let inter := Node child_key (nval c) (nkids c) in
                       if is_empty new_key
                       then k (Node pre_key None [inter])
                       else
                         let '(new', st) := k (node_new new_key None) in
                         (Node pre_key None [new'; inter], st)
                   | _, _, _ => (c, Some PSlice)
                   end) (a_index a) cs in
            (Node skey sval cs', st)
        | AError => (Node skey sval cs, Some PAmbiguous)
        end
    end.

  (** route_trie.rs 107-144, 165-188, 260-278: the [while let Some(k)] loop shared
      by the three insertion functions; [final] is what is done with the node
      reached by the last segment. *)
  Fixpoint walk (curr_node : node) (split_key : list str) (final : node -> upd node)
    {struct split_key} : upd node :=
    match split_key with
    | [] => (curr_node, None)
    | k :: rest =>
        process_insertion curr_node k
          (fun next_node => if is_empty rest then final next_node
                            else walk next_node rest final)
    end.

  (** route_trie.rs 89-97, 153-161, 243-251: the checks on '*'. *)
  Fixpoint star_check (total pos : nat) (split_key : list str) : option panic :=
    match split_key with
    | [] => None
    | x :: rest =>
        if contains c_star x then
          if negb (Nat.eqb (blen x) 1) then Some PStarInName
          else if negb (Nat.eqb pos (total - 1)) then Some PStarNotLast
          else star_check total (S pos) rest
        else star_check total (S pos) rest
    end.

  (** route_trie.rs 111-135 and 281-303: add a route to a node's value.  (The
      duplicate test in the [None] branch can never fire: the map is fresh.) *)
  Definition set_route (r : route) (n : node) : upd node :=
    match n with
    | Node key value cs =>
        let val := match value with Some val => val | None => rv_default end in
        let '(res, dup) := add_route (r_method r) r (rv_route val) in
        (Node key (Some (RV (rv_mws val) res)) cs,
         match dup with Some _ => Some PDuplicate | None => None end)
    end.

  (** route_trie.rs 169-180 and 69-81: push a middleware to a node's value. *)
  Definition push_mw (m : M) (n : node) : upd node :=
    match n with
    | Node key value cs =>
        let val := match value with Some val => val | None => rv_default end in
        (Node key (Some (RV (rv_mws val ++ [m]) (rv_route val))) cs, None)
    end.

  (** route_trie.rs 56-59: [RouteTrie]; the model of a trie is its head node. *)
  Definition trie := node.

  (** route_trie.rs 62-66: [RouteTrie::new]. *)
  Definition trie_new : trie := node_new [c_slash] None.

  (** route_trie.rs 68-81: [RouteTrie::insert_default_middleware]. *)
  Definition insert_default_middleware (t : trie) (m : M) : upd trie := push_mw m t.

  (** route_trie.rs 281-303: [RouteTrie::insert_default_route]. *)
  Definition insert_default_route (t : trie) (r : route) : upd trie := set_route r t.

  (** route_trie.rs 83-145: [RouteTrie::insert_route]. *)
  Definition insert_route (t : trie) (path : str) (r : route) : upd trie :=
    let split_key := segments path in
    match star_check (length split_key) 0 split_key with
    | Some p => (t, Some p)
    | None =>
        if is_empty split_key then insert_default_route t r
        else walk t split_key (set_route r)
    end.

  (** route_trie.rs 147-189: [RouteTrie::insert_middleware].  There is no special
      case for a path without segments: the loop does not run. *)
  Definition insert_middleware (t : trie) (path : str) (m : M) : upd trie :=
    let split_key := segments path in
    match star_check (length split_key) 0 split_key with
    | Some p => (t, Some p)
    | None => walk t split_key (push_mw m)
    end.

  (** route_trie.rs 264-272: what is done with the mount point. *)
  Definition mount (src : trie) (n : node) : upd node :=
    match n with
    | Node key value cs =>
        if match value with Some _ => true | None => false end || negb (is_empty cs)
        then (n, Some PMountConflict)
        else (Node key (nval src) (nkids src), None)
    end.

  (** route_trie.rs 233-279: [RouteTrie::insert_sub_route]. *)
  Definition insert_sub_route (des : trie) (path : str) (src : trie) : upd trie :=
    let split_key := segments path in
    match star_check (length split_key) 0 split_key with
    | Some p => (des, Some p)
    | None =>
        if is_empty split_key then (src, None)
        else walk des split_key (mount src)
    end.

  (** Middlewares of a node's value, if any (e.g. route_trie.rs 482-487). *)
  Definition val_mws (v : option rvalue) : list M :=
    match v with Some v => rv_mws v | None => [] end.

  (** Result of [get_next_node] together with the state of its three [&mut]
      arguments. *)
  Inductive sres :=
  | SPanic (p : panic)
  | SRet (found : option node) (key : list str) (ps : params) (mws : list M).

  (** route_trie.rs 542-549: first child named "*" that has a value. *)
  Fixpoint star_child (cs : list node) : option (node * rvalue) :=
    match cs with
    | [] => None
    | c :: rest =>
        if str_eqb (nkey c) s_star then
          match nval c with
          | Some v => Some (c, v)
          | None => star_child rest
          end
        else star_child rest
    end.

  (** route_trie.rs 460-566: the loop over the children in
      [Node::get_next_node]; [rec] is the recursive call, [curr_key] the removed
      first key.  The [key] vector is threaded as it is mutated by the recursive
      calls: it is not restored when they fail. *)
  Section Loop.
    Variable rec : node -> list str -> params -> list M -> bool -> sres.
    Variable curr_key : str.
    Variable is_break_parent : bool.

    (** route_trie.rs 460-566: the loop over the children. *)
    Fixpoint next_loop (cs : list node) (key : list str) (ps : params) (mws : list M)
      {struct cs} : sres :=
      match cs with
      | [] => SRet None key ps mws
      | c :: rest =>
          if negb is_break_parent && is_param c then
            if is_empty key then
              match nval c with
              | Some v =>
                  match slice_from (nkey c) 1 with
                  | None => SPanic PSlice
                  | Some name =>
                      SRet (Some c) key (pinsert name curr_key ps) (mws ++ rv_mws v)
                  end
              | None => next_loop rest key ps mws
              end
            else
              match rec c key ps mws false with
              | SPanic p => SPanic p
              | SRet (Some final_val) key' ps' mws' =>
                  match slice_from (nkey c) 1 with
                  | None => SPanic PSlice
                  | Some name =>
                      SRet (Some final_val) key' (pinsert name curr_key ps')
                           (mws' ++ val_mws (nval c))
                  end
              | SRet None key' ps' mws' => next_loop rest key' ps' mws'
              end
          else if negb is_break_parent && str_eqb (nkey c) s_star then
            SRet (Some c) key ps (mws ++ val_mws (nval c))
          else
            let count := match_count (nkey c) curr_key in
            let break_key :=
              Nat.eqb count (blen (nkey c)) && negb (Nat.eqb count (blen curr_key)) in
            match (if break_key
                   then match slice_from curr_key count with
                        | Some tail => Some (tail :: key)
                        | None => None
                        end
                   else Some key) with
            | None => SPanic PSlice
            | Some key1 =>
                if negb (Nat.eqb count 0) && Nat.eqb count (blen (nkey c)) then
                  if is_empty key1 then
                    match nval c with
                    | Some v => SRet (Some c) key1 ps (mws ++ rv_mws v)
                    | None =>
                        match star_child (nkids c) with
                        | Some (child, v) => SRet (Some child) key1 ps (mws ++ rv_mws v)
                        | None => next_loop rest key1 ps mws
                        end
                    end
                  else
                    match rec c key1 ps mws break_key with
                    | SPanic p => SPanic p
                    | SRet (Some final_val) key' ps' mws' =>
                        SRet (Some final_val) key' ps' (mws' ++ val_mws (nval c))
                    | SRet None key' ps' mws' => next_loop rest key' ps' mws'
                    end
                else next_loop rest key1 ps mws
            end
      end.
  End Loop.

  (** route_trie.rs 450-570: [Node::get_next_node]. *)
  Fixpoint get_next_node (self : node) (key : list str) (ps : params) (mws : list M)
    (is_break_parent : bool) {struct self} : sres :=
    match self with
    | Node _ _ cs =>
        match key with
        | [] => SPanic PRemove                      (* key.remove(0) *)
        | curr_key :: key0 =>
            next_loop (fun c k p m b => get_next_node c k p m b)
                      curr_key is_break_parent cs key0 ps mws
        end
    end.

  (** route_trie.rs 30-41: [RouteValueResult]. *)
  Record route_result := RR { rr_value : rvalue; rr_params : params }.

  (** route_trie.rs 43-45: [RouteValueResult::get_route]. *)
  Definition rr_get_route (r : route_result) (m : method) : option route :=
    get_route (rv_route (rr_value r)) m.

  (** route_trie.rs 47-49: [RouteValueResult::get_middlewares]. *)
  Definition rr_mws (r : route_result) : list M := rv_mws (rr_value r).

  (** The outcome of [search_route] (route_trie.rs 193): a panic, [None] or [Some]. *)
  Inductive lookup := LPanic (p : panic) | LNone | LSome (r : route_result).

  (** route_trie.rs 191-231: [RouteTrie::search_route]. *)
  Definition search_route (t : trie) (path : str) : lookup :=
    let split_key := segments path in
    let middlewares := val_mws (nval t) in
    if is_empty split_key then
      match nval t with
      | Some v => LSome (RR (RV middlewares (rv_route v)) [])
      | None => LNone
      end
    else
      match get_next_node t split_key [] middlewares false with
      | SPanic p => LPanic p
      | SRet None _ _ _ => LNone
      | SRet (Some n) _ ps mws =>
          match nval n with
          | Some v => LSome (RR (RV mws (rv_route v)) ps)
          | None => LNone
          end
      end.
End Trie.

Arguments route : clear implicits.
Arguments resource : clear implicits.
Arguments rvalue : clear implicits.
Arguments node : clear implicits.
Arguments trie : clear implicits.
Arguments route_result : clear implicits.
Arguments lookup : clear implicits.
Arguments sres : clear implicits.
