(** The search of a route with the number of child nodes it looks at: [RouteTrie.next_loop],
    [get_next_node] and [search_route] with a counter, increased by every turn of the
    loop at /repo/src/router/route_trie.rs 460-566.  Also the search with a limited stack,
    and the size of a trie. *)

From Verif Require Import Base RouteTrie.

Section Cost.
  Context {H M : Type}.
  Notation node := (node H M).
  Notation sres := (sres H M).

  Section Loop.
    Variable rec : node -> list str -> params -> list M -> bool -> sres * nat.
    Variable curr_key : str.
    Variable is_break_parent : bool.

    (** route_trie.rs 460-566, as [RouteTrie.next_loop]. *)
    Fixpoint next_loop_cost (cs : list node) (key : list str) (ps : params) (mws : list M)
      {struct cs} : sres * nat :=
      match cs with
      | [] => (SRet None key ps mws, 0)
      | c :: rest =>
          let plus n (r : sres * nat) := (fst r, S (n + snd r)) in
          if negb is_break_parent && is_param c then
            if is_empty key then
              match nval c with
              | Some v =>
                  match slice_from (nkey c) 1 with
                  | None => (SPanic PSlice, 1)
                  | Some name =>
                      (SRet (Some c) key (pinsert name curr_key ps) (mws ++ rv_mws v), 1)
                  end
              | None => plus 0 (next_loop_cost rest key ps mws)
              end
            else
              match rec c key ps mws false with
              | (SPanic p, n) => (SPanic p, S n)
              | (SRet (Some final_val) key' ps' mws', n) =>
                  match slice_from (nkey c) 1 with
                  | None => (SPanic PSlice, S n)
                  | Some name =>
                      (SRet (Some final_val) key' (pinsert name curr_key ps')
                            (mws' ++ val_mws (nval c)), S n)
                  end
              | (SRet None key' ps' mws', n) => plus n (next_loop_cost rest key' ps' mws')
              end
          else if negb is_break_parent && str_eqb (nkey c) s_star then
            (SRet (Some c) key ps (mws ++ val_mws (nval c)), 1)
          else
            let count := match_count (nkey c) curr_key in
            let break_key :=
              Nat.eqb count (blen (nkey c)) && negb (Nat.eqb count (blen curr_key)) in
            match (if break_key
                   then match slice_from curr_key count with
                        | Some tail => Some (tail :: key)
                        | None => None
                        end
                   else Some key) with
            | None => (SPanic PSlice, 1)
            | Some key1 =>
                if negb (Nat.eqb count 0) && Nat.eqb count (blen (nkey c)) then
                  if is_empty key1 then
                    match nval c with
                    | Some v => (SRet (Some c) key1 ps (mws ++ rv_mws v), 1)
                    | None =>
                        match star_child (nkids c) with
                        | Some (child, v) => (SRet (Some child) key1 ps (mws ++ rv_mws v), S (length (nkids c)))
                        | None => plus (length (nkids c)) (next_loop_cost rest key1 ps mws)
                        end
                    end
                  else
                    match rec c key1 ps mws break_key with
                    | (SPanic p, n) => (SPanic p, S n)
                    | (SRet (Some final_val) key' ps' mws', n) =>
                        (SRet (Some final_val) key' ps' (mws' ++ val_mws (nval c)), S n)
                    | (SRet None key' ps' mws', n) => plus n (next_loop_cost rest key' ps' mws')
                    end
                else plus 0 (next_loop_cost rest key1 ps mws)
            end
      end.
  End Loop.

  (** route_trie.rs 450-570, as [RouteTrie.get_next_node].  (The children looked at in
      lines 542-549 count as well.) *)
  Fixpoint get_next_node_cost (self : node) (key : list str) (ps : params) (mws : list M)
    (is_break_parent : bool) {struct self} : sres * nat :=
    match self with
    | Node _ _ cs =>
        match key with
        | [] => (SPanic PRemove, 0)
        | curr_key :: key0 =>
            next_loop_cost (fun c k p m b => get_next_node_cost c k p m b)
                           curr_key is_break_parent cs key0 ps mws
        end
    end.

  (** route_trie.rs 191-231, as [RouteTrie.search_route]. *)
  Definition search_route_cost (t : trie H M) (path : str) : lookup H M * nat :=
    let split_key := segments path in
    let middlewares := val_mws (nval t) in
    if is_empty split_key then
      (match nval t with
       | Some v => LSome (RR (RV middlewares (rv_route v)) [])
       | None => LNone
       end, 0)
    else
      match get_next_node_cost t split_key [] middlewares false with
      | (SPanic p, n) => (LPanic p, n)
      | (SRet None _ _ _, n) => (LNone, n)
      | (SRet (Some h) _ ps mws, n) =>
          (match nval h with
           | Some v => LSome (RR (RV mws (rv_route v)) ps)
           | None => LNone
           end, n)
      end.

  (** route_trie.rs 450-570, with at most [stack] calls of [get_next_node] open at the
      same time. *)
  Fixpoint get_next_node_limited (stack : nat) (self : node) (key : list str) (ps : params) (mws : list M)
    (is_break_parent : bool) {struct stack} : sres :=
    match stack with
    | O => SPanic PStack
    | S n =>
        match key with
        | [] => SPanic PRemove
        | curr_key :: key0 =>
            next_loop (fun c k p m b => get_next_node_limited n c k p m b)
                      curr_key is_break_parent (nkids self) key0 ps mws
        end
    end.

  (** route_trie.rs 191-231, with such a stack. *)
  Definition search_route_limited (stack : nat) (t : trie H M) (path : str) : lookup H M :=
    let split_key := segments path in
    let middlewares := val_mws (nval t) in
    if is_empty split_key then
      match nval t with
      | Some v => LSome (RR (RV middlewares (rv_route v)) [])
      | None => LNone
      end
    else
      match get_next_node_limited stack t split_key [] middlewares false with
      | SPanic p => LPanic p
      | SRet None _ _ _ => LNone
      | SRet (Some n) _ ps mws =>
          match nval n with
          | Some v => LSome (RR (RV mws (rv_route v)) ps)
          | None => LNone
          end
      end.

  (** Number of [Node]s (route_trie.rs 306-311) of a trie. *)
  Fixpoint node_count (n : node) : nat :=
    match n with Node _ _ cs => S (list_sum (map node_count cs)) end.
End Cost.
