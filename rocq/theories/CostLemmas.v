(** Lemmas about the cost of a search. *)

From Coq Require Import Lia.
From Verif Require Import Base BaseFacts RouteTrie Router TableSpec PropSpec TrieDen TrieIns TrieRep TrieSearch RouteFacts RouteLemmas TextRep Cost.

Section Cost.
  Context {H M : Type}.
  Notation node := (node H M).
  Notation sres := (sres H M).

  (** ** The counter changes nothing *)

  Lemma loop_cost_same rec rec' s bp : forall cs : list node,
    (forall c, In c cs -> forall k p m b, fst (rec' c k p m b) = rec c k p m b) ->
    forall key ps mws, fst (next_loop_cost rec' s bp cs key ps mws) = next_loop rec s bp cs key ps mws.
  Proof.
    induction cs as [|c cs IH]; intros R key ps mws; [reflexivity|].
    specialize (IH (fun d I => R d (or_intror I))). specialize (R c (or_introl eq_refl)).
    cbn [next_loop_cost next_loop]. destruct (negb bp && is_param c).
    - destruct (is_empty key).
      + destruct (nval c); [destruct (slice_from (nkey c) 1); reflexivity|apply IH].
      + rewrite <- R. destruct (rec' c key ps mws false) as [[p|[f|] k' p' m'] n]; cbn [fst]; [reflexivity| |apply IH].
        destruct (slice_from (nkey c) 1); reflexivity.
    - destruct (negb bp && str_eqb (nkey c) s_star); [reflexivity|]. cbv zeta.
      match goal with |- context [match ?x with Some key1 => _ | None => (SPanic PSlice, 1) end] => destruct x as [key1|] end; [|reflexivity].
      destruct (negb (Nat.eqb (match_count (nkey c) s) 0) && Nat.eqb (match_count (nkey c) s) (blen (nkey c))); [|apply IH].
      destruct (is_empty key1).
      + destruct (nval c); [reflexivity|]. destruct (star_child (nkids c)) as [[child v]|]; [reflexivity|apply IH].
      + rewrite <- R. match goal with |- context [rec' ?a ?b ?d ?e ?f] => destruct (rec' a b d e f) as [[p|[f0|] k' p' m'] n] end;
          cbn [fst]; [reflexivity|reflexivity|apply IH].
  Qed.

  Lemma next_cost_same (n : node) : forall key ps mws b, fst (get_next_node_cost n key ps mws b) = get_next_node n key ps mws b.
  Proof.
    induction n as [k v cs IH] using node_ind'. intros [|s key] ps mws b; [reflexivity|].
    cbn [get_next_node_cost get_next_node]. apply loop_cost_same. rewrite Forall_forall in IH. exact IH.
  Qed.

  Lemma search_cost_same (t : trie H M) path : fst (search_route_cost t path) = search_route t path.
  Proof.
    unfold search_route_cost, search_route. destruct (is_empty (segments path)); [reflexivity|].
    rewrite <- next_cost_same. destruct (get_next_node_cost _ _ _ _ _) as [[p|[f|] k p m] n]; reflexivity.
  Qed.

  (** ** The bound *)

  Inductive narrow (D : nat) : node -> Prop :=
  | narrow_node k v cs : length cs <= D -> (forall c, In c cs -> narrow D c) -> narrow D (Node k v cs).

  Fixpoint size (key : list str) : nat := match key with [] => 0 | s :: r => S (length s) + size r end.
  Definition left_size (r : sres) : nat := match r with SPanic _ => 0 | SRet _ k _ _ => size k end.

  Definition fits (s : str) (c : node) : bool :=
    negb (Nat.eqb (match_count (nkey c) s) 0) && Nat.eqb (match_count (nkey c) s) (blen (nkey c)).
  Definition budget (s : str) (cs : list node) : nat := if existsb (fits s) cs then length s else 0.

  Definition firsts (cs : list node) : Prop :=
    (forall c, In c cs -> nkey c <> []) /\ NoDup (map (fun c => hd_error (nkey c)) cs).

  Lemma fits_first s (c : node) : nkey c <> [] -> fits s c = true -> exists x k r, nkey c = x :: k /\ s = x :: r.
  Proof.
    intros N F. apply (match_count_full _ _ N) in F as [r E]. destruct (nkey c) as [|x k]; [congruence|].
    exists x, k, (k ++ r). split; [reflexivity|exact E].
  Qed.

  (** At most one child fits. *)
  Lemma fits_once s (c : node) cs : firsts (c :: cs) -> fits s c = true -> budget s cs = 0.
  Proof.
    intros (K & N) F. unfold budget. destruct (existsb (fits s) cs) eqn:E; [|reflexivity]. exfalso.
    apply existsb_exists in E as (d & I & Fd).
    destruct (fits_first s c (K c (or_introl eq_refl)) F) as (x & k & r & Ek & Es).
    destruct (fits_first s d (K d (or_intror I)) Fd) as (y & k' & r' & Ek' & Es').
    assert (y = x) by congruence. subst y.
    cbn [map] in N. apply NoDup_cons_iff in N as [N _]. apply N.
    apply in_map_iff. exists d. split; [|exact I]. rewrite Ek, Ek'. reflexivity.
  Qed.

  Lemma kids_tail (c : node) cs : firsts (c :: cs) -> firsts cs.
  Proof.
    intros (K & N). split; [intros d I; apply K; right; exact I|]. cbn [map] in N. apply NoDup_cons_iff in N. apply N.
  Qed.

  Lemma first_tok x k k' : key_ok (x :: k) -> key_ok (x :: k') -> x <> c_colon ->
    hd_error (seg_toks (x :: k)) = hd_error (seg_toks (x :: k')).
  Proof.
    intros K K' N. inversion K as [r|E|s Ns L]; inversion K' as [r'|E'|s' Ns' L']; subst; try congruence.
    all: try (exfalso; match goal with L : lit_ok (c_star :: _) |- _ => destruct L as [_ L]; apply L; left; reflexivity end).
    rewrite (seg_toks_lit _ L), (seg_toks_lit _ L'). reflexivity.
  Qed.

  Lemma kids_ok_tail (c : node) cs : kids_ok (c :: cs) -> kids_ok cs.
  Proof.
    intros (K & N & P & S). split; [intros d I; apply K; right; exact I|]. split; [cbn [map] in N; apply NoDup_cons_iff in N; apply N|].
    split.
    - intros d I Pd. specialize (P d (or_intror I) Pd). injection P as -> ->. destruct I.
    - intros l1 d l2 -> E. apply (S (c :: l1) d l2 eq_refl E).
  Qed.

  Lemma kids_firsts (cs : list node) : kids_ok cs -> firsts cs.
  Proof.
    induction cs as [|c cs IH]; intros K; [split; [intros c []|constructor]|].
    destruct (IH (kids_ok_tail _ _ K)) as [_ IHn]. destruct K as (K & N & P & _).
    assert (Ne : forall d, In d (c :: cs) -> nkey d <> []) by (intros d I E; specialize (K d I); rewrite E in K; exact (key_ok_nil K)).
    split; [exact Ne|]. cbn [map]. constructor; [|exact IHn]. intros I. apply in_map_iff in I as (d & E & I).
    pose proof (Ne c (or_introl eq_refl)) as Nc. destruct (nkey c) as [|x k] eqn:Ek; [congruence|].
    destruct (nkey d) as [|y k'] eqn:Ek'; [discriminate E|]. injection E as ->.
    destruct (N.eq_dec x c_colon) as [->|Nx].
    - assert (Pc : is_param c = true) by (unfold is_param; rewrite Ek; reflexivity).
      specialize (P c (or_introl eq_refl) Pc). injection P as P. subst cs. destruct I.
    - cbn [map] in N. apply NoDup_cons_iff in N as [N _]. apply N.
      apply in_map_iff. exists d. split; [|exact I]. unfold kt. rewrite Ek, Ek'.
      apply first_tok; [rewrite <- Ek'; apply K; right; exact I|rewrite <- Ek; apply K; left; reflexivity|exact Nx].
  Qed.

  Lemma wf_radix (n : node) : wf n -> radix n.
  Proof.
    induction n as [k v cs IH] using node_ind'. rewrite Forall_forall in IH. intros W. inversion W as [k' v' cs' K Wc]; subst.
    destruct (kids_firsts cs K) as [F1 F2]. split; cbn [nkids]; [|exact F2]. intros c I. split; [apply F1, I|apply (IH c I), (Wc c I)].
  Qed.

  Definition within_cost D (r : sres * nat) (b : nat) : Prop := snd r + D * left_size (fst r) <= b.

  Lemma loop_cost D rec s bp : forall cs : list node, firsts cs -> length cs <= D -> (forall c, In c cs -> length (nkids c) <= D) ->
    (forall c, In c cs -> forall key ps mws b, key <> [] -> within_cost D (rec c key ps mws b) (D * size key)) ->
    forall key ps mws, within_cost D (next_loop_cost rec s bp cs key ps mws) (length cs + D * (size key + budget s cs)).
  Proof.
    induction cs as [|c cs IH]; intros K L Ld R key ps mws.
    { unfold within_cost. cbn. lia. }
    specialize (IH (kids_tail _ _ K)). cbn [length] in L.
    assert (IH' : forall key ps mws, within_cost D (next_loop_cost rec s bp cs key ps mws) (length cs + D * (size key + budget s cs))).
    { apply IH; [lia|intros d I; apply Ld; right; exact I|intros d I; apply R; right; exact I]. }
    clear IH. assert (Bl : budget s cs <= budget s (c :: cs)).
    { unfold budget. cbn [existsb]. destruct (fits s c); [|reflexivity]. cbn [orb]. destruct (existsb (fits s) cs); lia. }
    assert (Rc := R c (or_introl eq_refl)). cbn [next_loop_cost]. cbv zeta. cbn [length].
    assert (W : forall n k p m, n + D * size k <= D * (size key + budget s (c :: cs)) ->
      budget s cs = 0 \/ n + D * size k <= D * size key ->
      within_cost D (fst (next_loop_cost rec s bp cs k p m), S (n + snd (next_loop_cost rec s bp cs k p m)))
        (S (length cs) + D * (size key + budget s (c :: cs)))).
    { intros n k p m A1 A2. specialize (IH' k p m). unfold within_cost in *. cbn [fst snd] in *. destruct A2 as [A2|A2]; nia. }
    destruct (negb bp && is_param c) eqn:Ep.
    - destruct (is_empty key) eqn:Ek.
      + destruct (nval c).
        * destruct (slice_from (nkey c) 1); unfold within_cost; cbn [fst snd left_size]; nia.
        * apply W; [nia|right; nia].
      + assert (Nk : key <> []) by (destruct key; [discriminate|discriminate]).
        specialize (Rc key ps mws false Nk). destruct (rec c key ps mws false) as [[p|[f|] k' p' m'] n];
          unfold within_cost in Rc; cbn [fst snd left_size] in Rc.
        * unfold within_cost; cbn [fst snd left_size]; nia.
        * destruct (slice_from (nkey c) 1); unfold within_cost; cbn [fst snd left_size]; nia.
        * apply W; [nia|right; nia].
    - destruct (negb bp && str_eqb (nkey c) s_star); [unfold within_cost; cbn [fst snd left_size]; nia|].
      fold (fits s c).
      destruct (Nat.eqb (match_count (nkey c) s) (blen (nkey c)) && negb (Nat.eqb (match_count (nkey c) s) (blen s))) eqn:Eb.
      + apply andb_prop in Eb as [E1 E2]. apply Nat.eqb_eq in E1.
        assert (Nc : nkey c <> []) by (destruct K as (K & _); apply K; left; reflexivity).
        destruct (match_count_spec (nkey c) s) as (p & x & y & Ex & Ey & Em & _).
        assert (Ef : fits s c = true).
        { unfold fits. rewrite (proj2 (Nat.eqb_eq _ _) E1), andb_true_r. rewrite E1. destruct (nkey c) as [|a k]; [congruence|].
          cbn [blen]. destruct (len_utf8 a + blen k) eqn:Z; [|reflexivity].
          exfalso. assert (0 < len_utf8 a) by (unfold len_utf8; destruct (a <? 128)%N, (a <? 2048)%N, (a <? 65536)%N; lia). lia. }
        assert (Sl : slice_from s (match_count (nkey c) s) = Some y) by (rewrite Em, Ey at 1; apply slice_from_app).
        rewrite Sl, Ef. cbn [is_empty].
        assert (Bs : budget s (c :: cs) = length s) by (unfold budget; cbn [existsb]; rewrite Ef; reflexivity).
        assert (B0 : budget s cs = 0) by (eapply fits_once; eassumption).
        assert (Lp : p <> []).
        { intros ->. unfold fits in Ef. rewrite Em in Ef. discriminate Ef. }
        assert (Ly : size (y :: key) <= size key + length s).
        { rewrite Ey, app_length. destruct p; [congruence|]. cbn [size length]. lia. }
        apply (Nat.mul_le_mono_l _ _ D) in Ly.
        specialize (Rc (y :: key) ps mws true ltac:(discriminate)).
        change (@cons (list char) y key) with (@cons str y key) in *.
        destruct (rec c (@cons str y key) ps mws true) as [[p0|[f|] k' p' m'] n]; unfold within_cost in Rc; cbn [fst snd left_size] in Rc.
        * unfold within_cost; cbn [fst snd left_size]. rewrite Bs. nia.
        * unfold within_cost; cbn [fst snd left_size]. rewrite Bs. nia.
        * apply W; [rewrite Bs; nia|left; exact B0].
      + destruct (fits s c) eqn:Ef; [|apply W; [nia|right; nia]].
        assert (Bs : budget s (c :: cs) = length s) by (unfold budget; cbn [existsb]; rewrite Ef; reflexivity).
        assert (B0 : budget s cs = 0) by (eapply fits_once; eassumption).
        specialize (Ld c (or_introl eq_refl)).
        assert (Ls : D * 1 <= D * length s).
        { destruct (fits_first s c) as (x & k & r & _ & ->); [destruct K as (K & _); apply K; left; reflexivity|exact Ef|cbn [length]; apply Nat.mul_le_mono_l; lia]. }
        destruct (is_empty key) eqn:Ek.
        * destruct (nval c); [unfold within_cost; cbn [fst snd left_size]; nia|].
          destruct (star_child (nkids c)) as [[child v]|].
          -- unfold within_cost; cbn [fst snd left_size]. rewrite Bs. nia.
          -- apply W; [rewrite Bs; nia|left; exact B0].
        * assert (Nk : key <> []) by (destruct key; [discriminate|discriminate]).
          specialize (Rc key ps mws false Nk). destruct (rec c key ps mws false) as [[p|[f|] k' p' m'] n];
            unfold within_cost in Rc; cbn [fst snd left_size] in Rc.
          -- unfold within_cost; cbn [fst snd left_size]; nia.
          -- unfold within_cost; cbn [fst snd left_size]; nia.
          -- apply W; [nia|left; exact B0].
  Qed.

  Lemma next_cost D (n : node) : radix n -> narrow D n ->
    forall key ps mws b, key <> [] -> within_cost D (get_next_node_cost n key ps mws b) (D * size key).
  Proof.
    induction n as [k v cs IH] using node_ind'. rewrite Forall_forall in IH. intros W Nr [|s key] ps mws b N; [congruence|].
    destruct W as [Wc ND]. cbn [nkids] in Wc, ND. inversion Nr as [k' v' cs' L Nc]; subst. cbn [get_next_node_cost].
    assert (K : firsts cs) by (split; [intros c I; exact (proj1 (Wc c I))|exact ND]).
    pose proof (loop_cost D (fun c k p m b => get_next_node_cost c k p m b) s b cs K L) as Lc.
    assert (X : within_cost D (next_loop_cost (fun c k p m b => get_next_node_cost c k p m b) s b cs key ps mws)
                  (length cs + D * (size key + budget s cs))).
    { apply Lc.
      - intros c I. specialize (Nc c I). inversion Nc; subst. assumption.
      - intros c I. apply (IH c I (proj2 (Wc c I)) (Nc c I)). }
    unfold within_cost in *. cbn [size]. unfold budget in X. destruct (existsb (fits s) cs); nia.
  Qed.

  Lemma split_size path : size (split_on c_slash path) = S (length path).
  Proof.
    induction path as [|x p IH]; [reflexivity|]. cbn [split_on]. destruct (N.eqb x c_slash).
    - cbn [size length]. rewrite IH. lia.
    - destruct (split_on c_slash p) as [|a r]; cbn [size length] in *; lia.
  Qed.

  Lemma size_filter (f : str -> bool) l : size (filter f l) <= size l.
  Proof. induction l as [|a l IH]; cbn; [lia|]. destruct (f a); cbn [size]; lia. Qed.

  (** ** Children and registrations *)

  Lemma boundary_entry (T : table H M) ts : boundary T ts -> ts = [] \/ exists p c, In (p, c) T /\ prefix ts (flat p).
  Proof.
    intros [->|[(p & c & i & I & ->)|(p & c & q & d & a & b & I & _ & _ & (x & E) & _)]]; [left; reflexivity|right|right].
    - exists p, c. split; [exact I|apply flat_firstn_prefix].
    - exists p, c. split; [exact I|]. exists ([a] ++ x). rewrite E, <- app_assoc. reflexivity.
  Qed.

  Lemma narrow_below (T : table H M) (t : node) : Rep t T -> forall n : node, wf n ->
    forall pre, (forall c, In c (nkids n) -> forall r, isn c r -> isn t (pre ++ kt c ++ r)) -> narrow (length T) n.
  Proof.
    intros R. induction n as [k v cs IH] using node_ind'. rewrite Forall_forall in IH. intros W pre P.
    inversion W as [k' v' cs' K Wc]; subst. cbn [nkids] in P. constructor.
    - pose proof K as (K1 & ND & _).
      assert (L : length (map (fun c => hd_error (kt c)) cs) <= length (map (fun e => nth_error (flat (fst e)) (length pre)) T)).
      { apply NoDup_incl_length; [exact ND|]. intros o I. apply in_map_iff in I as (c & <- & I).
        assert (B : boundary T (pre ++ kt c ++ [])) by (apply (rep_isn _ _ R), (P c I), isn_nil).
        pose proof (seg_toks_nil _ (K1 c I)) as Ne. fold (kt c) in Ne. destruct (kt c) as [|a x] eqn:E; [congruence|].
        apply boundary_entry in B as [B|(p & d & J & r & B)]; [destruct pre; discriminate B|].
        apply in_map_iff. exists (p, d). split; [|exact J]. cbn [fst hd_error]. rewrite B, <- app_assoc.
        rewrite nth_error_app2 by lia. rewrite Nat.sub_diag. reflexivity. }
      rewrite !map_length in L. exact L.
    - intros c I. apply (IH c I (Wc c I) (pre ++ kt c)). intros d Id r J. rewrite <- app_assoc.
      apply (P c I (kt d ++ r)). apply isn_via; [apply Wc; exact I|exact Id|exact J].
  Qed.

  Lemma rep_narrow (T : table H M) (t : node) : Rep t T -> narrow (length T) t.
  Proof.
    intros R. apply (narrow_below T t R t (rep_wf _ _ R) []). intros c I r J. cbn [app]. apply isn_via; [apply (rep_wf _ _ R)|exact I|exact J].
  Qed.

  Lemma radix_cost D (t : trie H M) path : radix t -> narrow D t ->
    fst (search_route_cost t path) = search_route t path /\ snd (search_route_cost t path) <= D * S (length path).
  Proof.
    intros R N. split; [apply search_cost_same|].
    unfold search_route_cost. destruct (segments path) as [|s r] eqn:E; cbn [is_empty]; [cbn [snd]; lia|].
    pose proof (next_cost D t R N (s :: r) [] (val_mws (nval t)) false ltac:(discriminate)) as C.
    assert (S : size (s :: r) <= S (length path)).
    { rewrite <- E, <- split_size. apply size_filter. }
    unfold within_cost in C. destruct (get_next_node_cost _ _ _ _ _) as [[p|[f|] k p m] n]; cbn [fst snd] in *; nia.
  Qed.

  (** C66 *)
  Lemma search_cost (l : list (op H M)) t path : built l t ->
    fst (search_route_cost t path) = search_route t path /\
    snd (search_route_cost t path) <= length (table_of l) * S (length path).
  Proof.
    intros B. destruct (built_rep _ _ B) as (R & _). apply radix_cost; [apply wf_radix, (rep_wf _ _ R)|apply (rep_narrow _ _ R)].
  Qed.
End Cost.
