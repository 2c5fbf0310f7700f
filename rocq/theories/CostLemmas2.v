(** Lemmas about the size and the height of tries. *)

From Coq Require Import Lia.
From Verif Require Import Base BaseFacts RouteTrie Router PropSpec TextSpec TrieDen TrieBuild OwnPath TextRep TextInv Cost CostSpec CostLemmas.

Section Size.
  Context {H M : Type}.
  Notation node := (node H M).
  Notation op := (op H M).

  (** Leaves, and characters on the longest way down. *)
  Fixpoint tips (n : node) : nat := match n with Node _ _ cs => list_sum (map (fun c => Nat.max 1 (tips c)) cs) end.
  Fixpoint tall (n : node) : nat := match n with Node _ _ cs => list_max (map (fun c => length (nkey c) + tall c) cs) end.

  Lemma node_count_kids (n : node) : node_count n = S (list_sum (map node_count (nkids n))).
  Proof. destruct n; reflexivity. Qed.
  Lemma tips_kids (n : node) : tips n = list_sum (map (fun c => Nat.max 1 (tips c)) (nkids n)).
  Proof. destruct n; reflexivity. Qed.
  Lemma tall_kids (n : node) : tall n = list_max (map (fun c => length (nkey c) + tall c) (nkids n)).
  Proof. destruct n; reflexivity. Qed.

  Definition fresh (n : node) : nat := if is_empty (nkids n) then 1 else 0.

  Definition grows (D W R : nat) (k : node -> upd node) : Prop := forall m, radix m ->
    (radix (fst (k m)) /\ nkey (fst (k m)) = nkey m) /\
    node_count (fst (k m)) + fresh m <= node_count m + D /\
    tips (fst (k m)) <= tips m + W /\
    tall (fst (k m)) <= Nat.max (tall m) R.

  Lemma sum_cons (f : node -> nat) c l : list_sum (map f (c :: l)) = f c + list_sum (map f l).
  Proof. reflexivity. Qed.
  Lemma max_cons (f : node -> nat) c l : list_max (map f (c :: l)) = Nat.max (f c) (list_max (map f l)).
  Proof. reflexivity. Qed.
  Lemma sum_nil (f : node -> nat) : list_sum (map f []) = 0. Proof. reflexivity. Qed.
  Lemma max_nil (f : node -> nat) : list_max (map f []) = 0. Proof. reflexivity. Qed.
  Lemma sum_mid (f : node -> nat) l1 c l2 : list_sum (map f (l1 ++ c :: l2)) = list_sum (map f l1) + f c + list_sum (map f l2).
  Proof. rewrite map_app, list_sum_app, sum_cons. lia. Qed.
  Lemma max_mid (f : node -> nat) l1 c l2 : list_max (map f (l1 ++ c :: l2)) = Nat.max (list_max (map f l1)) (Nat.max (f c) (list_max (map f l2))).
  Proof. rewrite map_app, list_max_app, max_cons. lia. Qed.

  (** One child replaced. *)
  Lemma replaced (n c c' : node) l1 l2 D W R : nkids n = l1 ++ c :: l2 ->
    node_count c' <= node_count c + D -> Nat.max 1 (tips c') <= Nat.max 1 (tips c) + W ->
    length (nkey c') + tall c' <= Nat.max (length (nkey c) + tall c) R ->
    node_count (with_kids n (l1 ++ c' :: l2)) + fresh n <= node_count n + D /\
    tips (with_kids n (l1 ++ c' :: l2)) <= tips n + W /\
    tall (with_kids n (l1 ++ c' :: l2)) <= Nat.max (tall n) R.
  Proof.
    intros E A1 A2 A3. rewrite !node_count_kids, !tips_kids, !tall_kids. cbn [nkids with_kids]. unfold fresh. rewrite E.
    rewrite !sum_mid, !max_mid. destruct l1; cbn [app is_empty]; lia.
  Qed.

  Lemma process_grows key : key <> [] -> forall D W R k, 1 <= D -> 1 <= W -> grows D W R k ->
    grows (S D) W (length key + R) (fun n => process_insertion n key k).
  Proof.
    intros G D W R k HD HW K n. revert key G. induction n as [nk nv cs IH] using node_ind'. rewrite Forall_forall in IH.
    intros key G Rn. set (n := Node nk nv cs) in *.
    assert (KR : radixes k) by (intros m Rm; apply (K m Rm)).
    split; [exact (process_radix n key k Rn G KR)|].
    assert (NE : forall d, In d (nkids n) -> nkey d <> []) by (destruct Rn as [A _]; intros d I; exact (proj1 (A d I))).
    pose proof (process_shape n key k G NE) as S.
    destruct S as [|P C|l1 c l2 E1 E2 P C|l1 c l2 y E1 E2 Y P Q R1|l1 c l2 x E1 E2 X P Q R1 r|l1 c l2 w x y E1 E2 E3 W' X Y DD P Q R1 r];
      cbn [fst snd].
    - assert (fresh n <= 1) by (unfold fresh; destruct (is_empty _); lia). lia.
    - destruct (K (node_new key None) (radix_leaf _ _)) as ((_ & K1) & K2 & K3 & K4).
      set (new := fst (k (node_new key None))) in *. cbn in K1, K2, K3, K4.
      assert (fresh n <= 1) by (unfold fresh; destruct (is_empty _); lia).
      rewrite !node_count_kids, !tips_kids, !tall_kids. cbn [nkids with_kids].
      destruct (str_eqb key s_star).
      + rewrite !sum_mid, !max_mid, !sum_nil, !max_nil, K1. lia.
      + rewrite !sum_cons, !max_cons, K1. lia.
    - destruct (radix_kid _ _ _ _ Rn E1) as [Nc Rc]. destruct (K c Rc) as ((_ & K1) & K2 & K3 & K4).
      apply (replaced n c); [exact E1|lia|lia|rewrite K1, E2; lia].
    - destruct (radix_kid _ _ _ _ Rn E1) as [Nc Rc].
      destruct (IH c ltac:(assert (I : In c (nkids n)) by (rewrite E1; apply in_elt); exact I) y Y Rc) as ((_ & K1) & K2 & K3 & K4).
      apply (replaced n c); [exact E1|lia|lia|]. rewrite K1, E2, app_length. lia.
    - destruct (radix_kid _ _ _ _ Rn E1) as [Nc Rc].
      assert (Rm : radix (Node key None [Node x (nval c) (nkids c)])).
      { split; cbn [nkids].
        - intros d [<-|[]]. split; [exact X|]. apply (radix_same c); [reflexivity|exact Rc].
        - constructor; [intros []|constructor]. }
      destruct (K _ Rm) as ((_ & K1) & K2 & K3 & K4). fold r in K1, K2, K3, K4.
      rewrite (node_count_kids (Node key _ _)) in K2. rewrite (tips_kids (Node key _ _)) in K3. rewrite (tall_kids (Node key _ _)) in K4.
      cbn [nkids nkey] in K1, K2, K3, K4. rewrite sum_cons, sum_nil in K2, K3. rewrite max_cons, max_nil in K4.
      rewrite (node_count_kids (Node x _ _)) in K2. rewrite (tips_kids (Node x _ _)) in K3. rewrite (tall_kids (Node x _ _)) in K4.
      cbn [nkids nkey] in K1, K2, K3, K4. rewrite <- node_count_kids in K2. rewrite <- tips_kids in K3. rewrite <- tall_kids in K4.
      apply (replaced n c); [exact E1|lia|lia|]. rewrite K1, E2, app_length. lia.
    - destruct (radix_kid _ _ _ _ Rn E1) as [Nc Rc].
      destruct (K (node_new y None) (radix_leaf _ _)) as ((_ & K1) & K2 & K3 & K4). fold r in K1, K2, K3, K4.
      cbn in K1, K2, K3, K4. set (inter := Node x (nval c) (nkids c)).
      assert (I1 : node_count inter = node_count c) by (rewrite !node_count_kids; reflexivity).
      assert (I2 : tips inter = tips c) by (rewrite !tips_kids; reflexivity).
      assert (I3 : tall inter = tall c) by (rewrite !tall_kids; reflexivity).
      apply (replaced n c); [exact E1| | |].
      + rewrite (node_count_kids (Node w _ _)). cbn [nkids]. rewrite !sum_cons, sum_nil. lia.
      + rewrite (tips_kids (Node w _ _)). cbn [nkids]. rewrite !sum_cons, sum_nil. lia.
      + rewrite (tall_kids (Node w _ _)). cbn [nkids nkey]. rewrite !max_cons, max_nil. cbn [nkey inter] in *.
        rewrite K1, E2, E3, !app_length. lia.
  Qed.

  Lemma walk_grows (p : list str) : p <> [] -> (forall s, In s p -> s <> []) -> forall D W R final, 1 <= D -> 1 <= W -> grows D W R final ->
    grows (length p + D) W (length (concat p) + R) (fun n => walk n p final).
  Proof.
    induction p as [|s p IH]; intros NP G D W R final HD HW K; [congruence|].
    assert (Gp : forall x, In x p -> x <> []) by (intros x I; apply G; right; exact I).
    assert (Kk : grows (length p + D) W (length (concat p) + R) (fun next => if is_empty p then final next else walk next p final)).
    { destruct p as [|s' p]; [exact K|]. exact (IH ltac:(discriminate) Gp D W R final HD HW K). }
    intros m Rm. cbn [length concat walk]. rewrite app_length.
    destruct (process_grows s (G s (or_introl eq_refl)) (length p + D) W (length (concat p) + R) _ ltac:(lia) HW Kk m Rm) as (A1 & A2 & A3 & A4).
    cbv beta in *. split; [exact A1|]. set (x := fst (process_insertion m s _)) in *. repeat split; lia.
  Qed.

  Lemma set_route_grows r : grows 1 1 0 (set_route (H:=H) (M:=M) r).
  Proof.
    intros m Rm. split; [exact (radixes_set_route r m Rm)|]. destruct m as [k v cs]. cbn. unfold fresh. destruct (is_empty _); lia.
  Qed.
  Lemma push_grows mw : grows 1 1 0 (push_mw (H:=H) (M:=M) mw).
  Proof.
    intros m Rm. split; [exact (radixes_push mw m Rm)|]. destruct m as [k v cs]. cbn. unfold fresh. destruct (is_empty _); lia.
  Qed.
  Lemma mount_grows (src : node) : radix src -> grows (node_count src) (Nat.max 1 (tips src)) (tall src) (mount src).
  Proof.
    intros Rs m Rm. split; [exact (radixes_mount src Rs m Rm)|]. destruct m as [k v cs]. cbn [mount].
    assert (1 <= node_count src) by (rewrite node_count_kids; lia).
    assert (fresh (Node k v cs) <= 1) by (unfold fresh; destruct (is_empty _); lia).
    destruct (_ || _); cbn [fst]; [lia|].
    rewrite (node_count_kids (Node k (nval src) _)), (tips_kids (Node k (nval src) _)), (tall_kids (Node k (nval src) _)). cbn [nkids].
    rewrite <- node_count_kids, <- tips_kids, <- tall_kids. rewrite (node_count_kids (Node k v cs)). lia.
  Qed.

  Lemma split_chars path : length (concat (split_on c_slash path)) <= length path.
  Proof.
    induction path as [|x p IH]; [reflexivity|]. cbn [split_on]. destruct (N.eqb x c_slash); [cbn [concat app length]; lia|].
    destruct (split_on c_slash p) as [|a r]; cbn [concat length app] in *; rewrite ?app_length in *; cbn [length] in *; lia.
  Qed.
  Lemma filter_chars (f : str -> bool) l : length (concat (filter f l)) <= length (concat l).
  Proof. induction l as [|a l IH]; cbn [filter concat]; [lia|]. destruct (f a); cbn [concat]; rewrite ?app_length; lia. Qed.
  Lemma segment_chars path : length (concat (segments path)) <= length path.
  Proof. unfold segments. rewrite filter_chars. apply split_chars. Qed.

  (** ** Calls *)

  Definition within (t : node) (n w h : nat) (t' : node) : Prop :=
    radix t' /\ node_count t' <= node_count t + n /\ tips t' <= tips t + w /\ tall t' <= Nat.max (tall t) h.

  Lemma run_ops_within (l : list op) :
    Forall (fun o => forall t, radix t -> within t (calls_in o + pieces_in o) (calls_in o) (longest_in o) (fst (run_op t o))) l ->
    forall t, radix t -> within t (calls l + pieces l) (calls l) (longest l) (fst (run_ops t l)).
  Proof.
    intros F. induction F as [|o l Fo F IH]; intros t R; cbn [run_ops fst].
    { split; [exact R|]. cbn. lia. }
    assert (S1 : calls (o :: l) = calls_in o + calls l) by reflexivity.
    assert (S2 : pieces (o :: l) = pieces_in o + pieces l) by reflexivity.
    assert (S3 : longest (o :: l) = Nat.max (longest_in o) (longest l)) by reflexivity.
    specialize (Fo t R). destruct (run_op t o) as [t1 [pn|]] eqn:Eo; cbn [fst] in *; destruct Fo as (R1 & A1 & A2 & A3).
    - split; [exact R1|]. lia.
    - destruct (IH t1 R1) as (R2 & B1 & B2 & B3). split; [exact R2|]. lia.
  Qed.

  Lemma walk_within (t : node) path final D W R : radix t -> 1 <= D -> 1 <= W -> grows D W R final ->
    within t (length (segments path) + D) W (length path + R) (fst (walk t (segments path) final)).
  Proof.
    intros Rt HD HW K. pose proof (segment_chars path) as L. pose proof (nonempty_segments path) as G.
    set (p := segments path) in *. clearbody p. destruct (list_eq_dec (list_eq_dec N.eq_dec) p []) as [->|NP].
    - cbn [walk fst]. split; [exact Rt|]. cbn [length]. lia.
    - destruct (walk_grows p NP G D W R final HD HW K t Rt) as ((A1 & _) & A2 & A3 & A4).
      cbv beta in *. split; [exact A1|]. set (y := fst (walk t p final)) in *. clearbody y. repeat split; lia.
  Qed.

  Lemma run_op_within (o : op) : forall t, radix t ->
    within t (calls_in o + pieces_in o) (calls_in o) (longest_in o) (fst (run_op t o)).
  Proof.
    assert (same : forall t n w h, radix t -> within t n w h t) by (intros; split; [assumption|lia]).
    assert (weak : forall t t' n w h n' w' h', within t n w h t' -> n <= n' -> w <= w' -> h <= h' -> within t n' w' h' t').
    { intros t t' n w h n' w' h' (A & B & C & D) ? ? ?. split; [exact A|]. lia. }
    assert (one : forall t t' D W R, (radix t' /\ nkey t' = nkey t) /\ node_count t' + fresh t <= node_count t + D /\
              tips t' <= tips t + W /\ tall t' <= Nat.max (tall t) R -> within t D W R t').
    { intros t t' D W R ((A & _) & B & C & E). split; [exact A|]. lia. }
    induction o as [m path h|path mw|mw|path sub IH] using op_ind'; intros t R.
    - cbn [run_op calls_in pieces_in longest_in]. unfold insert_route. destruct (star_check _ _ _); [apply same, R|].
      destruct (is_empty (segments path)).
      + unfold insert_default_route. eapply weak; [apply one, (set_route_grows _ t R)|lia..].
      + eapply weak; [apply walk_within with (D := 1) (W := 1) (R := 0); [exact R|lia|lia|apply set_route_grows]|lia..].
    - cbn [run_op calls_in pieces_in longest_in]. unfold insert_middleware. destruct (star_check _ _ _); [apply same, R|].
      eapply weak; [apply walk_within with (D := 1) (W := 1) (R := 0); [exact R|lia|lia|apply push_grows]|lia..].
    - cbn [run_op calls_in pieces_in longest_in]. unfold insert_default_middleware.
      eapply weak; [apply one, (push_grows _ t R)|lia..].
    - rewrite run_op_router. pose proof (run_ops_within sub IH trie_new (radix_leaf _ _)) as (Rs & S1 & S2 & S3). fold (build sub) in *.
      cbn [calls_in pieces_in longest_in]. fold (calls sub) (pieces sub) (longest sub).
      destruct (build sub) as [src [pn|]] eqn:Eb; cbn [fst snd] in *; [apply same, R|].
      change (node_count trie_new) with 1 in S1. change (tips trie_new) with 0 in S2. change (tall trie_new) with 0 in S3.
      unfold insert_sub_route. destruct (star_check _ _ _); [apply same, R|].
      assert (1 <= node_count t) by (rewrite node_count_kids; lia).
      assert (1 <= node_count src) by (rewrite node_count_kids; lia).
      destruct (is_empty (segments path)).
      + cbn [fst]. split; [exact Rs|]. lia.
      + eapply weak; [apply walk_within with (D := node_count src) (W := Nat.max 1 (tips src)) (R := tall src);
          [exact R|lia|lia|apply mount_grows, Rs]|lia..].
  Qed.

  Lemma caught_within (l : list op) : forall t, radix t ->
    within t (calls l + pieces l) (calls l) (longest l) (run_caught t l).
  Proof.
    induction l as [|o l IH]; intros t R; cbn [run_caught].
    { split; [exact R|]. cbn. lia. }
    assert (S1 : calls (o :: l) = calls_in o + calls l) by reflexivity.
    assert (S2 : pieces (o :: l) = pieces_in o + pieces l) by reflexivity.
    assert (S3 : longest (o :: l) = Nat.max (longest_in o) (longest l)) by reflexivity.
    destruct (run_op_within o t R) as (R1 & A1 & A2 & A3). destruct (IH _ R1) as (R2 & B1 & B2 & B3). split; [exact R2|]. lia.
  Qed.

  (** C76 *)
  Lemma caught_size (l : list op) : node_count (run_caught trie_new l) <= 1 + calls l + pieces l.
  Proof. destruct (caught_within l trie_new (radix_leaf _ _)) as (_ & A & _). change (node_count trie_new) with 1 in A. lia. Qed.

  (** ** The stack *)

  Lemma loop_ext rec rec' s bp : forall cs : list node,
    (forall c, In c cs -> forall k p m b, rec c k p m b = rec' c k p m b) ->
    forall key ps mws, next_loop rec s bp cs key ps mws = next_loop rec' s bp cs key ps mws.
  Proof.
    induction cs as [|c cs IH]; intros R key ps mws; [reflexivity|].
    specialize (IH (fun d I => R d (or_intror I))). specialize (R c (or_introl eq_refl)).
    cbn [next_loop]. destruct (negb bp && is_param c).
    - destruct (is_empty key); [destruct (nval c); [reflexivity|apply IH]|]. rewrite R.
      destruct (rec' c key ps mws false) as [p|[f|] k' p' m']; [reflexivity|reflexivity|apply IH].
    - destruct (negb bp && str_eqb (nkey c) s_star); [reflexivity|]. cbv zeta.
      match goal with |- context [match ?x with Some key1 => _ | None => SPanic PSlice end] => destruct x as [key1|] end; [|reflexivity].
      destruct (negb (Nat.eqb (match_count (nkey c) s) 0) && Nat.eqb (match_count (nkey c) s) (blen (nkey c))); [|apply IH].
      destruct (is_empty key1).
      + destruct (nval c); [reflexivity|]. destruct (star_child (nkids c)) as [[child v]|]; [reflexivity|apply IH].
      + rewrite R. match goal with |- context [rec' ?a ?b ?d ?e ?f] => destruct (rec' a b d e f) as [p|[f0|] k' p' m'] end;
          [reflexivity|reflexivity|apply IH].
  Qed.

  Lemma tall_kid (n c : node) : In c (nkids n) -> length (nkey c) + tall c <= tall n.
  Proof. intros I. apply in_split in I as (l1 & l2 & E). rewrite (tall_kids n), E, max_mid. lia. Qed.

  Lemma limited_same stack : forall (n : node) key ps mws b, radix n -> tall n < stack ->
    get_next_node_limited stack n key ps mws b = get_next_node n key ps mws b.
  Proof.
    induction stack as [|stack IH]; intros n key ps mws b R L; [lia|]. destruct n as [k v cs].
    destruct key as [|s key]; [reflexivity|]. cbn [get_next_node_limited get_next_node nkids]. apply loop_ext.
    intros c I k' p m b'. destruct R as [A _]. destruct (A c I) as [Nc Rc]. apply IH; [exact Rc|].
    pose proof (tall_kid (Node k v cs) c I). destruct (nkey c); [congruence|]. cbn [length] in *. lia.
  Qed.

  (** C75 *)
  Lemma caught_stack (l : list op) stack path : longest l < stack ->
    search_route_limited stack (run_caught trie_new l) path = search_route (run_caught trie_new l) path.
  Proof.
    intros L. destruct (caught_within l trie_new (radix_leaf _ _)) as (R & _ & _ & T). change (tall trie_new) with 0 in T.
    unfold search_route_limited, search_route. rewrite limited_same; [reflexivity|exact R|lia].
  Qed.

  (** ** The cost *)

  Lemma width_tips (n : node) : length (nkids n) <= tips n.
  Proof. rewrite tips_kids. induction (nkids n) as [|c cs IH]; [cbn; lia|]. rewrite sum_cons. cbn [length]. lia. Qed.

  Lemma tips_narrow D (n : node) : tips n <= D -> narrow D n.
  Proof.
    induction n as [k v cs IH] using node_ind'. rewrite Forall_forall in IH. intros L. constructor.
    - pose proof (width_tips (Node k v cs)). cbn [nkids] in *. lia.
    - intros c I. apply (IH c I). rewrite tips_kids in L. cbn [nkids] in L. apply in_split in I as (l1 & l2 & ->). rewrite sum_mid in L. lia.
  Qed.

  (** C66 *)
  Lemma caught_cost (l : list op) path : let t := run_caught trie_new l in
    fst (search_route_cost t path) = search_route t path /\
    snd (search_route_cost t path) <= calls l * S (length path).
  Proof.
    intros t. destruct (caught_within l trie_new (radix_leaf _ _)) as (R & _ & T & _). change (tips trie_new) with 0 in T.
    apply radix_cost; [exact R|apply tips_narrow; exact T].
  Qed.
End Size.
