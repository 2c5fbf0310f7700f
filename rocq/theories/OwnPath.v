(** Routers built by any accepted calls, colons anywhere: a registered path without
    wildcard is found by the requests it describes.  The proof follows the way of the
    path through the trie, which later insertions can only refine. *)

From Verif Require Import Base BaseFacts RouteTrie Router TableSpec PropSpec TrieDen TrieRep TrieBuild TrieSearch TrieLookup TrieTotal RouteLemmas2.

Section Own.
  Context {H M : Type}.
  Notation node := (node H M).
  Notation sres := (sres H M).

  Definition with_kids (n : node) (cs : list node) : node := Node (nkey n) (nval n) cs.

  (** ** The way of a path through the trie *)

  (** Children that a search for [s] passes by before it comes to the right one;
      [b]: in the middle of a segment. *)
  Definition skipped (b : bool) (l1 : list node) (s : str) : Prop :=
    forall d, In d l1 -> nkey d <> [] /\ hd_error (nkey d) <> hd_error s /\
                         (b = false -> is_param d = false /\ nkey d <> s_star).

  Inductive leads (Q : node -> Prop) : node -> bool -> list str -> Prop :=
  | ld_end n : Q n -> leads Q n false []
  | ld_seg n b l1 c l2 rest :
      nkids n = l1 ++ c :: l2 -> nkey c <> [] -> skipped b l1 (nkey c) -> (b = false -> is_param c = false) ->
      leads Q c false rest -> leads Q n b (nkey c :: rest)
  | ld_mid n b l1 c l2 s rest :
      nkids n = l1 ++ c :: l2 -> nkey c <> [] -> skipped b l1 (nkey c) -> (b = false -> is_param c = false) ->
      s <> [] -> leads Q c true (s :: rest) -> leads Q n b ((nkey c ++ s) :: rest)
  | ld_par n c l2 rest :
      nkids n = c :: l2 -> is_param c = true -> leads Q c false rest -> leads Q n false (nkey c :: rest).

  Lemma leads_same (Q : node -> Prop) n n' b p : nkids n = nkids n' -> (Q n -> Q n') -> leads Q n b p -> leads Q n' b p.
  Proof.
    intros E V L. destruct L as [n W|n b l1 c l2 rest K N S P L|n b l1 c l2 s rest K N S P N' L|n c l2 rest K P L].
    - apply ld_end. auto.
    - eapply ld_seg; eauto. rewrite <- E. exact K.
    - eapply ld_mid; eauto. rewrite <- E. exact K.
    - eapply ld_par; eauto. rewrite <- E. exact K.
  Qed.

  (** ** Invariant *)

  Inductive nice (n : node) : Prop :=
  | nice_intro :
      (forall d, In d (nkids n) -> nkey d <> [] /\ (In c_star (nkey d) -> nkey d = s_star) /\ nice d) ->
      (forall i d, nth_error (nkids n) i = Some d -> nkey d = s_star -> S i = length (nkids n)) -> nice n.

  Lemma nice_same n n' : nkids n = nkids n' -> nice n -> nice n'.
  Proof. intros E [A B]. rewrite E in A, B. split; assumption. Qed.

  Lemma nice_leaf k v : nice (Node k v []).
  Proof. split; [intros d []|intros [|] d E; discriminate]. Qed.

  Lemma nice_kid n l1 c l2 : nice n -> nkids n = l1 ++ c :: l2 -> nice c.
  Proof. intros [A _] E. apply A. rewrite E. apply in_elt. Qed.

  (** ** Shape of one insertion step *)

  Definition passed (l1 : list node) (key : str) : Prop :=
    forall d, In d l1 -> is_param d = false /\ hd_error (nkey d) <> hd_error key.

  Inductive shape (n : node) (key : str) (k : node -> upd node) : upd node -> Prop :=
  | sh_error : shape n key k (n, Some PAmbiguous)
  | sh_create : passed (nkids n) key -> (starts_colon key = true -> nkids n = []) ->
      shape n key k (with_kids n (if str_eqb key s_star then nkids n ++ [fst (k (node_new key None))]
                                  else fst (k (node_new key None)) :: nkids n), snd (k (node_new key None)))
  | sh_next l1 c l2 : nkids n = l1 ++ c :: l2 -> nkey c = key -> passed l1 key -> (starts_colon key = true -> l1 = []) ->
      shape n key k (with_kids n (l1 ++ fst (k c) :: l2), snd (k c))
  | sh_skey l1 c l2 y : nkids n = l1 ++ c :: l2 -> key = nkey c ++ y -> y <> [] -> passed l1 key ->
      is_param c = false -> starts_colon key = false ->
      shape n key k (with_kids n (l1 ++ fst (process_insertion c y k) :: l2), snd (process_insertion c y k))
  | sh_stop l1 c l2 x : nkids n = l1 ++ c :: l2 -> nkey c = key ++ x -> x <> [] -> passed l1 key ->
      is_param c = false -> starts_colon key = false ->
      let r := k (Node key None [Node x (nval c) (nkids c)]) in
      shape n key k (with_kids n (l1 ++ fst r :: l2), snd r)
  | sh_fork l1 c l2 w x y : nkids n = l1 ++ c :: l2 -> nkey c = w ++ x -> key = w ++ y -> w <> [] -> x <> [] -> y <> [] ->
      hd_error x <> hd_error y -> passed l1 key -> is_param c = false -> starts_colon key = false ->
      let r := k (node_new y None) in
      shape n key k (with_kids n (l1 ++ Node w None [fst r; Node x (nval c) (nkids c)] :: l2), snd r).

  Lemma upd_nth_at f (l1 : list node) c l2 : upd_nth f (length l1) (l1 ++ c :: l2) = (l1 ++ fst (f c) :: l2, snd (f c)).
  Proof.
    induction l1 as [|d l1 IH]; cbn [length app upd_nth].
    - destruct (f c); reflexivity.
    - rewrite IH. reflexivity.
  Qed.

  Inductive acts (cs : list node) (key : str) (i : nat) : action -> Prop :=
  | ac_create : passed cs key -> (starts_colon key = true -> cs = []) -> acts cs key i (Action ACreateNewNode 0 0)
  | ac_error j : acts cs key i (Action AError 0 j)
  | ac_next l1 c l2 x : cs = l1 ++ c :: l2 -> nkey c = key -> passed l1 key -> (starts_colon key = true -> l1 = []) ->
      acts cs key i (Action ANextNode x (i + length l1))
  | ac_skey l1 c l2 y : cs = l1 ++ c :: l2 -> key = nkey c ++ y -> y <> [] -> passed l1 key -> is_param c = false ->
      starts_colon key = false -> acts cs key i (Action ASplitKey (blen (nkey c)) (i + length l1))
  | ac_snode l1 c l2 w x y : cs = l1 ++ c :: l2 -> nkey c = w ++ x -> key = w ++ y -> w <> [] -> x <> [] ->
      (y = [] \/ hd_error x <> hd_error y) -> passed l1 key -> is_param c = false ->
      starts_colon key = false -> acts cs key i (Action ASplitNode (blen w) (i + length l1)).

  Lemma acts_spec key : key <> [] -> forall cs i, (forall d : node, In d cs -> nkey d <> []) ->
    acts cs key i (get_insertion_action_from cs key i).
  Proof.
    intros NK. induction cs as [|c cs IH]; intros i NE.
    - apply ac_create; [intros d []|reflexivity].
    - cbn [get_insertion_action_from]. destruct (is_param c || starts_colon key) eqn:E.
      + destruct (str_eqb_spec key (nkey c)) as [->|N]; [|apply ac_error].
        replace i with (i + length (@nil node)) at 2 by (simpl; lia).
        eapply ac_next; [reflexivity|reflexivity|intros d []|reflexivity].
      + apply orb_false_iff in E as [P SC]. cbv zeta.
        assert (NC : nkey c <> []) by (apply NE; left; reflexivity).
        destruct (match_count_spec (nkey c) key) as (w & x & y & E1 & E2 & E3 & D).
        assert (L1 : blen (nkey c) = blen w + blen x) by (rewrite E1; apply blen_app).
        assert (L2 : blen key = blen w + blen y) by (rewrite E2; apply blen_app).
        rewrite E3, L1, L2.
        assert (P0 : forall l1 : list node, passed [] key) by (intros l1 d []).
        destruct (Nat.eqb_spec (blen w) (blen w + blen y)) as [F|F]; cbn [andb].
        * assert (y = []) as -> by (apply blen_0; lia). rewrite app_nil_r in E2. subst w.
          destruct (Nat.eqb_spec (blen key) (blen key + blen x)) as [G|G].
          -- assert (x = []) as -> by (apply blen_0; lia). rewrite app_nil_r in E1.
             replace i with (i + length (@nil node)) at 2 by (simpl; lia).
             eapply ac_next; [reflexivity|exact E1|apply P0; exact []|reflexivity].
          -- assert (x <> []) by (intros ->; simpl in G; lia).
             destruct (Nat.eqb_spec (blen key) 0) as [Z|Z]; [apply blen_0 in Z; congruence|]. cbn [negb].
             replace i with (i + length (@nil node)) at 2 by (simpl; lia).
             eapply ac_snode with (y := []); eauto; [reflexivity|rewrite app_nil_r; reflexivity].
        * assert (Y : y <> []) by (intros ->; simpl in F; lia).
          destruct (Nat.eqb_spec (blen w) (blen w + blen x)) as [G|G].
          -- assert (x = []) as -> by (apply blen_0; lia). rewrite app_nil_r in E1. subst w.
             replace i with (i + length (@nil node)) at 2 by (simpl; lia).
             eapply ac_skey; eauto. reflexivity.
          -- assert (X : x <> []) by (intros ->; simpl in G; lia).
             destruct (Nat.eqb_spec (blen w) 0) as [Z|Z]; cbn [negb].
             ++ apply blen_0 in Z. subst w. simpl in E1, E2. subst x y.
                assert (HD : hd_error (nkey c) <> hd_error key) by (destruct D as [D|[D|D]]; congruence).
                assert (PC : forall l1, passed l1 key -> passed (c :: l1) key).
                { intros l1 Q d [<-|I]; [split; assumption|exact (Q d I)]. }
                simpl. specialize (IH (S i) (fun d I => NE d (or_intror I))).
                destruct IH as [A B|j|l1 d l2 z A B C B'|l1 d l2 y A B C D' E' F'|l1 d l2 w x y A B C D' E' F' G' H' I'].
                ** apply ac_create; [apply PC; exact A|]. rewrite SC. discriminate.
                ** apply ac_error.
                ** replace (S i + length l1) with (i + length (c :: l1)) by (simpl; lia). subst cs. eapply (ac_next _ _ _ (c :: l1)); eauto; [reflexivity|]. rewrite SC. discriminate.
                ** replace (S i + length l1) with (i + length (c :: l1)) by (simpl; lia). subst cs. eapply (ac_skey _ _ _ (c :: l1)); eauto. reflexivity.
                ** replace (S i + length l1) with (i + length (c :: l1)) by (simpl; lia). subst cs. eapply (ac_snode _ _ _ (c :: l1)); eauto. reflexivity.
             ++ replace i with (i + length (@nil node)) at 2 by (simpl; lia).
                eapply ac_snode; eauto; [reflexivity|intros ->; apply Z; reflexivity|].
                right. destruct D as [D|[D|D]]; congruence.
  Qed.

  Lemma process_shape n key k : key <> [] -> (forall d, In d (nkids n) -> nkey d <> []) ->
    shape n key k (process_insertion n key k).
  Proof.
    intros NK NE. destruct n as [nk nv cs]. cbn [process_insertion]. unfold get_insertion_action. cbn [nkids] in *.
    pose proof (acts_spec key NK cs 0 NE) as A.
    revert A. generalize (get_insertion_action_from cs key 0). intros a A.
    destruct A as [A B|j|l1 c l2 z A B C B'|l1 c l2 y A B C D' E' F'|l1 c l2 w x y A B C D' E' F' G' H' I'];
      cbn [a_name a_count a_index Nat.add].
    - destruct (k (node_new key None)) as [n' st] eqn:E.
      pose proof (sh_create (Node nk nv cs) key k A B) as S. rewrite E in S. cbn [fst snd nkids with_kids nkey nval] in S.
      destruct (str_eqb key s_star); exact S.
    - apply sh_error.
    - subst cs. rewrite upd_nth_at. apply (sh_next (Node nk nv (l1 ++ c :: l2)) key k l1 c l2); auto.
    - subst cs. assert (SF : slice_from key (blen (nkey c)) = Some y) by (rewrite B; apply slice_from_app).
      rewrite SF, upd_nth_at.
      apply (sh_skey (Node nk nv (l1 ++ c :: l2)) key k l1 c l2 y); auto.
    - subst cs. rewrite upd_nth_at.
      assert (S1 : slice_from (nkey c) (blen w) = Some x) by (rewrite B; apply slice_from_app).
      assert (S2 : slice_from key (blen w) = Some y) by (rewrite C; apply slice_from_app).
      assert (S3 : slice_to key (blen w) = Some w) by (rewrite C; apply slice_to_app).
      rewrite S1, S2, S3.
      destruct (is_empty y) eqn:Y.
      + apply is_empty_true in Y. subst y. rewrite app_nil_r in C. subst w.
        apply (sh_stop (Node nk nv (l1 ++ c :: l2)) key k l1 c l2 x); auto.
      + apply is_empty_false in Y. destruct (k (node_new y None)) as [n' st] eqn:E.
        destruct F' as [F'|F']; [congruence|].
        pose proof (sh_fork (Node nk nv (l1 ++ c :: l2)) key k l1 c l2 w x y) as S. cbv zeta in S. rewrite E in S.
        apply S; auto.
  Qed.

  (** ** The invariant is kept *)

  Definition good_key (key : str) : Prop := key <> [] /\ (In c_star key -> key = s_star).

  Lemma nice_replace n l1 c l2 c' : nice n -> nkids n = l1 ++ c :: l2 -> nice c' -> good_key (nkey c') ->
    (nkey c' = s_star -> nkey c = s_star) -> nice (with_kids n (l1 ++ c' :: l2)).
  Proof.
    intros [A B] E N [K1 K2] S. split; cbn [nkids with_kids].
    - intros d I. apply in_app_or in I as [I|[<-|I]].
      + apply A. rewrite E. apply in_or_app. auto.
      + auto.
      + apply A. rewrite E. apply in_or_app. right. right. exact I.
    - rewrite E in B. intros i d X Y. rewrite app_length in *. cbn [length] in *.
      destruct (lt_eq_lt_dec i (length l1)) as [[L|L]|L].
      + apply (B i d); [|exact Y]. rewrite nth_error_app1 in X |- * by exact L. exact X.
      + subst i. rewrite nth_error_app2 in X by lia. rewrite Nat.sub_diag in X. injection X as <-.
        apply (B (length l1) c); [|auto]. rewrite nth_error_app2 by lia. rewrite Nat.sub_diag. reflexivity.
      + apply (B i d); [|exact Y]. rewrite nth_error_app2 in X |- * by lia.
        destruct (i - length l1) as [|j] eqn:Ej; [lia|]. exact X.
  Qed.

  Lemma part_good (w x : str) : w <> [] -> x <> [] -> (In c_star (w ++ x) -> w ++ x = s_star) ->
    ~ In c_star w /\ ~ In c_star x.
  Proof.
    intros W X S. assert (N : ~ In c_star (w ++ x)).
    { intros I. apply S in I. destruct w as [|? [|? ?]]; [congruence| |discriminate]. destruct x; [congruence|discriminate]. }
    split; intros I; apply N, in_or_app; auto.
  Qed.

  Definition nices (k : node -> upd node) : Prop := forall m, nice m -> nice (fst (k m)) /\ nkey (fst (k m)) = nkey m.

  Lemma process_nice n : forall key k, nice n -> good_key key -> nices k -> nice (fst (process_insertion n key k)) /\
    nkey (fst (process_insertion n key k)) = nkey n.
  Proof.
    induction n as [nk nv cs IH] using node_ind'. rewrite Forall_forall in IH. intros key k N [G1 G2] K.
    set (n := Node nk nv cs) in *.
    assert (NE : forall d, In d (nkids n) -> nkey d <> []) by (destruct N as [A _]; intros d I; exact (proj1 (A d I))).
    pose proof (process_shape n key k G1 NE) as S. destruct S as [|P C|l1 c l2 E1 E2 P C|l1 c l2 y E1 E2 Y P Q R|l1 c l2 x E1 E2 X P Q R r|l1 c l2 w x y E1 E2 E3 W X Y D P Q R r];
      cbn [fst]; (split; [|reflexivity || exact eq_refl]).
    - exact N.
    - destruct (K (node_new key None) (nice_leaf _ _)) as [K1 K2]. destruct N as [A B].
      destruct (str_eqb_spec key s_star) as [->|NS]; split; cbn [nkids with_kids].
      + intros d I. apply in_app_or in I as [I|[<-|[]]]; [exact (A d I)|]. rewrite K2. cbn [nkey node_new]. split; [discriminate|]. split; [reflexivity|exact K1].
      + intros i d I J. rewrite app_length. cbn [length].
        destruct (le_lt_dec (length (nkids n)) i) as [L|L].
        * assert (i < length (nkids n ++ [fst (k (node_new s_star None))])) by (apply nth_error_Some; congruence).
          rewrite app_length in *. cbn [length] in *. lia.
        * rewrite nth_error_app1 in I by exact L. apply nth_error_In in I. destruct (P d I) as [_ F]. rewrite J in F. congruence.
      + intros d [<-|I]; [rewrite K2; cbn [nkey node_new]; split; [exact G1|split; [exact G2|exact K1]]|exact (A d I)].
      + intros [|i] d I J; [injection I as <-; rewrite K2 in J; cbn in J; congruence|]. cbn [length]. f_equal. exact (B i d I J).
    - subst key. destruct (K c (nice_kid _ _ _ _ N E1)) as [K1 K2].
      apply (nice_replace n l1 c l2 _ N E1 K1); rewrite K2; [split; assumption|auto].
    - assert (IC : In c (nkids n)) by (rewrite E1; apply in_elt).
      assert (NC : nkey c <> []) by exact (NE c IC). subst key. destruct (part_good _ _ NC Y G2) as [S1 S2].
      destruct (IH c IC y k (nice_kid _ _ _ _ N E1)) as [K1 K2]; [split; [exact Y|tauto]|exact K|].
      apply (nice_replace n l1 c l2 _ N E1 K1); rewrite K2; [split; [exact NC|tauto]|auto].
    - assert (IC : In c (nkids n)) by (rewrite E1; apply in_elt). pose proof (nice_kid _ _ _ _ N E1) as NCc.
      destruct N as [A B]. destruct (A c IC) as (_ & S & _). rewrite E2 in S. destruct (part_good _ _ G1 X S) as [S1 S2].
      assert (NI : nice (Node key None [Node x (nval c) (nkids c)])).
      { split; cbn [nkids].
        - intros d [<-|[]]. cbn [nkey]. split; [exact X|]. split; [tauto|]. apply (nice_same c); [reflexivity|exact NCc].
        - intros [|[|i]] d I J; try discriminate. reflexivity. }
      destruct (K _ NI) as [K1 K2]. cbn [nkey] in K2.
      apply (nice_replace n l1 c l2 (fst r) (nice_intro _ A B) E1 K1); fold r in K2; rewrite K2.
      + split; [exact G1|tauto].
      + intros ->. exfalso. apply S1. left. reflexivity.
    - assert (IC : In c (nkids n)) by (rewrite E1; apply in_elt). pose proof (nice_kid _ _ _ _ N E1) as NCc.
      destruct N as [A B]. destruct (A c IC) as (_ & S & _). rewrite E2 in S. destruct (part_good _ _ W X S) as [S1 S2].
      rewrite E3 in G2. destruct (part_good _ _ W Y G2) as [_ S3].
      destruct (K (node_new y None) (nice_leaf _ _)) as [K1 K2]. cbn [nkey node_new] in K2. fold r in K1, K2.
      apply (nice_replace n l1 c l2 _ (nice_intro _ A B) E1); cbn [nkey].
      + split; cbn [nkids].
        * intros d [<-|[<-|[]]]; cbn [nkey].
          -- rewrite K2. split; [exact Y|]. split; [tauto|exact K1].
          -- split; [exact X|]. split; [tauto|]. apply (nice_same c); [reflexivity|exact NCc].
        * intros [|[|[|i]]] d I J; try discriminate; [|reflexivity]. injection I as <-. rewrite K2 in J.
          exfalso. apply S3. rewrite J. left. reflexivity.
      + split; [exact W|tauto].
      + intros ->. exfalso. apply S1. left. reflexivity.
  Qed.

  Lemma walk_nice p : forall n final, nice n -> (forall s, In s p -> good_key s) -> nices final ->
    nice (fst (walk n p final)) /\ nkey (fst (walk n p final)) = nkey n.
  Proof.
    induction p as [|s p IH]; intros n final N G F; [split; [exact N|reflexivity]|]. cbn [walk].
    apply process_nice; [exact N|apply G; left; reflexivity|]. intros m Nm.
    destruct (is_empty p); [apply F; exact Nm|apply IH; [exact Nm|intros x I; apply G; right; exact I|exact F]].
  Qed.

  (** ** Ways are kept *)

  Section Keeps.
    (** The outcomes after which a value must still be there. *)
    Variable ok : option panic -> Prop.
    Variable Q : node -> Prop.
    (** [Q] is about the value of a node. *)
    Hypothesis Qval : forall n n' : node, nval n = nval n' -> Q n -> Q n'.

    Definition keeps (f : node -> upd node) : Prop :=
      forall m, nice m -> ok (snd (f m)) -> forall b p, leads Q m b p -> leads Q (fst (f m)) b p.

    Lemma skipped_more b l1 c' m s c : skipped b (l1 ++ c :: m) s -> nkey c' <> [] -> hd_error (nkey c') = hd_error (nkey c) ->
      (nkey c' = s_star -> nkey c = s_star) -> skipped b (l1 ++ c' :: m) s.
    Proof.
      intros S N E X d I. apply in_app_or in I as [I|[<-|I]].
      - apply S. apply in_or_app. auto.
      - destruct (S c (in_elt _ _ _)) as (A & B & C). split; [exact N|]. rewrite E. split; [exact B|].
        intros F. destruct (C F) as [C1 C2]. split; [|intros Z; exact (C2 (X Z))].
        unfold is_param, starts_colon in *. destruct (nkey c'), (nkey c); try discriminate E; [congruence|]. injection E as ->. exact C1.
      - apply S. apply in_or_app. right. right. exact I.
    Qed.

    Lemma app_cases {A} (a1 : list A) d a2 l1 c l2 : a1 ++ d :: a2 = l1 ++ c :: l2 ->
      (exists m, a1 = l1 ++ c :: m /\ l2 = m ++ d :: a2) \/ (a1 = l1 /\ d = c /\ a2 = l2) \/
      (exists m, l1 = a1 ++ d :: m /\ a2 = m ++ c :: l2).
    Proof.
      revert l1. induction a1 as [|x a1 IH]; intros [|y l1] E; cbn [app] in E.
      - injection E as -> ->. auto.
      - injection E as -> ->. right. right. exists l1. auto.
      - injection E as -> <-. left. exists a1. auto.
      - injection E as -> E. destruct (IH l1 E) as [(m & -> & ->)|[(-> & -> & ->)|(m & -> & ->)]].
        + left. exists m. auto.
        + auto.
        + right. right. exists m. auto.
    Qed.

    (** The child [c] is replaced by [c']: it is enough to look at the ways through [c]. *)
    Lemma leads_replace n l1 c l2 c' : nkids n = l1 ++ c :: l2 -> nkey c' <> [] ->
      hd_error (nkey c') = hd_error (nkey c) -> (nkey c' = s_star -> nkey c = s_star) ->
      let n' := with_kids n (l1 ++ c' :: l2) in
      (forall b rest, nkey c <> [] -> (b = false -> is_param c = false) -> skipped b l1 (nkey c) -> leads Q c false rest ->
         leads Q n' b (nkey c :: rest)) ->
      (forall b s rest, nkey c <> [] -> s <> [] -> (b = false -> is_param c = false) -> skipped b l1 (nkey c) -> leads Q c true (s :: rest) ->
         leads Q n' b ((nkey c ++ s) :: rest)) ->
      (forall rest, l1 = [] -> is_param c = true -> leads Q c false rest -> leads Q n' false (nkey c :: rest)) ->
      forall b p, leads Q n b p -> leads Q n' b p.
    Proof.
      intros E N HD ST n' T1 T2 T3 b p L.
      destruct L as [n W|n b a1 d a2 rest K Nd S P L|n b a1 d a2 s rest K Nd S P Ns L|n d a2 rest K P L].
      - apply ld_end. apply (Qval n); [reflexivity|exact W].
      - rewrite E in K. symmetry in K. apply app_cases in K as [(m & -> & ->)|[(-> & -> & ->)|(m & -> & ->)]].
        + eapply ld_seg with (l1 := l1 ++ c' :: m) (l2 := a2); auto.
          * cbn [nkids n' with_kids]. rewrite <- app_assoc. reflexivity.
          * eapply skipped_more; eauto.
        + apply T1; assumption.
        + eapply ld_seg with (l1 := a1) (l2 := m ++ c' :: l2); auto.
          cbn [nkids n' with_kids]. rewrite <- app_assoc. reflexivity.
      - rewrite E in K. symmetry in K. apply app_cases in K as [(m & -> & ->)|[(-> & -> & ->)|(m & -> & ->)]].
        + eapply ld_mid with (l1 := l1 ++ c' :: m) (l2 := a2); auto.
          * cbn [nkids n' with_kids]. rewrite <- app_assoc. reflexivity.
          * eapply skipped_more; eauto.
        + apply T2; assumption.
        + eapply ld_mid with (l1 := a1) (l2 := m ++ c' :: l2); auto.
          cbn [nkids n' with_kids]. rewrite <- app_assoc. reflexivity.
      - rewrite E in K. destruct l1 as [|e l1]; injection K as -> <-.
        + apply T3; auto.
        + eapply ld_par with (l2 := l1 ++ c' :: l2); auto.
    Qed.

    Lemma is_param_hd (c c' : node) : hd_error (nkey c') = hd_error (nkey c) -> is_param c' = is_param c.
    Proof.
      unfold is_param, starts_colon. destruct (nkey c'), (nkey c); intros E; try discriminate; [reflexivity|]. injection E as ->. reflexivity.
    Qed.

    Lemma nonempty_head (w x : str) : w <> [] -> hd_error (w ++ x) = hd_error w.
    Proof. destruct w; [congruence|reflexivity]. Qed.

    Lemma process_keeps n : forall key k, nice n -> good_key key -> nices k -> keeps k ->
      ok (snd (process_insertion n key k)) ->
      forall b p, leads Q n b p -> leads Q (fst (process_insertion n key k)) b p.
    Proof.
      induction n as [nk nv cs IH] using node_ind'. rewrite Forall_forall in IH. intros key k N G NK K.
      set (n := Node nk nv cs) in *.
      assert (NE : forall d, In d (nkids n) -> nkey d <> []) by (destruct N as [A _]; intros d I; exact (proj1 (A d I))).
      destruct G as [G1 G2].
      pose proof (process_shape n key k G1 NE) as S. destruct S as [|P C|l1 c l2 E1 E2 P C|l1 c l2 y E1 E2 Y P Pc R|l1 c l2 x E1 E2 X P Pc R r|l1 c l2 w x y E1 E2 E3 W X Y D P Pc R r];
        cbn [fst snd]; intros ND b p L.
      - exact L.
      - destruct (NK (node_new key None) (nice_leaf _ _)) as [_ K2]. cbn [nkey node_new] in K2.
        assert (Z : forall b a1 d, In d (nkids n) -> skipped b a1 (nkey d) -> key <> s_star ->
                      skipped b (fst (k (node_new key None)) :: a1) (nkey d)).
        { intros b0 a1 d I S NS e [<-|J]; [|exact (S e J)]. rewrite K2. destruct (P d I) as [P1 P2].
          split; [exact G1|]. split; [congruence|]. intros _. split; [|exact NS].
          unfold is_param. rewrite K2. destruct (starts_colon key) eqn:F; [|reflexivity]. rewrite (C eq_refl) in I. destruct I. }
        destruct (str_eqb_spec key s_star) as [->|NS];
          (destruct L as [m W|m b a1 d a2 rest E Nd S Pd L|m b a1 d a2 s rest E Nd S Pd Ns L|m d a2 rest E Pd L];
           [apply ld_end; apply (Qval m); [reflexivity|exact W]| | |]).
        + eapply ld_seg with (l1 := a1) (l2 := a2 ++ [_]); auto. cbn [nkids with_kids]. rewrite E, <- app_assoc. reflexivity.
        + eapply ld_mid with (l1 := a1) (l2 := a2 ++ [_]); auto. cbn [nkids with_kids]. rewrite E, <- app_assoc. reflexivity.
        + eapply ld_par with (l2 := a2 ++ [_]); auto. cbn [nkids with_kids]. rewrite E. reflexivity.
        + eapply ld_seg with (l1 := _ :: a1) (l2 := a2); auto; [cbn [nkids with_kids]; rewrite E; reflexivity|].
          apply Z; auto. rewrite E. apply in_elt.
        + eapply ld_mid with (l1 := _ :: a1) (l2 := a2); auto; [cbn [nkids with_kids]; rewrite E; reflexivity|].
          apply Z; auto. rewrite E. apply in_elt.
        + exfalso. destruct (P d) as [P1 _]; [rewrite E; left; reflexivity|congruence].
      - pose proof (nice_kid _ _ _ _ N E1) as NC. destruct (NK c NC) as [_ K2]. specialize (K c NC ND).
        apply (leads_replace n l1 c l2 (fst (k c)) E1); try rewrite K2; auto; try congruence.
        + intros b0 rest Nc Pb S L0. rewrite <- K2. apply (ld_seg Q _ b0 l1 (fst (k c)) l2 rest); rewrite ?K2; auto.
          intros F. rewrite (is_param_hd c); [auto|rewrite K2; reflexivity].
        + intros b0 s rest Nc Ns Pb S L0. rewrite <- K2. apply (ld_mid Q _ b0 l1 (fst (k c)) l2 s rest); rewrite ?K2; auto.
          intros F. rewrite (is_param_hd c); [auto|rewrite K2; reflexivity].
        + intros rest -> Pb L0. rewrite <- K2. eapply ld_par; [reflexivity| |auto].
          rewrite (is_param_hd c); [exact Pb|rewrite K2; reflexivity].
      - pose proof (nice_kid _ _ _ _ N E1) as NC. assert (IC : In c (nkids n)) by (rewrite E1; apply in_elt).
        assert (NCk : nkey c <> []) by exact (NE c IC). subst key. destruct (part_good _ _ NCk Y G2) as [S1 S2].
        assert (GY : good_key y) by (split; [exact Y|tauto]).
        destruct (process_nice c y k NC GY NK) as [_ K2]. pose proof (IH c IC y k NC GY NK K ND) as KK.
        apply (leads_replace n l1 c l2 (fst (process_insertion c y k)) E1); try rewrite K2; auto.
        + intros b0 rest Nc Pb S L0. rewrite <- K2. apply (ld_seg Q _ b0 l1 (fst (process_insertion c y k)) l2 rest); rewrite ?K2; auto.
          intros F. rewrite (is_param_hd c); [auto|rewrite K2; reflexivity].
        + intros b0 s rest Nc Ns Pb S L0. rewrite <- K2. apply (ld_mid Q _ b0 l1 (fst (process_insertion c y k)) l2 s rest); rewrite ?K2; auto.
          intros F. rewrite (is_param_hd c); [auto|rewrite K2; reflexivity].
        + intros rest -> Pb L0. congruence.
      - assert (IC : In c (nkids n)) by (rewrite E1; apply in_elt). pose proof (nice_kid _ _ _ _ N E1) as NCc.
        destruct N as [A B]. destruct (A c IC) as (_ & S & _). rewrite E2 in S. destruct (part_good _ _ G1 X S) as [S1 S2].
        set (inter := Node x (nval c) (nkids c)) in *. set (mid := Node key None [inter]) in *.
        assert (NI : nice mid).
        { split; cbn [nkids mid].
          - intros d [<-|[]]. cbn [nkey inter]. split; [exact X|]. split; [tauto|]. apply (nice_same c); [reflexivity|exact NCc].
          - intros [|[|i]] d I J; try discriminate. reflexivity. }
        destruct (NK _ NI) as [_ K2]. cbn [nkey mid] in K2. specialize (K mid NI ND). fold r in K, K2.
        assert (HDc : hd_error (nkey (fst r)) = hd_error (nkey c)) by (rewrite K2, E2; symmetry; apply nonempty_head; exact G1).
        assert (Pr : is_param (fst r) = false) by (rewrite (is_param_hd c _ HDc); exact Pc).
        apply (leads_replace n l1 c l2 (fst r) E1); auto.
        + rewrite K2. exact G1.
        + rewrite K2. intros ->. exfalso. apply S1. left. reflexivity.
        + intros b0 rest Nc Pb Sk L0.
          replace (nkey c) with (nkey (fst r) ++ x) by (rewrite K2; auto).
          eapply ld_mid with (l1 := l1) (l2 := l2); auto.
          * rewrite K2. exact G1.
          * intros d I. rewrite HDc. exact (Sk d I).
          * apply K. apply (ld_seg Q mid true [] inter [] rest); auto; [intros d []|discriminate|].
            apply (leads_same Q c); [reflexivity|apply Qval; reflexivity|exact L0].
        + intros b0 s rest Nc Ns Pb Sk L0.
          replace (nkey c ++ s) with (nkey (fst r) ++ (x ++ s)) by (rewrite K2, app_assoc, <- E2; reflexivity).
          eapply ld_mid with (l1 := l1) (l2 := l2); auto.
          * rewrite K2. exact G1.
          * intros d I. rewrite HDc. exact (Sk d I).
          * destruct x; [congruence|discriminate].
          * apply K. apply (ld_mid Q mid true [] inter [] s rest); auto; [intros d []|discriminate|].
            apply (leads_same Q c); [reflexivity|apply Qval; reflexivity|exact L0].
        + intros rest _ Pb. congruence.
      - assert (IC : In c (nkids n)) by (rewrite E1; apply in_elt). pose proof (nice_kid _ _ _ _ N E1) as NCc.
        destruct N as [A B]. destruct (A c IC) as (_ & S & _). rewrite E2 in S. destruct (part_good _ _ W X S) as [S1 S2].
        destruct (NK (node_new y None) (nice_leaf _ _)) as [_ K2]. cbn [nkey node_new] in K2. fold r in K2.
        set (inter := Node x (nval c) (nkids c)) in *. set (mid := Node w None [fst r; inter]) in *.
        assert (HDc : hd_error (nkey mid) = hd_error (nkey c)) by (rewrite E2; symmetry; apply nonempty_head; exact W).
        assert (Pr : is_param mid = false) by (rewrite (is_param_hd c _ HDc); exact Pc).
        assert (SK : skipped true [fst r] x) by (intros d [<-|[]]; rewrite K2; split; [exact Y|split; [congruence|discriminate]]).
        apply (leads_replace n l1 c l2 mid E1); auto.
        + cbn [nkey mid]. intros ->. exfalso. apply S1. left. reflexivity.
        + intros b0 rest Nc Pb Sk L0.
          replace (nkey c) with (nkey mid ++ x) by auto.
          eapply ld_mid with (l1 := l1) (l2 := l2); auto.
          * intros d I. rewrite HDc. exact (Sk d I).
          * apply (ld_seg Q mid true [fst r] inter [] rest); auto; [discriminate|].
            apply (leads_same Q c); [reflexivity|apply Qval; reflexivity|exact L0].
        + intros b0 s rest Nc Ns Pb Sk L0.
          replace (nkey c ++ s) with (nkey mid ++ (x ++ s)) by (cbn [nkey mid]; rewrite app_assoc, <- E2; reflexivity).
          eapply ld_mid with (l1 := l1) (l2 := l2); auto.
          * intros d I. rewrite HDc. exact (Sk d I).
          * destruct x; [congruence|discriminate].
          * apply (ld_mid Q mid true [fst r] inter [] s rest); auto; [discriminate|].
            apply (leads_same Q c); [reflexivity|apply Qval; reflexivity|exact L0].
        + intros rest _ Pb. congruence.
    Qed.

    Lemma walk_keeps p : forall n final, nice n -> (forall s, In s p -> good_key s) -> nices final -> keeps final ->
      ok (snd (walk n p final)) ->
      forall b q, leads Q n b q -> leads Q (fst (walk n p final)) b q.
    Proof.
      induction p as [|s p IH]; intros n final N G NF F ND b q L; [exact L|]. cbn [walk] in *.
      apply process_keeps; auto.
      - apply G. left. reflexivity.
      - intros m Nm. destruct (is_empty p); [apply NF; exact Nm|apply walk_nice; [exact Nm|intros x I; apply G; right; exact I|exact NF]].
      - intros m Nm NDm b0 q0 L0. destruct (is_empty p); [apply F; auto|].
        apply IH; auto. intros x I. apply G. right. exact I.
    Qed.

    (** ** A successful insertion makes a way *)

    Lemma passed_skipped n b l1 c l2 key : nice n -> nkids n = l1 ++ c :: l2 -> passed l1 key -> skipped b l1 key.
    Proof.
      intros [A B] E P d I. destruct (P d I) as [P1 P2]. destruct (A d) as (N & _ & _); [rewrite E; apply in_or_app; auto|].
      split; [exact N|]. split; [exact P2|]. intros _. split; [exact P1|]. intros ST.
      apply in_split in I as (a & e & ->). specialize (B (length a) d). rewrite E, <- app_assoc in B.
      rewrite nth_error_app2, Nat.sub_diag in B by lia. specialize (B eq_refl ST). rewrite app_length in B. cbn [length app] in B.
      rewrite app_length in B. cbn [length] in B. lia.
    Qed.

    Definition makes (k : node -> upd node) (rest : list str) : Prop :=
      forall m, nice m -> snd (k m) = None -> leads Q (fst (k m)) false rest.

    Lemma process_makes n : forall key k rest, nice n -> good_key key -> nices k -> makes k rest ->
      snd (process_insertion n key k) = None -> forall b, leads Q (fst (process_insertion n key k)) b (key :: rest).
    Proof.
      induction n as [nk nv cs IH] using node_ind'. rewrite Forall_forall in IH. intros key k rest N G NK K.
      set (n := Node nk nv cs) in *.
      assert (NE : forall d, In d (nkids n) -> nkey d <> []) by (destruct N as [A _]; intros d I; exact (proj1 (A d I))).
      destruct G as [G1 G2].
      pose proof (process_shape n key k G1 NE) as S. destruct S as [|P C|l1 c l2 E1 E2 P C|l1 c l2 y E1 E2 Y P Pc R|l1 c l2 x E1 E2 X P Pc R r|l1 c l2 w x y E1 E2 E3 W X Y D P Pc R r];
        cbn [fst snd]; intros ST b.
      - discriminate.
      - destruct (NK (node_new key None) (nice_leaf _ _)) as [_ K2]. cbn [nkey node_new] in K2.
        specialize (K (node_new key None) (nice_leaf _ _) ST). set (new := fst (k (node_new key None))) in *.
        rewrite <- K2. rewrite <- K2 in G1, P. destruct (str_eqb_spec (nkey new) s_star) as [SS|NS].
        + apply (ld_seg Q _ b (nkids n) new [] rest); auto.
          * intros d I. destruct (P d I) as [P1 P2]. split; [exact (NE d I)|]. split; [exact P2|]. intros _. split; [exact P1|]. congruence.
          * intros _. unfold is_param. rewrite SS. reflexivity.
        + destruct b.
          * apply (ld_seg Q _ true [] new (nkids n) rest); auto; [intros d []|discriminate].
          * destruct (is_param new) eqn:F.
            -- apply (ld_par Q _ new (nkids n) rest); auto.
            -- apply (ld_seg Q _ false [] new (nkids n) rest); auto. intros d [].
      - pose proof (nice_kid _ _ _ _ N E1) as NC. destruct (NK c NC) as [_ K2]. specialize (K c NC ST).
        pose proof (passed_skipped n b l1 c l2 key N E1 P) as SK.
        rewrite <- E2, <- K2 in *. destruct b.
        + apply (ld_seg Q _ true l1 (fst (k c)) l2 rest); auto. discriminate.
        + destruct (is_param (fst (k c))) eqn:F.
          * rewrite (C F). apply (ld_par Q _ (fst (k c)) l2 rest); auto.
          * apply (ld_seg Q _ false l1 (fst (k c)) l2 rest); auto.
      - pose proof (nice_kid _ _ _ _ N E1) as NC. assert (IC : In c (nkids n)) by (rewrite E1; apply in_elt).
        assert (NCk : nkey c <> []) by exact (NE c IC). subst key. destruct (part_good _ _ NCk Y G2) as [S1 S2].
        assert (GY : good_key y) by (split; [exact Y|tauto]).
        destruct (process_nice c y k NC GY NK) as [_ K2]. pose proof (IH c IC y k rest NC GY NK K ST true) as KK.
        pose proof (passed_skipped n b l1 c l2 _ N E1 P) as SK.
        rewrite <- K2. apply (ld_mid Q _ b l1 (fst (process_insertion c y k)) l2 y rest); auto; [rewrite K2; exact NCk| |].
        + intros d I. rewrite K2. rewrite <- (nonempty_head (nkey c) y NCk). exact (SK d I).
        + intros _. rewrite (is_param_hd c); [exact Pc|rewrite K2; reflexivity].
      - assert (IC : In c (nkids n)) by (rewrite E1; apply in_elt). pose proof (nice_kid _ _ _ _ N E1) as NCc.
        pose proof (passed_skipped n b l1 c l2 _ N E1 P) as SK.
        destruct N as [A B]. destruct (A c IC) as (_ & S & _). rewrite E2 in S. destruct (part_good _ _ G1 X S) as [S1 S2].
        set (inter := Node x (nval c) (nkids c)) in *. set (mid := Node key None [inter]) in *.
        assert (NI : nice mid).
        { split; cbn [nkids mid].
          - intros d [<-|[]]. cbn [nkey inter]. split; [exact X|]. split; [tauto|]. apply (nice_same c); [reflexivity|exact NCc].
          - intros [|[|i]] d I J; try discriminate. reflexivity. }
        destruct (NK _ NI) as [_ K2]. cbn [nkey mid] in K2. specialize (K mid NI ST). fold r in K, K2.
        rewrite <- K2 in *. apply (ld_seg Q _ b l1 (fst r) l2 rest); auto.
      - assert (IC : In c (nkids n)) by (rewrite E1; apply in_elt).
        pose proof (passed_skipped n b l1 c l2 _ N E1 P) as SK.
        destruct (NK (node_new y None) (nice_leaf _ _)) as [_ K2]. cbn [nkey node_new] in K2. fold r in K2.
        specialize (K _ (nice_leaf _ _) ST). change (k (Node y None [])) with r in K.
        set (inter := Node x (nval c) (nkids c)) in *. set (mid := Node w None [fst r; inter]) in *.
        rewrite E3. change w with (nkey mid). apply (ld_mid Q _ b l1 mid l2 y rest); auto.
        + intros d I. cbn [nkey mid]. rewrite <- (nonempty_head w y W), <- E3. exact (SK d I).
        + intros _. rewrite (is_param_hd c); [exact Pc|]. cbn [nkey mid]. rewrite E2. symmetry. apply nonempty_head. exact W.
        + rewrite <- K2. apply (ld_seg Q _ true [] (fst r) [inter] rest); auto; [rewrite K2; exact Y|intros d []|discriminate].
    Qed.

    Lemma walk_makes p : forall n final q, p <> [] -> nice n -> (forall s, In s p -> good_key s) -> nices final -> makes final q ->
      snd (walk n p final) = None -> leads Q (fst (walk n p final)) false (p ++ q).
    Proof.
      induction p as [|s p IH]; intros n final q NP N G NF F ST; [congruence|]. cbn [walk] in *. cbn [app].
      apply process_makes; auto.
      - apply G. left. reflexivity.
      - intros m Nm. destruct (is_empty p); [apply NF; exact Nm|apply walk_nice; [exact Nm|intros x I; apply G; right; exact I|exact NF]].
      - intros m Nm STm. destruct (is_empty p) eqn:E; [apply is_empty_true in E; subst p; apply F; auto|].
        apply is_empty_false in E. apply IH; auto. intros x I. apply G. right. exact I.
    Qed.
  End Keeps.

  (** ** What calls register *)

  Definition has (c : content H M) (n : node) : Prop :=
    match c, nval n with
    | CRoute m h, Some v => get_route (rv_route v) m = Some (Route m h)
    | CMw mw, Some v => In mw (rv_mws v)
    | _, _ => False
    end.

  Lemma has_val c n n' : nval n = nval n' -> has c n -> has c n'.
  Proof. unfold has. intros <-. auto. Qed.

  Lemma has_none c n : nval n = None -> ~ has c n.
  Proof. unfold has. intros ->. destruct c; auto. Qed.

  Lemma has_some c n : has c n -> exists v, nval n = Some v.
  Proof. unfold has. destruct c, (nval n); eauto; contradiction. Qed.

  Definition no_dup (o : option panic) : Prop := o <> Some PDuplicate.
  Definition any_end (o : option panic) : Prop := True.

  Lemma nices_set_route r : nices (set_route r).
  Proof. intros [k v cs] N. cbn [set_route]. destruct (add_route _ _ _). split; [apply (nice_same (Node k v cs)); [reflexivity|exact N]|reflexivity]. Qed.

  Lemma nices_push mw : nices (push_mw mw).
  Proof. intros [k v cs] N. split; [apply (nice_same (Node k v cs)); [reflexivity|exact N]|reflexivity]. Qed.

  Lemma nices_mount src : nice src -> nices (mount src).
  Proof.
    intros S [k v cs] N. cbn [mount]. destruct (_ || _); [split; [exact N|reflexivity]|].
    split; [apply (nice_same src); [reflexivity|exact S]|reflexivity].
  Qed.

  Lemma keeps_set_route c r : keeps no_dup (has c) (set_route r).
  Proof.
    intros [k v cs] N. cbn [set_route]. unfold add_route. cbn [fst snd].
    intros ND b p. apply leads_same; [reflexivity|]. unfold has. cbn [nval rv_mws rv_route].
    destruct v as [v|]; [|destruct c; contradiction]. destruct c as [m h|mw|]; auto.
    unfold get_route. intros G. destruct (method_eqb m (r_method r)) eqn:E.
    - apply method_eqb_spec in E. subst m. rewrite G in ND. congruence.
    - rewrite aget_ainsert_other; [exact G|exact method_eqb_spec|]. intros ->.
      rewrite (proj2 (method_eqb_spec _ _) eq_refl) in E. discriminate.
  Qed.

  (** A duplicate for another method keeps the route too. *)
  Lemma keeps_other c r : (forall h, c <> CRoute (r_method r) h) -> keeps any_end (has c) (set_route r).
  Proof.
    intros NC [k v cs] N. cbn [set_route]. unfold add_route. cbn [fst snd].
    intros _ b p. apply leads_same; [reflexivity|]. unfold has. cbn [nval rv_mws rv_route].
    destruct v as [v|]; [|destruct c; contradiction]. destruct c as [m h|mw|]; auto.
    unfold get_route. intros G. rewrite aget_ainsert_other; [exact G|exact method_eqb_spec|].
    intros ->. exact (NC h eq_refl).
  Qed.

  Lemma keeps_push c mw : keeps any_end (has c) (push_mw mw).
  Proof.
    intros [k v cs] N. cbn [push_mw fst snd]. intros ND b p. apply leads_same; [reflexivity|]. unfold has. cbn [nval rv_mws rv_route].
    destruct v as [v|]; [|destruct c; contradiction]. destruct c as [m h|mw'|]; auto. intros I. apply in_or_app. auto.
  Qed.

  Lemma keeps_mount c src : keeps any_end (has c) (mount src).
  Proof.
    intros [k v cs] N. cbn [mount]. destruct v as [v|]; [intros _ b p L; exact L|].
    destruct cs as [|d cs]; [|intros _ b p L; exact L]. cbn [orb negb is_empty]. intros _ b p L. exfalso.
    inversion L as [n W|n b' l1 d l2 rest K|n b' l1 d l2 s rest K|n d l2 rest K]; subst.
    - exact (has_none c (Node k None []) eq_refl W).
    - destruct l1; discriminate K.
    - destruct l1; discriminate K.
    - discriminate K.
  Qed.

  Lemma makes_set_route m h : makes (has (CRoute m h)) (set_route (Route m h)) [].
  Proof.
    intros [k v cs] N. cbn [set_route]. unfold add_route. cbn [fst snd r_method]. intros _. apply ld_end.
    unfold has, get_route. cbn [nval rv_route]. apply aget_ainsert_same. exact method_eqb_spec.
  Qed.

  Lemma makes_push mw : makes (has (CMw mw)) (push_mw mw) [].
  Proof.
    intros [k v cs] N _. apply ld_end. unfold has. cbn [fst push_mw nval rv_mws]. apply in_or_app. right. left. reflexivity.
  Qed.

  Lemma makes_mount c src q : leads (has c) src false q -> makes (has c) (mount src) q.
  Proof.
    intros L [k v cs] N. cbn [mount]. destruct (_ || _); [discriminate|]. intros _.
    apply (leads_same _ src); [reflexivity| |exact L]. apply has_val. reflexivity.
  Qed.

  Lemma good_path path : star_ok (segments path) -> forall s, In s (segments path) -> good_key s.
  Proof.
    intros S s I. split; [exact (proj1 (segments_ok _ _ I))|]. apply In_nth_error in I as [i E]. intros J. exact (proj1 (S i s E J)).
  Qed.

  Definition inv (t : node) (T : table H M) : Prop :=
    nice t /\ forall p c, In (p, c) T -> c <> CNode -> leads (has c) t false p.

  (** Insertions keep ways. *)
  Lemma insert_route_nice (t : node) path r : nice t -> nice (fst (insert_route t path r)).
  Proof.
    intros N. unfold insert_route. destruct (star_check _ _ _) eqn:E; [exact N|].
    apply star_check_spec in E. destruct (is_empty (segments path)); [apply nices_set_route; exact N|].
    apply walk_nice; [exact N|apply good_path; exact E|apply nices_set_route].
  Qed.

  Lemma insert_route_keeps ok c (t : node) path r b p : nice t -> keeps ok (has c) (set_route r) -> ok (snd (insert_route t path r)) ->
    leads (has c) t b p -> leads (has c) (fst (insert_route t path r)) b p.
  Proof.
    intros N K. unfold insert_route. destruct (star_check _ _ _) eqn:E; [intros _ L; exact L|].
    apply star_check_spec in E. destruct (is_empty (segments path)); intros O L; [apply K; assumption|].
    apply (walk_keeps ok); auto; [apply has_val|apply good_path; exact E|apply nices_set_route].
  Qed.

  Lemma insert_middleware_nice (t : node) path mw : nice t -> nice (fst (insert_middleware t path mw)).
  Proof.
    intros N. unfold insert_middleware. destruct (star_check _ _ _) eqn:E; [exact N|].
    apply star_check_spec in E. apply walk_nice; [exact N|apply good_path; exact E|apply nices_push].
  Qed.

  Lemma insert_middleware_keeps c (t : node) path mw b p : nice t ->
    leads (has c) t b p -> leads (has c) (fst (insert_middleware t path mw)) b p.
  Proof.
    intros N L. unfold insert_middleware. destruct (star_check _ _ _) eqn:E; [exact L|].
    apply star_check_spec in E.
    apply (walk_keeps any_end); auto; [apply has_val|apply good_path; exact E|apply nices_push|apply keeps_push|exact I].
  Qed.

  Lemma insert_sub_route_nice (t : node) path src : nice t -> nice src -> nice (fst (insert_sub_route t path src)).
  Proof.
    intros N S. unfold insert_sub_route. destruct (star_check _ _ _) eqn:E; [exact N|].
    apply star_check_spec in E. destruct (is_empty (segments path)); [exact S|].
    apply walk_nice; [exact N|apply good_path; exact E|apply nices_mount; exact S].
  Qed.

  Lemma insert_sub_route_keeps c (t : node) path src b p : nice t -> nice src -> segments path <> [] ->
    leads (has c) t b p -> leads (has c) (fst (insert_sub_route t path src)) b p.
  Proof.
    intros N S NP L. unfold insert_sub_route. destruct (star_check _ _ _) eqn:E; [exact L|].
    apply star_check_spec in E. destruct (is_empty (segments path)) eqn:Es; [apply is_empty_true in Es; contradiction|].
    apply (walk_keeps any_end); auto; [apply has_val|apply good_path; exact E|apply nices_mount; exact S|apply keeps_mount|exact I].
  Qed.

  Lemma nice_new : nice trie_new.
  Proof. apply nice_leaf. Qed.

  Lemma run_ops_inv (l : list (op H M)) :
    Forall (fun o => forall t T t', inv t T -> run_op t o = (t', None) -> inv t' (after T o)) l ->
    forall t T t', inv t T -> run_ops t l = (t', None) -> inv t' (afters T l).
  Proof.
    intros F. induction F as [|o l Fo F IH]; intros t T t' I E; cbn [run_ops afters] in *; [injection E as <-; exact I|].
    destruct (run_op t o) as [t1 [pn|]] eqn:Eo; [discriminate|]. exact (IH _ _ _ (Fo _ _ _ I Eo) E).
  Qed.

  Lemma run_op_inv (o : op H M) : forall t T t', inv t T -> run_op t o = (t', None) -> inv t' (after T o).
  Proof.
    induction o as [m path h|path mw|mw|path sub IH] using op_ind'; intros t T t' [N L] E.
    - cbn [run_op after] in *. replace t' with (fst (t', @None panic)) by reflexivity. rewrite <- E.
      split; [apply insert_route_nice; exact N|]. intros p c J NC. apply in_app_or in J as [J|[J|[]]].
      + apply (insert_route_keeps no_dup); auto; [apply keeps_set_route|]. rewrite E. discriminate.
      + injection J as <- <-. unfold insert_route in *. destruct (star_check _ _ _) eqn:Es; [discriminate|]. apply star_check_spec in Es.
        destruct (is_empty (segments path)) eqn:Ep.
        * apply is_empty_true in Ep. rewrite Ep. apply (makes_set_route m h t N). change (snd (insert_default_route t (Route m h)) = None).
          rewrite E. reflexivity.
        * apply is_empty_false in Ep. rewrite <- (app_nil_r (segments path)) at 2. apply walk_makes; auto.
          -- apply good_path. exact Es.
          -- apply nices_set_route.
          -- apply makes_set_route.
          -- rewrite E. reflexivity.
    - cbn [run_op after] in *. replace t' with (fst (t', @None panic)) by reflexivity. rewrite <- E.
      assert (K : inv (fst (insert_middleware t path mw)) T).
      { split; [apply insert_middleware_nice; exact N|]. intros p c J NC. apply insert_middleware_keeps; auto. }
      destruct (segments path) as [|s0 p0] eqn:Ep; [exact K|]. rewrite <- Ep.
      split; [exact (proj1 K)|]. intros p c J NC. apply in_app_or in J as [J|[J|[]]]; [apply K; assumption|]. injection J as <- <-.
      unfold insert_middleware in *. destruct (star_check _ _ _) eqn:Es; [discriminate|]. apply star_check_spec in Es.
      rewrite <- (app_nil_r (segments path)) at 2. apply walk_makes; auto.
      + rewrite Ep. discriminate.
      + apply good_path. exact Es.
      + apply nices_push.
      + apply makes_push.
      + rewrite E. reflexivity.
    - cbn [run_op after] in *. unfold insert_default_middleware in E.
      replace t' with (fst (t', @None panic)) by reflexivity. rewrite <- E.
      split; [apply nices_push; exact N|]. intros p c J NC. apply in_app_or in J as [J|[J|[]]].
      + apply keeps_push; auto. exact I.
      + injection J as <- <-. apply makes_push; [exact N|]. rewrite E. reflexivity.
    - rewrite run_op_router in E. destruct (build sub) as [src [pn|]] eqn:Eb; cbn [fst snd] in E; [discriminate|].
      assert (IS : inv src (table_of sub)).
      { apply (run_ops_inv sub IH trie_new [] src); [|exact Eb]. split; [exact nice_new|]. intros p c []. }
      rewrite after_router. destruct (segments path) as [|s0 p0] eqn:Ep.
      + unfold insert_sub_route in E. rewrite Ep in E. cbn in E. injection E as <-. exact IS.
      + rewrite <- Ep. assert (NP : segments path <> []) by (rewrite Ep; discriminate).
        replace t' with (fst (t', @None panic)) by reflexivity. rewrite <- E.
        split; [apply insert_sub_route_nice; [exact N|exact (proj1 IS)]|].
        intros p c J NC. apply in_app_or in J as [J|[J|J]]; [|congruence|].
        * apply insert_sub_route_keeps; auto. exact (proj1 IS).
        * apply in_map_iff in J as ([q d] & J & JS). cbn [fst snd] in J. injection J as <- <-.
          unfold insert_sub_route in *. destruct (star_check _ _ _) eqn:Es; [discriminate|]. apply star_check_spec in Es.
          destruct (is_empty (segments path)) eqn:Ei; [apply is_empty_true in Ei; contradiction|].
          apply walk_makes; auto.
          -- apply good_path. exact Es.
          -- apply nices_mount. exact (proj1 IS).
          -- apply makes_mount. apply IS; assumption.
          -- rewrite E. reflexivity.
  Qed.

  Lemma build_inv (l : list (op H M)) t : build l = (t, None) -> inv t (table_of l).
  Proof.
    intros E. apply (run_ops_inv l (proj2 (Forall_forall _ _) (fun o _ => run_op_inv o)) trie_new [] t); [|exact E].
    split; [exact nice_new|]. intros p c [].
  Qed.

  (** ** Search along a way *)

  Lemma loop_skip rec s b : forall l1 cs key ps mws, s <> [] -> skipped b l1 s ->
    next_loop rec s b (l1 ++ cs) key ps mws = next_loop rec s b cs key ps mws.
  Proof.
    induction l1 as [|d l1 IH]; intros cs key ps mws NS S; [reflexivity|]. cbn [app next_loop].
    destruct (S d (or_introl eq_refl)) as (Nd & Hd & F).
    assert (Z : match_count (nkey d) s = 0).
    { destruct (nkey d) as [|x d'], s as [|y s']; try congruence. cbn [match_count hd_error] in *.
      destruct (N.eqb_spec y x); [congruence|reflexivity]. }
    assert (B : blen (nkey d) <> 0) by (rewrite blen_0; exact Nd).
    assert (P : negb b && is_param d = false) by (destruct b; [reflexivity|apply (F eq_refl)]).
    assert (ST : negb b && str_eqb (nkey d) s_star = false) by (destruct b; [reflexivity|apply str_eqb_neq; apply (F eq_refl)]).
    rewrite P, ST. cbv zeta. rewrite Z. destruct (Nat.eqb_spec 0 (blen (nkey d))); [congruence|]. cbn [andb Nat.eqb negb].
    apply IH; [exact NS|]. intros e I. apply S. right. exact I.
  Qed.

  (** The request segments [R] that a way with remaining segments [p] reads. *)
  Definition fits (b : bool) (p R : list str) (bs : list (str * str)) : Prop :=
    match b, p, R with
    | false, _, _ => seg_match p R bs
    | true, s :: p', s' :: R' => s = s' /\ seg_match p' R' bs
    | true, _, _ => False
    end.

  Lemma nostar_key (c : node) s : ~ In c_star (nkey c ++ s) -> nkey c <> s_star.
  Proof. intros N E. apply N. rewrite E. left. reflexivity. Qed.

  Lemma seg_match_nil R bs : seg_match [] R bs -> R = [] /\ bs = [].
  Proof. intros S. inversion S. auto. Qed.

  Lemma seg_match_head s p R bs : seg_match (s :: p) R bs -> s <> s_star ->
    exists x R', R = x :: R'.
  Proof. intros S N. inversion S; subst; eauto. congruence. Qed.

  (** The two ways of a path and of a beginning of it go the same way. *)
  Lemma same_child b (n : node) l1 c l2 a1 d a2 : nkids n = l1 ++ c :: l2 -> nkids n = a1 ++ d :: a2 ->
    skipped b l1 (nkey c) -> skipped b a1 (nkey d) -> hd_error (nkey c) = hd_error (nkey d) -> c = d.
  Proof.
    intros E F S1 S2 HD. rewrite E in F. apply app_cases in F as [(m & -> & _)|[(_ & -> & _)|(m & -> & _)]]; [|reflexivity|].
    - destruct (S1 d (in_elt _ _ _)) as (_ & X & _). congruence.
    - destruct (S2 c (in_elt _ _ _)) as (_ & X & _). congruence.
  Qed.

  Definition covers (n : node) (b : bool) (p : list str) (W : list M) : Prop :=
    forall mw q r, p = q ++ r -> q <> [] -> leads (has (CMw mw)) n b q -> In mw W.

  Lemma leads_inv (Q : node -> Prop) n b s q : leads Q n b (s :: q) ->
    (exists l1 d l2, nkey d = s /\ nkids n = l1 ++ d :: l2 /\ nkey d <> [] /\ skipped b l1 (nkey d) /\ (b = false -> is_param d = false) /\ leads Q d false q) \/
    (exists l1 d l2 s', nkey d ++ s' = s /\ nkids n = l1 ++ d :: l2 /\ nkey d <> [] /\ skipped b l1 (nkey d) /\ (b = false -> is_param d = false) /\ s' <> [] /\ leads Q d true (s' :: q)) \/
    (exists d l2, nkey d = s /\ b = false /\ nkids n = d :: l2 /\ is_param d = true /\ leads Q d false q).
  Proof.
    intros L. inversion L; subst.
    - left. eauto 12.
    - right. left. eauto 14.
    - right. right. eauto 12.
  Qed.

  Lemma get_next_kids (n : node) x R ps mws b :
    get_next_node n (x :: R) ps mws b = next_loop (fun c k p m b => get_next_node c k p m b) x b (nkids n) R ps mws.
  Proof. destruct n. reflexivity. Qed.

  Lemma match_count_all k : match_count k k = blen k.
  Proof. rewrite <- (app_nil_r k) at 2. apply match_count_prefix. Qed.

  Lemma search_leads (Q : node -> Prop) : (forall n, Q n -> exists v, nval n = Some v) ->
    forall n b p, leads Q n b p -> p <> [] -> (forall s, In s p -> s <> [] /\ ~ In c_star s) ->
    forall R bs ps mws, fits b p R bs ->
    exists f W, get_next_node n R ps mws b = SRet (Some f) [] (bind bs ps) (mws ++ W) /\ Q f /\ covers n b p W.
  Proof.
    intros QS n b p L. induction L as [n W|n b l1 c l2 rest E N S P L IH|n b l1 c l2 s rest E N S P Ns L IH|n c l2 rest E P L IH];
      intros NP NS R bs ps mws F; [congruence| | |].
    - assert (X : exists R', R = nkey c :: R' /\ seg_match rest R' bs).
      { destruct b; cbn [fits] in F.
        - destruct R as [|x R']; [contradiction|]. destruct F as [<- F]. eauto.
        - specialize (P eq_refl). unfold is_param in P. inversion F as [|s p R' b' LS F'|nm x p R' b' F' EK|R' NR EK]; subst; eauto.
          + rewrite <- EK in P. discriminate.
          + exfalso. apply (proj2 (NS (nkey c) (or_introl eq_refl))). rewrite <- EK. left. reflexivity. }
      destruct X as (R' & -> & F').
      assert (NSc : nkey c <> s_star).
      { intros X. apply (proj2 (NS (nkey c) (or_introl eq_refl))). rewrite X. left. reflexivity. }
      rewrite get_next_kids, E, loop_skip by assumption. cbn [next_loop].
      assert (P' : negb b && is_param c = false) by (destruct b; [reflexivity|apply P; reflexivity]).
      assert (ST : negb b && str_eqb (nkey c) s_star = false) by (rewrite (proj2 (str_eqb_neq _ _) NSc); apply andb_false_r).
      rewrite P', ST. cbv zeta. rewrite (match_count_all (nkey c)), Nat.eqb_refl. cbn [andb negb].
      assert (B : Nat.eqb (blen (nkey c)) 0 = false) by (apply Nat.eqb_neq; rewrite blen_0; exact N). rewrite B. cbn [negb].
      assert (CV : forall W V, (rest <> [] -> covers c false rest W) -> (forall mw, has (CMw mw) c -> In mw V) -> covers n b (nkey c :: rest) (W ++ V)).
      { intros W V C1 C2 mw q r Eq Nq Lq. destruct q as [|s0 q]; [congruence|]. injection Eq as <- Eq.
        assert (LC : leads (has (CMw mw)) c false q).
        { apply leads_inv in Lq as [(a1 & d & a2 & Ek & E' & N' & S' & P1 & L')|[(a1 & d & a2 & s' & Ek & E' & N' & S' & P1 & Ns' & L')|(d & a2 & Ek & B1 & E' & P1 & L')]].
          - rewrite (same_child b n l1 c l2 a1 d a2); auto. congruence.
          - exfalso. assert (c = d) as <-.
            { apply (same_child b n l1 c l2 a1 d a2); auto. rewrite <- Ek. apply nonempty_head. exact N'. }
            apply Ns'. apply (app_inv_head (nkey c)). rewrite Ek, app_nil_r. reflexivity.
          - exfalso. specialize (P B1). unfold is_param in *. congruence. }
        apply in_or_app. destruct q as [|s1 q].
        - right. apply C2. inversion LC. assumption.
        - left. apply (C1 ltac:(rewrite Eq; discriminate) mw (s1 :: q) r); auto. discriminate. }
      destruct R' as [|x R']; cbn [is_empty].
      + assert (rest = []) as -> by (inversion F'; subst; [reflexivity|congruence]).
        apply seg_match_nil in F' as [_ ->]. inversion L as [? W| | |]; subst. destruct (QS c W) as [v Ev]. rewrite Ev.
        exists c, (rv_mws v). split; [reflexivity|]. split; [exact W|]. apply (CV [] (rv_mws v)); [congruence|].
        intros mw. unfold has. rewrite Ev. auto.
      + assert (NR : rest <> []) by (intros ->; inversion F').
        destruct (IH NR ltac:(intros s I; apply NS; right; exact I) (x :: R') bs ps mws F') as (f & W & G & Qf & C).
        rewrite G. exists f, (W ++ val_mws (nval c)). split; [rewrite app_assoc; reflexivity|]. split; [exact Qf|].
        apply CV; [auto|]. intros mw. unfold has, val_mws. destruct (nval c); auto.
    - assert (X : exists R', R = (nkey c ++ s) :: R' /\ seg_match rest R' bs).
      { destruct b; cbn [fits] in F.
        - destruct R as [|x R']; [contradiction|]. destruct F as [<- F]. eauto.
        - specialize (P eq_refl). unfold is_param in P. inversion F as [|s' p R' b' LS F'|nm x p R' b' F' EK|R' NR EK]; subst; eauto.
          + exfalso. destruct (nkey c) as [|y k]; [congruence|]. injection EK as EK _. rewrite <- EK in P. discriminate.
          + exfalso. apply (proj2 (NS (nkey c ++ s) (or_introl eq_refl))). rewrite <- EK. left. reflexivity. }
      destruct X as (R' & -> & F').
      assert (NSc : nkey c <> s_star) by (apply (nostar_key c s); apply (NS (nkey c ++ s)); left; reflexivity).
      assert (HD : hd_error (nkey c ++ s) = hd_error (nkey c)) by (apply nonempty_head; exact N).
      rewrite get_next_kids, E, loop_skip.
      2: { destruct (nkey c); [congruence|discriminate]. }
      2: { intros d I. rewrite HD. exact (S d I). }
      cbn [next_loop].
      assert (P' : negb b && is_param c = false) by (destruct b; [reflexivity|apply P; reflexivity]).
      assert (ST : negb b && str_eqb (nkey c) s_star = false) by (rewrite (proj2 (str_eqb_neq _ _) NSc); apply andb_false_r).
      rewrite P', ST. cbv zeta. rewrite match_count_prefix, Nat.eqb_refl, slice_from_app, blen_app.
      assert (B : Nat.eqb (blen (nkey c)) 0 = false) by (apply Nat.eqb_neq; rewrite blen_0; exact N).
      assert (B2 : Nat.eqb (blen (nkey c)) (blen (nkey c) + blen s) = false).
      { apply Nat.eqb_neq. intros X. apply Ns, blen_0. lia. }
      rewrite B, B2. cbn [andb negb is_empty].
      assert (NS' : forall s0, In s0 (s :: rest) -> s0 <> [] /\ ~ In c_star s0).
      { intros s0 [<-|I]; [|apply NS; right; exact I]. split; [exact Ns|]. intros I.
        apply (proj2 (NS (nkey c ++ s) (or_introl eq_refl))). apply in_or_app. auto. }
      destruct (IH ltac:(discriminate) NS' (s :: R') bs ps mws (conj eq_refl F')) as (f & W & G & Qf & C).
      unfold str in G |- *. rewrite G. exists f, (W ++ val_mws (nval c)). split; [rewrite app_assoc; reflexivity|]. split; [exact Qf|].
      intros mw q r Eq Nq Lq. destruct q as [|s0 q]; [congruence|]. injection Eq as <- Eq.
      assert (LC : leads (has (CMw mw)) c true (s :: q)).
      { apply leads_inv in Lq as [(a1 & d & a2 & Ek & E' & N' & S' & P1 & L')|[(a1 & d & a2 & s' & Ek & E' & N' & S' & P1 & Ns' & L')|(d & a2 & Ek & B1 & E' & P1 & L')]].
        - exfalso. assert (c = d) as <-.
          { apply (same_child b n l1 c l2 a1 d a2); auto. rewrite Ek. symmetry. exact HD. }
          apply Ns. apply (app_inv_head (nkey c)). rewrite <- Ek, app_nil_r. reflexivity.
        - assert (c = d) as <-.
          { apply (same_child b n l1 c l2 a1 d a2); auto. rewrite <- HD, <- Ek. apply nonempty_head. exact N'. }
          apply app_inv_head in Ek. subst s'. exact L'.
        - exfalso. specialize (P B1). rewrite (is_param_hd c d) in P1; [congruence|]. rewrite Ek. exact HD. }
      apply in_or_app. left. apply (C mw (s :: q) r); [rewrite Eq; reflexivity|discriminate|exact LC].
    - cbn [fits] in F. unfold is_param in P. apply starts_colon_spec in P as [nm Ec].
      inversion F as [|s' p R' b' LS F'|nm' x p R' b' F' EK|R' NR EK]; subst.
      + exfalso. apply (proj2 LS). exists nm. exact Ec.
      + assert (nm' = nm) as -> by congruence. rewrite ?EK.
        assert (CV : forall W V, (rest <> [] -> covers c false rest W) -> (forall mw, has (CMw mw) c -> In mw V) -> covers n false (nkey c :: rest) (W ++ V)).
        { intros W V C1 C2 mw q r Eq Nq Lq. destruct q as [|s0 q]; [congruence|]. injection Eq as <- Eq.
          assert (Pc : is_param c = true) by (unfold is_param; rewrite Ec; reflexivity).
          assert (LC : leads (has (CMw mw)) c false q).
          { apply leads_inv in Lq as [(a1 & d & a2 & Ek & E' & N' & S' & P1 & L')|[(a1 & d & a2 & s' & Ek & E' & N' & S' & P1 & Ns' & L')|(d & a2 & Ek & B1 & E' & P1 & L')]].
            - exfalso. specialize (P1 eq_refl). unfold is_param in *. congruence.
            - exfalso. specialize (P1 eq_refl). rewrite <- (is_param_hd d c) in P1; [congruence|]. rewrite <- Ek. apply nonempty_head. exact N'.
            - rewrite E in E'. injection E' as -> ->. exact L'. }
          apply in_or_app. destruct q as [|s1 q].
          - right. apply C2. inversion LC. assumption.
          - left. apply (C1 ltac:(rewrite Eq; discriminate) mw (s1 :: q) r); auto. discriminate. }
        rewrite get_next_kids, E. cbn [next_loop negb andb]. assert (Pc : is_param c = true) by (unfold is_param; rewrite Ec; reflexivity).
        assert (SL : slice_from (nkey c) 1 = Some nm) by (rewrite Ec; destruct nm; reflexivity). rewrite Pc, SL.
        destruct R' as [|y R']; cbn [is_empty].
        * assert (rest = []) as -> by (inversion F'; subst; [reflexivity|congruence]).
          apply seg_match_nil in F' as [_ ->]. inversion L as [? W| | |]; subst. destruct (QS c W) as [v Ev]. rewrite Ev.
          exists c, (rv_mws v). split; [reflexivity|]. split; [exact W|]. apply (CV [] (rv_mws v)); [congruence|].
          intros mw. unfold has. rewrite Ev. auto.
        * assert (NR : rest <> []) by (intros ->; inversion F').
          destruct (IH NR ltac:(intros s I; apply NS; right; exact I) (y :: R') b' ps mws F') as (f & W & G & Qf & C).
          rewrite G. exists f, (W ++ val_mws (nval c)). split; [rewrite app_assoc; reflexivity|]. split; [exact Qf|].
          apply CV; [auto|]. intros mw. unfold has, val_mws. destruct (nval c); auto.
      + exfalso. rewrite Ec in EK. discriminate.
  Qed.

  (** ** The segments of registered paths *)

  Definition goods (T : table H M) : Prop := forall p c, In (p, c) T -> forall s, In s p -> good_key s.

  Lemma run_ops_goods (l : list (op H M)) :
    Forall (fun o => forall t T t', goods T -> run_op t o = (t', None) -> goods (after T o)) l ->
    forall t T t', goods T -> run_ops t l = (t', None) -> goods (afters T l).
  Proof.
    intros F. induction F as [|o l Fo F IH]; intros t T t' I E; cbn [run_ops afters] in *; [exact I|].
    destruct (run_op t o) as [t1 [pn|]] eqn:Eo; [discriminate|]. exact (IH _ _ _ (Fo _ _ _ I Eo) E).
  Qed.

  Lemma run_op_goods (o : op H M) : forall t T t', goods T -> run_op t o = (t', None) -> goods (after T o).
  Proof.
    induction o as [m path h|path mw|mw|path sub IH] using op_ind'; intros t T t' G E.
    - cbn [run_op after] in *. intros p c J. apply in_app_or in J as [J|[J|[]]]; [exact (G p c J)|]. injection J as <- <-.
      unfold insert_route in E. destruct (star_check _ _ _) eqn:Es; [discriminate|]. apply good_path. apply star_check_spec. exact Es.
    - cbn [run_op after] in *. destruct (segments path) as [|s0 p0] eqn:Ep; [exact G|]. rewrite <- Ep.
      intros p c J. apply in_app_or in J as [J|[J|[]]]; [exact (G p c J)|]. injection J as <- <-.
      unfold insert_middleware in E. destruct (star_check _ _ _) eqn:Es; [discriminate|]. apply good_path. apply star_check_spec. exact Es.
    - cbn [run_op after] in *. intros p c J. apply in_app_or in J as [J|[J|[]]]; [exact (G p c J)|]. injection J as <- <-. intros s [].
    - rewrite run_op_router in E. destruct (build sub) as [src [pn|]] eqn:Eb; cbn [fst snd] in E; [discriminate|].
      assert (GS : goods (table_of sub)) by (apply (run_ops_goods sub IH trie_new [] src); [intros p c []|exact Eb]).
      rewrite after_router. destruct (segments path) as [|s0 p0] eqn:Ep; [exact GS|]. rewrite <- Ep.
      unfold insert_sub_route in E. destruct (star_check _ _ _) eqn:Es; [discriminate|]. apply star_check_spec in Es.
      intros p c J. apply in_app_or in J as [J|[J|J]]; [exact (G p c J)| |].
      + injection J as <- <-. apply good_path. exact Es.
      + apply in_map_iff in J as ([q d] & J & JS). cbn [fst snd] in J. injection J as <- <-.
        intros s X. apply in_app_or in X as [X|X]; [exact (good_path path Es s X)|exact (GS q d JS s X)].
  Qed.

  Lemma build_goods (l : list (op H M)) t : build l = (t, None) -> goods (table_of l).
  Proof.
    intros E. apply (run_ops_goods l (proj2 (Forall_forall _ _) (fun o _ => run_op_goods o)) trie_new [] t); [intros p c []|exact E].
  Qed.

  (** ** Lookup *)

  Lemma own_lookup (t : node) p m h path b :
    (forall s, In s p -> good_key s) -> no_star p -> leads (has (CRoute m h)) t false p -> seg_match p (segments path) b ->
    exists r, search_route t path = LSome r /\ rr_get_route r m = Some (Route m h) /\
      (forall n, pget n (rr_params r) = first_binding b n) /\
      (forall mw q q', p = q ++ q' -> leads (has (CMw mw)) t false q -> In mw (rr_mws r)).
  Proof.
    intros G NS L S. unfold search_route. destruct p as [|s p].
    - apply seg_match_nil in S as [-> ->]. cbn [is_empty]. inversion L as [n W| | |]. subst n.
      unfold has in W. destruct (nval t) as [v|] eqn:E; [|contradiction]. eexists. split; [reflexivity|]. split; [exact W|].
      split; [reflexivity|]. intros mw q q' Eq Lq. destruct q; [|discriminate]. inversion Lq as [n V| | |]. subst n.
      unfold has in V. rewrite E in V. exact V.
    - assert (NN : segments path <> []) by (destruct (seg_match_head _ _ _ _ S) as (x & R & ->); [intros ->; apply NS; left; reflexivity|discriminate]).
      apply is_empty_false in NN. rewrite NN.
      assert (GS : forall s0, In s0 (s :: p) -> s0 <> [] /\ ~ In c_star s0).
      { intros s0 J. destruct (G s0 J) as [G1 G2]. split; [exact G1|]. intros K. apply NS. rewrite <- (G2 K). exact J. }
      destruct (search_leads (has (CRoute m h)) (has_some (CRoute m h)) t false (s :: p) L ltac:(discriminate) GS (segments path) b []
                  (val_mws (nval t)) S) as (f & W & E & F & C).
      rewrite E. unfold has in F. destruct (nval f) as [v|]; [|contradiction]. eexists. split; [reflexivity|]. split; [exact F|].
      split; [intros n; cbn [rr_params]; rewrite pget_bind; destruct (first_binding b n); reflexivity|].
      intros mw q q' Eq Lq. cbn [rr_mws rr_value rv_mws]. apply in_or_app. destruct q as [|s1 q].
      + left. inversion Lq as [n V| | |]. subst n. unfold has in V. unfold val_mws. destruct (nval t); [exact V|contradiction].
      + right. apply (C mw (s1 :: q) q' Eq); [discriminate|exact Lq].
  Qed.

  (** Colons anywhere: a registered route is found by the requests that match it
      segment by segment. *)
  Theorem own_path_found (l : list (op H M)) t p m h path b :
    build l = (t, None) -> registered l p (CRoute m h) -> no_star p -> seg_match p (segments path) b ->
    exists r, search_route t path = LSome r /\ rr_get_route r m = Some (Route m h) /\
      (forall n, pget n (rr_params r) = first_binding b n) /\
      (forall mw q q', p = q ++ q' -> registered l q (CMw mw) -> In mw (rr_mws r)).
  Proof.
    intros E I NS S. destruct (build_inv l t E) as [_ L].
    destruct (own_lookup t p m h path b (build_goods l t E p _ I) NS (L p _ I ltac:(discriminate)) S) as (r & E1 & E2 & E3 & E4).
    exists r. split; [exact E1|]. split; [exact E2|]. split; [exact E3|]. intros mw q q' Eq J. apply (E4 mw q q' Eq). apply L; [exact J|discriminate].
  Qed.

  Theorem literal_path_found (l : list (op H M)) t p m h path :
    build l = (t, None) -> registered l p (CRoute m h) -> literal p -> segments path = p ->
    exists r, search_route t path = LSome r /\ rr_get_route r m = Some (Route m h) /\ forall n, pget n (rr_params r) = None.
  Proof.
    intros E I LP S. assert (NS : no_star p) by (intros J; apply (proj1 (LP _ J)); reflexivity).
    assert (SM : seg_match p p []) by (clear - LP; induction p as [|s p IH]; constructor; [apply LP; left; reflexivity|apply IH; intros x J; apply LP; right; exact J]).
    rewrite <- S in SM at 2. destruct (own_path_found l t p m h path [] E I NS SM) as (r & E1 & E2 & E3 & _).
    exists r. split; [exact E1|]. split; [exact E2|exact E3].
  Qed.

  (** ** Calls whose panics are caught *)

  (** The call cannot replace a handler for [m]: it does not panic with "duplicate", or
      registers another method. *)
  Definition spares (m : method) (t : node) (o : op H M) : Prop :=
    snd (run_op t o) <> Some PDuplicate \/ (forall path h, o <> ORoute m path h).

  Lemma built_nice (l : list (op H M)) t e : build l = (t, e) -> nice t.
  Proof.
    assert (X : forall l : list (op H M), Forall (fun o => forall t : node, nice t -> nice (fst (run_op t o))) l ->
      forall t, nice t -> nice (fst (run_ops t l))).
    { intros l0 F. induction F as [|o l0 Fo F IH]; intros t0 N; cbn [run_ops]; [exact N|].
      specialize (Fo t0 N). destruct (run_op t0 o) as [t1 [pn|]]; [exact Fo|apply IH; exact Fo]. }
    assert (Y : forall (o : op H M) (t : node), nice t -> nice (fst (run_op t o))).
    { intros o. induction o as [m path h|path mw|mw|path sub IH] using op_ind'; intros t0 N.
      - apply insert_route_nice. exact N.
      - apply insert_middleware_nice. exact N.
      - apply nices_push. exact N.
      - rewrite run_op_router. destruct (build sub) as [src [pn|]] eqn:Eb; cbn [fst snd]; [exact N|].
        apply insert_sub_route_nice; [exact N|]. replace src with (fst (src, @None panic)) by reflexivity. rewrite <- Eb.
        apply (X sub IH). exact nice_new. }
    intros E. replace t with (fst (t, e)) by reflexivity. rewrite <- E. apply X; [|exact nice_new].
    apply Forall_forall. intros o _. apply Y.
  Qed.

  Lemma run_op_nice (o : op H M) (t : node) : nice t -> nice (fst (run_op t o)).
  Proof.
    intros N. destruct o as [m path h|path mw|mw|path sub].
    - apply insert_route_nice. exact N.
    - apply insert_middleware_nice. exact N.
    - apply nices_push. exact N.
    - rewrite run_op_router. destruct (build sub) as [src [pn|]] eqn:Eb; cbn [fst snd]; [exact N|].
      apply insert_sub_route_nice; [exact N|]. exact (built_nice sub src None Eb).
  Qed.

  Lemma run_op_keeps (o : op H M) (t : node) c p : nice t -> (forall m h, c = CRoute m h -> spares m t o) ->
    (root_mount o -> snd (run_op t o) <> None) ->
    leads (has c) t false p -> leads (has c) (fst (run_op t o)) false p.
  Proof.
    intros N SP RM L. destruct o as [m path h|path mw|mw|path sub].
    - cbn [run_op] in *. assert (D : snd (insert_route t path (Route m h)) <> Some PDuplicate \/ (forall h', c <> CRoute m h')).
      { destruct c as [m' h'|mw|]; [|right; discriminate|right; discriminate].
        destruct (SP m' h' eq_refl) as [X|X]; [left; exact X|right]. intros h2 E. injection E as -> ->. exact (X path h eq_refl). }
      destruct D as [D|D].
      + apply (insert_route_keeps no_dup); auto. apply keeps_set_route.
      + apply (insert_route_keeps any_end); auto; [|exact I]. apply keeps_other. exact D.
    - apply insert_middleware_keeps; assumption.
    - apply keeps_push; auto. exact I.
    - rewrite run_op_router in *. destruct (build sub) as [src [pn|]] eqn:Eb; cbn [fst snd] in *; [exact L|].
      destruct (segments path) eqn:Ep.
      + exfalso. apply RM; [exists path, sub; auto|]. unfold insert_sub_route. rewrite Ep. reflexivity.
      + apply insert_sub_route_keeps; auto; [exact (built_nice sub src None Eb)|rewrite Ep; discriminate].
  Qed.

  Theorem rejected_keeps (l : list (op H M)) t o pn p m h path b :
    build l = (t, None) -> snd (run_op t o) = Some pn -> (pn <> PDuplicate \/ forall path' h', o <> ORoute m path' h') ->
    registered l p (CRoute m h) -> no_star p -> seg_match p (segments path) b ->
    exists r, search_route (fst (run_op t o)) path = LSome r /\ rr_get_route r m = Some (Route m h) /\
              forall n, pget n (rr_params r) = first_binding b n.
  Proof.
    intros E R D I NS S. destruct (build_inv l t E) as [N L].
    assert (K : leads (has (CRoute m h)) (fst (run_op t o)) false p).
    { apply run_op_keeps; [exact N| |rewrite R; discriminate|apply L; [exact I|discriminate]].
      intros m' h' X. injection X as <- <-. destruct D as [D|D]; [left; rewrite R; congruence|right; exact D]. }
    destruct (own_lookup _ p m h path b (build_goods l t E p _ I) NS K S) as (r & E1 & E2 & E3 & _). exists r. auto.
  Qed.

  Theorem later_keep (l l2 : list (op H M)) t p m h path b : build (l ++ l2) = (t, None) -> registered l p (CRoute m h) ->
    (forall o, In o l2 -> ~ root_mount o) -> no_star p -> seg_match p (segments path) b ->
    exists r, search_route t path = LSome r /\ rr_get_route r m = Some (Route m h) /\
              forall n, pget n (rr_params r) = first_binding b n.
  Proof.
    intros B I N NS S. assert (J : registered (l ++ l2) p (CRoute m h)) by (unfold registered; rewrite table_app; apply afters_keep; assumption).
    destruct (own_path_found (l ++ l2) t p m h path b B J NS S) as (r & E1 & E2 & E3 & _). exists r. auto.
  Qed.

  Theorem mount_keeps_all (l : list (op H M)) path sub t p m h req b :
    build (l ++ [ORouter path sub]) = (t, None) -> segments path <> [] ->
    registered l p (CRoute m h) -> no_star p -> seg_match p (segments req) b ->
    exists r, search_route t req = LSome r /\ rr_get_route r m = Some (Route m h) /\
              forall n, pget n (rr_params r) = first_binding b n.
  Proof.
    intros B N I NS S. apply (later_keep l [ORouter path sub] t p m h req b); auto.
    intros o [<-|[]] (path' & sub' & E & F). injection E as <- <-. contradiction.
  Qed.

  Theorem own_route (l : list (op H M)) t p m h path b :
    build l = (t, None) -> registered l p (CRoute m h) -> no_star p -> seg_match p (segments path) b ->
    exists r, search_route t path = LSome r /\ rr_get_route r m = Some (Route m h) /\
      forall n, pget n (rr_params r) = first_binding b n.
  Proof.
    intros E I NS S. destruct (own_path_found l t p m h path b E I NS S) as (r & E1 & E2 & E3 & _). exists r. auto.
  Qed.

  Theorem own_middlewares (l : list (op H M)) t p m h path b q q' mw r :
    build l = (t, None) -> registered l p (CRoute m h) -> no_star p -> seg_match p (segments path) b ->
    registered l q (CMw mw) -> p = q ++ q' -> search_route t path = LSome r -> In mw (rr_mws r).
  Proof.
    intros E I NS S J Eq F. destruct (own_path_found l t p m h path b E I NS S) as (r' & E1 & _ & _ & E4).
    rewrite F in E1. injection E1 as <-. exact (E4 mw q q' Eq J).
  Qed.
End Own.
