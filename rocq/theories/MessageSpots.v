(** The nodes of the trie, text by text. *)

From Coq Require Import String.
From Verif Require Import Base BaseFacts RouteTrie Router Messages TableSpec PropSpec TextSpec TrieDen TrieRep TrieBuild TrieSearch TrieLookup TrieTotal OwnPath TextRep.
Local Open Scope string_scope.
Local Open Scope list_scope.

Section Spots.
  Context {H M : Type}.
  Notation node := (node H M).

  (** There is a node at the text [w]. *)
  Definition spot (n : node) (w : str) : Prop := exists m, below n w m.

  Lemma spot_here (n : node) : spot n [].
  Proof. exists n. apply bl_here. Qed.

  Lemma spot_kid (n : node) w : spot n w <-> w = [] \/ exists c u, In c (nkids n) /\ w = nkey c ++ u /\ spot c u.
  Proof.
    split.
    - intros (m & B). inversion B as [|? c u ? I B' E']; subst; [auto|]. right. exists c, u. split; [exact I|]. split; [reflexivity|]. exists m. exact B'.
    - intros [->|(c & u & I & -> & m & B)]; [apply spot_here|]. exists m. apply bl_kid; assumption.
  Qed.

  Lemma below_app (n m : node) w : below n w m -> forall u x, below m u x -> below n (w ++ u) x.
  Proof.
    intros B. induction B as [n|n c w m I B IH]; intros u x B'; [exact B'|]. rewrite <- app_assoc. apply bl_kid; auto.
  Qed.

  Lemma below_rest (n m : node) w : below n w m -> forall u x, radix n -> below n (w ++ u) x -> below m u x.
  Proof.
    intros B. induction B as [n|n c w m I B IH]; intros u x R B'; [exact B'|]. pose proof R as [K _]. destruct (K c I) as [Nc Rc].
    rewrite <- app_assoc in B'. remember (nkey c ++ w ++ u) as z eqn:Ez. destruct B' as [n|n d z x J B'].
    - destruct (nkey c); [congruence|discriminate].
    - destruct (K d J) as [Nd _]. assert (d = c) as ->.
      { apply (kid_unique n); auto. rewrite <- (head_app (nkey d) z Nd), Ez. apply head_app. exact Nc. }
      apply app_inv_head in Ez. subst z. apply IH; assumption.
  Qed.

  Lemma below_radix (n m : node) w : below n w m -> radix n -> radix m.
  Proof. intros B. induction B as [n|n c w m I B IH]; intros R; [exact R|]. apply IH. destruct R as [K _]. exact (proj2 (K c I)). Qed.

  Lemma spot_rest (n m : node) w u : radix n -> below n w m -> (spot m u <-> spot n (w ++ u)).
  Proof.
    intros R B. split.
    - intros (x & B'). exists x. exact (below_app n m w B u x B').
    - intros (x & B'). exists x. exact (below_rest n m w B u x R B').
  Qed.

  (** The kid through which a text leads. *)
  Lemma spot_through (n c : node) w : radix n -> In c (nkids n) -> hd_error w = hd_error (nkey c) -> spot n w ->
    exists u, w = nkey c ++ u /\ spot c u.
  Proof.
    intros R I E S. pose proof R as [K _]. destruct (K c I) as [Nc _]. apply spot_kid in S as [->|(d & u & J & -> & S)].
    - destruct (nkey c); [congruence|discriminate].
    - destruct (K d J) as [Nd _]. rewrite head_app in E by exact Nd. assert (d = c) as -> by (apply (kid_unique n); auto). exists u. auto.
  Qed.

  (** Two nodes whose texts part. *)
  Lemma spots_part (n : node) : forall w x r y r', radix n -> x <> y -> spot n (w ++ x :: r) -> spot n (w ++ y :: r') -> spot n w.
  Proof.
    induction n as [nk nv cs IH] using node_ind'. rewrite Forall_forall in IH. intros w x r y r' R N S S'.
    destruct w as [|a w]; [apply spot_here|].
    pose proof S as S0. apply spot_kid in S0 as [E|(c & u & I & E & Sc)]; [discriminate|].
    pose proof R as [K _]. destruct (K c I) as [Nc Rc].
    assert (Hd : hd_error ((a :: w) ++ y :: r') = hd_error (nkey c)).
    { rewrite <- (head_app (nkey c) u Nc), <- E. reflexivity. }
    destruct (spot_through _ c _ R I Hd S') as (u' & E' & Sc').
    assert (P : forall (k z : str) u u', z ++ x :: r = k ++ u -> z ++ y :: r' = k ++ u' -> exists z', z = k ++ z').
    { clear -N. induction k as [|b k IH]; intros z u u' E E'; [exists z; reflexivity|]. destruct z as [|d z].
      - cbn [app] in E, E'. congruence.
      - cbn [app] in E, E'. injection E as -> E. injection E' as E'. destruct (IH z u u' E E') as [z' ->]. exists z'. reflexivity. }
    destruct (P (nkey c) (a :: w) u u' E E') as [z Ez]. rewrite Ez in *. rewrite <- app_assoc in E, E'.
    apply app_inv_head in E. apply app_inv_head in E'. subst u u'.
    destruct (IH c I z x r y r' Rc N Sc Sc') as (m & B). exists m. apply bl_kid; assumption.
  Qed.

  Lemma others_differ (n : node) l1 c l2 d : radix n -> nkids n = l1 ++ c :: l2 -> In d (l1 ++ l2) -> hd_error (nkey d) <> hd_error (nkey c).
  Proof.
    intros [_ B] E I Hd. rewrite E, map_app in B. cbn [map] in B. apply NoDup_remove_2 in B. apply B. rewrite <- Hd, <- map_app.
    apply (in_map (fun c => hd_error (nkey c))). exact I.
  Qed.

  (** Replacing a kid changes only the texts that start like its key. *)
  Lemma spot_replace (n : node) l1 c l2 c' w : radix n -> nkids n = l1 ++ c :: l2 -> nkey c' <> [] ->
    (spot (with_kids n (l1 ++ c' :: l2)) w <->
     (spot n w /\ hd_error w <> hd_error (nkey c)) \/ exists u, w = nkey c' ++ u /\ spot c' u).
  Proof.
    intros R E N. destruct (radix_kid _ _ _ _ R E) as [Nc Rc]. pose proof R as [K _]. split.
    - intros S. apply spot_kid in S as [->|(d & u & I & -> & S)].
      + left. split; [apply spot_here|]. destruct (nkey c); [congruence|discriminate].
      + cbn [nkids with_kids] in I. assert (J : d = c' \/ In d (l1 ++ l2)).
        { apply in_app_or in I as [I|[I|I]]; [right; apply in_or_app; auto|auto|right; apply in_or_app; auto]. }
        destruct J as [->|J]; [right; exists u; auto|left].
        assert (Id : In d (nkids n)) by (rewrite E; apply in_app_or in J as [J|J]; apply in_or_app; [auto|right; right; exact J]).
        split; [apply spot_kid; right; exists d, u; auto|]. rewrite head_app by (exact (proj1 (K d Id))). exact (others_differ n l1 c l2 d R E J).
    - intros [[S Hd]|(u & -> & S)]; apply spot_kid.
      + apply spot_kid in S as [->|(d & u & I & -> & S)]; [auto|right]. exists d, u. split; [|auto]. cbn [nkids with_kids].
        rewrite E in I. apply in_app_or in I as [I|[->|I]]; [apply in_or_app; auto| |apply in_or_app; right; right; exact I].
        exfalso. apply Hd. apply head_app. exact Nc.
      + right. exists c', u. split; [apply in_elt|auto].
  Qed.

  (** ** One insertion *)

  Definition forked (n : node) (key w : str) : Prop := exists y r x r', key = w ++ y :: r /\ x <> y /\ spot n (w ++ x :: r').

  (** The key is refused at a kid of the node at [v]. *)
  Definition refused (n : node) (key : str) (v a b : str) : Prop :=
    key = v ++ a /\ a <> [] /\ a <> b /\ (starts_colon a = true \/ starts_colon b = true) /\
    (exists x c, below n v x /\ In c (nkids x) /\ nkey c = b) /\
    (forall k, process_insertion n key k = (n, Some PAmbiguous)) /\
    forall k err, process_text n key k err = Some (err (lit "ERROR: Ambigous definition between " ++ a ++ lit " and " ++ b)).

  (** The key leads to [m], the part of the tree below the text [key]. *)
  Definition reaches (n : node) (key : str) (fill : node -> node) (m : node) : Prop :=
    (forall k, process_insertion n key k = (fill (fst (k m)), snd (k m))) /\
    (forall k err, process_text n key k err = k m) /\ radix m /\
    (forall u, spot m u <-> u = [] \/ spot n (key ++ u)) /\
    (forall u v, vals m u v -> vals n (key ++ u) v) /\
    forall m', nkey m' = nkey m ->
      nkey (fill m') = nkey n /\
      (forall w, spot (fill m') w -> (exists u, w = key ++ u /\ spot m' u) \/ (~ prefix key w /\ (spot n w \/ forked n key w))) /\
      (forall u, spot m' u -> spot (fill m') (key ++ u)) /\
      (forall w, ~ prefix key w -> spot n w -> spot (fill m') w).

  Lemma refusal (key : str) : forall (cs : list node) i c j, get_insertion_action_from cs key i = Action AError c j ->
    exists l1 d l2, cs = l1 ++ d :: l2 /\ j = i + List.length l1 /\ key <> nkey d /\ (starts_colon key = true \/ is_param d = true).
  Proof.
    induction cs as [|d cs IH]; intros i c j E; cbn [get_insertion_action_from] in E; [discriminate|].
    destruct (is_param d || starts_colon key) eqn:P.
    - destruct (str_eqb_spec key (nkey d)) as [->|N]; [discriminate|]. injection E as _ <-. exists [], d, cs. split; [reflexivity|].
      split; [cbn [length]; lia|]. split; [exact N|]. apply orb_true_iff in P. tauto.
    - cbv zeta in E. destruct (_ && _); [discriminate|]. destruct (Nat.eqb _ _); [discriminate|]. destruct (negb _); [discriminate|].
      destruct (IH _ _ _ E) as (l1 & e & l2 & -> & -> & N & Q). exists (d :: l1), e, l2. split; [reflexivity|]. split; [cbn [length]; lia|]. auto.
  Qed.

  Lemma at_nth_at f (l1 : list node) c l2 : at_nth f (List.length l1) (l1 ++ c :: l2) = f c.
  Proof. induction l1 as [|d l1 IH]; [reflexivity|exact IH]. Qed.

  Lemma passed_not (n : node) key w : radix n -> passed (nkids n) key -> key <> [] -> spot n w -> ~ prefix key w.
  Proof.
    intros [K _] P NK S [r ->]. apply spot_kid in S as [E|(d & u & I & E & _)]; [destruct key; [congruence|discriminate]|].
    destruct (K d I) as [Nd _]. destruct (P d I) as [_ Hd]. apply Hd.
    rewrite <- (head_app (nkey d) u Nd), <- E. apply head_app. exact NK.
  Qed.

  Lemma leaf_spot key (v : option (rvalue H M)) u : spot (Node key v []) u <-> u = [].
  Proof. rewrite spot_kid. split; [|auto]. intros [->|(c & ? & [] & _)]; reflexivity. Qed.

  Lemma process_reaches (n : node) : forall key, radix n -> key <> [] ->
    (exists v a b, refused n key v a b) \/ exists fill m, reaches n key fill m.
  Proof.
    induction n as [nk nv cs IH] using node_ind'. rewrite Forall_forall in IH. intros key R NK.
    pose proof R as [K _]. cbn [nkids] in K.
    assert (NE : forall d, In d cs -> nkey d <> []) by (intros d I; exact (proj1 (K d I))).
    pose proof (acts_spec key NK cs 0 NE) as A.
    remember (get_insertion_action_from cs key 0) as a eqn:EA.
    destruct A as [A B|j|l1 c l2 z A B C B'|l1 c l2 y A B C D' E' F'|l1 c l2 w x y A B C D' E' F' G' H' I'].
    - (* a new node *)
      right. exists (fun x => Node nk nv (if str_eqb key s_star then cs ++ [x] else x :: cs)), (node_new key None).
      split; [|split; [|split; [apply radix_leaf|split; [|split; [intros u v V; destruct (vals_leaf _ _ _ V)|]]]]].
      + intros k. cbn [process_insertion]. unfold get_insertion_action. cbn [nkids]. rewrite <- EA. cbn [a_name].
        destruct (k (node_new key None)) as [n' st]. cbn [fst snd]. destruct (str_eqb key s_star); reflexivity.
      + intros k err. cbn [process_text]. unfold get_insertion_action. cbn [nkids]. rewrite <- EA. reflexivity.
      + intros u. unfold node_new. rewrite leaf_spot. split; [auto|]. intros [->|S]; [reflexivity|]. exfalso.
        apply (passed_not (Node nk nv cs) key _ R A NK S). exists u. reflexivity.
      + intros m' Km. cbn [node_new nkey] in Km. split; [reflexivity|].
        assert (IN : forall d, In d (if str_eqb key s_star then cs ++ [m'] else m' :: cs) <-> d = m' \/ In d cs).
        { intros d. destruct (str_eqb key s_star); [rewrite in_app_iff; cbn [In]|cbn [In]]; intuition auto. }
        split; [|split].
        * intros w S. apply spot_kid in S as [->|(d & u & I & -> & S)].
          -- right. split; [intros [r E]; destruct key; [congruence|discriminate]|]. left. apply spot_here.
          -- cbn [nkids] in I. apply IN in I as [->|I]; [left; exists u; rewrite Km; auto|]. right.
             assert (S' : spot (Node nk nv cs) (nkey d ++ u)) by (apply spot_kid; right; exists d, u; auto).
             split; [exact (passed_not _ _ _ R A NK S')|auto].
        * intros u S. apply spot_kid. right. exists m', u. cbn [nkids]. rewrite IN. rewrite Km. auto.
        * intros w _ S. apply spot_kid in S as [->|(d & u & I & -> & S)]; [apply spot_here|]. apply spot_kid. right. exists d, u.
          cbn [nkids] in *. rewrite IN. auto.
    - (* ambiguous *)
      left. destruct (refusal key cs 0 0 j (eq_sym EA)) as (l1 & d & l2 & Ecs & Ej & N & Q). cbn [Nat.add] in Ej. subst j.
      exists [], key, (nkey d). split; [reflexivity|]. split; [exact NK|]. split; [exact N|]. split; [exact Q|]. split; [|split].
      + exists (Node nk nv cs), d. split; [apply bl_here|]. split; [|reflexivity]. cbn [nkids]. rewrite Ecs. apply in_elt.
      + intros k. cbn [process_insertion]. unfold get_insertion_action. cbn [nkids]. rewrite <- EA. reflexivity.
      + intros k err. cbn [process_text]. unfold get_insertion_action. cbn [nkids]. rewrite <- EA. cbn [a_name a_index].
        rewrite Ecs, at_nth_at. reflexivity.
    - (* the next node *)
      right. subst cs. assert (IC : In c (l1 ++ c :: l2)) by apply in_elt.
      exists (fun x => with_kids (Node nk nv (l1 ++ c :: l2)) (l1 ++ x :: l2)), c.
      split; [|split; [|split; [exact (proj2 (K c IC))|split; [|split; [intros u v (x & X & V); exists x; split; [rewrite <- B; apply bl_kid; assumption|exact V]|]]]]].
      + intros k. cbn [process_insertion]. unfold get_insertion_action. cbn [nkids]. rewrite <- EA. cbn [a_name a_index Nat.add].
        rewrite upd_nth_at. reflexivity.
      + intros k err. cbn [process_text]. unfold get_insertion_action. cbn [nkids]. rewrite <- EA. cbn [a_name a_index Nat.add].
        apply at_nth_at.
      + intros u. split.
        * intros S. right. apply spot_kid. right. exists c, u. rewrite B. auto.
        * intros [->|S]; [apply spot_here|]. rewrite <- B in S.
          destruct (spot_through (Node nk nv (l1 ++ c :: l2)) c _ R IC (head_app _ _ (NE c IC)) S) as (u' & E & S').
          apply app_inv_head in E. subst u'. exact S'.
      + intros m' Km. split; [reflexivity|]. assert (Nm : nkey m' <> []) by (rewrite Km; exact (NE c IC)).
        split; [|split].
        * intros w S. apply (spot_replace (Node nk nv (l1 ++ c :: l2)) l1 c l2 m' w R eq_refl Nm) in S as [[S Hd]|(u & -> & S)].
          -- right. split; [|auto]. intros P. apply Hd. rewrite B. apply prefix_head; assumption.
          -- left. exists u. rewrite Km, B. auto.
        * intros u S. apply (spot_replace (Node nk nv (l1 ++ c :: l2)) l1 c l2 m' _ R eq_refl Nm). right. exists u. rewrite Km, B. auto.
        * intros w NP S. apply (spot_replace (Node nk nv (l1 ++ c :: l2)) l1 c l2 m' _ R eq_refl Nm). left. split; [exact S|].
          intros Hd. destruct (spot_through (Node nk nv (l1 ++ c :: l2)) c _ R IC Hd S) as (u & -> & _). apply NP. exists u. rewrite B. reflexivity.
    - (* further down *)
      subst cs. assert (IC : In c (l1 ++ c :: l2)) by apply in_elt.
      assert (SF : slice_from key (blen (nkey c)) = Some y) by (rewrite B; apply slice_from_app).
      destruct (IH c IC y (proj2 (K c IC)) C) as [(v & a' & b & E1 & E2 & E3 & E4 & (x & d & X1 & X2 & X3) & E6 & E7)|(fill & m & P1 & P2 & Rm & Sm & Vm & PF)].
      + left. exists (nkey c ++ v), a', b. split; [rewrite B, E1, app_assoc; reflexivity|]. split; [exact E2|]. split; [exact E3|].
        split; [exact E4|]. split; [|split].
        * exists x, d. split; [apply bl_kid; assumption|auto].
        * intros k. cbn [process_insertion]. unfold get_insertion_action. cbn [nkids]. rewrite <- EA. cbn [a_name a_index a_count Nat.add].
          rewrite SF, upd_nth_at, E6. reflexivity.
        * intros k err. cbn [process_text]. unfold get_insertion_action. cbn [nkids]. rewrite <- EA. cbn [a_name a_index a_count Nat.add].
          rewrite SF, at_nth_at. apply E7.
      + right. exists (fun x => with_kids (Node nk nv (l1 ++ c :: l2)) (l1 ++ fill x :: l2)), m.
        assert (DOWN : forall u, spot (Node nk nv (l1 ++ c :: l2)) (nkey c ++ u) <-> spot c u).
        { intros u. split.
          - intros S. destruct (spot_through (Node nk nv (l1 ++ c :: l2)) c _ R IC (head_app _ _ (NE c IC)) S) as (u' & E & S').
            apply app_inv_head in E. subst u'. exact S'.
          - intros S. apply spot_kid. right. exists c, u. auto. }
        split; [|split; [|split; [exact Rm|split; [|split]]]].
        * intros k. cbn [process_insertion]. unfold get_insertion_action. cbn [nkids]. rewrite <- EA. cbn [a_name a_index a_count Nat.add].
          rewrite SF, upd_nth_at, P1. reflexivity.
        * intros k err. cbn [process_text]. unfold get_insertion_action. cbn [nkids]. rewrite <- EA. cbn [a_name a_index a_count Nat.add].
          rewrite SF, at_nth_at. apply P2.
        * intros u. rewrite (Sm u), B, <- app_assoc, DOWN. reflexivity.
        * intros u v V. destruct (Vm u v V) as (x & X & V'). exists x. split; [rewrite B, <- app_assoc; apply bl_kid; assumption|exact V'].
        * intros m' Km. split; [reflexivity|]. destruct (PF m' Km) as (F1 & F2 & F3 & F4).
          assert (Nf : nkey (fill m') <> []) by (rewrite F1; exact (NE c IC)).
          split; [|split].
          -- intros w S. apply (spot_replace (Node nk nv (l1 ++ c :: l2)) l1 c l2 _ w R eq_refl Nf) in S as [[S Hd]|(u & -> & S)].
             ++ right. split; [|auto]. intros P. apply Hd. rewrite (prefix_head _ _ NK P), B. apply head_app. exact (NE c IC).
             ++ rewrite F1. apply F2 in S as [(u' & -> & S)|[NP S]].
                ** left. exists u'. rewrite B, <- app_assoc. auto.
                ** right. split.
                   { intros [r E]. apply NP. exists r. rewrite B, <- app_assoc in E. apply app_inv_head in E. exact E. }
                   destruct S as [S|(y' & r & x' & r' & -> & N & S)]; [left; apply DOWN; exact S|right].
                   exists y', r, x', r'. split; [rewrite B, app_assoc; reflexivity|]. split; [exact N|]. rewrite <- app_assoc. apply DOWN. exact S.
          -- intros u S. apply (spot_replace (Node nk nv (l1 ++ c :: l2)) l1 c l2 _ _ R eq_refl Nf). right. exists (y ++ u).
             split; [rewrite F1, B, app_assoc; reflexivity|]. apply F3. exact S.
          -- intros w NP S. apply (spot_replace (Node nk nv (l1 ++ c :: l2)) l1 c l2 _ _ R eq_refl Nf).
             destruct (option_map_dec (hd_error w) (hd_error (nkey c))) as [Hd|Hd]; [right|auto].
             destruct (spot_through (Node nk nv (l1 ++ c :: l2)) c _ R IC Hd S) as (u & -> & S'). exists u. split; [rewrite F1; reflexivity|].
             apply F4; [|exact S']. intros [r ->]. apply NP. exists r. rewrite B, app_assoc. reflexivity.
    - (* a node is split *)
      subst cs. assert (IC : In c (l1 ++ c :: l2)) by apply in_elt.
      assert (SF1 : slice_from (nkey c) (blen w) = Some x) by (rewrite B; apply slice_from_app).
      assert (SF2 : slice_from key (blen w) = Some y) by (rewrite C; apply slice_from_app).
      assert (SF3 : slice_to key (blen w) = Some w) by (rewrite C; apply slice_to_app).
      set (inter := Node x (nval c) (nkids c)).
      assert (RI : radix inter) by (apply (radix_same c); [reflexivity|exact (proj2 (K c IC))]).
      assert (SI : forall u, spot inter u <-> spot c u) by (intros u; rewrite !spot_kid; reflexivity).
      assert (RO : forall v, radix (Node w v [inter])).
      { intros v. split; cbn [nkids]; [intros d [<-|[]]; split; [exact E'|exact RI]|cbn [map]; constructor; [intros []|constructor]]. }
      assert (DOWN : forall u, spot (Node nk nv (l1 ++ c :: l2)) (w ++ u) -> u <> [] -> w <> [] -> exists u', u = x ++ u' /\ spot c u').
      { intros u S Nu Nw. destruct (spot_through (Node nk nv (l1 ++ c :: l2)) c (w ++ u) R IC) as (u' & E & S'); [|exact S|].
        - rewrite B, !head_app by assumption. reflexivity.
        - rewrite B, <- app_assoc in E. apply app_inv_head in E. exists u'. auto. }
      assert (UP : forall u, spot c u -> spot (Node nk nv (l1 ++ c :: l2)) (w ++ x ++ u)).
      { intros u S. apply spot_kid. right. exists c, u. split; [exact IC|]. split; [rewrite B, app_assoc; reflexivity|exact S]. }
      assert (HW : hd_error (nkey c) = hd_error w) by (rewrite B; apply head_app; exact D').
      right. destruct y as [|y0 y].
      + rewrite app_nil_r in C. subst w. exists (fun z => with_kids (Node nk nv (l1 ++ c :: l2)) (l1 ++ z :: l2)), (Node key None [inter]).
        split; [|split; [|split; [apply RO|split; [|split]]]].
        * intros k. cbn [process_insertion]. unfold get_insertion_action. cbn [nkids]. rewrite <- EA. cbn [a_name a_index a_count Nat.add].
          rewrite upd_nth_at, SF1, SF2, SF3. cbn [is_empty]. reflexivity.
        * intros k err. cbn [process_text]. unfold get_insertion_action. cbn [nkids]. rewrite <- EA. cbn [a_name a_index a_count Nat.add].
          rewrite at_nth_at, SF1, SF2, SF3. cbn [is_empty]. reflexivity.
        * intros u. rewrite spot_kid. cbn [nkids]. split.
          -- intros [->|(d & u' & [<-|[]] & -> & S)]; [auto|right]. cbn [nkey inter]. apply UP, SI, S.
          -- intros [->|S]; [auto|]. destruct u as [|u0 u]; [auto|right]. destruct (DOWN (u0 :: u) S ltac:(discriminate) NK) as (u' & E & S').
             exists inter, u'. split; [left; reflexivity|]. split; [exact E|]. apply SI. exact S'.
        * intros u v V. destruct u as [|u0 u]; [apply vals_nil in V; [discriminate|apply RO]|].
          apply vals_kid in V; [|discriminate]. destruct V as (d & u' & [<-|[]] & -> & z & Z & V). cbn [nkey inter].
          assert (VC : vals c u' v).
          { destruct u' as [|u1 u'].
            - apply vals_nil; [exact (proj2 (K c IC))|]. assert (V0 : vals inter [] v) by (exists z; auto). apply vals_nil in V0; [exact V0|exact RI].
            - apply vals_kid; [discriminate|]. assert (V0 : vals inter (u1 :: u') v) by (exists z; auto). apply vals_kid in V0; [exact V0|discriminate]. }
          apply vals_kid; [destruct key; [congruence|discriminate]|]. exists c, u'. split; [exact IC|]. split; [rewrite B, <- app_assoc; reflexivity|exact VC].
        * intros m' Km. cbn [nkey] in Km. split; [reflexivity|]. assert (Nm : nkey m' <> []) by (rewrite Km; exact NK).
          split; [|split].
          -- intros w S. apply (spot_replace (Node nk nv (l1 ++ c :: l2)) l1 c l2 m' w R eq_refl Nm) in S as [[S Hd]|(u & -> & S)].
             ++ right. split; [|auto]. intros P. apply Hd. rewrite HW. apply prefix_head; assumption.
             ++ left. exists u. rewrite Km. auto.
          -- intros u S. apply (spot_replace (Node nk nv (l1 ++ c :: l2)) l1 c l2 m' _ R eq_refl Nm). right. exists u. rewrite Km. auto.
          -- intros w NP S. apply (spot_replace (Node nk nv (l1 ++ c :: l2)) l1 c l2 m' _ R eq_refl Nm). left. split; [exact S|].
             intros Hd. destruct (spot_through (Node nk nv (l1 ++ c :: l2)) c _ R IC Hd S) as (u & -> & _). apply NP. exists (x ++ u).
             rewrite B, app_assoc. reflexivity.
      + destruct F' as [F'|F']; [discriminate|].
        exists (fun z => with_kids (Node nk nv (l1 ++ c :: l2)) (l1 ++ Node w None [z; inter] :: l2)), (node_new (y0 :: y) None).
        assert (NOKEY : forall u, spot (Node nk nv (l1 ++ c :: l2)) (key ++ u) -> False).
        { intros u S. rewrite C, <- app_assoc in S. destruct (DOWN ((y0 :: y) ++ u) S ltac:(discriminate) D') as (u' & E & _).
          apply F'. rewrite <- (head_app x u' E'), <- E. reflexivity. }
        split; [|split; [|split; [apply radix_leaf|split; [|split; [intros u v V; destruct (vals_leaf _ _ _ V)|]]]]].
        * intros k. cbn [process_insertion]. unfold get_insertion_action. cbn [nkids]. rewrite <- EA. cbn [a_name a_index a_count Nat.add].
          rewrite upd_nth_at, SF1, SF2, SF3. cbn [is_empty]. destruct (k (node_new (y0 :: y) None)). reflexivity.
        * intros k err. cbn [process_text]. unfold get_insertion_action. cbn [nkids]. rewrite <- EA. cbn [a_name a_index a_count Nat.add].
          rewrite at_nth_at, SF1, SF2, SF3. cbn [is_empty]. reflexivity.
        * intros u. unfold node_new. rewrite leaf_spot. split; [auto|]. intros [->|S]; [reflexivity|]. destruct (NOKEY u S).
        * intros m' Km. cbn [nkey node_new] in Km. split; [reflexivity|].
          assert (SN : forall u, spot (Node w None [m'; inter]) u <-> u = [] \/ (exists u', u = (y0 :: y) ++ u' /\ spot m' u') \/ exists u', u = x ++ u' /\ spot c u').
          { intros u. rewrite spot_kid. cbn [nkids]. split.
            - intros [->|(d & u' & [<-|[<-|[]]] & -> & S)]; [auto| |].
              + right. left. exists u'. rewrite Km. auto.
              + right. right. exists u'. split; [reflexivity|]. apply SI. exact S.
            - intros [->|[(u' & -> & S)|(u' & -> & S)]]; [auto| |]; right.
              + exists m', u'. split; [left; reflexivity|]. rewrite Km. auto.
              + exists inter, u'. split; [right; left; reflexivity|]. split; [reflexivity|]. apply SI. exact S. }
          split; [|split].
          -- intros z S. apply (spot_replace (Node nk nv (l1 ++ c :: l2)) l1 c l2 (Node w None [m'; inter]) z R eq_refl D') in S as [[S Hd]|(u & -> & S)].
             ++ right. split; [|auto]. intros P. apply (NOKEY (skipn (List.length key) z)). destruct P as [r ->]. rewrite skipn_app, skipn_all, Nat.sub_diag.
                cbn [skipn app]. exact S.
             ++ cbn [nkey]. apply SN in S as [->|[(u' & -> & S)|(u' & -> & S)]].
                ** right. rewrite app_nil_r. split.
                   { intros [r E]. rewrite C, <- app_assoc in E. rewrite <- (app_nil_r w) in E at 1. apply app_inv_head in E. discriminate. }
                   right. destruct x as [|x0 x]; [congruence|]. exists y0, y, x0, x. split; [exact C|]. split; [intros ->; apply F'; reflexivity|].
                   pose proof (UP [] (spot_here c)) as S. rewrite app_nil_r in S. exact S.
                ** left. exists u'. split; [rewrite C, app_assoc; reflexivity|exact S].
                ** right. pose proof (UP u' S) as S'. split; [|auto]. intros [r E]. rewrite E in S'. exact (NOKEY r S').
          -- intros u S. apply (spot_replace (Node nk nv (l1 ++ c :: l2)) l1 c l2 (Node w None [m'; inter]) _ R eq_refl D'). right.
             exists ((y0 :: y) ++ u). split; [cbn [nkey]; rewrite C, app_assoc; reflexivity|]. apply SN. right. left. exists u. auto.
          -- intros z NP S. apply (spot_replace (Node nk nv (l1 ++ c :: l2)) l1 c l2 (Node w None [m'; inter]) _ R eq_refl D').
             destruct (option_map_dec (hd_error z) (hd_error (nkey c))) as [Hd|Hd]; [right|auto].
             destruct (spot_through (Node nk nv (l1 ++ c :: l2)) c _ R IC Hd S) as (u & -> & S'). exists (x ++ u).
             split; [cbn [nkey]; rewrite B, app_assoc; reflexivity|]. apply SN. right. right. exists u. auto.
  Qed.
End Spots.
