(** The trie as a radix tree of texts, for any accepted calls. *)

From Verif Require Import Base BaseFacts RouteTrie Router TableSpec PropSpec TextSpec TrieDen TrieRep TrieBuild TrieSearch TrieLookup TrieTotal OwnPath.

Section Text.
  Context {H M : Type}.
  Notation node := (node H M).

  (** ** Nodes by text *)

  Inductive below : node -> str -> node -> Prop :=
  | bl_here n : below n [] n
  | bl_kid n c w m : In c (nkids n) -> below c w m -> below n (nkey c ++ w) m.

  Definition vals (n : node) (w : str) (v : rvalue H M) : Prop := exists m, below n w m /\ nval m = Some v.

  Inductive radix (n : node) : Prop :=
  | radix_intro : (forall c, In c (nkids n) -> nkey c <> [] /\ radix c) ->
      NoDup (map (fun c => hd_error (nkey c)) (nkids n)) -> radix n.

  Lemma nodup_map_eq {A B} (f : A -> B) l a b : NoDup (map f l) -> In a l -> In b l -> f a = f b -> a = b.
  Proof.
    induction l as [|x l IH]; intros N I J E; [contradiction|]. cbn [map] in N. inversion N as [|? ? NI N']; subst.
    destruct I as [->|I], J as [->|J]; auto.
    - exfalso. apply NI. rewrite E. apply in_map. exact J.
    - exfalso. apply NI. rewrite <- E. apply in_map. exact I.
  Qed.

  Lemma kid_unique (n : node) c d : radix n -> In c (nkids n) -> In d (nkids n) ->
    hd_error (nkey c) = hd_error (nkey d) -> c = d.
  Proof. intros [_ N] I J E. exact (nodup_map_eq _ _ _ _ N I J E). Qed.

  Lemma option_map_dec (a b : option char) : {a = b} + {a <> b}.
  Proof. decide equality. apply N.eq_dec. Qed.

  Lemma prefix_str_dec (a b : str) : prefix a b \/ ~ prefix a b.
  Proof.
    revert b. induction a as [|x a IH]; intros b; [left; exists b; reflexivity|]. destruct b as [|y b]; [right; intros [r E]; discriminate|].
    destruct (N.eq_dec x y) as [->|N]; [|right; intros [r E]; injection E as -> _; congruence].
    destruct (IH b) as [[r ->]|N]; [left; exists r; reflexivity|right]. intros [r E]. apply N. exists r. injection E as ->. reflexivity.
  Qed.

  Lemma head_app (a b : str) : a <> [] -> hd_error (a ++ b) = hd_error a.
  Proof. destruct a; [congruence|reflexivity]. Qed.

  Lemma vals_nil (n : node) v : radix n -> vals n [] v <-> nval n = Some v.
  Proof.
    intros [K _]. split.
    - intros (m & B & E). inversion B as [|? c w ? I B' E']; subst; [exact E|]. exfalso. destruct (K c I) as [N _].
      destruct (nkey c); [congruence|discriminate].
    - intros E. exists n. split; [apply bl_here|exact E].
  Qed.

  Lemma vals_kid (n : node) w v : w <> [] ->
    vals n w v <-> exists c u, In c (nkids n) /\ w = nkey c ++ u /\ vals c u v.
  Proof.
    intros N. split.
    - intros (m & B & E). inversion B as [|? c u ? I B' E']; subst; [congruence|]. exists c, u. split; [exact I|]. split; [reflexivity|].
      exists m. auto.
    - intros (c & u & I & -> & m & B & E). exists m. split; [apply bl_kid; assumption|exact E].
  Qed.

  (** The kid through which a text leads. *)
  Lemma vals_through (n c : node) x u v : radix n -> In c (nkids n) -> x <> [] -> hd_error (nkey c) = hd_error x ->
    vals n (x ++ u) v -> exists u', x ++ u = nkey c ++ u' /\ vals c u' v.
  Proof.
    intros R I N E V. apply vals_kid in V; [|destruct x; [congruence|discriminate]]. destruct V as (d & u' & J & Eq & V).
    assert (c = d) as <-.
    { apply (kid_unique n); auto. destruct R as [K _]. destruct (K d J) as [Nd _].
      rewrite E, <- (head_app x u N), Eq. apply head_app. exact Nd. }
    exists u'. auto.
  Qed.

  (** ** One insertion *)

  Definition radixes (k : node -> upd node) : Prop := forall m, radix m -> radix (fst (k m)) /\ nkey (fst (k m)) = nkey m.

  Lemma radix_leaf k v : radix (Node k v []).
  Proof. split; [intros c []|constructor]. Qed.

  Lemma vals_leaf k u v : ~ vals (Node k None []) u v.
  Proof.
    intros V. destruct u as [|a u]; [apply vals_nil in V; [discriminate|apply radix_leaf]|].
    apply vals_kid in V; [|discriminate]. destruct V as (c & ? & [] & _).
  Qed.

  Lemma radix_same n n' : nkids n = nkids n' -> radix n -> radix n'.
  Proof. intros E [A B]. rewrite E in A, B. split; assumption. Qed.

  Lemma radix_kid (n : node) l1 c l2 : radix n -> nkids n = l1 ++ c :: l2 -> nkey c <> [] /\ radix c.
  Proof. intros [A _] E. apply A. rewrite E. apply in_elt. Qed.

  Lemma radix_replace (n : node) l1 c l2 c' : radix n -> nkids n = l1 ++ c :: l2 -> radix c' -> nkey c' <> [] ->
    hd_error (nkey c') = hd_error (nkey c) -> radix (with_kids n (l1 ++ c' :: l2)).
  Proof.
    intros [A B] E R N HD. split; cbn [nkids with_kids].
    - intros d I. apply in_app_or in I as [I|[<-|I]]; [|auto|]; apply A; rewrite E; apply in_or_app; auto. right. right. exact I.
    - rewrite E in B. rewrite map_app in *. cbn [map] in *. rewrite HD. exact B.
  Qed.

  (** Replacing a kid changes only the texts that start like its key. *)
  Lemma vals_replace (n : node) l1 c l2 c' w v : radix n -> nkids n = l1 ++ c :: l2 -> radix c' -> nkey c' <> [] ->
    hd_error (nkey c') = hd_error (nkey c) ->
    (vals (with_kids n (l1 ++ c' :: l2)) w v <->
     (vals n w v /\ hd_error w <> hd_error (nkey c)) \/ exists u, w = nkey c' ++ u /\ vals c' u v).
  Proof.
    intros R E R' N HD. destruct (radix_kid _ _ _ _ R E) as [Nc Rc].
    pose proof (radix_replace n l1 c l2 c' R E R' N HD) as R2.
    destruct w as [|x w].
    - rewrite !vals_nil by assumption. cbn [nval with_kids]. split.
      + intros V. left. split; [exact V|]. destruct (nkey c); [congruence|discriminate].
      + intros [[V _]|(u & Eq & _)]; [exact V|]. destruct (nkey c'); [congruence|discriminate].
    - assert (X : x :: w <> []) by discriminate. rewrite !vals_kid by exact X. cbn [nkids with_kids]. split.
      + intros (d & u & I & Eq & V). apply in_app_or in I as [I|[<-|I]].
        * left. split; [exists d, u; rewrite E; split; [apply in_or_app; auto|auto]|]. rewrite Eq.
          destruct R as [A B]. assert (Id : In d (nkids n)) by (rewrite E; apply in_or_app; auto). destruct (A d Id) as [Nd _].
          rewrite head_app by exact Nd. intros Hd. rewrite E, map_app in B. cbn [map] in B. apply NoDup_remove_2 in B.
          apply B. rewrite <- Hd. apply in_or_app. left. apply (in_map (fun c => hd_error (nkey c))). exact I.
        * right. exists u. auto.
        * left. split; [exists d, u; rewrite E; split; [apply in_or_app; right; right; exact I|auto]|]. rewrite Eq.
          destruct R as [A B]. assert (Id : In d (nkids n)) by (rewrite E; apply in_or_app; right; right; exact I). destruct (A d Id) as [Nd _].
          rewrite head_app by exact Nd. intros Hd. rewrite E, map_app in B. cbn [map] in B. apply NoDup_remove_2 in B.
          apply B. rewrite <- Hd. apply in_or_app. right. apply (in_map (fun c => hd_error (nkey c))). exact I.
      + intros [[(d & u & I & Eq & V) ND]|(u & Eq & V)].
        * exists d, u. split; [|auto]. rewrite E in I. apply in_app_or in I as [I|[<-|I]].
          -- apply in_or_app. auto.
          -- exfalso. apply ND. rewrite Eq. apply head_app. exact Nc.
          -- apply in_or_app. right. right. exact I.
        * exists c', u. split; [apply in_elt|auto].
  Qed.

  Lemma prefix_head (x w : str) : x <> [] -> prefix x w -> hd_error w = hd_error x.
  Proof. intros N [r ->]. apply head_app. exact N. Qed.

  Definition splice (key : str) (n n' m m' : node) : Prop :=
    radix m /\ (forall u v, vals m u v <-> vals n (key ++ u) v) /\ radix n' /\
    forall w v, vals n' w v <-> (~ prefix key w /\ vals n w v) \/ exists u, w = key ++ u /\ vals m' u v.

  (** [k] is applied to the part of the tree below the text [key]. *)
  Lemma process_splice n : forall key k, radix n -> key <> [] -> radixes k ->
    (exists m, snd (process_insertion n key k) = snd (k m) /\ splice key n (fst (process_insertion n key k)) m (fst (k m))) \/
    process_insertion n key k = (n, Some PAmbiguous).
  Proof.
    induction n as [nk nv cs IH] using node_ind'. rewrite Forall_forall in IH. intros key k R G K.
    set (n := Node nk nv cs) in *.
    assert (NE : forall d, In d (nkids n) -> nkey d <> []) by (destruct R as [A _]; intros d I; exact (proj1 (A d I))).
    pose proof (process_shape n key k G NE) as S. destruct S as [|P C|l1 c l2 E1 E2 P C|l1 c l2 y E1 E2 Y P Q R1|l1 c l2 x E1 E2 X P Q R1 r|l1 c l2 w x y E1 E2 E3 W X Y D P Q R1 r];
      cbn [fst snd].
    - right. reflexivity.
    - left. exists (node_new key None). split; [reflexivity|]. destruct (K (node_new key None) (radix_leaf _ _)) as [K1 K2]. cbn [nkey node_new] in K2.
      set (new := fst (k (node_new key None))) in *.
      assert (NV : forall u v, ~ vals n (key ++ u) v).
      { intros u v V. apply vals_kid in V; [|destruct key; [congruence|discriminate]]. destruct V as (d & u' & I & Eq & _).
        destruct (P d I) as [_ Hd]. apply Hd. rewrite <- (head_app key u G), Eq. symmetry. apply head_app. exact (NE d I). }
      assert (PM : Permutation (nkids (with_kids n (if str_eqb key s_star then nkids n ++ [new] else new :: nkids n))) (new :: nkids n)).
      { cbn [nkids with_kids]. destruct (str_eqb key s_star); [|apply Permutation_refl]. symmetry. apply Permutation_cons_append. }
      set (n' := with_kids n _) in *.
      assert (Rn : radix n').
      { destruct R as [A B]. split.
        - intros d I. apply (Permutation_in _ PM) in I. destruct I as [<-|I]; [rewrite K2; auto|exact (A d I)].
        - apply (Permutation_NoDup (Permutation_map _ (Permutation_sym PM))). cbn [map]. constructor; [|exact B].
          rewrite K2. intros I. apply in_map_iff in I as (d & Eq & I). destruct (P d I). congruence. }
      split; [apply radix_leaf|]. split.
      { intros u v. split; [|intros V; exfalso; exact (NV u v V)]. intros V. destruct (vals_leaf _ _ _ V). }
      split; [exact Rn|]. intros w v. destruct w as [|a w].
      + rewrite !vals_nil by assumption. cbn [nval n' with_kids]. split.
        * intros V. left. split; [|exact V]. intros [z Eq]. destruct key; [congruence|discriminate].
        * intros [[_ V]|(u & Eq & _)]; [exact V|]. destruct key; [congruence|discriminate].
      + assert (NW : a :: w <> []) by discriminate. rewrite !vals_kid by exact NW. split.
        * intros (d & u & I & Eq & V). apply (Permutation_in _ PM) in I. destruct I as [<-|I].
          -- right. exists u. rewrite Eq, K2. auto.
          -- left. split; [|exists d, u; auto]. intros PX. apply (prefix_head _ _ G) in PX.
             destruct (P d I) as [_ Hd]. apply Hd. rewrite <- PX, Eq. symmetry. apply head_app. exact (NE d I).
        * intros [[_ (d & u & I & Eq & V)]|(u & Eq & V)].
          -- exists d, u. split; [apply (Permutation_in _ (Permutation_sym PM)); right; exact I|auto].
          -- exists new, u. split; [apply (Permutation_in _ (Permutation_sym PM)); left; reflexivity|]. rewrite K2. auto.
    - left. exists c. split; [reflexivity|]. destruct (radix_kid _ _ _ _ R E1) as [Nc Rc]. destruct (K c Rc) as [K1 K2].
      assert (Ic : In c (nkids n)) by (rewrite E1; apply in_elt).
      split; [exact Rc|]. split.
      { intros u v. rewrite <- E2. split; [intros V; apply vals_kid; [destruct (nkey c); [congruence|discriminate]|exists c, u; auto]|].
        intros V. apply (vals_through n c (nkey c) u v R Ic Nc eq_refl) in V as (u' & Eq & V). apply app_inv_head in Eq. subst u'. exact V. }
      split; [apply (radix_replace n l1 c l2 _ R E1 K1); rewrite K2; [exact Nc|reflexivity]|].
      intros w v. rewrite (vals_replace n l1 c l2 (fst (k c)) w v R E1 K1); [|rewrite K2; exact Nc|rewrite K2; reflexivity].
      rewrite K2, E2. split.
      + intros [[V Hd]|V]; [|right; exact V]. left. split; [|exact V]. intros PX. apply Hd. apply (prefix_head _ _ G PX).
      + intros [[NP V]|V]; [|right; exact V]. left. split; [exact V|]. intros Hd. apply NP.
        destruct w as [|a w]; [destruct key; [congruence|discriminate]|].
        apply vals_kid in V; [|discriminate]. destruct V as (d & u & I & Eq & V).
        assert (d = c) as -> by (apply (kid_unique n); auto; rewrite E2, <- Hd, Eq; symmetry; apply head_app; exact (NE d I)).
        exists u. rewrite Eq, E2. reflexivity.
    - destruct (radix_kid _ _ _ _ R E1) as [Nc Rc]. assert (Ic : In c (nkids n)) by (rewrite E1; apply in_elt).
      destruct (IH c Ic y k Rc Y K) as [(m & Sm & Rm & Vm & R' & V')|ER].
      2: { right. rewrite ER. cbn [fst snd]. unfold with_kids. rewrite <- E1. reflexivity. }
      left. exists m. split; [exact Sm|].
      assert (KK : nkey (fst (process_insertion c y k)) = nkey c).
      { assert (NEc : forall d, In d (nkids c) -> nkey d <> []) by (destruct Rc as [A _]; intros d I; exact (proj1 (A d I))).
        destruct (process_shape c y k Y NEc); reflexivity. }
      split; [exact Rm|]. split.
      { intros u v. rewrite Vm, E2, <- app_assoc. split.
        - intros V. apply vals_kid; [destruct (nkey c); [congruence|discriminate]|exists c, (y ++ u); auto].
        - intros V. apply (vals_through n c (nkey c) _ v R Ic Nc eq_refl) in V as (u' & Eq & V). apply app_inv_head in Eq. subst u'. exact V. }
      split; [apply (radix_replace n l1 c l2 _ R E1 R'); rewrite KK; [exact Nc|reflexivity]|].
      intros w v. rewrite (vals_replace n l1 c l2 _ w v R E1 R'); [|rewrite KK; exact Nc|rewrite KK; reflexivity].
      rewrite KK, E2. split.
      + intros [[V Hd]|(u & -> & V)].
        * left. split; [|exact V]. intros PX. apply Hd. rewrite <- (head_app _ y Nc). apply prefix_head; [rewrite <- E2; exact G|exact PX].
        * apply V' in V as [[NP V]|(u' & -> & V)].
          -- left. split; [|apply vals_kid; [destruct (nkey c); [congruence|discriminate]|exists c, u; auto]].
             intros [z Eq]. apply NP. exists z. rewrite <- app_assoc in Eq. apply app_inv_head in Eq. exact Eq.
          -- right. exists u'. rewrite app_assoc. auto.
      + intros [[NP V]|(u & -> & V)].
        * destruct w as [|a w]; [left; split; [exact V|destruct (nkey c); [congruence|discriminate]]|].
          apply vals_kid in V; [|discriminate]. destruct V as (d & u & I & Eq & V). rewrite Eq in *.
          destruct (option_map_dec (hd_error (nkey d)) (hd_error (nkey c))) as [Hd|Hd].
          -- assert (d = c) as -> by (apply (kid_unique n); auto). right. exists u. split; [reflexivity|]. apply V'. left. split; [|exact V].
             intros [z Ez]. apply NP. exists z. rewrite Ez, app_assoc. reflexivity.
          -- left. split; [|rewrite head_app by exact (NE d I); exact Hd]. apply vals_kid; [rewrite <- Eq; discriminate|exists d, u; auto].
        * right. exists (y ++ u). rewrite app_assoc. split; [reflexivity|]. apply V'. right. exists u. auto.
    - destruct (radix_kid _ _ _ _ R E1) as [Nc Rc]. assert (Ic : In c (nkids n)) by (rewrite E1; apply in_elt).
      set (inter := Node x (nval c) (nkids c)) in *. set (m := Node key None [inter]) in *.
      assert (Ri : radix inter) by (apply (radix_same c); [reflexivity|exact Rc]).
      assert (Vi : forall u v, vals inter u v <-> vals c u v).
      { intros u v. destruct u as [|a u]; [rewrite !vals_nil by assumption; reflexivity|]. rewrite !vals_kid by discriminate. reflexivity. }
      assert (Rm : radix m).
      { split; cbn [nkids m].
        - intros d [<-|[]]. auto.
        - constructor; [intros []|constructor]. }
      left. exists m. split; [reflexivity|]. destruct (K m Rm) as [K1 K2]. cbn [nkey m] in K2. fold r in K1, K2.
      assert (HD : hd_error key = hd_error (nkey c)) by (rewrite E2, head_app by exact G; reflexivity).
      split; [exact Rm|]. split.
      { intros u v. split.
        - intros V. destruct u as [|a u]; [apply vals_nil in V; [discriminate|exact Rm]|]. apply vals_kid in V; [|discriminate].
          destruct V as (d & u' & [<-|[]] & Eq & V). cbn [nkey inter] in Eq. rewrite Eq, app_assoc, <- E2.
          apply vals_kid; [destruct (nkey c); [congruence|discriminate]|]. exists c, u'. split; [exact Ic|]. split; [reflexivity|]. apply Vi. exact V.
        - intros V. apply (vals_through n c key u v R Ic G) in V; [|auto]. destruct V as (u' & Eq & V).
          rewrite E2, <- app_assoc in Eq. apply app_inv_head in Eq. subst u. apply vals_kid; [destruct x; [congruence|discriminate]|].
          exists inter, u'. split; [left; reflexivity|]. split; [reflexivity|]. apply Vi. exact V. }
      split; [apply (radix_replace n l1 c l2 _ R E1 K1); rewrite K2; auto|].
      intros w v. fold r. rewrite (vals_replace n l1 c l2 (fst r) w v R E1 K1); [|rewrite K2; exact G|rewrite K2; exact HD].
      rewrite K2. split.
      + intros [[V Hd]|V]; [|right; exact V]. left. split; [|exact V]. intros PX. apply Hd. rewrite <- HD. apply (prefix_head _ _ G PX).
      + intros [[NP V]|V]; [|right; exact V]. left. split; [exact V|]. intros Hd. apply NP.
        destruct w as [|a w]; [destruct (nkey c); [congruence|discriminate]|].
        apply vals_kid in V; [|discriminate]. destruct V as (d & u & I & Eq & V).
        assert (d = c) as -> by (apply (kid_unique n); auto; rewrite <- Hd, Eq; symmetry; apply head_app; exact (NE d I)).
        exists (x ++ u). rewrite Eq, E2, app_assoc. reflexivity.
    - destruct (radix_kid _ _ _ _ R E1) as [Nc Rc]. assert (Ic : In c (nkids n)) by (rewrite E1; apply in_elt).
      set (inter := Node x (nval c) (nkids c)) in *.
      assert (Ri : radix inter) by (apply (radix_same c); [reflexivity|exact Rc]).
      assert (Vi : forall u v, vals inter u v <-> vals c u v).
      { intros u v. destruct u as [|a u]; [rewrite !vals_nil by assumption; reflexivity|]. rewrite !vals_kid by discriminate. reflexivity. }
      left. exists (node_new y None). split; [reflexivity|]. destruct (K _ (radix_leaf y None)) as [K1 K2]. change (k (Node y None [])) with r in K1, K2. cbn [nkey] in K2.
      set (mid := Node w None [fst r; inter]) in *.
      assert (HD : hd_error w = hd_error (nkey c)) by (rewrite E2, head_app by exact W; reflexivity).
      assert (Rm : radix mid).
      { split; cbn [nkids mid].
        - intros d [<-|[<-|[]]]; [rewrite K2; auto|auto].
        - cbn [map]. rewrite K2. constructor; [|constructor; [intros []|constructor]]. intros [I|[]]. exact (D I). }
      assert (NV : forall u v, ~ vals n (key ++ u) v).
      { intros u v V. rewrite E3, <- app_assoc in V. apply (vals_through n c w _ v R Ic W) in V; [|auto]. destruct V as (u' & Eq & V).
        rewrite E2, <- app_assoc in Eq. apply app_inv_head in Eq. apply D. rewrite <- (head_app x u' X), <- Eq. apply head_app. exact Y. }
      split; [apply radix_leaf|]. split.
      { intros u v. split; [|intros V; exfalso; exact (NV u v V)]. intros V. destruct (vals_leaf _ _ _ V). }
      split; [apply (radix_replace n l1 c l2 mid R E1 Rm); [exact W|exact HD]|].
      intros z v. rewrite (vals_replace n l1 c l2 mid z v R E1 Rm W HD). cbn [nkey mid]. fold r. split.
      + intros [[V Hd]|(u & -> & V)].
        * left. split; [|exact V]. intros PX. apply Hd. rewrite <- HD, <- (head_app w y W), <- E3. apply prefix_head; assumption.
        * destruct u as [|a u]; [apply vals_nil in V; [discriminate|exact Rm]|]. apply vals_kid in V; [|discriminate].
          destruct V as (d & u' & [<-|[<-|[]]] & Eq & V).
          -- right. exists u'. rewrite Eq, K2, E3, app_assoc. auto.
          -- cbn [nkey inter] in Eq. rewrite Eq. left. split.
             ++ intros [q Eqq]. rewrite E3, <- app_assoc in Eqq. apply app_inv_head in Eqq. apply D.
                rewrite <- (head_app x u' X), Eqq. apply head_app. exact Y.
             ++ rewrite app_assoc, <- E2. apply vals_kid; [destruct (nkey c); [congruence|discriminate]|]. exists c, u'. split; [exact Ic|]. split; [reflexivity|]. apply Vi. exact V.
      + intros [[NP V]|(u & -> & V)].
        * destruct z as [|a z]; [left; split; [exact V|destruct (nkey c); [congruence|discriminate]]|].
          apply vals_kid in V; [|discriminate]. destruct V as (d & u & I & Eq & V). rewrite Eq in *.
          destruct (option_map_dec (hd_error (nkey d)) (hd_error (nkey c))) as [Hd|Hd].
          -- assert (d = c) as -> by (apply (kid_unique n); auto). right. exists (x ++ u). rewrite E2, app_assoc. split; [reflexivity|].
             apply vals_kid; [destruct x; [congruence|discriminate]|]. exists inter, u. split; [right; left; reflexivity|]. split; [reflexivity|]. apply Vi. exact V.
          -- left. split; [|rewrite head_app by exact (NE d I); exact Hd]. apply vals_kid; [rewrite <- Eq; discriminate|exists d, u; auto].
        * right. exists (y ++ u). rewrite E3, app_assoc. split; [reflexivity|]. apply vals_kid; [destruct y; [congruence|discriminate]|].
          exists (fst r), u. split; [left; reflexivity|]. rewrite K2. auto.
  Qed.

  Lemma process_radix n : forall key k, radix n -> key <> [] -> radixes k ->
    radix (fst (process_insertion n key k)) /\ nkey (fst (process_insertion n key k)) = nkey n.
  Proof.
    intros key k R G K. destruct (process_splice n key k R G K) as [(m & _ & _ & _ & R' & _)|E]; [|rewrite E; auto].
    split; [exact R'|]. assert (NE : forall d, In d (nkids n) -> nkey d <> []) by (destruct R as [A _]; intros d I; exact (proj1 (A d I))).
    destruct (process_shape n key k G NE); reflexivity.
  Qed.

  Lemma splice_trans a b n n' m m' o o' : splice a n n' m m' -> splice b m m' o o' -> splice (a ++ b) n n' o o'.
  Proof.
    intros (R1 & V1 & R2 & V2) (R3 & V3 & R4 & V4). split; [exact R3|]. split.
    { intros u v. rewrite V3, V1, app_assoc. reflexivity. }
    split; [exact R2|]. intros w v. rewrite V2. split.
    - intros [[NP V]|(u & -> & V)].
      + left. split; [|exact V]. intros [z ->]. apply NP. exists (b ++ z). rewrite app_assoc. reflexivity.
      + apply V4 in V as [[NP V]|(u' & -> & V)].
        * left. split; [|apply V1; exact V]. intros [z E]. apply NP. exists z. rewrite <- app_assoc in E. apply app_inv_head in E. exact E.
        * right. exists u'. rewrite app_assoc. auto.
    - intros [[NP V]|(u & -> & V)].
      + destruct (prefix_str_dec a w) as [[z ->]|NA]; [|auto]. right. exists z. split; [reflexivity|]. apply V4. left. split; [|apply V1; exact V].
        intros [z' ->]. apply NP. exists z'. rewrite app_assoc. reflexivity.
      + right. exists (b ++ u). rewrite app_assoc. split; [reflexivity|]. apply V4. right. exists u. auto.
  Qed.

  Lemma walk_radix p : forall n final, radix n -> (forall s, In s p -> s <> []) -> radixes final ->
    radix (fst (walk n p final)) /\ nkey (fst (walk n p final)) = nkey n.
  Proof.
    induction p as [|s p IH]; intros n final R G K; [auto|]. cbn [walk]. apply process_radix; [exact R|apply G; left; reflexivity|].
    intros m Rm. destruct p as [|s' p]; cbn [is_empty]; [exact (K m Rm)|]. refine (IH m final Rm _ K). intros x I. apply G. right. exact I.
  Qed.

  (** The same values everywhere. *)
  Definition same_vals (n n' : node) : Prop := radix n' /\ forall w v, vals n' w v <-> vals n w v.

  Lemma walk_splice p : forall n final, radix n -> p <> [] -> (forall s, In s p -> s <> []) -> radixes final ->
    (exists m, snd (walk n p final) = snd (final m) /\ splice (concat p) n (fst (walk n p final)) m (fst (final m))) \/
    (snd (walk n p final) = Some PAmbiguous /\ same_vals n (fst (walk n p final))).
  Proof.
    induction p as [|s p IH]; intros n final R NP G K; [congruence|]. cbn [concat].
    set (k := fun next : node => if is_empty p then final next else walk next p final).
    assert (W : walk n (s :: p) final = process_insertion n s k) by reflexivity. rewrite W.
    assert (Gp : forall x, In x p -> x <> []) by (intros x I; apply G; right; exact I).
    assert (Kk : radixes k).
    { intros m Rm. unfold k. destruct p as [|s' p]; cbn [is_empty]; [exact (K m Rm)|]. exact (walk_radix _ m final Rm Gp K). }
    destruct (process_splice n s k R (G s (or_introl eq_refl)) Kk) as [(m & S1 & P1)|E].
    2: { right. rewrite E. split; [reflexivity|]. split; [exact R|]. intros w v. reflexivity. }
    rewrite S1. clear W. destruct p as [|s' p].
    - left. exists m. split; [reflexivity|]. cbn [concat]. rewrite app_nil_r. exact P1.
    - assert (Ek : k m = walk m (s' :: p) final) by reflexivity. rewrite Ek in *. destruct (IH m final (proj1 P1) ltac:(discriminate) Gp K) as [(o & S2 & P2)|(E & R2 & V2)].
      + left. exists o. split; [exact S2|]. eapply splice_trans; [exact P1|exact P2].
      + right. split; [exact E|]. destruct P1 as (R1 & V1 & R' & V'). split; [exact R'|]. intros w v. rewrite V'. split.
        * intros [[_ V]|(u & -> & V)]; [exact V|]. apply V1, V2. exact V.
        * intros V. destruct (prefix_str_dec s w) as [[z ->]|NA]; [|auto]. right. exists z. split; [reflexivity|]. apply V2, V1. exact V.
  Qed.
End Text.
