(** Facts about strings, slices and association lists. *)

From Verif Require Import Base.

Lemma str_eqb_eq a b : str_eqb a b = true <-> a = b.
Proof.
  revert b; induction a as [|x a IH]; intros [|y b]; simpl; split; intros E;
    try discriminate; try reflexivity.
  - apply andb_true_iff in E as [E1 E2]. apply N.eqb_eq in E1. apply IH in E2. congruence.
  - injection E as -> ->. rewrite N.eqb_refl. simpl. apply IH. reflexivity.
Qed.

Lemma str_eqb_refl a : str_eqb a a = true.
Proof. apply str_eqb_eq. reflexivity. Qed.

Lemma str_eqb_neq a b : str_eqb a b = false <-> a <> b.
Proof.
  split; intros E.
  - intros ->. rewrite str_eqb_refl in E. discriminate.
  - destruct (str_eqb a b) eqn:F; [|reflexivity]. apply str_eqb_eq in F. contradiction.
Qed.

Lemma str_eqb_spec a b : reflect (a = b) (str_eqb a b).
Proof. apply iff_reflect. symmetry. apply str_eqb_eq. Qed.

Lemma len_utf8_pos c : 1 <= len_utf8 c.
Proof. unfold len_utf8. repeat destruct (_ <? _)%N; lia. Qed.

Lemma blen_app a b : blen (a ++ b) = blen a + blen b.
Proof. induction a; simpl; lia. Qed.

Lemma blen_0 s : blen s = 0 <-> s = [].
Proof.
  destruct s as [|c s]; simpl; split; intros E; try reflexivity; try discriminate.
  pose proof (len_utf8_pos c). lia.
Qed.

Lemma slice_from_app p r : slice_from (p ++ r) (blen p) = Some r.
Proof.
  induction p as [|c p IH]; simpl.
  - destruct r; reflexivity.
  - pose proof (len_utf8_pos c) as L.
    destruct (len_utf8 c + blen p) as [|n] eqn:E; [lia|].
    replace (Nat.leb (len_utf8 c) (S n)) with true by (symmetry; apply Nat.leb_le; lia).
    replace (S n - len_utf8 c) with (blen p) by lia. exact IH.
Qed.

Lemma slice_to_app p r : slice_to (p ++ r) (blen p) = Some p.
Proof.
  induction p as [|c p IH]; simpl.
  - destruct r; reflexivity.
  - pose proof (len_utf8_pos c) as L.
    destruct (len_utf8 c + blen p) as [|n] eqn:E; [lia|].
    replace (Nat.leb (len_utf8 c) (S n)) with true by (symmetry; apply Nat.leb_le; lia).
    replace (S n - len_utf8 c) with (blen p) by lia. rewrite IH. reflexivity.
Qed.

Lemma slice_from_all p : slice_from p (blen p) = Some [].
Proof. pose proof (slice_from_app p []) as E. rewrite app_nil_r in E. exact E. Qed.

Lemma is_empty_true {A} (l : list A) : is_empty l = true <-> l = [].
Proof. destruct l; simpl; split; congruence. Qed.
Lemma is_empty_false {A} (l : list A) : is_empty l = false <-> l <> [].
Proof. destruct l; simpl; split; congruence. Qed.

Lemma contains_In c s : contains c s = true <-> In c s.
Proof.
  unfold contains. rewrite existsb_exists. split.
  - intros (x & I & E). apply N.eqb_eq in E. subst. exact I.
  - intros I. exists c. split; [exact I | apply N.eqb_refl].
Qed.

(** Segments are non-empty and contain no '/'. *)
Lemma split_on_no_sep sep s x : In x (split_on sep s) -> ~ In sep x.
Proof.
  revert x; induction s as [|c s IH]; simpl; intros x.
  - intros [<-|[]]. intros [].
  - destruct (N.eqb c sep) eqn:E.
    + intros [<-|I]; [intros [] | apply IH; exact I].
    + apply N.eqb_neq in E. destruct (split_on sep s) as [|p ps] eqn:Es.
      * intros [<-|[]]. simpl. intros [F|[]]. congruence.
      * intros [<-|I].
        -- simpl. intros [F|F]; [congruence|]. apply (IH p); [left; reflexivity | exact F].
        -- apply IH. right. exact I.
Qed.

Lemma segments_ok path s : In s (segments path) -> s <> [] /\ ~ In c_slash s.
Proof.
  unfold segments. rewrite filter_In. intros [I E]. split.
  - intros ->. discriminate E.
  - eapply split_on_no_sep. exact I.
Qed.

Lemma split_on_nosep sep s : ~ In sep s -> split_on sep s = [s].
Proof.
  induction s as [|c s IH]; simpl; intros N; [reflexivity|].
  destruct (N.eqb c sep) eqn:E; [apply N.eqb_eq in E; subst; exfalso; apply N; left; reflexivity|].
  rewrite IH; [reflexivity|]. intros I. apply N. right. exact I.
Qed.

Lemma split_on_cons sep s : split_on sep s <> [].
Proof.
  destruct s as [|c s]; simpl; [discriminate|].
  destruct (N.eqb c sep); [discriminate|]. destruct (split_on sep s); discriminate.
Qed.

Lemma split_on_app sep s r :
  ~ In sep s -> split_on sep (s ++ sep :: r) = s :: split_on sep r.
Proof.
  induction s as [|c s IH]; simpl; intros N.
  - rewrite N.eqb_refl. reflexivity.
  - destruct (N.eqb c sep) eqn:E; [apply N.eqb_eq in E; subst; exfalso; apply N; left; reflexivity|].
    rewrite IH; [reflexivity|]. intros I. apply N. right. exact I.
Qed.

(** Writing segments and splitting them again. *)
Lemma segments_join l :
  (forall s, In s l -> s <> [] /\ ~ In c_slash s) -> segments (join_slash l) = l.
Proof.
  induction l as [|a l IH]; intros W; [reflexivity|].
  destruct (W a (or_introl eq_refl)) as [Na Sa].
  destruct l as [|b l].
  - simpl. unfold segments. rewrite (split_on_nosep _ _ Sa). simpl.
    destruct a; [congruence|]. reflexivity.
  - change (join_slash (a :: b :: l)) with (a ++ c_slash :: join_slash (b :: l)).
    unfold segments. rewrite (split_on_app _ _ _ Sa). simpl filter.
    destruct a as [|c a]; [congruence|]. simpl.
    f_equal. apply IH. intros s I. apply W. right. exact I.
Qed.

Section AssocFacts.
  Context {K V : Type} (eqb : K -> K -> bool).
  Hypothesis eqb_spec : forall a b, eqb a b = true <-> a = b.

  Lemma aget_ainsert_same k (v : V) l : aget eqb k (ainsert eqb k v l) = Some v.
  Proof.
    induction l as [|[k' v'] l IH]; simpl.
    - replace (eqb k k) with true by (symmetry; apply eqb_spec; reflexivity). reflexivity.
    - destruct (eqb k k') eqn:E; simpl.
      + replace (eqb k k) with true by (symmetry; apply eqb_spec; reflexivity). reflexivity.
      + rewrite E. exact IH.
  Qed.

  Lemma aget_ainsert_other k k' (v : V) l :
    k <> k' -> aget eqb k (ainsert eqb k' v l) = aget eqb k l.
  Proof.
    intros N. induction l as [|[k2 v2] l IH]; simpl.
    - destruct (eqb k k') eqn:E; [apply eqb_spec in E; contradiction | reflexivity].
    - destruct (eqb k' k2) eqn:E; simpl.
      + apply eqb_spec in E. subst k2.
        destruct (eqb k k') eqn:E; [apply eqb_spec in E; contradiction | reflexivity].
      + rewrite IH. reflexivity.
  Qed.

  Lemma ainsert_fresh k (v : V) l : aget eqb k l = None -> ainsert eqb k v l = l ++ [(k, v)].
  Proof.
    induction l as [|[k' v'] l IH]; simpl; [reflexivity|].
    destruct (eqb k k'); [discriminate|]. intros E. rewrite (IH E). reflexivity.
  Qed.

  Lemma aget_None k (l : list (K * V)) : aget eqb k l = None <-> ~ exists v, In (k, v) l.
  Proof.
    induction l as [|[k' v'] l IH]; simpl.
    - split; [intros _ [v []] | reflexivity].
    - destruct (eqb k k') eqn:E.
      + apply eqb_spec in E. subst. split; [discriminate|].
        intros N. exfalso. apply N. exists v'. left. reflexivity.
      + rewrite IH. split.
        * intros N [v [F|F]]; [|apply N; exists v; exact F].
          injection F as -> ->. rewrite (proj2 (eqb_spec k k) eq_refl) in E. discriminate.
        * intros N [v F]. apply N. exists v. right. exact F.
  Qed.

  Lemma aget_Some_In k v (l : list (K * V)) : aget eqb k l = Some v -> In (k, v) l.
  Proof.
    induction l as [|[k' v'] l IH]; simpl; [discriminate|].
    destruct (eqb k k') eqn:E.
    - intros F. injection F as ->. apply eqb_spec in E. subst. left. reflexivity.
    - intros F. right. apply IH. exact F.
  Qed.
End AssocFacts.
