(** Denotation and invariant of the trie; effect of one insertion step. *)

From Verif Require Import Base BaseFacts RouteTrie Router TableSpec.

(** ** Keys and tokens *)

Definition lit_ok (s : str) : Prop := starts_colon s = false /\ ~ In c_star s.

Inductive key_ok : str -> Prop :=
| ko_par r : key_ok (c_colon :: r)
| ko_star : key_ok s_star
| ko_lit s : s <> [] -> lit_ok s -> key_ok s.

Lemma key_ok_nil : ~ key_ok [].
Proof. intros K. inversion K. congruence. Qed.

Lemma lit_ok_head a b : lit_ok (a ++ b) -> lit_ok a.
Proof.
  intros [X Y]. split.
  - destruct a; [reflexivity|exact X].
  - intros I. apply Y, in_or_app. auto.
Qed.

Lemma lit_ok_tail a b : lit_ok (a ++ b) -> (forall x, b <> c_colon :: x) -> lit_ok b.
Proof.
  intros [X Y] N. split.
  - destruct b as [|c b]; [reflexivity|]. unfold starts_colon. apply N.eqb_neq. intros ->. exact (N b eq_refl).
  - intros I. apply Y, in_or_app. auto.
Qed.

Lemma seg_toks_lit s : lit_ok s -> seg_toks s = map Ch s.
Proof.
  intros [N1 N2]. destruct s as [|c r]; [reflexivity|].
  unfold seg_toks. destruct (N.eqb c c_colon) eqn:E.
  - unfold starts_colon in N1. congruence.
  - destruct (str_eqb (c :: r) s_star) eqn:F; [|reflexivity].
    apply str_eqb_eq in F. injection F as -> ->. exfalso. apply N2. left. reflexivity.
Qed.

Lemma seg_toks_par r : seg_toks (c_colon :: r) = [Par r].
Proof. reflexivity. Qed.

Lemma seg_toks_star : seg_toks s_star = [Star].
Proof. reflexivity. Qed.

Lemma map_Ch_inj a b : map Ch a = map Ch b -> a = b.
Proof.
  revert b; induction a as [|x a IH]; intros [|y b] E; simpl in E; try discriminate; [reflexivity|].
  injection E as -> E. f_equal. apply IH. exact E.
Qed.

Lemma seg_toks_nil s : key_ok s -> seg_toks s <> [].
Proof.
  intros K. inversion K as [r|E|s' N L]; subst; try discriminate.
  rewrite (seg_toks_lit _ L). destruct s; [congruence | discriminate].
Qed.

Lemma seg_toks_inj a b : key_ok a -> key_ok b -> seg_toks a = seg_toks b -> a = b.
Proof.
  intros A B. inversion A as [r|EA|sa NA LA]; inversion B as [r2|EB|sb NB LB]; subst;
    rewrite ?seg_toks_par, ?seg_toks_star; intros E; try discriminate; try reflexivity.
  - injection E as ->. reflexivity.
  - rewrite (seg_toks_lit _ LB) in E. destruct b; discriminate.
  - rewrite (seg_toks_lit _ LB) in E. destruct b; discriminate.
  - rewrite (seg_toks_lit _ LA) in E. destruct a; discriminate.
  - rewrite (seg_toks_lit _ LA) in E. destruct a; discriminate.
  - rewrite (seg_toks_lit _ LA), (seg_toks_lit _ LB) in E. apply map_Ch_inj. exact E.
Qed.

Lemma spell_map_Ch s : spell (map Ch s) = s.
Proof. induction s as [|c s IH]; simpl; [reflexivity|]. f_equal. exact IH. Qed.

Lemma spell_app a b : spell (a ++ b) = spell a ++ spell b.
Proof. unfold spell. apply flat_map_app. Qed.

Lemma spell_seg_toks s : key_ok s -> spell (seg_toks s) = s.
Proof.
  intros K. inversion K as [r|E|s' N L]; subst.
  - rewrite seg_toks_par. simpl. rewrite app_nil_r. reflexivity.
  - reflexivity.
  - rewrite (seg_toks_lit _ L). apply spell_map_Ch.
Qed.

Lemma starts_colon_spec s : starts_colon s = true <-> exists r, s = c_colon :: r.
Proof.
  unfold starts_colon. destruct s as [|c r]; split.
  - intros E. vm_compute in E. discriminate.
  - intros [r E]. discriminate.
  - intros E. apply N.eqb_eq in E. subst. exists r. reflexivity.
  - intros [r' E]. injection E as -> ->. reflexivity.
Qed.

Lemma app_eq_cases {A} (a b c d : list A) :
  a ++ b = c ++ d ->
  (exists r, c = a ++ r /\ b = r ++ d) \/ (exists x r, a = c ++ x :: r /\ d = x :: r ++ b).
Proof.
  revert c; induction a as [|x a IH]; intros c E; simpl in *.
  - left. exists c. split; [reflexivity | exact E].
  - destruct c as [|y c]; simpl in E.
    + right. exists x, a. split; [reflexivity | symmetry; exact E].
    + injection E as -> E. destruct (IH _ E) as [(r & -> & ->)|(z & r & -> & ->)].
      * left. exists r. split; reflexivity.
      * right. exists z, r. split; reflexivity.
Qed.

(** ** The invariant *)

Section Den.
  Context {H M : Type}.
  Notation node := (node H M).
  Notation rvalue := (rvalue H M).

  Definition kt (n : node) : list tok := seg_toks (nkey n).

  Lemma node_ind' (P : node -> Prop) :
    (forall k v cs, Forall P cs -> P (Node k v cs)) -> forall n, P n.
  Proof.
    intros F. fix IH 1. intros [k v cs]. apply F.
    induction cs as [|c cs IHcs]; constructor; [apply IH | exact IHcs].
  Qed.

  (** Children: keys well-formed, different first tokens, a parameter is alone, the
      star comes last. *)
  Definition kids_ok (cs : list node) : Prop :=
    (forall c, In c cs -> key_ok (nkey c)) /\
    NoDup (map (fun c => hd_error (kt c)) cs) /\
    (forall c, In c cs -> is_param c = true -> cs = [c]) /\
    (forall l1 c l2, cs = l1 ++ c :: l2 -> nkey c = s_star -> l2 = []).

  Inductive wf : node -> Prop :=
  | wf_node k v cs : kids_ok cs -> (forall c, In c cs -> wf c) -> wf (Node k v cs).

  Lemma wf_kids n : wf n -> kids_ok (nkids n).
  Proof. intros W; inversion W; assumption. Qed.
  Lemma wf_kid n c : wf n -> In c (nkids n) -> wf c.
  Proof. intros W; inversion W; subst; simpl; auto. Qed.

  (** [dn n ts v]: the node reached from [n] by the tokens [ts] has value [v]. *)
  Inductive dn : node -> list tok -> option rvalue -> Prop :=
  | dn_here n : dn n [] (nval n)
  | dn_kid n c r w : In c (nkids n) -> dn c r w -> dn n (kt c ++ r) w.

  Definition isn (n : node) (ts : list tok) : Prop := exists v, dn n ts v.
  Definition dv (n : node) (ts : list tok) (v : rvalue) : Prop := dn n ts (Some v).

  Lemma isn_nil n : isn n [].
  Proof. exists (nval n). constructor. Qed.

  Lemma isn_kid n c : In c (nkids n) -> isn n (kt c).
  Proof. intros I. exists (nval c). rewrite <- (app_nil_r (kt c)). apply (dn_kid n c); [exact I | constructor]. Qed.

  Lemma kt_nil cs c : kids_ok cs -> In c cs -> kt c <> [].
  Proof. intros (K & _) I. apply seg_toks_nil. apply K. exact I. Qed.

  (** Two children with the same first token are the same. *)
  Lemma kids_unique cs c d t r s :
    kids_ok cs -> In c cs -> In d cs -> kt c = t :: r -> kt d = t :: s -> c = d.
  Proof.
    intros (_ & ND & _) Ic Id Ec Ed.
    assert (E : hd_error (kt c) = hd_error (kt d)) by (rewrite Ec, Ed; reflexivity).
    clear Ec Ed. induction cs as [|x cs IH]; [contradiction|].
    simpl in ND. apply NoDup_cons_iff in ND as [NI ND].
    destruct Ic as [->|Ic], Id as [->|Id]; auto.
    - exfalso. apply NI. rewrite E. apply (in_map (fun c => hd_error (kt c))). exact Id.
    - exfalso. apply NI. rewrite <- E. apply (in_map (fun c => hd_error (kt c))). exact Ic.
  Qed.

  Lemma kids_unique_app cs c d r s :
    kids_ok cs -> In c cs -> In d cs -> kt c ++ r = kt d ++ s -> c = d.
  Proof.
    intros K Ic Id E. pose proof (kt_nil _ _ K Ic) as N1. pose proof (kt_nil _ _ K Id) as N2.
    destruct (kt c) as [|t x] eqn:Ec; [congruence|]. destruct (kt d) as [|u y] eqn:Ed; [congruence|].
    simpl in E. injection E as -> _. eapply kids_unique; eauto.
  Qed.

  Lemma dn_inv n ts w : dn n ts w ->
    (ts = [] /\ w = nval n) \/ (exists c r, In c (nkids n) /\ ts = kt c ++ r /\ dn c r w).
  Proof.
    intros D; inversion D; subst.
    - left. split; reflexivity.
    - right. exists c, r. auto.
  Qed.

  Lemma dn_nil n w : wf n -> dn n [] w -> w = nval n.
  Proof.
    intros W D. apply dn_inv in D as [[_ E]|(c & r & I & E & _)]; [exact E|].
    exfalso. apply (kt_nil _ _ (wf_kids _ W) I). destruct (kt c); [reflexivity|discriminate].
  Qed.

  Lemma dn_via n c r w : wf n -> In c (nkids n) -> dn n (kt c ++ r) w -> dn c r w.
  Proof.
    intros W I D. apply dn_inv in D as [[E _]|(d & s & Id & E & D)].
    - exfalso. apply (kt_nil _ _ (wf_kids _ W) I). destruct (kt c); [reflexivity|discriminate].
    - assert (c = d) by (eapply kids_unique_app; eauto using wf_kids). subst d.
      apply app_inv_head in E. subst. exact D.
  Qed.

  Lemma dn_fun n ts v w : wf n -> dn n ts v -> dn n ts w -> v = w.
  Proof.
    intros W D. revert w W. induction D as [n|n c r v I D IH]; intros w W D2.
    - symmetry. apply dn_nil; assumption.
    - apply IH; [eapply wf_kid; eauto|]. eapply dn_via; eauto.
  Qed.

  Lemma isn_via n c r : wf n -> In c (nkids n) -> (isn n (kt c ++ r) <-> isn c r).
  Proof.
    intros W I. split; intros [v D].
    - exists v. eapply dn_via; eauto.
    - exists v. constructor; assumption.
  Qed.

  Lemma dv_via n c r v : wf n -> In c (nkids n) -> (dv n (kt c ++ r) v <-> dv c r v).
  Proof.
    intros W I. split; intros D.
    - eapply dn_via; eauto.
    - constructor; assumption.
  Qed.

  Lemma isn_cons n t r : isn n (t :: r) ->
    exists c s x, In c (nkids n) /\ kt c = t :: s /\ r = s ++ x /\ isn c x \/
                  (In c (nkids n) /\ kt c = []).
  Proof.
    intros [v D]. apply dn_inv in D as [[E _]|(c & x & I & E & D)]; [discriminate|].
    destruct (kt c) as [|u s] eqn:Ek.
    - exists c, [], []. right. split; assumption.
    - simpl in E. injection E as -> ->. exists c, s, x. left.
      repeat split; try assumption. exists v. exact D.
  Qed.

  Lemma isn_cons_wf n t r : wf n -> isn n (t :: r) ->
    exists c s x, In c (nkids n) /\ kt c = t :: s /\ r = s ++ x /\ isn c x.
  Proof.
    intros W I. apply isn_cons in I as (c & s & x & [A|[A B]]).
    - exists c, s, x. exact A.
    - exfalso. eapply kt_nil; eauto using wf_kids.
  Qed.

  (** ** Forks and conflicts of a token string with a trie *)

  (** The trie and [K] part after [ts]. *)
  Definition fork (n : node) (K ts : list tok) : Prop :=
    exists a b x y, a <> b /\ K = ts ++ a :: x /\ isn n (ts ++ b :: y).

  Definition conf (n : node) (K : list tok) : Prop :=
    exists w a b x y, a <> b /\ K = w ++ a :: x /\ isn n (w ++ b :: y) /\ (is_par a \/ is_par b).

  (** ** Which action is chosen *)

  Lemma match_count_spec a b :
    exists p x y, a = p ++ x /\ b = p ++ y /\ match_count a b = blen p /\
                  (x = [] \/ y = [] \/ hd_error x <> hd_error y).
  Proof.
    revert b; induction a as [|k a IH]; intros b.
    - exists [], [], b. simpl. repeat split; auto.
    - destruct b as [|t b].
      + exists [], (k :: a), []. simpl. repeat split; auto.
      + simpl. destruct (N.eqb t k) eqn:E.
        * apply N.eqb_eq in E. subst t. destruct (IH b) as (p & x & y & -> & -> & E & C).
          exists (k :: p), x, y. simpl. rewrite E. repeat split; auto.
        * apply N.eqb_neq in E. exists [], (k :: a), (t :: b). simpl.
          repeat split; auto. right. right. congruence.
  Qed.

  Inductive ins_view (cs : list node) (key : str) : action -> Prop :=
  | iv_create :
      (forall c, In c cs -> hd_error (kt c) <> hd_error (seg_toks key)) ->
      (forall c, In c cs -> is_param c = false) ->
      (starts_colon key = true -> cs = []) ->
      ins_view cs key (Action ACreateNewNode 0 0)
  | iv_next l1 c l2 x :
      cs = l1 ++ c :: l2 -> nkey c = key ->
      ins_view cs key (Action ANextNode x (length l1))
  | iv_skey l1 c l2 key' :
      cs = l1 ++ c :: l2 -> key = nkey c ++ key' -> key' <> [] -> lit_ok key ->
      ins_view cs key (Action ASplitKey (blen (nkey c)) (length l1))
  | iv_snode l1 c l2 p ck nk :
      cs = l1 ++ c :: l2 -> nkey c = p ++ ck -> key = p ++ nk -> p <> [] -> ck <> [] ->
      hd_error ck <> hd_error nk -> lit_ok (p ++ ck) -> lit_ok (p ++ nk) ->
      ins_view cs key (Action ASplitNode (blen p) (length l1))
  | iv_err c i :
      In c cs -> nkey c <> key -> is_param c = true \/ starts_colon key = true ->
      ins_view cs key (Action AError 0 i).

  Lemma hd_seg_toks_lit s : lit_ok s -> hd_error (seg_toks s) = match s with [] => None | c :: _ => Some (Ch c) end.
  Proof. intros L. rewrite (seg_toks_lit _ L). destruct s; reflexivity. Qed.

  (** Keys that are not parameters and share no character have different first
      tokens; keys that share a first character are equal or both literal. *)
  Lemma first_char_lit a b c x y :
    key_ok a -> key_ok b -> starts_colon a = false -> starts_colon b = false ->
    a = c :: x -> b = c :: y -> (lit_ok a /\ lit_ok b) \/ a = b.
  Proof.
    intros A B Ca Cb -> ->. unfold starts_colon in Ca. apply N.eqb_neq in Ca.
    inversion A as [r EA|EA|sa NA LA EA]; inversion B as [r2 EB|EB|sb NB LB EB]; subst; auto;
      try congruence.
    - exfalso. apply LB. left. reflexivity.
    - exfalso. apply LA. left. reflexivity.
  Qed.

  Lemma first_tok_diff a b :
    key_ok a -> key_ok b -> starts_colon a = false -> starts_colon b = false ->
    hd_error a <> hd_error b -> hd_error (seg_toks a) <> hd_error (seg_toks b).
  Proof.
    intros A B Ca Cb N E. apply N.
    inversion A as [r|EA|sa NA LA]; inversion B as [r2|EB|sb NB LB]; subst; try discriminate; auto.
    - rewrite (hd_seg_toks_lit _ LB) in E. destruct b; discriminate.
    - rewrite (hd_seg_toks_lit _ LA) in E. destruct a; discriminate.
    - rewrite (hd_seg_toks_lit _ LA), (hd_seg_toks_lit _ LB) in E.
      destruct a, b; try reflexivity; try discriminate. injection E as ->. reflexivity.
  Qed.

  Lemma insertion_view cs key :
    kids_ok cs -> key_ok key ->
    ins_view cs key (get_insertion_action_from cs key 0).
  Proof.
    intros (KO & _ & PA & _) Kk.
    assert (G : forall l2 l1, cs = l1 ++ l2 ->
              (forall c, In c l1 -> hd_error (kt c) <> hd_error (seg_toks key)) ->
              (forall c, In c l1 -> is_param c = false) ->
              (starts_colon key = true -> l1 = []) ->
              ins_view cs key (get_insertion_action_from l2 key (length l1))).
    { induction l2 as [|c l2 IH]; intros l1 Ecs D NP SC.
      - rewrite app_nil_r in Ecs. subst l1. simpl. apply iv_create; assumption.
      - assert (Ic : In c cs) by (rewrite Ecs; apply in_elt).
        simpl. destruct (is_param c || starts_colon key) eqn:Ep.
        + destruct (str_eqb_spec key (nkey c)) as [E|N].
          * apply (iv_next _ _ l1 c l2 0); auto.
          * apply orb_true_iff in Ep. apply (iv_err _ _ c); auto.
        + apply orb_false_iff in Ep as [Pc Pk].
          destruct (match_count_spec (nkey c) key) as (p & x & y & Ex & Ey & -> & C).
          assert (Bc : blen (nkey c) = blen p + blen x) by (rewrite Ex, blen_app; reflexivity).
          assert (Bk : blen key = blen p + blen y) by (rewrite Ey, blen_app; reflexivity).
          pose proof (KO _ Ic) as Kc. unfold is_param in Pc.
          assert (N1 : blen (nkey c) <> 0) by (rewrite blen_0; intros E; rewrite E in Kc; eapply key_ok_nil; eauto).
          assert (N2 : blen key <> 0) by (rewrite blen_0; intros E; rewrite E in Kk; eapply key_ok_nil; eauto).
          destruct p as [|p0 p].
          * simpl in Ex, Ey. subst x. subst y. change (blen []) with 0.
            replace (Nat.eqb 0 (blen key)) with false by (symmetry; apply Nat.eqb_neq; lia).
            replace (Nat.eqb 0 (blen (nkey c))) with false by (symmetry; apply Nat.eqb_neq; lia).
            simpl.
            replace (S (length l1)) with (length (l1 ++ [c])) by (rewrite app_length; simpl; lia).
            apply IH.
            -- rewrite <- app_assoc. exact Ecs.
            -- intros d I. apply in_app_or in I as [I|[<-|[]]]; [apply D; exact I|].
               unfold kt. apply first_tok_diff; auto.
               destruct C as [C|[C|C]]; [rewrite C in Kc; destruct (key_ok_nil Kc)
                                        |rewrite C in Kk; destruct (key_ok_nil Kk)|exact C].
            -- intros d I. apply in_app_or in I as [I|[<-|[]]]; [apply NP; exact I | exact Pc].
            -- intros F. congruence.
          * assert (L : (lit_ok (nkey c) /\ lit_ok key) \/ nkey c = key).
            { apply (first_char_lit _ _ p0 (p ++ x) (p ++ y)); auto. }
            assert (Np : blen (p0 :: p) <> 0) by (rewrite blen_0; discriminate).
            destruct x as [|x0 x].
            -- rewrite app_nil_r in Ex. change (blen []) with 0 in Bc. rewrite Nat.add_0_r in Bc.
               rewrite <- Bc, Nat.eqb_refl. rewrite <- Bc in Bk.
               destruct y as [|y0 y].
               ++ rewrite app_nil_r in Ey. change (blen []) with 0 in Bk. rewrite Nat.add_0_r in Bk.
                  rewrite Bk, Nat.eqb_refl. cbv beta iota delta [andb].
                  eapply iv_next; [exact Ecs | congruence].
               ++ assert (Ny : blen (y0 :: y) <> 0) by (rewrite blen_0; discriminate).
                  replace (Nat.eqb (blen (nkey c)) (blen key)) with false
                    by (symmetry; apply Nat.eqb_neq; lia).
                  cbv beta iota delta [andb].
                  destruct L as [[L1 L2]|L].
                  ** apply (iv_skey _ _ l1 c l2 (y0 :: y)); auto; [|discriminate].
                     rewrite Ex. exact Ey.
                  ** exfalso. rewrite L in Bk. lia.
            -- assert (Nx : blen (x0 :: x) <> 0) by (rewrite blen_0; discriminate).
               replace (Nat.eqb (blen (p0 :: p)) (blen (nkey c))) with false
                 by (symmetry; apply Nat.eqb_neq; lia).
               rewrite andb_false_r.
               replace (Nat.eqb (blen (p0 :: p)) 0) with false by (symmetry; apply Nat.eqb_neq; exact Np).
               cbv beta iota delta [negb].
               destruct L as [[L1 L2]|L].
               ++ rewrite Ex in L1. rewrite Ey in L2.
                  apply (iv_snode _ _ l1 c l2 (p0 :: p) (x0 :: x) y); auto; try discriminate.
                  destruct C as [C|[C|C]]; [discriminate | subst y; discriminate | exact C].
               ++ exfalso. rewrite Ex, Ey in L. apply app_inv_head in L. subst y.
                  destruct C as [C|[C|C]]; congruence. }
    apply (G cs []); auto; intros c [].
  Qed.
End Den.
