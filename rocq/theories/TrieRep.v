(** The trie built by a history represents the table of the history. *)

From Verif Require Import Base BaseFacts RouteTrie Router TableSpec TrieDen TrieIns.

Lemma flat_cons s p : flat (s :: p) = seg_toks s ++ flat p.
Proof. reflexivity. Qed.
Lemma flat_app p q : flat (p ++ q) = flat p ++ flat q.
Proof. apply flat_map_app. Qed.

Lemma prefix_dec (a b : list tok) : prefix a b \/ ~ prefix a b.
Proof.
  revert b; induction a as [|x a IH]; intros b.
  - left. exists b. reflexivity.
  - destruct b as [|y b].
    + right. intros [r E]. discriminate.
    + destruct (tok_eq_dec x y) as [->|N].
      * destruct (IH b) as [[r ->]|N]; [left; exists r; reflexivity|].
        right. intros [r E]. injection E as E. apply N. exists r. exact E.
      * right. intros [r E]. injection E as E _. congruence.
Qed.

Lemma flat_firstn_prefix i p : prefix (flat (firstn i p)) (flat p).
Proof. exists (flat (skipn i p)). rewrite <- flat_app, firstn_skipn. reflexivity. Qed.

(** A path all of whose segments are fine as keys. *)
Definition path_ok (p : list str) : Prop := forall s, In s p -> key_ok s.

Section Rep.
  Context {H M : Type}.
  Notation node := (node H M).
  Notation rvalue := (rvalue H M).
  Notation table := (table H M).

  (** ** The walk along a path *)

  Record wplace (n : node) (p : list str) (m0 : node) (ctx : node -> node) : Prop := {
    wp_key : forall m, nkey (ctx m) = nkey n;
    wp_wf0 : wf m0;
    wp_wf : forall m, wf m -> nkey m = nkey m0 -> wf (ctx m);
    wp_dv0 : forall r v, dv m0 r v <-> dv n (flat p ++ r) v;
    wp_isn0 : forall r, r <> [] -> (isn m0 r <-> isn n (flat p ++ r));
    wp_in : forall m r w, wf m -> nkey m = nkey m0 -> (dn (ctx m) (flat p ++ r) w <-> dn m r w);
    wp_isn : forall m ts, wf m -> nkey m = nkey m0 -> ~ prefix (flat p) ts ->
               (isn (ctx m) ts <-> isn n ts \/ fork n (flat p) ts \/ exists i, ts = flat (firstn i p));
    wp_dv : forall m ts v, wf m -> nkey m = nkey m0 -> ~ prefix (flat p) ts ->
               (dv (ctx m) ts v <-> dv n ts v)
  }.

  Lemma isn_iff (a b : node) x y : (forall w, dn a x w <-> dn b y w) -> (isn a x <-> isn b y).
  Proof. intros E. split; intros [w D]; exists w; apply E; exact D. Qed.

  Lemma conf_app (n : node) K L : conf n K -> conf n (K ++ L).
  Proof.
    intros (w & a & b & x & y & N & -> & J & P). exists w, a, b, (x ++ L), y.
    rewrite <- app_assoc. auto.
  Qed.

  Lemma conf_place (n : node) K L m0 ctx :
    place n K m0 ctx -> ~ conf n K -> (conf n (K ++ L) <-> conf m0 L).
  Proof.
    intros P NC. split.
    - intros (w & a & b & x & y & N & E & J & Q).
      apply app_eq_cases in E as [(r & -> & E)|(z & r & E & E2)].
      + exists r, a, b, x, y. repeat split; auto. apply (pl_isn0 _ _ _ _ P).
        * destruct r; discriminate.
        * rewrite <- app_assoc in J. exact J.
      + exfalso. apply NC. injection E2 as <- ->. exists w, a, b, r, y. auto.
    - intros (w & a & b & x & y & N & -> & J & Q). exists (K ++ w), a, b, x, y.
      repeat split; auto; [apply app_assoc|]. rewrite <- app_assoc.
      apply (pl_isn0 _ _ _ _ P); [destruct w; discriminate|exact J].
  Qed.

  Lemma fork_place (n : node) K L m0 ctx r :
    place n K m0 ctx -> (fork m0 L r <-> fork n (K ++ L) (K ++ r)).
  Proof.
    intros P. split; intros (a & b & x & y & N & E & J); exists a, b, x, y; repeat split; auto.
    - rewrite E. apply app_assoc.
    - rewrite <- app_assoc. apply (pl_isn0 _ _ _ _ P); [destruct r; discriminate|exact J].
    - rewrite <- app_assoc in E. apply app_inv_head in E. exact E.
    - apply (pl_isn0 _ _ _ _ P); [destruct r; discriminate|]. rewrite <- app_assoc in J. exact J.
  Qed.

  Lemma fork_app (n : node) K L ts : ~ prefix K ts -> (fork n (K ++ L) ts <-> fork n K ts).
  Proof.
    intros NP. split; intros (a & b & x & y & N & E & J).
    - apply app_eq_cases in E as [(r & -> & E)|(z & r & E & E2)].
      + exfalso. apply NP, prefix_app.
      + injection E2 as <- ->. exists a, b, r, y. auto.
    - exists a, b, (x ++ L), y. repeat split; auto. rewrite E, <- app_assoc. reflexivity.
  Qed.

  Lemma wplace_step (n : node) s p m1 ctx1 m0 ctx2 :
    key_ok s -> place n (seg_toks s) m1 ctx1 -> wplace m1 p m0 ctx2 ->
    wplace n (s :: p) m0 (fun m => ctx1 (ctx2 m)).
  Proof.
    intros Ks P1 P2. constructor.
    - intros m. apply P1.
    - apply P2.
    - intros m Wm Em. apply (pl_wf _ _ _ _ P1); [apply P2; auto | apply P2].
    - intros r v. rewrite (wp_dv0 _ _ _ _ P2), (pl_dv0 _ _ _ _ P1), flat_cons, <- app_assoc. reflexivity.
    - intros r N. rewrite (wp_isn0 _ _ _ _ P2 r N), (pl_isn0 _ _ _ _ P1), flat_cons, <- app_assoc.
      + reflexivity.
      + intros E. apply app_eq_nil in E as [_ E]. contradiction.
    - intros m r w Wm Em. rewrite flat_cons, <- app_assoc.
      rewrite (pl_in _ _ _ _ P1) by (apply P2; auto). apply (wp_in _ _ _ _ P2); auto.
    - intros m ts Wm Em NP. rewrite flat_cons in NP |- *.
      assert (W2 : wf (ctx2 m)) by (apply P2; auto).
      assert (E2 : nkey (ctx2 m) = nkey m1) by apply P2.
      destruct (prefix_dec (seg_toks s) ts) as [[r ->]|NPs].
      + assert (NPr : ~ prefix (flat p) r).
        { intros [q ->]. apply NP. exists q. apply app_assoc. }
        assert (EQ : isn (ctx1 (ctx2 m)) (seg_toks s ++ r) <-> isn (ctx2 m) r).
        { apply isn_iff. intros w. apply (pl_in _ _ _ _ P1); auto. }
        rewrite EQ, (wp_isn _ _ _ _ P2 m r Wm Em NPr), (fork_place n _ (flat p) _ _ r P1).
        destruct r as [|t r].
        * split; intros _; [|left; apply isn_nil]. right. right. exists 1. simpl. reflexivity.
        * rewrite (pl_isn0 _ _ _ _ P1) by discriminate.
          assert (EX : (exists i, t :: r = flat (firstn i p)) <->
                       (exists i, seg_toks s ++ t :: r = flat (firstn i (s :: p)))).
          { split; intros [i E].
            - exists (S i). cbn [firstn]. rewrite flat_cons, E. reflexivity.
            - destruct i as [|i]; cbn [firstn] in E.
              + exfalso. destruct (seg_toks s); discriminate.
              + rewrite flat_cons in E. apply app_inv_head in E. exists i. exact E. }
          rewrite EX. reflexivity.
      + rewrite (pl_isn _ _ _ _ P1) by auto. rewrite (fork_app n _ (flat p) ts NPs).
        split; [tauto|]. intros [J|[J|[i J]]]; auto.
        destruct i as [|i]; cbn [firstn] in J.
        * left. subst ts. apply isn_nil.
        * exfalso. apply NPs. subst ts. rewrite flat_cons. apply prefix_app.
    - intros m ts v Wm Em NP. rewrite flat_cons in NP.
      assert (W2 : wf (ctx2 m)) by (apply P2; auto).
      assert (E2 : nkey (ctx2 m) = nkey m1) by apply P2.
      destruct (prefix_dec (seg_toks s) ts) as [[r ->]|NPs].
      + assert (NPr : ~ prefix (flat p) r).
        { intros [q ->]. apply NP. exists q. apply app_assoc. }
        unfold dv. rewrite (pl_in _ _ _ _ P1) by auto. fold (dv (ctx2 m) r v).
        rewrite (wp_dv _ _ _ _ P2 m r v Wm Em NPr). apply (pl_dv0 _ _ _ _ P1).
      + apply (pl_dv _ _ _ _ P1); auto.
  Qed.

  Lemma wplace_root (n : node) : wf n -> wplace n [] n (fun m => Node (nkey n) (nval m) (nkids m)).
  Proof.
    intros W. pose proof (place_id n W) as P.
    assert (NP : forall ts : list tok, ~ prefix [] ts -> False) by (intros ts N; apply N; exists ts; reflexivity).
    constructor; try apply P.
    intros m ts _ _ N. destruct (NP ts N).
  Qed.

  Lemma wplace_one (n : node) s m0 ctx :
    place n (seg_toks s) m0 ctx -> wplace n [s] m0 ctx.
  Proof.
    intros P. assert (E : flat [s] = seg_toks s) by (unfold flat; simpl; apply app_nil_r).
    constructor; rewrite ?E; try apply P.
    intros m ts Wm Em NP. rewrite (pl_isn _ _ _ _ P m ts Wm Em NP). split; [tauto|].
    intros [J|[J|[i J]]]; auto. destruct i as [|i]; cbn [firstn] in J.
    - left. subst. apply isn_nil.
    - exfalso. apply NP. rewrite firstn_nil in J. rewrite J. rewrite E. apply prefix_refl.
  Qed.

  (** Nodes made by the walk along [p], and colons. *)
  Definition wcut (n : node) (p : list str) (w : list tok) : Prop :=
    isn n w \/ fork n (flat p) w \/ exists i, w = flat (firstn i p).
  Definition wsafe (n : node) (p : list str) : Prop :=
    forall w x, wcut n p w -> flat p <> w ++ Ch c_colon :: x /\ ~ isn n (w ++ Ch c_colon :: x).

  Lemma wsafe_first (n : node) s p : wsafe n (s :: p) -> csafe n (seg_toks s).
  Proof.
    intros S w x C. destruct (S w x) as [X Y].
    - destruct C as [C|[(a & b & u & v & N & E & J)|C]].
      + left. exact C.
      + right. left. exists a, b, (u ++ flat p), v. rewrite flat_cons, E, <- app_assoc. auto.
      + right. right. exists 1. cbn [firstn]. rewrite flat_cons, <- C. symmetry. apply app_nil_r.
    - split; [|exact Y]. intros E.
      destruct (S w (x ++ flat p)) as [X' _].
      + destruct C as [C|[(a & b & u & v & N & E' & J)|C]].
        * left. exact C.
        * right. left. exists a, b, (u ++ flat p), v. rewrite flat_cons, E', <- app_assoc. auto.
        * right. right. exists 1. cbn [firstn]. rewrite flat_cons, <- C. symmetry. apply app_nil_r.
      + apply X'. rewrite flat_cons, E, <- app_assoc. reflexivity.
  Qed.

  Lemma wsafe_rest (n : node) s p m1 ctx1 : place n (seg_toks s) m1 ctx1 -> wsafe n (s :: p) -> wsafe m1 p.
  Proof.
    intros P S w x C. destruct (S (seg_toks s ++ w) x) as [X Y].
    - destruct C as [C|[C|[i C]]].
      + destruct w as [|t w].
        * right. right. exists 1. cbn [firstn]. rewrite flat_cons. reflexivity.
        * left. apply (pl_isn0 _ _ _ _ P); [discriminate|exact C].
      + right. left. rewrite flat_cons. apply (fork_place n _ _ _ _ _ P). exact C.
      + right. right. exists (Datatypes.S i). cbn [firstn]. rewrite flat_cons. congruence.
    - split.
      + intros E. apply X. rewrite flat_cons, E. apply app_assoc.
      + intros J. apply Y. rewrite <- app_assoc. apply (pl_isn0 _ _ _ _ P); [destruct w; discriminate|exact J].
  Qed.

  Lemma walk_spec p : p <> [] -> path_ok p -> forall n : node, wf n -> wsafe n p ->
    (exists i, i < length p /\ ~ conf n (flat (firstn i p)) /\ conf n (flat (firstn (S i) p)) /\
       exists m0 ctx, wplace n (firstn i p) m0 ctx /\ forall final, walk n p final = (ctx m0, Some PAmbiguous)) \/
    (~ conf n (flat p) /\ exists m0 ctx, wplace n p m0 ctx /\
       forall final, walk n p final = apply_ctx ctx (final m0)).
  Proof.
    induction p as [|s p IH]; [congruence|]. intros _ PO n W WS.
    assert (Ks : key_ok s) by (apply PO; left; reflexivity).
    cbn [walk]. destruct (process_spec n W s Ks (wsafe_first _ _ _ WS)) as [[C E]|(C & m1 & ctx1 & P1 & E)].
    - left. exists 0. split; [simpl; lia|]. split.
      { intros (w & a & b & x & y & _ & F & _). destruct w; discriminate. }
      split; [cbn [firstn]; unfold flat; simpl; rewrite app_nil_r; exact C|].
      exists n, (fun m => Node (nkey n) (nval m) (nkids m)). split; [apply wplace_root; exact W|].
      intros final. rewrite E. destruct n; reflexivity.
    - destruct p as [|s' p].
      + right. split; [unfold flat; simpl; rewrite app_nil_r; exact C|].
        exists m1, ctx1. split; [apply wplace_one; exact P1|]. intros final. rewrite E. reflexivity.
      + assert (PO' : path_ok (s' :: p)) by (intros x I; apply PO; right; exact I).
        rewrite flat_cons, (conf_place n _ _ _ _ P1 C).
        destruct (IH ltac:(discriminate) PO' m1 (pl_wf0 _ _ _ _ P1) (wsafe_rest _ _ _ _ _ P1 WS))
          as [(i & L & C0 & C1 & m0 & ctx2 & P2 & E')|(C1 & m0 & ctx2 & P2 & E')].
        * left. exists (S i). split; [simpl in *; lia|].
          split; [cbn [firstn]; rewrite flat_cons, (conf_place n _ _ _ _ P1 C); exact C0|].
          split; [rewrite firstn_cons, flat_cons, (conf_place n _ _ _ _ P1 C); exact C1|].
          exists m0, (fun m => ctx1 (ctx2 m)).
          split; [cbn [firstn]; apply (wplace_step n s (firstn i (s' :: p)) m1 ctx1 m0 ctx2); assumption|].
          intros final. rewrite E. cbv beta. rewrite E'. reflexivity.
        * right. split; [exact C1|]. exists m0, (fun m => ctx1 (ctx2 m)).
          split; [apply (wplace_step n s (s' :: p) m1 ctx1 m0 ctx2); assumption|].
          intros final. rewrite E. cbv beta. rewrite E'. unfold apply_ctx.
          destruct (final m0). reflexivity.
  Qed.

  (** ** Tables *)

  Definition val_of (T : table) (ts : list tok) : rvalue :=
    RV (mws_at T ts) (map (fun x : method * H => (fst x, Route (fst x) (snd x))) (routes_at T ts)).

  Record Rep (t : node) (T : table) : Prop := {
    rep_wf : wf t;
    rep_isn : forall ts, isn t ts <-> boundary T ts;
    rep_dv : forall ts v, dv t ts v <-> has_value T ts /\ v = val_of T ts
  }.

  Lemma routes_at_app T U ts : routes_at (T ++ U) ts = routes_at (H:=H) (M:=M) T ts ++ routes_at U ts.
  Proof. apply flat_map_app. Qed.
  Lemma mws_at_app T U ts : mws_at (T ++ U) ts = mws_at (H:=H) (M:=M) T ts ++ mws_at U ts.
  Proof. apply flat_map_app. Qed.

  Lemma in_routes_at (T : table) ts m h :
    In (m, h) (routes_at T ts) <-> exists p, In (p, CRoute m h) T /\ flat p = ts.
  Proof.
    unfold routes_at. rewrite in_flat_map. split.
    - intros ([p c] & I & J). simpl in J. destruct c as [m' h'|mw|]; try contradiction.
      destruct (toks_eq_dec (flat p) ts) as [E|]; [|contradiction].
      destruct J as [J|[]]. injection J as -> ->. eauto.
    - intros (p & I & E). exists (p, CRoute m h). split; [exact I|]. simpl.
      destruct (toks_eq_dec (flat p) ts); [left; reflexivity|contradiction].
  Qed.

  Lemma in_mws_at (T : table) ts m :
    In m (mws_at T ts) <-> exists p, In (p, CMw m) T /\ flat p = ts.
  Proof.
    unfold mws_at. rewrite in_flat_map. split.
    - intros ([p c] & I & J). simpl in J. destruct c as [m' h'|mw|]; try contradiction.
      destruct (toks_eq_dec (flat p) ts) as [E|]; [|contradiction].
      destruct J as [J|[]]. subst. eauto.
    - intros (p & I & E). exists (p, CMw m). split; [exact I|]. simpl.
      destruct (toks_eq_dec (flat p) ts); [left; reflexivity|contradiction].
  Qed.

  Lemma not_nil_In {A} (l : list A) : l <> [] <-> exists x, In x l.
  Proof.
    split.
    - destruct l as [|x l]; [congruence|]. intros _. exists x. left. reflexivity.
    - intros [x I] ->. contradiction.
  Qed.

  Lemma has_value_entry (T : table) ts : has_value T ts -> exists p c, In (p, c) T /\ flat p = ts.
  Proof.
    intros [N|N]; apply not_nil_In in N.
    - destruct N as [[m h] I]. apply in_routes_at in I as (p & I & E). eauto.
    - destruct N as [m I]. apply in_mws_at in I as (p & I & E). eauto.
  Qed.

  Lemma has_value_dec (T : table) ts : has_value T ts \/ ~ has_value T ts.
  Proof.
    unfold has_value. destruct (routes_at T ts), (mws_at T ts);
      first [left; left; discriminate | left; right; discriminate | right; intros [N|N]; congruence].
  Qed.

  (** A boundary is a prefix of a registered path. *)
  Lemma boundary_prefix (T : table) ts : boundary T ts ->
    ts = [] \/ exists q c, In (q, c) T /\ prefix ts (flat q).
  Proof.
    intros [->|[(p & c & i & I & ->)|(p & c & q & d & a & b & I & J & N & [r E] & _)]].
    - auto.
    - right. exists p, c. split; [exact I|apply flat_firstn_prefix].
    - right. exists p, c. split; [exact I|]. exists (a :: r). rewrite E, <- app_assoc. reflexivity.
  Qed.

  Lemma boundary_end (T : table) p c : In (p, c) T -> boundary T (flat p).
  Proof. intros I. right. left. exists p, c, (length p). rewrite firstn_all. auto. Qed.

  (** Below a non-empty extension, boundary means: some registered path goes on. *)
  Lemma boundary_ext (T : table) w b y : boundary T (w ++ b :: y) ->
    exists q c, In (q, c) T /\ prefix (w ++ [b]) (flat q).
  Proof.
    intros B. apply boundary_prefix in B as [E|(q & c & I & r & E)]; [destruct w; discriminate|].
    exists q, c. split; [exact I|]. exists (y ++ r). rewrite E, <- !app_assoc. reflexivity.
  Qed.

  Lemma rep_conf t T p : Rep t T -> (conf t (flat p) <-> exists q c, In (q, c) T /\ ambiguous p q).
  Proof.
    intros R. split.
    - intros (w & a & b & x & y & N & E & J & P).
      apply (rep_isn _ _ R) in J. apply boundary_ext in J as (q & c & I & PR).
      exists q, c. split; [exact I|]. exists w, a, b. repeat split; auto.
      exists x. rewrite E, <- app_assoc. reflexivity.
    - intros (q & c & I & w & a & b & (N & [x E1] & [y E2]) & P).
      exists w, a, b, x, y. repeat split; auto.
      + rewrite E1, <- app_assoc. reflexivity.
      + apply (rep_isn _ _ R).
        replace (w ++ b :: y) with (flat q) by (rewrite E2, <- app_assoc; reflexivity).
        eapply boundary_end; eauto.
  Qed.

  Lemma rep_fork t T p ts : Rep t T ->
    (fork t (flat p) ts <-> exists q c a b, In (q, c) T /\ part_at (flat p) (flat q) ts a b).
  Proof.
    intros R. split.
    - intros (a & b & x & y & N & E & J).
      apply (rep_isn _ _ R) in J. apply boundary_ext in J as (q & c & I & PR).
      exists q, c, a, b. split; [exact I|]. repeat split; auto.
      exists x. rewrite E, <- app_assoc. reflexivity.
    - intros (q & c & a & b & I & N & [x E1] & [y E2]).
      exists a, b, x, y. repeat split; auto.
      + rewrite E1, <- app_assoc. reflexivity.
      + apply (rep_isn _ _ R).
        replace (ts ++ b :: y) with (flat q) by (rewrite E2, <- app_assoc; reflexivity).
        eapply boundary_end; eauto.
  Qed.

  Lemma part_at_sym x y w a b : part_at x y w a b -> part_at y x w b a.
  Proof. intros (N & P & Q). repeat split; auto. Qed.

  Lemma part_at_len x y w a b : part_at x y w a b -> length w < length x /\ length w < length y.
  Proof.
    intros (_ & [r ->] & [s ->]). rewrite !app_length. simpl. lia.
  Qed.

  Lemma part_at_irrefl x w a b : ~ part_at x x w a b.
  Proof.
    intros (N & [r E] & [s F]). rewrite E in F. rewrite <- !app_assoc in F.
    apply app_inv_head in F. simpl in F. congruence.
  Qed.

  (** The boundaries after one more entry. *)
  Lemma boundary_snoc (T : table) p c ts :
    boundary (T ++ [(p, c)]) ts <->
    boundary T ts \/ (exists i, ts = flat (firstn i p)) \/
    (exists q d a b, In (q, d) T /\ part_at (flat p) (flat q) ts a b).
  Proof.
    unfold boundary. split.
    - intros [->|[(p' & c' & i & I & ->)|(p' & c' & q & d & a & b & I & J & P)]].
      + auto.
      + apply in_app_or in I as [I|[I|[]]].
        * left. right. left. eauto.
        * injection I as -> ->. right. left. eauto.
      + apply in_app_or in I as [I|[I|[]]]; apply in_app_or in J as [J|[J|[]]].
        * left. right. right. exists p', c', q, d, a, b. auto.
        * injection J as -> ->. right. right. exists p', c', b, a. auto using part_at_sym.
        * injection I as -> ->. right. right. exists q, d, a, b. auto.
        * exfalso. injection I as -> ->. injection J as -> ->. eapply part_at_irrefl; eauto.
    - intros [[->|[(p' & c' & i & I & ->)|(p' & c' & q & d & a & b & I & J & P)]]|[[i ->]|(q & d & a & b & I & P)]].
      + auto.
      + right. left. exists p', c', i. split; [apply in_or_app; auto|reflexivity].
      + right. right. exists p', c', q, d, a, b. repeat split; try apply in_or_app; auto; apply P.
      + right. left. exists p, c, i. split; [apply in_or_app; simpl; auto|reflexivity].
      + right. right. exists p, c, q, d, a, b. repeat split; try apply in_or_app; simpl; auto; apply P.
  Qed.

  Lemma isn_same_kids (m m' : node) r : nkids m' = nkids m -> (isn m' r <-> isn m r).
  Proof.
    intros E. split; intros [w D]; apply dn_inv in D as [[-> _]|(c & s & I & -> & D)];
      try apply isn_nil; exists w; apply dn_kid; auto; congruence.
  Qed.

  Lemma dv_same_kids (m m' : node) r v : nkids m' = nkids m -> r <> [] -> (dv m' r v <-> dv m r v).
  Proof.
    intros E N. split; intros D; apply dn_inv in D as [[-> _]|(c & s & I & -> & D)];
      try congruence; apply dn_kid; auto; congruence.
  Qed.

  Lemma wf_same_kids (m m' : node) : nkids m' = nkids m -> wf m -> wf m'.
  Proof.
    intros E W. destruct m as [k v cs], m' as [k' v' cs']. simpl in E. subst cs'.
    eapply wf_rekey; exact W.
  Qed.

  Lemma app_prefix_not_long {A} (K r x : list A) : r <> [] -> ~ prefix (K ++ r) K.
  Proof.
    intros N [s E]. assert (F : length K = length ((K ++ r) ++ s)) by (rewrite <- E; reflexivity).
    rewrite !app_length in F. destruct r; [congruence|]. simpl in F. lia.
  Qed.

  (** The boundaries only depend on the paths. *)
  Lemma boundary_paths (T U : table) ts : map fst T = map fst U -> boundary T ts -> boundary U ts.
  Proof.
    intros E.
    assert (X : forall p c, In (p, c) T -> exists d, In (p, d) U).
    { intros p c I. assert (J : In p (map fst U)) by (rewrite <- E; apply (in_map fst _ _ I)).
      apply in_map_iff in J as ([p' d] & Ep & J). simpl in Ep. subst p'. eauto. }
    intros [->|[(p & c & i & I & ->)|(p & c & q & d & a & b & I & J & PA)]].
    - left. reflexivity.
    - right. left. apply X in I as [c' I]. eauto.
    - right. right. apply X in I as [c' I]. apply X in J as [d' J]. exists p, c', q, d', a, b. auto.
  Qed.

  (** The place at the end of [p] gets the value that [U] has there. *)
  Lemma rep_put t (T U : table) p c m0 ctx m' :
    Rep t T -> wplace t p m0 ctx ->
    nkids m' = nkids m0 -> nkey m' = nkey m0 ->
    map fst U = map fst (T ++ [(p, c)]) ->
    (forall ts, ts <> flat p -> routes_at U ts = routes_at T ts /\ mws_at U ts = mws_at T ts) ->
    ((has_value U (flat p) /\ nval m' = Some (val_of U (flat p))) \/
     (~ has_value U (flat p) /\ nval m' = None)) ->
    Rep (ctx m') U.
  Proof.
    intros R P Ek Ey Eb OT HVv.
    assert (Wm : wf m') by (eapply wf_same_kids; [exact Ek|apply P]).
    assert (OV : forall ts, ts <> flat p -> (has_value U ts <-> has_value T ts) /\ val_of U ts = val_of T ts).
    { intros ts N. destruct (OT ts N) as [E1 E2]. unfold has_value, val_of. rewrite E1, E2.
      split; reflexivity. }
    constructor.
    - apply (wp_wf _ _ _ _ P); auto.
    - intros ts.
      assert (BB : boundary U ts <-> boundary (T ++ [(p, c)]) ts) by (split; apply boundary_paths; congruence).
      rewrite BB, boundary_snoc. destruct (prefix_dec (flat p) ts) as [[r ->]|NP].
      + assert (EQ : isn (ctx m') (flat p ++ r) <-> isn m0 r).
        { rewrite <- (isn_same_kids m0 m' r Ek). apply isn_iff. intros w. apply (wp_in _ _ _ _ P); auto. }
        rewrite EQ. destruct r as [|t0 r].
        * split; [|intros _; apply isn_nil]. intros _. right. left. exists (length p).
          rewrite firstn_all, app_nil_r. reflexivity.
        * rewrite (wp_isn0 _ _ _ _ P) by discriminate. rewrite (rep_isn _ _ R).
          split; [auto|]. intros [B|[[i E]|(q & d & a & b & I & PA)]]; [exact B| |].
          -- exfalso. apply (app_prefix_not_long (flat p) (t0 :: r) []); [discriminate|].
             rewrite E. apply flat_firstn_prefix.
          -- exfalso. apply part_at_len in PA as [L _]. rewrite app_length in L. lia.
      + rewrite (wp_isn _ _ _ _ P) by auto. rewrite (rep_isn _ _ R), (rep_fork _ _ _ _ R). tauto.
    - intros ts v. destruct (prefix_dec (flat p) ts) as [[r ->]|NP].
      + unfold dv. rewrite (wp_in _ _ _ _ P) by auto. fold (dv m' r v).
        destruct r as [|t0 r].
        * rewrite app_nil_r. destruct HVv as [[HV Ev]|[NV Ev]]; split.
          -- intros D. apply dn_nil in D; [|exact Wm]. rewrite Ev in D. injection D as ->. auto.
          -- intros [_ ->]. unfold dv. rewrite <- Ev. apply dn_here.
          -- intros D. apply dn_nil in D; [|exact Wm]. congruence.
          -- intros [HV _]. contradiction.
        * rewrite (dv_same_kids m0 m') by (auto; discriminate).
          rewrite (wp_dv0 _ _ _ _ P), (rep_dv _ _ R).
          assert (N : flat p ++ t0 :: r <> flat p).
          { intros E. rewrite <- (app_nil_r (flat p)) in E at 2. apply app_inv_head in E. discriminate. }
          destruct (OV _ N) as [-> ->]. reflexivity.
      + rewrite (wp_dv _ _ _ _ P) by auto. rewrite (rep_dv _ _ R).
        assert (N : ts <> flat p) by (intros ->; apply NP, prefix_refl).
        destruct (OV _ N) as [-> ->]. reflexivity.
  Qed.

  Lemma other_values (T : table) p c ts : ts <> flat p ->
    routes_at (T ++ [(p, c)]) ts = routes_at T ts /\ mws_at (T ++ [(p, c)]) ts = mws_at T ts.
  Proof.
    intros N. rewrite routes_at_app, mws_at_app. simpl.
    destruct c; try (destruct (toks_eq_dec (flat p) ts) as [E|]; [congruence|]); simpl;
      rewrite !app_nil_r; auto.
  Qed.

  (** One more value at the end of [p]. *)
  Lemma rep_add t T p c m0 ctx m' :
    Rep t T -> wplace t p m0 ctx -> c <> CNode ->
    nkids m' = nkids m0 -> nkey m' = nkey m0 ->
    nval m' = Some (val_of (T ++ [(p, c)]) (flat p)) ->
    Rep (ctx m') (T ++ [(p, c)]).
  Proof.
    intros R P Nc Ek Ey Ev.
    assert (HV : has_value (T ++ [(p, c)]) (flat p)).
    { unfold has_value. rewrite routes_at_app, mws_at_app. destruct c as [m h|mw|]; [| |congruence].
      - left. simpl. destruct (toks_eq_dec (flat p) (flat p)); [|congruence].
        intros E. apply app_eq_nil in E as [_ E]. discriminate.
      - right. simpl. destruct (toks_eq_dec (flat p) (flat p)); [|congruence].
        intros E. apply app_eq_nil in E as [_ E]. discriminate. }
    apply (rep_put t T (T ++ [(p, c)]) p c m0 ctx m'); auto. apply other_values.
  Qed.

  (** The value at the place. *)
  Lemma rep_place_value t T p m0 ctx :
    Rep t T -> wplace t p m0 ctx ->
    (has_value T (flat p) /\ nval m0 = Some (val_of T (flat p))) \/
    (~ has_value T (flat p) /\ nval m0 = None).
  Proof.
    intros R P. pose proof (wp_dv0 _ _ _ _ P []) as E. rewrite app_nil_r in E.
    destruct (nval m0) as [v|] eqn:Ev.
    - left. assert (D : dv m0 [] v) by (unfold dv; rewrite <- Ev; apply dn_here).
      apply E, (rep_dv _ _ R) in D as [HV ->]. auto.
    - right. split; [|reflexivity]. intros HV.
      assert (D : dv m0 [] (val_of T (flat p))) by (apply E, (rep_dv _ _ R); auto).
      apply dn_nil in D; [|apply P]. congruence.
  Qed.

  Lemma no_value_nil (T : table) ts : ~ has_value T ts -> routes_at T ts = [] /\ mws_at T ts = [].
  Proof.
    intros N. unfold has_value in N. split.
    - destruct (routes_at T ts); [reflexivity|]. exfalso. apply N. left. discriminate.
    - destruct (mws_at T ts); [reflexivity|]. exfalso. apply N. right. discriminate.
  Qed.

  Lemma method_eqb_spec a b : method_eqb a b = true <-> a = b.
  Proof.
    destruct a, b; simpl; split; intros E; try discriminate; try reflexivity.
    - apply str_eqb_eq in E. congruence.
    - injection E as ->. apply str_eqb_refl.
  Qed.

  Definition rmap (l : list (method * H)) : list (method * route H) :=
    map (fun x : method * H => (fst x, Route (fst x) (snd x))) l.

  Lemma rmap_get l m : aget method_eqb m (rmap l) = None <-> ~ exists h, In (m, h) l.
  Proof.
    rewrite (aget_None _ method_eqb_spec). unfold rmap. split; intros N [x I]; apply N.
    - exists (Route m x). apply in_map_iff. exists (m, x). auto.
    - apply in_map_iff in I as ([m' h] & E & I). simpl in E. injection E as -> _. eauto.
  Qed.

  Lemma set_route_rep t T p m h m0 ctx :
    Rep t T -> wplace t p m0 ctx ->
    if aget method_eqb m (rmap (routes_at T (flat p))) then
      snd (set_route (Route m h) m0) = Some PDuplicate
    else
      snd (set_route (Route m h) m0) = None /\
      Rep (ctx (fst (set_route (Route m h) m0))) (T ++ [(p, CRoute m h)]).
  Proof.
    intros R P.
    destruct (rep_place_value _ _ _ _ _ R P) as [[HV Ev]|[NV Ev]].
    - destruct (aget method_eqb m (rmap (routes_at T (flat p)))) eqn:E.
      + destruct m0 as [k v cs]. simpl in *. subst v. simpl. fold (rmap (routes_at T (flat p))).
        rewrite E. reflexivity.
      + destruct m0 as [k v cs]. simpl in *. subst v. simpl. fold (rmap (routes_at T (flat p))).
        rewrite E. split; [reflexivity|].
        eapply rep_add; eauto; try reflexivity; try discriminate. simpl. f_equal. unfold val_of.
        rewrite routes_at_app, mws_at_app, map_app. simpl.
        destruct (toks_eq_dec (flat p) (flat p)); [|congruence].
        rewrite app_nil_r. f_equal. apply ainsert_fresh. exact E.
    - apply no_value_nil in NV as [NR NM]. rewrite NR. simpl.
      destruct m0 as [k v cs]. simpl in *. subst v. simpl. split; [reflexivity|].
      eapply rep_add; eauto; try reflexivity; try discriminate. simpl. f_equal. unfold val_of.
      rewrite routes_at_app, mws_at_app, NR, NM. simpl.
      destruct (toks_eq_dec (flat p) (flat p)); [|congruence]. reflexivity.
  Qed.

  (** A place that is visited but not given a value. *)
  Lemma rep_visit t T p m0 ctx : Rep t T -> wplace t p m0 ctx -> Rep (ctx m0) (T ++ [(p, CNode)]).
  Proof.
    intros R P. apply (rep_put t T (T ++ [(p, CNode)]) p CNode m0 ctx m0); auto; [apply other_values|].
    unfold has_value, val_of. rewrite routes_at_app, mws_at_app. simpl. rewrite !app_nil_r.
    exact (rep_place_value _ _ _ _ _ R P).
  Qed.

  Lemma overwrite_paths (T : table) ts m h : map fst (overwrite T ts m h) = map fst T.
  Proof.
    induction T as [|[p [m' h'|mw|]] T IH]; simpl; [reflexivity| |congruence|congruence].
    destruct (method_eqb m m'); [destruct (toks_eq_dec (flat p) ts)|]; simpl; congruence.
  Qed.

  Lemma overwrite_mws (T : table) ts m h ts' : mws_at (overwrite T ts m h) ts' = mws_at T ts'.
  Proof.
    induction T as [|[p [m' h'|mw|]] T IH]; simpl; [reflexivity| | |].
    - destruct (method_eqb m m'); [destruct (toks_eq_dec (flat p) ts)|]; simpl; auto.
    - f_equal. exact IH.
    - exact IH.
  Qed.

  Lemma overwrite_routes_other (T : table) ts m h ts' : ts' <> ts ->
    routes_at (overwrite T ts m h) ts' = routes_at T ts'.
  Proof.
    intros N. induction T as [|[p [m' h'|mw|]] T IH]; simpl; [reflexivity| | |]; auto.
    destruct (method_eqb m m'); [destruct (toks_eq_dec (flat p) ts) as [E|E]|]; simpl.
    - destruct (toks_eq_dec (flat p) ts'); [congruence|reflexivity].
    - f_equal. exact IH.
    - f_equal. exact IH.
  Qed.

  Lemma overwrite_routes (T : table) ts m h : In m (map fst (routes_at T ts)) ->
    rmap (routes_at (overwrite T ts m h) ts) = ainsert method_eqb m (Route m h) (rmap (routes_at T ts)).
  Proof.
    induction T as [|[p [m' h'|mw|]] T IH]; simpl; [intros []| | |]; auto.
    destruct (toks_eq_dec (flat p) ts) as [E|E]; simpl.
    - destruct (method_eqb m m') eqn:Em; simpl.
      + destruct (toks_eq_dec (flat p) ts); [|congruence]. intros _. simpl.
        apply method_eqb_spec in Em. subst m'. reflexivity.
      + intros [F|F]; [subst m'; rewrite (proj2 (method_eqb_spec m m) eq_refl) in Em; discriminate|].
        destruct (toks_eq_dec (flat p) ts); [|congruence]. simpl. f_equal. apply IH. exact F.
    - intros F. destruct (method_eqb m m'); simpl; destruct (toks_eq_dec (flat p) ts); try congruence; simpl; auto.
  Qed.

  Lemma set_route_dup t T p m h m0 ctx :
    Rep t T -> wplace t p m0 ctx -> (exists h0, In (m, h0) (routes_at T (flat p))) ->
    snd (set_route (Route m h) m0) = Some PDuplicate /\
    Rep (ctx (fst (set_route (Route m h) m0))) (overwrite T (flat p) m h ++ [(p, CNode)]).
  Proof.
    intros R P [h0 I].
    assert (HV : has_value T (flat p)) by (left; apply not_nil_In; eauto).
    destruct (rep_place_value _ _ _ _ _ R P) as [[_ Ev]|[NV _]]; [|contradiction].
    assert (Im : In m (map fst (routes_at T (flat p)))) by (apply (in_map fst _ _ I)).
    pose proof (overwrite_routes T (flat p) m h Im) as OR.
    destruct (aget method_eqb m (rmap (routes_at T (flat p)))) as [r|] eqn:E.
    2:{ apply rmap_get in E. exfalso. eauto. }
    destruct m0 as [k v cs]. simpl in *. subst v. simpl. fold (rmap (routes_at T (flat p))).
    rewrite E. split; [reflexivity|].
    assert (U : forall ts, routes_at (overwrite T (flat p) m h ++ [(p, CNode)]) ts = routes_at (overwrite T (flat p) m h) ts
                        /\ mws_at (overwrite T (flat p) m h ++ [(p, CNode)]) ts = mws_at T ts).
    { intros ts. rewrite routes_at_app, mws_at_app, overwrite_mws. simpl. rewrite !app_nil_r. auto. }
    eapply (rep_put t T _ p CNode _ ctx); [exact R|exact P|reflexivity|reflexivity| | |].
    - rewrite !map_app, overwrite_paths. reflexivity.
    - intros ts N. destruct (U ts) as [-> ->]. rewrite overwrite_routes_other by exact N. auto.
    - left. unfold has_value, val_of. destruct (U (flat p)) as [-> ->]. split.
      + left. intros F. rewrite F in OR. simpl in OR.
        destruct (rmap (routes_at T (flat p))) as [|[m1 r1] l]; simpl in *; [discriminate|].
        destruct (method_eqb m m1); discriminate.
      + simpl. f_equal. f_equal. symmetry. exact OR.
  Qed.

  Lemma push_mw_rep t T p mw m0 ctx :
    Rep t T -> wplace t p m0 ctx ->
    snd (push_mw mw m0) = None /\
    Rep (ctx (fst (push_mw mw m0))) (T ++ [(p, CMw mw)]).
  Proof.
    intros R P.
    destruct (rep_place_value _ _ _ _ _ R P) as [[HV Ev]|[NV Ev]].
    - destruct m0 as [k v cs]. simpl in *. subst v. simpl. split; [reflexivity|].
      eapply rep_add; eauto; try reflexivity; try discriminate. simpl. f_equal. unfold val_of.
      rewrite routes_at_app, mws_at_app. simpl.
      destruct (toks_eq_dec (flat p) (flat p)); [|congruence].
      rewrite ?app_nil_r. reflexivity.
    - apply no_value_nil in NV as [NR NM].
      destruct m0 as [k v cs]. simpl in *. subst v. simpl. split; [reflexivity|].
      eapply rep_add; eauto; try reflexivity; try discriminate. simpl. f_equal. unfold val_of.
      rewrite routes_at_app, mws_at_app, NR, NM. simpl.
      destruct (toks_eq_dec (flat p) (flat p)); [|congruence]. reflexivity.
  Qed.

  (** ** Mounting *)

  Lemma routes_at_with_prefix p (S : table) r :
    routes_at (with_prefix p S) (flat p ++ r) = routes_at S r.
  Proof.
    unfold routes_at, with_prefix. induction S as [|[q c] S IH]; [reflexivity|]. simpl. rewrite IH. f_equal.
    destruct c; try reflexivity. rewrite flat_app.
    destruct (toks_eq_dec (flat p ++ flat q) (flat p ++ r)) as [E|N], (toks_eq_dec (flat q) r) as [F|NF];
      try reflexivity.
    - exfalso. apply app_inv_head in E. contradiction.
    - exfalso. subst. contradiction.
  Qed.

  Lemma mws_at_with_prefix p (S : table) r :
    mws_at (with_prefix p S) (flat p ++ r) = mws_at S r.
  Proof.
    unfold mws_at, with_prefix. induction S as [|[q c] S IH]; [reflexivity|]. simpl. rewrite IH. f_equal.
    destruct c; try reflexivity. rewrite flat_app.
    destruct (toks_eq_dec (flat p ++ flat q) (flat p ++ r)) as [E|N], (toks_eq_dec (flat q) r) as [F|NF];
      try reflexivity.
    - exfalso. apply app_inv_head in E. contradiction.
    - exfalso. subst. contradiction.
  Qed.

  Lemma routes_at_nil (T : table) ts :
    (forall p c, In (p, c) T -> flat p <> ts) -> routes_at T ts = [] /\ mws_at T ts = [].
  Proof.
    intros N. apply no_value_nil. intros HV. apply has_value_entry in HV as (p & c & I & E).
    exact (N _ _ I E).
  Qed.

  Lemma in_with_prefix p (S : table) q c :
    In (q, c) (with_prefix p S) <-> exists q', q = p ++ q' /\ In (q', c) S.
  Proof.
    unfold with_prefix. rewrite in_map_iff. split.
    - intros ([q' c'] & E & I). simpl in E. injection E as <- <-. eauto.
    - intros (q' & -> & I). exists (q', c). auto.
  Qed.

  (** Nothing at or below [K]. *)
  Definition free_below (T : table) (K : list tok) : Prop :=
    ~ has_value T K /\ ~ exists q c, In (q, c) T /\ strict_prefix K (flat q).

  Lemma free_no_ext (T : table) K r q c :
    free_below T K -> r <> [] -> In (q, c) T -> ~ prefix (K ++ r) (flat q).
  Proof.
    intros [_ F] N I [s E]. apply F. exists q, c. split; [exact I|].
    destruct r as [|x r]; [congruence|]. exists x, (r ++ s). rewrite E, <- app_assoc. reflexivity.
  Qed.

  Lemma free_no_value (T : table) K r : free_below T K -> routes_at T (K ++ r) = [] /\ mws_at T (K ++ r) = [].
  Proof.
    intros F. destruct r as [|x r].
    - rewrite app_nil_r. apply no_value_nil. apply F.
    - apply routes_at_nil. intros q c I E.
      apply (free_no_ext T K (x :: r) q c F ltac:(discriminate) I). rewrite E. apply prefix_refl.
  Qed.

  Lemma prefix_app_cancel {A} (K x y : list A) : prefix (K ++ x) (K ++ y) <-> prefix x y.
  Proof.
    split; intros [r E].
    - rewrite <- app_assoc in E. apply app_inv_head in E. exists r. exact E.
    - exists r. rewrite E. apply app_assoc.
  Qed.

  Lemma part_at_cancel K x y r a b : part_at (K ++ x) (K ++ y) (K ++ r) a b <-> part_at x y r a b.
  Proof. unfold part_at. rewrite <- !app_assoc, !prefix_app_cancel. reflexivity. Qed.

  Lemma firstn_flat_split i p q r :
    r <> [] -> flat p ++ r = flat (firstn i (p ++ q)) -> r = flat (firstn (i - length p) q).
  Proof.
    intros N E. rewrite firstn_app, flat_app in E.
    destruct (Nat.le_gt_cases i (length p)) as [L|L].
    - exfalso. replace (i - length p) with 0 in E by lia. simpl in E. rewrite app_nil_r in E.
      apply (app_prefix_not_long (flat p) r []); [exact N|]. rewrite E. apply flat_firstn_prefix.
    - rewrite firstn_all2 in E by lia. apply app_inv_head in E. exact E.
  Qed.

  Lemma rep_mount t T p S src m0 ctx :
    Rep t T -> Rep src S -> wplace t p m0 ctx -> free_below T (flat p) ->
    Rep (ctx (Node (nkey m0) (nval src) (nkids src))) (T ++ (p, CNode) :: with_prefix p S).
  Proof.
    intros R RS P F. set (m' := Node (nkey m0) (nval src) (nkids src)).
    set (T' := T ++ (p, CNode) :: with_prefix p S).
    assert (Wm : wf m') by (apply (wf_same_kids src); [reflexivity|apply RS]).
    assert (Em : nkey m' = nkey m0) by reflexivity.
    assert (InT' : forall q c, In (q, c) T' <-> In (q, c) T \/ (q = p /\ c = CNode) \/
                                 exists q', q = p ++ q' /\ In (q', c) S).
    { intros q c. unfold T'. rewrite in_app_iff. simpl. rewrite in_with_prefix.
      split; intros [I|[I|I]]; auto.
      - injection I as -> ->. auto.
      - destruct I as [-> ->]. auto. }
    assert (VIN : forall r, routes_at T' (flat p ++ r) = routes_at S r /\ mws_at T' (flat p ++ r) = mws_at S r).
    { intros r. unfold T'. rewrite routes_at_app, mws_at_app.
      destruct (free_no_value T (flat p) r F) as [-> ->].
      simpl. fold (routes_at (with_prefix p S) (flat p ++ r)). fold (mws_at (with_prefix p S) (flat p ++ r)).
      rewrite routes_at_with_prefix, mws_at_with_prefix. auto. }
    assert (VOUT : forall ts, ~ prefix (flat p) ts -> routes_at T' ts = routes_at T ts /\ mws_at T' ts = mws_at T ts).
    { intros ts NP. unfold T'. rewrite routes_at_app, mws_at_app. simpl.
      fold (routes_at (with_prefix p S) ts). fold (mws_at (with_prefix p S) ts).
      destruct (routes_at_nil (with_prefix p S) ts) as [-> ->]; [|rewrite !app_nil_r; auto].
      intros q c I E. apply in_with_prefix in I as (q' & -> & _). apply NP. rewrite <- E, flat_app. apply prefix_app. }
    constructor.
    - apply (wp_wf _ _ _ _ P); auto.
    - intros ts. destruct (prefix_dec (flat p) ts) as [[r ->]|NP].
      + assert (EQ : isn (ctx m') (flat p ++ r) <-> isn src r).
        { rewrite <- (isn_same_kids src m' r eq_refl). apply isn_iff. intros w. apply (wp_in _ _ _ _ P); auto. }
        rewrite EQ, (rep_isn _ _ RS). destruct r as [|t0 r].
        { split; [|left; reflexivity]. intros _. rewrite app_nil_r.
          apply (boundary_end T' p CNode). apply InT'. auto. }
        assert (NR : t0 :: r <> []) by discriminate. set (r' := t0 :: r) in *.
        split.
        * intros [B|[(q & c & i & I & B)|(q & c & q2 & d & a & b & I & J & PA)]]; [contradiction| |].
          -- right. left. exists (p ++ q), c, (length p + i). split.
             ++ apply InT'. right. right. eauto.
             ++ rewrite firstn_app_2, flat_app, B. reflexivity.
          -- right. right. exists (p ++ q), c, (p ++ q2), d, a, b. split; [|split].
             ++ apply InT'. right. right. eauto.
             ++ apply InT'. right. right. eauto.
             ++ rewrite !flat_app. apply part_at_cancel. exact PA.
        * assert (X : forall q c, In (q, c) T' -> prefix (flat p ++ r') (flat q) ->
                                  exists q', q = p ++ q' /\ In (q', c) S).
          { intros q c I PR. apply InT' in I as [I|[[-> _]|I]]; [| |exact I]; exfalso.
            - exact (free_no_ext T (flat p) r' q c F NR I PR).
            - exact (app_prefix_not_long (flat p) r' [] NR PR). }
          intros [B|[(q & c & i & I & B)|(q & c & q2 & d & a & b & I & J & PA)]].
          -- exfalso. apply app_eq_nil in B as [_ B]. contradiction.
          -- destruct (X q c I) as (q' & -> & Iq); [rewrite B; apply flat_firstn_prefix|].
             right. left. exists q', c, (i - length p). split; [exact Iq|].
             apply firstn_flat_split; assumption.
          -- pose proof PA as (_ & [x Ex] & [y Ey]).
             destruct (X q c I) as (q' & -> & Iq); [rewrite Ex, <- app_assoc; apply prefix_app|].
             destruct (X q2 d J) as (q2' & -> & Jq); [rewrite Ey, <- app_assoc; apply prefix_app|].
             rewrite !flat_app in PA. apply (proj1 (part_at_cancel _ _ _ _ _ _)) in PA.
             right. right. exists q', c, q2', d, a, b. auto.
      + rewrite (wp_isn _ _ _ _ P) by auto. rewrite (rep_isn _ _ R), (rep_fork _ _ _ _ R).
        assert (SH : forall q a, prefix (ts ++ [a]) (flat p ++ q) -> prefix (ts ++ [a]) (flat p)).
        { intros q a [x E]. rewrite <- app_assoc in E.
          apply app_eq_cases in E as [(r & -> & _)|(z & r & E & E2)].
          - exfalso. apply NP. apply prefix_app.
          - simpl in E2. injection E2 as <- _. exists r. rewrite E, <- app_assoc. reflexivity. }
        split.
        * intros [B|[(q & c & a & b & I & PA)|[i ->]]].
          -- destruct B as [->|[(q & c & i & I & ->)|(q & c & q2 & d & a & b & I & J & PA)]].
             ++ left. reflexivity.
             ++ right. left. exists q, c, i. split; [apply InT'; auto|reflexivity].
             ++ right. right. exists q, c, q2, d, a, b. split; [apply InT'; auto|]. split; [apply InT'; auto|exact PA].
          -- right. right. exists p, CNode, q, c, a, b. split; [apply InT'; auto|]. split; [apply InT'; auto|exact PA].
          -- right. left. exists p, CNode, i. split; [apply InT'; auto|reflexivity].
        * assert (PP : forall q c a, In (q, c) T' -> prefix (ts ++ [a]) (flat q) ->
                       In (q, c) T \/ prefix (ts ++ [a]) (flat p)).
          { intros q c a I PR. apply InT' in I as [I|[[-> _]|(q' & -> & I)]]; auto.
            right. rewrite flat_app in PR. eapply SH; eauto. }
          intros [->|[(q & c & i & I & ->)|(q & c & q2 & d & a & b & I & J & PA)]].
          -- left. left. reflexivity.
          -- apply InT' in I as [I|[[-> _]|(q' & -> & I)]].
             ++ left. right. left. eauto.
             ++ right. right. eauto.
             ++ destruct (Nat.le_gt_cases i (length p)) as [L|L].
                ** right. right. exists i. rewrite firstn_app. replace (i - length p) with 0 by lia.
                   simpl. rewrite app_nil_r. reflexivity.
                ** exfalso. apply NP. rewrite firstn_app, flat_app, firstn_all2 by lia. apply prefix_app.
          -- pose proof PA as (N & P1 & P2).
             destruct (PP _ _ _ I P1) as [I'|Q1], (PP _ _ _ J P2) as [J'|Q2].
             ++ left. right. right. exists q, c, q2, d, a, b. auto.
             ++ right. left. exists q, c, b, a. split; [exact I'|]. repeat split; auto.
             ++ right. left. exists q2, d, a, b. split; [exact J'|]. repeat split; auto.
             ++ exfalso. apply (part_at_irrefl (flat p) ts a b). repeat split; auto.
    - intros ts v. destruct (prefix_dec (flat p) ts) as [[r ->]|NP].
      + unfold dv. rewrite (wp_in _ _ _ _ P) by auto. fold (dv m' r v).
        unfold has_value, val_of. destruct (VIN r) as [-> ->].
        change (dv m' r v <-> has_value S r /\ v = val_of S r). rewrite <- (rep_dv _ _ RS).
        apply dn_rekey.
      + rewrite (wp_dv _ _ _ _ P) by auto. rewrite (rep_dv _ _ R).
        unfold has_value, val_of. destruct (VOUT ts NP) as [-> ->]. reflexivity.
  Qed.
End Rep.
