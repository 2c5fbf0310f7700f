(** What [process_insertion] and [walk] do to the denotation of a trie. *)

From Verif Require Import Base BaseFacts RouteTrie Router TableSpec TrieDen.

Section Ins.
  Context {H M : Type}.
  Notation node := (node H M).
  Notation rvalue := (rvalue H M).

  Lemma is_param_kt (c : node) : is_param c = true <-> exists n, kt c = [Par n].
  Proof.
    unfold is_param, kt. rewrite starts_colon_spec. split.
    - intros [r ->]. exists r. reflexivity.
    - intros [n E]. destruct (nkey c) as [|x r]; [discriminate|].
      unfold seg_toks in E. destruct (N.eqb x c_colon) eqn:Ex.
      + apply N.eqb_eq in Ex. subst. exists r. reflexivity.
      + destruct (str_eqb (x :: r) s_star); discriminate.
  Qed.

  Lemma hd_par_is_param (c : node) n r : kt c = Par n :: r -> is_param c = true.
  Proof.
    unfold is_param, kt. rewrite starts_colon_spec. intros E.
    destruct (nkey c) as [|x s]; [discriminate|].
    unfold seg_toks in E. destruct (N.eqb x c_colon) eqn:Ex.
    + apply N.eqb_eq in Ex. subst. exists s. reflexivity.
    + destruct (str_eqb (x :: s) s_star); discriminate.
  Qed.

  Lemma hd_star_is_star (c : node) r : key_ok (nkey c) -> kt c = Star :: r -> nkey c = s_star.
  Proof.
    unfold kt. intros K E. inversion K as [r' E'|E'|s N L E'].
    - rewrite <- E' in E. discriminate.
    - reflexivity.
    - rewrite (seg_toks_lit _ L) in E. destruct (nkey c); discriminate.
  Qed.

  Lemma kt_cons cs (c : node) : kids_ok cs -> In c cs -> exists t r, kt c = t :: r.
  Proof.
    intros K I. pose proof (kt_nil _ _ K I). destruct (kt c) as [|t r]; [congruence|]. eauto.
  Qed.

  (** If a child starts with a parameter it is the only one. *)
  Lemma param_alone cs (c d : node) t :
    kids_ok cs -> In c cs -> In d cs -> is_par t -> (exists r, kt c = t :: r) -> c = d.
  Proof.
    intros K Ic Id [n ->] [r E]. destruct K as (_ & _ & PA & _).
    pose proof (PA c Ic (hd_par_is_param _ _ _ E)) as ->. destruct Id as [<-|[]]. reflexivity.
  Qed.

  Lemma NoDup_swap {A} (l1 l2 : list A) x y :
    x = y -> NoDup (l1 ++ x :: l2) -> NoDup (l1 ++ y :: l2).
  Proof. intros ->. exact (fun z => z). Qed.

  Lemma kids_ok_swap l1 (c c' : node) l2 :
    kids_ok (l1 ++ c :: l2) -> key_ok (nkey c') -> hd_error (kt c') = hd_error (kt c) ->
    kids_ok (l1 ++ c' :: l2).
  Proof.
    intros K K' Hd. pose proof K as (KO & ND & PA & ST).
    assert (Ic : In c (l1 ++ c :: l2)) by apply in_elt.
    destruct (kt_cons _ _ K Ic) as (t & r & Et).
    assert (Et' : exists r', kt c' = t :: r').
    { rewrite Et in Hd. destruct (kt c'); [discriminate|]. injection Hd as ->. eauto. }
    destruct Et' as [r' Et'].
    repeat split.
    - intros d I. apply in_app_or in I as [I|[<-|I]]; [|exact K'|]; apply KO; apply in_or_app; simpl; auto.
    - rewrite map_app in *. simpl in *. rewrite Hd. exact ND.
    - intros d I P.
      assert (X : is_param c = true -> l1 = [] /\ l2 = []).
      { intros Pc. pose proof (PA c Ic Pc) as E. destruct l1 as [|z [|z' l1]]; simpl in E.
        - injection E as ->. auto.
        - discriminate.
        - discriminate. }
      apply in_app_or in I as [I|[<-|I]].
      + assert (E : l1 ++ c :: l2 = [d]) by (apply PA; [apply in_or_app; auto|exact P]).
        destruct l1 as [|z l1]; [contradiction|]. simpl in E.
        assert (F : length (l1 ++ c :: l2) = 0) by (injection E as _ ->; reflexivity).
        rewrite app_length in F. simpl in F. lia.
      + apply is_param_kt in P as [n E]. rewrite Et' in E. injection E as -> ->.
        destruct (X (hd_par_is_param _ _ _ Et)) as [-> ->]. reflexivity.
      + assert (E : l1 ++ c :: l2 = [d]) by (apply PA; [apply in_or_app; simpl; auto|exact P]).
        assert (F : length (l1 ++ c :: l2) = 1) by (rewrite E; reflexivity).
        rewrite app_length in F. simpl in F. destruct l2; [contradiction|]. simpl in F. lia.
    - intros m1 d m2 E Sd.
      apply app_eq_cases in E as [(x & -> & E)|(x & x' & -> & E)].
      + destruct x as [|x0 x].
        * simpl in E. injection E as <- <-.
          assert (t = Star). { unfold kt in Et'. rewrite Sd in Et'. injection Et' as <- _. reflexivity. }
          subst t. apply (ST l1 c l2 eq_refl). eapply hd_star_is_star; eauto.
        * simpl in E. injection E as -> ->.
          apply (ST (l1 ++ c :: x) d m2); [rewrite <- app_assoc; reflexivity | exact Sd].
      + injection E as -> ->.
        exfalso. pose proof (ST m1 x (x' ++ c :: l2)) as F.
        rewrite <- app_assoc in F. specialize (F eq_refl Sd). destruct x'; discriminate.
  Qed.

  Lemma wf_swap k v l1 (c c' : node) l2 :
    wf (Node k v (l1 ++ c :: l2)) -> wf c' -> key_ok (nkey c') ->
    hd_error (kt c') = hd_error (kt c) ->
    wf (Node k v (l1 ++ c' :: l2)).
  Proof.
    intros W W' K' Hd. constructor.
    - eapply kids_ok_swap; eauto. exact (wf_kids _ W).
    - intros d I. apply in_app_or in I as [I|[<-|I]]; [|exact W'|];
        apply (wf_kid _ _ W); simpl; apply in_or_app; simpl; auto.
  Qed.

  (** The part of the denotation that does not go through one chosen child. *)
  Definition others (v : option rvalue) (cs : list node) (ts : list tok) (w : option rvalue) : Prop :=
    (ts = [] /\ w = v) \/ (exists d r, In d cs /\ ts = kt d ++ r /\ dn d r w).

  Lemma dn_split k v l1 (c : node) l2 ts w :
    dn (Node k v (l1 ++ c :: l2)) ts w <->
    others v (l1 ++ l2) ts w \/ (exists r, ts = kt c ++ r /\ dn c r w).
  Proof.
    split.
    - intros D. apply dn_inv in D as [[-> ->]|(d & r & I & -> & D)].
      + left. left. auto.
      + simpl in I. apply in_app_or in I as [I|[<-|I]].
        * left. right. exists d, r. auto using in_or_app.
        * right. eauto.
        * left. right. exists d, r. auto using in_or_app.
    - intros [[[-> ->]|(d & r & I & -> & D)]|(r & -> & D)].
      + exact (dn_here (Node k v (l1 ++ c :: l2))).
      + apply dn_kid; [|exact D]. simpl. apply in_app_or in I as [I|I]; apply in_or_app; simpl; auto.
      + apply dn_kid; [|exact D]. apply in_elt.
  Qed.

  (** No token string with the first token of [c] goes through the others. *)
  Lemma others_not k v l1 (c : node) l2 t r s w :
    wf (Node k v (l1 ++ c :: l2)) -> kt c = t :: r -> ~ others v (l1 ++ l2) (t :: s) w.
  Proof.
    intros W E [[F _]|(d & x & I & F & _)]; [discriminate|].
    assert (Id : In d (l1 ++ c :: l2)) by (apply in_app_or in I as [I|I]; apply in_or_app; simpl; auto).
    pose proof (wf_kids _ W) as K. simpl in K.
    destruct (kt_cons _ _ K Id) as (t' & r' & Ed). rewrite Ed in F. injection F as -> F.
    assert (c = d) by (eapply kids_unique; eauto using in_elt). subst d.
    destruct K as (_ & ND & _). rewrite map_app in ND. simpl in ND.
    apply NoDup_remove_2 in ND. apply ND. rewrite <- map_app.
    apply (in_map (fun c => hd_error (kt c))). exact I.
  Qed.

  Lemma upd_nth_elt (f : node -> upd node) l1 c l2 :
    upd_nth f (length l1) (l1 ++ c :: l2) = let '(c', st) := f c in (l1 ++ c' :: l2, st).
  Proof.
    induction l1 as [|x l1 IH]; simpl; [reflexivity|].
    rewrite IH. destruct (f c). reflexivity.
  Qed.

  (** ** Forks and conflicts through a child *)

  Lemma strict_in_kid (n : node) c ts a r b y :
    wf n -> In c (nkids n) -> ts <> [] -> kt c = ts ++ a :: r -> isn n (ts ++ b :: y) -> a = b.
  Proof.
    intros W I N E J. destruct ts as [|t ts]; [congruence|]. simpl in *.
    apply isn_cons_wf in J as (d & s & x & Id & Ed & Er & _); [|exact W].
    assert (c = d) by (eapply kids_unique; eauto using wf_kids). subst d.
    rewrite Ed in E. injection E as ->. rewrite <- app_assoc in Er. apply app_inv_head in Er.
    simpl in Er. congruence.
  Qed.

  Lemma fork_kid (n : node) c K ts :
    wf n -> In c (nkids n) -> fork n (kt c ++ K) ts ->
    ts = [] \/ exists r, ts = kt c ++ r /\ fork c K r.
  Proof.
    intros W I (a & b & x & y & N & E & J).
    apply app_eq_cases in E as [(r & -> & E)|(z & r & E & E2)].
    - right. exists r. split; [reflexivity|]. exists a, b, x, y. repeat split; auto.
      rewrite <- app_assoc in J. apply isn_via in J; auto.
    - injection E2 as <- ->. destruct ts as [|t ts]; [auto|].
      exfalso. apply N. eapply (strict_in_kid n c (t :: ts)); eauto. discriminate.
  Qed.

  Lemma fork_kid_back (n : node) c K r :
    wf n -> In c (nkids n) -> fork c K r -> fork n (kt c ++ K) (kt c ++ r).
  Proof.
    intros W I (a & b & x & y & N & -> & J). exists a, b, x, y. repeat split; auto.
    - apply app_assoc.
    - rewrite <- app_assoc. apply isn_via; auto.
  Qed.

  Lemma conf_kid (n : node) c K :
    wf n -> In c (nkids n) -> (conf n (kt c ++ K) <-> conf c K).
  Proof.
    intros W I. split.
    - intros (w & a & b & x & y & N & E & J & P).
      apply app_eq_cases in E as [(r & -> & E)|(z & r & E & E2)].
      + exists r, a, b, x, y. repeat split; auto.
        rewrite <- app_assoc in J. apply isn_via in J; auto.
      + injection E2 as <- ->. destruct w as [|t w].
        * exfalso. simpl in *. apply isn_cons_wf in J as (d & s & u & Id & Ed & Er & _); [|exact W].
          assert (c = d).
          { destruct P as [P|P].
            - eapply param_alone; eauto using wf_kids.
            - symmetry. eapply param_alone; eauto using wf_kids. }
          subst d. congruence.
        * exfalso. apply N. eapply (strict_in_kid n c (t :: w)); eauto. discriminate.
    - intros (w & a & b & x & y & N & -> & J & P).
      exists (kt c ++ w), a, b, x, y. repeat split; auto.
      + apply app_assoc.
      + rewrite <- app_assoc. apply isn_via; auto.
  Qed.

  Lemma conf_nil (n : node) : ~ conf n [].
  Proof. intros (w & a & b & x & y & _ & E & _). destruct w; discriminate. Qed.

  Lemma fork_nil (n : node) ts : ~ fork n [] ts.
  Proof. intros (a & b & x & y & _ & E & _). destruct ts; discriminate. Qed.

  (** ** One step *)

  (** [ctx m] is [n] with [m] at the place [K]; [m0] is what is there at first. *)
  Record place (n : node) (K : list tok) (m0 : node) (ctx : node -> node) : Prop := {
    pl_key : forall m, nkey (ctx m) = nkey n;
    pl_wf0 : wf m0;
    pl_wf : forall m, wf m -> nkey m = nkey m0 -> wf (ctx m);
    pl_dv0 : forall r v, dv m0 r v <-> dv n (K ++ r) v;
    pl_isn0 : forall r, r <> [] -> (isn m0 r <-> isn n (K ++ r));
    pl_in : forall m r w, wf m -> nkey m = nkey m0 -> (dn (ctx m) (K ++ r) w <-> dn m r w);
    pl_isn : forall m ts, wf m -> nkey m = nkey m0 -> ~ prefix K ts ->
                          (isn (ctx m) ts <-> isn n ts \/ fork n K ts);
    pl_dv : forall m ts v, wf m -> nkey m = nkey m0 -> ~ prefix K ts ->
                           (dv (ctx m) ts v <-> dv n ts v)
  }.

  Definition apply_ctx (ctx : node -> node) (x : upd node) : upd node :=
    let '(m, st) := x in (ctx m, st).

  Lemma key_ok_lit s : s <> [] -> lit_ok s -> key_ok s.
  Proof. apply ko_lit. Qed.

  Lemma in_cons_app {A} (x : A) l1 y l2 : In x (l1 ++ y :: l2) <-> x = y \/ In x (l1 ++ l2).
  Proof.
    split; intros I.
    - apply in_app_or in I as [I|[<-|I]]; auto using in_or_app.
    - destruct I as [->|I]; [apply in_elt|].
      apply in_app_or in I as [I|I]; apply in_or_app; simpl; auto.
  Qed.

  (** Replacing a child [c] by one with the same key. *)
  Lemma place_kid k v l1 (c : node) l2 K m0 ctx :
    wf (Node k v (l1 ++ c :: l2)) ->
    place c K m0 ctx ->
    place (Node k v (l1 ++ c :: l2)) (kt c ++ K) m0 (fun m => Node k v (l1 ++ ctx m :: l2)).
  Proof.
    intros W P. set (n := Node k v (l1 ++ c :: l2)) in *.
    assert (Ic : In c (nkids n)) by (simpl; apply in_elt).
    assert (Wc : wf c) by (eapply wf_kid; eauto).
    pose proof (wf_kids _ W) as KK. simpl in KK.
    destruct (kt_cons _ _ KK (in_elt c l1 l2)) as (t & r0 & Et).
    assert (Kc : forall m, kt (ctx m) = kt c) by (intros m; unfold kt; rewrite (pl_key _ _ _ _ P); reflexivity).
    assert (Wm : forall m, wf m -> nkey m = nkey m0 -> wf (Node k v (l1 ++ ctx m :: l2))).
    { intros m Wm Em. eapply wf_swap; eauto.
      - apply (pl_wf _ _ _ _ P); auto.
      - rewrite (pl_key _ _ _ _ P). apply (proj1 KK). apply in_elt.
      - rewrite Kc. reflexivity. }
    assert (Im : forall m, In (ctx m) (nkids (Node k v (l1 ++ ctx m :: l2)))) by (intros m; simpl; apply in_elt).
    assert (VIA : forall m r w, wf m -> nkey m = nkey m0 ->
                  (dn (Node k v (l1 ++ ctx m :: l2)) (kt c ++ r) w <-> dn (ctx m) r w)).
    { intros m r w Wm' Em. rewrite <- (Kc m). split; intros D.
      - exact (dn_via _ _ _ _ (Wm m Wm' Em) (Im m) D).
      - apply dn_kid; auto. }
    assert (VIAn : forall r w, dn n (kt c ++ r) w <-> dn c r w).
    { intros r w. split; intros D; [exact (dn_via _ _ _ _ W Ic D) | apply dn_kid; auto]. }
    assert (OUT : forall m ts w, wf m -> nkey m = nkey m0 -> ~ prefix (kt c ++ K) ts ->
                  (dn (Node k v (l1 ++ ctx m :: l2)) ts w <->
                   others v (l1 ++ l2) ts w \/ exists r, ts = kt c ++ r /\ ~ prefix K r /\ dn (ctx m) r w)).
    { intros m ts w Wm' Em NP. rewrite dn_split, Kc. split; (intros [O|(r & -> & D)]; [left; exact O|right]).
      - exists r. repeat split; auto. intros [s ->]. apply NP. exists s. apply app_assoc.
      - exists r. split; [reflexivity|]. apply D. }
    constructor.
    - reflexivity.
    - apply (pl_wf0 _ _ _ _ P).
    - exact Wm.
    - intros r w. rewrite (pl_dv0 _ _ _ _ P), <- app_assoc. unfold dv. rewrite VIAn. reflexivity.
    - intros r N. rewrite (pl_isn0 _ _ _ _ P r N), <- app_assoc. unfold isn.
      split; intros [w D]; exists w; apply VIAn; exact D.
    - intros m r w Wm' Em. rewrite <- app_assoc, VIA by auto. apply (pl_in _ _ _ _ P); auto.
    - intros m ts Wm' Em NP. split.
      + intros [w D]. apply OUT in D as [O|(r & -> & NP' & D)]; auto.
        * left. exists w. unfold n. apply dn_split. auto.
        * assert (J : isn (ctx m) r) by (exists w; exact D).
          apply (pl_isn _ _ _ _ P) in J as [J|J]; auto.
          -- left. apply isn_via; auto.
          -- right. apply fork_kid_back; auto.
      + assert (Y : forall r, ts = kt c ++ r -> isn c r \/ fork c K r -> isn (Node k v (l1 ++ ctx m :: l2)) ts).
        { intros r -> J. apply (pl_isn _ _ _ _ P m) in J as [w J]; auto.
          - exists w. apply VIA; auto.
          - intros [s ->]. apply NP. exists s. apply app_assoc. }
        intros [[w D]|F].
        * unfold n in D. apply dn_split in D as [O|(r & -> & D)].
          -- exists w. apply OUT; auto.
          -- apply (Y r eq_refl). left. exists w. exact D.
        * apply fork_kid in F as [->|(r & -> & F)]; auto.
          -- apply isn_nil.
          -- apply (Y r eq_refl). auto.
    - intros m ts w Wm' Em NP. unfold dv. rewrite (OUT m ts) by auto.
      unfold n. rewrite dn_split. split; (intros [O|(r & E & X)]; [left; exact O|right]).
      + exists r. split; [exact E|]. apply (pl_dv _ _ _ _ P m); tauto.
      + exists r. split; [exact E|]. subst ts.
        assert (NP' : ~ prefix K r) by (intros [s ->]; apply NP; exists s; apply app_assoc).
        split; [exact NP'|]. apply (pl_dv _ _ _ _ P m); auto.
  Qed.

  (** The place itself. *)
  Lemma place_id (n : node) : wf n -> place n [] n (fun m => Node (nkey n) (nval m) (nkids m)).
  Proof.
    intros W.
    assert (NP : forall ts : list tok, ~ prefix [] ts -> False) by (intros ts N; apply N; exists ts; reflexivity).
    assert (E : forall m : node, nkey m = nkey n -> Node (nkey n) (nval m) (nkids m) = m).
    { intros m <-. destruct m; reflexivity. }
    constructor.
    - reflexivity.
    - exact W.
    - intros m Wm Em. rewrite E; assumption.
    - intros r v. reflexivity.
    - intros r _. reflexivity.
    - intros m r w Wm Em. rewrite E by assumption. reflexivity.
    - intros m ts _ _ N. destruct (NP ts N).
    - intros m ts v _ _ N. destruct (NP ts N).
  Qed.

  Lemma place_ext (n : node) K m0 ctx ctx' :
    (forall m, nkey m = nkey m0 -> ctx m = ctx' m) -> (forall m, nkey (ctx' m) = nkey n) ->
    place n K m0 ctx -> place n K m0 ctx'.
  Proof.
    intros E EK P. constructor.
    - exact EK.
    - apply P.
    - intros m Wm Em. rewrite <- E by assumption. apply (pl_wf _ _ _ _ P); assumption.
    - apply P.
    - apply P.
    - intros m r w Wm Em. rewrite <- E by assumption. apply (pl_in _ _ _ _ P); assumption.
    - intros m ts Wm Em. rewrite <- E by assumption. apply (pl_isn _ _ _ _ P); assumption.
    - intros m ts v Wm Em. rewrite <- E by assumption. apply (pl_dv _ _ _ _ P); assumption.
  Qed.

  Lemma wf_new k : wf (node_new (H:=H) (M:=M) k None).
  Proof.
    constructor; [|intros c []]. repeat split.
    - intros c [].
    - constructor.
    - intros c [].
    - intros l1 c l2 E. destruct l1; discriminate.
  Qed.

  Lemma dn_new k r w : dn (node_new (H:=H) (M:=M) k None) r w <-> r = [] /\ w = None.
  Proof.
    split.
    - intros D. apply dn_inv in D as [E|(c & s & [] & _)]. exact E.
    - intros [-> ->]. apply dn_here.
  Qed.

  Lemma prefix_refl {A} (a : list A) : prefix a a.
  Proof. exists []. symmetry. apply app_nil_r. Qed.
  Lemma prefix_app {A} (a b : list A) : prefix a (a ++ b).
  Proof. exists b. reflexivity. Qed.

  (** A new child [key] added at the end of [l1]. *)
  Lemma place_new k v l1 l2 key :
    wf (Node k v (l1 ++ l2)) -> key_ok key ->
    (forall c, In c (l1 ++ l2) -> hd_error (kt c) <> hd_error (seg_toks key)) ->
    (forall c, In c (l1 ++ l2) -> is_param c = false) ->
    (starts_colon key = true -> l1 ++ l2 = []) ->
    (key = s_star -> l2 = []) -> (key <> s_star -> l1 = []) ->
    ~ conf (Node k v (l1 ++ l2)) (seg_toks key) /\
    place (Node k v (l1 ++ l2)) (seg_toks key) (node_new key None)
          (fun m => Node k v (l1 ++ m :: l2)).
  Proof.
    intros W Kk Dk NP SC S1 S2. set (n := Node k v (l1 ++ l2)) in *.
    pose proof (wf_kids _ W) as KK. simpl in KK.
    assert (EK : exists t K, seg_toks key = t :: K).
    { pose proof (seg_toks_nil _ Kk). destruct (seg_toks key); [congruence|]. eauto. }
    destruct EK as (t & K & EK).
    assert (NI : forall r w, ~ others v (l1 ++ l2) (t :: r) w).
    { intros r w [[F _]|(d & x & I & F & _)]; [discriminate|].
      apply (Dk d I). rewrite EK. destruct (kt_cons _ _ KK I) as (t' & r' & Ed).
      rewrite Ed in *. injection F as -> _. reflexivity. }
    assert (Dn : forall ts w, dn n ts w <-> others v (l1 ++ l2) ts w).
    { intros ts w. unfold n. split.
      - intros D. apply dn_inv in D as [D|(c & r & I & D)]; [left; exact D|right; eauto].
      - intros [[-> ->]|(c & r & I & -> & D)].
        + apply (dn_here (Node k v (l1 ++ l2))).
        + apply dn_kid; assumption. }
    split.
    - intros (w & a & b & x & y & N & E & J & P). rewrite EK in E. destruct w as [|t' w].
      + injection E as -> ->. simpl in J. apply isn_cons_wf in J as (d & s & u & Id & Ed & Er & _); [|exact W].
        destruct P as [[nm ->]|[nm ->]].
        * assert (Sk : starts_colon key = true).
          { apply starts_colon_spec. inversion Kk as [r0 E0|E0|s0 N0 L0 E0].
            - eauto.
            - rewrite <- E0 in EK. discriminate.
            - rewrite (seg_toks_lit _ L0) in EK. destruct key; discriminate. }
          simpl in Id. rewrite (SC Sk) in Id. exact Id.
        * simpl in Id. apply NP in Id. rewrite (hd_par_is_param _ _ _ Ed) in Id. discriminate.
      + injection E as <- _. destruct J as [z D]. apply Dn in D. simpl in D. exact (NI _ _ D).
    - assert (KM : forall m : node, nkey m = key -> kids_ok (l1 ++ m :: l2)).
      { intros m Em. pose proof KK as (KO & ND & PA & ST). repeat split.
        - intros c I. apply in_cons_app in I as [->|I]; [rewrite Em; exact Kk | apply KO; exact I].
        - rewrite map_app. simpl. apply NoDup_Add with (a := hd_error (kt m)) (l := map (fun c => hd_error (kt c)) (l1 ++ l2)).
          + rewrite map_app. apply Add_app.
          + split; [exact ND|]. intros I. apply in_map_iff in I as (c & E & I).
            apply (Dk c I). unfold kt in E. rewrite Em in E. exact E.
        - intros c I P. apply in_cons_app in I as [->|I].
          + unfold is_param in P. rewrite Em in P. apply SC in P. apply app_eq_nil in P as [-> ->]. reflexivity.
          + apply NP in I. congruence.
        - intros m1 c m2 E Ec. destruct (str_eqb_spec key s_star) as [Es|Ns].
          + rewrite (S1 Es) in *. assert (NS : forall d, In d l1 -> nkey d <> s_star).
            { intros d Id Ed. apply (Dk d); [rewrite app_nil_r; exact Id|]. unfold kt. rewrite Ed, Es. reflexivity. }
            apply app_eq_cases in E as [(x & -> & E)|(x & x' & -> & E)].
            * destruct x as [|x0 x]; simpl in E; [injection E as _ <-; reflexivity|].
              injection E as _ E. symmetry in E. apply app_eq_nil in E as [_ E]. discriminate.
            * injection E as -> ->. exfalso. apply (NS x); [apply in_elt|exact Ec].
          + rewrite (S2 Ns) in *. simpl in E. destruct m1 as [|z m1]; simpl in E.
            * injection E as -> ->. congruence.
            * injection E as -> E. simpl in ST. apply (ST m1 c m2 E Ec). }
      assert (WM : forall m, wf m -> nkey m = key -> wf (Node k v (l1 ++ m :: l2))).
      { intros m Wm Em. constructor; [apply KM; exact Em|].
        intros c I. apply in_cons_app in I as [->|I]; [exact Wm|]. apply (wf_kid _ _ W). exact I. }
      assert (KT : forall m : node, nkey m = key -> kt m = seg_toks key) by (intros m <-; reflexivity).
      assert (NK : forall ts, ~ prefix (seg_toks key) ts -> forall r, ts <> seg_toks key ++ r).
      { intros ts X r ->. apply X, prefix_app. }
      assert (Kno : forall r w, ~ dn n (seg_toks key ++ r) w).
      { intros r w D. apply Dn in D. rewrite EK in D. exact (NI _ _ D). }
      constructor.
      + reflexivity.
      + apply wf_new.
      + exact WM.
      + intros r w. unfold dv. rewrite dn_new. split; [intros [_ F]; discriminate|].
        intros D. destruct (Kno _ _ D).
      + intros r N. split.
        * intros [w D]. apply dn_new in D as [D _]. congruence.
        * intros [w D]. destruct (Kno _ _ D).
      + intros m r w Wm Em. simpl in Em. rewrite <- (KT m Em). split.
        * intros D. apply (dn_via (Node k v (l1 ++ m :: l2))); auto. apply in_elt.
        * intros D. apply dn_kid; [apply in_elt | exact D].
      + intros m ts Wm Em NPr. simpl in Em. split.
        * intros [w D]. apply dn_split in D as [O|(r & -> & D)].
          -- left. exists w. apply Dn. exact O.
          -- exfalso. apply NPr. rewrite (KT m Em). apply prefix_app.
        * intros [[w D]|(a & b & x & y & N & E & J)].
          -- exists w. apply dn_split. left. apply Dn. exact D.
          -- destruct ts as [|t' ts]; [apply isn_nil|].
             exfalso. rewrite EK in E. injection E as <- _. destruct J as [w D].
             apply Dn in D. exact (NI _ _ D).
      + intros m ts w Wm Em NPr. simpl in Em. unfold dv. rewrite dn_split, Dn. split; [|tauto].
        intros [O|(r & -> & D)]; [exact O|]. exfalso. apply NPr. rewrite (KT m Em). apply prefix_app.
  Qed.

  (** Splitting a child [c] with the key [p ++ ck]. *)
  Lemma inter_kt (c : node) p ck : lit_ok (p ++ ck) -> lit_ok ck -> nkey c = p ++ ck ->
    kt c = map Ch p ++ seg_toks ck.
  Proof.
    intros L L' E. unfold kt. rewrite E. rewrite (seg_toks_lit _ L), map_app.
    rewrite (seg_toks_lit _ L'). reflexivity.
  Qed.

  Lemma wf_rekey k v (cs : list node) k' v' : wf (Node k v cs) -> wf (Node k' v' cs).
  Proof. intros W. inversion W; subst. constructor; assumption. Qed.

  Lemma dn_rekey (c : node) k r w : dn (Node k (nval c) (nkids c)) r w <-> dn c r w.
  Proof.
    split; intros D; apply dn_inv in D as [[-> ->]|(d & s & I & -> & D)].
    - exact (dn_here c).
    - apply dn_kid; assumption.
    - apply (dn_here (Node k (nval c) (nkids c))).
    - apply (dn_kid (Node k (nval c) (nkids c))); assumption.
  Qed.

  (** A node with one child. *)
  Lemma wf_one k v (c : node) : wf c -> key_ok (nkey c) -> wf (Node k v [c]).
  Proof.
    intros W K. constructor.
    - repeat split.
      + intros d [<-|[]]. exact K.
      + simpl. constructor; [intros []|constructor].
      + intros d [<-|[]] _. reflexivity.
      + intros l1 d l2 E _. destruct l1 as [|z l1]; [injection E as _ <-; reflexivity|].
        destruct l1; discriminate.
    - intros d [<-|[]]. exact W.
  Qed.

  (** The child [c] split into [p] and the rest. *)
  Lemma split_mid k v l1 (c : node) l2 p ck :
    wf (Node k v (l1 ++ c :: l2)) -> nkey c = p ++ ck -> p <> [] -> ck <> [] -> lit_ok (p ++ ck) -> lit_ok ck ->
    let inter := Node ck (nval c) (nkids c) in
    let n := Node k v (l1 ++ c :: l2) in
    let n1 := Node k v (l1 ++ Node p None [inter] :: l2) in
    wf n1 /\ (forall ts w, dv n1 ts w <-> dv n ts w) /\
    (forall ts, isn n1 ts <-> isn n ts \/ ts = map Ch p).
  Proof.
    intros W Ek Np Nc L Lc inter n n1.
    pose proof (lit_ok_head _ _ L) as Lp.
    assert (Wc : wf c) by (apply (wf_kid _ _ W); apply in_elt).
    assert (Ki : key_ok (nkey inter)) by (apply ko_lit; assumption).
    assert (Wi : wf inter) by (destruct c; eapply wf_rekey; exact Wc).
    set (mid := Node p None [inter]) in *.
    assert (Kp : kt mid = map Ch p) by (apply seg_toks_lit; exact Lp).
    assert (Kc : kt c = map Ch p ++ kt inter) by (apply inter_kt; assumption).
    assert (Wmid : wf mid) by (apply wf_one; assumption).
    assert (Dm : forall r w, dn mid r w <-> (r = [] /\ w = None) \/ exists s, r = kt inter ++ s /\ dn c s w).
    { intros r w. split.
      - intros D. apply dn_inv in D as [D|(d & s & [<-|[]] & E & D)]; [left; exact D|].
        right. exists s. split; [exact E|]. apply dn_rekey in D. exact D.
      - intros [[-> ->]|(s & -> & D)]; [apply (dn_here mid)|].
        apply dn_kid; [left; reflexivity|]. apply dn_rekey. exact D. }
    assert (D1 : forall ts w, dn n1 ts w <-> dn n ts w \/ (ts = map Ch p /\ w = None)).
    { intros ts w. unfold n1, n. rewrite !dn_split, Kp, Kc. split.
      - intros [O|(r & -> & D)]; [auto|]. apply Dm in D as [[-> ->]|(s & -> & D)].
        + right. rewrite app_nil_r. auto.
        + left. right. exists s. split; [apply app_assoc|exact D].
      - intros [[O|(r & -> & D)]|[-> ->]]; [auto| |].
        + right. exists (kt inter ++ r). split; [symmetry; apply app_assoc|]. apply Dm. eauto.
        + right. exists []. split; [symmetry; apply app_nil_r|]. apply Dm. auto. }
    split; [|split; [intros ts w; split | intros ts; split]].
    - apply (wf_swap k v l1 c mid l2); auto.
      + apply ko_lit; assumption.
      + rewrite Kp, Kc. destruct p; [congruence|reflexivity].
    - intros D. apply D1 in D as [D|[_ F]]; [exact D|discriminate].
    - intros D. apply D1. left. exact D.
    - intros [w D]. apply D1 in D as [D|[D _]]; [left; exists w; exact D|right; exact D].
    - intros [[w D]| ->].
      + exists w. apply D1. left. exact D.
      + exists None. apply D1. right. auto.
  Qed.

  Lemma fork_transfer (n n1 : node) P K ts :
    (forall ts, isn n1 ts <-> isn n ts \/ ts = P) -> prefix P K ->
    (fork n1 K ts <-> fork n K ts).
  Proof.
    intros E [q EP]. split; intros (a & b & x & y & N & EK & J); exists a, b, x, y; repeat split; auto.
    - apply E in J as [J|J]; [exact J|]. exfalso. rewrite <- J, <- app_assoc in EP. rewrite EK in EP.
      apply app_inv_head in EP. simpl in EP. congruence.
    - apply E. left. exact J.
  Qed.

  Lemma place_transfer (n n1 : node) P K m0 ctx :
    (forall ts w, dv n1 ts w <-> dv n ts w) ->
    (forall ts, isn n1 ts <-> isn n ts \/ ts = P) ->
    prefix P K -> (K = P \/ fork n K P) -> nkey n1 = nkey n ->
    place n1 K m0 ctx -> place n K m0 ctx.
  Proof.
    intros Dv Is PK FK EK Pl. constructor.
    - intros m. rewrite <- EK. apply Pl.
    - apply Pl.
    - apply Pl.
    - intros r w. rewrite <- Dv. apply Pl.
    - intros r N. rewrite (pl_isn0 _ _ _ _ Pl r N), Is. split; [|auto].
      intros [J|J]; [exact J|]. exfalso. destruct PK as [q ->].
      rewrite <- app_assoc in J. rewrite <- (app_nil_r P) in J at 2.
      apply app_inv_head in J. apply app_eq_nil in J as [_ J]. congruence.
    - apply Pl.
    - intros m ts Wm Em NP. rewrite (pl_isn _ _ _ _ Pl m ts Wm Em NP), Is.
      rewrite (fork_transfer n n1 P K ts Is PK). split; [|tauto].
      intros [[J| ->]|F]; auto. destruct FK as [->|F]; [|auto].
      exfalso. apply NP. apply prefix_refl.
    - intros m ts w Wm Em NP. rewrite (pl_dv _ _ _ _ Pl m ts w Wm Em NP). apply Dv.
  Qed.

  Lemma conf_mono (n n1 : node) K : (forall ts, isn n ts -> isn n1 ts) -> conf n K -> conf n1 K.
  Proof. intros S (w & a & b & x & y & N & E & J & P). exists w, a, b, x, y. auto. Qed.

  (** No node is made right before a colon that is part of a literal: the places
      where the insertion of [K] makes nodes are those of the trie, the forks and the
      end of [K]. *)
  Definition cut (n : node) (K w : list tok) : Prop := isn n w \/ fork n K w \/ K = w.
  Definition csafe (n : node) (K : list tok) : Prop :=
    forall w x, cut n K w -> K <> w ++ Ch c_colon :: x /\ ~ isn n (w ++ Ch c_colon :: x).

  Lemma csafe_kid (n : node) c K : wf n -> In c (nkids n) -> csafe n (kt c ++ K) -> csafe c K.
  Proof.
    intros W I S w x C. destruct (S (kt c ++ w) x) as [X Y].
    - destruct C as [C|[C|C]].
      + left. apply isn_via; auto.
      + right. left. apply fork_kid_back; auto.
      + right. right. congruence.
    - split.
      + intros ->. apply X. apply app_assoc.
      + intros J. apply Y. rewrite <- app_assoc. apply isn_via; auto.
  Qed.

  Lemma process_spec (n : node) : wf n -> forall key, key_ok key -> csafe n (seg_toks key) ->
    (conf n (seg_toks key) /\ forall k, process_insertion n key k = (n, Some PAmbiguous)) \/
    (~ conf n (seg_toks key) /\
     exists m0 ctx, place n (seg_toks key) m0 ctx /\
                    forall k, process_insertion n key k = apply_ctx ctx (k m0)).
  Proof.
    induction n as [nk nv cs IH] using node_ind'. intros W key Kk CS.
    pose proof (wf_kids _ W) as KK. simpl in KK. pose proof KK as (KO & _ & PA & _).
    cbn [process_insertion]. unfold get_insertion_action. simpl nkids.
    destruct (insertion_view cs key KK Kk)
      as [Dk NP SC | l1 c l2 x Ecs Ec | l1 c l2 key' Ecs Ekey N' L
         | l1 c l2 p ck nk' Ecs Ec Ekey Np Nc Hd L1 L2 | c i Ic Nc Pc]; cbn [a_name a_count a_index].
    - right. destruct (str_eqb_spec key s_star) as [Es|Ns].
      + destruct (place_new nk nv cs [] key) as [NC P]; rewrite ?app_nil_r; auto; try congruence.
        rewrite app_nil_r in NC, P. split; [exact NC|].
        exists (node_new key None), (fun m => Node nk nv (cs ++ [m])). split; [exact P|].
        intros k. unfold apply_ctx. destruct (k _). reflexivity.
      + destruct (place_new nk nv [] cs key) as [NC P]; auto; try congruence.
        split; [exact NC|].
        exists (node_new key None), (fun m => Node nk nv (m :: cs)). split; [exact P|].
        intros k. unfold apply_ctx. destruct (k _). reflexivity.
    - right. subst cs. assert (Wc : wf c) by (apply (wf_kid _ _ W); apply in_elt).
      assert (EK : seg_toks key = kt c ++ []) by (rewrite app_nil_r; unfold kt; rewrite Ec; reflexivity).
      rewrite EK. split.
      + rewrite conf_kid; [apply conf_nil | exact W | apply in_elt].
      + exists c, (fun m => Node nk nv (l1 ++ m :: l2)). split.
        * eapply place_ext; [| |apply (place_kid nk nv l1 c l2 [] c); [exact W|apply place_id; exact Wc]].
          -- intros m Em. cbv beta. rewrite <- Em. destruct m; reflexivity.
          -- reflexivity.
        * intros k. rewrite upd_nth_elt. unfold apply_ctx. destruct (k c). reflexivity.
    - subst cs. assert (Ic : In c (l1 ++ c :: l2)) by apply in_elt.
      assert (Wc : wf c) by (apply (wf_kid _ _ W); exact Ic).
      assert (L' := L). rewrite Ekey in L'. pose proof (lit_ok_head _ _ L') as Lc.
      assert (Lk' : lit_ok key').
      { apply (lit_ok_tail _ _ L'). intros x ->. destruct (CS (kt c) (map Ch x)) as [X _].
        - left. apply isn_kid. exact Ic.
        - apply X. unfold kt. rewrite !seg_toks_lit by assumption. rewrite Ekey. apply map_app. }
      assert (Kk' : key_ok key') by (apply ko_lit; assumption).
      assert (EK : seg_toks key = kt c ++ seg_toks key').
      { unfold kt. rewrite !seg_toks_lit by assumption. rewrite Ekey. apply map_app. }
      assert (Sl : slice_from key (blen (nkey c)) = Some key').
      { rewrite Ekey. apply slice_from_app. }
      rewrite EK, Sl. rewrite Forall_forall in IH.
      destruct (IH c Ic Wc key' Kk' ltac:(apply (csafe_kid (Node nk nv (l1 ++ c :: l2))); [exact W|exact Ic|rewrite <- EK; exact CS])) as [[C E]|[C (m0 & ctx & P & E)]].
      + left. split; [apply conf_kid; auto|]. intros k. rewrite upd_nth_elt, E. reflexivity.
      + right. split; [rewrite conf_kid; auto|].
        exists m0, (fun m => Node nk nv (l1 ++ ctx m :: l2)). split; [apply place_kid; assumption|].
        intros k. rewrite upd_nth_elt, E. unfold apply_ctx. destruct (k m0). reflexivity.
    - right. subst cs. subst key.
      pose proof (lit_ok_head _ _ L1) as Lp.
      assert (Jc : isn (Node nk nv (l1 ++ c :: l2)) (map Ch p ++ map Ch ck)).
      { rewrite <- map_app, <- (seg_toks_lit _ L1), <- Ec. apply isn_kid. apply in_elt. }
      assert (Cut : cut (Node nk nv (l1 ++ c :: l2)) (seg_toks (p ++ nk')) (map Ch p)).
      { rewrite (seg_toks_lit _ L2), map_app. destruct nk' as [|z nk'].
        - right. right. apply app_nil_r.
        - right. left. destruct ck as [|c0 ck]; [congruence|].
          exists (Ch z), (Ch c0), (map Ch nk'), (map Ch ck). repeat split; [|exact Jc].
          simpl in Hd. congruence. }
      assert (Lck : lit_ok ck).
      { apply (lit_ok_tail _ _ L1). intros x ->. destruct (CS _ (map Ch x) Cut) as [_ X]. apply X. exact Jc. }
      assert (Lnk : lit_ok nk').
      { apply (lit_ok_tail _ _ L2). intros x ->. destruct (CS _ (map Ch x) Cut) as [X _]. apply X.
        rewrite (seg_toks_lit _ L2). apply map_app. }
      destruct (split_mid nk nv l1 c l2 p ck W Ec Np Nc L1 Lck) as (W1 & Dv1 & Is1).
      set (n1 := Node nk nv (l1 ++ Node p None [Node ck (nval c) (nkids c)] :: l2)) in *.
      set (inter := Node ck (nval c) (nkids c)) in *. set (mid := Node p None [inter]) in *.
      assert (Kp : kt mid = map Ch p) by (apply seg_toks_lit; exact Lp).
      assert (Imid : In mid (nkids n1)) by (apply in_elt).
      assert (Wmid : wf mid) by (apply (wf_kid _ _ W1); exact Imid).
      assert (EK : seg_toks (p ++ nk') = kt mid ++ seg_toks nk').
      { rewrite Kp, !seg_toks_lit by assumption. apply map_app. }
      assert (Sub : forall ts, isn (Node nk nv (l1 ++ c :: l2)) ts -> isn n1 ts) by (intros ts J; apply Is1; auto).
      rewrite EK.
      assert (SL1 : slice_from (nkey c) (blen p) = Some ck) by (rewrite Ec; apply slice_from_app).
      assert (SL2 : slice_from (p ++ nk') (blen p) = Some nk') by apply slice_from_app.
      assert (SL3 : slice_to (p ++ nk') (blen p) = Some p) by apply slice_to_app.
      destruct nk' as [|z nk'].
      + split.
        * intros C. apply (conf_mono _ _ _ Sub) in C. apply conf_kid in C; auto. exact (conf_nil _ C).
        * exists mid, (fun m => Node nk nv (l1 ++ m :: l2)). split.
          -- apply (place_transfer _ n1 (map Ch p)); auto.
             ++ simpl. rewrite app_nil_r, Kp. apply prefix_refl.
             ++ left. simpl. rewrite app_nil_r. exact Kp.
             ++ eapply place_ext; [| |apply (place_kid nk nv l1 mid l2 [] mid); [exact W1|apply place_id; exact Wmid]].
                ** intros m Em. cbv beta. rewrite <- Em. destruct m; reflexivity.
                ** reflexivity.
          -- intros k. rewrite upd_nth_elt. rewrite SL1, SL2, SL3. simpl is_empty. cbv iota.
             fold inter. fold mid. unfold apply_ctx. destruct (k mid). reflexivity.
      + assert (Kz : key_ok (z :: nk')) by (apply ko_lit; [discriminate|exact Lnk]).
        destruct (place_new p None [] [inter] (z :: nk')) as [NC P]; auto.
        * intros d [<-|[]]. unfold kt. simpl nkey. rewrite !seg_toks_lit by assumption.
          destruct ck as [|c0 ck]; [congruence|]. simpl in *. congruence.
        * intros d [<-|[]]. unfold is_param. simpl nkey. apply Lck.
        * intros E. destruct Lnk as [Lnk _]. congruence.
        * intros E. exfalso. apply (proj2 Lnk). rewrite E. left. reflexivity.
        * simpl in P, NC. fold mid in P, NC. split.
          -- intros C. apply (conf_mono _ _ _ Sub) in C. apply conf_kid in C; auto.
          -- exists (node_new (z :: nk') None), (fun m => Node nk nv (l1 ++ Node p None [m; inter] :: l2)). split.
             ++ apply (place_transfer _ n1 (map Ch p)); auto.
                ** rewrite Kp. apply prefix_app.
                ** right. rewrite Kp. destruct ck as [|c0 ck]; [congruence|].
                   exists (Ch z), (Ch c0), (map Ch nk'), (map Ch ck). repeat split.
                   --- simpl in Hd. congruence.
                   --- rewrite (seg_toks_lit _ Lnk). reflexivity.
                   --- assert (J : isn (Node nk nv (l1 ++ c :: l2)) (kt c)) by (apply isn_kid; apply in_elt).
                       unfold kt in J. rewrite Ec, (seg_toks_lit _ L1), map_app in J. exact J.
                ** apply (place_kid nk nv l1 mid l2 _ _ _ W1 P).
             ++ intros k. rewrite upd_nth_elt. rewrite SL1, SL2, SL3. simpl is_empty. cbv iota.
                fold inter. unfold apply_ctx. destruct (k _). reflexivity.
    - left. split; [|reflexivity].
      assert (EK : exists t K, seg_toks key = t :: K).
      { pose proof (seg_toks_nil _ Kk). destruct (seg_toks key); [congruence|]. eauto. }
      destruct EK as (t & K & EK). destruct (kt_cons _ _ KK Ic) as (u & r & Eu).
      exists [], t, u, K, r. repeat split.
      + intros ->. apply Nc. apply seg_toks_inj; auto. fold (kt c). rewrite Eu, EK.
        destruct Pc as [P|P].
        * apply is_param_kt in P as [n E]. rewrite E in Eu. injection Eu as <- <-.
          inversion Kk as [r0 E0|E0|s0 N0 L0 E0].
          -- rewrite <- E0 in EK. injection EK as _ <-. reflexivity.
          -- rewrite <- E0 in EK. discriminate.
          -- rewrite (seg_toks_lit _ L0) in EK. destruct key; discriminate.
        * apply starts_colon_spec in P as [nm ->]. injection EK as <- <-.
          pose proof (hd_par_is_param _ _ _ Eu) as P. apply is_param_kt in P as [n E]. rewrite E in Eu.
          injection Eu as _ <-. reflexivity.
      + exact EK.
      + simpl. rewrite <- Eu. apply isn_kid. exact Ic.
      + destruct Pc as [P|P].
        * right. apply is_param_kt in P as [n E]. rewrite E in Eu. injection Eu as <- _. exists n. reflexivity.
        * left. apply starts_colon_spec in P as [nm ->]. injection EK as <- _. exists nm. reflexivity.
  Qed.
End Ins.
