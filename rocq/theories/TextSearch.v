(** Any accepted calls: what a lookup finds, text by text. *)

From Verif Require Import Base BaseFacts RouteTrie Router TableSpec PropSpec TextSpec TrieDen TrieRep TrieBuild TrieSearch TrieLookup TrieTotal RouteLemmas2 OwnPath TextRep TextInv.

Section TextSearch.
  Context {H M : Type}.
  Notation node := (node H M).

  (** The way from a node down to [f] along the text [w], and the middlewares on it,
      innermost first. *)
  Inductive trail : node -> node -> str -> list M -> Prop :=
  | tr_here n c : In c (nkids n) -> trail n c (nkey c) (val_mws (nval c))
  | tr_down n c f w W : In c (nkids n) -> trail c f w W -> trail n f (nkey c ++ w) (W ++ val_mws (nval c)).

  Definition found_ok (n : node) (ps : params) (mws : list M) (r : sres H M) : Prop :=
    match r with
    | SPanic _ => True
    | SRet None _ ps' mws' => ps' = ps /\ mws' = mws
    | SRet (Some f) _ _ mws' => (nval f <> None \/ nkey f = s_star) /\ exists w W, trail n f w W /\ mws' = mws ++ W
    end.

  Lemma star_child_spec (cs : list node) c v : star_child cs = Some (c, v) -> In c cs /\ nkey c = s_star /\ nval c = Some v.
  Proof.
    induction cs as [|d cs IH]; cbn [star_child]; [discriminate|]. destruct (str_eqb (nkey d) s_star) eqn:E.
    - destruct (nval d) as [v'|] eqn:Ev.
      + intros X. injection X as <- <-. split; [left; reflexivity|]. split; [apply str_eqb_eq; exact E|exact Ev].
      + intros X. destruct (IH X) as (I & K). split; [right; exact I|exact K].
    - intros X. destruct (IH X) as (I & K). split; [right; exact I|exact K].
  Qed.

  Lemma loop_found (n : node) rec s b :
    (forall c key ps mws b', In c (nkids n) -> key <> [] -> found_ok c ps mws (rec c key ps mws b')) ->
    forall cs key ps mws, (forall c, In c cs -> In c (nkids n)) -> found_ok n ps mws (next_loop rec s b cs key ps mws).
  Proof.
    intros RC. induction cs as [|c cs IH]; intros key ps mws SUB; [cbn; auto|]. cbn [next_loop].
    assert (IC : In c (nkids n)) by (apply SUB; left; reflexivity).
    assert (SUB' : forall d, In d cs -> In d (nkids n)) by (intros d I; apply SUB; right; exact I).
    assert (DOWN : forall key' b', key' <> [] -> forall r, rec c key' ps mws b' = r ->
              match r with
              | SPanic _ => True
              | SRet None _ ps' mws' => ps' = ps /\ mws' = mws
              | SRet (Some f) _ _ mws' => (nval f <> None \/ nkey f = s_star) /\ exists w W, trail n f w W /\ mws' ++ val_mws (nval c) = mws ++ W
              end).
    { intros key' b' NK r <-. specialize (RC c key' ps mws b' IC NK). destruct (rec c key' ps mws b') as [p|[f|] k' ps' mws']; cbn [found_ok] in RC; auto.
      destruct RC as (F & w & W & TR & ->). split; [exact F|]. exists (nkey c ++ w), (W ++ val_mws (nval c)).
      split; [apply tr_down; assumption|]. rewrite app_assoc. reflexivity. }
    destruct (negb b && is_param c) eqn:B1.
    - destruct (is_empty key) eqn:EK.
      + destruct (nval c) as [v|] eqn:Ev; [|apply IH; exact SUB'].
        destruct (slice_from (nkey c) 1); [|exact I]. split; [left; congruence|]. exists (nkey c), (val_mws (nval c)).
        split; [apply tr_here; exact IC|]. rewrite Ev. reflexivity.
      + apply is_empty_false in EK. specialize (DOWN key false EK _ eq_refl). destruct (rec c key ps mws false) as [p|[f|] k' ps' mws']; [exact I| |].
        * destruct (slice_from (nkey c) 1); [exact DOWN|exact I].
        * destruct DOWN as [-> ->]. apply IH. exact SUB'.
    - destruct (negb b && str_eqb (nkey c) s_star) eqn:B2.
      + apply andb_prop in B2 as [_ B2]. apply str_eqb_eq in B2. split; [right; exact B2|]. exists (nkey c), (val_mws (nval c)).
        split; [apply tr_here; exact IC|reflexivity].
      + cbv zeta. match goal with |- found_ok _ _ _ (match ?X with Some _ => _ | None => _ end) => destruct X as [key1|]; [|exact I] end.
        destruct (negb (Nat.eqb (match_count (nkey c) s) 0) && Nat.eqb (match_count (nkey c) s) (blen (nkey c))); [|apply IH; exact SUB'].
        destruct (is_empty key1) eqn:EK.
        * destruct (nval c) as [v|] eqn:Ev.
          -- split; [left; congruence|]. exists (nkey c), (val_mws (nval c)). split; [apply tr_here; exact IC|]. rewrite Ev. reflexivity.
          -- destruct (star_child (nkids c)) as [[d v]|] eqn:SC; [|apply IH; exact SUB'].
             apply star_child_spec in SC as (ID & SD & VD). split; [left; congruence|].
             exists (nkey c ++ nkey d), (val_mws (nval d) ++ val_mws (nval c)).
             split; [apply tr_down; [exact IC|apply tr_here; exact ID]|]. rewrite Ev, VD, app_nil_r. reflexivity.
        * apply is_empty_false in EK. match goal with |- context [rec c key1 ps mws ?B] => specialize (DOWN key1 B EK _ eq_refl); destruct (rec c key1 ps mws B) as [p|[f|] k' ps' mws'] end; [exact I|exact DOWN|].
          destruct DOWN as [-> ->]. apply IH. exact SUB'.
  Qed.

  Lemma search_found (n : node) : forall key ps mws b, key <> [] -> found_ok n ps mws (get_next_node n key ps mws b).
  Proof.
    induction n as [nk nv cs IH] using node_ind'. rewrite Forall_forall in IH. intros key ps mws b NK.
    destruct key as [|s key]; [congruence|]. rewrite get_next_kids. apply loop_found; [|auto].
    intros c key' ps' mws' b' IC NK'. exact (IH c IC key' ps' mws' b' NK').
  Qed.

  (** ** Trails and the table *)

  Lemma starts_down_app pre a b : starts_down pre (a ++ b) = starts_down (pre ++ a) b ++ starts_down pre a.
  Proof.
    revert pre. induction a as [|c a IH]; intros pre; cbn [app starts_down]; [rewrite !app_nil_r; reflexivity|].
    rewrite IH, <- !app_assoc. reflexivity.
  Qed.

  (** The proper beginnings. *)
  Lemma starts_down_last pre w : w <> [] -> exists l, starts_down pre w = (pre ++ w) :: l /\
    forall x, In x l -> exists y z, x = pre ++ y /\ w = y ++ z /\ y <> [] /\ z <> [].
  Proof.
    revert pre. induction w as [|c w IH]; intros pre N; [congruence|]. cbn [starts_down]. destruct w as [|d w].
    - exists []. split; [reflexivity|intros x []].
    - destruct (IH (pre ++ [c]) ltac:(discriminate)) as (l & -> & L). exists (l ++ [pre ++ [c]]). split.
      + cbn [app]. f_equal. rewrite <- app_assoc. reflexivity.
      + intros x I. apply in_app_or in I as [I|[<-|[]]].
        * destruct (L x I) as (y & z & -> & -> & Ny & Nz). exists (c :: y), z. rewrite <- app_assoc.
          split; [reflexivity|]. split; [reflexivity|]. split; [discriminate|exact Nz].
        * exists [c], (d :: w). split; [reflexivity|]. split; [reflexivity|]. split; discriminate.
  Qed.

  (** [n] is the node of [t] at the text [pre]. *)
  Definition sits (t : node) (pre : str) (n : node) : Prop := radix n /\ forall u v, vals n u v <-> vals t (pre ++ u) v.

  Lemma sits_kid t pre n c : sits t pre n -> In c (nkids n) -> sits t (pre ++ nkey c) c.
  Proof.
    intros [R V] I. pose proof R as [A _]. destruct (A c I) as [Nc Rc]. split; [exact Rc|]. intros u v. rewrite <- app_assoc, <- V. split.
    - intros X. apply vals_kid; [destruct (nkey c); [congruence|discriminate]|]. exists c, u. auto.
    - intros X. apply (vals_through n c (nkey c) u v R I Nc eq_refl) in X as (u' & E & X). apply app_inv_head in E. subst u'. exact X.
  Qed.

  Lemma sits_mws t T pre n : trep t T -> sits t pre n -> val_mws (nval n) = mws_on T pre.
  Proof.
    intros TR [R V]. destruct (nval n) as [v|] eqn:E; cbn [val_mws].
    - destruct TR as (_ & A & _). refine (proj1 (A pre v _)). rewrite <- (app_nil_r pre). apply V, vals_nil; assumption.
    - symmetry. apply (trep_none t T pre TR). intros v X. rewrite <- (app_nil_r pre) in X. apply V, vals_nil in X; [congruence|exact R].
  Qed.

  Lemma kid_mws t T pre n c : trep t T -> sits t pre n -> In c (nkids n) ->
    flat_map (mws_on T) (starts_down pre (nkey c)) = val_mws (nval c).
  Proof.
    intros TR S I. pose proof S as [R V]. pose proof R as [A _]. destruct (A c I) as [Nc Rc].
    destruct (starts_down_last pre (nkey c) Nc) as (l & -> & L). cbn [flat_map].
    rewrite (sits_mws t T _ c TR (sits_kid t pre n c S I)).
    replace (flat_map (mws_on T) l) with (@nil M); [apply app_nil_r|]. symmetry.
    assert (X : forall x, In x l -> mws_on T x = []).
    { intros x J. destruct (L x J) as (y & z & -> & E & Ny & Nz). apply (trep_none t T _ TR). intros v Y. apply V in Y.
      rewrite <- (app_nil_r y) in Y. apply (vals_through n c y [] v R I Ny) in Y; [|rewrite E; apply head_app; exact Ny].
      destruct Y as (u' & E' & _). rewrite E, app_nil_r, <- app_assoc in E'. apply (f_equal (@length char)) in E'. rewrite !app_length in E'.
      destruct z; [congruence|cbn [length] in E'; lia]. }
    clear L. induction l as [|x l IHl]; [reflexivity|]. cbn [flat_map]. rewrite (X x (or_introl eq_refl)). apply IHl. intros y J. apply X. right. exact J.
  Qed.

  Lemma trail_table t T pre n f w W : trep t T -> sits t pre n -> trail n f w W ->
    sits t (pre ++ w) f /\ W = flat_map (mws_on T) (starts_down pre w) /\ w <> [].
  Proof.
    intros TR S TL. revert pre S. induction TL as [n c I|n c f w W I TL IH]; intros pre S; pose proof S as [[A _] _]; destruct (A c I) as [Nc _].
    - split; [apply (sits_kid t pre n); assumption|]. split; [|exact Nc]. symmetry. apply (kid_mws t T pre n); assumption.
    - destruct (IH (pre ++ nkey c) (sits_kid t pre n c S I)) as (S' & -> & _). rewrite app_assoc. split; [exact S'|].
      split; [|destruct (nkey c); [congruence|discriminate]].
      rewrite starts_down_app, flat_map_app. f_equal. symmetry. apply (kid_mws t T pre n); assumption.
  Qed.

  Lemma sits_root t : radix t -> sits t [] t.
  Proof. intros R. split; [exact R|reflexivity]. Qed.

  (** A lookup that ends at the node [f]. *)
  Lemma ends_at t T f w W v ps : trep t T -> trail t f w W -> nval f = Some v ->
    hands_out T w (RR (RV (val_mws (nval t) ++ W) (rv_route v)) ps) /\ exists p c, In (p, c) T /\ c <> CNode /\ text p = w.
  Proof.
    intros TR TL Ev. destruct (trail_table t T [] t f w W TR (sits_root t (proj1 TR)) TL) as ([Rf Vf] & -> & _). cbn [app] in Vf.
    assert (V : vals t w v) by (rewrite <- (app_nil_r w); apply Vf, vals_nil; assumption).
    pose proof TR as (_ & A & _). destruct (A w v V) as (A1 & A2 & A3). split; [|exact A3]. split.
    - cbn [rr_mws rr_value rv_mws]. unfold text_mws. rewrite (sits_mws t T [] t TR (sits_root t (proj1 TR))). reflexivity.
    - exact A2.
  Qed.

  Lemma found_trep (t : node) (T : table H M) path r : trep t T -> search_route t path = LSome r ->
    exists p c, In (p, c) T /\ c <> CNode /\ hands_out T (text p) r.
  Proof.
    intros TR E. unfold search_route in E. destruct (is_empty (segments path)) eqn:EP.
    - destruct (nval t) as [v|] eqn:Ev; [|discriminate]. injection E as <-. pose proof TR as (R & A & _).
      destruct (A [] v) as (A1 & A2 & p & c & A3 & A4 & A5); [apply vals_nil; assumption|]. exists p, c. split; [exact A3|]. split; [exact A4|].
      rewrite A5. split; [|exact A2]. cbn [rr_mws rr_value rv_mws val_mws]. unfold text_mws. cbn [starts_down flat_map]. rewrite app_nil_r. exact A1.
    - apply is_empty_false in EP. pose proof (search_found t (segments path) [] (val_mws (nval t)) false EP) as F.
      destruct (get_next_node t (segments path) [] (val_mws (nval t)) false) as [pn|[f|] k' ps' mws']; try discriminate.
      cbn [found_ok] in F. destruct F as (_ & w & W & TL & ->). destruct (nval f) as [v|] eqn:Ev; [|discriminate]. injection E as <-.
      destruct (ends_at t _ f w W v ps' TR TL Ev) as (HO & p & c & I & NC & <-). exists p, c. auto.
  Qed.

  Theorem found_text (l : list (op H M)) t path r : build l = (t, None) -> search_route t path = LSome r ->
    exists p c, registered l p c /\ c <> CNode /\ hands_out (table_of l) (text p) r.
  Proof. intros B E. exact (found_trep t _ path r (build_trep l t B) E). Qed.

  (** ** Following a registered path *)

  (** A request that matches the path [p], up to the end of [p]: the node there answers
      if it has a value, else a wildcard right below, unless [p] ends in a parameter. *)
  Definition answers (Q : node -> Prop) (lastlit : Prop) : Prop :=
    forall m, Q m -> (exists v, nval m = Some v) \/ (lastlit /\ nval m = None /\ exists d v, star_child (nkids m) = Some (d, v)).

  Definition answer (m f : node) (x : str) : Prop :=
    (f = m /\ x = [] /\ nval m <> None) \/ (nval m = None /\ x = s_star /\ exists v, star_child (nkids m) = Some (f, v)).

  (** The path does not end in a parameter; [b]: it starts in the middle of a segment. *)
  Fixpoint last_literal (b : bool) (p : list str) : Prop :=
    match p with
    | [] => False
    | [s] => b = true \/ starts_colon s = false
    | _ :: rest => last_literal false rest
    end.

  Lemma last_literal_tail b s p : p <> [] -> last_literal b (s :: p) = last_literal false p.
  Proof. intros N. destruct p; [congruence|reflexivity]. Qed.

  (** What the search does at the node where the path ends. *)
  Lemma end_step (n c : node) (Q : node -> Prop) ll : In c (nkids n) -> Q c -> answers Q ll -> 
    (exists v, nval c = Some v /\ answer c c [] /\ trail n c (nkey c ++ []) (rv_mws v)) \/
    (ll /\ nval c = None /\ exists d v, star_child (nkids c) = Some (d, v) /\ answer c d s_star /\ trail n d (nkey c ++ s_star) (rv_mws v)).
  Proof.
    intros I Qc A. destruct (A c Qc) as [[v Ev]|(L & Ev & d & v & SC)].
    - left. exists v. split; [exact Ev|]. split; [left; split; [reflexivity|]; split; [reflexivity|congruence]|].
      rewrite app_nil_r. pose proof (tr_here n c I) as T. rewrite Ev in T. exact T.
    - right. split; [exact L|]. split; [exact Ev|]. exists d, v. split; [exact SC|]. split; [right; split; [exact Ev|]; split; [reflexivity|eauto]|].
      apply star_child_spec in SC as (ID & SD & VD). pose proof (tr_down n c d _ _ I (tr_here c d ID)) as T.
      rewrite Ev, VD, SD in T. cbn [val_mws] in T. rewrite app_nil_r in T. exact T.
  Qed.

  Lemma search_way (Q : node -> Prop) : forall n b p, leads Q n b p -> answers Q (last_literal b p) -> p <> [] -> (forall s, In s p -> s <> [] /\ ~ In c_star s) ->
    forall R bs ps mws, fits b p R bs ->
    exists m f x W, get_next_node n R ps mws b = SRet (Some f) [] (bind bs ps) (mws ++ W) /\ Q m /\ answer m f x /\ trail n f (concat p ++ x) W.
  Proof.
    intros n b p L. induction L as [n W|n b l1 c l2 rest E N S P L IH|n b l1 c l2 s rest E N S P Ns L IH|n c l2 rest E P L IH];
      intros QS NP NS R bs ps mws F; [congruence| | |].
    - assert (X : exists R', R = nkey c :: R' /\ seg_match rest R' bs).
      { destruct b; cbn [fits] in F.
        - destruct R as [|x R']; [contradiction|]. destruct F as [<- F]. eauto.
        - specialize (P eq_refl). unfold is_param in P. inversion F as [|s p R' b' LS F'|nm x p R' b' F' EK|R' NR EK]; subst; eauto.
          + rewrite <- EK in P. discriminate.
          + exfalso. apply (proj2 (NS (nkey c) (or_introl eq_refl))). rewrite <- EK. left. reflexivity. }
      destruct X as (R' & -> & F').
      assert (NSc : nkey c <> s_star).
      { intros X. apply (proj2 (NS (nkey c) (or_introl eq_refl))). rewrite X. left. reflexivity. }
      rewrite get_next_kids, E, loop_skip by assumption. cbn [next_loop].
      assert (P' : negb b && is_param c = false) by (destruct b; [reflexivity|apply P; reflexivity]).
      assert (ST : negb b && str_eqb (nkey c) s_star = false) by (rewrite (proj2 (str_eqb_neq _ _) NSc); apply andb_false_r).
      rewrite P', ST. cbv zeta. rewrite (match_count_all (nkey c)), Nat.eqb_refl. cbn [andb negb].
      assert (B : Nat.eqb (blen (nkey c)) 0 = false) by (apply Nat.eqb_neq; rewrite blen_0; exact N). rewrite B. cbn [negb].
      assert (IC : In c (nkids n)) by (rewrite E; apply in_elt).
      destruct R' as [|x R']; cbn [is_empty].
      + assert (rest = []) as -> by (inversion F'; subst; [reflexivity|congruence]).
        apply seg_match_nil in F' as [_ ->]. inversion L as [? W| | |]; subst. cbn [concat]. rewrite app_nil_r.
        destruct (end_step n c Q _ IC W QS) as [(v & Ev & A & T)|(_ & Ev & d & v & SC & A & T)]; rewrite Ev.
        * exists c, c, [], (rv_mws v). auto.
        * rewrite SC. exists c, d, s_star, (rv_mws v). auto.
      + assert (NR : rest <> []) by (intros ->; inversion F').
        rewrite (last_literal_tail _ _ _ NR) in QS.
        destruct (IH QS NR ltac:(intros s I; apply NS; right; exact I) (x :: R') bs ps mws F') as (m & f & y & W & G & Qm & A & T).
        rewrite G. exists m, f, y, (W ++ val_mws (nval c)). split; [rewrite app_assoc; reflexivity|]. split; [exact Qm|]. split; [exact A|].
        cbn [concat]. rewrite <- app_assoc. apply tr_down; assumption.
    - assert (X : exists R', R = (nkey c ++ s) :: R' /\ seg_match rest R' bs).
      { destruct b; cbn [fits] in F.
        - destruct R as [|x R']; [contradiction|]. destruct F as [<- F]. eauto.
        - specialize (P eq_refl). unfold is_param in P. inversion F as [|s' p R' b' LS F'|nm x p R' b' F' EK|R' NR EK]; subst; eauto.
          + exfalso. destruct (nkey c) as [|y k]; [congruence|]. injection EK as EK _. rewrite <- EK in P. discriminate.
          + exfalso. apply (proj2 (NS (nkey c ++ s) (or_introl eq_refl))). rewrite <- EK. left. reflexivity. }
      destruct X as (R' & -> & F').
      assert (NSc : nkey c <> s_star) by (apply (nostar_key c s); apply (NS (nkey c ++ s)); left; reflexivity).
      assert (HD : hd_error (nkey c ++ s) = hd_error (nkey c)) by (apply nonempty_head; exact N).
      rewrite get_next_kids, E, loop_skip.
      2: { destruct (nkey c); [congruence|discriminate]. }
      2: { intros d I. rewrite HD. exact (S d I). }
      cbn [next_loop].
      assert (P' : negb b && is_param c = false) by (destruct b; [reflexivity|apply P; reflexivity]).
      assert (ST : negb b && str_eqb (nkey c) s_star = false) by (rewrite (proj2 (str_eqb_neq _ _) NSc); apply andb_false_r).
      rewrite P', ST. cbv zeta. rewrite match_count_prefix, Nat.eqb_refl, slice_from_app, blen_app.
      assert (B : Nat.eqb (blen (nkey c)) 0 = false) by (apply Nat.eqb_neq; rewrite blen_0; exact N).
      assert (B2 : Nat.eqb (blen (nkey c)) (blen (nkey c) + blen s) = false).
      { apply Nat.eqb_neq. intros X. apply Ns, blen_0. lia. }
      rewrite B, B2. cbn [andb negb is_empty].
      assert (NS' : forall s0, In s0 (s :: rest) -> s0 <> [] /\ ~ In c_star s0).
      { intros s0 [<-|I]; [|apply NS; right; exact I]. split; [exact Ns|]. intros I.
        apply (proj2 (NS (nkey c ++ s) (or_introl eq_refl))). apply in_or_app. auto. }
      assert (QS' : answers Q (last_literal true (s :: rest))).
      { intros m Qm. destruct (QS m Qm) as [V|(LL & V)]; [left; exact V|right]. split; [|exact V].
        destruct rest; [left; reflexivity|exact LL]. }
      destruct (IH QS' ltac:(discriminate) NS' (s :: R') bs ps mws (conj eq_refl F')) as (m & f & y & W & G & Qm & A & T).
      unfold str in G |- *. rewrite G. exists m, f, y, (W ++ val_mws (nval c)). split; [rewrite app_assoc; reflexivity|]. split; [exact Qm|].
      split; [exact A|]. cbn [concat]. rewrite <- !app_assoc. apply tr_down; [rewrite E; apply in_elt|]. cbn [concat] in T. rewrite <- app_assoc in T. exact T.
    - cbn [fits] in F. unfold is_param in P. pose proof P as SC. apply starts_colon_spec in P as [nm Ec].
      inversion F as [|s' p R' b' LS F'|nm' x p R' b' F' EK|R' NR EK]; subst.
      + exfalso. apply (proj2 LS). exists nm. exact Ec.
      + assert (nm' = nm) as -> by congruence. rewrite ?EK.
        rewrite get_next_kids, E. cbn [next_loop negb andb]. assert (Pc : is_param c = true) by (unfold is_param; rewrite Ec; reflexivity).
        assert (SL : slice_from (nkey c) 1 = Some nm) by (rewrite Ec; destruct nm; reflexivity). rewrite Pc, SL.
        assert (IC : In c (nkids n)) by (rewrite E; left; reflexivity).
        destruct R' as [|y R']; cbn [is_empty].
        * assert (rest = []) as -> by (inversion F'; subst; [reflexivity|congruence]).
          apply seg_match_nil in F' as [_ ->]. inversion L as [? W| | |]; subst. cbn [concat]. rewrite app_nil_r.
          destruct (end_step n c Q _ IC W QS) as [(v & Ev & A & T)|([LL|LL] & _)]; [|discriminate|congruence].
          rewrite Ev. exists c, c, [], (rv_mws v). auto.
        * assert (NR : rest <> []) by (intros ->; inversion F'). rewrite (last_literal_tail _ _ _ NR) in QS.
          destruct (IH QS NR ltac:(intros s I; apply NS; right; exact I) (y :: R') b' ps mws F') as (m & f & z & W & G & Qm & A & T).
          rewrite G. exists m, f, z, (W ++ val_mws (nval c)). split; [rewrite app_assoc; reflexivity|]. split; [exact Qm|]. split; [exact A|].
          cbn [concat]. rewrite <- app_assoc. apply tr_down; assumption.
      + exfalso. rewrite Ec in EK. discriminate.
  Qed.
End TextSearch.
