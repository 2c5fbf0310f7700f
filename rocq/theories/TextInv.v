(** Any accepted calls: the values in the trie are those of the table, text by text. *)

From Verif Require Import Base BaseFacts RouteTrie Router TableSpec PropSpec TextSpec TrieDen TrieRep TrieBuild TrieSearch TrieLookup TrieTotal OwnPath TextRep.

Section TextInv.
  Context {H M : Type}.
  Notation node := (node H M).
  Notation rvalue := (rvalue H M).

  Lemma text_app (p q : list str) : text (p ++ q) = text p ++ text q.
  Proof. apply concat_app. Qed.

  Lemma routes_on_app (T U : table H M) w : routes_on (T ++ U) w = routes_on T w ++ routes_on U w.
  Proof. apply flat_map_app. Qed.
  Lemma mws_on_app (T U : table H M) w : mws_on (T ++ U) w = mws_on T w ++ mws_on U w.
  Proof. apply flat_map_app. Qed.

  Lemma in_routes_on (T : table H M) w m h : In (m, h) (routes_on T w) <-> exists p, In (p, CRoute m h) T /\ text p = w.
  Proof.
    unfold routes_on. rewrite in_flat_map. split.
    - intros ((p & c) & I & J). cbn [fst snd] in J. destruct c as [m' h'|mw|]; try contradiction.
      destruct (str_eqb (text p) w) eqn:E; [|contradiction]. destruct J as [J|[]]. injection J as -> ->. exists p. split; [exact I|].
      apply str_eqb_eq. exact E.
    - intros (p & I & E). exists (p, CRoute m h). split; [exact I|]. cbn [fst snd]. rewrite (proj2 (str_eqb_eq _ _) E). left. reflexivity.
  Qed.

  Lemma in_mws_on (T : table H M) w m : In m (mws_on T w) <-> exists p, In (p, CMw m) T /\ text p = w.
  Proof.
    unfold mws_on. rewrite in_flat_map. split.
    - intros ((p & c) & I & J). cbn [fst snd] in J. destruct c as [m' h'|mw|]; try contradiction.
      destruct (str_eqb (text p) w) eqn:E; [|contradiction]. destruct J as [J|[]]. subst mw. exists p. split; [exact I|].
      apply str_eqb_eq. exact E.
    - intros (p & I & E). exists (p, CMw m). split; [exact I|]. cbn [fst snd]. rewrite (proj2 (str_eqb_eq _ _) E). left. reflexivity.
  Qed.

  Lemma nothing_on (T : table H M) w : (forall p c, In (p, c) T -> c <> CNode -> text p <> w) -> routes_on T w = [] /\ mws_on T w = [].
  Proof.
    intros N. split.
    - destruct (routes_on T w) as [|[m h] l] eqn:E; [reflexivity|]. exfalso.
      assert (I : In (m, h) (routes_on T w)) by (rewrite E; left; reflexivity). apply in_routes_on in I as (p & I & Ep).
      exact (N p _ I ltac:(discriminate) Ep).
    - destruct (mws_on T w) as [|m l] eqn:E; [reflexivity|]. exfalso.
      assert (I : In m (mws_on T w)) by (rewrite E; left; reflexivity). apply in_mws_on in I as (p & I & Ep).
      exact (N p _ I ltac:(discriminate) Ep).
  Qed.

  Lemma on_snoc (T : table H M) p c w : text p <> w ->
    routes_on (T ++ [(p, c)]) w = routes_on T w /\ mws_on (T ++ [(p, c)]) w = mws_on T w.
  Proof.
    intros N. rewrite routes_on_app, mws_on_app. cbn [routes_on mws_on flat_map fst snd].
    rewrite (proj2 (str_eqb_neq _ _) N). destruct c; rewrite !app_nil_r; auto.
  Qed.

  (** ** Values *)

  Lemma vals_fun (n : node) w v v' : radix n -> vals n w v -> vals n w v' -> v = v'.
  Proof.
    revert w v v'. induction n as [nk nv cs IH] using node_ind'. rewrite Forall_forall in IH. intros w v v' R V V'.
    destruct w as [|a w].
    - apply vals_nil in V; [|exact R]. apply vals_nil in V'; [|exact R]. congruence.
    - apply vals_kid in V; [|discriminate]. destruct V as (c & u & I & E & V).
      pose proof R as [A _]. destruct (A c I) as [Nc Rc].
      assert (V2 : exists u', a :: w = nkey c ++ u' /\ vals c u' v').
      { apply vals_kid in V'; [|discriminate]. destruct V' as (d & u' & J & E' & V'). destruct (A d J) as [Nd _].
        assert (c = d) as -> by (apply (kid_unique (Node nk nv cs)); auto; rewrite <- (head_app (nkey c) u Nc), <- E, E'; apply head_app; exact Nd).
        exists u'. auto. }
      destruct V2 as (u' & E' & V2). rewrite E in E'. apply app_inv_head in E'. subst u'. exact (IH c I u v v' Rc V V2).
  Qed.

  (** [v] is what the table says about [w]. *)
  Definition told (T : table H M) (w : str) (v : rvalue) : Prop :=
    rv_mws v = mws_on T w /\ (forall m, get_route (rv_route v) m = option_map (Route m) (handler_for m (routes_on T w))) /\
    exists p c, In (p, c) T /\ c <> CNode /\ text p = w.

  Definition trep (t : node) (T : table H M) : Prop :=
    radix t /\ (forall w v, vals t w v -> told T w v) /\
    (forall p c, In (p, c) T -> c <> CNode -> exists v, vals t (text p) v).

  Lemma trep_none t T w : trep t T -> (forall v, ~ vals t w v) -> routes_on T w = [] /\ mws_on T w = [].
  Proof. intros (_ & _ & A) N. apply nothing_on. intros p c I NC <-. destruct (A p c I NC) as [v V]. exact (N v V). Qed.

  (** The value of one node is replaced. *)
  Lemma splice_value K (n n' m m' : node) v0 : radix n -> splice K n n' m m' -> radix m' -> nkids m' = nkids m -> nval m' = Some v0 ->
    forall w v, vals n' w v <-> (w = K /\ v = v0) \/ (w <> K /\ vals n w v).
  Proof.
    intros R (Rm & Vm & R' & V') Rm' EK EV w v. rewrite V'. split.
    - intros [[NP V]|(u & -> & V)].
      + right. split; [|exact V]. intros ->. apply NP. exists []. rewrite app_nil_r. reflexivity.
      + destruct u as [|a u].
        * left. rewrite app_nil_r. split; [reflexivity|]. apply vals_nil in V; [congruence|exact Rm'].
        * right. split.
          -- intros E. rewrite <- (app_nil_r K) in E at 2. apply app_inv_head in E. discriminate.
          -- apply Vm. apply vals_kid in V; [|discriminate]. apply vals_kid; [discriminate|]. rewrite <- EK. exact V.
    - intros [[-> ->]|[NE V]].
      + right. exists []. rewrite app_nil_r. split; [reflexivity|]. apply vals_nil; assumption.
      + destruct (prefix_str_dec K w) as [[u ->]|NP]; [|auto]. right. exists u. split; [reflexivity|]. destruct u as [|a u].
        * rewrite app_nil_r in NE. congruence.
        * apply Vm in V. apply vals_kid in V; [|discriminate]. apply vals_kid; [discriminate|]. rewrite EK. exact V.
  Qed.

  (** A value changed according to a new entry. *)
  Lemma trep_entry t t' T p c v0 : trep t T -> radix t' -> c <> CNode ->
    (forall w v, vals t' w v <-> (w = text p /\ v = v0) \/ (w <> text p /\ vals t w v)) ->
    told (T ++ [(p, c)]) (text p) v0 -> trep t' (T ++ [(p, c)]).
  Proof.
    intros (R & A & B) R' NC V TD. split; [exact R'|]. split.
    - intros w v X. apply V in X as [[-> ->]|[NE X]]; [exact TD|]. destruct (A w v X) as (A1 & A2 & q & d & A3 & A4 & A5).
      destruct (on_snoc T p c w (not_eq_sym NE)) as [E1 E2]. split; [rewrite E2; exact A1|]. split; [intros m; rewrite E1; apply A2|].
      exists q, d. split; [apply in_or_app; auto|auto].
    - intros q d I ND. destruct (list_eq_dec N.eq_dec (text q) (text p)) as [E|E].
      + exists v0. apply V. auto.
      + apply in_app_or in I as [I|[I|[]]]; [|congruence]. destruct (B q d I ND) as [v X]. exists v. apply V. auto.
  Qed.

  Lemma handler_for_app (a b : list (method * H)) m : handler_for m (a ++ b) = match handler_for m a with Some h => Some h | None => handler_for m b end.
  Proof. induction a as [|[m' h] a IH]; cbn [handler_for app]; [reflexivity|]. destruct (method_eqb m m'); [reflexivity|exact IH]. Qed.

  (** What the node at a text holds before a call. *)
  Lemma trep_value t T K m n' m' : trep t T -> splice K t n' m m' ->
    val_mws (nval m) = mws_on T K /\
    forall mt, get_route (match nval m with Some v => rv_route v | None => [] end) mt = option_map (Route mt) (handler_for mt (routes_on T K)).
  Proof.
    intros TR (Rm & Vm & _). destruct (nval m) as [v|] eqn:E; cbn [val_mws].
    - assert (V : vals t K v) by (rewrite <- (app_nil_r K); apply Vm, vals_nil; assumption).
      destruct TR as (_ & A & _). destruct (A K v V) as (A1 & A2 & _). auto.
    - assert (N : forall v, ~ vals t K v).
      { intros v V. rewrite <- (app_nil_r K) in V. apply Vm in V. apply vals_nil in V; [congruence|exact Rm]. }
      destruct (trep_none t T K TR N) as [-> ->]. split; [reflexivity|]. intros mt. reflexivity.
  Qed.

  Lemma radixes_set_route r : radixes (set_route (H:=H) (M:=M) r).
  Proof. intros [k v cs] R. cbn [set_route]. destruct (add_route _ _ _). split; [apply (radix_same (Node k v cs)); [reflexivity|exact R]|reflexivity]. Qed.

  Lemma radixes_push mw : radixes (push_mw (H:=H) (M:=M) mw).
  Proof. intros [k v cs] R. split; [apply (radix_same (Node k v cs)); [reflexivity|exact R]|reflexivity]. Qed.

  Lemma radixes_mount (src : node) : radix src -> radixes (mount src).
  Proof.
    intros S [k v cs] R. cbn [mount]. destruct (_ || _); [split; [exact R|reflexivity]|].
    split; [apply (radix_same src); [reflexivity|exact S]|reflexivity].
  Qed.

  Lemma trep_route t t' T p m h x : trep t T -> splice (text p) t t' x (fst (set_route (Route m h) x)) -> snd (set_route (Route m h) x) = None ->
    trep t' (T ++ [(p, CRoute m h)]).
  Proof.
    intros TR SP ST. pose proof TR as (R & A & B). destruct (trep_value _ _ _ _ _ _ TR SP) as [E1 E2].
    destruct (radixes_set_route (Route m h) x (proj1 SP)) as [Rx _]. destruct x as [k v cs]. cbn [set_route nval] in *.
    unfold add_route in *. cbn [fst snd r_method] in *.
    pose proof (splice_value (text p) t t' _ _ _ R SP Rx eq_refl eq_refl) as V.
    apply (trep_entry t t' T p (CRoute m h) _ TR (proj1 (proj2 (proj2 SP))) ltac:(discriminate) V).
    split; [|split].
    - cbn [rv_mws]. rewrite mws_on_app. cbn [mws_on flat_map fst snd]. rewrite app_nil_r. rewrite <- E1. destruct v; reflexivity.
    - intros mt. cbn [rv_route]. rewrite routes_on_app. cbn [routes_on flat_map fst snd]. rewrite str_eqb_refl, handler_for_app, app_nil_r.
      assert (E3 : forall mt, aget method_eqb mt (rv_route (match v with Some val => val | None => rv_default end)) = option_map (Route mt) (handler_for mt (routes_on T (text p)))).
      { intros mt'. rewrite <- E2. destruct v; reflexivity. }
      cbn [handler_for]. unfold get_route. destruct (method_eqb mt m) eqn:E.
      + apply method_eqb_spec in E. subst mt. rewrite aget_ainsert_same by exact method_eqb_spec. specialize (E3 m).
        destruct (aget method_eqb m (rv_route _)); [discriminate|]. destruct (handler_for m (routes_on T (text p))); [discriminate|reflexivity].
      + rewrite aget_ainsert_other; [rewrite E3; destruct (handler_for mt _); reflexivity|exact method_eqb_spec|].
        intros ->. rewrite (proj2 (method_eqb_spec _ _) eq_refl) in E. discriminate.
    - exists p, (CRoute m h). split; [apply in_elt|]. split; [discriminate|reflexivity].
  Qed.

  Lemma trep_push t t' T p mw x : trep t T -> splice (text p) t t' x (fst (push_mw mw x)) -> trep t' (T ++ [(p, CMw mw)]).
  Proof.
    intros TR SP. pose proof TR as (R & A & B). destruct (trep_value _ _ _ _ _ _ TR SP) as [E1 E2].
    destruct (radixes_push mw x (proj1 SP)) as [Rx _]. destruct x as [k v cs]. cbn [push_mw nval fst] in *.
    pose proof (splice_value (text p) t t' _ _ _ R SP Rx eq_refl eq_refl) as V.
    apply (trep_entry t t' T p (CMw mw) _ TR (proj1 (proj2 (proj2 SP))) ltac:(discriminate) V).
    split; [|split].
    - cbn [rv_mws]. rewrite mws_on_app. cbn [mws_on flat_map fst snd]. rewrite str_eqb_refl, <- E1, app_nil_r. destruct v; reflexivity.
    - intros mt. cbn [rv_route]. rewrite routes_on_app. cbn [routes_on flat_map fst snd]. rewrite app_nil_r, <- E2. destruct v; reflexivity.
    - exists p, (CMw mw). split; [apply in_elt|]. split; [discriminate|reflexivity].
  Qed.

  Lemma with_prefix_on p (S : table H M) u :
    routes_on (with_prefix p S) (text p ++ u) = routes_on S u /\ mws_on (with_prefix p S) (text p ++ u) = mws_on S u.
  Proof.
    assert (E : forall q, str_eqb (text (p ++ q)) (text p ++ u) = str_eqb (text q) u).
    { intros q. rewrite text_app. destruct (str_eqb (text q) u) eqn:E.
      - apply str_eqb_eq in E. subst u. apply str_eqb_refl.
      - apply str_eqb_neq in E. apply str_eqb_neq. intros X. apply app_inv_head in X. contradiction. }
    unfold routes_on, mws_on, with_prefix. split; induction S as [|[q c] S IH]; cbn [map flat_map fst snd]; [reflexivity| |reflexivity|];
      rewrite IH, E; reflexivity.
  Qed.

  Lemma with_prefix_off p (S : table H M) w : ~ prefix (text p) w -> routes_on (with_prefix p S) w = [] /\ mws_on (with_prefix p S) w = [].
  Proof.
    intros N. apply nothing_on. intros q c I _ <-. apply in_map_iff in I as ([q' d] & E & _). cbn [fst snd] in E. injection E as <- _.
    apply N. exists (text q'). apply text_app.
  Qed.

  Lemma trep_mount t t' T p S src x : trep t T -> trep src S -> splice (text p) t t' x (fst (mount src x)) -> snd (mount src x) = None ->
    trep t' (T ++ (p, CNode) :: with_prefix p S).
  Proof.
    intros TR (RS & AS & BS) (Rx & Vx & R' & V') ST. pose proof TR as (R & A & B). destruct x as [k v cs]. cbn [mount] in *.
    destruct v as [v|]; [discriminate|]. destruct cs as [|c cs]; [|discriminate]. cbn [orb negb is_empty fst snd] in *.
    assert (NO : forall u v, ~ vals t (text p ++ u) v).
    { intros u v V. apply Vx in V. exact (vals_leaf _ _ _ V). }
    assert (VS : forall u v, vals (Node k (nval src) (nkids src)) u v <-> vals src u v).
    { assert (RN : radix (Node k (nval src) (nkids src))) by (apply (radix_same src); [reflexivity|exact RS]).
      intros u v. destruct u as [|a u]; [rewrite !vals_nil by assumption; reflexivity|]. rewrite !vals_kid by discriminate. reflexivity. }
    assert (ON : forall w, routes_on (T ++ (p, CNode) :: with_prefix p S) w = routes_on T w ++ routes_on (with_prefix p S) w /\
                           mws_on (T ++ (p, CNode) :: with_prefix p S) w = mws_on T w ++ mws_on (with_prefix p S) w).
    { intros w. rewrite routes_on_app, mws_on_app. auto. }
    split; [exact R'|]. split.
    - intros w v V. apply V' in V as [[NP V]|(u & -> & V)].
      + destruct (A w v V) as (A1 & A2 & q & d & A3 & A4 & A5). destruct (ON w) as [O1 O2]. destruct (with_prefix_off p S w NP) as [P1 P2].
        split; [rewrite O2, P2, app_nil_r; exact A1|]. split; [intros m; rewrite O1, P1, app_nil_r; apply A2|].
        exists q, d. split; [apply in_or_app; auto|auto].
      + apply VS in V. destruct (AS u v V) as (A1 & A2 & q & d & A3 & A4 & A5).
        destruct (trep_none t T _ TR (NO u)) as [N1 N2]. destruct (ON (text p ++ u)) as [O1 O2]. destruct (with_prefix_on p S u) as [P1 P2].
        split; [rewrite O2, N2, P2; exact A1|]. split; [intros m; rewrite O1, N1, P1; apply A2|].
        exists (p ++ q), d. split; [|split; [exact A4|rewrite text_app, A5; reflexivity]]. apply in_or_app. right. right.
        apply in_map_iff. exists (q, d). auto.
    - intros q d I ND. apply in_app_or in I as [I|[I|I]].
      + destruct (B q d I ND) as [v V]. exists v. apply V'. left. split; [|exact V]. intros [u E]. rewrite E in V. exact (NO u v V).
      + congruence.
      + apply in_map_iff in I as ([q' d'] & E & I). cbn [fst snd] in E. injection E as <- <-. destruct (BS q' d' I ND) as [v V].
        exists v. apply V'. right. exists (text q'). split; [apply text_app|]. apply VS. exact V.
  Qed.

  (** ** All accepted calls *)

  Lemma splice_here (n n' : node) : radix n -> radix n' -> splice [] n n' n n'.
  Proof.
    intros R R'. split; [exact R|]. split; [reflexivity|]. split; [exact R'|]. intros w v. split.
    - intros V. right. exists w. auto.
    - intros [[N _]|(u & -> & V)]; [|exact V]. exfalso. apply N. exists w. reflexivity.
  Qed.

  Lemma nonempty_segments path s : In s (segments path) -> s <> [].
  Proof. intros I. exact (proj1 (segments_ok _ _ I)). Qed.

  (** A walk that succeeds. *)
  Lemma walk_done (t t' : node) path final : radix t -> segments path <> [] -> radixes final ->
    walk t (segments path) final = (t', None) ->
    exists x, snd (final x) = None /\ splice (text (segments path)) t t' x (fst (final x)).
  Proof.
    intros R NP K E. destruct (walk_splice (segments path) t final R NP (nonempty_segments path) K) as [(x & S & P)|(S & _)].
    - rewrite E in S, P. exists x. auto.
    - rewrite E in S. discriminate.
  Qed.

  Lemma run_ops_trep (l : list (op H M)) :
    Forall (fun o => forall t T t', trep t T -> run_op t o = (t', None) -> trep t' (after T o)) l ->
    forall t T t', trep t T -> run_ops t l = (t', None) -> trep t' (afters T l).
  Proof.
    intros F. induction F as [|o l Fo F IH]; intros t T t' I E; cbn [run_ops afters] in *; [injection E as <-; exact I|].
    destruct (run_op t o) as [t1 [pn|]] eqn:Eo; [discriminate|]. exact (IH _ _ _ (Fo _ _ _ I Eo) E).
  Qed.

  Lemma trep_new : trep trie_new [].
  Proof. split; [apply radix_leaf|]. split; [intros w v V; destruct (vals_leaf _ _ _ V)|intros p c []]. Qed.

  Lemma run_op_trep (o : op H M) : forall t T t', trep t T -> run_op t o = (t', None) -> trep t' (after T o).
  Proof.
    induction o as [m path h|path mw|mw|path sub IH] using op_ind'; intros t T t' TR E; pose proof TR as (R & _).
    - cbn [run_op after] in *. unfold insert_route in E. destruct (star_check _ _ _) eqn:Es; [discriminate|].
      destruct (segments path) as [|s0 p0] eqn:Ep.
      + cbn [is_empty] in E. unfold insert_default_route in E.
        destruct (radixes_set_route (Route m h) t R) as [R' _]. apply (trep_route t t' T [] m h t TR).
        * rewrite E in R' |- *. exact (splice_here t t' R R').
        * rewrite E. reflexivity.
      + rewrite <- Ep in *. assert (NP : segments path <> []) by (rewrite Ep; discriminate).
        rewrite (proj2 (is_empty_false _) NP) in E.
        destruct (walk_done t t' path _ R NP (radixes_set_route _) E) as (x & S & P). exact (trep_route t t' T _ m h x TR P S).
    - cbn [run_op after] in *. unfold insert_middleware in E. destruct (star_check _ _ _) eqn:Es; [discriminate|].
      destruct (segments path) as [|s0 p0] eqn:Ep; [injection E as <-; exact TR|]. rewrite <- Ep in *.
      assert (NP : segments path <> []) by (rewrite Ep; discriminate).
      destruct (walk_done t t' path _ R NP (radixes_push _) E) as (x & S & P). exact (trep_push t t' T _ mw x TR P).
    - cbn [run_op after] in *. unfold insert_default_middleware in E. destruct (radixes_push mw t R) as [R' _].
      apply (trep_push t t' T [] mw t TR). rewrite E in R' |- *. exact (splice_here t t' R R').
    - rewrite run_op_router in E. destruct (build sub) as [src [pn|]] eqn:Eb; cbn [fst snd] in E; [discriminate|].
      assert (TS : trep src (table_of sub)) by (apply (run_ops_trep sub IH trie_new [] src trep_new); exact Eb).
      rewrite after_router. unfold insert_sub_route in E. destruct (star_check _ _ _) eqn:Es; [discriminate|].
      destruct (segments path) as [|s0 p0] eqn:Ep; [injection E as <-; exact TS|]. rewrite <- Ep in *.
      assert (NP : segments path <> []) by (rewrite Ep; discriminate). rewrite (proj2 (is_empty_false _) NP) in E.
      destruct (walk_done t t' path _ R NP (radixes_mount src (proj1 TS)) E) as (x & S & P).
      exact (trep_mount t t' T _ _ src x TR TS P S).
  Qed.

  Lemma build_trep (l : list (op H M)) t : build l = (t, None) -> trep t (table_of l).
  Proof.
    intros E. apply (run_ops_trep l (proj2 (Forall_forall _ _) (fun o _ => run_op_trep o)) trie_new [] t); [exact trep_new|exact E].
  Qed.
End TextInv.
