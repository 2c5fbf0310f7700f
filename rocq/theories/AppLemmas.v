(** Lemmas about request handling. *)

From Coq Require Import String.
From Verif Require Import Base BaseFacts Utf8 RouteTrie Router Http App AppSpec.
Local Open Scope list_scope.

Section Runs.
  Context {U A : Type}.

  Lemma runs_bind {S T} (c : comp U A S) (f : S -> comp U A T) tr o :
    runs (bind c f) tr o <->
    (exists t1 t2 x, tr = t1 ++ t2 /\ runs c t1 (Value x) /\ runs (f x) t2 o) \/
    (exists p, o = Panicked p /\ runs c tr (Panicked p)).
  Proof.
    split.
    - revert tr. induction c as [x|l k IH|path k IH|u k IH|p]; intros tr R; cbn [bind] in R.
      + left. exists [], tr, x. split; [reflexivity|]. split; [constructor|exact R].
      + inversion R; subst. destruct (IH _ H3) as [(t1 & t2 & x & -> & R1 & R2)|(p & -> & R1)].
        * left. exists (EvPrint l :: t1), t2, x. split; [reflexivity|]. split; [constructor; exact R1|exact R2].
        * right. exists p. split; [reflexivity|constructor; exact R1].
      + inversion R; subst. destruct (IH _ _ H3) as [(t1 & t2 & x & -> & R1 & R2)|(p & -> & R1)].
        * left. exists (EvRead path res :: t1), t2, x. split; [reflexivity|]. split; [constructor; exact R1|exact R2].
        * right. exists p. split; [reflexivity|constructor; exact R1].
      + inversion R; subst. destruct (IH _ _ H3) as [(t1 & t2 & x & -> & R1 & R2)|(p & -> & R1)].
        * left. exists (EvAsk u a :: t1), t2, x. split; [reflexivity|]. split; [constructor; exact R1|exact R2].
        * right. exists p. split; [reflexivity|constructor; exact R1].
      + inversion R; subst. right. exists p. split; [reflexivity|constructor].
    - intros [(t1 & t2 & x & -> & R1 & R2)|(p & -> & R1)].
      + revert R1. remember (Value x) as o1 eqn:E. intros R1. revert E.
        induction R1; intros E; cbn [bind app]; try discriminate E; try (constructor; apply IHR1; exact E).
        injection E as ->. exact R2.
      + remember (Panicked p) as o1 eqn:E. revert E.
        induction R1; intros E; cbn [bind app]; try discriminate E; try (constructor; apply IHR1; exact E).
        injection E as ->. constructor.
  Qed.

  Lemma runs_ret {T} (x : T) tr o : runs (Ret (U:=U) (A:=A) x) tr o <-> tr = [] /\ o = Value x.
  Proof. split; [inversion 1; auto|intros [-> ->]; constructor]. Qed.

  Lemma runs_crash {T} p tr (o : outcome T) : runs (Crash (U:=U) (A:=A) p) tr o <-> tr = [] /\ o = Panicked p.
  Proof. split; [inversion 1; auto|intros [-> ->]; constructor]. Qed.

  Lemma runs_print {T} l (k : comp U A T) tr o : runs (Print l k) tr o <-> exists t, tr = EvPrint l :: t /\ runs k t o.
  Proof. split; [inversion 1; eauto|intros (t & -> & R); constructor; exact R]. Qed.

  Lemma runs_read {T} path (k : _ -> comp U A T) tr o :
    runs (Read path k) tr o <-> exists res t, tr = EvRead path res :: t /\ runs (k res) t o.
  Proof. split; [inversion 1; eauto|intros (res & t & -> & R); constructor; exact R]. Qed.

  Lemma bind_value {S T} (c : comp U A S) (f : S -> comp U A T) tr y :
    runs (bind c f) tr (Value y) <->
    exists t1 t2 x, tr = t1 ++ t2 /\ runs c t1 (Value x) /\ runs (f x) t2 (Value y).
  Proof. rewrite runs_bind. split; [|auto]. intros [R|(p & E & _)]; [exact R|discriminate E]. Qed.

  Lemma runs_fun {T} (c : comp U A T) tr o o' : runs c tr o -> runs c tr o' -> o = o'.
  Proof.
    intros R. revert o'. induction R; intros o' R'; inversion R'; subst; auto.
  Qed.
End Runs.

Section Chain.
  Context {X U A : Type}.
  Notation context := (context X).
  Notation result := (result X).
  Notation middleware := (middleware X U A).
  Notation handler := (handler X U A).

  Notation mprog := (mprog X U A).
  Implicit Types (p : mprog) (h : handler) (mws : list middleware).

  Lemma next_from_skip n mws h c : next_from n mws h c = next (skipn n mws) h c.
  Proof.
    revert n. induction mws as [|m mws IH]; intros [|n]; cbn [next_from skipn]; try reflexivity. apply IH.
  Qed.

  Lemma bind_same {S T} (c : comp U A S) (f g : S -> comp U A T) :
    (forall x tr, runs c tr (Value x) -> same_runs (f x) (g x)) -> same_runs (bind c f) (bind c g).
  Proof.
    intros E tr o. rewrite !runs_bind. split.
    - intros [(t1 & t2 & x & -> & R1 & R2)|R]; [|auto]. left. exists t1, t2, x. split; [reflexivity|]. split; [exact R1|].
      apply (E x t1 R1). exact R2.
    - intros [(t1 & t2 & x & -> & R1 & R2)|R]; [|auto]. left. exists t1, t2, x. split; [reflexivity|]. split; [exact R1|].
      apply (E x t1 R1). exact R2.
  Qed.

  Lemma bind_same_left {S T} (c d : comp U A S) (f : S -> comp U A T) : same_runs c d -> same_runs (bind c f) (bind d f).
  Proof.
    intros E tr o. rewrite !runs_bind. split; (intros [(t1 & t2 & x & -> & R1 & R2)|(p & -> & R1)];
      [left; exists t1, t2, x; split; [reflexivity|]; split; [apply E; exact R1|exact R2]|right; exists p; split; [reflexivity|apply E; exact R1]]).
  Qed.

  (** Running a program up to its first call of [next]. *)
  Lemma goes_exec nx p t s : goes p t s ->
    match s with
    | Returns r => runs (exec nx p) t (Value r)
    | Dies e => runs (exec nx p) t (Panicked e)
    | Calls n c k => forall t2 o, runs (bind (nx n c) (fun r => exec nx (k r))) t2 o -> runs (exec nx p) (t ++ t2) o
    end.
  Proof.
    induction 1; cbn [exec]; try constructor; [intros t2 o R; exact R|..];
      (destruct s; [constructor; assumption| |constructor; assumption]);
      intros t2 o R; cbn [app]; constructor; apply IHgoes; exact R.
  Qed.

  Lemma runs_exec nx p tr o : runs (exec nx p) tr o <->
    (exists r, o = Value r /\ goes p tr (Returns r)) \/
    (exists e, o = Panicked e /\ goes p tr (Dies e)) \/
    (exists t1 t2 n c k, tr = t1 ++ t2 /\ goes p t1 (Calls n c k) /\ runs (bind (nx n c) (fun r => exec nx (k r))) t2 o).
  Proof.
    split.
    - revert tr. induction p as [r|n c k IH|l k IH|path k IH|u k IH|e]; intros tr R; cbn [exec] in R.
      + apply runs_ret in R as [-> ->]. left. exists r. split; [reflexivity|constructor].
      + right. right. exists [], tr, n, c, k. split; [reflexivity|]. split; [constructor|exact R].
      + inversion R; subst. destruct (IH _ H3) as [(r & -> & G)|[(e & -> & G)|(t1 & t2 & n & c & k' & -> & G & R2)]].
        * left. exists r. split; [reflexivity|constructor; exact G].
        * right. left. exists e. split; [reflexivity|constructor; exact G].
        * right. right. exists (EvPrint l :: t1), t2, n, c, k'. split; [reflexivity|]. split; [constructor; exact G|exact R2].
      + inversion R; subst. destruct (IH _ _ H3) as [(r & -> & G)|[(e & -> & G)|(t1 & t2 & n & c & k' & -> & G & R2)]].
        * left. exists r. split; [reflexivity|constructor; exact G].
        * right. left. exists e. split; [reflexivity|constructor; exact G].
        * right. right. exists (EvRead path res :: t1), t2, n, c, k'. split; [reflexivity|]. split; [constructor; exact G|exact R2].
      + inversion R; subst. destruct (IH _ _ H3) as [(r & -> & G)|[(e & -> & G)|(t1 & t2 & n & c & k' & -> & G & R2)]].
        * left. exists r. split; [reflexivity|constructor; exact G].
        * right. left. exists e. split; [reflexivity|constructor; exact G].
        * right. right. exists (EvAsk u a :: t1), t2, n, c, k'. split; [reflexivity|]. split; [constructor; exact G|exact R2].
      + apply runs_crash in R as [-> ->]. right. left. exists e. split; [reflexivity|constructor].
    - intros [(r & -> & G)|[(e & -> & G)|(t1 & t2 & n & c & k & -> & G & R)]].
      + exact (goes_exec nx _ _ _ G).
      + exact (goes_exec nx _ _ _ G).
      + exact (goes_exec nx _ _ _ G t2 o R).
  Qed.

  Lemma next_cons m mws h c : next (m :: mws) h c = exec (fun n c' => next_from n mws h c') (m c).
  Proof. reflexivity. Qed.

  (** ** Any middlewares *)

  Lemma exec_proceeds h mws :
    (forall n c tr o, runs (next (skipn n mws) h c) tr o <-> chain h (skipn n mws) c tr o) ->
    forall p tr o, runs (exec (fun n c' => next_from n mws h c') p) tr o <->
    (exists r, o = Value r /\ proceeds h mws p tr (Returns r)) \/
    (exists e, o = Panicked e /\ proceeds h mws p tr (Dies e)) \/
    (exists t1 t2 n c k e, o = Panicked e /\ tr = t1 ++ t2 /\ proceeds h mws p t1 (Calls n c k) /\
       chain h (skipn n mws) c t2 (Panicked e)).
  Proof.
    intros IN p tr o. split.
    - revert tr.
      induction p as [r|n c k IH|l k IH|path k IH|u k IH|e]; intros tr R; cbn [exec] in R.
      + apply runs_ret in R as [-> ->]. left. exists r. split; [reflexivity|]. apply pr_goes. constructor.
      + rewrite next_from_skip in R. apply runs_bind in R as [(t1 & t2 & r & -> & R1 & R2)|(e & -> & R)].
        * apply IN in R1. destruct (IH r t2 R2) as [(r' & -> & P)|[(e & -> & P)|(t3 & t4 & n' & c' & k' & e & -> & -> & P & Ch)]].
          -- left. exists r'. split; [reflexivity|]. exact (pr_again h mws _ [] n c k t1 r t2 _ (go_next n c k) R1 P).
          -- right. left. exists e. split; [reflexivity|]. exact (pr_again h mws _ [] n c k t1 r t2 _ (go_next n c k) R1 P).
          -- right. right. exists (t1 ++ t3), t4, n', c', k', e. split; [reflexivity|]. split; [apply app_assoc|].
             split; [|exact Ch]. exact (pr_again h mws _ [] n c k t1 r t3 _ (go_next n c k) R1 P).
        * right. right. exists [], tr, n, c, k, e. split; [reflexivity|]. split; [reflexivity|].
          split; [apply pr_goes; constructor|]. apply IN. exact R.
      + apply runs_print in R as (t & -> & R).
        assert (W : forall t s, proceeds h mws k t s -> proceeds h mws (MPrint l k) (EvPrint l :: t) s).
        { intros t' s P. inversion P; subst; [apply pr_goes; constructor; assumption|].
          change (EvPrint l :: t1 ++ t2 ++ t3) with ((EvPrint l :: t1) ++ t2 ++ t3).
          eapply pr_again; [constructor; eassumption|eassumption|assumption]. }
        destruct (IH t R) as [(r' & -> & P)|[(e & -> & P)|(t3 & t4 & n' & c' & k' & e & -> & -> & P & Ch)]].
        * left. eauto.
        * right. left. eauto.
        * right. right. exists (EvPrint l :: t3), t4, n', c', k', e. auto 6.
      + apply runs_read in R as (res & t & -> & R).
        assert (W : forall t s, proceeds h mws (k res) t s -> proceeds h mws (MRead path k) (EvRead path res :: t) s).
        { intros t' s P. inversion P; subst; [apply pr_goes; constructor; assumption|].
          change (EvRead path res :: t1 ++ t2 ++ t3) with ((EvRead path res :: t1) ++ t2 ++ t3).
          eapply pr_again; [constructor; eassumption|eassumption|assumption]. }
        destruct (IH res t R) as [(r' & -> & P)|[(e & -> & P)|(t3 & t4 & n' & c' & k' & e & -> & -> & P & Ch)]].
        * left. eauto.
        * right. left. eauto.
        * right. right. exists (EvRead path res :: t3), t4, n', c', k', e. auto 6.
      + inversion R; subst.
        assert (W : forall t s, proceeds h mws (k a) t s -> proceeds h mws (MAsk u k) (EvAsk u a :: t) s).
        { intros t' s P. inversion P; subst; [apply pr_goes; constructor; assumption|].
          change (EvAsk u a :: t1 ++ t2 ++ t3) with ((EvAsk u a :: t1) ++ t2 ++ t3).
          eapply pr_again; [constructor; eassumption|eassumption|assumption]. }
        destruct (IH a _ H3) as [(r' & -> & P)|[(e & -> & P)|(t3 & t4 & n' & c' & k' & e & -> & -> & P & Ch)]].
        * left. eauto.
        * right. left. eauto.
        * right. right. exists (EvAsk u a :: t3), t4, n', c', k', e. auto 6.
      + apply runs_crash in R as [-> ->]. right. left. exists e. split; [reflexivity|]. apply pr_goes. constructor.
    - set (nx := fun n c' => next_from n mws h c').
      assert (P : forall p t s, proceeds h mws p t s -> match s with
        | Returns r => runs (exec nx p) t (Value r)
        | Dies e => runs (exec nx p) t (Panicked e)
        | Calls n c k => forall t2 o, runs (bind (nx n c) (fun r => exec nx (k r))) t2 o -> runs (exec nx p) (t ++ t2) o
        end).
      { clear p tr o. intros p t s P. revert IN. subst nx. induction P as [mws p t s G|mws p t1 n c k t2 r t3 s G Ch P FP]; intros IN.
        - exact (goes_exec _ p t s G).
        - set (nx := fun n c' => next_from n mws h c') in *.
          assert (Q : forall t o, runs (exec nx (k r)) t o -> runs (exec nx p) (t1 ++ t2 ++ t) o).
          { intros t o R. apply (goes_exec nx p t1 _ G). apply runs_bind. left. exists t2, t, r. split; [reflexivity|].
            split; [|exact R]. unfold nx. rewrite next_from_skip. apply IN. exact Ch. }
          specialize (FP IN). destruct s as [r'|n' c' k'|e].
          + apply Q. exact FP.
          + intros t4 o R. rewrite <- !app_assoc. apply Q. apply FP. exact R.
          + apply Q. exact FP. }
      intros [(r & -> & Pr)|[(e & -> & Pr)|(t1 & t2 & n & c & k & e & -> & -> & Pr & Ch)]].
      + exact (P _ _ _ Pr).
      + exact (P _ _ _ Pr).
      + apply (P _ _ _ Pr). apply runs_bind. right. exists e. split; [reflexivity|]. unfold nx. rewrite next_from_skip.
        apply IN. exact Ch.
  Qed.

  Lemma chain_runs mws h c tr o : runs (next mws h c) tr o <-> chain h mws c tr o.
  Proof.
    revert c tr o. remember (length mws) as len eqn:El. assert (L : length mws <= len) by lia. clear El. revert mws L.
    induction len as [|len IH]; intros [|m mws] L c tr o; cbn [length] in L.
    1,3: split; [intros R; constructor; exact R|inversion 1; subst; assumption].
    - lia.
    - rewrite next_cons, exec_proceeds; [|intros n c' tr' o'; apply IH; rewrite skipn_length; lia]. split.
      + intros [(r & -> & Pr)|[(e & -> & Pr)|(t1 & t2 & n & c' & k & e & -> & -> & Pr & Ch)]].
        * apply ch_returns. exact Pr.
        * apply ch_dies. exact Pr.
        * eapply ch_inner; eassumption.
      + inversion 1; subst; [left; eauto|right; left; eauto|right; right]. exists t1, t2, n, c', k, p. auto 6.
  Qed.

  (** Where a panic of the chain comes from. *)
  Lemma chain_panic mws h c tr e : runs (next mws h c) tr (Panicked e) <->
    exists mws' c' t1 t2, active h mws c t1 mws' c' /\ tr = t1 ++ t2 /\
      match mws' with
      | [] => runs (h c') t2 (Panicked e)
      | m :: rest => proceeds h rest (m c') t2 (Dies e)
      end.
  Proof.
    rewrite chain_runs. split.
    - remember (Panicked e) as o eqn:E. intros Ch. revert E.
      induction Ch as [c t o R|m mws c t r P|m mws c t p P|m mws c t1 n c' k t2 p P Ch IH]; intros E; try discriminate E; [subst o|injection E as ->..].
      + exists [], c, [], t. split; [constructor|]. auto.
      + exists (m :: mws), c, [], t. split; [constructor|]. auto.
      + destruct (IH eq_refl) as (mws' & c'' & t3 & t4 & Ac & -> & D). exists mws', c'', (t1 ++ t3), t4.
        split; [econstructor; eassumption|]. split; [apply app_assoc|exact D].
    - intros (mws' & c' & t1 & t2 & Ac & -> & D). revert D.
      induction Ac as [mws c|m mws c t1 n c' k t3 mws' c'' P Ac IH]; intros D.
      + cbn [app]. destruct mws as [|m rest]; [constructor; exact D|apply ch_dies; exact D].
      + rewrite <- app_assoc. eapply ch_inner; [exact P|exact (IH D)].
  Qed.

  (** ** Middlewares that call [next] once *)

  Lemma wrapped_nil c r tr cc rr tc : wrapped (X:=X) (U:=U) (A:=A) [] c r tr cc rr tc <-> c = cc /\ r = rr /\ tr = tc.
  Proof.
    split.
    - intros (ps & F & -> & E1 & E2). inversion F; subst. cbn in *. injection E1 as ->. injection E2 as ->.
      rewrite app_nil_r. auto.
    - intros (-> & -> & ->). exists []. split; [constructor|]. cbn. rewrite app_nil_r. auto.
  Qed.

  Lemma wrapped_cons (m : middleware) mws c r tr cc rr tc : wrapped (m :: mws) c r tr cc rr tc <->
    exists t1 c' k t2 r' t3, tr = t1 ++ t2 ++ t3 /\ goes (m c) t1 (Calls 0 c' k) /\
      wrapped mws c' r' t2 cc rr tc /\ goes (k r') t3 (Returns r).
  Proof.
    split.
    - intros (ps & F & -> & E1 & E2). inversion F as [|m' p mws' ps' [P1 P2] F']; subst. cbn [map app] in *.
      injection E1 as Ec E1. injection E2 as Er E2.
      assert (HB : exists c', p_out p :: map p_out ps' = map p_in ps' ++ [cc] /\ c' = p_out p) by eauto.
      exists (p_before p), (p_out p), (p_cont p),
        (concat (map p_before ps') ++ tc ++ concat (map p_after (rev ps'))), (p_inner p), (p_after p).
      split; [|split; [|split]].
      + cbn [rev concat map]. rewrite map_app, concat_app. cbn [map concat]. rewrite app_nil_r, !app_assoc. reflexivity.
      + rewrite Ec. exact P1.
      + exists ps'. auto.
      + rewrite Er. exact P2.
    - intros (t1 & c' & k & t2 & r' & t3 & -> & R1 & (ps & F & -> & E1 & E2) & R2).
      exists (Passage c t1 c' k r' t3 r :: ps). split; [constructor; [split; assumption|exact F]|].
      split; [|split].
      + cbn [rev concat map p_before p_after]. rewrite map_app, concat_app. cbn [map concat p_after].
        rewrite app_nil_r, <- !app_assoc. reflexivity.
      + cbn [map p_out p_in app]. f_equal. exact E1.
      + cbn [map p_inner p_result app]. f_equal. exact E2.
  Qed.

  (** A middleware that calls [next] at most once. *)
  Lemma once_value m mws h c tr r : at_most_once m ->
    (runs (next (m :: mws) h c) tr (Value r) <->
     goes (m c) tr (Returns r) \/
     exists t1 c' k t2 r' t3, tr = t1 ++ t2 ++ t3 /\ goes (m c) t1 (Calls 0 c' k) /\
       runs (next mws h c') t2 (Value r') /\ goes (k r') t3 (Returns r)).
  Proof.
    intros O. rewrite next_cons, runs_exec. split.
    - intros [(r0 & E & G)|[(e & E & _)|(t1 & t2 & n & c' & k & -> & G & R)]]; [|discriminate E|].
      + injection E as ->. left. exact G.
      + right. destruct (O _ _ _ _ _ G) as [-> NC]. rewrite next_from_skip in R. apply bind_value in R as (t3 & t4 & r' & -> & R1 & R2).
        apply runs_exec in R2 as [(r0 & E & G2)|[(e & E & _)|(t5 & t6 & n' & c'' & k' & -> & G2 & _)]]; [|discriminate E|].
        * injection E as ->. exists t1, c', k, t3, r', t4. auto.
        * exfalso. exact (NC _ _ _ _ _ G2).
    - intros [G|(t1 & c' & k & t2 & r' & t3 & -> & G & R & G2)]; [left; eauto|]. right. right.
      exists t1, (t2 ++ t3), 0, c', k. split; [reflexivity|]. split; [exact G|]. apply bind_value. exists t2, t3, r'.
      split; [reflexivity|]. split; [exact R|]. exact (goes_exec _ _ _ _ G2).
  Qed.

  (** The result of the chain. *)
  Lemma chain_value mws (h : handler) c tr r : Forall at_most_once mws ->
    (runs (next mws h c) tr (Value r) <->
     (exists cc rr tc, wrapped mws c r tr cc rr tc /\ runs (h cc) tc (Value rr)) \/
     (exists pre m post cc rr tc, mws = pre ++ m :: post /\ wrapped pre c r tr cc rr tc /\ goes (m cc) tc (Returns rr))).
  Proof.
    intros F. revert c tr r. induction F as [|m mws O F IH]; intros c tr r.
    - split.
      + intros R. left. exists c, r, tr. split; [apply wrapped_nil; auto|exact R].
      + intros [(cc & rr & tc & W & R)|(pre & m & post & cc & rr & tc & E & _)]; [|destruct pre; discriminate E].
        apply wrapped_nil in W as (-> & -> & ->). exact R.
    - rewrite once_value by exact O. split.
      + intros [G|(t1 & c' & k & t2 & r' & t3 & -> & G & R & G2)].
        * right. exists [], m, mws, c, r, tr. split; [reflexivity|]. split; [apply wrapped_nil; auto|exact G].
        * apply IH in R. destruct R as [(cc & rr & tc & W & R)|(pre & m' & post & cc & rr & tc & -> & W & R)].
          -- left. exists cc, rr, tc. split; [|exact R]. apply wrapped_cons. exists t1, c', k, t2, r', t3. auto.
          -- right. exists (m :: pre), m', post, cc, rr, tc. split; [reflexivity|]. split; [|exact R].
             apply wrapped_cons. exists t1, c', k, t2, r', t3. auto.
      + intros [(cc & rr & tc & W & R)|([|m0 pre] & m' & post & cc & rr & tc & E & W & R)].
        * right. apply wrapped_cons in W as (t1 & c' & k & t2 & r' & t3 & -> & R1 & W & R2).
          exists t1, c', k, t2, r', t3. split; [reflexivity|]. split; [exact R1|]. split; [|exact R2]. apply IH. left. eauto 6.
        * injection E as <- <-. apply wrapped_nil in W as (-> & -> & ->). left. exact R.
        * injection E as <- ->. right. apply wrapped_cons in W as (t1 & c' & k & t2 & r' & t3 & -> & R1 & W & R2).
          exists t1, c', k, t2, r', t3. split; [reflexivity|]. split; [exact R1|]. split; [|exact R2]. apply IH. right. eauto 9.
  Qed.

  Lemma onion mws (h : handler) c tr r : Forall calls_next mws ->
    (runs (next mws h c) tr (Value r) <->
     exists cc rr tc, wrapped mws c r tr cc rr tc /\ runs (h cc) tc (Value rr)).
  Proof.
    intros F. rewrite chain_value; [|eapply Forall_impl; [|exact F]; intros m [O _]; exact O]. split; [|auto].
    intros [R|(pre & m & post & cc & rr & tc & -> & _ & R)]; [exact R|].
    apply Forall_app in F as [_ F]. inversion F; subst. exfalso. exact (proj2 H1 _ _ _ R).
  Qed.

  Lemma never_once m : never_calls_next m -> at_most_once (X:=X) (U:=U) (A:=A) m.
  Proof. intros N c tr n c' k G. exfalso. exact (N _ _ _ _ _ G). Qed.

  Lemma stopped pre m post (h : handler) c tr r : Forall calls_next pre -> never_calls_next m ->
    (runs (next (pre ++ m :: post) h c) tr (Value r) <->
     exists cc rr tc, wrapped pre c r tr cc rr tc /\ goes (m cc) tc (Returns rr)).
  Proof.
    intros F N. revert c tr r. induction pre as [|m0 pre IH]; intros c tr r; cbn [app].
    - rewrite once_value by (apply never_once; exact N). split.
      + intros [G|(t1 & c' & k & t2 & r' & t3 & _ & G & _)]; [|exfalso; exact (N _ _ _ _ _ G)].
        exists c, r, tr. split; [apply wrapped_nil; auto|exact G].
      + intros (cc & rr & tc & W & R). apply wrapped_nil in W as (-> & -> & ->). left. exact R.
    - inversion F as [|? ? [O NA] F']; subst. specialize (IH F'). rewrite once_value by exact O. split.
      + intros [G|(t1 & c' & k & t2 & r' & t3 & -> & G & R & G2)]; [exfalso; exact (NA _ _ _ G)|].
        apply IH in R as (cc & rr & tc & W & R).
        exists cc, rr, tc. split; [|exact R]. apply wrapped_cons. exists t1, c', k, t2, r', t3. auto.
      + intros (cc & rr & tc & W & R). apply wrapped_cons in W as (t1 & c' & k & t2 & r' & t3 & -> & R1 & W & R2).
        right. exists t1, c', k, t2, r', t3. split; [reflexivity|]. split; [exact R1|]. split; [|exact R2]. apply IH. eauto.
  Qed.

  (** Programs that leave out nothing depend on [nx 0] only. *)
  Lemma exec_no_skip nx nx' p : (forall c, same_runs (nx 0 c) (nx' 0 c)) -> no_skip p -> same_runs (exec nx p) (exec nx' p).
  Proof.
    intros E. induction p as [r|n c k IH|l k IH|path k IH|u k IH|e]; intros NS; cbn [exec no_skip] in *.
    - intros tr o. reflexivity.
    - destruct NS as [-> NS]. intros tr o. rewrite (bind_same_left _ _ _ (E c) tr o).
      apply bind_same. intros r tr' _. apply IH. apply NS.
    - intros tr o. rewrite !runs_print. split; intros (t & -> & R); exists t; (split; [reflexivity|]); apply (IH NS); exact R.
    - intros tr o. rewrite !runs_read. split; intros (res & t & -> & R); exists res, t; (split; [reflexivity|]); apply (IH res (NS res)); exact R.
    - intros tr o. split; intros R; inversion R; subst; constructor; apply (IH a (NS a)); assumption.
    - intros tr o. reflexivity.
  Qed.

  Lemma stopped_rest pre m post post' (h h' : handler) c : Forall never_skips pre -> never_calls_next m ->
    same_runs (next (pre ++ m :: post) h c) (next (pre ++ m :: post') h' c).
  Proof.
    intros F N. revert c. induction F as [|m0 pre NS F IH]; intros c; cbn [app]; rewrite !next_cons.
    - intros tr o. rewrite !runs_exec. split; (intros [R|[R|(t1 & t2 & n & c' & k & _ & G & _)]];
        [auto|auto|exfalso; exact (N _ _ _ _ _ G)]).
    - apply exec_no_skip; [|apply NS]. intros c'. apply IH.
  Qed.
End Chain.

(** ** Headers *)

Lemma visible_spec v : visible v = true <-> header_text v.
Proof.
  unfold visible, header_text. rewrite forallb_forall. split; intros F c I; specialize (F c I).
  - unfold visible_char in F. apply orb_true_iff in F as [F|F]; [left|right].
    + apply andb_true_iff in F as [F1 F2]. split; [apply N.leb_le|apply N.ltb_lt]; assumption.
    + apply N.eqb_eq. exact F.
  - unfold visible_char. apply orb_true_iff. destruct F as [[F1 F2]| ->]; [left|right; reflexivity].
    apply andb_true_iff. split; [apply N.leb_le|apply N.ltb_lt]; assumption.
Qed.

Lemma insert_headers_spec l hm : match insert_headers l hm with
  | Some hm' => (forall k v, In (k, v) l -> header_text v) /\
                forall k, aget str_eqb k hm' = match last_value k l with Some v => Some v | None => aget str_eqb k hm end
  | None => exists k v, In (k, v) l /\ ~ header_text v
  end.
Proof.
  revert hm. induction l as [|[k v] l IH]; intros hm; cbn [insert_headers].
  - split; [intros ? ? []|]. intros k. reflexivity.
  - destruct (visible v) eqn:V.
    + specialize (IH (ainsert str_eqb k v hm)). destruct (insert_headers l (ainsert str_eqb k v hm)) as [hm'|].
      * destruct IH as [T G]. split.
        -- intros k' v' [E|I]; [injection E as <- <-; apply visible_spec; exact V|eauto].
        -- intros k'. rewrite G. cbn [last_value]. destruct (last_value k' l); [reflexivity|].
           destruct (str_eqb_spec k' k) as [->|N].
           ++ apply aget_ainsert_same. apply str_eqb_eq.
           ++ apply aget_ainsert_other; [apply str_eqb_eq|congruence].
      * destruct IH as (k' & v' & I & B). exists k', v'. split; [right; exact I|exact B].
    + exists k, v. split; [left; reflexivity|]. intros T. apply visible_spec in T. congruence.
Qed.

Lemma body_from_bytes b : body_bytes (body_from b) = b.
Proof. destruct b; [reflexivity|]. unfold body_bytes. cbn. rewrite app_nil_r. reflexivity. Qed.

Lemma body_from_ok b : broken (body_from b) = false.
Proof. destruct b; reflexivity. Qed.

Lemma ainsert_nodup k v (l : list (hname * str)) : NoDup (map fst l) -> NoDup (map fst (ainsert str_eqb k v l)).
Proof.
  induction l as [|[k' v'] l IH]; intros ND; cbn [ainsert map fst]; [constructor; [intros []|constructor]|].
  inversion ND as [|x y N ND']; subst. destruct (str_eqb_spec k k') as [->|Nk]; [exact ND|].
  cbn [map fst]. constructor; [|exact (IH ND')]. intros I. apply N. clear - I Nk.
  induction l as [|[k2 v2] l IH]; cbn [ainsert] in I.
  - destruct I as [I|[]]. cbn in I. congruence.
  - destruct (str_eqb_spec k k2) as [->|N2]; cbn [map fst] in *; [exact I|].
    destruct I as [I|I]; [left; exact I|right; exact (IH I)].
Qed.

Lemma insert_headers_nodup l : forall hm hm', insert_headers l hm = Some hm' -> NoDup (map fst hm) -> NoDup (map fst hm').
Proof.
  induction l as [|[k v] l IH]; intros hm hm' E ND; cbn [insert_headers] in E; [congruence|].
  destruct (visible v); [|discriminate E]. exact (IH _ _ E (ainsert_nodup k v hm ND)).
Qed.

Lemma in_aget k v (l : list (hname * str)) : NoDup (map fst l) -> aget str_eqb k l = Some v <-> In (k, v) l.
Proof.
  induction l as [|[k' v'] l IH]; intros ND; cbn [aget]; [split; [discriminate|intros []]|].
  inversion ND as [|x y N ND']; subst. destruct (str_eqb_spec k k') as [->|Nk].
  - split; [intros E; injection E as ->; left; reflexivity|]. intros [I|I]; [injection I as ->; reflexivity|]. exfalso. apply N. exact (in_map fst _ _ I).
  - rewrite (IH ND'). split; [intros I; right; exact I|]. intros [I|I]; [congruence|exact I].
Qed.

Lemma last_value_in k v l : last_value k l = Some v -> In (k, v) l.
Proof.
  induction l as [|[k' w] l IH]; cbn [last_value]; [discriminate|].
  destruct (last_value k l) as [x|]; [intros E; right; apply IH; exact E|].
  destruct (str_eqb_spec k k') as [->|N]; [|discriminate]. intros E. injection E as ->. left. reflexivity.
Qed.

Lemma last_value_distinct k v l : NoDup (map fst l) -> In (k, v) l -> last_value k l = Some v.
Proof.
  induction l as [|[k' w] l IH]; cbn [map fst last_value]; intros D I; [destruct I|]. inversion D; subst.
  destruct I as [E|I].
  - injection E as -> ->. destruct (last_value k l) as [x|] eqn:L.
    + exfalso. apply H1. apply last_value_in in L. apply (in_map fst) in L. exact L.
    + rewrite str_eqb_refl. reflexivity.
  - rewrite (IH H2 I). reflexivity.
Qed.

Lemma last_value_app k l l' : last_value k (l ++ l') = match last_value k l' with Some v => Some v | None => last_value k l end.
Proof.
  induction l as [|[k' w] l IH]; cbn [app last_value]; [destruct (last_value k l'); reflexivity|].
  rewrite IH. destruct (last_value k l'); reflexivity.
Qed.

(** ** Replies *)

Section Serve.
  Context {X U A : Type}.
  Notation context := (context X).
  Notation result := (result X).
  Notation middleware := (middleware X U A).
  Notation handler := (handler X U A).

  Lemma finish_replies (r : result) : exists o, runs (U:=U) (A:=A) (finish r) [] o /\ replies r o.
  Proof.
    destruct r as [c|e]; cbn [finish].
    - destruct (ctx_response c) as [res|] eqn:E.
      + fold (header_list res). pose proof (insert_headers_spec (header_list res) []) as S.
        destruct (insert_headers (header_list res) []) as [hm|] eqn:E'.
        * eexists. split; [constructor|]. destruct S as [T G]. eapply rp_response; [exact E|exact T| |].
          -- exact (insert_headers_nodup _ _ _ E' (NoDup_nil _)).
          -- intros k v. rewrite <- (in_aget k v hm (insert_headers_nodup _ _ _ E' (NoDup_nil _))), G.
             destruct (last_value k (header_list res)); reflexivity.
        * destruct S as (k & v & I & B). eexists. split; [constructor|]. eapply rp_bad_header; eassumption.
      + eexists. split; [constructor|]. apply rp_empty; auto using body_from_bytes, body_from_ok.
    - eexists. split; [constructor|]. apply rp_error; auto using body_from_bytes, body_from_ok.
  Qed.

  Lemma finish_runs (r : result) tr o : runs (U:=U) (A:=A) (finish r) tr o -> tr = [] /\ replies r o.
  Proof.
    intros R. destruct (finish_replies r) as (o' & R' & P).
    assert (E : tr = []).
    { destruct r as [c|e]; cbn [finish] in R; [|inversion R; reflexivity].
      destruct (ctx_response c) as [res|]; [|inversion R; reflexivity].
      destruct (insert_headers _ _); inversion R; reflexivity. }
    subst tr. split; [reflexivity|]. rewrite (runs_fun _ _ _ _ R R'). exact P.
  Qed.

  (** The context a chain is started with. *)
  Definition first_context (rq : request X) (ps : params) (st : option (N * X)) : context :=
    match st with
    | Some (ty, s) => ctx_add ty s (context_new rq ps)
    | None => context_new rq ps
    end.

  Lemma first_context_starts rq ps st : starts rq ps st (first_context rq ps st).
  Proof.
    destruct st as [[ty s]|]; cbn; repeat split; auto.
    - unfold ctx_get. cbn. apply aget_ainsert_same. intros a b. apply N.eqb_eq.
    - intros ty' N. unfold ctx_get. cbn. apply aget_ainsert_other; [intros a b; apply N.eqb_eq|congruence].
  Qed.

  Lemma serve_matched (t : trie handler middleware) st (rq : request X) rv rt :
    search_route t (rq_path rq) = LSome rv -> rr_get_route rv (rq_method rq) = Some rt ->
    serve t st rq = bind (next (rr_mws rv) (r_handler rt) (first_context rq (rr_params rv) st)) finish.
  Proof.
    intros E F. unfold serve. rewrite E. unfold resolve_endpoint. rewrite F. destruct st as [[ty s]|]; reflexivity.
  Qed.

  (** A matched request: the chain is run from a starting context; its result is
      replied to, its panics end the request. *)
  Lemma serve_runs (t : trie handler middleware) st (rq : request X) rv rt :
    search_route t (rq_path rq) = LSome rv -> rr_get_route rv (rq_method rq) = Some rt ->
    exists c, starts rq (rr_params rv) st c /\ handles (serve t st rq) (next (rr_mws rv) (r_handler rt) c).
  Proof.
    intros E F. exists (first_context rq (rr_params rv) st). split; [apply first_context_starts|].
    rewrite (serve_matched t st rq rv rt E F). split; [|split].
    - intros tr o R. apply runs_bind in R as [(t1 & t2 & r & -> & R1 & R2)|(p & -> & R)].
      + apply finish_runs in R2 as [-> P]. rewrite app_nil_r. eauto.
      + eauto.
    - intros tr r R. destruct (finish_replies r) as (o & R2 & P). exists o. split; [|exact P].
      apply runs_bind. left. exists tr, [], r. rewrite app_nil_r. auto.
    - intros tr p R. apply runs_bind. right. eauto.
  Qed.

  Lemma serve_unmatched (t : trie handler middleware) st (rq : request X) :
    (search_route t (rq_path rq) = LNone \/
     exists rv, search_route t (rq_path rq) = LSome rv /\ rr_get_route rv (rq_method rq) = None) ->
    serve t st rq = Ret page_not_found.
  Proof. intros [E|(rv & E & F)]; unfold serve; rewrite E; cbn [resolve_endpoint]; [|rewrite F]; reflexivity. Qed.

  (** ** Logger *)

  Lemma logger_goes d (c : context) tr s : goes (U:=U) (A:=A) (logger d c) tr s ->
    unlogged tr = [] /\ s = Calls 0 c logger_after.
  Proof.
    unfold logger. intros R. inversion R; subst. destruct d.
    - inversion H3; subst. inversion H4; subst. auto.
    - inversion H3; subst. auto.
  Qed.

  Lemma logger_starts d (c : context) : exists tr, goes (U:=U) (A:=A) (logger d c) tr (Calls 0 c logger_after).
  Proof.
    unfold logger. destruct d; eexists.
    - apply go_print, go_print, go_next.
    - apply go_print, go_next.
  Qed.

  Lemma logger_after_value (r : result) : (forall c', r = inl c' -> ctx_response c' <> None) ->
    exists l, logger_line l = true /\ logger_after (U:=U) (A:=A) r = MPrint l (MDone r).
  Proof.
    intros NR. destruct r as [c'|e]; cbn; [|eexists; split; [|reflexivity]; reflexivity].
    specialize (NR c' eq_refl). destruct (ctx_response c'); [|congruence]. eexists; split; [|reflexivity]; reflexivity.
  Qed.

  Lemma unlogged_app (a b : list (event U A)) : unlogged (a ++ b) = unlogged a ++ unlogged b.
  Proof. apply filter_app. Qed.

  (** The runs of a chain behind the logger. *)
  Lemma logger_next d post (h : handler) c tr o : runs (next (logger d :: post) h c) tr o <->
    exists t1 t2, tr = t1 ++ t2 /\ goes (logger d c) t1 (Calls 0 c logger_after) /\
      ((exists t3 t4 r, t2 = t3 ++ t4 /\ runs (next post h c) t3 (Value r) /\
          runs (exec (fun n c' => next_from n post h c') (logger_after r)) t4 o) \/
       (exists p, o = Panicked p /\ runs (next post h c) t2 (Panicked p))).
  Proof.
    rewrite next_cons, runs_exec. split.
    - intros [(r & _ & G)|[(e & _ & G)|(t1 & t2 & n & c' & k & -> & G & R)]];
        destruct (logger_goes _ _ _ _ G) as (_ & E); try discriminate E.
      injection E as -> -> ->. apply runs_bind in R. exists t1, t2. auto.
    - intros (t1 & t2 & -> & G & R). right. right. exists t1, t2, 0, c, logger_after. split; [reflexivity|].
      split; [exact G|]. apply runs_bind. exact R.
  Qed.

  Lemma logger_first d post (h : handler) c tr o :
    (forall tr' c', runs (next post h c) tr' (Value (inl c')) -> ctx_response c' <> None) ->
    (runs (next post h c) tr o -> exists tr', runs (next (logger d :: post) h c) tr' o /\ unlogged tr' = unlogged tr) /\
    (runs (next (logger d :: post) h c) tr o -> exists tr', runs (next post h c) tr' o /\ unlogged tr' = unlogged tr).
  Proof.
    intros NR. split.
    - intros R. destruct (logger_starts d c) as (t1 & R1). destruct (logger_goes _ _ _ _ R1) as (U1 & _). destruct o as [r|p].
      + destruct (logger_after_value r) as (l & L & E); [intros c' ->; exact (NR tr c' R)|].
        exists (t1 ++ tr ++ [EvPrint l]). split.
        * apply logger_next. exists t1, (tr ++ [EvPrint l]). split; [reflexivity|]. split; [exact R1|]. left.
          exists tr, [EvPrint l], r. split; [reflexivity|]. split; [exact R|]. rewrite E. apply run_print, run_ret.
        * rewrite !unlogged_app, U1. cbn. rewrite L. cbn. apply app_nil_r.
      + exists (t1 ++ tr). split; [|rewrite unlogged_app, U1; reflexivity].
        apply logger_next. exists t1, tr. split; [reflexivity|]. split; [exact R1|]. right. eauto.
    - intros R. apply logger_next in R as (t1 & t2 & -> & R1 & R2). destruct (logger_goes _ _ _ _ R1) as (U1 & _).
      destruct R2 as [(t3 & t4 & r & -> & R2 & R3)|(p & -> & R2)].
      + exists t3. destruct (logger_after_value r) as (l & L & E); [intros c' ->; exact (NR t3 c' R2)|].
        rewrite E in R3. cbn [exec] in R3. apply runs_print in R3 as (t & -> & R3). apply runs_ret in R3 as [-> ->]. split; [exact R2|].
        rewrite !unlogged_app, U1. cbn. rewrite L. cbn. symmetry. apply app_nil_r.
      + exists t2. split; [exact R2|]. rewrite unlogged_app, U1. reflexivity.
  Qed.

  (** Programs over two ways to go on that differ in logged lines only. *)
  Lemma exec_unlogged nx nx' (p : mprog X U A) :
    (forall c tr o, runs (nx 0 c) tr o -> exists tr', runs (nx' 0 c) tr' o /\ unlogged tr' = unlogged tr) ->
    no_skip p -> forall tr o, runs (exec nx p) tr o -> exists tr', runs (exec nx' p) tr' o /\ unlogged tr' = unlogged tr.
  Proof.
    intros E. induction p as [r|n c k IH|l k IH|path k IH|u k IH|e]; intros NS tr o R; cbn [exec no_skip] in *.
    - exists tr. auto.
    - destruct NS as [-> NS]. apply runs_bind in R as [(t1 & t2 & r & -> & R1 & R2)|(p & -> & R1)];
        apply E in R1 as (t1' & R1 & E1).
      + apply (IH r (NS r)) in R2 as (t2' & R2 & E2). exists (t1' ++ t2').
        split; [|rewrite !unlogged_app, E1, E2; reflexivity]. apply runs_bind. left. eauto 6.
      + exists t1'. split; [|exact E1]. apply runs_bind. right. eauto.
    - apply runs_print in R as (t & -> & R). apply (IH NS) in R as (t' & R & Et). exists (EvPrint l :: t').
      split; [constructor; exact R|]. change (unlogged ([EvPrint l] ++ t') = unlogged ([EvPrint l] ++ t)).
      rewrite !unlogged_app, Et. reflexivity.
    - apply runs_read in R as (res & t & -> & R). apply (IH res (NS res)) in R as (t' & R & Et). exists (EvRead path res :: t').
      split; [constructor; exact R|]. change (unlogged ([EvRead path res] ++ t') = unlogged ([EvRead path res] ++ t)).
      rewrite !unlogged_app, Et. reflexivity.
    - inversion R; subst. apply (IH a (NS a)) in H3 as (t' & R' & Et). exists (EvAsk u a :: t').
      split; [constructor; exact R'|]. change (unlogged ([EvAsk u a] ++ t') = unlogged ([EvAsk u a] ++ tr0)).
      rewrite !unlogged_app, Et. reflexivity.
    - exists tr. auto.
  Qed.

  Lemma logger_transparent d pre post (h : handler) c tr o : Forall never_skips pre ->
    (forall c0 tr' c', runs (next post h c0) tr' (Value (inl c')) -> ctx_response c' <> None) ->
    (runs (next (pre ++ post) h c) tr o ->
       exists tr', runs (next (pre ++ logger d :: post) h c) tr' o /\ unlogged tr' = unlogged tr) /\
    (runs (next (pre ++ logger d :: post) h c) tr o ->
       exists tr', runs (next (pre ++ post) h c) tr' o /\ unlogged tr' = unlogged tr).
  Proof.
    intros F NR. revert c tr o. induction F as [|m pre NS F IH]; intros c tr o; cbn [app]; [apply logger_first; eauto|].
    rewrite !next_cons. split; intros R.
    - eapply exec_unlogged; [|apply NS|exact R]. intros c' tr' o' R'. apply (proj1 (IH c' tr' o')). exact R'.
    - eapply exec_unlogged; [|apply NS|exact R]. intros c' tr' o' R'. apply (proj2 (IH c' tr' o')). exact R'.
  Qed.
End Serve.
