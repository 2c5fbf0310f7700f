(** Lemmas about [Server]. *)

From Coq Require Import Lia.
From Verif Require Import Base RouteTrie Router Http App AppSpec Server ServerSpec AppLemmas.
Local Open Scope list_scope.

Section Lemmas.
  Context {X U A : Type}.
  Notation label := (label X U A).
  Notation conn := (conn X U A).
  Notation comp := (comp U A http_response).

  (** [does c tr c']: [c] has done [tr] and [c'] remains. *)
  Inductive does : comp -> list (event U A) -> comp -> Prop :=
  | do_nil c : does c [] c
  | do_cons c e c' tr c'' : acts c e c' -> does c' tr c'' -> does c (e :: tr) c''.

  Lemma does_snoc c tr c' e c'' : does c tr c' -> acts c' e c'' -> does c (tr ++ [e]) c''.
  Proof. induction 1; cbn; intros S; [eapply do_cons; [exact S|constructor]|eapply do_cons; eauto]. Qed.

  Lemma does_value c tr r : does c tr (Ret r) <-> runs c tr (Value r).
  Proof.
    split.
    - intros H. remember (Ret r) as d eqn:Ed. induction H as [c|c e c' tr c'' S H IH]; subst.
      + constructor.
      + inversion S; subst; constructor; auto.
    - intros H. remember (Value r) as o eqn:Eo. induction H; try discriminate;
        [injection Eo as ->; constructor|..]; (eapply do_cons; [constructor|auto]).
  Qed.

  Lemma does_panic c tr p : does c tr (Crash p) <-> runs c tr (Panicked p).
  Proof.
    split.
    - intros H. remember (Crash p) as d eqn:Ed. induction H as [c|c e c' tr c'' S H IH]; subst.
      + constructor.
      + inversion S; subst; constructor; auto.
    - intros H. remember (Panicked p) as o eqn:Eo. induction H; try discriminate;
        [injection Eo as ->; constructor|..]; (eapply do_cons; [constructor|auto]).
  Qed.

  Lemma does_starts c tr : (exists c', does c tr c') <-> starts_with c tr.
  Proof.
    split.
    - intros [c' H]. induction H as [c|c e c' tr c'' S H IH]; [constructor|].
      inversion S; subst; constructor; auto.
    - induction 1 as [c|l k tr H [c' IH]|path k res tr H [c' IH]|u k a tr H [c' IH]];
        eexists; try constructor; (eapply do_cons; [constructor|eassumption]).
  Qed.

  Variable app : service X U A.
  Notation srv := (call_service app).

  (** Steps of one connection. *)
  Inductive path : conn -> list label -> conn -> Prop :=
  | pa_nil v : path v [] v
  | pa_cons v l v' ls v'' : conn_step app v l v' -> path v' ls v'' -> path v (l :: ls) v''.

  Lemma path_snoc v ls v' l v'' : path v ls v' -> conn_step app v' l v'' -> path v (ls ++ [l]) v''.
  Proof. induction 1; cbn; intros S; [eapply pa_cons; [exact S|constructor]|eapply pa_cons; eauto]. Qed.

  Lemma path_app v l1 v' l2 v'' : path v l1 v' -> path v' l2 v'' -> path v (l1 ++ l2) v''.
  Proof. induction 1; cbn; intros; [assumption|eapply pa_cons; eauto]. Qed.

  Lemma path_unsnoc v ls l v'' : path v (ls ++ [l]) v'' -> exists v', path v ls v' /\ conn_step app v' l v''.
  Proof.
    revert v; induction ls as [|x ls IH]; cbn; intros v H; inversion H as [|? ? v1 ? ? S P]; subst.
    - inversion P; subst. eexists. split; [constructor|exact S].
    - destruct (IH _ P) as (v' & P' & S'). exists v'. split; [eapply pa_cons; eauto|exact S'].
  Qed.

  Lemma own_app i (a b : list (nat * label)) : own i (a ++ b) = own i a ++ own i b.
  Proof. apply flat_map_app. Qed.

  Lemma execution_paths log s : execution app log s -> forall i, path Unconnected (own i log) (s i).
  Proof.
    induction 1 as [|log s j l v E IH S]; intros i; [constructor|].
    rewrite own_app. unfold update. cbn. rewrite (Nat.eqb_sym j i). destruct (Nat.eqb i j) eqn:Ei; cbn.
    - apply Nat.eqb_eq in Ei. subst. eapply path_snoc; eauto.
    - rewrite app_nil_r. apply IH.
  Qed.

  Lemma conn_step_fun v l v1 v2 : conn_step app v l v1 -> conn_step app v l v2 -> v1 = v2.
  Proof.
    intros H1 H2; inversion H1; subst; inversion H2; subst; try reflexivity.
    match goal with H : acts _ _ _, K : acts _ _ _ |- _ => inversion H; subst; inversion K; subst end; reflexivity.
  Qed.

  Lemma path_fun v ls v1 v2 : path v ls v1 -> path v ls v2 -> v1 = v2.
  Proof.
    intros H; revert v2; induction H; intros v2 P; inversion P; subst; [reflexivity|].
    apply IHpath. replace v' with v'0; [assumption|]. eapply conn_step_fun; eauto.
  Qed.

  Lemma paths_execution log : (forall i, exists v, path Unconnected (own i log) v) -> exists s, execution app log s.
  Proof.
    induction log as [|[j l] log IH] using rev_ind; intros H; [eexists; constructor|].
    destruct IH as [s E].
    - intros i. destruct (H i) as [v P]. rewrite own_app in P. cbn in P. destruct (Nat.eqb j i); cbn in P.
      + apply path_unsnoc in P as (v' & P & _). eauto.
      + rewrite app_nil_r in P. eauto.
    - destruct (H j) as [v P]. rewrite own_app in P. cbn in P. rewrite Nat.eqb_refl in P. cbn in P.
      apply path_unsnoc in P as (v' & P & S). rewrite (path_fun _ _ _ _ P (execution_paths _ _ E j)) in S.
      eexists. econstructor; eauto.
  Qed.

  Lemma acts_path s c tr c' : does c tr c' -> path (Running s c) (map Act tr) (Running s c').
  Proof. induction 1; cbn; [constructor|]. eapply pa_cons; [constructor; eassumption|assumption]. Qed.

  (** Whatever a path from [Running] does first is a run. *)
  Lemma running_path s c ls v : path (Running s c) ls v ->
    exists tr c', does c tr c' /\
      (ls = map Act tr \/ (exists r rest, c' = Ret r /\ ls = map Act tr ++ Answer r :: rest /\ path (Waiting s) rest v) \/
       (exists p, c' = Crash p /\ ls = map Act tr ++ [Break p]) \/ ls = map Act tr ++ [Disconnect]).
  Proof.
    revert c; induction ls as [|l ls IH]; intros c H.
    - exists [], c. split; [constructor|left; reflexivity].
    - inversion H as [|? ? v' ? ? S P]; subst. inversion S; subst.
      + destruct (IH _ P) as (tr & c'' & D & K). exists (e :: tr), c''. split; [econstructor; eauto|].
        destruct K as [->|[(r & rest & -> & -> & K)|[(p & -> & ->)| ->]]]; cbn; eauto 10.
      + exists [], (Ret r). split; [constructor|]. right; left. exists r, ls. auto.
      + exists [], (Crash p). split; [constructor|]. right; right; left. exists p.
        inversion P as [|? ? ? ? ? S' ?]; subst; [auto|inversion S'].
      + exists [], c. split; [constructor|]. right; right; right.
        inversion P as [|? ? ? ? ? S' ?]; subst; [auto|inversion S'].
  Qed.

  Lemma waiting_path n : forall ls v, length ls <= n -> path (Waiting app) ls v -> exchanges srv ls.
  Proof.
    induction n as [|n IH]; intros [|l ls] v Le H; cbn in Le; try (constructor; fail); [lia|].
    inversion H as [|? ? v' ? ? S P]; subst. inversion S; subst.
    - apply running_path in P as (tr & c' & D & K).
      destruct K as [->|[(r & rest & -> & -> & K)|[(p & -> & ->)| ->]]].
      + apply xc_unfinished. apply does_starts. eauto.
      + apply xc_answered; [apply does_value; exact D|]. apply (IH rest v); [|exact K].
        rewrite app_length in Le. cbn in Le. lia.
      + apply xc_panicked. apply does_panic. exact D.
      + apply xc_dropped. apply does_starts. eauto.
    - inversion P as [|? ? ? ? ? S' ?]; subst; [apply xc_gone|inversion S'].
  Qed.

  Lemma exchanges_path ls : exchanges srv ls -> exists v, path (Waiting app) ls v.
  Proof.
    induction 1 as [| |rq tr r rest R E [v IH]|rq tr p R|rq tr S|rq tr S].
    - eexists; constructor.
    - eexists. eapply pa_cons; [apply cs_gone|constructor].
    - exists v. eapply pa_cons; [apply cs_receive|]. apply does_value in R. apply acts_path with (s := app) in R.
      eapply path_app; [exact R|]. eapply pa_cons; [apply cs_answer|exact IH].
    - eexists. eapply pa_cons; [apply cs_receive|]. apply does_panic in R. apply acts_path with (s := app) in R.
      eapply path_app; [exact R|]. eapply pa_cons; [apply cs_break|constructor].
    - apply does_starts in S as [c' D]. eexists. eapply pa_cons; [apply cs_receive|]. apply acts_path with (s := app) in D.
      eapply path_app; [exact D|]. eapply pa_cons; [apply cs_dropped|constructor].
    - apply does_starts in S as [c' D]. eexists. eapply pa_cons; [apply cs_receive|]. apply acts_path with (s := app) in D.
      exact D.
  Qed.

  Lemma make_service_same : make_service app = app.
  Proof. destruct app; reflexivity. Qed.

  Lemma conversation_path ls : (exists v, path Unconnected ls v) <-> conversation srv ls.
  Proof.
    split.
    - intros [v P]. inversion P as [|? ? v' ? ? S P']; subst; [left; reflexivity|].
      inversion S; subst. right. eexists. split; [reflexivity|]. rewrite make_service_same in P'.
      eapply waiting_path; [apply le_n|exact P'].
    - intros [->|(l' & -> & E)]; [eexists; constructor|]. apply exchanges_path in E as [v P].
      exists v. eapply pa_cons; [apply cs_accept|]. rewrite make_service_same. exact P.
  Qed.

  (** C49 *)
  Lemma interleavings log : (exists s, execution app log s) <-> forall i, conversation srv (own i log).
  Proof.
    split.
    - intros [s E] i. apply conversation_path. eexists. apply execution_paths. exact E.
    - intros H. apply paths_execution. intros i. apply conversation_path. apply H.
  Qed.

  (** A request received and answered within a conversation was handled on its own. *)
  Lemma exchange_runs before rq tr r after v w : path v (before ++ Receive rq :: map Act tr ++ Answer r :: after) w ->
    (forall s, v = Waiting s -> s = app) -> (forall s c, v = Running s c -> s = app) -> runs (srv rq) tr (Value r).
  Proof.
    revert v; induction before as [|l before IH]; cbn; intros v P Hw Hr; inversion P as [|? ? v' ? ? S P']; subst.
    - inversion S; subst. rewrite (Hw s eq_refl) in P'. apply does_value. clear -P'.
      revert P'. generalize (srv rq). induction tr as [|e tr IH]; cbn; intros c P; inversion P as [|? ? v' ? ? S P']; subst; inversion S; subst.
      + constructor.
      + econstructor; [eassumption|]. apply IH. exact P'.
    - apply IH in P'; [exact P'|..]; intros; subst; inversion S; subst; eauto using make_service_same.
  Qed.

  Lemma answered_alone log s i rq tr r : execution app log s -> answered i rq tr r log -> runs (srv rq) tr (Value r).
  Proof.
    intros E (before & after & Eo). apply execution_paths with (i := i) in E. rewrite Eo in E.
    eapply exchange_runs; [exact E|discriminate|discriminate].
  Qed.

  Lemma runs_constant (f : str -> str + str) (g : U -> A) (c : comp) t1 o1 t2 o2 :
    runs c t1 o1 -> runs c t2 o2 ->
    (forall path res, In (EvRead path res) t1 -> res = f path) -> (forall u a, In (EvAsk u a) t1 -> a = g u) ->
    (forall path res, In (EvRead path res) t2 -> res = f path) -> (forall u a, In (EvAsk u a) t2 -> a = g u) ->
    t1 = t2 /\ o1 = o2.
  Proof.
    intros H. revert t2 o2. induction H; intros t2 o2 R2 F1 G1 F2 G2; inversion R2; subst; auto.
    - edestruct IHruns as [-> ->]; eauto; intros; [eapply F1|eapply G1|eapply F2|eapply G2]; right; eassumption.
    - assert (res = f path0) as -> by (eapply F1; left; reflexivity).
      assert (res0 = f path0) as -> by (eapply F2; left; reflexivity).
      edestruct IHruns as [-> ->]; eauto; intros; [eapply F1|eapply G1|eapply F2|eapply G2]; right; eassumption.
    - assert (a = g u) as -> by (eapply G1; left; reflexivity).
      assert (a0 = g u) as -> by (eapply G2; left; reflexivity).
      edestruct IHruns as [-> ->]; eauto; intros; [eapply F1|eapply G1|eapply F2|eapply G2]; right; eassumption.
  Qed.

  Lemma in_own i l (log : list (nat * label)) : In l (own i log) <-> In (i, l) log.
  Proof.
    unfold own. rewrite in_flat_map. split.
    - intros ([j l'] & I & K). cbn in K. destruct (Nat.eqb j i) eqn:E; [|destruct K].
      apply Nat.eqb_eq in E. destruct K as [->|[]]. subst. exact I.
    - intros I. exists (i, l). split; [exact I|]. cbn. rewrite Nat.eqb_refl. left; reflexivity.
  Qed.

  Lemma answered_in i rq tr r (log : list (nat * label)) e : answered i rq tr r log -> In e tr -> In (i, Act e) log.
  Proof.
    intros (b & a & E) I. apply in_own. rewrite E. apply in_or_app; right. right.
    apply in_or_app; left. apply in_map. exact I.
  Qed.
End Lemmas.

Lemma same_response {X U A} (app : service X U A) f g log1 s1 log2 s2 i1 i2 rq t1 t2 r1 r2 :
  execution app log1 s1 -> execution app log2 s2 -> constant f g log1 -> constant f g log2 ->
  answered i1 rq t1 r1 log1 -> answered i2 rq t2 r2 log2 -> t1 = t2 /\ r1 = r2.
Proof.
  intros E1 E2 [F1 G1] [F2 G2] A1 A2.
  pose proof (answered_alone app _ _ _ _ _ _ E1 A1) as R1. pose proof (answered_alone app _ _ _ _ _ _ E2 A2) as R2.
  edestruct (runs_constant f g _ _ _ _ _ R1 R2) as [-> K].
  - intros p res I. eapply F1. eapply answered_in; eassumption.
  - intros u a I. eapply G1. eapply answered_in; eassumption.
  - intros p res I. eapply F2. eapply answered_in; eassumption.
  - intros u a I. eapply G2. eapply answered_in; eassumption.
  - injection K as ->. auto.
Qed.

Lemma own_filter {X U A} (keep : nat -> bool) i (log : list (nat * label X U A)) :
  own i (filter (fun x => keep (fst x)) log) = if keep i then own i log else [].
Proof.
  induction log as [|[j l] log IH]; cbn; [destruct (keep i); reflexivity|].
  destruct (Nat.eqb j i) eqn:E.
  - apply Nat.eqb_eq in E. subst. destruct (keep i) eqn:K; cbn.
    + rewrite Nat.eqb_refl. cbn. f_equal. exact IH.
    + exact IH.
  - destruct (keep j); cbn; [rewrite E; cbn|]; exact IH.
Qed.

Lemma without_others {X U A} (app : service X U A) (keep : nat -> bool) log s : execution app log s ->
  exists s', execution app (filter (fun x => keep (fst x)) log) s'.
Proof.
  intros E. apply interleavings. intros i. rewrite own_filter. destruct (keep i); [|left; reflexivity].
  revert i. apply interleavings. eauto.
Qed.

(** Progress. *)
Lemma does_app {U A} (c : comp U A http_response) t1 c1 t2 c2 : does c t1 c1 -> does c1 t2 c2 -> does c (t1 ++ t2) c2.
Proof. induction 1; cbn; intros; [assumption|econstructor; eauto]. Qed.

Lemma finishes {U A} (files : str -> str + str) (answers : U -> A) (c : comp U A http_response) :
  exists tr c', does c tr c' /\ ((exists r, c' = Ret r) \/ (exists p, c' = Crash p)) /\
    (forall path res, In (EvRead path res) tr -> res = files path) /\
    (forall u a, In (EvAsk u a) tr -> a = answers u).
Proof.
  induction c as [x|l k IH|path k IH|u k IH|p].
  - exists [], (Ret x). repeat split; [constructor|eauto|intros ? ? []|intros ? ? []].
  - destruct IH as (tr & c' & D & K & F & G). exists (EvPrint l :: tr), c'.
    repeat split; [econstructor; [constructor|exact D]|exact K|..]; intros ? ? [[=]|I]; eauto.
  - destruct (IH (files path)) as (tr & c' & D & K & F & G). exists (EvRead path (files path) :: tr), c'.
    repeat split; [econstructor; [constructor|exact D]|exact K|..]; [intros ? ? [[= <- <-]|I]|intros ? ? [[=]|I]]; eauto.
  - destruct (IH (answers u)) as (tr & c' & D & K & F & G). exists (EvAsk u (answers u) :: tr), c'.
    repeat split; [econstructor; [constructor|exact D]|exact K|..]; [intros ? ? [[=]|I]|intros ? ? [[= <- <-]|I]]; eauto.
  - exists [], (Crash p). repeat split; [constructor|eauto|intros ? ? []|intros ? ? []].
Qed.

Section Progress.
  Context {X U A : Type}.
  Variable app : service X U A.
  Notation label := (label X U A).

  Lemma path_split v l1 l2 v'' : path app v (l1 ++ l2) v'' -> exists v', path app v l1 v' /\ path app v' l2 v''.
  Proof.
    revert v; induction l1 as [|x l1 IH]; cbn; intros v H; [exists v; split; [constructor|exact H]|].
    inversion H as [|? ? v1 ? ? S P]; subst. destruct (IH _ P) as (v' & P1 & P2). exists v'. split; [econstructor; eauto|exact P2].
  Qed.

  Lemma acts_does s c tr v : path app (Running s c) (map Act tr) v -> exists c', v = Running s c' /\ does c tr c'.
  Proof.
    revert c; induction tr as [|e tr IH]; cbn; intros c H; inversion H as [|? ? v1 ? ? S P]; subst.
    - exists c. split; [reflexivity|constructor].
    - inversion S; subst. destruct (IH _ P) as (c'' & -> & D). exists c''. split; [reflexivity|econstructor; eauto].
  Qed.

  (** The service of a connection never changes. *)
  Definition of_app (v : conn X U A) : Prop :=
    match v with Waiting s | Running s _ => s = app | _ => True end.

  Lemma path_of_app v ls v' : path app v ls v' -> of_app v -> of_app v'.
  Proof.
    induction 1 as [|v l v' ls v'' S P IH]; [auto|]. intros H. apply IH. inversion S; subst; cbn in *; auto.
    destruct app; reflexivity.
  Qed.

  Lemma extend i ls : forall log s v, execution app log s -> path app (s i) ls v ->
    exists s', execution app (log ++ map (pair i) ls) s' /\ s' i = v /\ forall j, j <> i -> s' j = s j.
  Proof.
    induction ls as [|l ls IH]; intros log s v E P.
    - cbn. rewrite app_nil_r. exists s. inversion P; subst. auto.
    - inversion P as [|? ? v1 ? ? S P']; subst.
      destruct (IH (log ++ [(i, l)]) (update s i v1) v) as (s' & E' & Ei & Ej).
      + econstructor; eauto.
      + unfold update. rewrite Nat.eqb_refl. exact P'.
      + exists s'. rewrite <- app_assoc in E'. split; [exact E'|]. split; [exact Ei|].
        intros j N. rewrite (Ej j N). unfold update. apply Nat.eqb_neq in N. rewrite N. reflexivity.
  Qed.

  Lemma in_flight_state log s i rq tr : execution app log s -> in_flight i rq tr log ->
    exists c, s i = Running app c /\ does (call_service app rq) tr c.
  Proof.
    intros E (b & O). pose proof (execution_paths app _ _ E i) as P. rewrite O in P.
    apply path_split in P as (v & P1 & P2). inversion P2 as [|? ? v' ? ? S P]; subst.
    assert (of_app v) as Hv by (eapply path_of_app; [exact P1|exact I]).
    inversion S; subst. cbn in Hv. subst s0.
    apply acts_does in P as (c & Es & D). eauto.
  Qed.

  Lemma not_blocked files answers log s i rq tr : execution app log s -> in_flight i rq tr log ->
    exists tr' o s', runs (call_service app rq) (tr ++ tr') o /\
      (forall path res, In (EvRead path res) tr' -> res = files path) /\
      (forall u a, In (EvAsk u a) tr' -> a = answers u) /\
      execution app (log ++ map (fun e => (i, Act e)) tr' ++
        [(i, match o with Value r => Answer r | Panicked p => Break p end)]) s' /\
      forall j, j <> i -> s' j = s j.
  Proof.
    intros E F. destruct (in_flight_state _ _ _ _ _ E F) as (c & Es & D).
    destruct (finishes files answers c) as (tr' & c' & D' & K & Hf & Ha).
    pose proof (does_app _ _ _ _ _ D D') as DD. pose proof (acts_path app app _ _ _ D') as P.
    rewrite <- Es in P.
    assert (M : forall l, map (pair i) (map Act tr' ++ [l]) = map (fun e => (i, Act e)) tr' ++ [(i, l : label)])
      by (intros l; rewrite map_app, map_map; reflexivity).
    destruct K as [[r ->]|[p ->]].
    - exists tr', (Value r). destruct (extend i (map Act tr' ++ [Answer r]) log s (Waiting app) E) as (s' & E' & _ & Ej).
      { eapply path_snoc; [exact P|constructor]. }
      exists s'. rewrite M in E'. split; [apply does_value; exact DD|]. auto.
    - exists tr', (Panicked p). destruct (extend i (map Act tr' ++ [Break p]) log s Closed E) as (s' & E' & _ & Ej).
      { eapply path_snoc; [exact P|constructor]. }
      exists s'. rewrite M in E'. split; [apply does_panic; exact DD|]. auto.
  Qed.

  (** Endless runs. *)
  Lemma endless_execution ev st : endless app ev st -> forall n,
    exists s, execution app (map ev (seq 0 n)) s /\ forall i, s i = st n i.
  Proof.
    intros [Z St] n. induction n as [|n (s & E & Q)].
    - exists (fun _ => Unconnected). split; [constructor|]. intros i. symmetry. apply Z.
    - destruct (St n) as [S O]. rewrite seq_S, map_app. cbn. rewrite <- Q in S.
      exists (update s (fst (ev n)) (st (Datatypes.S n) (fst (ev n)))). split.
      + rewrite (surjective_pairing (ev n)) at 1. econstructor; eauto.
      + intros i. unfold update. destruct (Nat.eqb i (fst (ev n))) eqn:Ei.
        * apply Nat.eqb_eq in Ei. subst. reflexivity.
        * apply Nat.eqb_neq in Ei. rewrite (O i Ei). apply Q.
  Qed.

  Lemma next_turn ev st i : endless app ev st -> fair i ev -> forall n,
    exists m, n <= m /\ fst (ev m) = i /\ st m i = st n i.
  Proof.
    intros [_ St] Fr n. destruct (Fr n) as (m & Le & Em).
    remember (m - n) as d eqn:Ed. revert n Le Ed. induction d as [|d IH]; intros n Le Ed.
    - assert (m = n) by lia. subst m. exists n. auto.
    - destruct (Nat.eq_dec (fst (ev n)) i) as [En|En]; [exists n; auto|].
      destruct (IH (S n)) as (k & Lk & Ek & Sk); [lia|lia|].
      exists k. split; [lia|]. split; [exact Ek|]. rewrite Sk. apply St. congruence.
  Qed.

  Lemma running_step s c l v : conn_step app (Running s c) l v ->
    final l \/ exists e c', acts c e c' /\ v = Running s c'.
  Proof. intros S. inversion S; subst; [right; eauto|left; unfold final; eauto..]. Qed.

  Lemma acts_ind (P : comp U A http_response -> Prop) :
    (forall c, (forall e c', acts c e c' -> P c') -> P c) -> forall c, P c.
  Proof.
    intros G c. induction c as [x|l k IH|path k IH|u k IH|p]; apply G; intros e c' Ac; inversion Ac; subst; auto.
  Qed.

  Lemma always_finishes ev st i : endless app ev st -> fair i ev -> forall s c n, st n i = Running s c ->
    exists m, n <= m /\ fst (ev m) = i /\ final (snd (ev m)).
  Proof.
    intros En Fr s c. induction c as [c IH] using acts_ind.
    intros n Sn. destruct (next_turn _ _ _ En Fr n) as (m & Le & Em & Sm). pose proof En as [_ St].
    destruct (St m) as [S _]. rewrite Em, Sm, Sn in S. apply running_step in S as [F|(e & c' & Ac & Es)].
    - exists m. auto.
    - destruct (IH e c' Ac _ Es) as (m' & Le' & K). exists m'. split; [lia|exact K].
  Qed.

  Lemma fair_finishes ev st i n rq : endless app ev st -> fair i ev -> ev n = (i, Receive rq) ->
    exists m, n < m /\ fst (ev m) = i /\ final (snd (ev m)).
  Proof.
    intros En Fr Ev. pose proof En as [_ St]. destruct (St n) as [S _]. rewrite Ev in S. cbn in S. inversion S; subst.
    symmetry in H2. destruct (always_finishes _ _ _ En Fr _ _ _ H2) as (m & Le & K). exists m. split; [lia|exact K].
  Qed.
End Progress.
