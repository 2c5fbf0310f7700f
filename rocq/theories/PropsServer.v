(** Property C49: requests in flight at the same time.

    [execution (Service t st) log s]: the server with router [t] and app state [st] has
    made the steps of [log], each by a numbered connection ([Server]).  [own i log] are
    the steps of connection [i]; [conversation (serve t st) l]: [l] is a sequence of
    requests each handled on its own ([ServerSpec]). *)

From Coq Require Import String Lia.
From Verif Require Import Base Utf8 RouteTrie Router PropSpec Http App AppSpec Server ServerSpec.
From Verif Require Import RouteFacts RouteWitness AppLemmas AppWitness ServerLemmas.
Local Open Scope string_scope.
Local Open Scope list_scope.

(** The executions are exactly the interleavings of what connections do on their own:
    there is no other influence, and no way for one to hold up another. *)
Theorem C49_interleavings : forall (X U A : Type) (t : trie (handler X U A) (middleware X U A)) st log,
  (exists s, execution (Service t st) log s) <-> (forall i, conversation (serve t st) (own i log)).
Proof. exact (fun X U A t st => interleavings (Service t st)). Qed.
Print Assumptions C49_interleavings.

(** One connection answered before it has sent anything, and one answered with what the
    handler does not write: no executions; and one that is. *)
Example C49_interleavings_example :
  let h : handler unit unit bool := fun c => Ret (inl c) in
  let rq : request unit := get_req (lit "/a") in
  let ok := HttpResponse 200%N [] body_empty in
  exists t, built [@ORoute _ (middleware unit unit bool) GET (lit "/a") h] t /\
    ~ (exists s, execution (Service t None) [(1, Accept); (2, Accept); (1, Answer ok)] s) /\
    ~ (exists s, execution (Service t None) [(1, Accept); (1, Receive rq); (1, Answer (HttpResponse 404%N [] body_empty))] s) /\
    exists s, execution (Service t None) [(1, Accept); (2, Accept); (1, Receive rq); (2, Disconnect); (1, Answer ok)] s.
Proof.
  intros h rq ok. destruct (serve_one (lit "/a") (lit "/a") h None) as (t & ps & B & E).
  { assert (L : forall H M (x : H), @one_route H M (lit "/a") (lit "/a") x) by (intros; one). apply L. }
  assert (R : serve t None rq = Ret ok) by (subst rq; rewrite E; reflexivity).
  assert (D : forall log, (exists s, execution (Service t None) log s) -> exists l,
            own 1 log = Accept :: l /\ exchanges (serve t None) l \/ own 1 log = []).
  { intros log Ex. apply (interleavings (Service t None)) with (i := 1) in Ex as [Ex|(l & Ex & X)]; [exists []; auto|].
    exists l. auto. }
  exists t. split; [exact B|]. split; [|split].
  - intros Ex. apply D in Ex as (l & [[Q X]|Q]); [|discriminate Q]. injection Q as <-. inversion X.
  - intros Ex. apply D in Ex as (l & [[Q X]|Q]); [|discriminate Q]. cbn in Q. injection Q as Q.
    destruct X as [| |rq' tr r rest Rn _|rq' tr p Rn|rq' tr Rn|rq' tr Rn]; try discriminate Q; injection Q as <- Q.
    + rewrite R in Rn. apply runs_ret in Rn as [-> Rn]. injection Rn as ->. discriminate Q.
    + rewrite R in Rn. apply runs_ret in Rn as [-> Rn]. discriminate Rn.
    + rewrite R in Rn. inversion Rn; subst tr. discriminate Q.
    + rewrite R in Rn. inversion Rn; subst tr. discriminate Q.
  - apply (interleavings (Service t None)). intros [|[|[|i]]]; [left; reflexivity| | |left; reflexivity]; right; eexists; (split; [reflexivity|]).
    + apply (xc_answered _ rq []); [|apply xc_idle]. unfold call_service; cbn [sv_router sv_state]. rewrite R. apply run_ret.
    + apply xc_gone.
Qed.

(** Each request that is answered is answered as on its own. *)
Theorem C49_alone : forall (X U A : Type) (t : trie (handler X U A) (middleware X U A)) st log s i rq tr r,
  execution (Service t st) log s -> answered i rq tr r log -> runs (serve t st rq) tr (Value r).
Proof. exact (fun X U A t st => answered_alone (Service t st)). Qed.
Print Assumptions C49_alone.

(** Two connections; the request of the first panics while that of the second is
    being handled. *)
Example C49_example :
  let h : handler unit unit bool := fun c => Ask tt (fun a : bool => if a then Crash PUser else Ret (inl c)) in
  let rq : request unit := get_req (lit "/a") in
  let log : list (nat * label unit unit bool) := [(1, Accept); (2, Accept); (2, Receive rq); (1, Receive rq); (1, Act (EvAsk tt true));
              (2, Act (EvAsk tt false)); (1, Break PUser); (2, Answer (HttpResponse 200%N [] body_empty));
              (2, Receive rq); (2, Disconnect)] in
  exists t, built [@ORoute _ (middleware unit unit bool) GET (lit "/a") h] t /\
    (exists s, execution (Service t None) log s) /\
    answered 2 rq [EvAsk tt false] (HttpResponse 200%N [] body_empty) log.
Proof.
  intros h rq log. destruct (serve_one (lit "/a") (lit "/a") h None) as (t & ps & B & E).
  { assert (L : forall H M (x : H), @one_route H M (lit "/a") (lit "/a") x) by (intros; one). apply L. }
  exists t. split; [exact B|]. split; [|exists [Accept], [Receive rq; Disconnect]; reflexivity].
  apply interleavings. intros [|[|[|i]]]; [left; reflexivity| | |left; reflexivity]; right; eexists; (split; [reflexivity|]).
  - apply (xc_panicked _ rq [EvAsk tt true] PUser). unfold call_service; cbn [sv_router sv_state]; subst rq; rewrite E.
    cbn. repeat constructor.
  - apply (xc_answered _ rq [EvAsk tt false]).
    + unfold call_service; cbn [sv_router sv_state]; subst rq; rewrite E. cbn. repeat constructor.
    + apply (xc_dropped _ rq []). constructor.
Qed.

(** If files do not change and user actions are answered the same way each time, a
    request gets the same response whatever else is going on. *)
Theorem C49_same_response :
  forall (X U A : Type) (t : trie (handler X U A) (middleware X U A)) st files answers log1 s1 log2 s2 i1 i2 rq t1 t2 r1 r2,
  execution (Service t st) log1 s1 -> execution (Service t st) log2 s2 ->
  constant files answers log1 -> constant files answers log2 ->
  answered i1 rq t1 r1 log1 -> answered i2 rq t2 r2 log2 -> t1 = t2 /\ r1 = r2.
Proof. exact (fun X U A t st => same_response (Service t st)). Qed.
Print Assumptions C49_same_response.

(** The same request alone, and while another is being handled and dropped. *)
Example C49_same_response_example :
  let h : handler unit unit bool := fun c => Ask tt (fun a : bool => if a then Crash PUser else Ret (inl c)) in
  let rq : request unit := get_req (lit "/a") in
  let ok := HttpResponse 200%N [] body_empty in
  let log1 : list (nat * label unit unit bool) := [(1, Accept); (1, Receive rq); (1, Act (EvAsk tt false)); (1, Answer ok)] in
  let log2 := [(1, Accept); (2, Accept); (2, Receive rq); (1, Receive rq); (2, Act (EvAsk tt false));
               (1, Disconnect); (2, Answer ok)] in
  let files := fun _ => inl (lit "text") in
  exists t, built [@ORoute _ (middleware unit unit bool) GET (lit "/a") h] t /\
    (exists s, execution (Service t None) log1 s) /\ (exists s, execution (Service t None) log2 s) /\
    constant files (fun _ => false) log1 /\ constant files (fun _ => false) log2 /\
    answered 1 rq [EvAsk tt false] ok log1 /\ answered 2 rq [EvAsk tt false] ok log2.
Proof.
  intros h rq ok log1 log2 files. destruct (serve_one (lit "/a") (lit "/a") h None) as (t & ps & B & E).
  { assert (L : forall H M (x : H), @one_route H M (lit "/a") (lit "/a") x) by (intros; one). apply L. }
  assert (R : runs (serve t None rq) [EvAsk tt false] (Value ok)).
  { subst rq; rewrite E. cbn. repeat constructor. }
  exists t. split; [exact B|]. split; [|split; [|split; [|split; [|split]]]].
  - apply (interleavings (Service t None)). intros [|[|i]]; [left; reflexivity| |left; reflexivity]. right. eexists. split; [reflexivity|].
    apply (xc_answered _ rq [EvAsk tt false]); [exact R|apply xc_idle].
  - apply (interleavings (Service t None)). intros [|[|[|i]]]; [left; reflexivity| | |left; reflexivity]; right; eexists; (split; [reflexivity|]).
    + apply (xc_dropped _ rq []). constructor.
    + apply (xc_answered _ rq [EvAsk tt false]); [exact R|apply xc_idle].
  - split; [intros i p res I|intros i u a I]; repeat (destruct I as [I|I]; [try discriminate I; injection I; intros; subst; reflexivity|]); destruct I.
  - split; [intros i p res I|intros i u a I]; repeat (destruct I as [I|I]; [try discriminate I; injection I; intros; subst; reflexivity|]); destruct I.
  - exists [Accept], []. reflexivity.
  - exists [Accept], []. reflexivity.
Qed.

(** Any set of connections may be removed: panics and disconnections included. *)
Theorem C49_others_irrelevant : forall (X U A : Type) (t : trie (handler X U A) (middleware X U A)) st (keep : nat -> bool) log s,
  execution (Service t st) log s ->
  exists s', execution (Service t st) (filter (fun x => keep (fst x)) log) s'.
Proof. exact (fun X U A t st => without_others (Service t st)). Qed.
Print Assumptions C49_others_irrelevant.

(** Of the log of [C49_example] only the second connection is kept. *)
Example C49_others_irrelevant_example :
  let h : handler unit unit bool := fun c => Ask tt (fun a : bool => if a then Crash PUser else Ret (inl c)) in
  let rq : request unit := get_req (lit "/a") in
  exists t s', built [@ORoute _ (middleware unit unit bool) GET (lit "/a") h] t /\
    execution (Service t None) [(2, Accept); (2, Receive rq); (2, Act (EvAsk tt false));
      (2, Answer (HttpResponse 200%N [] body_empty)); (2, Receive rq); (2, Disconnect)] s'.
Proof.
  destruct C49_example as (t & B & (s & Ex) & _). destruct (without_others (Service t None) (Nat.eqb 2) _ _ Ex) as [s' Ex'].
  exists t, s'. split; [exact B|exact Ex'].
Qed.

(** ** Property C67: progress.

    Programs of handlers are finite here: a handler that loops forever, or waits forever
    for an answer, is outside the model.  [in_flight i rq tr log]: request [rq] on
    connection [i] has done [tr] and is not finished. *)

(** Whatever the other connections are doing, a request in flight can be finished by
    steps of its own connection only, whatever is in the files it reads and whatever its
    questions are answered; the other connections are left as they are. *)
Theorem C67_not_blocked :
  forall (X U A : Type) (t : trie (handler X U A) (middleware X U A)) st files answers log s i rq tr,
  execution (Service t st) log s -> in_flight i rq tr log ->
  exists tr' o s', runs (serve t st rq) (tr ++ tr') o /\
    (forall path res, In (EvRead path res) tr' -> res = files path) /\
    (forall u a, In (EvAsk u a) tr' -> a = answers u) /\
    execution (Service t st) (log ++ map (fun e => (i, Act e)) tr' ++
      [(i, match o with Value r => Answer r | Panicked p => Break p end)]) s' /\
    forall j, j <> i -> s' j = s j.
Proof. exact (fun X U A t st => not_blocked (Service t st)). Qed.
Print Assumptions C67_not_blocked.

(** The request of the second connection has asked its first question and waits, that of
    the first has not begun. *)
Example C67_not_blocked_example :
  let h : handler unit nat bool := fun c => Ask 0 (fun a : bool => Ask 1 (fun b : bool => if a then Crash PUser else Ret (inl c))) in
  let rq : request unit := get_req (lit "/a") in
  let log : list (nat * label unit nat bool) := [(1, Accept); (2, Accept); (2, Receive rq); (1, Receive rq); (2, Act (EvAsk 0 false))] in
  exists t s, built [@ORoute _ (middleware unit nat bool) GET (lit "/a") h] t /\
    execution (Service t None) log s /\ in_flight 2 rq [EvAsk 0 false] log /\ in_flight 1 rq [] log.
Proof.
  intros h rq log. destruct (serve_one (lit "/a") (lit "/a") h None) as (t & ps & B & E).
  { assert (L : forall H M (x : H), @one_route H M (lit "/a") (lit "/a") x) by (intros; one). apply L. }
  assert (Ex : exists s, execution (Service t None) log s).
  { apply (interleavings (Service t None)). intros [|[|[|i]]]; [left; reflexivity| | |left; reflexivity]; right; eexists; (split; [reflexivity|]).
    - apply (xc_unfinished _ rq []). constructor.
    - apply (xc_unfinished _ rq [EvAsk 0 false]). unfold call_service; cbn [sv_router sv_state]; subst rq; rewrite E.
      cbn. constructor. constructor. }
  destruct Ex as [s Ex]. exists t, s. split; [exact B|]. split; [exact Ex|]. split; exists [Accept]; reflexivity.
Qed.

(** In a server that runs forever every request received on a connection that gets its
    turn again and again is answered, panics, or loses its client. *)
Theorem C67_finishes :
  forall (X U A : Type) (t : trie (handler X U A) (middleware X U A)) st ev states i n rq,
  endless (Service t st) ev states -> fair i ev -> ev n = (i, Receive rq) ->
  exists m, n < m /\ fst (ev m) = i /\ final (snd (ev m)).
Proof. exact (fun X U A t st => fair_finishes (Service t st)). Qed.
Print Assumptions C67_finishes.

(** Two connections whose requests are handled at the same time, over and over; and the
    unfinished request of the second after three steps. *)
Example C67_example :
  let h : handler unit unit bool := fun c => Ret (inl c) in
  let rq : request unit := get_req (lit "/a") in
  exists t ev states, built [@ORoute _ (middleware unit unit bool) GET (lit "/a") h] t /\
    endless (Service t None) ev states /\ fair 1 ev /\ fair 2 ev /\
    ev 2 = (1, Receive rq) /\ ev 4 = (2, Answer (HttpResponse 200%N [] body_empty)) /\
    in_flight 2 rq [] (map ev (seq 0 4)).
Proof.
  intros h rq. destruct (serve_one (lit "/a") (lit "/a") h None) as (t & ps & B & E).
  { assert (L : forall H M (x : H), @one_route H M (lit "/a") (lit "/a") x) by (intros; one). apply L. }
  set (r := HttpResponse 200%N [] body_empty).
  set (code := nat_rec (fun _ => nat) 0 (fun _ k => match k with 5 => 2 | _ => S k end)).
  set (sv := Service t (None : option (N * unit))).
  set (run := Running sv (Ret r)).
  exists t, (fun n => match code n with
    | 0 => (1, Accept) | 1 => (2, Accept) | 2 => (1, Receive rq) | 3 => (2, Receive rq)
    | 4 => (2, Answer r) | _ => (1, Answer r) end),
    (fun n => match code n with
    | 0 => fun _ => Unconnected
    | 1 => fun i => match i with 1 => Waiting sv | _ => Unconnected end
    | 2 => fun i => match i with 1 => Waiting sv | 2 => Waiting sv | _ => Unconnected end
    | 3 => fun i => match i with 1 => run | 2 => Waiting sv | _ => Unconnected end
    | 4 => fun i => match i with 1 => run | 2 => run | _ => Unconnected end
    | _ => fun i => match i with 1 => run | 2 => Waiting sv | _ => Unconnected end end).
  assert (C : forall n, code (S n) = match code n with 5 => 2 | _ => S (code n) end) by reflexivity.
  assert (Le : forall n, code n <= 5).
  { induction n as [|n IH]; [cbn; lia|]. rewrite C.
    destruct (code n) as [|[|[|[|[|[|k]]]]]]; lia. }
  assert (R : call_service sv rq = Ret r).
  { unfold call_service, sv; cbn [sv_router sv_state]; subst rq; rewrite E. reflexivity. }
  split; [exact B|]. split.
  { split; [reflexivity|]. intros n. rewrite !C. specialize (Le n).
    destruct (code n) as [|[|[|[|[|[|k]]]]]]; cbn [fst snd]; try (exfalso; lia).
    all: split; [|intros [|[|[|j]]] N; cbn; try reflexivity; try (exfalso; apply N; reflexivity)].
    - apply (cs_accept sv).
    - apply (cs_accept sv).
    - unfold run. rewrite <- R. apply cs_receive.
    - unfold run. rewrite <- R. apply cs_receive.
    - apply cs_answer.
    - apply cs_answer. }
  assert (K : forall n, exists m, n <= m /\ code m = 2).
  { intros n. specialize (Le n). pose proof (C n) as C1. pose proof (C (S n)) as C2. pose proof (C (S (S n))) as C3.
    pose proof (C (S (S (S n)))) as C4. pose proof (C (S (S (S (S n))))) as C5.
    destruct (code n) as [|[|[|[|[|[|k]]]]]] eqn:En; try (exfalso; lia).
    - exists (S (S n)). rewrite C2, C1. split; [lia|reflexivity].
    - exists (S n). rewrite C1. split; [lia|reflexivity].
    - exists n. auto.
    - exists (S (S (S n))). rewrite C3, C2, C1. split; [lia|reflexivity].
    - exists (S (S n)). rewrite C2, C1. split; [lia|reflexivity].
    - exists (S n). rewrite C1. split; [lia|reflexivity]. }
  split. { intros n. destruct (K n) as (m & Lm & Em). exists m. rewrite Em. auto. }
  split. { intros n. destruct (K n) as (m & Lm & Em). exists (S m). rewrite C, Em. cbn. split; [lia|reflexivity]. }
  split; [reflexivity|]. split; [reflexivity|]. exists [Accept]. reflexivity.
Qed.

(** Every finite part of an endless run is an execution, so that the theorems above
    say of its requests what their responses are. *)
Theorem C67_endless : forall (X U A : Type) (t : trie (handler X U A) (middleware X U A)) st ev states,
  endless (Service t st) ev states ->
  forall n, exists s, execution (Service t st) (map ev (seq 0 n)) s /\ forall i, s i = states n i.
Proof. exact (fun X U A t st => endless_execution (Service t st)). Qed.
Print Assumptions C67_endless.

(** The first four steps of the run of [C67_example]. *)
Example C67_endless_example :
  let h : handler unit unit bool := fun c => Ret (inl c) in
  let rq : request unit := get_req (lit "/a") in
  exists t ev states s, built [@ORoute _ (middleware unit unit bool) GET (lit "/a") h] t /\
    endless (Service t None) ev states /\ execution (Service t None) (map ev (seq 0 4)) s /\
    in_flight 2 rq [] (map ev (seq 0 4)).
Proof.
  destruct C67_example as (t & ev & states & B & En & _ & _ & _ & _ & F).
  destruct (endless_execution (Service t None) ev states En 4) as (s & Ex & _).
  exists t, ev, states, s. auto.
Qed.
