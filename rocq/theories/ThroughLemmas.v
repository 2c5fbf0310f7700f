(** Lemmas about handlers that read input behind middlewares. *)

From Coq Require Import String.
From Verif Require Import Base BaseFacts Utf8 UrlEncoded RouteTrie Router TableSpec PropSpec TextSpec Http Form App AppSpec FormSpec UrlSpec UserSpec ThroughSpec.
From Verif Require Import AppLemmas AppLemmas2 AppLemmas3 AppLemmas4 FormLemmas FormLemmas2 FormLemmas3 UserLemmas UserLemmas2 UrlLemmas TextServed ErrorSpec ErrorLemmas2.
Local Open Scope list_scope.

Section Through.
  Context {X U A : Type}.
  Notation context := (context X).
  Notation handler := (handler X U A).
  Notation middleware := (middleware X U A).

  Lemma input_refl (c : context) : same_input c c.
  Proof. repeat split. Qed.

  Lemma input_trans (a b c : context) : same_input a b -> same_input b c -> same_input a c.
  Proof. unfold same_input. intros (?&?&?&?&?&?) (?&?&?&?&?&?). repeat split; congruence. Qed.

  (** ** Handlers that agree on all contexts with one input *)

  Lemma exec_input (c : context) (nx nx' : nat -> context -> comp U A (result X)) p :
    (forall n c', same_input c c' -> same_runs (nx n c') (nx' n c')) -> hands_input c p ->
    same_runs (exec nx p) (exec nx' p).
  Proof.
    intros E. induction p as [r|n c' k IH|l k IH|path k IH|u k IH|e]; cbn [hands_input exec]; intros K tr o.
    - reflexivity.
    - destruct K as [S K]. rewrite (bind_same_left (U:=U) (A:=A) _ _ _ (E n c' S) tr o).
      apply bind_same. intros x _ _. apply IH, K.
    - split; intros R; inversion R; subst; constructor; apply (IH K); assumption.
    - split; intros R; inversion R; subst; constructor; apply (IH _ (K _)); assumption.
    - split; intros R; inversion R; subst; constructor; apply (IH _ (K _)); assumption.
    - reflexivity.
  Qed.

  Lemma next_input (c0 : context) (h h' : handler) mws : Forall keeps_input mws ->
    (forall c, same_input c0 c -> same_runs (h c) (h' c)) ->
    forall n c, same_input c0 c -> same_runs (next_from n mws h c) (next_from n mws h' c).
  Proof.
    intros K E. induction K as [|m mws Km _ IH]; intros n c S; cbn [next_from]; [apply E, S|].
    destruct n as [|n]; [|apply IH, S].
    apply (exec_input c); [|apply Km]. intros n c' S'. apply IH. exact (input_trans _ _ _ S S').
  Qed.

  Lemma handles_same (prog : comp U A http_response) (a b : comp U A (result X)) :
    same_runs a b -> handles prog a -> handles prog b.
  Proof.
    intros E (H1 & H2 & H3). split; [|split].
    - intros tr o R. destruct (H1 tr o R) as [(r & Ra & P)|(p & Ra & P)]; [left; exists r|right; exists p]; (split; [apply E, Ra|exact P]).
    - intros tr r R. apply H2, E, R.
    - intros tr p R. apply H3, E, R.
  Qed.

  Lemma errors_returned (mws : list middleware) e : Forall returns_errors mws ->
    forall n c tr o, runs (next_from n mws (fun _ => Ret (inr e)) c) tr o -> o = Value (inr e).
  Proof.
    intros K. induction K as [|m mws Km _ IH]; intros n c tr o R; cbn [next_from] in R.
    - apply runs_ret in R as [_ R]. exact R.
    - destruct n as [|n]; [|exact (IH _ _ _ _ R)].
      apply runs_exec in R as [(r & -> & G)|[(p & -> & G)|(t1 & t2 & n & c' & k & -> & G & R)]];
        destruct (Km _ _ _ G) as (n' & c2 & k2 & Es & Kk); [discriminate Es|discriminate Es|]. injection Es as <- <- <-.
      apply runs_bind in R as [(t3 & t4 & x & -> & R1 & R2)|(p & -> & R1)]; [|discriminate (IH _ _ _ _ R1)].
      specialize (IH _ _ _ _ R1). injection IH as ->.
      apply runs_exec in R2 as [(r & -> & G2)|[(p & -> & G2)|(t5 & t6 & n2 & c3 & k3 & -> & G2 & R3)]];
        specialize (Kk _ _ _ G2); [injection Kk as ->; reflexivity|discriminate Kk|discriminate Kk].
  Qed.

  Lemma fails_through (mws : list middleware) (h : handler) c prog e : Forall keeps_input mws ->
    (forall c', same_input c c' -> h c' = Ret (inr e)) -> handles prog (next mws h c) -> fails_behind mws c prog e (error_text e).
  Proof.
    intros K E Hd. assert (Hd' : handles prog (next mws (fun _ => Ret (inr e)) c)).
    { revert Hd. apply handles_same. apply (next_input c); [exact K| |apply input_refl].
      intros c' S. rewrite (E c' S). intros tr o. reflexivity. }
    split; [exact Hd'|]. intros Re tr o R. destruct Hd' as (H1 & _).
    destruct (H1 tr o R) as [(r & Rr & P)|(p & Rr & ->)]; [|discriminate (errors_returned mws e Re _ _ _ _ Rr)].
    apply (errors_returned mws e Re) in Rr. injection Rr as ->. inversion P as [e' b Eb Br| | |]; subst. eauto.
  Qed.

  Lemma goes_through (mws : list middleware) (h h' : handler) c prog : Forall keeps_input mws ->
    (forall c', same_input c c' -> h c' = h' c') -> handles prog (next mws h c) -> handles prog (next mws h' c).
  Proof.
    intros K E. apply handles_same. apply (next_input c); [exact K| |apply input_refl].
    intros c' S. rewrite (E c' S). intros tr o. reflexivity.
  Qed.

  (** ** One route of any accepted router *)

  Section Own.
    Context (l : list (op handler middleware)) (t : trie handler middleware).
    Context (st : option (N * X)) (rq : request X) (p : list str) (b : list (str * str)).
    Context (B : build l = (t, None)) (NS : no_star p) (SM : seg_match p (segments (rq_path rq)) b).
    Notation mws := (text_mws (table_of l) (text p)).
    Context (K : Forall keeps_input mws).
    Notation route h := (registered l p (CRoute (rq_method rq) h)).

    Lemma param_behind T (parse : str -> option T) n rest : route (with_param parse n rest) ->
      exists c, (forall n', pget n' (ctx_params c) = first_binding b n') /\ starts rq (ctx_params c) st c /\
        (first_binding b n = None -> fails_behind mws c (serve t st rq) ENone (lit "Input should not be None")) /\
        (forall s, first_binding b n = Some s -> parse s = None -> fails_behind mws c (serve t st rq) (EParam (lit "Failed to parse param " ++ n)) (lit "Failed to parse param " ++ n)) /\
        (forall s x, first_binding b n = Some s -> parse s = Some x -> handles (serve t st rq) (next mws (rest x) c)).
    Proof.
      intros I. destruct (own_chain l t st rq p b _ B I NS SM) as (pm & c & Pm & St & Hd). exists c.
      pose proof St as (Ep & _). rewrite Ep. split; [exact Pm|]. split; [exact St|].
      assert (G : forall c', same_input c c' -> pget n (ctx_params c') = first_binding b n).
      { intros c' (Ec & _). rewrite Ec, Ep. apply Pm. }
      split; [|split].
      - intros N. revert Hd. refine (fails_through _ _ _ _ _ _ _); [exact K|]. intros c' S. unfold with_param, ctx_param. rewrite (G c' S), N. reflexivity.
      - intros s Es Np. revert Hd. refine (fails_through _ _ _ _ _ _ _); [exact K|]. intros c' S. unfold with_param, ctx_param. rewrite (G c' S), Es, Np. reflexivity.
      - intros s x Es Ex. revert Hd. apply goes_through; [exact K|]. intros c' S. unfold with_param, ctx_param. rewrite (G c' S), Es, Ex. reflexivity.
    Qed.

    Lemma json_behind T (from_slice : bytes -> T + str) rest : route (with_json from_slice rest) ->
      exists c, (forall n', pget n' (ctx_params c) = first_binding b n') /\ starts rq (ctx_params c) st c /\
        (broken (rq_body rq) = true -> fails_behind mws c (serve t st rq) ENone (lit "Input should not be None")) /\
        (broken (rq_body rq) = false -> one_chunk (rq_body rq) ->
           (forall e, from_slice (body_bytes (rq_body rq)) = inr e -> fails_behind mws c (serve t st rq) (EJson e) e) /\
           (forall x, from_slice (body_bytes (rq_body rq)) = inl x ->
              handles (serve t st rq) (next mws (fun c' => rest x (emptied c')) c))).
    Proof.
      intros I. destruct (own_chain l t st rq p b _ B I NS SM) as (pm & c & Pm & St & Hd). exists c.
      pose proof St as (Ep & _ & _ & _ & _ & _ & Eb & _). rewrite Ep. split; [exact Pm|]. split; [exact St|].
      assert (G : forall c', same_input c c' -> rq_body (ctx_request c') = rq_body rq).
      { intros c' (_ & _ & _ & _ & _ & Ec). rewrite Ec. exact Eb. }
      split.
      - intros Br. revert Hd. refine (fails_through _ _ _ _ _ _ _); [exact K|]. intros c' S. unfold with_json, ctx_json, read_body, take_body, aggregate.
        rewrite (G c' S), Br. reflexivity.
      - intros Br Oc. set (f := fun x => match from_slice x with inl x => inl x | inr e => inr (EJson e) end).
        assert (Er : forall c', same_input c c' -> ctx_json from_slice c' = (f (body_bytes (rq_body rq)), emptied c')).
        { intros c' S. pose proof (one_chunk_read (X:=X) f c') as O. cbv zeta in O. rewrite (G c' S) in O. specialize (O Br Oc).
          rewrite <- O. reflexivity. }
        split.
        + intros e Ee. revert Hd. refine (fails_through _ _ _ _ _ _ _); [exact K|]. intros c' S. unfold with_json. rewrite (Er c' S). unfold f. rewrite Ee. reflexivity.
        + intros x Ex. revert Hd. apply goes_through; [exact K|]. intros c' S. unfold with_json. rewrite (Er c' S). unfold f. rewrite Ex. reflexivity.
    Qed.

    Context {F : Type} (pf : bool -> str -> F + str) (msg : mismatch -> str) (it1 it2 : list entry -> list entry).
    Context (I1 : iteration it1) (I2 : iteration it2) (fs : list (field F)) (deny : bool) (Nd : NoDup (map f_name fs)).
    Notation good qs vs := (Forall2 (field_value pf qs) fs vs /\ (deny = true -> forall k, values_of k qs <> [] -> In k (map f_name fs))).

    Lemma query_behind rest qs : form_pairs (utf8 (match rq_query rq with Some q => q | None => [] end)) qs ->
      route (with_query pf msg it1 it2 (TgStruct fs deny) rest) ->
      exists c, (forall n', pget n' (ctx_params c) = first_binding b n') /\ starts rq (ctx_params c) st c /\
        (forall vs, good qs vs -> handles (serve t st rq) (next mws (rest (RStruct vs)) c)) /\
        ((forall vs, ~ good qs vs) -> exists m, struct_says pf msg qs fs deny m /\ fails_behind mws c (serve t st rq) (EForm (FMessage m)) m).
    Proof.
      intros Q I. apply parse_spec in Q. subst qs.
      destruct (own_chain l t st rq p b _ B I NS SM) as (pm & c & Pm & St & Hd). exists c.
      pose proof St as (Ep & _ & _ & _ & Eq & _). rewrite Ep. split; [exact Pm|]. split; [exact St|].
      set (q := utf8 (match rq_query rq with Some q => q | None => [] end)).
      assert (G : forall c', same_input c c' -> ctx_query_params pf msg it1 it2 (TgStruct fs deny) c' = queries_result (parse_queries pf msg it1 it2 (TgStruct fs deny) q)).
      { intros c' (_ & _ & _ & Ec & _). unfold ctx_query_params. rewrite Ec, Eq. reflexivity. }
      pose proof (fun vs => struct_result pf msg it1 it2 I1 I2 fs deny q vs Nd) as R. split.
      - intros vs Gd. revert Hd. apply goes_through; [exact K|]. intros c' S. unfold with_query. rewrite (G c' S), (proj2 (R vs) Gd). reflexivity.
      - intros No. destruct (struct_or_error pf msg it1 it2 I1 I2 fs deny q Nd) as [[vs Es]|[e Es]].
        + exfalso. exact (No vs (proj1 (R vs) Es)).
        + destruct (struct_error pf msg it1 it2 fs deny q e I1 I2 Nd Es) as (m & -> & J). exists m. split; [exact J|]. revert Hd. refine (fails_through _ _ _ _ _ _ _); [exact K|]. intros c' S. unfold with_query. rewrite (G c' S), Es. reflexivity.
    Qed.

    Lemma form_behind rest qs : form_pairs (body_bytes (rq_body rq)) qs ->
      route (with_form pf msg it1 it2 (TgStruct fs deny) rest) ->
      exists c, (forall n', pget n' (ctx_params c) = first_binding b n') /\ starts rq (ctx_params c) st c /\
        (broken (rq_body rq) = true -> fails_behind mws c (serve t st rq) ENone (lit "Input should not be None")) /\
        (broken (rq_body rq) = false -> one_chunk (rq_body rq) ->
           (forall vs, good qs vs -> handles (serve t st rq) (next mws (fun c' => rest (RStruct vs) (emptied c')) c)) /\
           ((forall vs, ~ good qs vs) -> exists m, struct_says pf msg qs fs deny m /\ fails_behind mws c (serve t st rq) (EForm (FMessage m)) m)).
    Proof.
      intros Q I. apply parse_spec in Q. subst qs.
      destruct (own_chain l t st rq p b _ B I NS SM) as (pm & c & Pm & St & Hd). exists c.
      pose proof St as (Ep & _ & _ & _ & _ & _ & Eb & _). rewrite Ep. split; [exact Pm|]. split; [exact St|].
      assert (G : forall c', same_input c c' -> rq_body (ctx_request c') = rq_body rq).
      { intros c' (_ & _ & _ & _ & _ & Ec). rewrite Ec. exact Eb. }
      split.
      - intros Br. revert Hd. refine (fails_through _ _ _ _ _ _ _); [exact K|]. intros c' S. unfold with_form, ctx_form, read_body, take_body, aggregate.
        rewrite (G c' S), Br. reflexivity.
      - intros Br Oc. set (q := body_bytes (rq_body rq)).
        set (f := fun x => queries_result (parse_queries pf msg it1 it2 (TgStruct fs deny) x)).
        assert (Er : forall c', same_input c c' -> ctx_form pf msg it1 it2 (TgStruct fs deny) c' = (f q, emptied c')).
        { intros c' S. pose proof (one_chunk_read (X:=X) f c') as O. cbv zeta in O. rewrite (G c' S) in O. specialize (O Br Oc).
          unfold q. rewrite <- O. reflexivity. }
        pose proof (fun vs => struct_result pf msg it1 it2 I1 I2 fs deny q vs Nd) as R. split.
        + intros vs Gd. revert Hd. apply goes_through; [exact K|]. intros c' S. unfold with_form. rewrite (Er c' S). unfold f. rewrite (proj2 (R vs) Gd). reflexivity.
        + intros No. destruct (struct_or_error pf msg it1 it2 I1 I2 fs deny q Nd) as [[vs Es]|[e Es]].
          * exfalso. exact (No vs (proj1 (R vs) Es)).
          * destruct (struct_error pf msg it1 it2 fs deny q e I1 I2 Nd Es) as (m & -> & J). exists m. split; [exact J|]. revert Hd. refine (fails_through _ _ _ _ _ _ _); [exact K|]. intros c' S. unfold with_form. rewrite (Er c' S). unfold f. rewrite Es. reflexivity.
    Qed.
  End Own.

  (** ** Logger is such a middleware *)

  Lemma logger_keeps d : keeps_input (@logger X U A d).
  Proof.
    intros c. unfold logger. cbn [hands_input]. assert (L : forall r, hands_input c (@logger_after X U A r)).
    { intros [c'|e]; cbn [logger_after]; [destruct (ctx_response c')|]; exact I. }
    destruct d; cbn [hands_input]; (split; [apply input_refl|exact L]).
  Qed.

  Lemma logger_returns d : returns_errors (@logger X U A d).
  Proof.
    intros c tr s G. unfold logger in G. inversion G as [| | |l k t2 s2 G2 E1 E2 E3| |]; subst.
    assert (S : s = Calls 0 c logger_after).
    { destruct d; [inversion G2 as [| | |l k t3 s3 G3 E1 E2 E3| |]; subst; inversion G3; reflexivity|inversion G2; reflexivity]. }
    exists 0, c, logger_after. split; [exact S|]. intros e tr' s' G'. cbn [logger_after] in G'.
    inversion G' as [| | |l k t3 s3 G3 E1 E2 E3| |]; subst. inversion G3; reflexivity.
  Qed.
End Through.
