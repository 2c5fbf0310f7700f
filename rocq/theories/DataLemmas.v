(** Lemmas about handlers that read typed data behind middlewares. *)

From Coq Require Import String.
From Verif Require Import Base BaseFacts Utf8 RouteTrie Router TableSpec PropSpec TextSpec Http App AppSpec UserSpec ThroughSpec DataSpec.
From Verif Require Import AppLemmas AppLemmas2 UserLemmas2 TextServed ThroughLemmas.
Local Open Scope list_scope.

Section Data.
  Context {X U A : Type}.
  Notation context := (context X).
  Notation handler := (handler X U A).
  Notation middleware := (middleware X U A).
  Notation valued ty v c := (ctx_get ty c = v).

  Lemma exec_data ty v (c : context) (nx nx' : nat -> context -> comp U A (result X)) p : valued ty v c ->
    (forall n c', valued ty v c' -> same_runs (nx n c') (nx' n c')) -> hands_data ty c p ->
    same_runs (exec nx p) (exec nx' p).
  Proof.
    intros V E. induction p as [r|n c' k IH|l k IH|path k IH|u k IH|e]; cbn [hands_data exec]; intros K tr o.
    - reflexivity.
    - destruct K as [S K]. rewrite V in S. rewrite (bind_same_left (U:=U) (A:=A) _ _ _ (E n c' S) tr o).
      apply bind_same. intros x _ _. apply IH, K.
    - split; intros R; inversion R; subst; constructor; apply (IH K); assumption.
    - split; intros R; inversion R; subst; constructor; apply (IH _ (K _)); assumption.
    - split; intros R; inversion R; subst; constructor; apply (IH _ (K _)); assumption.
    - reflexivity.
  Qed.

  Lemma exec_value ty x (nx nx' : nat -> context -> comp U A (result X)) p :
    (forall n c', valued ty (Some x) c' -> same_runs (nx n c') (nx' n c')) -> hands_value ty x p ->
    same_runs (exec nx p) (exec nx' p).
  Proof.
    intros E. induction p as [r|n c' k IH|l k IH|path k IH|u k IH|e]; cbn [hands_value exec]; intros K tr o.
    - reflexivity.
    - destruct K as [S K]. rewrite (bind_same_left (U:=U) (A:=A) _ _ _ (E n c' S) tr o).
      apply bind_same. intros y _ _. apply IH, K.
    - split; intros R; inversion R; subst; constructor; apply (IH K); assumption.
    - split; intros R; inversion R; subst; constructor; apply (IH _ (K _)); assumption.
    - split; intros R; inversion R; subst; constructor; apply (IH _ (K _)); assumption.
    - reflexivity.
  Qed.

  Lemma next_data ty v (rest : option X -> handler) mws : Forall (keeps_data ty) mws ->
    forall n c, valued ty v c -> same_runs (next_from n mws (with_data ty rest) c) (next_from n mws (rest v) c).
  Proof.
    intros K. induction K as [|m mws Km _ IH]; intros n c V; cbn [next_from].
    - unfold with_data. rewrite V. intros tr o. reflexivity.
    - destruct n as [|n]; [|apply IH, V]. apply (exec_data ty v c); [exact V| |apply Km]. intros n c' V'. apply IH, V'.
  Qed.

  Lemma next_given ty x (rest : option X -> handler) pre m post : Forall never_skips pre -> gives_data ty x m ->
    Forall (keeps_data ty) post -> forall c,
    same_runs (next (pre ++ m :: post) (with_data ty rest) c) (next (pre ++ m :: post) (rest (Some x)) c).
  Proof.
    intros F G K. induction F as [|m0 pre NS F IH]; intros c; cbn [app]; rewrite !next_cons.
    - apply (exec_value ty x); [|apply G]. intros n c' V. apply next_data; assumption.
    - apply exec_no_skip; [|apply NS]. intros c'. apply IH.
  Qed.

  Section Own.
    Context (l : list (op handler middleware)) (t : trie handler middleware).
    Context (st : option (N * X)) (rq : request X) (p : list str) (b : list (str * str)).
    Context (B : build l = (t, None)) (NS : no_star p) (SM : seg_match p (segments (rq_path rq)) b).
    Notation mws := (text_mws (table_of l) (text p)).

    Lemma data_behind ty x rest pre m post : registered l p (CRoute (rq_method rq) (with_data ty rest)) ->
      mws = pre ++ m :: post -> Forall never_skips pre -> gives_data ty x m -> Forall (keeps_data ty) post ->
      exists c, (forall n, pget n (ctx_params c) = first_binding b n) /\ starts rq (ctx_params c) st c /\
        handles (serve t st rq) (next mws (rest (Some x)) c).
    Proof.
      intros I E F G K. destruct (own_chain l t st rq p b _ B I NS SM) as (pm & c & Pm & St & Hd). exists c.
      assert (Ep : ctx_params c = pm) by apply St. rewrite Ep. split; [exact Pm|]. split; [exact St|].
      rewrite E in *. revert Hd. apply handles_same. apply next_given; assumption.
    Qed.

    Lemma state_behind ty rest : registered l p (CRoute (rq_method rq) (with_data ty rest)) -> Forall (keeps_data ty) mws ->
      exists c, (forall n, pget n (ctx_params c) = first_binding b n) /\ starts rq (ctx_params c) st c /\
        (forall x, st = Some (ty, x) -> handles (serve t st rq) (next mws (rest (Some x)) c)) /\
        ((forall x, st <> Some (ty, x)) -> handles (serve t st rq) (next mws (rest (aget N.eqb ty (rq_ext rq))) c)).
    Proof.
      intros I K. destruct (own_chain l t st rq p b _ B I NS SM) as (pm & c & Pm & St & Hd). exists c.
      assert (Ep : ctx_params c = pm) by apply St. rewrite Ep. split; [exact Pm|]. split; [exact St|].
      destruct St as (_ & _ & _ & _ & _ & _ & _ & Se). split.
      - intros x ->. revert Hd. apply handles_same. apply (next_data ty (Some x) rest mws K 0 c). apply Se.
      - intros N. revert Hd. apply handles_same. apply (next_data ty _ rest mws K 0 c).
        destruct st as [[ty' x]|]; [|unfold ctx_get; rewrite Se; reflexivity].
        destruct Se as [_ Se]. apply Se. intros ->. exact (N x eq_refl).
    Qed.
  End Own.

  Lemma logger_data ty d : keeps_data ty (@logger X U A d).
  Proof.
    intros c. unfold logger. cbn [hands_data]. assert (L : forall r, hands_data ty c (@logger_after X U A r)).
    { intros [c'|e]; cbn [logger_after]; [destruct (ctx_response c')|]; exact I. }
    destruct d; cbn [hands_data]; (split; [reflexivity|exact L]).
  Qed.

  Lemma adder_gives ty x : gives_data ty x (@adder X U A (ty, x)).
  Proof. intros c. unfold adder. cbn [hands_value fst snd]. split; [rewrite get_add, N.eqb_refl; reflexivity|exact (fun _ => I)]. Qed.

  Lemma adder_keeps ty e : fst e <> ty -> keeps_data ty (@adder X U A e).
  Proof.
    intros N c. unfold adder. cbn [hands_data]. split; [|exact (fun _ => I)]. rewrite get_add.
    destruct (N.eqb_spec ty (fst e)); [congruence|reflexivity].
  Qed.

  Lemma adder_no_skip e : never_skips (@adder X U A e).
  Proof. intros c. unfold adder. cbn [no_skip]. split; [reflexivity|exact (fun _ => I)]. Qed.

  Lemma logger_no_skip d : never_skips (@logger X U A d).
  Proof.
    intros c. unfold logger. cbn [no_skip]. assert (L : forall r, no_skip (@logger_after X U A r)).
    { intros [c'|e]; cbn [logger_after]; [destruct (ctx_response c')|]; exact I. }
    destruct d; cbn [no_skip]; (split; [reflexivity|exact L]).
  Qed.
End Data.
