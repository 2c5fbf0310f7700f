(** Replies behind middlewares that only look on. *)

From Coq Require Import String.
From Verif Require Import Base Utf8 RouteTrie Router TableSpec PropSpec TextSpec Http App AppSpec UserSpec ThroughSpec ReplySpec.
From Verif Require Import Names NamesSpec NamesLemmas.
From Verif Require Import AppLemmas AppLemmas2 ReplyLemmas ReplyLemmas2 BackLemmas.
Local Open Scope list_scope.

(** C77 *)
Lemma reply_behind {X U A : Type} parse_name (l : list (op (handler X U A) (middleware X U A))) t st (rq : request X) p b s bl :
  build l = (t, None) -> registered l p (CRoute (rq_method rq) (reply parse_name s bl)) -> no_star p ->
  seg_match p (segments (rq_path rq)) b -> Forall hands_back (text_mws (table_of l) (text p)) -> proper s ->
  forall tr o, runs (serve t st rq) tr o -> exists t1 t2 t3, tr = t1 ++ t2 ++ t3 /\
    ((exists a r, written parse_name t2 s bl a /\ sendable a /\ o = Value r /\ received a r) \/
     (exists a, written parse_name t2 s bl a /\ ~ sendable a /\ o = Panicked PHeaderValue) \/
     (o = Panicked PUnwrapNone /\ exists n, In n (names_in s bl) /\ parse_name n = None)).
Proof.
  intros B I NS SM K P tr o R.
  assert (An : AppSpec.answers (@reply X U A parse_name s bl)).
  { intros c tr' r R'. destruct (reply_value _ _ _ _ _ _ P R') as (r' & -> & _). intros c0 E. injection E as <-. discriminate. }
  destruct (onlookers l t st rq p b _ B I NS SM K An) as (c & _ & _ & AA).
  destruct (AA _ _ R) as (c' & t1 & t2 & t3 & E & _ & D). exists t1, t2, t3. split; [exact E|].
  destruct D as [(r & R' & RP)|(q & R' & ->)].
  - destruct (reply_value _ _ _ _ _ _ P R') as (r' & -> & W & S).
    inversion RP as [|c0 b0 E0|c0 r0 hm E0 HT ND HM|c0 r0 k v E0 IN NT]; subst; cbn in E0; try discriminate E0; injection E0 as <-.
    + left. exists (look_of r'), (HttpResponse (res_status r') hm (res_body r')).
      split; [exact W|]. split; [exact HT|]. split; [reflexivity|]. repeat split; try assumption; apply HM.
    + right. left. exists (look_of r'). split; [exact W|]. split; [|reflexivity]. intros F. exact (NT (F _ _ IN)).
  - destruct (reply_panic _ _ _ _ _ _ P R') as (-> & _ & N). right. right. auto.
Qed.

(** C86 *)
Lemma text_behind {X U A : Type} q (l : list (op (handler X U A) (middleware X U A))) t st (rq : request X) p b s bl :
  build l = (t, None) -> registered l p (CRoute (rq_method rq) (reply (header_name q) s bl)) -> no_star p ->
  seg_match p (segments (rq_path rq)) b -> Forall hands_back (text_mws (table_of l) (text p)) -> proper s ->
  Forall in_lower (typed_in s bl) ->
  forall tr o, runs (serve t st rq) tr o -> exists t1 t2 t3, tr = t1 ++ t2 ++ t3 /\
    ((exists a r, written Some t2 s bl a /\ (forall n, In n (names_in s bl) -> names_header q n) /\
        sendable a /\ o = Value r /\ received_text a r) \/
     (exists a, written Some t2 s bl a /\ (forall n, In n (names_in s bl) -> names_header q n) /\
        ~ sendable a /\ o = Panicked PHeaderValue) \/
     (o = Panicked PUnwrapNone /\ exists n, In n (names_in s bl) /\ ~ names_header q n)).
Proof.
  intros B I NS SM K P T tr o R. destruct (reply_behind _ l t st rq p b s bl B I NS SM K P tr o R) as (t1 & t2 & t3 & E & D).
  exists t1, t2, t3. split; [exact E|]. destruct D as [(a & r & W & S & Eo & RC)|[(a & W & S & Eo)|(Eo & n & J & N)]].
  - apply (written_text _ _ _ _ _ T) in W as (a0 & -> & W & N). left. exists a0, r. split; [exact W|]. split; [exact N|].
    split; [apply (sendable_canon a0); exact S|]. split; [exact Eo|apply received_canon; exact RC].
  - apply (written_text _ _ _ _ _ T) in W as (a0 & -> & W & N). right. left. exists a0. split; [exact W|]. split; [exact N|].
    split; [intros S'; apply S; apply (sendable_canon a0); exact S'|exact Eo].
  - right. right. split; [exact Eo|]. exists n. split; [exact J|]. apply header_name_none. exact N.
Qed.
