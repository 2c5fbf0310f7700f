(** Cases that meet the hypotheses of the theorems about reading input behind middlewares. *)

From Coq Require Import String.
From Verif Require Import Base RouteTrie Router TableSpec PropSpec TextSpec Http Form App AppSpec FormSpec ThroughSpec ErrorSpec.
From Verif Require Import TextWitness.
Local Open Scope list_scope.

Lemma colons_meet {X U A} (h : handler X U A) (m : middleware X U A) : keeps_input m -> returns_errors m ->
  let l := colons_of h m in let p := [lit "a:b"; lit ":id"] in
  (exists t, build l = (t, None)) /\ no_star p /\ seg_match p (segments (lit "/a:b/7")) [(lit "id", lit "7")] /\
  Forall keeps_input (text_mws (table_of l) (text p)) /\ Forall returns_errors (text_mws (table_of l) (text p)) /\
  registered l p (CRoute GET h).
Proof.
  intros K R l p. destruct (colons_built h m) as ((t & B & _) & G & N & S & E). fold l p in B, G, N, S, E. rewrite E.
  split; [exists t; exact B|]. split; [exact N|]. split; [exact S|]. split; [constructor; [exact K|constructor]|].
  split; [constructor; [exact R|constructor]|exact G].
Qed.

Lemma name_missing {F} (pf : bool -> str -> F + str) vs :
  ~ Forall2 (field_value pf [(lit "nom", lit "x")]) [Field (F:=F) (lit "name") TString None] vs.
Proof.
  intros V. inversion V as [|f v fs vs' Fv _]; subst. destruct Fv as [[N _]|[_ [D|(_ & [t' D] & _)]]].
  - apply N. vm_compute. reflexivity.
  - discriminate D.
  - discriminate D.
Qed.

Lemma name_says {F} (pf : bool -> str -> F + str) msg :
  struct_says pf msg [(lit "nom", lit "x")] [Field (F:=F) (lit "name") TString None] false (lit "missing field `name`").
Proof.
  apply (ss_missing pf msg _ _ _ (Field (F:=F) (lit "name") TString None)).
  - intros m [f m' [<-|[]] C|k D]; [inversion C|discriminate D].
  - exists [], []. split; [reflexivity|]. split; [intros g []|]. split; [|reflexivity]. split; [reflexivity|]. intros t E. discriminate E.
Qed.
