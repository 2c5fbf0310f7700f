(** A struct with aliases, for the examples. *)

From Coq Require Import String ZArith.
From Verif Require Import Base BaseFacts Form FormSpec FormWitness Alias AliasSpec.
Local Open Scope string_scope.
Local Open Scope list_scope.

(** [{ #[serde(alias = "ident")] id: i32, #[serde(alias = "tag", alias = "labels")] tags: Vec<String> }] *)
Definition labelled : list (afield unit) :=
  [AField (Field (lit "id") (TInt i32) None) [lit "ident"];
   AField (Field (lit "tags") (TVec TString) None) [lit "tag"; lit "labels"]].

Lemma labelled_different : different labelled.
Proof.
  split; [repeat constructor; cbn; intuition discriminate|].
  intros f g n [<-|[<-|[]]] [<-|[<-|[]]]; unfold name_of; cbn; try reflexivity; intuition (subst; discriminate).
Qed.
