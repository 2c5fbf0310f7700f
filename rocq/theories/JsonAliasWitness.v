(** A struct with aliases and JSON texts, for the examples. *)

From Coq Require Import String ZArith Lia.
From Verif Require Import Base BaseFacts Utf8 Http Form Json JsonSpec JsonAlias JsonAliasSpec.
Local Open Scope string_scope.
Local Open Scope list_scope.

(** [{ #[serde(alias = "ident")] id: i32, #[serde(alias = "tag", alias = "labels")] tags: Vec<bool> }] *)
Definition jlabelled F : list (jafield F) :=
  [JAField (lit "id") [lit "ident"] None (JTInt (Ity true 32));
   JAField (lit "tags") [lit "tag"; lit "labels"] None (JTVec JTBool)].

Lemma jlabelled_different F : jdifferent (jlabelled F).
Proof.
  split; [repeat constructor; cbn; intuition discriminate|].
  intros f g n [<-|[<-|[]]] [<-|[<-|[]]]; unfold jname_of; cbn; try reflexivity; intuition (subst; discriminate).
Qed.

Definition plain_key (s : str) : bool := forallb (fun c => ((32 <=? c) && (c <? 128) && negb (c =? 34) && negb (c =? 92))%N) s.

Lemma plain_text s : plain_key s = true -> string_text s s.
Proof.
  unfold plain_key. induction s as [|c s IH]; intros H; [constructor|]. cbn [forallb] in H.
  apply andb_true_iff in H as [H T]. apply andb_true_iff in H as [H B]. apply andb_true_iff in H as [H Q]. apply andb_true_iff in H as [L U].
  apply N.leb_le in L. apply N.ltb_lt in U. apply negb_true_iff, N.eqb_neq in B. apply negb_true_iff, N.eqb_neq in Q.
  pose proof (st_plain c s s) as P. unfold utf8_char in P. rewrite (proj2 (N.ltb_lt c 128) U) in P. apply P; auto. unfold scalar. lia.
Qed.

Definition two_members (k x k' x' : bytes) : bytes :=
  123%N :: (34%N :: k ++ 34%N :: 58%N :: x ++ 44%N :: 34%N :: k' ++ 34%N :: 58%N :: x') ++ [125%N].

Lemma two_text k x bx k' x' bx' : plain_key k = true -> plain_key k' = true -> writes x bx -> writes x' bx' ->
  json_text (JObj [(k, x); (k', x')]) (two_members k bx k' bx').
Proof.
  intros K K' W W'. assert (S0 : space []) by constructor. exists [], (two_members k bx k' bx'), [].
  split; [exact S0|]. split; [exact S0|]. split; [|rewrite app_nil_r; reflexivity]. apply w_obj.
  pose proof (m_last [] k' k' [] [] x' bx' [] S0 (plain_text _ K') S0 S0 W' S0) as M. cbn [app] in M. rewrite app_nil_r in M.
  exact (m_more [] k k [] [] x bx [] _ _ S0 (plain_text _ K) S0 S0 W S0 M).
Qed.

Lemma seven_text : writes (JNum false 7 []) (lit "7").
Proof. apply (w_num false 7 []). exists [], []. split; [left; reflexivity|split; [left; reflexivity|reflexivity]]. Qed.

Lemma yes_text : writes (JArr [JBool true]) (lit "[true]").
Proof. apply (w_arr [JBool true] (lit "true")). apply (e_last [] (JBool true) (lit "true") []); constructor. Qed.
