(** Aliases: the order of the maps, and data with the aliases replaced. *)

From Coq Require Import String ZArith.
From Verif Require Import Base BaseFacts Utf8 RouteTrie UrlEncoded UrlSpec UrlLemmas Http Form AppSpec FormSpec.
From Verif Require Import AppLemmas4 FormLemmas FormLemmas2 FormLemmas6 FormWitness Alias AliasSpec AliasLemmas.
Local Open Scope string_scope.
Local Open Scope list_scope.

Section Alias.
  Context {F : Type} (pf : bool -> str -> F + str) (msg : mismatch -> str).
  Context (fs : list (afield F)) (Df : different fs).

  Lemma alias_order_api it1 it2 it3 it4 : iteration it1 -> iteration it2 -> iteration it3 -> iteration it4 ->
    forall (X : Type) src (c : context X) q, has_data src c q -> forall deny,
    same_reading (alias_from pf msg it1 it2 src fs deny c) (alias_from pf msg it3 it4 src fs deny c).
  Proof.
    intros I1 I2 I3 I4 X src c q D deny. assert (P : form_pairs q (parse q)) by (apply parse_spec; reflexivity).
    destruct (alias_or_error_api pf msg fs Df it1 it2 I1 I2 X src c q D deny) as [[l E]|[e E]];
    destruct (alias_or_error_api pf msg fs Df it3 it4 I3 I4 X src c q D deny) as [[l' E']|[e' E']].
    - assert (E2 : alias_from pf msg it3 it4 src fs deny c = inl (inl (RStruct l))).
      { apply (alias_struct_api pf msg fs Df it3 it4 I3 I4 X src c q D deny l _ P).
        apply (alias_struct_api pf msg fs Df it1 it2 I1 I2 X src c q D deny l _ P). exact E. }
      rewrite E, E2. reflexivity.
    - exfalso. assert (E2 : alias_from pf msg it3 it4 src fs deny c = inl (inl (RStruct l))); [|congruence].
      apply (alias_struct_api pf msg fs Df it3 it4 I3 I4 X src c q D deny l _ P).
      apply (alias_struct_api pf msg fs Df it1 it2 I1 I2 X src c q D deny l _ P). exact E.
    - exfalso. assert (E2 : alias_from pf msg it1 it2 src fs deny c = inl (inl (RStruct l'))); [|congruence].
      apply (alias_struct_api pf msg fs Df it1 it2 I1 I2 X src c q D deny l' _ P).
      apply (alias_struct_api pf msg fs Df it3 it4 I3 I4 X src c q D deny l' _ P). exact E'.
    - rewrite E, E'. exact I.
  Qed.

  Lemma renamed_canon ps ps' : Forall2 (renamed fs) ps ps' -> ps' = map (canon_pair fs) ps.
  Proof.
    induction 1 as [|p p' ps ps' R _ IH]; [reflexivity|]. cbn [map]. rewrite IH. f_equal. destruct p as [k s], p' as [k' s'].
    destruct R as [E R]. cbn [fst snd] in *. subst s'. unfold canon_pair. cbn [fst snd]. f_equal. unfold canon.
    destruct R as [(f & I & N & ->)|[N ->]].
    - rewrite (proj2 (named_some fs Df k f)); [reflexivity|split; assumption].
    - rewrite (proj2 (named_none fs Df k)); [reflexivity|exact N].
  Qed.

  Lemma grouped_same ps es es' : grouped ps es -> grouped ps es' -> Permutation es es'.
  Proof.
    intros [N G] [N' G']. apply NoDup_Permutation; [eapply NoDup_map_inv; exact N|eapply NoDup_map_inv; exact N'|].
    intros [k vs]. rewrite G, G'. reflexivity.
  Qed.

  Definition entry_dec (x y : list entry) : {x = y} + {x <> y}.
  Proof. decide equality. decide equality; [apply list_eq_dec, list_eq_dec, N.eq_dec|apply list_eq_dec, N.eq_dec]. Defined.

  Lemma alias_renamed_api it1 it2 : iteration it1 -> iteration it2 ->
    forall (X : Type) src (c : context X) q, has_data src c q -> forall ps, form_pairs q ps ->
    (forall f, In f fs -> ~ twice ps f) -> forall ps', Forall2 (renamed fs) ps ps' ->
    forall (Y : Type) src' (c' : context Y) q', has_data src' c' q' -> form_pairs q' ps' ->
    exists it3 it4, iteration it3 /\ iteration it4 /\
    forall deny, alias_from pf msg it1 it2 src fs deny c = read_from pf msg it3 it4 src' (TgStruct (map a_field fs) deny) c'.
  Proof.
    intros I1 I2 X src c q D ps P O ps' R Y src' c' q' D' P'. apply renamed_canon in R. subst ps'.
    assert (On : once fs ps).
    { apply (once_by_fields fs Df). intros f k k' I N N' Pk Pk'. destruct (str_eqb_spec k k') as [|Nk]; [assumption|].
      destruct (O f I). exists k, k'. auto. }
    pose proof (once_grouped fs _ _ (handed_pairs it1 it2 I1 I2 q ps P) On) as G.
    pose proof (handed_pairs _ _ iteration_id iteration_id q' _ P') as G'.
    set (es' := map (canon_entry fs) (handed it1 it2 q)) in *. set (es := handed (fun l => l) (fun l => l) q') in *.
    exists (fun l => l), (fun l => if entry_dec l es then es' else l).
    split; [apply iteration_id|]. split.
    - intros l. destruct (entry_dec l es) as [->|_]; [|apply Permutation_refl]. eapply grouped_same; eassumption.
    - intros deny. rewrite (alias_data pf msg fs it1 it2 X src c q D), (read_data pf msg _ _ src' c' q' _ D').
      unfold parse_queries. change (cow_form_map (parsed_form_map q')) with es. destruct (entry_dec es es) as [_|N]; [|contradiction].
      rewrite (alias_canon pf msg fs Df). reflexivity.
  Qed.
End Alias.
