(** The texts written as JSON have no control characters. *)

From Coq Require Import String ZArith.
From Verif Require Import Base BaseFacts Utf8 RouteTrie UrlEncoded Http Form AppSpec Json JsonSpec.
From Verif Require Import AppLemmas4 JsonLemmas JsonLemmas6 JsonLemmas7 ReplyLemmas.
Local Open Scope string_scope.
Local Open Scope list_scope.

Notation visible := (Forall (fun x : N => (32 <= x)%N)).

Lemma visible_utf8 s : visible s -> visible (utf8 s).
Proof.
  induction 1 as [|c s H _ IH]; [constructor|]. cbn [utf8]. apply Forall_app. split; [|exact IH]. unfold utf8_char.
  destruct (c <? 128)%N; [constructor; [exact H|constructor]|].
  destruct (c <? 2048)%N; [|destruct (c <? 65536)%N]; repeat (constructor; [match goal with |- (_ <= ?a + ?b)%N => generalize b; intros; lia end|]); constructor.
Qed.

Lemma visible_known s : forallb (fun x => 32 <=? x)%N s = true -> visible s.
Proof. intros H. apply Forall_forall. intros x I. apply (proj1 (forallb_forall _ _) H) in I. apply N.leb_le. exact I. Qed.

Lemma utf8_visible s : s <> [] -> utf8 s <> [].
Proof. destruct s as [|c s]; [contradiction|]. intros _. cbn [utf8]. unfold utf8_char. destruct (c <? 128)%N, (c <? 2048)%N, (c <? 65536)%N; discriminate. Qed.

Section Text.
  Context {F : Type} (ft : F -> str) (Ft : forall x, visible (ft x) /\ ft x <> []).

  Lemma escape_visible c : visible (escape_char c).
  Proof.
    unfold escape_char. repeat (destruct (N.eqb _ _); [repeat constructor; lia|]).
    destruct (N.ltb_spec c 32) as [L|L]; [|constructor; [exact L|constructor]].
    assert (H : forall x, (32 <= hex_char x)%N) by (intros x; unfold hex_char; destruct (x <? 10)%N; lia).
    repeat (constructor; [first [lia|apply H]|]). constructor.
  Qed.

  Lemma quoted_visible s : visible (quoted s).
  Proof.
    unfold quoted. constructor; [lia|]. apply Forall_app. split; [|constructor; [lia|constructor]].
    induction s as [|c s IH]; [constructor|]. cbn [flat_map]. apply Forall_app. split; [apply escape_visible|exact IH].
  Qed.

  Lemma commas_visible l : Forall visible l -> visible (commas l).
  Proof.
    induction 1 as [|x l H _ IH]; [constructor|]. destruct l as [|y l]; [exact H|]. change (commas (x :: y :: l)) with (x ++ 44%N :: commas (y :: l)).
    apply Forall_app. split; [exact H|]. constructor; [lia|exact IH].
  Qed.

  Lemma int_visible z : visible (int_text z).
  Proof.
    assert (D : forall n, visible (dec n)).
    { intros n. destruct (dec_digits n) as [D _]. eapply Forall_impl; [|exact D]. unfold digit_char. intros; lia. }
    unfold int_text. destruct (z <? 0)%Z; [constructor; [lia|]|]; apply D.
  Qed.

  Lemma int_some z : int_text z <> [].
  Proof. unfold int_text. destruct (z <? 0)%Z; [discriminate|]. apply dec_digits. Qed.

  Lemma around (a b : N) s : (32 <= a)%N -> (32 <= b)%N -> visible s -> visible (a :: s ++ [b]).
  Proof. intros A B S. constructor; [exact A|]. apply Forall_app. split; [exact S|]. constructor; [exact B|constructor]. Qed.

  Lemma members_visible {A} (f : A -> str) (l : list (str * A)) : Forall (fun m => visible (f (snd m))) l ->
    visible (commas (map (fun '(k, x) => quoted k ++ 58%N :: f x) l)).
  Proof.
    intros H. apply commas_visible. induction H as [|[k x] l H _ IH]; [constructor|]. cbn [map]. constructor; [|exact IH].
    apply Forall_app. split; [apply quoted_visible|]. constructor; [lia|exact H].
  Qed.

  Lemma doc_visible d : visible (doc_text ft d) /\ doc_text ft d <> [].
  Proof.
    induction d as [|b|[z|f]|s|l IH|l IH] using doc_ind'; cbn [doc_text].
    - split; [apply visible_known; reflexivity|discriminate].
    - destruct b; (split; [apply visible_known; reflexivity|discriminate]).
    - split; [apply int_visible|apply int_some].
    - apply Ft.
    - split; [apply quoted_visible|discriminate].
    - split; [|discriminate]. apply around; [lia|lia|]. apply commas_visible. induction IH as [|x l [H _] _ IHL]; constructor; assumption.
    - split; [|discriminate]. apply around; [lia|lia|]. apply members_visible. eapply Forall_impl; [|exact IH]. intros m [H _]. exact H.
  Qed.

  Section Ind.
    Context (P : jval F -> Prop).
    Context (HB : forall b, P (JVBool b)) (HI : forall z, P (JVInt z)) (HF : forall f, P (JVFloat f)) (HS : forall s, P (JVStr s)).
    Context (HN : P (JVOpt None)) (HO : forall x, P x -> P (JVOpt (Some x))).
    Context (HQ : forall l, Forall P l -> P (JVSeq l)) (HM : forall l, Forall (fun m => P (snd m)) l -> P (JVMap l)).
    Context (HT : forall l, Forall (fun m => P (snd m)) l -> P (JVStruct l)) (HD : forall d, P (JVDoc d)) (HU : P JVUnit) (HC : forall c, P (JVChar c)).
    Context (HP : forall l, Forall P l -> P (JVTuple l)) (HE : forall n, P (JVEnum n None)) (HW : forall n x, P x -> P (JVEnum n (Some x))).
    Fixpoint jval_ind' (v : jval F) : P v :=
      let all := fix go l := match l return Forall P l with [] => Forall_nil _ | x :: r => Forall_cons x (jval_ind' x) (go r) end in
      let members := fix go l := match l return Forall (fun m : str * jval F => P (snd m)) l with
                                 | [] => Forall_nil _
                                 | x :: r => @Forall_cons _ (fun m : str * jval F => P (snd m)) x r (jval_ind' (snd x)) (go r) end in
      match v with
      | JVBool b => HB b | JVInt z => HI z | JVFloat f => HF f | JVStr s => HS s
      | JVOpt None => HN | JVOpt (Some x) => HO x (jval_ind' x)
      | JVSeq l => HQ l (all l) | JVMap l => HM l (members l) | JVStruct l => HT l (members l)
      | JVDoc d => HD d | JVUnit => HU | JVChar c => HC c | JVTuple l => HP l (all l)
      | JVEnum n None => HE n | JVEnum n (Some x) => HW n x (jval_ind' x)
      end.
  End Ind.

  Lemma text_visible v : visible (to_text ft v) /\ to_text ft v <> [].
  Proof.
    induction v as [b|z|f|s| |x IH|l IH|l IH|l IH|d| |c|l IH|n|n x IH] using jval_ind'; cbn [to_text].
    - destruct b; (split; [apply visible_known; reflexivity|discriminate]).
    - split; [apply int_visible|apply int_some].
    - apply Ft.
    - split; [apply quoted_visible|discriminate].
    - split; [apply visible_known; reflexivity|discriminate].
    - exact IH.
    - split; [|discriminate]. apply around; [lia|lia|]. apply commas_visible. induction IH as [|x l [H _] _ IHL]; constructor; assumption.
    - split; [|discriminate]. apply around; [lia|lia|]. apply members_visible. eapply Forall_impl; [|exact IH]. intros m [H _]. exact H.
    - split; [|discriminate]. apply around; [lia|lia|]. apply members_visible. eapply Forall_impl; [|exact IH]. intros m [H _]. exact H.
    - apply doc_visible.
    - split; [apply visible_known; reflexivity|discriminate].
    - split; [apply quoted_visible|discriminate].
    - split; [|discriminate]. apply around; [lia|lia|]. apply commas_visible. induction IH as [|x l [H _] _ IHL]; constructor; assumption.
    - split; [apply quoted_visible|discriminate].
    - split; [|discriminate]. constructor; [lia|]. apply Forall_app. split; [apply quoted_visible|]. constructor; [lia|].
      apply Forall_app. split; [apply IH|]. constructor; [lia|constructor].
  Qed.

  Lemma json_line v r : visible (body_bytes (res_body (Http.json (inl (to_text ft v)) r))) /\
    body_bytes (res_body (Http.json (inl (to_text ft v)) r)) <> [].
  Proof.
    cbn [Http.json set_body res_body]. rewrite look_of_body. destruct (text_visible v) as [V N].
    split; [apply visible_utf8, V|apply utf8_visible, N].
  Qed.
End Text.
