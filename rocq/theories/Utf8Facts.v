(** Facts about UTF-8: decoding an encoded string gives the string back. *)

From Coq Require Import ZArith ZifyBool ZifyNat ZifyN.
From Verif Require Import Base Utf8.
Local Open Scope N_scope.
Ltac Zify.zify_post_hook ::= Z.div_mod_to_equations.

Local Ltac chk := repeat match goal with
  | |- context [if ?b then _ else _] => let E := fresh in destruct b eqn:E; unfold within in E
  end.

Lemma parts_char c r : scalar c -> utf8_parts (utf8_char c ++ r) = Some c :: utf8_parts r.
Proof.
  unfold scalar. intros S. unfold utf8_char.
  destruct (c <? 128) eqn:E1; [cbn [app utf8_parts]; rewrite E1; reflexivity|].
  destruct (c <? 2048) eqn:E2.
  { cbn [app utf8_parts].
    replace (192 + c / 64 <? 128) with false by lia.
    replace (within 194 223 (192 + c / 64)) with true by (unfold within; lia).
    replace (within 128 191 (128 + c mod 64)) with true by (unfold within; lia).
    f_equal. f_equal. lia. }
  destruct (c <? 65536) eqn:E3.
  { cbn [app utf8_parts].
    replace (224 + c / 4096 <? 128) with false by lia.
    replace (within 194 223 (224 + c / 4096)) with false by (unfold within; lia).
    replace (within 224 239 (224 + c / 4096)) with true by (unfold within; lia).
    replace (within _ _ (128 + (c / 64) mod 64)) with true
      by (unfold within; destruct (224 + c / 4096 =? 224) eqn:?, (224 + c / 4096 =? 237) eqn:?; lia).
    replace (within 128 191 (128 + c mod 64)) with true by (unfold within; lia).
    f_equal. f_equal. lia. }
  cbn [app utf8_parts].
  replace (240 + c / 262144 <? 128) with false by lia.
  replace (within 194 223 (240 + c / 262144)) with false by (unfold within; lia).
  replace (within 224 239 (240 + c / 262144)) with false by (unfold within; lia).
  replace (within 240 244 (240 + c / 262144)) with true by (unfold within; lia).
  replace (within _ _ (128 + (c / 4096) mod 64)) with true
    by (unfold within; destruct (240 + c / 262144 =? 240) eqn:?, (240 + c / 262144 =? 244) eqn:?; lia).
  replace (within 128 191 (128 + (c / 64) mod 64)) with true by (unfold within; lia).
  replace (within 128 191 (128 + c mod 64)) with true by (unfold within; lia).
  f_equal. f_equal. lia.
Qed.

Lemma parts_utf8 s : Forall scalar s -> utf8_parts (utf8 s) = map Some s.
Proof. induction 1 as [|c s S _ IH]; [reflexivity|]. cbn [utf8 map]. rewrite parts_char by exact S. f_equal. exact IH. Qed.

Lemma lossy_utf8 s : Forall scalar s -> from_utf8_lossy (utf8 s) = s.
Proof. intros S. unfold from_utf8_lossy. rewrite parts_utf8, map_map by exact S. apply map_id. Qed.

Lemma all_some_map s : all_some (map Some s) = Some s.
Proof. induction s as [|c s IH]; [reflexivity|]. cbn [map all_some]. rewrite IH. reflexivity. Qed.

Lemma from_utf8_utf8 s : Forall scalar s -> from_utf8 (utf8 s) = Some s.
Proof. intros S. unfold from_utf8. rewrite parts_utf8 by exact S. apply all_some_map. Qed.

Lemma utf8_app a b : utf8 (a ++ b) = utf8 a ++ utf8 b.
Proof. induction a as [|c a IH]; [reflexivity|]. cbn [app utf8]. rewrite IH, app_assoc. reflexivity. Qed.

Lemma utf8_char_length c : length (utf8_char c) = len_utf8 c.
Proof. unfold utf8_char, len_utf8. destruct (c <? 128), (c <? 2048), (c <? 65536); reflexivity. Qed.

Lemma utf8_length s : length (utf8 s) = blen s.
Proof. induction s as [|c s IH]; [reflexivity|]. cbn [utf8 blen]. rewrite app_length, utf8_char_length, IH. reflexivity. Qed.

(** Decoding is exact: what is accepted encodes back to the same bytes. *)

Lemma enc2 x y : within 194 223 x = true -> within 128 191 y = true ->
  utf8_char ((x - 192) * 64 + (y - 128)) = [x; y].
Proof.
  unfold within, utf8_char. intros A B. set (c := (x - 192) * 64 + (y - 128)).
  replace (c <? 128) with false by lia. replace (c <? 2048) with true by lia. f_equal; [|f_equal]; lia.
Qed.

Lemma enc3 x y z : within 224 239 x = true ->
  within (if x =? 224 then 160 else 128) (if x =? 237 then 159 else 191) y = true -> within 128 191 z = true ->
  utf8_char ((x - 224) * 4096 + (y - 128) * 64 + (z - 128)) = [x; y; z].
Proof.
  unfold within, utf8_char. intros A B C. set (c := (x - 224) * 4096 + (y - 128) * 64 + (z - 128)).
  destruct (x =? 224) eqn:?, (x =? 237) eqn:?;
  (replace (c <? 128) with false by lia; replace (c <? 2048) with false by lia;
   replace (c <? 65536) with true by lia; f_equal; [|f_equal; [|f_equal]]; lia).
Qed.

Lemma enc4 x y z w : within 240 244 x = true ->
  within (if x =? 240 then 144 else 128) (if x =? 244 then 143 else 191) y = true ->
  within 128 191 z = true -> within 128 191 w = true ->
  utf8_char ((x - 240) * 262144 + (y - 128) * 4096 + (z - 128) * 64 + (w - 128)) = [x; y; z; w].
Proof.
  unfold within, utf8_char. intros A B C D.
  set (c := (x - 240) * 262144 + (y - 128) * 4096 + (z - 128) * 64 + (w - 128)).
  destruct (x =? 240) eqn:?, (x =? 244) eqn:?;
  (replace (c <? 128) with false by lia; replace (c <? 2048) with false by lia;
   replace (c <? 65536) with false by lia; f_equal; [|f_equal; [|f_equal; [|f_equal]]]; lia).
Qed.

Local Ltac fin IH := cbn [all_some]; try discriminate;
  match goal with |- context [all_some (utf8_parts ?r)] =>
    let E := fresh "E" in destruct (all_some (utf8_parts r)) eqn:E; [|discriminate];
    let X := fresh "X" in intros X; injection X as <-; cbn [utf8]; rewrite (IH r _ ltac:(cbn in *; Lia.lia) E)
  end.

Lemma from_utf8_exact b s : from_utf8 b = Some s -> utf8 s = b.
Proof.
  unfold from_utf8. remember (length b) as n eqn:En. assert (L : (length b <= n)%nat) by Lia.lia. clear En.
  revert b s L. induction n as [|n IH]; intros b s L.
  { destruct b; [|cbn in L; Lia.lia]. cbn. intros X. injection X as <-. reflexivity. }
  destruct b as [|x r]; [cbn; intros X; injection X as <-; reflexivity|].
  cbn [utf8_parts]. cbn [length] in L.
  destruct (x <? 128) eqn:E1.
  { fin IH. unfold utf8_char. rewrite E1. reflexivity. }
  destruct (within 194 223 x) eqn:E2.
  { destruct r as [|y r1]; [discriminate|]. destruct (within 128 191 y) eqn:E3; fin IH.
    rewrite enc2 by assumption. reflexivity. }
  destruct (within 224 239 x) eqn:E4.
  { destruct r as [|y r1]; [discriminate|]. match goal with |- context [if ?b then _ else _] => destruct b eqn:E5 end; [|fin IH].
    destruct r1 as [|z r2]; [discriminate|]. destruct (within 128 191 z) eqn:E6; fin IH.
    rewrite enc3 by assumption. reflexivity. }
  destruct (within 240 244 x) eqn:E7; [|fin IH].
  destruct r as [|y r1]; [discriminate|]. match goal with |- context [if ?b then _ else _] => destruct b eqn:E5 end; [|fin IH].
  destruct r1 as [|z r2]; [discriminate|]. destruct (within 128 191 z) eqn:E6; [|fin IH].
  destruct r2 as [|w r3]; [discriminate|]. destruct (within 128 191 w) eqn:E8; fin IH.
  rewrite enc4 by assumption. reflexivity.
Qed.
