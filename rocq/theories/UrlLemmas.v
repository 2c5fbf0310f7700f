(** Lemmas about [UrlSpec]. *)

From Coq Require Import Lia.
From Verif Require Import Base BaseFacts Utf8 Utf8Facts AppSpec Http Form FormSpec UrlEncoded UrlFacts UrlSpec.
Local Open Scope N_scope.

(** ** UTF-8 *)

Inductive wf : bytes -> Prop :=
| wf1 x : x < 128 -> wf [x]
| wf2 x y : 194 <= x <= 223 -> 128 <= y <= 191 -> wf [x; y]
| wf3 x y z : 224 <= x <= 239 -> 128 <= y <= 191 -> (x = 224 -> 160 <= y) -> (x = 237 -> y <= 159) ->
    128 <= z <= 191 -> wf [x; y; z]
| wf4 x y z w : 240 <= x <= 244 -> 128 <= y <= 191 -> (x = 240 -> 144 <= y) -> (x = 244 -> y <= 143) ->
    128 <= z <= 191 -> 128 <= w <= 191 -> wf [x; y; z; w].

Lemma char_wf c : scalar c -> wf (utf8_char c).
Proof.
  unfold scalar, utf8_char. intros S.
  assert (M : forall x, x mod 64 < 64) by (intros x; apply N.mod_lt; discriminate).
  assert (D : forall a b, b <> 0 -> a = b * (a / b) + a mod b) by (intros; apply N.div_mod; assumption).
  assert (M' : forall a b, b <> 0 -> a mod b < b) by (intros; apply N.mod_lt; assumption).
  destruct (N.ltb_spec c 128); [constructor; assumption|].
  destruct (N.ltb_spec c 2048).
  { constructor.
    - pose proof (D c 64 ltac:(discriminate)). specialize (M c). lia.
    - specialize (M c). lia. }
  assert (D2 : c / 4096 = (c / 64) / 64) by (rewrite N.div_div by discriminate; reflexivity).
  assert (D3 : c / 262144 = (c / 4096) / 64) by (rewrite N.div_div by discriminate; reflexivity).
  pose proof (D c 64 ltac:(discriminate)) as E1. pose proof (M c) as B1.
  pose proof (D (c / 64) 64 ltac:(discriminate)) as E2. pose proof (M (c / 64)) as B2. rewrite <- D2 in E2.
  pose proof (D (c / 4096) 64 ltac:(discriminate)) as E3. pose proof (M (c / 4096)) as B3. rewrite <- D3 in E3.
  clear D M M' D2 D3.
  destruct (N.ltb_spec c 65536); constructor; lia.
Qed.

Lemma wf_char l : wf l -> exists c, scalar c /\ utf8_char c = l.
Proof.
  unfold scalar. intros [x H|x y Hx Hy|x y z Hx Hy H1 H2 Hz|x y z w Hx Hy H1 H2 Hz Hw].
  - exists x. split; [lia|]. unfold utf8_char. destruct (N.ltb_spec x 128); [reflexivity|lia].
  - eexists. split; [|apply enc2; unfold within; lia]. lia.
  - eexists. split; [|apply enc3; unfold within; [lia| |lia]].
    + assert (x = 224 \/ x = 237 \/ (x <> 224 /\ x <> 237)) as [->|[->|[]]] by lia; lia.
    + destruct (N.eqb_spec x 224), (N.eqb_spec x 237); lia.
  - eexists. split; [|apply enc4; unfold within; [lia| |lia|lia]].
    + assert (x = 240 \/ x = 244 \/ (x <> 240 /\ x <> 244)) as [->|[->|[]]] by lia; lia.
    + destruct (N.eqb_spec x 240), (N.eqb_spec x 244); lia.
Qed.

Lemma begins_wf p : begins_char p <-> exists s, wf (p ++ s).
Proof.
  split.
  - intros (c & s & S & E). exists s. rewrite <- E. apply char_wf. exact S.
  - intros (s & W). destruct (wf_char _ W) as (c & S & E). exists c, s. auto.
Qed.

Lemma ill_formed_wf p r : p <> [] -> (forall l s, wf l -> p ++ r <> l ++ s) ->
  ((exists s, wf (p ++ s)) \/ length p = 1%nat) ->
  (forall p' r' s, p ++ r = p' ++ r' -> (length p < length p')%nat -> ~ wf (p' ++ s)) -> ill_formed p r.
Proof.
  intros Ne N B Mx. split; [exact Ne|]. split; [intros c s S; apply N, char_wf, S|]. split.
  - destruct B as [B|B]; [left; apply begins_wf; exact B|right; exact B].
  - intros p' r' E L W. apply begins_wf in W as (s & W). exact (Mx p' r' s E L W).
Qed.

(** The ill-formed part at a place is unique. *)
Lemma ill_formed_unique p r p' r' : ill_formed p r -> ill_formed p' r' -> p ++ r = p' ++ r' -> p = p' /\ r = r'.
Proof.
  intros (Ne & _ & B & Mx) (Ne' & _ & B' & Mx') E.
  assert (L : length p = length p').
  { destruct (Nat.lt_trichotomy (length p) (length p')) as [L|[L|L]]; [|exact L|].
    - destruct B' as [B'|B']; [exfalso; exact (Mx p' r' E L B')|]. destruct p; [congruence|]. cbn in L. lia.
    - destruct B as [B|B]; [exfalso; exact (Mx' p r (eq_sym E) L B)|]. destruct p'; [congruence|]. cbn in L. lia. }
  clear Ne Ne' B B' Mx Mx'. revert p' r' E L. induction p as [|x p IH]; intros [|y p'] r' E L; try discriminate L.
  - split; [reflexivity|exact E].
  - injection E as -> E. injection L as L. destruct (IH p' r' E L) as [-> ->]. split; reflexivity.
Qed.

Local Ltac inv_wf W := inversion W; subst; clear W.

Lemma ill1 x r : (forall z, r = [] \/ exists y r1, r = y :: r1 /\ ~ wf [x] /\ ~ wf (x :: y :: z)) ->
  ~ wf [x] -> ill_formed [x] r.
Proof.
  intros K N1. apply ill_formed_wf; [discriminate| |right; reflexivity|].
  - intros l s W E. destruct l as [|a [|b l]]; [inversion W|injection E as <- _; contradiction|].
    destruct (K l) as [->|(y & r1 & -> & _ & N2)]; [discriminate E|]. injection E as <- <- _. contradiction.
  - intros p' r' s E L W. destruct p' as [|a [|b l]]; cbn in L; [lia|lia|].
    destruct (K (l ++ s)) as [->|(y & r1 & -> & _ & N2)]; [discriminate E|]. injection E as <- <- _. contradiction.
Qed.

Lemma ill2 x y r : (exists s, wf ([x; y] ++ s)) -> ~ wf [x] -> ~ wf [x; y] ->
  (forall z, r = [] \/ exists a r1, r = a :: r1 /\ ~ wf (x :: y :: a :: z)) -> ill_formed [x; y] r.
Proof.
  intros B N1 N2 K. apply ill_formed_wf; [discriminate| |left; exact B|].
  - intros l s W E. destruct l as [|a [|b [|c l]]]; [inversion W|injection E as <- _; contradiction|injection E as <- <- _; contradiction|].
    destruct (K l) as [->|(d & r1 & -> & N3)]; [discriminate E|]. injection E as <- <- <- _. contradiction.
  - intros p' r' s E L W. destruct p' as [|a [|b [|c l]]]; cbn in L; try lia.
    destruct (K (l ++ s)) as [->|(d & r1 & -> & N3)]; [discriminate E|]. injection E as <- <- <- _. contradiction.
Qed.

Lemma ill3 x y z r : (exists s, wf ([x; y; z] ++ s)) -> ~ wf [x] -> ~ wf [x; y] -> ~ wf [x; y; z] ->
  (forall l, r = [] \/ exists a r1, r = a :: r1 /\ ~ wf (x :: y :: z :: a :: l)) -> ill_formed [x; y; z] r.
Proof.
  intros B N1 N2 N3 K. apply ill_formed_wf; [discriminate| |left; exact B|].
  - intros l s W E. destruct l as [|a [|b [|c [|d l]]]];
      [inversion W|injection E as <- _; contradiction|injection E as <- <- _; contradiction|injection E as <- <- <- _; contradiction|].
    destruct (K l) as [->|(e & r1 & -> & N4)]; [discriminate E|]. injection E as <- <- <- <- _. contradiction.
  - intros p' r' s E L W. destruct p' as [|a [|b [|c [|d l]]]]; cbn in L; try lia.
    destruct (K (l ++ s)) as [->|(e & r1 & -> & N4)]; [discriminate E|]. injection E as <- <- <- <- _. contradiction.
Qed.

Lemma within_true lo hi b : within lo hi b = true <-> lo <= b <= hi.
Proof. unfold within. lia. Qed.
Lemma within_false lo hi b : within lo hi b = false <-> ~ lo <= b <= hi.
Proof. unfold within. lia. Qed.

(** What the decoder does with data that is not empty. *)
Lemma parts_cases b : b <> [] ->
  (exists c r, scalar c /\ b = utf8_char c ++ r /\ utf8_parts b = Some c :: utf8_parts r) \/
  (exists p r, ill_formed p r /\ b = p ++ r /\ utf8_parts b = None :: utf8_parts r).
Proof.
  assert (G : forall l r, wf l -> exists c r', scalar c /\ l ++ r = utf8_char c ++ r' /\ utf8_parts (l ++ r) = Some c :: utf8_parts r').
  { intros l r W. destruct (wf_char l W) as (c & S & <-). exists c, r. split; [exact S|]. split; [reflexivity|apply parts_char, S]. }
  destruct b as [|x r]; [congruence|]. intros _. cbn [utf8_parts].
  destruct (N.ltb_spec x 128) as [H|H].
  { left. destruct (G [x] r) as (c & r' & S & E & P); [constructor; exact H|].
    exists c, r'. split; [exact S|]. split; [exact E|]. cbn [app utf8_parts] in P.
    rewrite (proj2 (N.ltb_lt x 128) H) in P. exact P. }
  destruct (within 194 223 x) eqn:W2; [apply within_true in W2|apply within_false in W2].
  { destruct r as [|y r1].
    - right. exists [x], []. split; [|split; reflexivity]. apply ill1; [intros z; left; reflexivity|intros W; inv_wf W; lia].
    - destruct (within 128 191 y) eqn:Wy; [apply within_true in Wy|apply within_false in Wy].
      + left. destruct (G [x; y] r1) as (c & r' & S & E & P); [constructor; assumption|].
        exists c, r'. split; [exact S|]. split; [exact E|]. cbn [app utf8_parts] in P.
        rewrite (proj2 (N.ltb_ge x 128) H), (proj2 (within_true 194 223 x) W2), (proj2 (within_true 128 191 y) Wy) in P. exact P.
      + right. exists [x], (y :: r1). split; [|split; reflexivity].
        apply ill1; [|intros W; inv_wf W; lia]. intros z. right. exists y, r1. split; [reflexivity|]. split; intros W; inv_wf W; lia. }
  destruct (within 224 239 x) eqn:W3; [apply within_true in W3|apply within_false in W3].
  { destruct r as [|y r1].
    - right. exists [x], []. split; [|split; reflexivity]. apply ill1; [intros z; left; reflexivity|intros W; inv_wf W; lia].
    - destruct (within (if x =? 224 then 160 else 128) (if x =? 237 then 159 else 191) y) eqn:Wy.
      + assert (Hy : 128 <= y <= 191 /\ (x = 224 -> 160 <= y) /\ (x = 237 -> y <= 159)).
        { apply within_true in Wy. destruct (N.eqb_spec x 224), (N.eqb_spec x 237); lia. }
        destruct Hy as (Hy & Hy1 & Hy2). destruct r1 as [|z r2].
        * right. exists [x; y], []. split; [|split; reflexivity].
          apply ill2; [exists [128]; constructor; lia|intros W; inv_wf W; lia|intros W; inv_wf W; lia|intros z; left; reflexivity].
        * destruct (within 128 191 z) eqn:Wz.
          -- left. apply within_true in Wz. destruct (G [x; y; z] r2) as (c & r' & S & E & P); [constructor; assumption|].
             exists c, r'. split; [exact S|]. split; [exact E|]. cbn [app utf8_parts] in P.
             rewrite (proj2 (N.ltb_ge x 128) H), (proj2 (within_false 194 223 x) W2), (proj2 (within_true 224 239 x) W3), Wy,
               (proj2 (within_true 128 191 z) Wz) in P. exact P.
          -- right. apply within_false in Wz. exists [x; y], (z :: r2). split; [|split; reflexivity].
             apply ill2; [exists [128]; constructor; lia|intros W; inv_wf W; lia|intros W; inv_wf W; lia|].
             intros l. right. exists z, r2. split; [reflexivity|]. intros W; inv_wf W; lia.
      + right. exists [x], (y :: r1). split; [|split; reflexivity].
        apply within_false in Wy.
        assert (Hy : ~ (128 <= y <= 191 /\ (x = 224 -> 160 <= y) /\ (x = 237 -> y <= 159))).
        { destruct (N.eqb_spec x 224), (N.eqb_spec x 237); lia. }
        apply ill1; [|intros W; inv_wf W; lia]. intros z. right. exists y, r1. split; [reflexivity|].
        split; intros W; inv_wf W; try lia. all: apply Hy; split; [|split]; intros; auto; lia. }
  destruct (within 240 244 x) eqn:W4; [apply within_true in W4|apply within_false in W4].
  { destruct r as [|y r1].
    - right. exists [x], []. split; [|split; reflexivity]. apply ill1; [intros z; left; reflexivity|intros W; inv_wf W; lia].
    - destruct (within (if x =? 240 then 144 else 128) (if x =? 244 then 143 else 191) y) eqn:Wy.
      + assert (Hy : 128 <= y <= 191 /\ (x = 240 -> 144 <= y) /\ (x = 244 -> y <= 143)).
        { apply within_true in Wy. destruct (N.eqb_spec x 240), (N.eqb_spec x 244); lia. }
        destruct Hy as (Hy & Hy1 & Hy2). destruct r1 as [|z r2].
        * right. exists [x; y], []. split; [|split; reflexivity].
          apply ill2; [exists [128; 128]; constructor; lia|intros W; inv_wf W; lia|intros W; inv_wf W; lia|intros z; left; reflexivity].
        * destruct (within 128 191 z) eqn:Wz.
          -- apply within_true in Wz. destruct r2 as [|w r3].
             ++ right. exists [x; y; z], []. split; [|split; reflexivity].
                apply ill3; [exists [128]; constructor; lia|intros W; inv_wf W; lia|intros W; inv_wf W; lia|intros W; inv_wf W; lia|intros l; left; reflexivity].
             ++ destruct (within 128 191 w) eqn:Ww.
                ** left. apply within_true in Ww. destruct (G [x; y; z; w] r3) as (c & r' & S & E & P); [constructor; assumption|].
                   exists c, r'. split; [exact S|]. split; [exact E|]. cbn [app utf8_parts] in P.
                   rewrite (proj2 (N.ltb_ge x 128) H), (proj2 (within_false 194 223 x) W2), (proj2 (within_false 224 239 x) W3),
                     (proj2 (within_true 240 244 x) W4), Wy, (proj2 (within_true 128 191 z) Wz), (proj2 (within_true 128 191 w) Ww) in P. exact P.
                ** right. apply within_false in Ww. exists [x; y; z], (w :: r3). split; [|split; reflexivity].
                   apply ill3; [exists [128]; constructor; lia|intros W; inv_wf W; lia|intros W; inv_wf W; lia|intros W; inv_wf W; lia|].
                   intros l. right. exists w, r3. split; [reflexivity|]. intros W; inv_wf W; lia.
          -- right. apply within_false in Wz. exists [x; y], (z :: r2). split; [|split; reflexivity].
             apply ill2; [exists [128; 128]; constructor; lia|intros W; inv_wf W; lia|intros W; inv_wf W; lia|].
             intros l. right. exists z, r2. split; [reflexivity|]. intros W; inv_wf W; lia.
      + right. exists [x], (y :: r1). split; [|split; reflexivity].
        apply within_false in Wy.
        assert (Hy : ~ (128 <= y <= 191 /\ (x = 240 -> 144 <= y) /\ (x = 244 -> y <= 143))).
        { destruct (N.eqb_spec x 240), (N.eqb_spec x 244); lia. }
        apply ill1; [|intros W; inv_wf W; lia]. intros z. right. exists y, r1. split; [reflexivity|].
        split; intros W; inv_wf W; try lia. all: apply Hy; split; [|split]; intros; auto; lia. }
  right. exists [x], r. split; [|split; reflexivity].
  apply ill1; [|intros W; inv_wf W; lia]. intros z. destruct r as [|y r1]; [left; reflexivity|].
  right. exists y, r1. split; [reflexivity|]. split; intros W; inv_wf W; lia.
Qed.

Lemma lossy_spec b s : from_utf8_lossy b = s <-> text_of b s.
Proof.
  split.
  - intros <-. remember (length b) as n eqn:En. assert (L : (length b <= n)%nat) by lia. clear En.
    revert b L. induction n as [|n IH]; intros b L.
    + destruct b; [constructor|cbn in L; lia].
    + destruct b as [|x b']; [constructor|].
      destruct (parts_cases (x :: b') ltac:(discriminate)) as [(c & r & S & E & P)|(p & r & I & E & P)].
      * unfold from_utf8_lossy. rewrite P. cbn [map]. rewrite E. constructor; [exact S|]. apply IH.
        apply (f_equal (@length N)) in E. rewrite app_length in E.
        assert (0 < length (utf8_char c))%nat by (unfold utf8_char; destruct (c <? 128), (c <? 2048), (c <? 65536); cbn; lia). cbn [length] in *. lia.
      * unfold from_utf8_lossy. rewrite P. cbn [map]. rewrite E. constructor; [exact I|]. apply IH.
        apply (f_equal (@length N)) in E. rewrite app_length in E. destruct I as (Ne & _).
        destruct p; [congruence|]. cbn [length] in *. lia.
  - induction 1 as [|c r s S _ IH|p r s I _ IH]; [reflexivity| |].
    + unfold from_utf8_lossy. rewrite parts_char by exact S. cbn [map]. f_equal. exact IH.
    + destruct (parts_cases (p ++ r)) as [(c & r' & S & E & P)|(p' & r' & I' & E & P)].
      * destruct I as (Ne & _). destruct p; [congruence|discriminate].
      * exfalso. destruct I as (_ & N & _). exact (N c r' S E).
      * destruct (ill_formed_unique p r p' r' I I' E) as [-> ->]. unfold from_utf8_lossy. rewrite P. cbn [map]. f_equal. exact IH.
Qed.

(** ** Escapes *)

Lemma hex_dec c : (exists d, hex_char c d) \/ ~ exists d, hex_char c d.
Proof.
  destruct (hex_digit c) as [d|] eqn:E.
  - left. exists d. apply hex_char_digit. exact E.
  - right. intros (d & H). apply hex_char_digit in H. congruence.
Qed.

Lemma hex_plus c : hex_digit (if c =? c_plus then 32 else c) = hex_digit c.
Proof. destruct (N.eqb_spec c c_plus) as [->|_]; reflexivity. Qed.

Lemma hex_kept c d : hex_digit c = Some d -> (if c =? c_plus then 32 else c) = c.
Proof. intros H. destruct (N.eqb_spec c c_plus) as [->|_]; [discriminate H|reflexivity]. Qed.

Lemma unescape_spec e b : percent_decode (replace_plus e) = b <-> unescapes e b.
Proof.
  split.
  - intros <-. remember (length e) as n eqn:En. assert (L : (length e <= n)%nat) by lia. clear En.
    revert e L. induction n as [|n IH]; intros e L.
    { destruct e; [constructor|cbn in L; lia]. }
    destruct e as [|x r]; [constructor|]. cbn [length] in L.
    destruct (N.eq_dec x 43) as [->|N1]; [cbn; constructor; apply IH; lia|].
    unfold replace_plus. cbn [map]. destruct (N.eqb_spec x c_plus) as [F|_]; [contradiction|].
    cbn [percent_decode]. destruct (N.eqb_spec x c_percent) as [->|N2].
    + destruct r as [|h [|l r2]].
      * apply ue_other; [discriminate| |constructor]. intros (_ & a & c & da & dc & r' & E & _). discriminate E.
      * cbn [map]. apply ue_other; [discriminate| |apply (IH [h]); cbn in *; lia].
        intros (_ & a & c & da & dc & r' & E & _). discriminate E.
      * cbn [map]. rewrite !hex_plus. destruct (hex_digit h) as [dh|] eqn:Eh; [destruct (hex_digit l) as [dl|] eqn:El|].
        -- replace (dh * 16 + dl) with (16 * dh + dl) by lia.
           apply ue_hex; [apply hex_char_digit; exact Eh|apply hex_char_digit; exact El|]. apply IH. cbn in L. lia.
        -- apply ue_other; [discriminate| |apply (IH (h :: l :: r2)); cbn in *; lia].
           intros (_ & a & c & da & dc & r' & E & _ & H2). injection E as <- <- <-. apply hex_char_digit in H2. congruence.
        -- apply ue_other; [discriminate| |apply (IH (h :: l :: r2)); cbn in *; lia].
           intros (_ & a & c & da & dc & r' & E & H1 & _). injection E as <- <- <-. apply hex_char_digit in H1. congruence.
    + apply ue_other; [exact N1| |apply (IH r); lia]. intros (F & _). contradiction.
  - induction 1 as [|r o _ IH|h l dh dl r o Hh Hl _ IH|x r o N1 N2 _ IH]; [reflexivity| | |].
    + cbn. f_equal. exact IH.
    + apply hex_char_digit in Hh, Hl. unfold replace_plus. cbn [map].
      rewrite (hex_kept h dh Hh), (hex_kept l dl Hl).
      change (37 =? c_plus) with false. cbv iota. cbn [percent_decode]. change (37 =? c_percent) with true. cbv iota.
      rewrite Hh, Hl. f_equal; [lia|exact IH].
    + unfold replace_plus. cbn [map]. destruct (N.eqb_spec x c_plus) as [F|_]; [contradiction|].
      cbn [percent_decode]. unfold replace_plus in IH. destruct (N.eqb_spec x c_percent) as [->|_]; [|f_equal; exact IH].
      destruct r as [|h [|l r2]]; [cbn; f_equal; exact IH|cbn [map]; f_equal; exact IH|].
      cbn [map]. rewrite !hex_plus. destruct (hex_digit h) as [dh|] eqn:Eh; [destruct (hex_digit l) as [dl|] eqn:El|]; [|f_equal; exact IH|f_equal; exact IH].
      exfalso. apply N2. split; [reflexivity|]. exists h, l, dh, dl, r2. split; [reflexivity|]. split; apply hex_char_digit; assumption.
Qed.

Lemma decode_spec e s : decode e = s <-> decodes e s.
Proof.
  unfold decode, decodes. split.
  - intros E. exists (percent_decode (replace_plus e)). split; [apply unescape_spec; reflexivity|apply lossy_spec; exact E].
  - intros (b & U & T). apply unescape_spec in U. apply lossy_spec in T. rewrite U. exact T.
Qed.

(** ** Pairs *)

Lemma split_first_cases sep e :
  (~ In sep e /\ split_first sep e = (e, None)) \/
  exists a b, e = a ++ sep :: b /\ ~ In sep a /\ split_first sep e = (a, Some b).
Proof.
  induction e as [|x e IH]; [left; split; [intros []|reflexivity]|]. cbn [split_first].
  destruct (N.eqb_spec x sep) as [->|N].
  - right. exists [], e. split; [reflexivity|]. split; [intros []|reflexivity].
  - destruct IH as [(I & ->)|(a & b & -> & I & ->)].
    + left. split; [|reflexivity]. intros [F|F]; [congruence|contradiction].
    + right. exists (x :: a), b. split; [reflexivity|]. split; [|reflexivity]. intros [F|F]; [congruence|contradiction].
Qed.

Lemma pair_spec e p : parse_pair e = p <-> decodes_pair e p.
Proof.
  unfold parse_pair, decodes_pair. split.
  - destruct (split_first_cases c_eq e) as [(I & ->)|(a & b & -> & I & ->)]; intros <-.
    + exists e, []. split; [exact I|]. split; [right; auto|]. split; apply decode_spec; reflexivity.
    + exists a, b. split; [exact I|]. split; [left; reflexivity|]. split; apply decode_spec; reflexivity.
  - intros (name & value & I & E & Dn & Dv). apply decode_spec in Dn, Dv.
    destruct p as [k v]. cbn [fst snd] in *. destruct E as [->|[-> ->]].
    + change 61 with c_eq. rewrite split_first_app by exact I. cbn [or_empty]. congruence.
    + destruct (split_first_cases c_eq name) as [(_ & ->)|(a & b & -> & _ & _)]; [cbn [or_empty]; congruence|].
      exfalso. apply I. apply in_or_app. right. left. reflexivity.
Qed.

Lemma join_split q : join_amp (split_on c_amp q) = q /\ (forall e, In e (split_on c_amp q) -> ~ In 38 e) /\ split_on c_amp q <> [].
Proof.
  induction q as [|x q (E & N & Ne)]; [split; [reflexivity|]; split; [intros e [<-|[]] []|discriminate]|].
  cbn [split_on]. destruct (N.eqb_spec x c_amp) as [->|N1].
  - destruct (split_on c_amp q) as [|p ps]; [congruence|]. split; [cbn [join_amp app]; f_equal; exact E|].
    split; [|discriminate]. intros e [<-|I]; [intros []|apply N; exact I].
  - destruct (split_on c_amp q) as [|p ps]; [congruence|]. split; [|split; [|discriminate]].
    + destruct ps as [|p2 ps]; cbn [join_amp app] in *; f_equal; exact E.
    + intros e [<-|I]; [|apply N; right; exact I]. intros [F|F]; [contradiction|]. exact (N p (or_introl eq_refl) F).
Qed.

Lemma forall2_map {A B} (f : A -> B) (R : A -> B -> Prop) l m : (forall a b, f a = b <-> R a b) ->
  map f l = m <-> Forall2 R l m.
Proof.
  intros K. split.
  - intros <-. induction l; constructor; [apply K; reflexivity|assumption].
  - induction 1; cbn; f_equal; [apply K; assumption|assumption].
Qed.

Lemma parse_spec q ps : parse q = ps <-> form_pairs q ps.
Proof.
  unfold parse, form_pairs. split.
  - intros E. exists (split_on c_amp q). destruct (join_split q) as (J & N & _). split; [auto|]. split; [exact N|].
    exact (proj1 (forall2_map _ _ _ _ pair_spec) E).
  - intros (parts & -> & N & F). apply (proj2 (forall2_map _ _ _ _ pair_spec)) in F. destruct parts as [|a r].
    + exact F.
    + rewrite split_join_amp; [exact F|discriminate|exact N].
Qed.

(** Every text is data, of one list of pairs. *)
Lemma pairs_exist q : exists ps, form_pairs q ps /\ forall ps', form_pairs q ps' -> ps' = ps.
Proof.
  exists (parse q). split; [apply parse_spec; reflexivity|]. intros ps' F. symmetry. apply parse_spec. exact F.
Qed.
