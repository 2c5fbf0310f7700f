(** Proofs about JSON texts that are cut off, and about reading documents. *)

From Coq Require Import String Lia ZArith.
From Verif Require Import Base BaseFacts Utf8 Utf8Facts RouteTrie Http Form AppSpec Json JsonSpec JsonLemmas JsonLemmas2.
Local Open Scope list_scope.

(** ** Added text *)

Lemma skip_ext b x r q : skip b = x :: r -> skip (b ++ q) = x :: r ++ q.
Proof.
  intros E. destruct (skip_cons _ _ _ E) as (w & S & B). pose proof (skip_head _ _ _ E) as H.
  rewrite B, <- app_assoc. cbn [app]. apply skip_space_head; assumption.
Qed.

Lemma lex_str_ext_len k : forall b ps r q, length b <= k -> lex_str b = Some (ps, r) -> lex_str (b ++ q) = Some (ps, r ++ q).
Proof.
  induction k as [|k IH]; intros b ps r q L E; (destruct b as [|x b]; [discriminate|]); cbn [length] in L; [lia|].
  cbn [lex_str app] in *. destruct (N.eqb x 34); [injection E as <- <-; reflexivity|].
  destruct (N.eqb x 92).
  - destruct b as [|e b]; [discriminate|]. cbn [app]. destruct (N.eqb e 117).
    + destruct b as [|h1 [|h2 [|h3 [|h4 b]]]]; try discriminate. cbn [app].
      destruct (hex4 h1 h2 h3 h4) as [n|] eqn:X; [|discriminate].
      destruct (put_some _ _ _ _ E) as (ps' & E' & ->). rewrite (IH b ps' r q ltac:(cbn [length] in L; lia) E'). reflexivity.
    + destruct (short_escape e) as [c|] eqn:X; [|discriminate].
      destruct (put_some _ _ _ _ E) as (ps' & E' & ->). rewrite (IH b ps' r q ltac:(cbn [length] in L; lia) E'). reflexivity.
  - destruct (N.ltb x 32); [discriminate|].
    destruct (put_some _ _ _ _ E) as (ps' & E' & ->). rewrite (IH b ps' r q ltac:(lia) E'). reflexivity.
Qed.

Lemma lex_str_ext b ps r q : lex_str b = Some (ps, r) -> lex_str (b ++ q) = Some (ps, r ++ q).
Proof. exact (lex_str_ext_len (length b) b ps r q (le_n _)). Qed.

Lemma ident_ext w b r q : ident w b = Some r -> ident w (b ++ q) = Some (r ++ q).
Proof.
  revert b. induction w as [|x w IH]; intros b E; [injection E as <-; reflexivity|].
  destruct b as [|y b]; [discriminate|]. cbn [ident app] in *. destruct (N.eqb x y); [|discriminate]. apply IH. exact E.
Qed.

Lemma digits_ext b ds r q : digits b = (ds, r) -> r <> [] -> digits (b ++ q) = (ds, r ++ q).
Proof.
  intros E NE. destruct (digits_split _ _ _ E) as (-> & A & N). rewrite <- app_assoc. apply digits_row; [exact A|].
  destruct r; [destruct (NE eq_refl)|exact N].
Qed.

Lemma lex_int_ext b ds r q : lex_int b = Some (ds, r) -> r <> [] -> lex_int (b ++ q) = Some (ds, r ++ q).
Proof.
  unfold lex_int. destruct (digits b) as [ds' r'] eqn:E. intros Q NE.
  destruct ds' as [|x ds']; [discriminate|]. destruct (N.eqb x 48 && negb (is_empty ds')) eqn:Z; [discriminate|].
  injection Q as <- <-. rewrite (digits_ext _ _ _ q E NE), Z. reflexivity.
Qed.

Lemma lex_frac_ext b fr r q : lex_frac b = Some (fr, r) -> r <> [] -> lex_frac (b ++ q) = Some (fr, r ++ q).
Proof.
  unfold lex_frac. destruct b as [|x b]; [intros E NE; injection E as <- <-; destruct (NE eq_refl)|].
  cbn [app]. destruct (N.eqb x 46); [|intros E _; injection E as <- <-; reflexivity].
  destruct (digits b) as [ds' r'] eqn:E. intros Q NE. destruct ds' as [|d ds']; [discriminate|]. injection Q as <- <-.
  rewrite (digits_ext _ _ _ q E NE). reflexivity.
Qed.

Lemma lex_exp_ext b ex r q : lex_exp b = Some (ex, r) -> r <> [] -> lex_exp (b ++ q) = Some (ex, r ++ q).
Proof.
  unfold lex_exp. destruct b as [|x b]; [intros E NE; injection E as <- <-; destruct (NE eq_refl)|].
  cbn [app]. destruct ((x =? 101)%N || (x =? 69)%N); [|intros E _; injection E as <- <-; reflexivity].
  destruct b as [|s b]; [discriminate|]. cbn [app]. destruct ((s =? 43)%N || (s =? 45)%N).
  - destruct (digits b) as [ds' r'] eqn:E. intros Q NE. destruct ds' as [|d ds']; [discriminate|]. injection Q as <- <-.
    rewrite (digits_ext _ _ _ q E NE). reflexivity.
  - destruct (digits (s :: b)) as [ds' r'] eqn:E. intros Q NE. destruct ds' as [|d ds']; [discriminate|]. injection Q as <- <-.
    change (s :: b ++ q) with ((s :: b) ++ q). rewrite (digits_ext _ _ _ q E NE). reflexivity.
Qed.

Lemma lex_num_ext neg b v r q : lex_num neg b = Some (v, r) -> r <> [] -> lex_num neg (b ++ q) = Some (v, r ++ q).
Proof.
  unfold lex_num. destruct (lex_int b) as [[ds r0]|] eqn:E0; [|discriminate].
  destruct (lex_frac r0) as [[fr r1]|] eqn:E1; [|discriminate].
  destruct (lex_exp r1) as [[ex r2]|] eqn:E2; [|discriminate]. intros Q NE. injection Q as <- <-.
  destruct (lex_exp_exact _ _ _ E2) as (B2 & _). destruct (lex_frac_exact _ _ _ E1) as (B1 & _).
  assert (N1 : r1 <> []) by (rewrite B2; destruct ex; [exact NE|discriminate]).
  assert (N0 : r0 <> []) by (rewrite B1; destruct fr; [exact N1|discriminate]).
  rewrite (lex_int_ext _ _ _ q E0 N0), (lex_frac_ext _ _ _ q E1 N1), (lex_exp_ext _ _ _ q E2 NE). reflexivity.
Qed.

Definition raw_number (v : raw) : Prop := match v with RNum _ _ _ => True | _ => False end.

Lemma lex_num_is neg b v r : lex_num neg b = Some (v, r) -> raw_number v.
Proof. intros E. destruct (lex_num_exact _ _ _ _ E) as (n & tl & -> & _). exact Logic.I. Qed.

Lemma lex_ext n :
  (forall b v r m q, lex n b = Some (v, r) -> n <= m -> (raw_number v -> r <> []) -> lex m (b ++ q) = Some (v, r ++ q)) /\
  (forall b l r m q, lex_elements n b = Some (l, r) -> n <= m -> lex_elements m (b ++ q) = Some (l, r ++ q)) /\
  (forall b l r m q, lex_members n b = Some (l, r) -> n <= m -> lex_members m (b ++ q) = Some (l, r ++ q)).
Proof.
  induction n as [|n (IH & IHE & IHM)]; [split; [|split]; discriminate|]. split; [|split].
  - intros b v r m q E LE NN. destruct m as [|m]; [lia|].
    destruct (lex_cases n b v r E) as (w & x & t & S & -> & BL & C). rewrite <- app_assoc, lex_space by exact S. cbn [app].
    destruct C as [(-> & -> & I)|[(-> & -> & I)|[(-> & -> & I)|[(-> & I)|[(D & I)|[(-> & ps & -> & I)|
      [(-> & w' & -> & S' & ->)|[(-> & l & y & t' & -> & K & NY & I)|[(-> & w' & -> & S' & ->)|(-> & l & y & t' & -> & K & NY & I)]]]]]]]]].
    + change (option_map (pair RNull) (ident (lit "ull") (t ++ q)) = Some (RNull, r ++ q)). rewrite (ident_ext _ _ _ q I). reflexivity.
    + change (option_map (pair (RBool true)) (ident (lit "rue") (t ++ q)) = Some (RBool true, r ++ q)). rewrite (ident_ext _ _ _ q I). reflexivity.
    + change (option_map (pair (RBool false)) (ident (lit "alse") (t ++ q)) = Some (RBool false, r ++ q)). rewrite (ident_ext _ _ _ q I). reflexivity.
    + change (lex_num true (t ++ q) = Some (v, r ++ q)). apply lex_num_ext; [exact I|]. exact (NN (lex_num_is _ _ _ _ I)).
    + rewrite lex_digit by exact D. change (x :: t ++ q) with ((x :: t) ++ q). apply lex_num_ext; [exact I|]. exact (NN (lex_num_is _ _ _ _ I)).
    + rewrite lex_quote, (lex_str_ext _ _ _ q I). reflexivity.
    + rewrite lex_open, <- app_assoc. cbn [app]. rewrite skip_space_head by (auto; reflexivity). reflexivity.
    + rewrite lex_open, (skip_ext _ _ _ q K), (proj2 (N.eqb_neq _ _) NY), (IHE _ _ _ m q I) by lia. reflexivity.
    + rewrite lex_brace, <- app_assoc. cbn [app]. rewrite skip_space_head by (auto; reflexivity). reflexivity.
    + rewrite lex_brace, (skip_ext _ _ _ q K), (proj2 (N.eqb_neq _ _) NY), (IHM _ _ _ m q I) by lia. reflexivity.
  - intros b l r m q E LE. destruct m as [|m]; [lia|]. rewrite lex_elements_step in *.
    destruct (lex n b) as [[v r0]|] eqn:LV; [|discriminate]. destruct (skip r0) as [|y r1] eqn:K; [discriminate|].
    rewrite (IH _ _ _ m q LV) by (lia || (intros _ ->; discriminate K)). rewrite (skip_ext _ _ _ q K).
    destruct (N.eqb y 93); [injection E as <- <-; reflexivity|]. destruct (N.eqb y 44); [|discriminate].
    destruct (put_some _ _ _ _ E) as (l' & E' & ->). rewrite (IHE _ _ _ m q E') by lia. reflexivity.
  - intros b l r m q E LE. destruct m as [|m]; [lia|]. rewrite lex_members_step in *.
    destruct (skip b) as [|x t] eqn:K0; [discriminate|]. rewrite (skip_ext _ _ _ q K0). destruct (N.eqb x 34); [|discriminate].
    destruct (lex_str t) as [[k r0]|] eqn:LS; [|discriminate]. rewrite (lex_str_ext _ _ _ q LS).
    destruct (skip r0) as [|z r1] eqn:K1; [discriminate|]. rewrite (skip_ext _ _ _ q K1). destruct (N.eqb z 58); [|discriminate].
    destruct (lex n r1) as [[v r2]|] eqn:LV; [|discriminate]. destruct (skip r2) as [|y r3] eqn:K3; [discriminate|].
    rewrite (IH _ _ _ m q LV) by (lia || (intros _ ->; discriminate K3)). rewrite (skip_ext _ _ _ q K3).
    destruct (N.eqb y 125); [injection E as <- <-; reflexivity|]. destruct (N.eqb y 44); [|discriminate].
    destruct (put_some _ _ _ _ E) as (l' & E' & ->). rewrite (IHM _ _ _ m q E') by lia. reflexivity.
Qed.

(** A text begins like a number or not. *)
Lemma lex_number_head n b v r m q v' r' : lex (S n) b = Some (v, r) -> raw_number v ->
  lex (S m) (b ++ q) = Some (v', r') -> raw_number v'.
Proof.
  intros E RN E'. destruct (lex_cases n b v r E) as (w & x & t & S & -> & BL & C).
  rewrite <- app_assoc, lex_space in E' by exact S. cbn [app] in E'.
  destruct C as [(-> & -> & I)|[(-> & -> & I)|[(-> & -> & I)|[(-> & I)|[(D & I)|[(-> & ps & -> & I)|
      [(-> & w' & -> & S' & ->)|[(-> & l & y & t' & -> & K & NY & I)|[(-> & w' & -> & S' & ->)|(-> & l & y & t' & -> & K & NY & I)]]]]]]]]];
    try destruct RN.
  - change (lex_num true (t ++ q) = Some (v', r')) in E'. exact (lex_num_is _ _ _ _ E').
  - rewrite lex_digit in E' by exact D. exact (lex_num_is _ _ _ _ E').
Qed.

Lemma lex_json_text j b : json_text j b -> forall n, 2 * length b <= n ->
  exists v r, lex (S n) b = Some (v, r) /\ space r /\ shape j v.
Proof.
  intros (w & c & w' & S & S' & W & ->) n L. rewrite lex_space by exact S. repeat rewrite app_length in L.
  destruct (proj1 lex_complete j c W n w') as (v & E & SH); [lia| |].
  - intros _. destruct S' as [|x w' I S']; [exact Logic.I|]. apply blank_no_more, blank_in. exact I.
  - exists v, w'. auto.
Qed.

Section Chunks.
  Context {F : Type}.
  Context (float_lit : bytes -> option F) (float_int : Z -> F) (zero_float : bool).

  (** Of a text that is cut off nothing is read, unless it is a number. *)
  Lemma cut_off j p q t v : json_text j (p ++ q) -> ~ is_number j ->
    from_slice float_lit float_int zero_float t p = Some v -> from_slice float_lit float_int zero_float t (p ++ q) = Some v.
  Proof.
    intros T NN E. unfold from_slice in *. destruct (lex (2 + 2 * length p) p) as [[x r]|] eqn:LX; [|discriminate].
    change (2 + 2 * length (p ++ q)) with (S (1 + 2 * length (p ++ q))).
    destruct (lex_json_text j (p ++ q) T (1 + 2 * length (p ++ q)) ltac:(lia)) as (x' & r' & LX' & S' & SH).
    destruct (is_empty (skip r)) eqn:SK; [|discriminate].
    assert (NR : ~ raw_number x).
    { intros RN. change (2 + 2 * length p) with (S (1 + 2 * length p)) in LX.
      pose proof (lex_number_head _ _ _ _ _ _ _ _ LX RN LX') as RN'. destruct SH; try destruct RN'. exact (NN Logic.I). }
    assert (EX : lex (S (1 + 2 * length (p ++ q))) (p ++ q) = Some (x, r ++ q)).
    { apply (proj1 (lex_ext _) _ _ _ _ _ LX); [rewrite app_length; lia|]. intros RN. destruct (NR RN). }
    rewrite EX in LX'. injection LX' as <- <-. rewrite EX. rewrite (skip_all _ S'). exact E.
  Qed.
End Chunks.
