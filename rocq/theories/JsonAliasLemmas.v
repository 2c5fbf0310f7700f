(** Lemmas about JSON read into structs whose fields have several names. *)

From Coq Require Import String ZArith Lia.
From Verif Require Import Base BaseFacts Utf8 Http Form AppSpec Json JsonSpec JsonAlias JsonAliasSpec.
From Verif Require Import AppLemmas4 JsonLemmas JsonLemmas2 JsonLemmas3 JsonLemmas4 JsonLemmas5 JsonLemmas6 JsonLemmas7 JsonLemmas9.
Local Open Scope string_scope.
Local Open Scope list_scope.

Section JsonAlias.
  Context {F : Type} (fl : bytes -> option F) (fi : Z -> F) (zf : bool).
  Notation read := (read fl fi zf).
  Notation from_slice := (from_slice fl fi zf).
  Notation from_slice_alias := (from_slice_alias fl fi zf).
  Notation rd := (reader (F := F) * list str)%type.

  Lemma set_field_renamed k k' x x' (rs : list rd) :
    Forall (fun g => called k g = str_eqb k' (r_name (fst g)) /\ r_read (fst g) x = r_read (fst g) x') rs ->
    forall slots, set_field_alias k x rs slots = set_field k' x' (map fst rs) slots.
  Proof.
    induction 1 as [|g rs [C R] _ IH]; intros [|s ss]; try reflexivity. cbn [set_field_alias set_field map]. rewrite C, R, IH. reflexivity.
  Qed.

  Lemma set_fields_renamed deny (rs : list rd) l l' :
    Forall2 (fun p p' => exists k k', string_of (fst p) = Some k /\ string_of (fst p') = Some k' /\
       Forall (fun g => called k g = str_eqb k' (r_name (fst g)) /\ r_read (fst g) (snd p) = r_read (fst g) (snd p')) rs) l l' ->
    forall slots, set_fields_alias deny l rs slots = set_fields deny l' (map fst rs) slots.
  Proof.
    induction 1 as [|[p x] [p' x'] l l' (k & k' & K & K' & A) _ IH]; intros slots; [reflexivity|]. cbn [fst snd set_fields_alias set_fields] in *.
    rewrite K, K', (set_field_renamed k k' x x' rs A). assert (E : existsb (called k) rs = existsb (fun f => str_eqb k' (r_name f)) (map fst rs)).
    { clear - A. induction A as [|g rs [C _] _ IH]; [reflexivity|]. cbn [existsb map]. rewrite C, IH. reflexivity. }
    rewrite E. destruct (deny && _); [reflexivity|]. destruct (set_field k' x' (map fst rs) slots); [apply IH|reflexivity].
  Qed.

  Context (deny : bool) (fs : list (jafield F)) (Df : jdifferent fs).

  Lemma from_alias_text j b : json_text j b -> exists r, shape j r /\ from_slice_alias deny fs b = read_alias fl fi zf deny fs max_depth r.
  Proof.
    intros T. unfold JsonAlias.from_slice_alias. change (2 + 2 * List.length b) with (S (1 + 2 * List.length b)).
    destruct (lex_json_text j b T (1 + 2 * List.length b) ltac:(lia)) as (x & r & LX & S & SH).
    exists x. split; [exact SH|]. rewrite LX, (skip_all _ S). reflexivity.
  Qed.

  Lemma called_name k f d : called k (Reader (ja_name f) (missing (ja_default f) (ja_type f)) (ja_default f) (read (ja_type f) d), ja_aliases f) = true <-> jname_of f k.
  Proof.
    unfold called, jname_of. cbn [fst snd r_name]. rewrite orb_true_iff, str_eqb_eq, existsb_exists. split.
    - intros [E|(x & I & E)]; [left; exact E|]. apply str_eqb_eq in E as ->. right. exact I.
    - intros [E|I]; [left; exact E|]. right. exists k. split; [exact I|apply str_eqb_refl].
  Qed.

  Lemma own_same f g : In f fs -> In g fs -> ja_name f = ja_name g -> f = g.
  Proof. intros I J E. apply (proj2 Df) with (ja_name f); [exact I|exact J|left; reflexivity|left; exact E]. Qed.

  Lemma renamed_called m m' f : jrenamed fs m m' -> In f fs -> (jname_of f (fst m) <-> fst m' = ja_name f).
  Proof.
    intros [_ [(g & I & N & E)|[N E]]] J.
    - rewrite E. split.
      + intros N'. f_equal. apply (proj2 Df) with (fst m); assumption.
      + intros E'. apply own_same in E' as <-; assumption.
    - rewrite E. split; [intros N'; destruct (N f J N')|]. intros ->. left. reflexivity.
  Qed.

  Lemma readers_plain d : map fst (map (fun f : jafield F => (Reader (ja_name f) (missing (ja_default f) (ja_type f)) (ja_default f) (read (ja_type f) d), ja_aliases f)) fs) =
    map (fun f : str * option (jval F) * jty F => let '(n, df, t') := f in Reader n (missing df t') df (read t' d)) (map (fun f => (ja_name f, ja_default f, ja_type f)) fs).
  Proof. rewrite !map_map. reflexivity. Qed.

  Lemma alias_renamed l l' b b' : json_text (JObj l) b -> json_text (JObj l') b' -> Forall2 (jrenamed fs) l l' ->
    from_slice_alias deny fs b = from_slice (without_aliases deny fs) b'.
  Proof.
    intros T T' R. destruct (from_alias_text _ _ T) as (r & SH & ->).
    destruct (from_text fl fi zf _ _ (without_aliases deny fs) T') as (r' & SH' & ->).
    inversion SH as [| | | | |? rs SL]; inversion SH' as [| | | | |? rs' SL']; subst. unfold read_alias, without_aliases. cbn [Json.read].
    destruct (enter max_depth) as [d|]; [|reflexivity]. cbv zeta.
    rewrite (set_fields_renamed deny _ rs rs'), readers_plain, !map_map; [reflexivity|].
    clear SH SH' T T'. revert rs rs' SL SL'. induction R as [|m m' l l' R _ IH]; intros rs rs' SL SL'; inversion SL as [|? p ? ? [K SX] SL2]; inversion SL' as [|? p' ? ? [K' SX'] SL2']; subst; constructor.
    - exists (fst m), (fst m'). split; [exact K|]. split; [exact K'|]. apply Forall_forall. intros g I. apply in_map_iff in I as (f & <- & I). split.
      + apply Bool.eq_iff_eq_true. rewrite called_name, (renamed_called m m' f R I). cbn [fst r_name]. symmetry. apply str_eqb_eq.
      + cbn [fst r_read]. destruct R as [E _]. rewrite E in SX'. exact (read_same fl fi zf (ja_type f) _ _ _ d SX SX').
    - apply IH; assumption.
  Qed.

  Lemma alias_array j b : json_text j b -> (forall l, j <> JObj l) -> from_slice_alias deny fs b = from_slice (without_aliases deny fs) b.
  Proof.
    intros T N. destruct (from_alias_text _ _ T) as (r & SH & ->).
    destruct (from_text fl fi zf _ _ (without_aliases deny fs) T) as (r' & SH' & ->).
    rewrite (read_same fl fi zf (without_aliases deny fs) _ _ _ max_depth SH' SH). unfold read_alias, without_aliases. cbn [Json.read].
    destruct (enter max_depth) as [d|]; [|reflexivity]. cbv zeta. rewrite readers_plain.
    inversion SH; subst; try reflexivity. destruct (N l). reflexivity.
  Qed.

  (** ** Any bytes *)

  Lemma alias_grammar b v : from_slice_alias deny fs b = Some v -> loose_text b.
  Proof.
    unfold JsonAlias.from_slice_alias. destruct (lex _ b) as [[x r]|] eqn:E; [|discriminate].
    destruct (skip r) as [|y r'] eqn:K; [|discriminate]. intros _.
    destruct (proj1 (lex_loose _) _ _ _ E) as (w & c & -> & S & L). exists w, c, r.
    split; [exact S|]. split; [apply skip_nil; exact K|]. split; [exact L|reflexivity].
  Qed.

  Lemma set_field_none k x (rs : list rd) : Forall (fun g => snd g = []) rs ->
    forall slots, set_field_alias k x rs slots = set_field k x (map fst rs) slots.
  Proof.
    intros A. apply set_field_renamed. revert A. apply Forall_impl. intros g E. split; [|reflexivity]. unfold called. rewrite E. apply orb_false_r.
  Qed.

  Lemma set_fields_none (rs : list rd) l : Forall (fun g => snd g = []) rs ->
    forall slots, set_fields_alias deny l rs slots = set_fields deny l (map fst rs) slots.
  Proof.
    intros A. induction l as [|[p x] l IH]; intros slots; [reflexivity|]. cbn [set_fields_alias set_fields]. destruct (string_of p) as [k|]; [|reflexivity].
    assert (E : existsb (called k) rs = existsb (fun f => str_eqb k (r_name f)) (map fst rs)).
    { clear - A. induction A as [|g rs C _ IH]; [reflexivity|]. cbn [existsb map]. rewrite <- IH. unfold called at 1. rewrite C. cbn [existsb]. rewrite orb_false_r. reflexivity. }
    rewrite E, (set_field_none k x rs A). destruct (deny && _); [reflexivity|]. destruct (set_field k x (map fst rs) slots); [apply IH|reflexivity].
  Qed.

  Lemma alias_none b : (forall f, In f fs -> ja_aliases f = []) -> from_slice_alias deny fs b = from_slice (without_aliases deny fs) b.
  Proof.
    intros A. unfold JsonAlias.from_slice_alias, Json.from_slice. destruct (lex _ b) as [[x r]|]; [|reflexivity]. destruct (is_empty (skip r)); [|reflexivity].
    unfold read_alias, without_aliases. cbn [Json.read]. destruct (enter max_depth) as [d|]; [|reflexivity]. cbv zeta.
    destruct x; try reflexivity; [rewrite readers_plain; reflexivity|].
    rewrite set_fields_none, readers_plain, !map_map; [reflexivity|]. apply Forall_forall. intros g I. apply in_map_iff in I as (f & <- & I). exact (A f I).
  Qed.

  (** ** A field given twice *)

  Lemma hit k x (g : rd) : forall rs slots i s, nth_error rs i = Some g -> nth_error slots i = Some s -> called k g = true ->
    (forall j h, j < i -> nth_error rs j = Some h -> called k h = false) ->
    match set_field_alias k x rs slots with
    | None => True
    | Some slots' => s = None /\ exists y, nth_error slots' i = Some (Some y)
    end.
  Proof.
    induction rs as [|f rs IH]; intros [|s0 ss] [|i] s A B C U; try discriminate; cbn [set_field_alias].
    - injection A as ->. injection B as ->. rewrite C. destruct s; [exact I|]. destruct (r_read (fst g) x); cbn; [|exact I]. eauto.
    - rewrite (U 0 f ltac:(lia) eq_refl). specialize (IH ss i s A B C (fun j h L => U (S j) h ltac:(lia))).
      destruct (set_field_alias k x rs ss); [exact IH|exact I].
  Qed.

  Lemma keep k x : forall (rs : list rd) slots i y slots', set_field_alias k x rs slots = Some slots' ->
    nth_error slots i = Some (Some y) -> nth_error slots' i = Some (Some y).
  Proof.
    induction rs as [|f rs IH]; intros [|s0 ss] i y slots' E N; try (injection E as <-; exact N).
    cbn [set_field_alias] in E. destruct (called k f).
    - destruct s0; [discriminate|]. destruct (r_read (fst f) x); [|discriminate]. injection E as <-. destruct i; [discriminate N|exact N].
    - destruct (set_field_alias k x rs ss) as [ss'|] eqn:E'; [|discriminate]. injection E as <-. destruct i; [exact N|]. exact (IH ss i y ss' E' N).
  Qed.

  Lemma set_length k x : forall (rs : list rd) slots slots', set_field_alias k x rs slots = Some slots' -> List.length slots' = List.length slots.
  Proof.
    induction rs as [|f rs IH]; intros [|s0 ss] slots' E; try (injection E as <-; reflexivity). cbn [set_field_alias] in E. destruct (called k f).
    - destruct s0; [discriminate|]. destruct (r_read (fst f) x); [|discriminate]. injection E as <-. reflexivity.
    - destruct (set_field_alias k x rs ss) as [ss'|] eqn:E'; [|discriminate]. injection E as <-. cbn. f_equal. exact (IH _ _ E').
  Qed.

  Section Twice.
    Context (rs : list rd) (i : nat) (g : rd) (Gi : nth_error rs i = Some g).
    Context (Un : forall k, called k g = true -> forall j h, j < i -> nth_error rs j = Some h -> called k h = false).

    Definition names_it (p : list piece * raw) : Prop := exists k, string_of (fst p) = Some k /\ called k g = true.

    Lemma filled l : forall slots y, nth_error slots i = Some (Some y) -> Exists names_it l -> set_fields_alias deny l rs slots = None.
    Proof.
      induction l as [|[p x] l IH]; intros slots y N E; [inversion E|]. cbn [set_fields_alias]. destruct (string_of p) as [k|] eqn:K; [|reflexivity].
      destruct (deny && _); [reflexivity|]. destruct (set_field_alias k x rs slots) as [slots'|] eqn:S; [|reflexivity].
      inversion E as [? ? (k0 & K0 & C)|]; subst.
      - cbn [fst] in K0. rewrite K in K0. injection K0 as <-. pose proof (hit k x g rs slots i (Some y) Gi N C (Un k C)) as H. rewrite S in H. destruct H as [H _]. discriminate H.
      - apply (IH slots' y); [|assumption]. exact (keep k x rs slots i y slots' S N).
    Qed.

    Lemma set_twice a p b : forall slots, List.length slots = List.length rs -> names_it p -> Exists names_it b ->
      set_fields_alias deny (a ++ p :: b) rs slots = None.
    Proof.
      induction a as [|[q x] a IH]; intros slots L P E.
      - destruct p as [p x], P as (k & K & C). cbn [app set_fields_alias fst] in *. rewrite K. destruct (deny && _); [reflexivity|].
        assert (exists s, nth_error slots i = Some s) as [s S].
        { destruct (nth_error slots i) as [s|] eqn:S; [eauto|]. apply nth_error_None in S. assert (i < List.length rs) by (apply nth_error_Some; congruence). lia. }
        pose proof (hit k x g rs slots i s Gi S C (Un k C)) as H. destruct (set_field_alias k x rs slots) as [slots'|]; [|reflexivity].
        destruct H as [_ [y H]]. exact (filled b slots' y H E).
      - cbn [app set_fields_alias]. destruct (string_of q) as [k|]; [|reflexivity]. destruct (deny && _); [reflexivity|].
        destruct (set_field_alias k x rs slots) as [slots'|] eqn:S; [|reflexivity]. apply IH; [|exact P|exact E]. rewrite (set_length _ _ _ _ _ S). exact L.
    Qed.
  End Twice.

  Lemma Forall2_split {A B} (R : A -> B -> Prop) a x b : forall l, Forall2 R (a ++ x :: b) l ->
    exists a' x' b', l = a' ++ x' :: b' /\ R x x' /\ Forall2 R b b'.
  Proof.
    induction a as [|y a IH]; intros l H; inversion H as [|? z ? ? Rz H']; subst.
    - exists [], z, l'. auto.
    - destruct (IH _ H') as (a' & x' & b' & -> & K). exists (z :: a'), x', b'. split; [reflexivity|exact K].
  Qed.

  Lemma alias_twice_json f n x n' x' l1 l2 l3 b : In f fs -> jname_of f n -> jname_of f n' ->
    json_text (JObj (l1 ++ (n, x) :: l2 ++ (n', x') :: l3)) b -> from_slice_alias deny fs b = None.
  Proof.
    intros I N N' T. destruct (from_alias_text _ _ T) as (r & SH & ->). inversion SH as [| | | | |? rs SL]; subst.
    unfold read_alias. destruct (enter max_depth) as [d|]; [|reflexivity]. cbv zeta.
    apply Forall2_split in SL as (a & p & b1 & -> & [K _] & SL). apply Forall2_split in SL as (a2 & p2 & b2 & -> & [K2 _] & _).
    apply In_nth_error in I as [i I].
    rewrite (set_twice _ i _ (map_nth_error _ i fs I)); [reflexivity| | | |].
    - intros k C j h L E. rewrite nth_error_map in E. destruct (nth_error fs j) as [f'|] eqn:E'; [|discriminate]. injection E as <-.
      apply called_name in C. apply Bool.not_true_is_false. intros C'. apply called_name in C'.
      assert (f' = f) by (apply (proj2 Df) with k; [eapply nth_error_In; exact E'|eapply nth_error_In; exact I|exact C'|exact C]). subst f'.
      assert (j = i); [|lia]. assert (Nd : NoDup fs) by (eapply NoDup_map_inv; exact (proj1 Df)).
      apply (proj1 (NoDup_nth_error fs) Nd); [apply nth_error_Some; congruence|congruence].
    - rewrite !map_length. reflexivity.
    - exists n. split; [exact K|]. apply called_name. exact N.
    - apply Exists_exists. exists p2. split; [apply in_app_iff; right; left; reflexivity|]. exists n'. split; [exact K2|]. apply called_name. exact N'.
  Qed.

  (** ** Handlers *)

  Lemma json_alias_one {X} msg (c : context X) : broken (rq_body (ctx_request c)) = false -> one_chunk (rq_body (ctx_request c)) ->
    fst (ctx_read_json_alias fl fi zf msg deny fs c) =
    match from_slice_alias deny fs (body_bytes (rq_body (ctx_request c))) with
    | Some v => inl v
    | None => inr (EJson (msg (body_bytes (rq_body (ctx_request c)))))
    end.
  Proof.
    intros B O. unfold ctx_read_json_alias, ctx_json. rewrite one_chunk_read by assumption.
    destruct (from_slice_alias deny fs (body_bytes (rq_body (ctx_request c)))); reflexivity.
  Qed.

  Lemma json_alias_api {X Y} msg (c : context X) (c' : context Y) l l' :
    broken (rq_body (ctx_request c)) = false -> one_chunk (rq_body (ctx_request c)) ->
    broken (rq_body (ctx_request c')) = false -> one_chunk (rq_body (ctx_request c')) ->
    json_text (JObj l) (body_bytes (rq_body (ctx_request c))) -> json_text (JObj l') (body_bytes (rq_body (ctx_request c'))) ->
    Forall2 (jrenamed fs) l l' -> forall v,
    fst (ctx_read_json_alias fl fi zf msg deny fs c) = inl v <-> fst (ctx_read_json fl fi zf msg (without_aliases deny fs) c') = inl v.
  Proof.
    intros B O B' O' T T' R v. rewrite json_alias_one, json_one, (alias_renamed l l' _ _ T T' R) by assumption.
    destruct (from_slice _ _); split; intros H; inversion H; reflexivity.
  Qed.

  Lemma json_alias_twice {X} msg (c : context X) f n x n' x' l1 l2 l3 :
    broken (rq_body (ctx_request c)) = false -> one_chunk (rq_body (ctx_request c)) ->
    In f fs -> jname_of f n -> jname_of f n' ->
    json_text (JObj (l1 ++ (n, x) :: l2 ++ (n', x') :: l3)) (body_bytes (rq_body (ctx_request c))) ->
    fst (ctx_read_json_alias fl fi zf msg deny fs c) = inr (EJson (msg (body_bytes (rq_body (ctx_request c))))).
  Proof. intros B O I N N' T. rewrite json_alias_one, (alias_twice_json f n x n' x' l1 l2 l3 _ I N N' T) by assumption. reflexivity. Qed.

  Lemma json_alias_array {X} msg (c : context X) j :
    broken (rq_body (ctx_request c)) = false -> one_chunk (rq_body (ctx_request c)) ->
    json_text j (body_bytes (rq_body (ctx_request c))) -> (forall l, j <> JObj l) ->
    fst (ctx_read_json_alias fl fi zf msg deny fs c) = fst (ctx_read_json fl fi zf msg (without_aliases deny fs) c).
  Proof. intros B O T N. rewrite json_alias_one, json_one, (alias_array j _ T N) by assumption. reflexivity. Qed.
End JsonAlias.
