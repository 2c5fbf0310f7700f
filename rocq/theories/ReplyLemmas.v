(** Proofs about handlers that write a reply. *)

From Coq Require Import String Lia.
From Verif Require Import Base BaseFacts Utf8 RouteTrie Router TableSpec PropSpec Http App AppSpec.
From Verif Require Import AppLemmas AppLemmas2 AppLemmas4 ReplySpec.
Local Open Scope string_scope.
Local Open Scope list_scope.

(** ** JSON arrays are unique *)

Lemma digits_snoc (s : str) (c : char) : digits_value (s ++ [c]) = (10 * digits_value s + (c - 48))%N.
Proof. unfold digits_value. rewrite fold_left_app. reflexivity. Qed.

Lemma digits_pos (s : str) (c : char) : (49 <= c)%N -> (0 < digits_value (c :: s))%N.
Proof.
  intros P. induction s as [|x s IH] using rev_ind.
  - unfold digits_value. cbn [fold_left]. lia.
  - change (c :: s ++ [x]) with ((c :: s) ++ [x]). rewrite digits_snoc. lia.
Qed.

Definition canonical (s : str) : Prop := (forall c, In c s -> (48 <= c <= 57)%N) /\ forall r, s <> 48%N :: r.

Lemma canonical_zero s : canonical s -> digits_value s = 0%N -> s = [].
Proof.
  intros [D Z] E. destruct s as [|c s]; [reflexivity|]. exfalso.
  destruct (N.eq_dec c 48) as [->|NE]; [exact (Z s eq_refl)|].
  pose proof (D c (or_introl eq_refl)) as R. pose proof (digits_pos s c ltac:(unfold char in *; lia)) as P. rewrite E in P. destruct (N.lt_irrefl _ P).
Qed.

Lemma canonical_init (s : str) (c : char) : canonical (s ++ [c]) -> canonical s.
Proof.
  intros [D Z]. split; [intros x I; apply D, in_or_app; auto|].
  intros r ->. exact (Z (r ++ [c]) eq_refl).
Qed.

Lemma canonical_unique s1 : forall s2, canonical s1 -> canonical s2 -> digits_value s1 = digits_value s2 -> s1 = s2.
Proof.
  induction s1 as [|c1 s1 IH] using rev_ind; intros s2 C1 C2 E.
  - symmetry. apply canonical_zero; [exact C2|]. rewrite <- E. reflexivity.
  - destruct s2 as [|c2 s2 _] using rev_ind; [apply canonical_zero; [exact C1|exact E]|].
    rewrite !digits_snoc in E.
    pose proof (proj1 C1 c1 ltac:(apply in_or_app; right; left; reflexivity)).
    pose proof (proj1 C2 c2 ltac:(apply in_or_app; right; left; reflexivity)).
    assert (c1 = c2) by lia. subst c2. f_equal.
    apply IH; [exact (canonical_init _ _ C1)|exact (canonical_init _ _ C2)|lia].
Qed.

Lemma numeral_cases s n : numeral s n -> (s = [48%N] /\ n = 0%N) \/ (canonical s /\ s <> []).
Proof.
  intros (NE & D & Z & V). destruct s as [|c s]; [destruct (NE eq_refl)|].
  destruct (N.eq_dec c 48) as [->|N48].
  - rewrite (Z s eq_refl) in *. left. split; [reflexivity|]. rewrite <- V. reflexivity.
  - right. split; [|discriminate]. split; [exact D|]. intros r F. injection F as F _. auto.
Qed.

Lemma numeral_unique s1 s2 n : numeral s1 n -> numeral s2 n -> s1 = s2.
Proof.
  intros N1 N2. destruct (numeral_cases _ _ N1) as [[-> E1]|[C1 NE1]]; destruct (numeral_cases _ _ N2) as [[-> E2]|[C2 NE2]].
  - reflexivity.
  - subst n. destruct (NE2 (canonical_zero _ C2 (proj2 (proj2 (proj2 N2))))).
  - subst n. destruct (NE1 (canonical_zero _ C1 (proj2 (proj2 (proj2 N1))))).
  - apply canonical_unique; [exact C1|exact C2|]. rewrite (proj2 (proj2 (proj2 N1))). symmetry. apply N2.
Qed.

Lemma json_array_unique v t1 t2 : json_array v t1 -> json_array v t2 -> t1 = t2.
Proof.
  intros (i1 & F1 & ->) (i2 & F2 & ->). assert (E : i1 = i2); [|rewrite E; reflexivity].
  revert i2 F2. induction F1 as [|a n i1 v N1 F1 IH]; intros i2 F2; inversion F2; subst; [reflexivity|].
  f_equal; [eapply numeral_unique; eassumption|]. apply IH. assumption.
Qed.

(** ** What responses look like *)

Definition look_of (r : response) : look := Look (res_status r) (body_bytes (res_body r)) (header_list r).
Definition sound (r : response) : Prop := broken (res_body r) = false.

Lemma body_is_iff b x : body_is b x <-> x = body_bytes (into_body b).
Proof.
  assert (E : forall s, body_bytes (body_from s) = s).
  { intros [|c s]; [reflexivity|]. unfold body_bytes. cbn. rewrite app_nil_r. reflexivity. }
  destruct b as [|s|s|v]; cbn [into_body].
  - split; [inversion 1; reflexivity|intros ->; constructor].
  - rewrite E. split; [inversion 1; reflexivity|intros ->; constructor].
  - rewrite E. split; [inversion 1; reflexivity|intros ->; constructor].
  - rewrite E. split.
    + inversion 1; subst. f_equal. eapply json_array_unique; [eassumption|apply json_of_bytes_array].
    + intros ->. constructor. apply json_of_bytes_array.
Qed.

Lemma body_sound b : broken (into_body b) = false.
Proof. assert (E : forall s, broken (body_from s) = false) by (intros [|c s]; reflexivity). destruct b; cbn [into_body]; auto. Qed.

Lemma look_of_body b : body_bytes (into_body (BString b)) = utf8 b.
Proof. symmetry. apply body_is_iff. constructor. Qed.

Lemma look_status s r : look_of (set_status s r) = Look s (lk_body (look_of r)) (lk_headers (look_of r)).
Proof. reflexivity. Qed.
Lemma look_body b r : look_of (set_body b r) = Look (res_status r) (body_bytes (into_body b)) (header_list r).
Proof. reflexivity. Qed.
Lemma look_header k v r : look_of (set_header k v r) = Look (res_status r) (body_bytes (res_body r)) (header_list r ++ [(k, v)]).
Proof. unfold look_of, header_list, set_header. cbn. destruct (res_headers r); reflexivity. Qed.
Lemma look_headers l r : look_of (set_headers l r) = Look (res_status r) (body_bytes (res_body r)) (header_list r ++ l).
Proof. unfold look_of, header_list, set_headers. cbn. destruct (res_headers r); reflexivity. Qed.

Section Reply.
  Context {X U A : Type} (parse_name : str -> option hname).
  Notation headers_of := (headers_of parse_name).
  Notation first_is := (first_is parse_name).
  Notation call_is := (@call_is U A parse_name).
  Notation calls_are := (@calls_are U A parse_name).
  Notation start_is := (@start_is U A parse_name).
  Notation bad := (fun n => parse_name n = None).

  Lemma parse_names_some l : forall hs, parse_names parse_name l = Some hs <-> headers_of l hs.
  Proof.
    induction l as [|[k v] l IH]; intros hs; cbn [parse_names].
    - split; [intros E; injection E as <-; constructor|inversion 1; reflexivity].
    - destruct (parse_name k) as [n|] eqn:K.
      + destruct (parse_names parse_name l) as [l'|] eqn:L.
        * split.
          -- intros E. injection E as <-. constructor; [split; [exact K|reflexivity]|apply IH; reflexivity].
          -- inversion 1 as [|? [n' v'] ? ? [E1 E2] F]; subst. cbn in E1, E2. apply IH in F. congruence.
        * split; [discriminate|]. inversion 1 as [|? ? ? ? _ F]; subst. apply IH in F. discriminate F.
      + split; [discriminate|]. inversion 1 as [|? ? ? ? [E _] _]; subst. cbn in E. congruence.
  Qed.

  Lemma parse_names_none l : parse_names parse_name l = None -> exists n, In n (map fst l) /\ bad n.
  Proof.
    induction l as [|[k v] l IH]; cbn [parse_names]; [discriminate|]. intros E.
    destruct (parse_name k) as [n|] eqn:K; [|exists k; split; [left; reflexivity|exact K]].
    destruct (parse_names parse_name l); [discriminate|]. destruct (IH eq_refl) as (m & I & B).
    exists m. split; [right; exact I|exact B].
  Qed.

  Lemma headers_good l hs : headers_of l hs -> forall n, In n (map fst l) -> parse_name n <> None.
  Proof.
    intros F. induction F as [|[k v] h l hs [E _] F IH]; intros n I; [destruct I|].
    destruct I as [<-|I]; [cbn in E |- *; rewrite E; discriminate|exact (IH n I)].
  Qed.

  (** The calls: values, and back; panics. *)
  Lemma first_value s tr r : runs (U:=U) (A:=A) (first parse_name s) tr (Value r) -> tr = [] /\ first_is s (look_of r) /\ sound r.
  Proof.
    assert (B : forall b, body_is b (body_bytes (into_body b))) by (intros; apply body_is_iff; reflexivity).
    destruct s; cbn [first]; intros R;
      try (apply runs_ret in R as [-> E]; injection E as ->; split; [reflexivity|]; split;
           [first [apply fi_ok|apply fi_created|apply fi_internal|apply fi_new; apply B|apply fi_status; apply B|
              apply fi_header; apply B|apply fi_headers; apply B]|first [reflexivity|apply body_sound]]).
    unfold rb_with_headers_str, set_headers_str in R. destruct (parse_names parse_name l) as [hs|] eqn:P; cbn [or_crash] in R.
    - apply runs_ret in R as [-> E]. injection E as ->. split; [reflexivity|]. split; [|apply body_sound].
      apply fi_headers_str; [apply B|]. apply parse_names_some. exact P.
    - apply runs_crash in R as [_ E]. discriminate E.
  Qed.

  Lemma first_run s a : first_is s a -> exists r, runs (U:=U) (A:=A) (first parse_name s) [] (Value r) /\ look_of r = a /\ sound r.
  Proof.
    intros F. destruct F; try match goal with B : body_is _ _ |- _ => apply body_is_iff in B; subst end;
      cbn [first]; try (eexists; split; [apply run_ret|]; split; [reflexivity|first [reflexivity|apply body_sound]]).
    apply parse_names_some in H0. unfold rb_with_headers_str, set_headers_str. rewrite H0. cbn [or_crash].
    eexists; split; [apply run_ret|]; split; [reflexivity|apply body_sound].
  Qed.

  Lemma first_panic s tr p : runs (U:=U) (A:=A) (first parse_name s) tr (Panicked p) ->
    p = PUnwrapNone /\ tr = [] /\ exists b l n, s = SHeadersStr b l /\ In n (map fst l) /\ bad n.
  Proof.
    destruct s; cbn [first]; intros R; try (apply runs_ret in R as [_ E]; discriminate E).
    unfold rb_with_headers_str, set_headers_str in R. destruct (parse_names parse_name l) as [hs|] eqn:P; cbn [or_crash] in R.
    - apply runs_ret in R as [_ E]. discriminate E.
    - apply runs_crash in R as [-> E]. injection E as ->. destruct (parse_names_none _ P) as (n & I & B). eauto 8.
  Qed.

  Lemma call_value r k tr r' : sound r -> runs (rcall_run parse_name r k) tr (Value r') ->
    call_is tr k (look_of r) (look_of r') /\ sound r'.
  Proof.
    assert (B : forall b, body_is b (body_bytes (into_body b))) by (intros; apply body_is_iff; reflexivity).
    intros S. destruct k; cbn [rcall_run]; intros R.
    - apply runs_ret in R as [-> E]. injection E as ->. split; [apply ci_status|exact S].
    - apply runs_ret in R as [-> E]. injection E as ->. split; [apply ci_body, B|apply body_sound].
    - apply runs_ret in R as [-> E]. injection E as ->. rewrite look_header. split; [apply ci_header|exact S].
    - unfold set_header_str in R. destruct (parse_name k) as [n|] eqn:P; cbn [or_crash] in R.
      + apply runs_ret in R as [-> E]. injection E as ->. rewrite look_header. split; [apply ci_header_str, P|exact S].
      + apply runs_crash in R as [_ E]. discriminate E.
    - apply runs_ret in R as [-> E]. injection E as ->. unfold set_content_type. rewrite look_header. split; [apply ci_type|exact S].
    - apply runs_ret in R as [-> E]. injection E as ->. rewrite look_headers. split; [apply ci_headers|exact S].
    - unfold set_headers_str in R. destruct (parse_names parse_name l) as [hs|] eqn:P; cbn [or_crash] in R.
      + apply runs_ret in R as [-> E]. injection E as ->. rewrite look_headers. apply parse_names_some in P.
        split; [apply ci_headers_str, P|exact S].
      + apply runs_crash in R as [_ E]. discriminate E.
    - apply runs_ret in R as [-> E]. injection E as ->. unfold html, set_content_type. rewrite look_body.
      pose proof (f_equal lk_headers (look_header content_type (lit "text/html") r)) as L. cbn [lk_headers look_of] in L. rewrite L.
      split; [apply (ci_html _ _ _ _ _ _ (B b))|apply body_sound].
    - apply runs_ret in R as [-> E]. injection E as ->. unfold json, set_content_type.
      pose proof (f_equal lk_headers (look_header content_type (lit "application/json") r)) as L. cbn [lk_headers look_of] in L.
      destruct ser as [t|e].
      + rewrite look_body, L, look_of_body. split; [apply ci_json|apply body_sound].
      + rewrite look_status, look_body. cbn [lk_body lk_headers]. rewrite L, look_of_body. split; [apply ci_json_error|apply body_sound].
    - unfold file in R. apply runs_read in R as ([t|e] & t' & -> & R).
      + apply runs_ret in R as [-> E]. injection E as ->. rewrite look_body, look_of_body. split; [apply ci_file|apply body_sound].
      + apply runs_print in R as (t'' & -> & R). apply runs_ret in R as [-> E]. injection E as ->.
        rewrite look_status, look_body. cbn [lk_body lk_headers]. rewrite look_of_body. split; [apply ci_file_error|apply body_sound].
  Qed.

  Lemma call_run k tr a b : call_is tr k a b -> forall r, sound r -> look_of r = a ->
    exists r', runs (rcall_run parse_name r k) tr (Value r') /\ look_of r' = b /\ sound r'.
  Proof.
    intros C r S E. unfold look_of in E.
    destruct C; injection E as <- <- <-; try match goal with B : body_is _ _ |- _ => apply body_is_iff in B; subst end;
      cbn [rcall_run].
    - eexists; split; [apply run_ret|]. split; [reflexivity|exact S].
    - eexists; split; [apply run_ret|]. split; [reflexivity|apply body_sound].
    - eexists; split; [apply run_ret|]. split; [apply look_header|exact S].
    - unfold set_header_str. rewrite H. eexists; split; [apply run_ret|]. split; [apply look_header|exact S].
    - eexists; split; [apply run_ret|]. split; [apply look_header|exact S].
    - eexists; split; [apply run_ret|]. split; [apply look_headers|exact S].
    - unfold set_headers_str. apply parse_names_some in H. rewrite H. eexists; split; [apply run_ret|]. split; [apply look_headers|exact S].
    - eexists; split; [apply run_ret|]. split; [|apply body_sound]. unfold html, set_content_type. rewrite look_body.
      pose proof (f_equal lk_headers (look_header content_type (lit "text/html") r)) as L. cbn [lk_headers look_of] in L. rewrite L. reflexivity.
    - eexists; split; [apply run_ret|]. split; [|apply body_sound]. unfold json, set_content_type. rewrite look_body.
      pose proof (f_equal lk_headers (look_header content_type (lit "application/json") r)) as L. cbn [lk_headers look_of] in L.
      rewrite L, look_of_body. reflexivity.
    - eexists; split; [apply run_ret|]. split; [|apply body_sound]. unfold json, set_content_type. rewrite look_status, look_body.
      pose proof (f_equal lk_headers (look_header content_type (lit "application/json") r)) as L. cbn [lk_headers lk_body look_of] in *.
      rewrite L, look_of_body. reflexivity.
    - eexists; split; [apply run_read; cbn; apply run_ret|]. split; [|apply body_sound].
      rewrite look_body, look_of_body. reflexivity.
    - eexists; split; [apply run_read; cbn; apply run_print, run_ret|]. split; [|apply body_sound].
      rewrite look_status, look_body. cbn [lk_body lk_headers]. rewrite look_of_body. reflexivity.
  Qed.

  Lemma call_panic r k tr p : runs (U:=U) (A:=A) (rcall_run parse_name r k) tr (Panicked p) ->
    p = PUnwrapNone /\ tr = [] /\ exists n, In n (rnames k) /\ bad n.
  Proof.
    destruct k; cbn [rcall_run]; intros R; try (apply runs_ret in R as [_ E]; discriminate E).
    - unfold set_header_str in R. destruct (parse_name k) as [n|] eqn:P; cbn [or_crash] in R.
      + apply runs_ret in R as [_ E]. discriminate E.
      + apply runs_crash in R as [-> E]. injection E as ->. split; [reflexivity|]. split; [reflexivity|].
        exists k. split; [left; reflexivity|exact P].
    - unfold set_headers_str in R. destruct (parse_names parse_name l) as [hs|] eqn:P; cbn [or_crash] in R.
      + apply runs_ret in R as [_ E]. discriminate E.
      + apply runs_crash in R as [-> E]. injection E as ->. split; [reflexivity|]. split; [reflexivity|]. apply parse_names_none. exact P.
    - unfold file in R. apply runs_read in R as ([t|e] & t' & -> & R).
      + apply runs_ret in R as [_ E]. discriminate E.
      + apply runs_print in R as (t'' & -> & R). apply runs_ret in R as [_ E]. discriminate E.
  Qed.

  Lemma call_good k tr a b : call_is tr k a b -> forall n, In n (rnames k) -> parse_name n <> None.
  Proof.
    intros C. destruct C; cbn [rnames]; intros m I; try destruct I.
    - subst. congruence.
    - destruct H0.
    - eapply headers_good; eassumption.
  Qed.

  Lemma call_events k tr a b : call_is tr k a b -> unlogged tr = tr.
  Proof. intros C. destruct C; reflexivity. Qed.

  Lemma calls_value l : forall r tr r', sound r -> runs (rcalls parse_name r l) tr (Value r') ->
    calls_are tr l (look_of r) (look_of r') /\ sound r'.
  Proof.
    induction l as [|k l IH]; intros r tr r' S R; cbn [rcalls] in R.
    - apply runs_ret in R as [-> E]. injection E as ->. split; [constructor|exact S].
    - apply bind_value in R as (t1 & t2 & r1 & -> & R1 & R2). destruct (call_value _ _ _ _ S R1) as [C S1].
      destruct (IH _ _ _ S1 R2) as [C2 S2]. split; [econstructor; eassumption|exact S2].
  Qed.

  Lemma calls_run l : forall tr a b, calls_are tr l a b -> forall r, sound r -> look_of r = a ->
    exists r', runs (rcalls parse_name r l) tr (Value r') /\ look_of r' = b /\ sound r'.
  Proof.
    intros tr a b C. induction C as [a|tr k a b tr' l c C1 C2 IH]; intros r S E; cbn [rcalls].
    - exists r. split; [constructor|auto].
    - destruct (call_run _ _ _ _ C1 r S E) as (r1 & R1 & E1 & S1). destruct (IH r1 S1 E1) as (r2 & R2 & E2 & S2).
      exists r2. split; [|auto]. apply bind_value. eauto 8.
  Qed.

  Lemma calls_panic l : forall r tr p, sound r -> runs (U:=U) (A:=A) (rcalls parse_name r l) tr (Panicked p) ->
    p = PUnwrapNone /\ unlogged tr = tr /\ exists n, In n (flat_map rnames l) /\ bad n.
  Proof.
    induction l as [|k l IH]; intros r tr p S R; cbn [rcalls] in R.
    - apply runs_ret in R as [_ E]. discriminate E.
    - apply runs_bind in R as [(t1 & t2 & r1 & -> & R1 & R2)|(q & E & R)].
      + destruct (call_value _ _ _ _ S R1) as [C S1]. destruct (IH _ _ _ S1 R2) as (-> & E & n & I & B).
        split; [reflexivity|]. split; [rewrite unlogged_app, E, (call_events _ _ _ _ C); reflexivity|].
        exists n. split; [apply in_or_app; right; exact I|exact B].
      + injection E as <-. destruct (call_panic _ _ _ _ R) as (-> & -> & n & I & B). split; [reflexivity|]. split; [reflexivity|].
        exists n. split; [apply in_or_app; left; exact I|exact B].
  Qed.

  Lemma calls_good l tr a b : calls_are tr l a b -> forall n, In n (flat_map rnames l) -> parse_name n <> None.
  Proof.
    intros C. induction C as [a|tr k a b tr' l c C1 C2 IH]; intros n I; [destruct I|].
    cbn [flat_map] in I. apply in_app_or in I as [I|I]; [exact (call_good _ _ _ _ C1 n I)|exact (IH n I)].
  Qed.

  Lemma calls_events l tr a b : calls_are tr l a b -> unlogged tr = tr.
  Proof.
    intros C. induction C as [|tr k a b tr' l c C1 C2 IH]; [reflexivity|].
    rewrite unlogged_app, IH, (call_events _ _ _ _ C1). reflexivity.
  Qed.
End Reply.
