(** Proofs about request lines. *)

From Coq Require Import String Lia Bool.
From Verif Require Import Base BaseFacts Utf8 RouteTrie Router TableSpec PropSpec Http App Form AppSpec FormSpec UserSpec Wire WireSpec.
From Verif Require Import FormLemmas FormLemmas4 FormLemmas5 FormLemmas6 UrlEncoded UrlSpec UrlLemmas UrlFacts.
Local Open Scope list_scope.

(** ** Characters *)

Definition small : list N := map N.of_nat (seq 0 128).

Lemma in_small b : (b < 128)%N <-> In b small.
Proof.
  unfold small. rewrite in_map_iff. split.
  - intros L. exists (N.to_nat b). split; [apply N2Nat.id|]. apply in_seq. lia.
  - intros (n & <- & I). apply in_seq in I. lia.
Qed.

Lemma path_byte_spec (b : char) : path_byte b = true <-> path_char b.
Proof.
  unfold path_char. match goal with |- context [In b ?l] => set (L := l) end. rewrite <- contains_In.
  destruct (N.lt_ge_cases b 128) as [S|S].
  - assert (F : forallb (fun b => Bool.eqb (path_byte b) (contains b L || N.eqb b 34)) small = true) by (vm_compute; reflexivity).
    rewrite forallb_forall in F. specialize (F b (proj1 (in_small b) S)). apply eqb_prop in F. rewrite F, orb_true_iff, N.eqb_eq.
    reflexivity.
  - split; intros K; exfalso.
    + unfold path_byte in K. repeat rewrite ?orb_true_iff, ?andb_true_iff, ?N.eqb_eq, ?N.leb_le in K. unfold char in *. lia.
    + destruct K as [K|K]; [|unfold char in *; lia]. rewrite contains_In in K.
      assert (F : forallb (fun b => N.ltb b 128) L = true) by (vm_compute; reflexivity).
      rewrite forallb_forall in F. apply F in K. apply N.ltb_lt in K. unfold char in *. lia.
Qed.

Lemma query_byte_spec (b : char) : query_byte b = true <-> query_char b.
Proof.
  unfold query_byte, query_char. repeat rewrite ?orb_true_iff, ?andb_true_iff, ?N.eqb_eq, ?N.leb_le.
  assert (E : In b (lit "#<>") <-> (b = 35 \/ b = 60 \/ b = 62)%N).
  { cbn. intuition congruence. }
  rewrite E. unfold char in *. lia.
Qed.

(** ** Targets *)

Lemma hash_no_path : ~ path_char 35%N.
Proof. rewrite <- path_byte_spec. discriminate. Qed.
Lemma mark_no_path : ~ path_char 63%N.
Proof. rewrite <- path_byte_spec. discriminate. Qed.

Lemma scan_path_spec (s : str) : forall p q, scan_path s = Some (p, q) <->
  Forall path_char p /\ match q with None => exists f, fragment f /\ s = p ++ f | Some r => s = p ++ 63%N :: r end.
Proof.
  induction s as [|b s IH]; intros p q; cbn [scan_path].
  - split.
    + intros E. injection E as <- <-. split; [constructor|]. exists []. split; [left; reflexivity|reflexivity].
    + intros [F K]. destruct q as [r|].
      * destruct p; discriminate K.
      * destruct K as (f & _ & E). destruct p, f; try discriminate E. reflexivity.
  - destruct (N.eqb_spec b 63) as [->|N63].
    { split.
      - intros E. injection E as <- <-. split; [constructor|reflexivity].
      - intros [F K]. destruct p as [|c p].
        + destruct q as [r|]; [injection K as <-; reflexivity|]. destruct K as (f & [->|[g ->]] & E); discriminate E.
        + inversion F as [|c0 p0 C F0]; subst. exfalso. destruct q as [r|].
          * injection K as <- _. exact (mark_no_path C).
          * destruct K as (f & _ & E). injection E as <- _. exact (mark_no_path C). }
    destruct (N.eqb_spec b 35) as [->|N35].
    { split.
      - intros E. injection E as <- <-. split; [constructor|]. exists (35%N :: s). split; [right; eauto|reflexivity].
      - intros [F K]. destruct p as [|c p].
        + destruct q as [r|]; [discriminate K|]. reflexivity.
        + inversion F as [|c0 p0 C F0]; subst. exfalso. destruct q as [r|].
          * injection K as <- _. exact (hash_no_path C).
          * destruct K as (f & _ & E). injection E as <- _. exact (hash_no_path C). }
    assert (HD : forall p' : str, (match q with None => exists f, fragment f /\ b :: s = p' ++ f | Some r => b :: s = p' ++ 63%N :: r end) ->
      exists c p0, p' = c :: p0 /\ c = b /\ (match q with None => exists f, fragment f /\ s = p0 ++ f | Some r => s = p0 ++ 63%N :: r end)).
    { intros [|c p'] K.
      - exfalso. destruct q as [r|]; [injection K as K _; exact (N63 K)|].
        destruct K as (f & [->|[g ->]] & E); [discriminate E|]. injection E as E _. exact (N35 E).
      - exists c, p'. split; [reflexivity|]. destruct q as [r|].
        + injection K as -> K. auto.
        + destruct K as (f & Fr & E). injection E as -> E. eauto. }
    destruct (path_byte b) eqn:PB.
    + apply path_byte_spec in PB. split.
      * destruct (scan_path s) as [[p0 q0]|] eqn:E0; [|discriminate]. intros E. injection E as <- <-.
        destruct (proj1 (IH p0 q0) eq_refl) as [F K]. split; [constructor; assumption|]. destruct q0 as [r|].
        -- rewrite K. reflexivity.
        -- destruct K as (f & Fr & ->). exists f. auto.
      * intros [F K]. destruct (HD p K) as (c & p0 & -> & -> & K'). inversion F as [|c0 p1 C F0]; subst.
        rewrite (proj2 (IH p0 q) (conj F0 K')). reflexivity.
    + split; [discriminate|]. intros [F K]. destruct (HD p K) as (c & p0 & -> & -> & K'). inversion F as [|c0 p1 C F0]; subst.
      apply path_byte_spec in C. congruence.
Qed.

Lemma hash_no_query : ~ query_char 35%N.
Proof. rewrite <- query_byte_spec. discriminate. Qed.

Lemma scan_query_spec (s : str) : forall q, scan_query s = Some q <->
  Forall query_char q /\ exists f, fragment f /\ s = q ++ f.
Proof.
  induction s as [|b s IH]; intros q; cbn [scan_query].
  - split.
    + intros E. injection E as <-. split; [constructor|]. exists []. split; [left; reflexivity|reflexivity].
    + intros (F & f & _ & E). destruct q, f; try discriminate E. reflexivity.
  - destruct (query_byte b) eqn:QB.
    + apply query_byte_spec in QB. split.
      * destruct (scan_query s) as [q0|]; [|discriminate]. intros E. injection E as <-.
        destruct (proj1 (IH q0) eq_refl) as (F & f & Fr & ->). split; [constructor; assumption|]. exists f. auto.
      * intros (F & f & Fr & E). destruct q as [|c q].
        -- exfalso. destruct Fr as [->|[g ->]]; [discriminate E|]. injection E as -> _. exact (hash_no_query QB).
        -- injection E as -> E. inversion F as [|c0 q0 C F0]; subst c0 q0.
           rewrite (proj2 (IH q)); [reflexivity|]. split; [exact F0|]. exists f. auto.
    + destruct (N.eqb_spec b 35) as [->|N35].
      * split.
        -- intros E. injection E as <-. split; [constructor|]. exists (35%N :: s). split; [right; eauto|reflexivity].
        -- intros (F & f & Fr & E). destruct q as [|c q]; [reflexivity|]. injection E as <- _. inversion F as [|c0 q0 C F0]; subst.
           exfalso. exact (hash_no_query C).
      * split; [discriminate|]. intros (F & f & Fr & E). exfalso. destruct q as [|c q].
        -- destruct Fr as [->|[g ->]]; [discriminate E|]. injection E as E _. exact (N35 E).
        -- injection E as <- _. inversion F as [|c0 q0 C F0]; subst. apply query_byte_spec in C. congruence.
Qed.

Lemma path_and_query_spec (s : str) p q : (exists r, s = c_slash :: r) -> path_and_query s = Some (p, q) <-> target_is s p q.
Proof.
  intros [r0 Es]. unfold path_and_query, target_is.
  assert (HD : forall p' x, s = p' ++ x -> (fragment x \/ exists y, x = 63%N :: y) -> exists r, p' = c_slash :: r).
  { intros [|c p'] x E [[->|[f ->]]|[y ->]]; rewrite Es in E; try discriminate E; injection E as <- _; eauto. }
  split.
  - destruct (scan_path s) as [[p0 q0]|] eqn:E0; [|discriminate]. apply scan_path_spec in E0 as [F K].
    assert (Np : exists r, p0 = c_slash :: r).
    { destruct q0 as [r|]; [apply (HD p0 (63%N :: r) K); right; eauto|]. destruct K as (f & Fr & K). apply (HD p0 f K). left. exact Fr. }
    assert (Ep : (if is_empty p0 then [c_slash] else p0) = p0) by (destruct Np as [r ->]; reflexivity). rewrite Ep.
    destruct q0 as [r|].
    + destruct (scan_query r) as [q1|] eqn:E1; [|discriminate]. intros E. injection E as <- <-.
      apply scan_query_spec in E1 as (FQ & f & Fr & ->). split; [exact Np|]. split; [exact F|]. exists f. auto.
    + intros E. injection E as <- <-. destruct K as (f & Fr & ->). split; [exact Np|]. split; [exact F|]. exists f. auto.
  - intros (Np & F & f & Fr & K). assert (Ep : (if is_empty p then [c_slash] else p) = p) by (destruct Np as [r ->]; reflexivity).
    destruct q as [q|].
    + destruct K as [FQ K]. rewrite (proj2 (scan_path_spec s p (Some (q ++ f))) (conj F K)).
      rewrite (proj2 (scan_query_spec (q ++ f) q)); [destruct Np as [r ->]; reflexivity|]. split; [exact FQ|]. eauto.
    + rewrite (proj2 (scan_path_spec s p None)); [destruct Np as [r ->]; reflexivity|]. split; [exact F|]. eauto.
Qed.

Lemma short_target (s : str) : (N.of_nat (length s) <= 65534)%N -> (65534 <? N.of_nat (@length N s))%N = false.
Proof. intros L. apply N.ltb_ge. exact L. Qed.

Lemma uri_spec other (s : str) p q : (exists r, s = c_slash :: r) -> (N.of_nat (length s) <= 65534)%N ->
  (uri_of other s = Some (p, q) <-> target_is s p q).
Proof.
  intros Hs L. rewrite <- path_and_query_spec by exact Hs. destruct Hs as [r Es]. unfold uri_of.
  rewrite (short_target s L).
  clear L. subst s. rewrite N.eqb_refl. destruct r; reflexivity.
Qed.

Lemma uri_other other (s : str) p q : (forall r, s <> c_slash :: r) -> (N.of_nat (length s) <= 65534)%N ->
  (uri_of other s = Some (p, q) <->
   s = lit "*" /\ p = lit "*" /\ q = None \/ s <> [] /\ s <> lit "*" /\ other s = Some (p, q)).
Proof.
  intros Ns L. unfold uri_of. apply N.ltb_ge in L. change (@length char s) with (@length N s) in L. rewrite L. clear L.
  destruct s as [|b r]; [split; [discriminate|intros [[E _]|[E _]]; [discriminate E|congruence]]|].
  destruct (N.eqb_spec b c_slash) as [->|]; [exfalso; exact (Ns r eq_refl)|].
  change (lit "*") with [c_star]. destruct (N.eqb_spec b c_star) as [->|Nb]; destruct r as [|x r]; cbn [andb is_empty].
  - split; [intros [= <- <-]; auto|]. intros [(_ & -> & ->)|(_ & N & _)]; [reflexivity|congruence].
  - split; [intros E; right; repeat split; [discriminate|discriminate|exact E]|]. intros [(E & _)|(_ & _ & E)]; [discriminate E|exact E].
  - split; [intros E; right; repeat split; [discriminate|congruence|exact E]|]. intros [(E & _)|(_ & _ & E)]; [congruence|exact E].
  - split; [intros E; right; repeat split; [discriminate|congruence|exact E]|]. intros [(E & _)|(_ & _ & E)]; [congruence|exact E].
Qed.

Lemma uri_long other (s : str) : (65534 < N.of_nat (length s))%N -> uri_of other s = None.
Proof. intros L. unfold uri_of. apply N.ltb_lt in L. change (@length char s) with (@length N s) in L. rewrite L. reflexivity. Qed.

(** ** Methods *)

Local Ltac try_method := match goal with |- context [str_eqb ?s ?l] =>
  let E := fresh "E" in destruct (str_eqb_spec s l) as [E|E]; [subst s; split;
    [intros H; injection H as <-; left; unfold known_methods; cbn -[lit]; auto 20
    |intros [I|(-> & N & _)];
       [unfold known_methods in I; cbn -[lit] in I; repeat (destruct I as [I|I]; [first [discriminate I|injection I as <-; reflexivity]|]); destruct I
       |exfalso; eapply N; unfold known_methods; cbn -[lit]; auto 20]]|] end.

Lemma method_spec (s : str) m : method_of s = Some m <->
  In (s, m) known_methods \/
  (m = EXT s /\ (forall m', ~ In (s, m') known_methods) /\ s <> [] /\ Forall (fun b => token_byte b = true) s).
Proof.
  unfold method_of.
  do 9 try_method.
  assert (NK : forall m', ~ In (s, m') known_methods).
  { intros m' I. unfold known_methods in I. cbn -[lit] in I. repeat (destruct I as [I|I]; [injection I as I _; congruence|]). destruct I. }
  split.
  - match goal with |- (if ?b then _ else _) = _ -> _ => destruct b eqn:K end; [|discriminate]. intros H. injection H as <-.
    apply andb_true_iff in K as [K1 K2]. right. split; [reflexivity|]. split; [exact NK|]. split.
    + intros ->. discriminate K1.
    + apply Forall_forall. apply forallb_forall. exact K2.
  - intros [I|(-> & _ & Ne & F)]; [destruct (NK m I)|]. destruct s as [|c s]; [congruence|].
    pose proof (proj2 (forallb_forall token_byte (c :: s)) (proj1 (Forall_forall _ _) F)) as T. cbn [is_empty negb andb].
    match goal with |- (if ?b then _ else _) = _ => replace b with true by (symmetry; exact T) end. reflexivity.
Qed.

(** ** Queries *)

Lemma utf8_ascii (s : str) : Forall (fun c => (c < 128)%N) s -> utf8 s = s.
Proof.
  induction 1 as [|c s L _ IH]; [reflexivity|]. change (utf8 (c :: s)) with (utf8_char c ++ utf8 s). rewrite IH.
  unfold utf8_char. apply N.ltb_lt in L. rewrite L. reflexivity.
Qed.

Lemma query_ascii (q : str) : Forall query_char q -> utf8 q = q.
Proof. intros F. apply utf8_ascii. eapply Forall_impl; [|exact F]. intros c [L _]. unfold char in *. lia. Qed.

Lemma standard_query_char (b : N) : (b < 256)%N -> Forall query_char (standard_byte b).
Proof.
  intros L. assert (F : forallb (fun b => forallb query_byte (standard_byte b)) (map N.of_nat (seq 0 256)) = true) by (vm_compute; reflexivity).
  rewrite forallb_forall in F.
  assert (I : In b (map N.of_nat (seq 0 256))).
  { apply in_map_iff. exists (N.to_nat b). split; [apply N2Nat.id|]. apply in_seq. lia. }
  apply F in I. rewrite forallb_forall in I. apply Forall_forall. intros c C. apply query_byte_spec. apply I. exact C.
Qed.

Lemma standard_text_chars (s : str) : Forall scalar s -> Forall query_char (standard_text s).
Proof.
  intros Sc. unfold standard_text. apply Forall_forall. intros c C. apply in_flat_map in C as (b & Ib & C).
  eapply Forall_forall; [apply standard_query_char|exact C].
  eapply utf8_bytes; eassumption.
Qed.

Lemma join_amp_chars (l : list bytes) : Forall (Forall query_char) l -> Forall query_char (join_amp l).
Proof.
  assert (A : query_char 38%N) by (apply query_byte_spec; reflexivity).
  induction 1 as [|x l F Fl IH]; [constructor|]. destruct l as [|y l]; [exact F|].
  change (join_amp (x :: y :: l)) with (x ++ 38%N :: join_amp (y :: l)). apply Forall_app. split; [exact F|]. constructor; assumption.
Qed.

Lemma standard_chars ps : (forall p, In p ps -> Forall scalar (fst p) /\ Forall scalar (snd p)) -> Forall query_char (standard ps).
Proof.
  intros Sc. unfold standard. apply join_amp_chars. apply Forall_forall. intros x I. apply in_map_iff in I as (p & <- & I).
  destruct (Sc p I) as [S1 S2]. apply Forall_app. split; [apply standard_text_chars; exact S1|].
  constructor; [apply query_byte_spec; reflexivity|]. apply standard_text_chars; exact S2.
Qed.

Lemma query_arrives (X : Type) other ms m (p q : str) headers b :
  In (ms, m) known_methods -> (exists r, p = c_slash :: r) -> Forall path_char p -> Forall query_char q ->
  (N.of_nat (length (p ++ 63%N :: q)) <= 65534)%N ->
  exists rq : request X, arrives other ms (p ++ 63%N :: q) headers b = Some rq /\
    rq_method rq = m /\ rq_path rq = p /\ rq_query rq = Some q /\ rq_headers rq = headers /\ rq_body rq = b.
Proof.
  intros Im Hp Fp Fq L. unfold arrives. rewrite (proj2 (method_spec ms m)) by (left; exact Im).
  rewrite (proj2 (uri_spec other (p ++ 63%N :: q) p (Some q) ltac:(destruct Hp as [r ->]; cbn; eauto) L)).
  - eexists. split; [reflexivity|]. cbn. auto.
  - split; [exact Hp|]. split; [exact Fp|]. exists []. split; [left; reflexivity|]. rewrite app_nil_r. auto.
Qed.

Lemma query_sent (F : Type) (pf : bool -> str -> F + str) msg it1 it2 (X : Type) other ms m (p q : str) headers b ps :
  iteration it1 -> iteration it2 -> 
  In (ms, m) known_methods -> (exists r, p = c_slash :: r) -> Forall path_char p ->
  (forall x, In x ps -> Forall scalar (fst x) /\ Forall scalar (snd x)) -> encodes ps q -> Forall query_char q ->
  (N.of_nat (length (p ++ 63%N :: q)) <= 65534)%N ->
  exists rq : request X, arrives other ms (p ++ 63%N :: q) headers b = Some rq /\ rq_method rq = m /\ rq_path rq = p /\
    forall c : context X, rq_query (ctx_request c) = rq_query rq ->
    exists mp, ctx_query_params pf msg it1 it2 (TgMap KString (TVec TString)) c = inl (inl (RMap mp)) /\ NoDup (map fst mp) /\
      forall k v, In (k, v) mp <-> values_of k ps <> [] /\ v = VSeq (map VString (values_of k ps)).
Proof.
  intros I1 I2 Im Hp Fp Sc E Fq L. destruct (query_arrives X other ms m p q headers b Im Hp Fp Fq L) as (rq & A & Em & Ep & Eq & _).
  exists rq. split; [exact A|]. split; [exact Em|]. split; [exact Ep|]. intros c Ec. rewrite Eq in Ec.
  destruct (grouped_queries_pairs F pf msg it1 it2 I1 I2 q ps) as (mp & Emp & K).
  - apply parse_spec. apply parse_encoded; assumption.
  - exists mp. unfold ctx_query_params. rewrite Ec. rewrite (query_ascii q Fq), Emp. split; [reflexivity|exact K].
Qed.

Lemma query_pairs (X : Type) other ms m (p q : str) headers b ps :
  In (ms, m) known_methods -> (exists r, p = c_slash :: r) -> Forall path_char p ->
  (forall x, In x ps -> Forall scalar (fst x) /\ Forall scalar (snd x)) -> encodes ps q -> Forall query_char q ->
  (N.of_nat (length (p ++ 63%N :: q)) <= 65534)%N ->
  exists rq : request X, arrives other ms (p ++ 63%N :: q) headers b = Some rq /\ rq_method rq = m /\ rq_path rq = p /\
    form_pairs q ps /\ forall c : context X, rq_query (ctx_request c) = rq_query rq -> has_data FromQuery c q.
Proof.
  intros Im Hp Fp Sc E Fq L. destruct (query_arrives X other ms m p q headers b Im Hp Fp Fq L) as (rq & A & Em & Ep & Eq & _).
  exists rq. split; [exact A|]. split; [exact Em|]. split; [exact Ep|]. split; [apply parse_spec, parse_encoded; assumption|].
  intros c Ec. rewrite Eq in Ec. unfold has_data, query_text. rewrite Ec. symmetry. apply query_ascii. exact Fq.
Qed.
