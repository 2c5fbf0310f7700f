(** Servers with one static directory. *)

From Coq Require Import String.
From Verif Require Import Base BaseFacts Utf8 RouteTrie Router TableSpec PropSpec Http App AppSpec.
From Verif Require Import RouteFacts RouteLemmas Rewalk AloneSpec AloneLemmas AppLemmas AppLemmas2 AppLemmas3 UserSpec UserLemmas2.

Section Static.
  Context {X U A : Type}.
  Notation handler := (handler X U A).
  Notation middleware := (middleware X U A).

  Lemma serves_fun (h : handler) (c : context X) p q : serves_file h c p -> serves_file h c q -> p = q.
  Proof.
    intros P Q.
    assert (R : runs (h c) [EvRead p (inl [])] (Value (inl (Context (ctx_request c) (ctx_params c) (Some (Response (body_from (utf8 [])) 200%N None)))))).
    { apply P. left. eauto. }
    apply Q in R as [(content & r & E & _)|(err & r & E & _)]; [injection E as E _; exact E|discriminate E].
  Qed.

  Lemma one_static path (h : handler) f (req file : str) (t : trie handler middleware) :
    build [ORoute GET path h] = (t, None) ->
    (forall c : context X, rq_path (ctx_request c) = req -> serves_file h c f) ->
    (reads_path [ORoute GET path h] req file <-> file = f /\ exists b, alone (segments path) (segments req) b).
  Proof.
    intros B S. destruct (single_route GET path h t req B) as [O1 O2]. split.
    - intros (t' & rv & h' & [_ B'] & E & G & S'). rewrite B in B'. injection B' as <-.
      destruct (O1 _ E) as [b Al]. split; [|exists b; exact Al].
      destruct (O2 b Al) as (r & E' & G' & _). rewrite E in E'. injection E' as <-. rewrite G in G'. injection G' as ->.
      apply (serves_fun h (Context (get_req req) [] None)); [apply S'|apply S]; reflexivity.
    - intros (-> & b & Al). destruct (O2 b Al) as (r & E & G & _). exists t, r, h.
      split; [apply one_built; exact B|]. split; [exact E|]. split; [exact G|exact S].
  Qed.

  (** C57 *)
  Lemma dir_exact d t req file : build [@use_static X U A d] = (t, None) ->
    (reads_path [@use_static X U A d] req file <->
     file = join_slash (segments req) /\ exists b, alone (segments d ++ [s_star]) (segments req) b).
  Proof.
    intros B. rewrite <- static_segments. apply (one_static _ _ _ _ _ t B). intros c <-. apply dir_served.
  Qed.

  (** C35 *)
  Lemma virtual_exact v d t req file : build [@use_static_to X U A v d] = (t, None) ->
    (reads_path [@use_static_to X U A v d] req file <->
     file = join_slash (segments d ++ skipn (length (segments v)) (segments req)) /\
     exists b, alone (segments v ++ [s_star]) (segments req) b).
  Proof.
    intros B. rewrite <- static_segments. apply (one_static _ _ _ _ _ t B). intros c <-. apply virtual_served.
  Qed.

  Lemma repeat_in {B} (x y : B) n : In x (repeat y n) -> x = y.
  Proof. induction n as [|n IH]; intros []; auto. Qed.

  (** C36 *)
  Lemma always_escapes v d t n rel : built [@use_static_to X U A v d] t -> plain_path (segments v) ->
    rel <> [] -> file_segments rel -> (forall s c, In s rel -> In c s -> path_char c) ->
    exists req, deliverable req /\
      @reads_path X U A [use_static_to v d] req (join_slash (segments d ++ repeat (lit "..") n ++ rel)).
  Proof.
    intros B P Nr F C. apply (static_reachable v d t); [exact B|exact P| | |].
    - destruct n; [exact Nr|discriminate].
    - intros s I. apply in_app_iff in I as [I|I]; [|exact (F s I)]. apply repeat_in in I as ->. split; [discriminate|].
      intros [E|[E|[]]]; discriminate E.
    - intros s c I J. apply in_app_iff in I as [I|I]; [|exact (C s c I J)]. apply repeat_in in I as ->.
      assert (D : path_char 46%N) by (left; vm_compute; do 11 right; left; reflexivity). destruct J as [<-|[<-|[]]]; exact D.
  Qed.
(** C37 *)
  Lemma mounted_exact p v d t req file : build [ORouter p [@use_static_to X U A v d]] = (t, None) ->
    segments p <> [] -> no_star (segments p) ->
    (reads_path [ORouter p [@use_static_to X U A v d]] req file <->
     file = join_slash (segments d ++ skipn (length (segments v)) (segments req)) /\
     exists b, alone (segments p ++ segments v ++ [s_star]) (segments req) b).
  Proof.
    intros B Np Ns. pose proof (mount_counting [] t p [@use_static_to X U A v d] B Np Ns) as F.
    assert (Nt : table_of [@use_static_to X U A v d] <> []) by discriminate. specialize (F Nt). cbn [app flat_map] in F.
    change (flat_map (under p) (counting [@use_static_to X U A v d]))
      with [@ORoute handler middleware GET (p ++ c_slash :: (v ++ [c_slash; c_star])) (static_virtual_file_handler v d)] in F.
    assert (Eq : segments (p ++ c_slash :: (v ++ [c_slash; c_star])) = segments p ++ segments v ++ [s_star])
      by (rewrite segments_app, static_segments; reflexivity).
    destruct (single_route _ _ _ t req F) as [O1 O2]. rewrite Eq in O1, O2. split.
    - intros (t' & rv & h' & [_ B'] & E & G & S'). rewrite B in B'. injection B' as <-.
      destruct (O1 _ E) as [b Al]. split; [|exists b; exact Al].
      destruct (O2 b Al) as (r & E' & G' & _). rewrite E in E'. injection E' as <-. rewrite G in G'. injection G' as ->.
      apply (serves_fun (static_virtual_file_handler v d) (Context (get_req req) [] None)); [apply S'; reflexivity|].
      change req with (rq_path (@get_req X req)) at 2. apply (virtual_served v d (Context (get_req req) [] None)).
    - intros (-> & b & Al). destruct (O2 b Al) as (r & E & G & _). exists t, r, (static_virtual_file_handler v d).
      split; [apply one_mounted_built; exact B|]. split; [exact E|]. split; [exact G|]. intros c <-. apply virtual_served.
  Qed.

  Lemma join_longer (w : str) (a b : list str) : w <> [] -> length (join_slash (a ++ b)) < length (join_slash (a ++ w :: b)).
  Proof.
    intros N. assert (Lw : 0 < length w) by (destruct w; [congruence|cbn; lia]). induction a as [|x a IH]; cbn [app].
    - destruct b as [|y b]; [exact Lw|]. change (join_slash (w :: y :: b)) with (w ++ c_slash :: join_slash (y :: b)).
      rewrite app_length. cbn [length]. lia.
    - destruct a as [|z a]; cbn [app] in IH |- *.
      + change (join_slash (x :: w :: b)) with (x ++ c_slash :: join_slash (w :: b)). destruct b as [|y b].
        * change (join_slash [x]) with x. rewrite app_length. cbn [length]. lia.
        * change (join_slash (x :: y :: b)) with (x ++ c_slash :: join_slash (y :: b)). rewrite !app_length. cbn [length]. lia.
      + change (join_slash (x :: z :: a ++ w :: b)) with (x ++ c_slash :: join_slash (z :: a ++ w :: b)).
        change (join_slash (x :: z :: a ++ b)) with (x ++ c_slash :: join_slash (z :: a ++ b)).
        rewrite !app_length. cbn [length]. lia.
  Qed.

  Lemma join_inserted (a w b : list str) : w <> [] -> (forall s, In s w -> s <> []) ->
    length (join_slash (a ++ b)) < length (join_slash (a ++ w ++ b)).
  Proof.
    intros N W. destruct w as [|x w]; [congruence|]. clear N. revert x W.
    induction w as [|y w IH]; intros x W; cbn [app].
    - apply join_longer. apply W. left. reflexivity.
    - specialize (IH y). cbn [app] in IH. etransitivity; [apply IH; intros s I; apply W; right; exact I|].
      apply join_longer. apply W. left. reflexivity.
  Qed.

  Lemma mounted_never p v d t req pp pv rest b b' : build [ORouter p [@use_static_to X U A v d]] = (t, None) ->
    segments p <> [] -> no_star (segments p) -> no_star (segments v) ->
    seg_match (segments p) pp b -> seg_match (segments v) pv b' -> segments req = pp ++ pv ++ rest -> rest <> [] ->
    (exists file, reads_path [ORouter p [@use_static_to X U A v d]] req file) /\
    forall file, reads_path [ORouter p [@use_static_to X U A v d]] req file -> file <> join_slash (segments d ++ rest).
  Proof.
    intros B Np Ns Nv Sp Sv E Nr.
    pose proof (seg_match_length _ _ _ Ns Sp) as Lp. pose proof (seg_match_length _ _ _ Nv Sv) as Lv. split.
    - eexists. apply (mounted_exact p v d t); try assumption. split; [reflexivity|]. exists (b ++ b').
      rewrite E, app_assoc, app_assoc. destruct rest as [|x rest]; [congruence|]. apply al_below.
      assert (J : forall q R c, no_star q -> seg_match q R c -> joined q R c).
      { clear. intros q R c N S. induction S as [|s q R c L S IH|n s q R c S IH|R Nn].
        - constructor.
        - pose proof (jn_lit s [] q R c L) as J. cbn [concat app] in J. rewrite app_nil_r in J. apply J, IH. intros I. apply N. right. exact I.
        - constructor. apply IH. intros I. apply N. right. exact I.
        - destruct N. left. reflexivity. }
      assert (JA : forall q R c q' R' c', joined q R c -> joined q' R' c' -> joined (q ++ q') (R ++ R') (c ++ c')).
      { clear. intros q R c q' R' c' S S'. induction S; cbn [app]; [exact S'|rewrite <- app_assoc; exact (jn_lit s g _ _ _ H IHS)|constructor; assumption]. }
      apply JA; apply J; assumption.
    - intros file R. apply (mounted_exact p v d t) in R as [-> _]; try assumption. intros F.
      rewrite E, app_assoc, skipn_app in F.
      replace (length (segments v) - length (pp ++ pv)) with 0 in F by (rewrite app_length; lia). cbn [skipn] in F.
      assert (L : length (join_slash (segments d ++ rest)) < length (join_slash (segments d ++ skipn (length (segments v)) (pp ++ pv) ++ rest))).
      { apply join_inserted.
        - intros F'. apply (f_equal (@length str)) in F'. rewrite skipn_length, app_length in F'. cbn in F'.
          destruct (segments p); [congruence|]. cbn [length] in Lp. lia.
        - intros s I. apply (segments_ok req). rewrite E, app_assoc. apply in_or_app. left.
          rewrite <- (firstn_skipn (length (segments v)) (pp ++ pv)). apply in_or_app. right. exact I. }
      rewrite F in L. lia.
  Qed.
End Static.
