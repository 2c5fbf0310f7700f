(** Concrete routers: the witnesses of the refuted routing properties and the
    examples that accompany the theorems. *)

From Coq Require Import String.
From Verif Require Import Base BaseFacts RouteTrie Router TableSpec PropSpec TrieBuild RouteFacts RouteLemmas RouteLemmas4.
Local Open Scope string_scope.
Local Open Scope list_scope.

(** ** Checking that a concrete history has clean paths *)

Fixpoint colon_okb (p : list str) : bool :=
  match p with
  | [] => true
  | s :: r => match s with
              | [] => true
              | c :: s' => if N.eqb c c_colon then true else negb (contains c_colon s)
              end && colon_okb r
  end.

Lemma colon_okb_sound p : colon_okb p = true -> colon_ok p.
Proof.
  induction p as [|s p IH]; intros E x I J; [destruct I|]. cbn [colon_okb] in E. apply andb_true_iff in E as [E1 E2].
  destruct I as [<-|I]; [|exact (IH E2 x I J)].
  destruct s as [|c s]; [destruct J|]. destruct (N.eqb_spec c c_colon) as [->|N]; [eauto|].
  apply negb_true_iff in E1. apply contains_In in J. congruence.
Qed.

Section Check.
  Context {H M : Type}.
  Fixpoint cleanb (o : op H M) : bool :=
    match o with
    | ORoute _ path _ | OServiceTo path _ => colon_okb (segments path)
    | OService _ => true
    | ORouter path sub => colon_okb (segments path) && forallb cleanb sub
    end.

  Lemma cleanb_sound o : cleanb o = true -> clean o.
  Proof.
    induction o as [m path h|path mw|mw|path sub IH] using op_ind'; intros E; cbn [cleanb clean] in *;
      try (apply colon_okb_sound; exact E); auto.
    apply andb_true_iff in E as [E1 E2]. apply clean_router. split; [apply colon_okb_sound; exact E1|].
    clear E1. induction IH as [|o l Ho F IHl]; [constructor|]. cbn [forallb] in E2. apply andb_true_iff in E2 as [A B].
    constructor; [apply Ho; exact A|apply IHl; exact B].
  Qed.

  Lemma built_check (l : list (op H M)) t : forallb cleanb l = true -> build l = (t, None) -> built l t.
  Proof.
    intros C E. split; [|exact E]. apply clean_tidy. apply Forall_forall. intros o I. apply cleanb_sound.
    rewrite forallb_forall in C. apply C. exact I.
  Qed.

  (** A call with a clean path after clean calls. *)
  Lemma tidy_check (l : list (op H M)) o : forallb cleanb l = true -> cleanb o = true -> tidy (table_of l) o.
  Proof.
    intros C Co. apply clean_step; [apply cleanb_sound; exact Co|]. apply clean_table. apply Forall_forall.
    intros x I. apply cleanb_sound. rewrite forallb_forall in C. apply C. exact I.
  Qed.

  (** ** Checking that a table has its colons apart *)

  Fixpoint common (x y : list tok) : list tok :=
    match x, y with
    | a :: x', b :: y' => if tok_eq_dec a b then a :: common x' y' else []
    | _, _ => []
    end.

  Lemma common_part x y w a b : part_at x y w a b -> w = common x y.
  Proof.
    intros (N & [r ->] & [s ->]). induction w as [|c w IH]; cbn [app common].
    - destruct (tok_eq_dec a b); [contradiction|reflexivity].
    - destruct (tok_eq_dec c c); [|contradiction]. f_equal. exact IH.
  Qed.

  Definition boundaries (T : table H M) : list (list tok) :=
    [] :: flat_map (fun e => map (fun i => flat (firstn i (fst e))) (seq 0 (S (length (fst e))))) T
       ++ flat_map (fun e => map (fun f => common (flat (fst e)) (flat (fst f))) T) T.

  Lemma boundaries_all (T : table H M) w : boundary T w -> In w (boundaries T).
  Proof.
    intros [->|[(p & c & i & I & ->)|(p & c & q & d & a & b & I & J & PA)]].
    - left. reflexivity.
    - right. apply in_or_app. left. apply in_flat_map. exists (p, c). split; [exact I|]. cbn [fst]. apply in_map_iff.
      destruct (Nat.le_gt_cases i (length p)) as [L|L].
      + exists i. split; [reflexivity|]. apply in_seq. lia.
      + exists (length p). split; [rewrite firstn_all, firstn_all2 by lia; reflexivity|]. apply in_seq. lia.
    - right. apply in_or_app. right. apply in_flat_map. exists (p, c). split; [exact I|]. apply in_map_iff.
      exists (q, d). split; [|exact J]. symmetry. eapply common_part. exact PA.
  Qed.

  (** The prefixes of [pre ++ x] that end right before a colon. *)
  Fixpoint before_colons (pre x : list tok) : list (list tok) :=
    match x with
    | [] => []
    | t :: r => (if tok_eq_dec t (Ch c_colon) then [pre] else []) ++ before_colons (pre ++ [t]) r
    end.

  Lemma before_colons_all x : forall pre w r, x = w ++ Ch c_colon :: r -> In (pre ++ w) (before_colons pre x).
  Proof.
    induction x as [|t x IH]; intros pre w r E; [destruct w; discriminate|]. cbn [before_colons]. apply in_or_app.
    destruct w as [|u w].
    - injection E as -> _. left. destruct (tok_eq_dec (Ch c_colon) (Ch c_colon)); [|contradiction].
      left. symmetry. apply app_nil_r.
    - injection E as -> E. right. replace (pre ++ u :: w) with ((pre ++ [u]) ++ w) by (rewrite <- app_assoc; reflexivity).
      eapply IH. exact E.
  Qed.

  Definition apartb (T : table H M) : bool :=
    forallb (fun e => forallb (fun w => if in_dec toks_eq_dec w (boundaries T) then false else true)
                              (before_colons [] (flat (fst e)))) T.

  Lemma apartb_sound (T : table H M) : apartb T = true -> colons_apart T.
  Proof.
    intros A p c w r I E B. unfold apartb in A. rewrite forallb_forall in A. specialize (A _ I). cbn [fst] in A.
    rewrite forallb_forall in A. specialize (A _ (before_colons_all _ [] w r E)). cbn [app] in A.
    destruct (in_dec toks_eq_dec w (boundaries T)) as [_|N]; [discriminate|]. apply N, boundaries_all. exact B.
  Qed.

  Lemma built_apart (l : list (op H M)) t : Forall not_router l -> apartb (table_of l) = true ->
    build l = (t, None) -> built l t.
  Proof.
    intros F A E. split; [|exact E]. apply (tidy_within (table_of l)).
    - apply apartb_sound. exact A.
    - intros o I (path & sub & -> & _). rewrite Forall_forall in F. destruct (F _ I).
    - eapply Forall_impl; [|exact F]. intros [| | |path sub] X; [exact I|exact I|exact I|destruct X].
    - apply covered_refl.
  Qed.
End Check.

Ltac built_by := apply built_check; vm_compute; reflexivity.

(** Solve a goal [~ seg_match p R b] on closed lists. *)
Ltac no_match :=
  let S := fresh in
  intros S; vm_compute in S;
  repeat match goal with
         | X : seg_match _ _ _ |- _ => inversion X; clear X; subst; try congruence; try discriminate
         end;
  repeat match goal with
         | X : literal_seg _ |- _ => destruct X as [? ?]
         end; try congruence;
  try match goal with X : ~ (exists r, _ = _ :: r) |- _ => exfalso; apply X; eexists; reflexivity end.

Definition r1 : list (op nat nat) :=
  [ORoute GET (lit "/a/b") 1].

(** ** Refutations *)

Lemma w_unmatched_pair_rejected :
  exists path path' : str,
    star_ok (segments path) /\ star_ok (segments path') /\
    colon_ok (segments path) /\ colon_ok (segments path') /\
    (forall R b b', seg_match (segments path) R b -> ~ seg_match (segments path') R b') /\
    forall (H M : Type) m m' (h h' : H),
      snd (build [@ORoute H M m path h; ORoute m' path' h']) = Some PAmbiguous /\
      snd (build [@ORoute H M m' path' h'; ORoute m path h]) = Some PAmbiguous.
Proof.
  exists (lit "/users"), (lit "/user/:id").
  split; [apply star_check_spec; vm_compute; reflexivity|]. split; [apply star_check_spec; vm_compute; reflexivity|].
  split; [apply colon_okb_sound; vm_compute; reflexivity|]. split; [apply colon_okb_sound; vm_compute; reflexivity|].
  split; [|intros; split; vm_compute; reflexivity].
  intros R b b' S S'. vm_compute in S, S'.
  inversion S as [|s p R1 b1 L S1| |]; subst. inversion S1; subst. inversion S' as [|s p R1 b1 L' S2| |]; subst.
Qed.

Lemma w_slash_confusion :
  exists (l : list (op nat nat)) t path r p h,
    built l t /\ search_route t path = LSome r /\ rr_get_route r GET = Some (Route GET h) /\
    (forall p' c, registered l p' c -> p' = p /\ c = CRoute GET h) /\
    forall b, ~ seg_match p (segments path) b.
Proof.
  eexists r1, _, (lit "/ab"), _, [lit "a"; lit "b"], 1.
  split; [built_by|]. split; [vm_compute; reflexivity|]. split; [vm_compute; reflexivity|]. split.
  - intros p' c I. vm_compute in I. destruct I as [E|[]]. injection E as <- <-. auto.
  - intros b. no_match.
Qed.

Lemma w_middleware_beyond_segment :
  exists (l : list (op nat nat)) t path r p mw,
    built l t /\ search_route t path = LSome r /\ In mw (rr_mws r) /\
    (forall p' c, registered l p' (CMw c) -> p' = p /\ c = mw) /\
    forall R1 R2 b, segments path = R1 ++ R2 -> ~ seg_match p R1 b.
Proof.
  eexists [OServiceTo (lit "/admin") 7; ORoute GET (lit "/administrator") 1], _, (lit "/administrator"), _, [lit "admin"], 7.
  split; [built_by|]. split; [vm_compute; reflexivity|]. split; [vm_compute; auto|]. split.
  - intros p' c I. vm_compute in I. destruct I as [E|[E|[]]]; [|discriminate]. injection E as <- <-. auto.
  - intros R1 R2 b E S. vm_compute in E. inversion S as [|s p R b0 L S1| |]; subst.
    discriminate.
Qed.

Lemma w_inner_before_outer :
  exists (l : list (op nat nat)) t path r p1 p2 m1 m2,
    built l t /\ search_route t path = LSome r /\
    registered l p1 (CMw m1) /\ registered l p2 (CMw m2) /\ strict_prefix p1 p2 /\
    m1 <> m2 /\ rr_mws r = [m2; m1].
Proof.
  eexists [OServiceTo (lit "/a") 1; OServiceTo (lit "/a/b") 2; ORoute GET (lit "/a/b") 0], _, (lit "/a/b"), _,
    [lit "a"], [lit "a"; lit "b"], 1, 2.
  split; [built_by|]. split; [vm_compute; reflexivity|]. split; [vm_compute; auto|]. split; [vm_compute; auto|].
  split; [exists (lit "b"), []; reflexivity|]. split; [discriminate|vm_compute; reflexivity].
Qed.

Lemma w_root_path_middleware_dropped :
  exists (l : list (op nat nat)) t1 t2 path mw r1 r2,
    segments path = [] /\ built (l ++ [OServiceTo path mw]) t1 /\ built (l ++ [OService mw]) t2 /\
    search_route t1 path = LSome r1 /\ search_route t2 path = LSome r2 /\
    ~ In mw (rr_mws r1) /\ In mw (rr_mws r2).
Proof.
  eexists [ORoute GET (lit "/") 0], _, _, (lit "/"), 7, _, _.
  split; [vm_compute; reflexivity|]. split; [built_by|]. split; [built_by|]. split; [vm_compute; reflexivity|].
  split; [vm_compute; reflexivity|]. split; [vm_compute; tauto|vm_compute; auto].
Qed.

Lemma w_root_mount_discards :
  exists (l : list (op nat nat)) t t' path sub req r,
    built l t /\ built (l ++ [ORouter path sub]) t' /\
    search_route t req = LSome r /\ search_route t' req = LNone.
Proof.
  eexists [ORoute GET (lit "/a") 1], _, _, (lit "/"), [ORoute GET (lit "/b") 2], (lit "/a"), _.
  split; [built_by|]. split; [built_by|]. split; vm_compute; reflexivity.
Qed.

Lemma w_bare_prefix_unanswered :
  exists (l : list (op nat nat)) t q h path b,
    built l t /\ registered l (q ++ [s_star]) (CRoute GET h) /\ no_star q /\
    (forall p c, registered l p c -> p = q ++ [s_star]) /\
    seg_match q (segments path) b /\ search_route t path = LNone.
Proof.
  eexists [ORoute GET (lit "/:id/*") 1], _, [lit ":id"], 1, (lit "/5"), _.
  split; [built_by|]. split; [vm_compute; auto|]. split; [intros [E|[]]; discriminate|]. split.
  - intros p c I. vm_compute in I. destruct I as [E|[]]. injection E as <- <-. reflexivity.
  - split; [|vm_compute; reflexivity]. apply (sm_par (lit "id") (lit "5")). constructor.
Qed.

Lemma w_root_wildcard_unanswered :
  exists (l : list (op nat nat)) t h path,
    built l t /\ registered l [s_star] (CRoute GET h) /\ (forall p c, registered l p c -> p = [s_star]) /\
    segments path = [] /\ search_route t path = LNone.
Proof.
  eexists [ORoute GET (lit "/*") 1], _, 1, (lit "/").
  split; [built_by|]. split; [vm_compute; auto|]. split; [|split; vm_compute; reflexivity].
  intros p c I. vm_compute in I. destruct I as [E|[]]. injection E as <- <-. reflexivity.
Qed.

Lemma w_inner_colon :
  exists (l : list (op nat nat)) t path r p h v,
    build l = (t, None) /\ search_route t path = LSome r /\ rr_get_route r GET = Some (Route GET h) /\
    (forall p', registered l p' (CRoute GET h) -> p' = p) /\ literal p /\
    segments path <> p /\ pget (lit "b") (rr_params r) = Some v.
Proof.
  eexists [ORoute GET (lit "/a:b") 1; ORoute GET (lit "/ac") 2], _, (lit "/a/x"), _, [lit "a:b"], 1, (lit "x").
  split; [vm_compute; reflexivity|]. split; [vm_compute; reflexivity|]. split; [vm_compute; reflexivity|]. split.
  - intros p' I. vm_compute in I. destruct I as [E|[E|[]]]; [|discriminate]. injection E as <-. reflexivity.
  - split; [|split; [vm_compute; discriminate|vm_compute; reflexivity]].
    intros s [<-|[]]. split; [discriminate|]. intros [r E]. discriminate.
Qed.

Lemma w_duplicate_replaces :
  exists (l : list (op nat nat)) t o t' pn path r h h',
    built l t /\ tidy (table_of l) o /\ run_op t o = (t', Some pn) /\
    registered l (segments path) (CRoute GET h) /\ literal (segments path) /\
    search_route t' path = LSome r /\ rr_get_route r GET = Some (Route GET h') /\ h <> h'.
Proof.
  eexists r1, _, (ORoute GET (lit "/a/b") 2), _, _, (lit "/a/b"), _, 1, 2.
  split; [built_by|]. split; [apply tidy_check; vm_compute; reflexivity|]. split; [vm_compute; reflexivity|].
  split; [vm_compute; auto|]. split; [|split; [vm_compute; reflexivity|split; [vm_compute; reflexivity|discriminate]]].
  intros s I. vm_compute in I. destruct I as [<-|[<-|[]]]; (split; [discriminate|intros [r E]; discriminate]).
Qed.

Lemma w_star_mount_shadows :
  exists (l : list (op nat nat)) t q h path b,
    built l t /\ registered l (q ++ [s_star]) (CRoute GET h) /\ no_star q /\
    seg_match (q ++ [s_star]) (segments path) b /\ search_route t path = LNone.
Proof.
  eexists [ORoute GET (lit "/a/*") 1; ORouter (lit "/a/b/*") [ORoute GET (lit "/y") 2]], _, [lit "a"], 1, (lit "/a/b/c"), _.
  split; [built_by|]. split; [vm_compute; auto|]. split; [intros [E|[]]; discriminate|].
  split; [|vm_compute; reflexivity].
  apply sm_lit; [split; [discriminate|intros [r E]; discriminate]|]. apply sm_star. discriminate.
Qed.

(** ** A router used in the examples *)

Definition ex : list (op nat nat) :=
  [OService 100;
   ORoute GET (lit "/") 0;
   ORoute GET (lit "/users/:id") 1;
   ORoute POST (lit "users/:id/") 2;
   OServiceTo (lit "/users") 101;
   OServiceTo (lit "/users/:id") 102;
   ORoute GET (lit "/files/*") 3;
   ORoute GET (lit "/files/img/*") 4;
   ORoute GET (lit "/about/us") 5;
   ORouter (lit "/api") [ORoute GET (lit "/v1/:k/x/:k") 6; OService 103; ORouter (lit "/sub") [ORoute PUT (lit "z") 7]]].

Definition ex_t : trie nat nat := fst (build ex).

Lemma ex_built : built ex ex_t.
Proof. built_by. Qed.

(** ** Boundaries right before a colon inside a segment *)

Lemma w_order_decides :
  exists (l l' : list (op nat nat)) t t' path,
    build l = (t, None) /\ build l' = (t', None) /\ Permutation l l' /\ no_root_mount l /\ single_mws l /\
    Forall not_router l /\ ~ same_lookup (search_route t path) (search_route t' path).
Proof.
  exists [ORoute GET (lit "/ac") 1; ORoute GET (lit "/a:b") 2], [ORoute GET (lit "/a:b") 2; ORoute GET (lit "/ac") 1].
  eexists _, _, (lit "/a/c"). split; [vm_compute; reflexivity|]. split; [vm_compute; reflexivity|].
  split; [apply perm_swap|]. split.
  - intros o I (path & sub & -> & _). destruct I as [I|[I|[]]]; discriminate I.
  - split; [intros ts; cbn; lia|]. split; [repeat constructor|].
    intros S. assert (X : forall a b : lookup nat nat, same_lookup a b ->
      match a, b with LSome x, LSome y => rr_get_route x GET = rr_get_route y GET | _, _ => True end).
    { intros a b. destruct a, b; try exact (fun _ => I). intros (_ & E & _). apply E. }
    apply X in S. vm_compute in S. discriminate S.
Qed.

Lemma w_not_apart :
  ~ colons_apart (table_of [ORoute GET (lit "/ac") 2; ORoute GET (lit "/a:b") 1; OServiceTo (lit "/a:b") 3; @ORoute nat nat GET (lit "/a:b/:id") 4]).
Proof.
  intros A. apply (A [lit "a:b"] (CRoute GET 1) [Ch 97%N] [Ch 98%N]); [right; left; reflexivity|vm_compute; reflexivity|].
  right. right. exists [lit "a:b"], (CRoute GET 1), [lit "ac"], (CRoute GET 2), (Ch 58%N), (Ch 99%N).
  split; [right; left; reflexivity|]. split; [left; reflexivity|]. split; [discriminate|].
  split; [exists [Ch 98%N]|exists []]; vm_compute; reflexivity.
Qed.
