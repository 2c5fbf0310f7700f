(** Proofs about routers mounted at a path ending in '*'. *)

From Coq Require Import String Lia.
From Verif Require Import Base BaseFacts RouteTrie Router TableSpec PropSpec RouteFacts RouteLemmas TrieRep RouteLemmas4 RouteWitness UserLemmas2.
Local Open Scope list_scope.

Lemma snoc_star (a : list tok) b x : a ++ [Star] = x ++ Star :: b -> b <> [] -> exists b', a = x ++ Star :: b'.
Proof.
  intros E NE. destruct (exists_last NE) as (b' & y & ->). exists b'.
  change (Star :: b' ++ [y]) with ((Star :: b') ++ [y]) in E. rewrite app_assoc in E. apply app_inj_tail in E. apply E.
Qed.

Section Star.
  Context {H M : Type}.
  Notation table := (table H M).
  Notation op := (op H M).

  (** A '*' before the end of what is read is written in the request. *)
  Lemma reads_star (T : table) pre R ts ps : reads T pre R ts ps -> In Star ts -> exists s, In s R /\ In c_star s.
  Proof.
    intros D. induction D as [pre|pre c us R ts ps B D IH|pre n s R ts ps B D IH]; intros I; [destruct I| |].
    - apply in_app_or in I as [I|I].
      + exists (spell (Ch c :: us)). split; [left; reflexivity|]. apply in_flat_map. exists Star. split; [exact I|left; reflexivity].
      + destruct (IH I) as (s & J & K). exists s. split; [right; exact J|exact K].
    - destruct I as [I|I]; [discriminate I|]. destruct (IH I) as (s' & J & K). exists s'. split; [right; exact J|exact K].
  Qed.

  Lemma resolves_star (T : table) R ts ps a b : resolves T R ts ps -> ts = a ++ Star :: b -> b <> [] ->
    exists s, In s R /\ In c_star s.
  Proof.
    intros D E NE. assert (I : In Star (a ++ Star :: b)) by (apply in_or_app; right; left; reflexivity).
    destruct D as [[D _]|(R0 & ts0 & c & us & -> & D & B & N & E2 & V)|k (L & ts0 & D & E2 & B) V _ _ _].
    - rewrite <- E in I. exact (reads_star _ _ _ _ _ D I).
    - rewrite E in E2. symmetry in E2. destruct (snoc_star _ _ _ E2 NE) as (b' & E3).
      assert (J : In Star (ts0 ++ Ch c :: us)) by (rewrite E3; apply in_or_app; right; left; reflexivity).
      apply in_app_or in J as [J|J].
      + destruct (reads_star _ _ _ _ _ D J) as (s & K1 & K2). exists s. split; [apply in_or_app; left; exact K1|exact K2].
      + exists (spell (Ch c :: us)). split; [apply in_or_app; right; left; reflexivity|].
        apply in_flat_map. exists Star. split; [exact J|left; reflexivity].
    - rewrite E in E2. symmetry in E2. destruct (snoc_star _ _ _ E2 NE) as (b' & E3).
      assert (J : In Star ts0) by (rewrite E3; apply in_or_app; right; left; reflexivity).
      destruct (reads_star _ _ _ _ _ D J) as (s & K1 & K2). exists s. split; [|exact K2].
      rewrite <- (firstn_skipn k R). apply in_or_app. left. exact K1.
  Qed.

  (** Parameters only, then a '*'. *)
  Lemma reads_lead (T : table) pre R ts ps : reads T pre R ts ps -> forall c us ns b,
    ts <> map Par ns ++ Star :: b /\ ts ++ Ch c :: us <> map Par ns ++ Star :: b.
  Proof.
    intros D. induction D as [pre|pre c0 us0 R ts ps B D IH|pre n s R ts ps B D IH]; intros c us ns b.
    - split; destruct ns; discriminate.
    - split; destruct ns; discriminate.
    - destruct ns as [|n' ns]; [split; discriminate|]. cbn [map app]. destruct (IH c us ns b) as [I1 I2].
      split; intros E; injection E as _ E; auto.
  Qed.

  Lemma resolves_lead (T : table) R ts ps ns b : resolves T R ts ps -> ts = map Par ns ++ Star :: b -> b = [].
  Proof.
    intros D E. destruct b as [|x b]; [reflexivity|]. exfalso. assert (NE : x :: b <> []) by discriminate.
    destruct D as [[D _]|(R0 & ts0 & c & us & -> & D & B & N & E2 & V)|k (L & ts0 & D & E2 & B) V _ _ _].
    - destruct (reads_lead _ _ _ _ _ D c_star [] ns (x :: b)) as [F _]. exact (F E).
    - rewrite E in E2. symmetry in E2. destruct (snoc_star _ _ _ E2 NE) as (b' & E3).
      destruct (reads_lead _ _ _ _ _ D c us ns b') as [_ F]. exact (F E3).
    - rewrite E in E2. symmetry in E2. destruct (snoc_star _ _ _ E2 NE) as (b' & E3).
      destruct (reads_lead _ _ _ _ _ D c_star [] ns b') as [F _]. exact (F E3).
  Qed.

  Lemma found_at (l : list op) t p m h path r : built l t ->
    (forall q m', registered l q (CRoute m' h) -> flat q = flat p) ->
    search_route t path = LSome r -> rr_get_route r m = Some (Route m h) ->
    exists ps, resolves (table_of l) (segments path) (flat p) ps.
  Proof.
    intros B Un E G. destruct (lookup_some l t path r B E) as (ts & ps & R & (_ & Dr & _)).
    rewrite Dr in G. destruct (handler_for m (routes_at (table_of l) ts)) as [h'|] eqn:Eh; [|discriminate G].
    cbn in G. assert (h' = h) by congruence. subst h'.
    apply handler_for_in in Eh. apply in_routes_at in Eh as (q & I' & Eq).
    assert (Et : ts = flat p) by (rewrite <- Eq; apply (Un q m I')). exists ps. rewrite <- Et. exact R.
  Qed.

  Lemma flat_split q r : flat (q ++ s_star :: r) = flat q ++ Star :: flat r.
  Proof. unfold flat. rewrite flat_map_app. reflexivity. Qed.

  Lemma flat_pars q : (forall s, In s q -> exists n, s = c_colon :: n) -> exists ns, flat q = map Par ns.
  Proof.
    induction q as [|s q IH]; intros A; [exists []; reflexivity|].
    destruct (A s (or_introl eq_refl)) as [n ->]. destruct IH as [ns E]; [intros s' I; apply A; right; exact I|].
    exists (n :: ns). cbn [flat flat_map map]. unfold flat in E. rewrite E. reflexivity.
  Qed.

  Lemma flat_rest (l : list op) q r c : registered l (q ++ s_star :: r) c -> r <> [] -> flat r <> [].
  Proof.
    intros I NE. destruct r as [|s r]; [congruence|].
    destruct (table_segs l _ _ s I) as [Ns _]; [apply in_or_app; right; right; left; reflexivity|].
    destruct s as [|d s]; [congruence|]. cbn [flat flat_map]. unfold seg_toks.
    destruct (N.eqb d c_colon); [discriminate|]. destruct (str_eqb (d :: s) s_star); discriminate.
  Qed.

  Lemma star_unreached (l : list op) t q r m h : built l t -> registered l (q ++ s_star :: r) (CRoute m h) -> r <> [] ->
    (forall q' m', registered l q' (CRoute m' h) -> flat q' = flat (q ++ s_star :: r)) ->
    forall path res, search_route t path = LSome res -> rr_get_route res m = Some (Route m h) -> In c_star path.
  Proof.
    intros B Rg NE Un path res E G. destruct (found_at l t _ m h path res B Un E G) as (ps & R).
    rewrite flat_split in R. destruct (resolves_star _ _ _ _ _ _ R eq_refl (flat_rest _ _ _ _ Rg NE)) as (s & I & J).
    exact (segment_chars path s c_star I J).
  Qed.

  Lemma pars_unreached (l : list op) t q r m h : built l t -> registered l (q ++ s_star :: r) (CRoute m h) -> r <> [] ->
    (forall s, In s q -> exists n, s = c_colon :: n) ->
    (forall q' m', registered l q' (CRoute m' h) -> flat q' = flat (q ++ s_star :: r)) ->
    forall path res, search_route t path = LSome res -> rr_get_route res m <> Some (Route m h).
  Proof.
    intros B Rg NE A Un path res E G. destruct (found_at l t _ m h path res B Un E G) as (ps & R).
    rewrite flat_split in R. destruct (flat_pars q A) as [ns Eq]. rewrite Eq in R.
    exact (flat_rest _ _ _ _ Rg NE (resolves_lead _ _ _ _ _ _ R eq_refl)).
  Qed.
End Star.

Lemma w_star_mount_never :
  exists (l : list (op nat nat)) t p h,
    built l t /\ registered l p (CRoute GET h) /\
    forall path r, search_route t path = LSome r -> rr_get_route r GET <> Some (Route GET h).
Proof.
  eexists [ORouter (lit "/*") [ORoute GET (lit "/y") 2]], _, ([] ++ s_star :: [lit "y"]), 2.
  split; [built_by|]. split; [vm_compute; auto|].
  apply (pars_unreached [ORouter (lit "/*") [ORoute GET (lit "/y") 2]] _ [] [lit "y"] GET 2).
  - built_by.
  - vm_compute; auto.
  - discriminate.
  - intros s [].
  - intros q m' I. vm_compute in I. destruct I as [I|[I|[]]]; [discriminate I|]. injection I as <- _. reflexivity.
Qed.
