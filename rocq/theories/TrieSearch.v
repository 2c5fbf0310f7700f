(** What [get_next_node] finds in a well-formed trie. *)

From Verif Require Import Base BaseFacts RouteTrie Router TableSpec TrieDen TrieIns TrieRep.

Lemma match_count_prefix k s : match_count k (k ++ s) = blen k.
Proof.
  induction k as [|c k IH]; simpl; [destruct s; reflexivity|].
  rewrite N.eqb_refl, IH. reflexivity.
Qed.

Lemma match_count_full k s : k <> [] ->
  (negb (Nat.eqb (match_count k s) 0) && Nat.eqb (match_count k s) (blen k) = true <-> prefix k s).
Proof.
  intros N. split.
  - intros E. apply andb_true_iff in E as [_ E]. apply Nat.eqb_eq in E.
    destruct (match_count_spec k s) as (p & x & y & -> & -> & Ec & _).
    rewrite Ec, blen_app in E. assert (X : blen x = 0) by lia. apply blen_0 in X. subst x.
    rewrite app_nil_r. apply prefix_app.
  - intros [r ->]. rewrite match_count_prefix, Nat.eqb_refl, andb_true_r.
    apply negb_true_iff, Nat.eqb_neq. rewrite blen_0. exact N.
Qed.

Section Search.
  Context {H M : Type}.
  Notation node := (node H M).
  Notation rvalue := (rvalue H M).

  (** Descent with the middlewares collected on the way back (not those of the start). *)
  Inductive an : node -> list tok -> node -> list M -> Prop :=
  | an_here n : an n [] n []
  | an_kid n c r f l : In c (nkids n) -> an c r f l -> an n (kt c ++ r) f (l ++ val_mws (nval c)).

  (** Reading request segments along the trie. [bp]: in the middle of the first
      segment. [pv], [last]: whether the previous / the last segment was read literally. *)
  Inductive rdN : node -> bool -> list str -> bool -> node -> list tok -> list (str * str) -> bool -> Prop :=
  | rn_nil n pv : rdN n false [] pv n [] [] pv
  | rn_par n c nm s R pv f ts ps last :
      In c (nkids n) -> nkey c = c_colon :: nm -> rdN c false R false f ts ps last ->
      rdN n false (s :: R) pv f (Par nm :: ts) ((nm, s) :: ps) last
  | rn_end n c bp s R pv f ts ps last :
      In c (nkids n) -> nkey c = s -> (bp = true \/ lit_ok (nkey c)) -> rdN c false R true f ts ps last ->
      rdN n bp (s :: R) pv f (kt c ++ ts) ps last
  | rn_mid n c bp s s' R pv f ts ps last :
      In c (nkids n) -> s = nkey c ++ s' -> s' <> [] -> (bp = true \/ lit_ok (nkey c)) ->
      rdN c true (s' :: R) true f ts ps last ->
      rdN n bp (s :: R) pv f (kt c ++ ts) ps last.

  Lemma kids_char_unique (cs : list node) c d s :
    kids_ok cs -> In c cs -> In d cs -> prefix (nkey c) s -> prefix (nkey d) s -> c = d.
  Proof.
    intros K Ic Id [x Ex] [y Ey]. pose proof K as (KO & _ & PA & _).
    pose proof (KO _ Ic) as Kc. pose proof (KO _ Id) as Kd.
    destruct (nkey c) as [|a kc] eqn:Ec; [destruct (key_ok_nil Kc)|].
    destruct (nkey d) as [|b kd] eqn:Ed; [destruct (key_ok_nil Kd)|].
    rewrite Ex in Ey. simpl in Ey. injection Ey as -> _.
    destruct (starts_colon (b :: kc)) eqn:SC.
    - assert (P : is_param c = true) by (unfold is_param; rewrite Ec; exact SC).
      pose proof (PA c Ic P) as E. rewrite E in Id. destruct Id as [<-|[]]. reflexivity.
    - assert (SD : starts_colon (b :: kd) = false) by exact SC.
      destruct (first_char_lit _ _ b kc kd Kc Kd SC SD eq_refl eq_refl) as [[L1 L2]|E].
      + apply (kids_unique cs c d (Ch b) (map Ch kc) (map Ch kd) K Ic Id).
        * unfold kt. rewrite Ec. apply (seg_toks_lit _ L1).
        * unfold kt. rewrite Ed. apply (seg_toks_lit _ L2).
      + assert (E2 : kt c = kt d) by (unfold kt; rewrite Ec, Ed, E; reflexivity).
        destruct (kt_cons _ _ K Ic) as (t & r & Et).
        apply (kids_unique cs c d t r r K Ic Id Et). rewrite <- E2. exact Et.
  Qed.

  Lemma lit_not_param (c : node) : lit_ok (nkey c) -> is_param c = false.
  Proof.
    intros [N _]. exact N.
  Qed.

  Lemma lit_not_star (c : node) : lit_ok (nkey c) -> nkey c <> s_star.
  Proof. intros [_ N] E. apply N. rewrite E. left. reflexivity. Qed.

  Lemma not_special_lit (c : node) : key_ok (nkey c) -> is_param c = false -> nkey c <> s_star -> lit_ok (nkey c).
  Proof.
    intros K P S. inversion K as [r E|E|s N L E]; [|congruence|exact L].
    exfalso. assert (is_param c = true) by (unfold is_param; rewrite <- E; reflexivity). congruence.
  Qed.

  (** The one child through which a segment can be read. *)
  Definition relevant (bp : bool) (s : str) (c : node) : Prop :=
    prefix (nkey c) s /\ (bp = true \/ lit_ok (nkey c)).

  Definition rest_of (s' : str) (R : list str) : list str :=
    match s' with [] => R | _ => s' :: R end.

  Lemma rdN_lit n c bp s s' R pv f ts ps last :
    wf n -> In c (nkids n) -> relevant bp s c -> s = nkey c ++ s' ->
    (rdN n bp (s :: R) pv f ts ps last <->
     exists ts', ts = kt c ++ ts' /\ rdN c (negb (is_empty s')) (rest_of s' R) true f ts' ps last).
  Proof.
    intros W I [PR BL] Es. pose proof (wf_kids _ W) as K. split.
    - intros D. inversion D as [|n0 c0 nm s0 R0 pv0 f0 ts0 ps0 l0 I0 E0 D0
                                |n0 c0 bp0 s0 R0 pv0 f0 ts0 ps0 l0 I0 E0 B0 D0
                                |n0 c0 bp0 s0 s0' R0 pv0 f0 ts0 ps0 l0 I0 E0 N0 B0 D0]; subst.
      + exfalso. destruct BL as [BL|BL]; [discriminate|].
        assert (P : is_param c0 = true) by (unfold is_param; rewrite E0; reflexivity).
        pose proof (proj1 (proj2 (proj2 K)) c0 I0 P) as E. rewrite E in I. destruct I as [<-|[]].
        rewrite (lit_not_param _ BL) in P. discriminate.
      + assert (c = c0).
        { apply (kids_char_unique _ c c0 (nkey c ++ s') K I I0); [exact PR|rewrite E0; apply prefix_refl]. }
        subst c0. rewrite <- (app_nil_r (nkey c)) in E0 at 1. apply app_inv_head in E0. subst s'.
        exists ts0. split; [reflexivity|exact D0].
      + assert (c = c0).
        { apply (kids_char_unique _ c c0 (nkey c ++ s') K I I0); [exact PR|]. rewrite E0. apply prefix_app. }
        subst c0. apply app_inv_head in E0. subst s0'.
        exists ts0. split; [reflexivity|]. destruct s'; [congruence|exact D0].
    - intros (ts' & -> & D). destruct s' as [|x s'].
      + rewrite app_nil_r in Es. apply rn_end; auto.
      + eapply rn_mid; eauto. discriminate.
  Qed.

  Lemma rdN_par n c nm s R pv f ts ps last :
    wf n -> In c (nkids n) -> nkey c = c_colon :: nm ->
    (rdN n false (s :: R) pv f ts ps last <->
     exists ts' ps', ts = Par nm :: ts' /\ ps = (nm, s) :: ps' /\ rdN c false R false f ts' ps' last).
  Proof.
    intros W I E. pose proof (wf_kids _ W) as K.
    assert (P : is_param c = true) by (unfold is_param; rewrite E; reflexivity).
    pose proof (proj1 (proj2 (proj2 K)) c I P) as A. split.
    - intros D. inversion D as [|n0 c0 nm0 s0 R0 pv0 f0 ts0 ps0 l0 I0 E0 D0
                                |n0 c0 bp0 s0 R0 pv0 f0 ts0 ps0 l0 I0 E0 B0 D0
                                |n0 c0 bp0 s0 s0' R0 pv0 f0 ts0 ps0 l0 I0 E0 N0 B0 D0]; subst;
        rewrite A in I0; destruct I0 as [<-|[]].
      + rewrite E in E0. injection E0 as <-. eauto.
      + exfalso. destruct B0 as [B0|B0]; [discriminate|]. apply lit_not_param in B0. congruence.
      + exfalso. destruct B0 as [B0|B0]; [discriminate|]. apply lit_not_param in B0. congruence.
    - intros (ts' & ps' & -> & -> & D). econstructor; eauto.
  Qed.

  Lemma rdN_none n bp s R pv f ts ps last :
    wf n -> (forall c, In c (nkids n) -> ~ relevant bp s c) ->
    (bp = false -> forall c, In c (nkids n) -> is_param c = false) ->
    ~ rdN n bp (s :: R) pv f ts ps last.
  Proof.
    intros W NR NP D.
    inversion D as [|n0 c0 nm0 s0 R0 pv0 f0 ts0 ps0 l0 I0 E0 D0
                    |n0 c0 bp0 s0 R0 pv0 f0 ts0 ps0 l0 I0 E0 B0 D0
                    |n0 c0 bp0 s0 s0' R0 pv0 f0 ts0 ps0 l0 I0 E0 N0 B0 D0]; subst.
    - apply NP in I0; auto. unfold is_param in I0. rewrite E0 in I0. discriminate.
    - apply (NR _ I0). split; [apply prefix_refl|exact B0].
    - apply (NR _ I0). split; [apply prefix_app|exact B0].
  Qed.

  (** ** Hits *)

  Definition exN n bp R f ts ps : Prop := exists last, rdN n bp R true f ts ps last /\ nval f <> None.

  Definition beN n bp R f ts ps : Prop :=
    exists g ts0, rdN n bp R true g ts0 ps true /\ nval g = None /\
                  In f (nkids g) /\ nkey f = s_star /\ nval f <> None /\ ts = ts0 ++ [Star].

  Definition wiN n bp R k f ts ps : Prop :=
    k < length R /\ exists g ts0 last, rdN n bp (firstn k R) true g ts0 ps last /\
                  In f (nkids g) /\ nkey f = s_star /\ ts = ts0 ++ [Star].

  Definition noX n bp R : Prop := (forall f ts ps, ~ exN n bp R f ts ps) /\ (forall f ts ps, ~ beN n bp R f ts ps).

  Definition hit n bp R f ts ps : Prop :=
    exN n bp R f ts ps \/ beN n bp R f ts ps \/
    exists k, wiN n bp R k f ts ps /\ noX n bp R /\ forall k' f' ts' ps', wiN n bp R k' f' ts' ps' -> k' <= k.

  Definition miss n bp R : Prop := noX n bp R /\ forall k f ts ps, ~ wiN n bp R k f ts ps.

  Definition bind (bs : list (str * str)) (ps : params) : params :=
    fold_right (fun b acc => pinsert (fst b) (snd b) acc) ps bs.

  (** The previous flag does not matter when something is still to be read. *)
  Lemma rdN_pv n bp s R pv pv' f ts ps last :
    rdN n bp (s :: R) pv f ts ps last -> rdN n bp (s :: R) pv' f ts ps last.
  Proof. intros D. inversion D; subst; [eapply rn_par|eapply rn_end|eapply rn_mid]; eauto. Qed.

  Lemma rdN_nil n bp pv f ts ps last :
    rdN n bp [] pv f ts ps last <-> bp = false /\ f = n /\ ts = [] /\ ps = [] /\ last = pv.
  Proof.
    split.
    - intros D. inversion D; subst. auto.
    - intros (-> & -> & -> & -> & ->). constructor.
  Qed.

  Definition sres_is (n : node) (R : list str) (ps : params) (mws : list M) (bp : bool) (r : sres H M) : Prop :=
    (miss n bp R /\ exists key', r = SRet None key' ps mws) \/
    (exists f ts bs l key', hit n bp R f ts bs /\ an n ts f l /\ r = SRet (Some f) key' (bind bs ps) (mws ++ l)).

  (** ** The loop *)

  Definition find_star (cs : list node) : option node := find (fun c => str_eqb (nkey c) s_star) cs.

  Lemma find_star_Some cs c : find_star cs = Some c -> In c cs /\ nkey c = s_star.
  Proof.
    intros E. apply find_some in E as [I E]. apply str_eqb_eq in E. auto.
  Qed.
  Lemma find_star_None cs c : find_star cs = None -> In c cs -> nkey c <> s_star.
  Proof.
    intros E I F. eapply find_none in E; eauto. cbv beta in E. rewrite F, str_eqb_refl in E. discriminate.
  Qed.

  Lemma is_star_unique cs (c d : node) :
    kids_ok cs -> In c cs -> In d cs -> nkey c = s_star -> nkey d = s_star -> c = d.
  Proof.
    intros K Ic Id Ec Ed. apply (kids_unique cs c d Star [] [] K Ic Id); unfold kt; [rewrite Ec|rewrite Ed]; reflexivity.
  Qed.

  Lemma step_irrelevant rec s bp (c : node) rest key ps mws :
    nkey c <> [] -> (bp = false -> is_param c = false) -> (bp = false -> nkey c <> s_star) ->
    ~ prefix (nkey c) s ->
    next_loop rec s bp (c :: rest) key ps mws = next_loop rec s bp rest key ps mws.
  Proof.
    intros Nk NP NS NPre. cbn [next_loop].
    replace (negb bp && is_param c) with false by (destruct bp; [reflexivity|rewrite NP; reflexivity]).
    replace (negb bp && str_eqb (nkey c) s_star) with false
      by (destruct bp; [reflexivity|]; symmetry; apply str_eqb_neq; auto).
    destruct (negb (Nat.eqb (match_count (nkey c) s) 0) && Nat.eqb (match_count (nkey c) s) (blen (nkey c))) eqn:E.
    { exfalso. apply NPre. apply match_count_full; assumption. }
    destruct (Nat.eqb (match_count (nkey c) s) (blen (nkey c))) eqn:E2.
    - exfalso. rewrite andb_true_r in E. apply negb_false_iff, Nat.eqb_eq in E. apply Nat.eqb_eq in E2.
      rewrite E in E2. symmetry in E2. apply blen_0 in E2. contradiction.
    - cbn [andb]. reflexivity.
  Qed.

  Lemma step_star rec s (c : node) rest key ps mws :
    nkey c = s_star ->
    next_loop rec s false (c :: rest) key ps mws = SRet (Some c) key ps (mws ++ val_mws (nval c)).
  Proof.
    intros E. cbn [next_loop]. unfold is_param. rewrite E. reflexivity.
  Qed.

  (** After (or without) the relevant child: only a star can match. *)
  Lemma loop_star rec s bp (cs : list node) key ps mws :
    (forall c, In c cs -> nkey c <> []) ->
    (bp = false -> forall c, In c cs -> is_param c = false) ->
    (forall c, In c cs -> bp = true \/ nkey c <> s_star -> ~ prefix (nkey c) s) ->
    next_loop rec s bp cs key ps mws =
    match (if bp then None else find_star cs) with
    | Some c => SRet (Some c) key ps (mws ++ val_mws (nval c))
    | None => SRet None key ps mws
    end.
  Proof.
    intros Nk NP NR. induction cs as [|c cs IH].
    - destruct bp; reflexivity.
    - destruct bp.
      + rewrite step_irrelevant; try discriminate.
        * apply IH; intros; [apply Nk|discriminate|apply NR]; simpl; auto.
        * apply Nk. left. reflexivity.
        * apply NR; [left; reflexivity|left; reflexivity].
      + cbn [find_star find]. unfold find_star. cbn [find]. destruct (str_eqb_spec (nkey c) s_star) as [E|N].
        * apply step_star. exact E.
        * rewrite step_irrelevant; auto.
          -- apply IH; intros; [apply Nk|apply NP|apply NR]; simpl; auto.
          -- apply Nk. left. reflexivity.
          -- intros _. apply NP; [reflexivity|left; reflexivity].
          -- apply NR; [left; reflexivity|right; exact N].
  Qed.

  (** Either a child is relevant for [s], or a parameter is there, or neither. *)
  Lemma child_cases (cs : list node) bp s :
    kids_ok cs -> s <> [] ->
    (bp = false /\ exists c nm, cs = [c] /\ nkey c = c_colon :: nm) \/
    ((bp = false -> forall c, In c cs -> is_param c = false) /\
     ((exists l1 c l2, cs = l1 ++ c :: l2 /\ relevant bp s c) \/
      (forall c, In c cs -> ~ relevant bp s c))).
  Proof.
    intros K Ns. pose proof K as (KO & _ & PA & _).
    assert (RD : (exists c, In c cs /\ relevant bp s c) \/ (forall c, In c cs -> ~ relevant bp s c)).
    { assert (D : forall c, In c cs -> relevant bp s c \/ ~ relevant bp s c).
      { intros c I. unfold relevant.
        assert (Nk : nkey c <> []) by (intros E; apply (@key_ok_nil); rewrite <- E; apply KO; exact I).
        destruct (negb (Nat.eqb (match_count (nkey c) s) 0) && Nat.eqb (match_count (nkey c) s) (blen (nkey c))) eqn:E.
        - apply match_count_full in E; [|exact Nk]. destruct bp; [left; auto|].
          destruct (is_param c) eqn:P.
          + right. intros [_ [F|L]]; [discriminate|]. apply lit_not_param in L. congruence.
          + destruct (str_eqb_spec (nkey c) s_star) as [S|S].
            * right. intros [_ [F|L]]; [discriminate|]. apply lit_not_star in L. congruence.
            * left. split; [exact E|]. right. apply not_special_lit; auto.
        - right. intros [PR _]. apply (match_count_full (nkey c) s Nk) in PR. congruence. }
      clear K KO PA. induction cs as [|c cs IH]; [right; intros c []|].
      destruct (D c (or_introl eq_refl)) as [R|NR]; [left; exists c; split; [left; reflexivity|exact R]|].
      destruct IH as [(d & I & R)|N].
      - intros d I. apply D. right. exact I.
      - left. exists d. split; [right; exact I|exact R].
      - right. intros d [<-|I]; auto. }
    assert (PD : (exists c, In c cs /\ is_param c = true) \/ (forall c, In c cs -> is_param c = false)).
    { clear. induction cs as [|c cs IH]; [right; intros c []|].
      destruct (is_param c) eqn:P; [left; exists c; split; [left; reflexivity|exact P]|].
      destruct IH as [(d & I & R)|N].
      - left. exists d. split; [right; exact I|exact R].
      - right. intros d [<-|I]; auto. }
    destruct bp.
    - right. split; [discriminate|]. destruct RD as [(c & I & R)|N]; [left|right; exact N].
      apply in_split in I as (l1 & l2 & ->). eauto.
    - destruct PD as [(c & I & P)|NP].
      + left. split; [reflexivity|]. pose proof (PA c I P) as E.
        unfold is_param in P. apply starts_colon_spec in P as [nm P]. eauto.
      + right. split; [auto|]. destruct RD as [(c & I & R)|N]; [left|right; exact N].
        apply in_split in I as (l1 & l2 & ->). eauto.
  Qed.

  Lemma star_child_spec cs (f : node) v : kids_ok cs ->
    (star_child cs = Some (f, v) <-> In f cs /\ nkey f = s_star /\ nval f = Some v).
  Proof.
    intros K. split.
    - clear K. induction cs as [|c cs IH]; cbn [star_child]; [discriminate|].
      destruct (str_eqb_spec (nkey c) s_star) as [E|N].
      + destruct (nval c) as [w|] eqn:Ev.
        * intros X. injection X as -> ->. simpl. auto.
        * intros X. destruct (IH X) as (? & ? & ?). simpl. auto.
      + intros X. destruct (IH X) as (? & ? & ?). simpl. auto.
    - intros (I & E & Ev). assert (U : forall d, In d cs -> nkey d = s_star -> d = f).
      { intros d Id Ed. eapply is_star_unique; eauto. }
      clear K. induction cs as [|c cs IH]; cbn [star_child]; [contradiction|].
      destruct (str_eqb_spec (nkey c) s_star) as [Ec|N].
      + assert (c = f) by (apply U; [left; reflexivity|exact Ec]). subst c. rewrite Ev. reflexivity.
      + destruct I as [->|I]; [contradiction|]. apply IH; [exact I|]. intros d Id. apply U. right. exact Id.
  Qed.

  Lemma an_star (n f : node) : In f (nkids n) -> nkey f = s_star -> an n [Star] f (val_mws (nval f)).
  Proof.
    intros I E. change (an n ([Star] ++ []) f ([] ++ val_mws (nval f))).
    replace [Star] with (kt f) by (unfold kt; rewrite E; reflexivity).
    apply an_kid; [exact I|constructor].
  Qed.

  (** The hits of a node through its relevant child. *)
  Section Via.
    Variables (n c : node) (bp : bool) (s s' : str) (R : list str).
    Hypothesis W : wf n.
    Hypothesis I : In c (nkids n).
    Hypothesis RL : relevant bp s c.
    Hypothesis Es : s = nkey c ++ s'.

    Let b1 := negb (is_empty s').
    Let R1 := rest_of s' R.

    Lemma ex_via f ts ps : exN n bp (s :: R) f ts ps <-> exists ts', ts = kt c ++ ts' /\ exN c b1 R1 f ts' ps.
    Proof.
      unfold exN. split.
      - intros (l & D & V). apply (rdN_lit n c bp s s' R) in D as (ts' & -> & D); auto. eauto.
      - intros (ts' & -> & l & D & V). exists l. split; [|exact V].
        apply (rdN_lit n c bp s s' R); auto. eauto.
    Qed.

    Lemma be_via f ts ps : beN n bp (s :: R) f ts ps <-> exists ts', ts = kt c ++ ts' /\ beN c b1 R1 f ts' ps.
    Proof.
      unfold beN. split.
      - intros (g & ts0 & D & V & J & K & L & ->). apply (rdN_lit n c bp s s' R) in D as (ts' & -> & D); auto.
        exists (ts' ++ [Star]). split; [symmetry; apply app_assoc|]. exists g, ts'. repeat split; auto.
      - intros (ts' & -> & g & ts0 & D & V & J & K & L & ->). exists g, (kt c ++ ts0).
        repeat split; auto; [|apply app_assoc]. apply (rdN_lit n c bp s s' R); auto. eauto.
    Qed.

    (** Number of segments read, seen from the child. *)
    Definition kk (k : nat) : nat := if is_empty s' then k - 1 else k.

    Lemma wi_via k f ts ps : 0 < k ->
      (wiN n bp (s :: R) k f ts ps <->
       exists ts', ts = kt c ++ ts' /\ wiN c b1 R1 (kk k) f ts' ps).
    Proof.
      intros P. destruct k as [|k]; [lia|]. unfold wiN.
      assert (L : S k < length (s :: R) <-> kk (S k) < length R1).
      { unfold kk, R1. destruct s'; simpl; lia. }
      assert (F : firstn (kk (S k)) R1 = rest_of s' (firstn k R)).
      { unfold kk, R1. destruct s'; simpl; [rewrite Nat.sub_0_r; reflexivity|reflexivity]. }
      rewrite F. setoid_rewrite <- L. cbn [firstn]. split.
      - intros (LT & g & ts0 & l & D & J & K & ->).
        apply (rdN_lit n c bp s s' (firstn k R)) in D as (ts' & -> & D); auto.
        exists (ts' ++ [Star]). split; [symmetry; apply app_assoc|]. split; [exact LT|]. exists g, ts', l. auto.
      - intros (ts' & -> & LT & g & ts0 & l & D & J & K & ->). split; [exact LT|].
        exists g, (kt c ++ ts0), l. repeat split; auto; [|apply app_assoc].
        apply (rdN_lit n c bp s s' (firstn k R)); auto. eauto.
    Qed.

    Lemma noX_via : noX n bp (s :: R) <-> noX c b1 R1.
    Proof.
      unfold noX. split; intros [A B]; split; intros f ts ps X.
      - apply (A f (kt c ++ ts) ps). apply ex_via. eauto.
      - apply (B f (kt c ++ ts) ps). apply be_via. eauto.
      - apply ex_via in X as (ts' & _ & X). exact (A _ _ _ X).
      - apply be_via in X as (ts' & _ & X). exact (B _ _ _ X).
    Qed.
  End Via.

  (** [k = 0]: the star among the own children. *)
  Lemma wi_zero n bp R f ts ps : R <> [] ->
    (wiN n bp R 0 f ts ps <-> bp = false /\ In f (nkids n) /\ nkey f = s_star /\ ts = [Star] /\ ps = []).
  Proof.
    intros N. unfold wiN. cbn [firstn]. split.
    - intros (_ & g & ts0 & l & D & J & K & ->). apply rdN_nil in D as (-> & -> & -> & -> & _). auto.
    - intros (-> & J & K & -> & ->). split; [destruct R; [congruence|simpl; lia]|].
      exists n, [], true. split; [constructor|auto].
  Qed.

  Lemma find_star_app l1 l2 : find_star (l1 ++ l2) = match find_star l1 with Some c => Some c | None => find_star l2 end.
  Proof. unfold find_star. induction l1 as [|c l1 IH]; simpl; [reflexivity|]. destruct (str_eqb _ _); auto. Qed.

  (** What happens when the relevant child (if any) fails. *)
  Lemma fall_through n bp s R (cs : list node) ps mws key :
    wf n -> nkids n = cs -> noX n bp (s :: R) ->
    (forall k f ts bs, 0 < k -> ~ wiN n bp (s :: R) k f ts bs) ->
    sres_is n (s :: R) ps mws bp
      (match (if bp then None else find_star cs) with
       | Some c => SRet (Some c) key ps (mws ++ val_mws (nval c))
       | None => SRet None key ps mws
       end).
  Proof.
    intros W Ecs NX NW. destruct (if bp then None else find_star cs) as [c|] eqn:E.
    - right. destruct bp; [discriminate|]. apply find_star_Some in E as [I Ek].
      exists c, [Star], [], (val_mws (nval c)), key. split; [|split].
      + right. right. exists 0. split; [|split; [exact NX|]].
        * apply wi_zero; [discriminate|]. rewrite Ecs. auto.
        * intros k f ts bs X. destruct k as [|k]; [lia|]. exfalso. eapply NW; [|exact X]. lia.
      + apply an_star; [rewrite Ecs; exact I|exact Ek].
      + reflexivity.
    - left. split; [|eauto]. split; [exact NX|]. intros k f ts bs X. destruct k as [|k].
      + apply wi_zero in X as (-> & J & K & _); [|discriminate]. rewrite Ecs in J.
        eapply find_star_None; eauto.
      + eapply NW; [|exact X]. lia.
  Qed.

  Lemma get_next_spec (n : node) : wf n -> forall R bp ps mws,
    R <> [] -> (forall s, In s R -> s <> []) ->
    sres_is n R ps mws bp (get_next_node n R ps mws bp).
  Proof.
    induction n as [nk nv cs IH] using node_ind'. intros W R bp ps mws NR NE.
    destruct R as [|s R]; [congruence|]. clear NR.
    assert (Ns : s <> []) by (apply NE; left; reflexivity).
    cbn [get_next_node]. set (n := Node nk nv cs) in *.
    pose proof (wf_kids _ W) as K. change (nkids n) with cs in K. pose proof K as (KO & ND & PA & ST).
    assert (Nk : forall c, In c cs -> nkey c <> []) by (intros c I E; apply key_ok_nil; rewrite <- E; apply KO; exact I).
    rewrite Forall_forall in IH.
    destruct (child_cases cs bp s K Ns) as [[-> (c & nm & Ecs & Ec)]|(NP & [(l1 & c & l2 & Ecs & RL)|NRel])].
    - (* a parameter *)
      assert (Ic : In c cs) by (rewrite Ecs; left; reflexivity).
      assert (Wc : wf c) by (apply (wf_kid _ _ W); exact Ic).
      assert (Ip : is_param c = true) by (unfold is_param; rewrite Ec; reflexivity).
      assert (Kt : kt c = [Par nm]) by (unfold kt; rewrite Ec; reflexivity).
      assert (NS : forall f, In f cs -> nkey f <> s_star).
      { rewrite Ecs. intros f [<-|[]]. rewrite Ec. discriminate. }
      assert (PV : forall f ts bs last pv, rdN n false (s :: R) pv f ts bs last <->
                   exists ts' bs', ts = Par nm :: ts' /\ bs = (nm, s) :: bs' /\ rdN c false R false f ts' bs' last)
        by (intros; apply rdN_par; assumption).
      assert (NW0 : forall f ts bs, ~ wiN n false (s :: R) 0 f ts bs).
      { intros f ts bs X. apply wi_zero in X as (_ & J & E & _); [|discriminate]. exact (NS f J E). }
      rewrite Ecs. cbn [next_loop negb andb]. rewrite Ip.
      assert (Sl : slice_from (nkey c) 1 = Some nm).
      { rewrite Ec. apply (slice_from_app [c_colon] nm). }
      destruct R as [|s2 R].
      + cbn [is_empty]. destruct (nval c) as [v|] eqn:Ev.
        * rewrite Sl. right. exists c, [Par nm], [(nm, s)], (rv_mws v), []. split; [|split].
          -- left. exists false. split; [|congruence]. apply PV. exists [], []. repeat split. constructor.
          -- change (rv_mws v) with (@nil M ++ val_mws (Some v)). rewrite <- Ev.
             replace [Par nm] with (kt c ++ []) by (rewrite Kt; reflexivity).
             apply an_kid; [exact Ic|constructor].
          -- reflexivity.
        * left. split; [|exists []; reflexivity]. split; [split|].
          -- intros f ts bs (l & D & V). apply PV in D as (ts' & bs' & _ & _ & D).
             apply rdN_nil in D as (_ & -> & _). congruence.
          -- intros f ts bs (g & ts0 & D & _). apply PV in D as (ts' & bs' & _ & _ & D).
             apply rdN_nil in D as (_ & _ & _ & _ & D). discriminate.
          -- intros k f ts bs X. destruct k as [|k]; [exact (NW0 _ _ _ X)|].
             destruct X as [L _]. simpl in L. lia.
      + cbn [is_empty].
        assert (NE' : forall x, In x (s2 :: R) -> x <> []) by (intros x I; apply NE; right; exact I).
        assert (EV : forall f ts bs, exN n false (s :: s2 :: R) f ts bs <->
                     exists ts' bs', ts = Par nm :: ts' /\ bs = (nm, s) :: bs' /\ exN c false (s2 :: R) f ts' bs').
        { intros f ts bs. unfold exN. split.
          - intros (l & D & V). apply PV in D as (ts' & bs' & -> & -> & D).
            exists ts', bs'. repeat split. exists l. split; [eapply rdN_pv; exact D|exact V].
          - intros (ts' & bs' & -> & -> & l & D & V). exists l. split; [|exact V].
            apply PV. exists ts', bs'. repeat split. eapply rdN_pv; exact D. }
        assert (BV : forall f ts bs, beN n false (s :: s2 :: R) f ts bs <->
                     exists ts' bs', ts = Par nm :: ts' /\ bs = (nm, s) :: bs' /\ beN c false (s2 :: R) f ts' bs').
        { intros f ts bs. unfold beN. split.
          - intros (g & ts0 & D & V & X). destruct X as (J & Kf & L & ->).
            apply PV in D as (ts' & bs' & -> & -> & D).
            exists (ts' ++ [Star]), bs'. repeat split. exists g, ts'. split; [eapply rdN_pv; exact D|auto].
          - intros (ts' & bs' & -> & -> & g & ts0 & D & V & J & Kf & L & ->).
            exists g, (Par nm :: ts0). split; [|repeat split; auto].
            apply PV. exists ts0, bs'. repeat split. eapply rdN_pv; exact D. }
        assert (WV : forall k f ts bs, wiN n false (s :: s2 :: R) (S k) f ts bs <->
                     exists ts' bs', ts = Par nm :: ts' /\ bs = (nm, s) :: bs' /\ wiN c false (s2 :: R) k f ts' bs').
        { intros k f ts bs. unfold wiN. cbn [firstn].
          assert (L : S k < length (s :: s2 :: R) <-> k < length (s2 :: R)) by (simpl; lia).
          rewrite L. split.
          - intros (LT & g & ts0 & l & D & J & Kf & ->).
            assert (PV' : exists ts' bs', ts0 = Par nm :: ts' /\ bs = (nm, s) :: bs' /\ rdN c false (firstn k (s2 :: R)) false g ts' bs' l)
              by (apply (rdN_par n c nm s (firstn k (s2 :: R)) true) in D; auto).
            destruct PV' as (ts' & bs' & -> & -> & D').
            exists (ts' ++ [Star]), bs'. repeat split; auto.
            destruct k as [|k].
            + apply rdN_nil in D' as (_ & -> & -> & -> & _). exists c, [], true. split; [constructor|auto].
            + exists g, ts', l. split; [eapply rdN_pv; exact D'|auto].
          - intros (ts' & bs' & -> & -> & LT & g & ts0 & l & D & J & Kf & ->).
            split; [exact LT|]. destruct k as [|k].
            + apply rdN_nil in D as (_ & -> & -> & -> & _). exists c, [Par nm], false.
              split; [|auto]. apply (rdN_par n c nm s []); auto. exists [], []. repeat split. constructor.
            + exists g, (Par nm :: ts0), l. split; [|auto].
              apply (rdN_par n c nm s (firstn (S k) (s2 :: R))); auto. exists ts0, bs'. repeat split.
              eapply rdN_pv; exact D. }
        assert (XV : noX n false (s :: s2 :: R) <-> noX c false (s2 :: R)).
        { unfold noX. split; intros [A B]; split; intros f ts bs X.
          - apply (A f (Par nm :: ts) ((nm, s) :: bs)). apply EV. eauto.
          - apply (B f (Par nm :: ts) ((nm, s) :: bs)). apply BV. eauto.
          - apply EV in X as (ts' & bs' & _ & _ & X). exact (A _ _ _ X).
          - apply BV in X as (ts' & bs' & _ & _ & X). exact (B _ _ _ X). }
        destruct (IH c Ic Wc (s2 :: R) false ps mws ltac:(discriminate) NE')
          as [((NX & NWc) & key' & E)|(f & ts & bs & l & key' & HT & A & E)]; rewrite E.
        * left. split; [|exists key'; reflexivity]. split; [apply XV; exact NX|].
          intros k f ts bs X. destruct k as [|k]; [exact (NW0 _ _ _ X)|].
          apply WV in X as (ts' & bs' & _ & _ & X). exact (NWc _ _ _ _ X).
        * rewrite Sl. right. exists f, (Par nm :: ts), ((nm, s) :: bs), (l ++ val_mws (nval c)), key'.
          split; [|split].
          -- destruct HT as [X|[X|(k & X & NX & MX)]].
             ++ left. apply EV. eauto.
             ++ right. left. apply BV. eauto.
             ++ right. right. exists (S k). split; [apply WV; eauto|]. split; [apply XV; exact NX|].
                intros k' f' ts' bs' X'. destruct k' as [|k']; [lia|].
                apply WV in X' as (ts2 & bs2 & _ & _ & X'). apply MX in X'. lia.
          -- change (Par nm :: ts) with ([Par nm] ++ ts). rewrite <- Kt. apply an_kid; assumption.
          -- rewrite app_assoc. reflexivity.
    - (* a literal child *)
      assert (Ic : In c cs) by (rewrite Ecs; apply in_elt).
      assert (Wc : wf c) by (apply (wf_kid _ _ W); exact Ic).
      pose proof RL as [[s' Es] BL].
      assert (L1 : forall d, In d l1 -> d <> c /\ (bp = false -> nkey d <> s_star)).
      { intros d Id. split.
        - intros ->. rewrite Ecs in ND. rewrite map_app in ND. simpl in ND. apply NoDup_remove_2 in ND.
          apply ND. apply in_or_app. left. apply (in_map (fun x => hd_error (kt x))). exact Id.
        - intros _ E. apply in_split in Id as (x & y & ->).
          assert (F : y ++ c :: l2 = []).
          { apply (ST x d (y ++ c :: l2)); [rewrite Ecs, <- app_assoc; reflexivity|exact E]. }
          destruct y; discriminate. }
      assert (L2 : forall d, In d l2 -> d <> c).
      { intros d Id ->. rewrite Ecs in ND. rewrite map_app in ND. simpl in ND. apply NoDup_remove_2 in ND.
        apply ND. apply in_or_app. right. apply (in_map (fun x => hd_error (kt x))). exact Id. }
      assert (IN : forall d, In d l1 \/ In d l2 -> In d cs).
      { intros d [J|J]; rewrite Ecs; apply in_or_app; simpl; auto. }
      assert (UN : forall d, In d cs -> prefix (nkey d) s -> d = c).
      { intros d J P. apply (kids_char_unique cs d c s K J Ic P). exists s'. exact Es. }
      assert (SK : forall rec key ps mws,
                 next_loop rec s bp cs key ps mws = next_loop rec s bp (c :: l2) key ps mws).
      { intros rec key ps0 mws0. rewrite Ecs at 1. clear Ecs. revert L1 IN. clear -Nk NP UN.
        induction l1 as [|d l1 IHl]; intros L1 IN; [reflexivity|]. rewrite <- app_comm_cons.
        rewrite step_irrelevant.
        - apply IHl; intros x J; [apply L1; right; exact J|]. apply IN. simpl. tauto.
        - apply Nk. apply IN. simpl. auto.
        - intros E. apply NP; [exact E|]. apply IN. simpl. auto.
        - apply L1. left. reflexivity.
        - intros P. apply UN in P; [|apply IN; simpl; auto]. apply (proj1 (L1 d (or_introl eq_refl)) P). }
      assert (LS : forall rec key ps mws, next_loop rec s bp l2 key ps mws =
                 match (if bp then None else find_star cs) with
                 | Some c => SRet (Some c) key ps (mws ++ val_mws (nval c))
                 | None => SRet None key ps mws
                 end).
      { intros rec key ps0 mws0. rewrite loop_star.
        - assert (F : bp = false -> find_star cs = find_star l2).
          { intros Eb. rewrite Ecs, find_star_app.
            destruct (find_star l1) as [d|] eqn:Ed.
            - apply find_star_Some in Ed as [Id Ed]. exfalso. exact (proj2 (L1 d Id) Eb Ed).
            - unfold find_star. cbn [find].
              destruct (str_eqb_spec (nkey c) s_star) as [E|_]; [|reflexivity].
              exfalso. destruct BL as [BL|BL]; [congruence|]. exact (lit_not_star _ BL E). }
          destruct bp; [reflexivity|]. rewrite F by reflexivity. reflexivity.
        - intros d J. apply Nk. apply IN. auto.
        - intros E d J. apply NP; [exact E|]. apply IN. auto.
        - intros d J _ P. apply (L2 d J). apply UN; [apply IN; auto|exact P]. }
      rewrite SK. cbn [next_loop].
      replace (negb bp && is_param c) with false
        by (destruct bp; [reflexivity|]; cbn [negb andb]; symmetry; apply NP; [reflexivity|exact Ic]).
      replace (negb bp && str_eqb (nkey c) s_star) with false.
      2:{ destruct bp; [reflexivity|]. cbn [negb andb]. symmetry. apply str_eqb_neq.
          destruct BL as [BL|BL]; [discriminate|]. apply lit_not_star. exact BL. }
      replace (match_count (nkey c) s) with (blen (nkey c)) by (rewrite Es; symmetry; apply match_count_prefix).
      rewrite Nat.eqb_refl. cbn [andb].
      replace (negb (Nat.eqb (blen (nkey c)) 0)) with true
        by (symmetry; apply negb_true_iff, Nat.eqb_neq; rewrite blen_0; apply Nk; exact Ic).
      cbn [andb].
      assert (BK : negb (Nat.eqb (blen (nkey c)) (blen s)) = negb (is_empty s')).
      { rewrite Es, blen_app. f_equal. destruct s' as [|x s']; cbn [is_empty].
        - apply Nat.eqb_eq. simpl. lia.
        - apply Nat.eqb_neq. assert (blen (x :: s') <> 0) by (rewrite blen_0; discriminate). lia. }
      rewrite BK.
      match goal with
      | |- context [match ?X with Some _ => _ | None => SPanic PSlice end] =>
          replace X with (Some (rest_of s' R))
      end.
      2:{ destruct s' as [|x s']; cbn [is_empty negb rest_of]; [reflexivity|].
          rewrite Es, slice_from_app. reflexivity. }
      pose proof (ex_via n c bp s s' R W Ic RL Es) as EV.
      pose proof (be_via n c bp s s' R W Ic RL Es) as BV.
      pose proof (fun k f ts bs => wi_via n c bp s s' R W Ic RL Es k f ts bs) as WV.
      pose proof (noX_via n c bp s s' R W Ic RL Es) as XV.
      destruct (rest_of s' R) as [|s2 R2] eqn:ER; cbn [is_empty].
      + (* everything is read *)
        assert (X : s' = [] /\ R = []) by (destruct s'; [auto|discriminate]). destruct X as [-> ->].
        cbn [is_empty negb] in EV, BV, XV.
        assert (NWk : forall k f ts bs, 0 < k -> ~ wiN n bp [s] k f ts bs).
        { intros k f ts bs P (L & _). simpl in L. lia. }
        destruct (nval c) as [v|] eqn:Ev.
        * right. exists c, (kt c ++ []), [], ([] ++ val_mws (nval c)), []. split; [|split].
          -- left. apply EV. exists []. split; [reflexivity|]. exists true. split; [constructor|congruence].
          -- apply an_kid; [exact Ic|constructor].
          -- rewrite Ev. reflexivity.
        * destruct (star_child (nkids c)) as [[d v]|] eqn:Esc.
          -- apply (star_child_spec _ _ _ (wf_kids _ Wc)) in Esc as (Id & Ed & Evd).
             right. exists d, (kt c ++ [Star]), [], (val_mws (nval d) ++ val_mws (nval c)), []. split; [|split].
             ++ right. left. apply BV. exists [Star]. split; [reflexivity|].
                exists c, []. split; [constructor|]. repeat split; auto. congruence.
             ++ apply an_kid; [exact Ic|]. apply an_star; assumption.
             ++ rewrite Ev, Evd. simpl. rewrite app_nil_r. reflexivity.
          -- rewrite LS. apply fall_through; auto. apply XV. split.
             ++ intros f ts bs (l & D & V). apply rdN_nil in D as (_ & -> & _). congruence.
             ++ intros f ts bs (g & ts0 & D & V & J & Kf & L & _). apply rdN_nil in D as (_ & -> & _).
                destruct (nval f) as [v|] eqn:Evf; [|congruence].
                assert (F : star_child (nkids c) = Some (f, v)) by (apply star_child_spec; auto using wf_kids).
                congruence.
      + assert (NE' : forall x, In x (s2 :: R2) -> x <> []).
        { intros x J. rewrite <- ER in J. destruct s' as [|x0 s']; cbn [rest_of] in J.
          - apply NE. right. exact J.
          - destruct J as [<-|J]; [discriminate|]. apply NE. right. exact J. }
        destruct (IH c Ic Wc (s2 :: R2) (negb (is_empty s')) ps mws ltac:(discriminate) NE')
          as [((NX & NWc) & key' & E)|(f & ts & bs & l & key' & HT & A & E)]; rewrite E.
        * rewrite LS. apply fall_through; auto.
          -- apply XV. exact NX.
          -- intros k f ts bs P X. apply WV in X as (ts' & _ & X); [|exact P]. exact (NWc _ _ _ _ X).
        * right. exists f, (kt c ++ ts), bs, (l ++ val_mws (nval c)), key'. split; [|split].
          -- destruct HT as [X|[X|(k & X & NX & MX)]].
             ++ left. apply EV. eauto.
             ++ right. left. apply BV. eauto.
             ++ right. right. exists (if is_empty s' then S k else k).
                assert (P : 0 < (if is_empty s' then S k else k)).
                { destruct s' as [|x s']; cbn [is_empty]; [lia|].
                  destruct k as [|k]; [|lia]. exfalso. cbn [is_empty negb] in X.
                  apply wi_zero in X as [X _]; [discriminate X|discriminate]. }
                split; [|split].
                ** apply WV; [exact P|]. exists ts. split; [reflexivity|].
                   unfold kk. destruct s'; cbn [is_empty] in *; [|exact X].
                   replace (S k - 1) with k by lia. exact X.
                ** apply XV. exact NX.
                ** intros k' f' ts' bs' X'. destruct k' as [|k']; [lia|].
                   apply WV in X' as (ts2 & _ & X'); [|lia]. apply MX in X'.
                   unfold kk in X'. destruct s'; cbn [is_empty] in *; lia.
          -- apply an_kid; assumption.
          -- rewrite app_assoc. reflexivity.
    - (* nothing *)
      assert (NRd : forall R pv f ts bs last, ~ rdN n bp (s :: R) pv f ts bs last).
      { intros. apply rdN_none; assumption. }
      rewrite loop_star.
      + apply fall_through; auto.
        * split.
          -- intros f ts bs (l & D & _). exact (NRd _ _ _ _ _ _ D).
          -- intros f ts bs (g & ts0 & D & _). exact (NRd _ _ _ _ _ _ D).
        * intros k f ts bs P (_ & g & ts0 & l & D & _). destruct k as [|k]; [lia|].
          cbn [firstn] in D. exact (NRd _ _ _ _ _ _ D).
      + exact Nk.
      + exact NP.
      + intros c I BS P. apply (NRel c I). split; [exact P|]. destruct BS as [Bt|NS]; [left; exact Bt|].
        destruct bp; [left; reflexivity|]. right. apply not_special_lit; auto.
  Qed.
End Search.
