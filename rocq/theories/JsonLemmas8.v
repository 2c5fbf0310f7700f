(** A document gives at most one value of a type. *)

From Coq Require Import String Lia ZArith Permutation.
From Verif Require Import Base BaseFacts Utf8 RouteTrie Http Form Json JsonSpec JsonLemmas JsonLemmas2 JsonLemmas3 JsonLemmas4 JsonLemmas5.
Local Open Scope list_scope.

(** ** Maps *)

Fixpoint picked {A} (k : str) (m : list (str * A)) : option A :=
  match m with [] => None | (k', x) :: r => if str_eqb k k' then Some x else picked k r end.

Lemma picked_in {A} k (x : A) m : picked k m = Some x -> In (k, x) m.
Proof.
  induction m as [|[k' y] m IH]; [discriminate|]. cbn [picked]. destruct (str_eqb_spec k k') as [->|]; intros E; [injection E as ->; left; reflexivity|right; exact (IH E)].
Qed.

Lemma picked_some {A} k (m : list (str * A)) : In k (map fst m) -> exists x, picked k m = Some x.
Proof.
  induction m as [|[k' y] m IH]; intros I; [destruct I|]. cbn [picked]. destruct (str_eqb_spec k k') as [->|N]; [eexists; reflexivity|].
  destruct I as [E|I]; [cbn in E; congruence|exact (IH I)].
Qed.

Lemma nodup_same {A} (k : str) (x y : A) m : NoDup (map fst m) -> In (k, x) m -> In (k, y) m -> x = y.
Proof.
  induction m as [|[k' z] m IH]; intros D I J; [destruct I|]. cbn [map fst] in D. inversion D as [|? ? NI D']; subst.
  destruct I as [E|I], J as [E'|J].
  - congruence.
  - injection E as -> ->. destruct NI. apply in_map_iff. exists (k, y). auto.
  - injection E' as -> ->. destruct NI. apply in_map_iff. exists (k, x). auto.
  - exact (IH D' I J).
Qed.

Lemma nodup_pairs {A} (m : list (str * A)) : NoDup (map fst m) -> NoDup m.
Proof.
  induction m as [|[k x] m IH]; intros D; constructor; inversion D as [|? ? NI D']; subst; [|exact (IH D')].
  intros I. apply NI. apply in_map_iff. exists (k, x). auto.
Qed.

Lemma same_length {A B} (R : A -> B -> Prop) l l' : Forall2 R l l' -> length l = length l'.
Proof. induction 1; cbn; congruence. Qed.

(** Two maps with the same keys, whose values under a key are related, are related entry by
    entry after reordering one of them. *)
Lemma reorder {A B} (R : A -> B -> Prop) (m : list (str * A)) (m' : list (str * B)) :
  NoDup (map fst m) -> NoDup (map fst m') -> (forall k, In k (map fst m) <-> In k (map fst m')) ->
  (forall k x y, In (k, x) m -> In (k, y) m' -> R x y) ->
  exists n, Permutation m n /\ Forall2 (fun a b => fst a = fst b /\ R (snd a) (snd b)) n m'.
Proof.
  intros D D' K H.
  assert (Q : forall l : list (str * B), incl l m' -> exists n, map fst n = map fst l /\ incl n m /\ Forall2 (fun a b => fst a = fst b /\ R (snd a) (snd b)) n l).
  { induction l as [|[k y] l IH]; intros I; [exists []; repeat split; [intros x []|constructor]|].
    destruct (IH ltac:(intros x X; apply I; right; exact X)) as (n & E & IN & F).
    assert (IK : In k (map fst m)) by (apply K; apply in_map_iff; exists (k, y); split; [reflexivity|apply I; left; reflexivity]).
    destruct (picked_some k m IK) as (x & P). apply picked_in in P. exists ((k, x) :: n). split; [cbn; f_equal; exact E|]. split.
    - intros z [<-|Z]; [exact P|exact (IN z Z)].
    - constructor; [|exact F]. split; [reflexivity|]. cbn [snd]. apply (H k); [exact P|apply I; left; reflexivity]. }
  destruct (Q m' (fun x X => X)) as (n & E & IN & F). exists n. split; [|exact F].
  apply NoDup_Permutation; [apply nodup_pairs; exact D|apply nodup_pairs; rewrite E; exact D'|].
  intros [k x]. split; [|apply IN]. intros I.
  assert (IK : In k (map fst n)) by (rewrite E; apply K; apply in_map_iff; exists (k, x); auto).
  destruct (picked_some k n IK) as (y & P). apply picked_in in P. rewrite (nodup_same k x y m D I (IN _ P)). exact P.
Qed.

Lemma last_unique {A} k (l : list (str * A)) x y : last_named k l x -> last_named k l y -> x = y.
Proof. intros (a & E) (b & E'). rewrite E in E'. apply app_inj_tail in E'. apply E'. Qed.

Lemma last_related {A B} (R : A -> B -> Prop) ks : forall ys zs, Forall2 R ys zs -> forall k x y,
  last_named k (combine ks ys) x -> last_named k (combine ks zs) y -> R x y.
Proof.
  intros ys zs F k x y (a & E) (b & E').
  assert (G : Forall2 R (members_named k (combine ks ys)) (members_named k (combine ks zs))).
  { clear - F. revert ys zs F. induction ks as [|k' ks IH]; intros ys zs F; [constructor|]. destruct F as [|u w ys zs U F]; [constructor|].
    unfold members_named in *. cbn [combine filter fst]. destruct (str_eqb k' k); cbn [map snd]; [constructor; [exact U|]|]; apply IH; exact F. }
  rewrite E, E' in G. apply Forall2_app_inv_l in G. destruct G as (c & e & _ & G & Q). inversion G as [|? ? ? ? U G']; subst. inversion G'; subst.
  apply app_inj_tail in Q. destruct Q as [_ ->]. exact U.
Qed.

Lemma keys_combine {A} (ks : list str) : forall ys : list A, length ys = length ks -> map fst (combine ks ys) = ks.
Proof. induction ks as [|k ks IH]; intros [|y ys] L; try discriminate; [reflexivity|]. cbn. f_equal. apply IH. cbn in L. lia. Qed.

Lemma maps_related {A} (R : A -> A -> Prop) (ks : list str) ys zs m m' : length ys = length ks -> Forall2 R ys zs ->
  holds_last eq (combine ks ys) m -> holds_last eq (combine ks zs) m' ->
  exists n, Permutation m n /\ Forall2 (fun a b => fst a = fst b /\ R (snd a) (snd b)) n m'.
Proof.
  intros L F (D & K & V) (D' & K' & V'). assert (L' : length zs = length ks) by (rewrite <- L; symmetry; eapply same_length; exact F).
  rewrite (keys_combine ks ys L) in K. rewrite (keys_combine ks zs L') in K'.
  apply reorder; [exact D|exact D'|intros k; rewrite K, K'; reflexivity|].
  intros k x y I I'. destruct (V k x I) as (x' & LX & ->). destruct (V' k y I') as (y' & LY & ->). exact (last_related R ks ys zs F k x y LX LY).
Qed.

Lemma Forall2_pair {A B} (P : A -> B -> Prop) (R : B -> B -> Prop) l : (forall x y z, In x l -> P x y -> P x z -> R y z) ->
  forall ys zs, Forall2 P l ys -> Forall2 P l zs -> Forall2 R ys zs.
Proof.
  induction l as [|x l IH]; intros H ys zs Y Z; inversion Y; inversion Z; subst; constructor.
  - eapply H; [left; reflexivity|eassumption|eassumption].
  - apply IH; [intros; eapply H; [right|..]; eassumption|assumption|assumption].
Qed.

Section Unique.
  Context {F : Type}.
  Context (float_lit : bytes -> option F) (float_int : Z -> F) (zero_float : bool).
  Notation doc := (doc F). Notation jval := (jval F). Notation jty := (jty F).
  Notation denotes := (denotes float_lit zero_float).
  Notation doc_fits := (doc_fits float_lit zero_float).
  Notation fits := (fits float_lit float_int zero_float).
  Notation field := (str * option jval * jty)%type.
  Notation fname := (fun f : field => fst (fst f)).
  Notation obj_fits := (obj_fits float_lit float_int zero_float).
  Notation seq_fits := (seq_fits float_lit float_int zero_float).
  Notation tuple_fits := (tuple_fits float_lit float_int zero_float).

  Lemma denotes_one neg n tl x y : denotes neg n tl x -> denotes neg n tl y -> x = y.
  Proof. intros A B. apply number_denotes in A. apply number_denotes in B. congruence. Qed.

  Lemma doc_fits_one j : forall d d', doc_fits j d -> doc_fits j d' -> same_doc d d'.
  Proof.
    induction j as [| | | |l IH|l IH] using json_ind'; intros d d' A B.
    - rewrite A, B. constructor.
    - rewrite A, B. constructor.
    - destruct A as (x & X & ->), B as (y & Y & ->). rewrite (denotes_one _ _ _ _ _ X Y). constructor.
    - rewrite A, B. constructor.
    - apply doc_fits_arr in A. apply doc_fits_arr in B. destruct A as (ds & -> & A), B as (es & -> & B). apply sd_arr.
      rewrite Forall_forall in IH. eapply Forall2_pair; [|exact A|exact B]. intros x y z I. exact (IH x I y z).
    - apply doc_fits_obj in A. apply doc_fits_obj in B. destruct A as (ds & m & -> & A & HA), B as (es & m' & -> & B & HB).
      assert (R : Forall2 same_doc ds es) by (rewrite Forall_forall in IH; eapply Forall2_pair; [|exact A|exact B]; intros x y z I; exact (IH x I y z)).
      destruct (maps_related same_doc (map fst l) ds es m m') as (n & P & Q); [rewrite map_length; symmetry; eapply same_length; exact A|exact R|exact HA|exact HB|].
      exact (sd_obj m n m' P Q).
  Qed.

  Definition one_at (t : jty) : Prop := forall j v w, fits t j v -> fits t j w -> same_val v w.

  Lemma obj_one l : forall fs, Forall (fun f => one_at (snd f)) fs -> forall ys zs, obj_fits l fs ys -> obj_fits l fs zs ->
    Forall2 (fun a b => fst a = fst b /\ same_val (snd a) (snd b)) (combine (map fname fs) ys) (combine (map fname fs) zs).
  Proof.
    induction 1 as [|[[n df] t] fs HF _ IH]; intros ys zs A B; [constructor|]. destruct ys as [|y ys]; [destruct A|]. destruct zs as [|z zs]; [destruct B|].
    destruct A as [A1 A], B as [B1 B]. cbn [map combine]. constructor; [|exact (IH ys zs A B)]. split; [reflexivity|]. cbn [fst snd] in *.
    destruct A1 as [(x & NX & FX)|(NX & MX)], B1 as [(x' & NX' & FX')|(NX' & MX')]; try congruence.
    - rewrite NX in NX'. injection NX' as ->. exact (HF _ _ _ FX FX').
    - apply missing_iff in MX. apply missing_iff in MX'. rewrite MX in MX'. injection MX' as ->. constructor.
  Qed.

  Lemma seq_one : forall fs, Forall (fun f => one_at (snd f)) fs -> forall l ys zs, seq_fits fs l ys -> seq_fits fs l zs ->
    Forall2 (fun a b => fst a = fst b /\ same_val (snd a) (snd b)) (combine (map fname fs) ys) (combine (map fname fs) zs).
  Proof.
    induction 1 as [|[[n df] t] fs HF _ IH]; intros l ys zs A B; [constructor|].
    destruct l as [|x l], ys as [|y ys], zs as [|z zs]; try (destruct A; fail); try (destruct B; fail); destruct A as [A1 A], B as [B1 B];
      cbn [map combine]; (constructor; [|exact (IH _ ys zs A B)]); (split; [reflexivity|]); cbn [fst snd] in *.
    - rewrite A1 in B1. injection B1 as ->. constructor.
    - exact (HF _ _ _ A1 B1).
  Qed.

  Lemma tuple_one : forall ts, Forall one_at ts -> forall l ys zs, tuple_fits ts l ys -> tuple_fits ts l zs -> Forall2 same_val ys zs.
  Proof.
    induction 1 as [|t ts HT _ IH]; intros [|x l] [|y ys] [|z zs] A B; try (destruct A; fail); try (destruct B; fail); [constructor|].
    destruct A as [A1 A], B as [B1 B]. constructor; [exact (HT _ _ _ A1 B1)|exact (IH l ys zs A B)].
  Qed.

  Lemma fits_one t : sound_type t -> one_at t.
  Proof.
    induction t as [|i| | |t IH|t IH|t IH|deny fs IH| | | |ts IH|vs IH] using jty_ind'; intros ST j v w A B.
    - destruct A as (b & -> & ->), B as (b' & E & ->). injection E as ->. constructor.
    - destruct A as (neg & n & tl & z & -> & D & _ & ->), B as (neg' & n' & tl' & z' & E & D' & _ & ->). injection E as <- <- <-.
      pose proof (denotes_one _ _ _ _ _ D D') as Q. injection Q as ->. constructor.
    - destruct A as (neg & n & tl & -> & A), B as (neg' & n' & tl' & E & B). injection E as <- <- <-.
      destruct A as [(f & D & ->)|(f & D & ->)], B as [(f' & D' & ->)|(f' & D' & ->)]; pose proof (denotes_one _ _ _ _ _ D D') as Q; try discriminate; injection Q as ->; constructor.
    - destruct A as (b & -> & ->), B as (b' & E & ->). injection E as ->. constructor.
    - destruct A as [(-> & ->)|(N & y & FY & ->)], B as [(E & ->)|(N' & z & FZ & ->)]; try congruence; constructor. exact (IH ST _ _ _ FY FZ).
    - destruct A as (l & ys & -> & A & ->), B as (l' & zs & E & B & ->). injection E as <-. apply sv_seq. eapply Forall2_pair; [|exact A|exact B].
      intros x y z _. exact (IH ST x y z).
    - destruct A as (l & ys & m & -> & A & HA & ->), B as (l' & zs & m' & E & B & HB & ->). injection E as <-.
      assert (R : Forall2 same_val ys zs) by (eapply Forall2_pair; [|exact A|exact B]; intros x y z _; exact (IH ST x y z)).
      destruct (maps_related same_val (map fst l) ys zs m m') as (n & P & Q); [|exact R|exact HA|exact HB|exact (sv_map m n m' P Q)].
      apply same_length in A. rewrite map_length in *. lia.
    - destruct (sound_fields deny fs ST) as [_ SF].
      assert (IH' : Forall (fun f => one_at (snd f)) fs).
      { clear - IH SF. induction IH as [|f fs H _ IHF]; inversion SF; subst; constructor; auto. }
      apply fits_struct in A. apply fits_struct in B.
      destruct A as [(l & ys & -> & -> & _ & A)|(l & ys & -> & -> & A)], B as [(l' & zs & E & -> & _ & B)|(l' & zs & E & -> & B)]; try discriminate; injection E as <-; apply sv_struct.
      + exact (obj_one l fs IH' ys zs A B).
      + exact (seq_one fs IH' l ys zs A B).
    - destruct A as (d & A & ->), B as (d' & B & ->). apply sv_doc. exact (doc_fits_one j d d' A B).
    - destruct A as (_ & ->), B as (_ & ->). constructor.
    - destruct A as (b & -> & ->), B as (b' & E & ->). injection E as ->. constructor.
    - apply sound_tuple in ST. assert (IH' : Forall one_at ts) by (clear - IH ST; induction IH; inversion ST; subst; constructor; auto).
      apply fits_tuple in A. apply fits_tuple in B. destruct A as (l & ys & -> & -> & A), B as (l' & zs & E & -> & B). injection E as <-. apply sv_tuple. exact (tuple_one ts IH' l ys zs A B).
    - destruct (sound_enum vs ST) as [D SV]. rewrite Forall_forall in IH. apply fits_enum in A. apply fits_enum in B.
      destruct A as [(n & I & A & ->)|(n & t & x & y & I & -> & FX & ->)], B as [(n' & I' & B & ->)|(n' & t' & x' & y' & I' & B & FX' & ->)].
      + destruct A as [->| ->], B as [E|E]; try discriminate; injection E as ->; constructor.
      + subst j. destruct A as [E|E]; [discriminate|]. injection E as <- _. pose proof (nodup_same _ _ _ _ D I I'). discriminate.
      + destruct B as [E|E]; [discriminate|]. injection E as <- _. pose proof (nodup_same _ _ _ _ D I I'). discriminate.
      + injection B as <- <-. pose proof (nodup_same _ _ _ _ D I I') as Q. injection Q as <-. apply sv_enum. exact (IH _ I (SV _ _ I) _ _ _ FX FX').
  Qed.
End Unique.
