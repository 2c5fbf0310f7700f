(** Lemmas about pieces of paths. *)

From Verif Require Import Base BaseFacts RouteTrie Router TableSpec PropSpec Http App AppSpec PathSpec.
From Verif Require Import RouteFacts RouteLemmas AppLemmas AppLemmas2 AppLemmas3 AppLemmas4.

Lemma filter_some (a : str) : a <> [] -> negb (is_empty a) = true.
Proof. destruct a; [congruence|reflexivity]. Qed.

Lemma pieces_segments p l : pieces p l -> segments p = l.
Proof.
  unfold segments. induction 1 as [|r l _ IH|a N S|a r l N S _ IH].
  - reflexivity.
  - exact IH.
  - rewrite (split_on_nosep c_slash a S). cbn [filter]. rewrite (filter_some a N). reflexivity.
  - etransitivity; [apply (f_equal (filter _)); exact (split_on_app c_slash a r S)|]. cbn [filter]. rewrite (filter_some a N). exact (f_equal (cons a) IH).
Qed.

(** The first piece and what follows it. *)
Lemma cut (p : str) : ~ In 47%N p \/ exists a r, p = a ++ 47%N :: r /\ ~ In 47%N a.
Proof.
  destruct (in_dec N.eq_dec 47%N p) as [I|I]; [right|left; exact I]. induction p as [|c p IH]; [destruct I|].
  destruct (N.eq_dec c 47%N) as [->|Nc]; [exists [], p; split; [reflexivity|intros []]|].
  destruct I as [E|I]; [congruence|]. destruct (IH I) as (a & r & -> & A). exists (c :: a), r. split; [reflexivity|].
  intros [E|J]; [congruence|exact (A J)].
Qed.

Lemma pieces_total : forall n p, length p <= n -> exists l, pieces p l.
Proof.
  induction n as [|n IH]; intros p L.
  - destruct p; [exists []; constructor|]. inversion L.
  - destruct (cut p) as [N|(a & r & -> & N)].
    + destruct p as [|c p]; [exists []; constructor|]. exists [c :: p]. constructor; [discriminate|exact N].
    + rewrite app_length in L. cbn [length] in L. assert (Lr : length r <= n).
      { rewrite <- plus_n_Sm in L. apply le_S_n in L. apply (Nat.le_trans _ (length a + length r)); [|exact L]. rewrite Nat.add_comm. apply Nat.le_add_r. }
      destruct (IH r Lr) as [l P].
      destruct a as [|c a]; [exists l; constructor; exact P|]. exists ((c :: a) :: l). constructor; [discriminate|exact N|exact P].
Qed.

Lemma segments_pieces p l : segments p = l <-> pieces p l.
Proof.
  split; [|apply pieces_segments]. intros <-. destruct (pieces_total (length p) p (le_n _)) as [l P].
  rewrite (pieces_segments p l P). exact P.
Qed.

Lemma joined_slash l s : joined l s <-> l <> [] /\ join_slash l = s.
Proof.
  split.
  - induction 1 as [a|a l s J [N E]]; [split; [discriminate|reflexivity]|]. split; [discriminate|].
    destruct l as [|b l]; [congruence|]. rewrite <- E. reflexivity.
  - intros [N <-]. induction l as [|a [|b l] IH]; [congruence|constructor|].
    change (join_slash (a :: b :: l)) with (a ++ 47%N :: join_slash (b :: l)). constructor. apply IH. discriminate.
Qed.

Section Static.
  Context {X U A : Type}.

  Lemma static_file v vs d ds (c : context X) pre rest b file :
    pieces v vs -> pieces d ds -> pieces (rq_path (ctx_request c)) (pre ++ rest) -> no_star vs -> seg_match vs pre b ->
    joined (ds ++ rest) file -> serves_file (U:=U) (A:=A) (static_virtual_file_handler v d) c file.
  Proof.
    intros V D P N S J. apply segments_pieces in V as <-. apply segments_pieces in D as <-. apply segments_pieces in P.
    apply joined_slash in J as [_ <-]. exact (static_matched v d c pre rest b N S P).
  Qed.

  Lemma dir_file d ds (c : context X) : pieces (rq_path (ctx_request c)) ds -> joined ds d ->
    serves_file (U:=U) (A:=A) static_dir_file_handler c d.
  Proof. intros P J. apply segments_pieces in P. apply joined_slash in J as [_ <-]. rewrite <- P. exact (dir_served c). Qed.
End Static.
