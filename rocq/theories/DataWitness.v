(** Cases that meet the hypotheses of the theorems about typed data behind middlewares. *)

From Coq Require Import String.
From Verif Require Import Base RouteTrie Router TableSpec PropSpec TextSpec.
Local Open Scope string_scope.
Local Open Scope list_scope.

(** Three middlewares on the way to a route with a colon inside a segment. *)
Definition three_of {H M} (h : H) (m0 m1 m2 : M) : list (op H M) :=
  [ORoute GET (lit "/ac") h; OService m0; OServiceTo (lit "/a:b") m1; OServiceTo (lit "/a:b/:id") m2; ORoute GET (lit "/a:b/:id") h].

Lemma three_built {H M} (h : H) (m0 m1 m2 : M) : let l := three_of h m0 m1 m2 in let p := [lit "a:b"; lit ":id"] in
  (exists t, build l = (t, None)) /\ registered l p (CRoute GET h) /\ no_star p /\
  seg_match p (segments (lit "/a:b/7")) [(lit "id", lit "7")] /\
  text_mws (table_of l) (text p) = [m0; m2; m1].
Proof.
  intros l p. split; [eexists; vm_compute; reflexivity|]. split; [vm_compute; auto 10|].
  split; [intros [E|[E|[]]]; discriminate E|]. split; [|vm_compute; reflexivity].
  change (segments (lit "/a:b/7")) with [lit "a:b"; lit "7"]. constructor.
  - split; [discriminate|]. intros [x E]. discriminate E.
  - apply (sm_par (lit "id")). constructor.
Qed.
