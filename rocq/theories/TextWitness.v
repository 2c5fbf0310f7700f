(** An accepted router with boundaries right before colons inside segments. *)

From Coq Require Import String.
From Verif Require Import Base RouteTrie Router TableSpec PropSpec TextSpec.
Local Open Scope string_scope.
Local Open Scope list_scope.

Definition exu : list (op nat nat) :=
  [OService 100; ORoute GET (lit "/ac") 1; ORoute GET (lit "/a:b") 2; OServiceTo (lit "/a:b") 101;
   ORoute GET (lit "/a:b/x") 3; OServiceTo (lit "/a:b/x") 102; ORoute GET (lit "/a:b/*") 4; ORoute GET (lit "/a:b/x/*") 5;
   ORoute GET (lit "/files/*") 6].

Definition exu_t : trie nat nat := Eval vm_compute in fst (build exu).

Lemma exu_build : build exu = (exu_t, None).
Proof. vm_compute. reflexivity. Qed.

(** Below "a" the lookup for "/a/c/y" first tries "c" as a value of ":b"; the attempt
    removes "y" and fails; then "c" matches with nothing left to match. *)
Lemma w_dropped : exists (l : list (op nat nat)) t path r p h,
  build l = (t, None) /\ search_route t path = LSome r /\ rr_get_route r GET = Some (Route GET h) /\
  (forall p', registered l p' (CRoute GET h) -> p' = p) /\ literal p /\ text (segments path) <> text p /\
  length (segments path) <> length p.
Proof.
  exists [ORoute GET (lit "/ac") 1; ORoute GET (lit "/a:b") 2]. eexists. exists (lit "/a/c/y"). eexists. exists [lit "ac"], 1.
  split; [vm_compute; reflexivity|]. split; [vm_compute; reflexivity|]. split; [vm_compute; reflexivity|].
  split; [|split; [|split; vm_compute; discriminate]].
  - intros p' I. vm_compute in I. destruct I as [I|[I|[]]]; [injection I as <-; reflexivity|discriminate I].
  - intros s [<-|[]]. split; [discriminate|]. intros [x E]. discriminate E.
Qed.

(** A middleware on the way to a route, both at a colon inside a segment. *)
Definition colons_of {H M} (h : H) (m : M) : list (op H M) :=
  [ORoute GET (lit "/ac") h; OServiceTo (lit "/a:b") m; ORoute GET (lit "/a:b/:id") h].
Lemma colons_built {H M} (h : H) (m : M) : let l := colons_of h m in
  (exists t, build l = (t, None) /\ search_route t (lit "/a:b/7") = LSome (RR (RV [m] [(GET, Route GET h)]) [(lit "id", lit "7")])) /\
  registered l [lit "a:b"; lit ":id"] (CRoute GET h) /\ no_star [lit "a:b"; lit ":id"] /\
  seg_match [lit "a:b"; lit ":id"] (segments (lit "/a:b/7")) [(lit "id", lit "7")] /\
  text_mws (table_of l) (text [lit "a:b"; lit ":id"]) = [m].
Proof.
  cbv zeta. split; [eexists; split; vm_compute; reflexivity|]. split; [right; right; left; reflexivity|].
  split; [intros [E|[E|[]]]; discriminate E|]. split; [|reflexivity].
  change (seg_match [lit "a:b"; c_colon :: lit "id"] [lit "a:b"; lit "7"] [(lit "id", lit "7")]).
  constructor; [split; [discriminate|intros [? E]; discriminate]|]. constructor. constructor.
Qed.
