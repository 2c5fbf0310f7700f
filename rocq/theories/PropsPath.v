(** Additions to C10 and C35: paths as pieces between slashes.

    Other statements speak of [segments p] and [join_slash l], which the model uses, too. Here
    they are characterised by [pieces p l]: [l] are the non-empty pieces between the slashes
    of [p]; and [joined l s]: [s] are the pieces [l] with one slash between any two of them
    ([PathSpec]). [serves_file h c path]: see [AppSpec]. *)

From Coq Require Import String.
From Verif Require Import Base RouteTrie Router TableSpec PropSpec Http App AppSpec PathSpec.
From Verif Require Import AppWitness PathLemmas.
Local Open Scope string_scope.
Local Open Scope list_scope.

(** * C10: the pieces of a path *)

Theorem C10_pieces : forall p l, segments p = l <-> pieces p l.
Proof. exact segments_pieces. Qed.
Print Assumptions C10_pieces.

Example C10_pieces_example : pieces (lit "//a//b/") [lit "a"; lit "b"] /\ ~ pieces (lit "//a//b/") [lit "a"; []; lit "b"].
Proof.
  split.
  - apply pc_slash, pc_slash. apply (pc_more (lit "a") (lit "/b/")); [discriminate|cbn; intuition discriminate|].
    apply pc_slash. apply (pc_more (lit "b") []); [discriminate|cbn; intuition discriminate|constructor].
  - intros P. apply segments_pieces in P. discriminate P.
Qed.

(** * C35: the name of the file *)

Theorem C35_joined : forall l s, joined l s <-> l <> [] /\ join_slash l = s.
Proof. exact joined_slash. Qed.
Print Assumptions C35_joined.

Example C35_joined_example : joined [lit "public"; lit "a"; lit "b.txt"] (lit "public/a/b.txt").
Proof. exact (jn_more (lit "public") _ _ (jn_more (lit "a") _ _ (jn_one (lit "b.txt")))). Qed.

Theorem C35_file : forall (X U A : Type) v vs d ds (c : context X) pre rest b file,
  pieces v vs -> pieces d ds -> pieces (rq_path (ctx_request c)) (pre ++ rest) -> no_star vs -> seg_match vs pre b ->
  joined (ds ++ rest) file -> serves_file (U:=U) (A:=A) (static_virtual_file_handler v d) c file.
Proof. exact (@static_file). Qed.
Print Assumptions C35_file.

Example C35_file_example : let c := context_new (@get_req unit (lit "/files//a")) [] in
  pieces (lit "/files") [lit "files"] /\ pieces (lit "./www/") [lit "."; lit "www"] /\
  pieces (rq_path (ctx_request c)) ([lit "files"] ++ [lit "a"]) /\ no_star [lit "files"] /\ seg_match [lit "files"] [lit "files"] [] /\
  joined ([lit "."; lit "www"] ++ [lit "a"]) (lit "./www/a").
Proof.
  intros c. split; [apply segments_pieces; reflexivity|]. split; [apply segments_pieces; reflexivity|].
  split; [apply segments_pieces; reflexivity|]. split; [vm_compute; intuition discriminate|].
  split; [constructor; [|constructor]; split; [discriminate|]; intros [r F]; discriminate F|].
  exact (jn_more (lit ".") _ _ (jn_more (lit "www") _ _ (jn_one (lit "a")))).
Qed.

(** The handler of [use_static] reads the file that the path of the request names. *)
Theorem C35_dir_file : forall (X U A : Type) file ps (c : context X), pieces (rq_path (ctx_request c)) ps -> joined ps file ->
  serves_file (U:=U) (A:=A) static_dir_file_handler c file.
Proof. exact (@dir_file). Qed.
Print Assumptions C35_dir_file.

Example C35_dir_file_example : let c := context_new (@get_req unit (lit "/public//a")) [] in
  pieces (rq_path (ctx_request c)) [lit "public"; lit "a"] /\ joined [lit "public"; lit "a"] (lit "public/a").
Proof. intros c. split; [apply segments_pieces; reflexivity|exact (jn_more (lit "public") _ _ (jn_one (lit "a")))]. Qed.
