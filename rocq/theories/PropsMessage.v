(** C93: the panic of a rejected registration says which path was rejected and why.

    [says] ([MessageSpec]) is stated in terms of the paths registered before, as texts
    ([TextSpec]); [op_text] and [build_text] ([Messages]) are the texts of the panics of the
    code.  At the end: which calls are accepted, colons anywhere (C01),
    and for which reason the others are rejected (C52). *)

From Coq Require Import String.
From Verif Require Import Base RouteTrie Router Messages TableSpec TextSpec WireSpec MessageSpec MessageLemmas MessageWitness.
Local Open Scope string_scope.
Local Open Scope list_scope.

(** For any router built without a panic and any further call that is rejected: the text
    of the panic is the one that the paths registered before explain, and fits the reason
    [pn] (C52 tells which of several reasons it is). *)
Theorem C93_call : forall (H M : Type) (l : list (op H M)) t o pn, build l = (t, None) -> snd (run_op t o) = Some pn ->
  exists m, op_text t o = Some m /\ says (table_of l) o pn m.
Proof. exact (@call_message). Qed.
Print Assumptions C93_call.

(** The first text names "s", a piece of the segment "users": what is left of it after "user". *)
Example C93_call_example :
  let l : list (op nat nat) := [ORoute GET (lit "/user/:id") 1; ORoute (EXT (lit "PURGE")) (lit "/abc/d") 2; ORoute GET (lit "//") 3] in
  let t := fst (build l) in
  build l = (t, None) /\
  map (op_text t)
    [ORoute GET (lit "/users") 4; ORoute POST (lit "/user/:name") 4; OServiceTo (lit "ab/:x") 5; ORouter (lit "/user/x") [];
     ORoute (EXT (lit "PURGE")) (lit "a/bc/d/") 4; ORoute GET (lit "") 4; ORouter (lit "/ab") [OService 5]; ORouter (lit "/user/:id") [];
     ORoute GET (lit "/x*/y") 4; OServiceTo (lit "/*/y") 5; ORouter (lit "/ok") [ORoute PUT (lit "/b") 4; ORoute PUT (lit "/b") 4];
     ORoute POST (lit "/user/:id") 4] =
  [Some (lit "Insert Route: ERROR: Ambigous definition between s and :id at /users");
   Some (lit "Insert Route: ERROR: Ambigous definition between :name and :id at /user/:name");
   Some (lit "Middleware: ERROR: Ambigous definition between :x and c at ab/:x");
   Some (lit "SubRouter: ERROR: Ambigous definition between x and :id at /user/x");
   Some (lit "Duplicated route method 'PURGE' at 'a/bc/d/' detected");
   Some (lit "Duplicated route method 'GET' at '/' detected");
   Some (lit "There is conflict between main router and sub router at '/ab'. Make sure main router does not consist any routing data in '/ab'.");
   Some (lit "There is conflict between main router and sub router at '/user/:id'. Make sure main router does not consist any routing data in '/user/:id'.");
   Some (lit "ERROR: Consisting * in route name at: /x*/y");
   Some (lit "ERROR: * must be in the last at: /*/y");
   Some (lit "Duplicated route method 'PUT' at '/b' detected");
   None].
Proof. vm_compute. split; reflexivity. Qed.

(** There is a text exactly when there is a panic. *)
Theorem C93_silent : forall (H M : Type) (l : list (op H M)), snd (build l) = None <-> build_text l = None.
Proof. exact (@build_silent). Qed.
Print Assumptions C93_silent.

Example C93_silent_example :
  let good : list (op nat nat) := [ORoute GET (lit "/a/:id") 1; ORouter (lit "/a/:id/b") [ORoute GET (lit "") 2]] in
  let bad := good ++ [ORoute GET (lit "/a/:id/b") 3] in
  snd (build good) = None /\ build_text good = None /\
  snd (build bad) = Some PDuplicate /\ build_text bad = Some (lit "Duplicated route method 'GET' at '/a/:id/b' detected").
Proof. vm_compute. repeat split. Qed.

(** A sequence of calls: the text is that of the first call rejected. *)
Theorem C93_first : forall (H M : Type) (l : list (op H M)) m, build_text l = Some m ->
  exists l1 o l2 pn, l = l1 ++ o :: l2 /\ snd (build l1) = None /\ snd (build (l1 ++ [o])) = Some pn /\ says (table_of l1) o pn m.
Proof. exact (@build_message). Qed.
Print Assumptions C93_first.

Example C93_first_example :
  let l : list (op nat nat) := [ORoute GET (lit "/a/:id") 1; ORoute GET (lit "/a/b") 2; ORoute GET (lit "/a/:id") 3] in
  build_text l = Some (lit "Insert Route: ERROR: Ambigous definition between b and :id at /a/b") /\
  says (table_of (firstn 1 l)) (ORoute GET (lit "/a/b") 2) PAmbiguous (lit "Insert Route: ERROR: Ambigous definition between b and :id at /a/b").
Proof. exact first_says. Qed.

(** Any router built without a panic, colons anywhere in its paths, and a further call
    whose path does not clash with them: it is accepted exactly when its place is free
    ([free], [MessageSpec]). *)
Theorem C01_any_colons : forall (H M : Type) (l : list (op H M)) t o, build l = (t, None) ->
  (forall path a b, op_path o = Some path -> ~ clashes (table_of l) (segments path) a b) ->
  (snd (run_op t o) = None <-> free (table_of l) o).
Proof. exact (@accepted_any). Qed.
Print Assumptions C01_any_colons.

Example C01_any_colons_example :
  let l : list (op nat nat) := [ORoute GET (lit "/a:b") 1] in
  let t := fst (build l) in
  build l = (t, None) /\
  (forall o : op nat nat, In o [ORoute POST (lit "/a:b") 2; ORoute GET (lit "/a:b") 2; ORouter (lit "/a") []] ->
     forall path a b, op_path o = Some path -> ~ clashes (table_of l) (segments path) a b) /\
  snd (run_op t (ORoute POST (lit "/a:b") 2)) = None /\
  snd (run_op t (ORoute GET (lit "/a:b") 2)) = Some PDuplicate /\
  snd (run_op t (ORouter (lit "/a") [])) = Some PMountConflict.
Proof. exact free_calls. Qed.

(** ... and otherwise rejected for exactly the reason it deserves ([denied], [MessageSpec]). *)
Theorem C52_any_colons : forall (H M : Type) (l : list (op H M)) t o pn, build l = (t, None) ->
  (forall path a b, op_path o = Some path -> ~ clashes (table_of l) (segments path) a b) ->
  (snd (run_op t o) = Some pn <-> denied (table_of l) o pn).
Proof. exact (@denied_any). Qed.
Print Assumptions C52_any_colons.

Example C52_any_colons_example :
  let l : list (op nat nat) := [ORoute GET (lit "/a:b") 1] in
  (forall o : op nat nat, In o [ORoute POST (lit "/a:b") 2; ORoute GET (lit "/a:b") 2; ORouter (lit "/a") []] ->
     forall path a b, op_path o = Some path -> ~ clashes (table_of l) (segments path) a b) /\
  denied (table_of l) (ORoute GET (lit "/a:b") 2) PDuplicate /\ denied (table_of l) (ORouter (lit "/a") []) PMountConflict /\
  forall pn, ~ denied (table_of l) (ORoute POST (lit "/a:b") 2) pn.
Proof.
  destruct free_calls as (B & NC & A1 & A2 & A3). split; [exact NC|].
  split; [exact (proj1 (denied_any _ _ _ _ B (NC _ (or_intror (or_introl eq_refl)))) A2)|].
  split; [exact (proj1 (denied_any _ _ _ _ B (NC _ (or_intror (or_intror (or_introl eq_refl))))) A3)|].
  intros pn D. apply (denied_any _ _ _ _ B (NC _ (or_introl eq_refl))) in D. discriminate (eq_trans (eq_sym A1) D).
Qed.
