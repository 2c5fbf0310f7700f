(** Cases for the theorems about the texts of panics. *)

From Coq Require Import String.
From Verif Require Import Base RouteTrie Router Messages TableSpec TextSpec WireSpec MessageSpec.
Local Open Scope string_scope.
Local Open Scope list_scope.

Lemma first_says :
  let l : list (op nat nat) := [ORoute GET (lit "/a/:id") 1; ORoute GET (lit "/a/b") 2; ORoute GET (lit "/a/:id") 3] in
  build_text l = Some (lit "Insert Route: ERROR: Ambigous definition between b and :id at /a/b") /\
  says (table_of (firstn 1 l)) (ORoute GET (lit "/a/b") 2) PAmbiguous (lit "Insert Route: ERROR: Ambigous definition between b and :id at /a/b").
Proof.
  split; [vm_compute; reflexivity|].
  apply (say_clash _ (ORoute GET (lit "/a/b") 2) (lit "/a/b") (lit "b") (lit ":id")); [reflexivity|exact I|].
  exists [lit "a"], [], []. split; [reflexivity|]. split; [discriminate|]. split; [discriminate|]. split; [left; reflexivity|]. split.
  - split; [discriminate|]. split.
    + left. exists [lit "a"; lit ":id"], (CRoute GET 1), 2. split; [left; reflexivity|reflexivity].
    + intros z y E Nz Ny [(q & c & i & I & W)|(q & c & q' & c' & x & r & x' & r' & I & J & W & W' & N)].
      * destruct I as [I|[]]. injection I as <- _. apply (f_equal (@List.length N)) in W. rewrite app_length in W.
        apply (f_equal (@List.length N)) in E. rewrite app_length in E. cbn [List.length lit map list_ascii_of_string] in E.
        destruct z; [congruence|]. destruct y; [congruence|].
        destruct i as [|[|[|i]]]; cbn in W, E; try discriminate; Lia.lia.
      * destruct I as [I|[]], J as [J|[]]. injection I as <- _. injection J as <- _. rewrite W in W'. apply app_inv_head in W'. congruence.
  - right. exists (lit "id"). reflexivity.
Qed.

Lemma free_calls :
  let l : list (op nat nat) := [ORoute GET (lit "/a:b") 1] in
  let t := fst (build l) in
  build l = (t, None) /\
  (forall o : op nat nat, In o [ORoute POST (lit "/a:b") 2; ORoute GET (lit "/a:b") 2; ORouter (lit "/a") []] ->
     forall path a b, op_path o = Some path -> ~ clashes (table_of l) (segments path) a b) /\
  snd (run_op t (ORoute POST (lit "/a:b") 2)) = None /\
  snd (run_op t (ORoute GET (lit "/a:b") 2)) = Some PDuplicate /\
  snd (run_op t (ORouter (lit "/a") [])) = Some PMountConflict.
Proof.
  split; [vm_compute; reflexivity|]. split; [|split; [|split]; vm_compute; reflexivity].
  set (T := table_of _).
  assert (CU : forall w, cut T w -> w = [] \/ w = lit "a:b").
  { intros w [(q & c & i & I & W)|(q & c & q' & c' & x & r & x' & r' & I & J & W & W' & N)].
    - destruct I as [I|[]]. injection I as <- _. destruct i as [|[|i]]; rewrite W; auto.
    - destruct I as [I|[]], J as [J|[]]. injection I as <- _. injection J as <- _. rewrite W in W'. apply app_inv_head in W'. congruence. }
  assert (CL : forall s a b, s = lit "a:b" \/ s = lit "a" -> ~ clashes T [s] a b).
  { intros s a b S (p0 & v & p1 & E & Na & Nab & V & (Nb & C & _) & K).
    assert (X : p0 = [] /\ s = v ++ a).
    { destruct p0 as [|x p0]; injection E as E1 E2; [auto|]. destruct p0; discriminate. }
    destruct X as [-> ->]. cbn [text concat app] in V, C.
    assert (V0 : v = []).
    { destruct V as [V|V]; [exact V|]. apply CU in V as [V|V]; [exact V|]. subst v. exfalso.
      destruct a as [|a0 a]; [congruence|]. destruct S as [S|S]; apply (f_equal (@List.length _)) in S; rewrite app_length in S; cbn in S; Lia.lia. }
    subst v. cbn [app] in *. apply CU in C as [C|C]; [congruence|]. subst b.
    destruct K as [[r K]|[r K]]; [|discriminate]. destruct S as [S|S]; rewrite K in S; discriminate. }
  intros o [<-|[<-|[<-|[]]]] path a b P; injection P as <-; apply CL; vm_compute; auto.
Qed.
