(** Witnesses and examples for the properties C71 to C74. *)

From Coq Require Import String.
From Verif Require Import Form FormSpec Base BaseFacts Utf8 RouteTrie Router TableSpec PropSpec Http App AppSpec UserSpec.
From Verif Require Import RouteFacts RouteLemmas RouteLemmas4 RouteWitness AppLemmas AppLemmas2 AppLemmas3 AppLemmas4 AppWitness UserLemmas UserLemmas2.
Local Open Scope string_scope.
Local Open Scope list_scope.

Lemma api_routes {H M} (l : list (op H M)) :
  Forall (fun e : entry H M => match snd e with CRoute m _ => api_method m | _ => True end) (table_of l) -> api_only l.
Proof. intros F p m h I. rewrite Forall_forall in F. exact (F _ I). Qed.

Lemma w_head : forall X U A : Type,
  exists (l : list (op (handler X U A) (middleware X U A))) t path get head,
    built l t /\ api_only l /\
    runs (serve t None (Request GET path None [] [] body_empty)) [] (Value get) /\ h_status get = 200%N /\
    runs (serve t None (Request HEAD path None [] [] body_empty)) [] (Value head) /\ h_status head = 404%N.
Proof.
  intros X U A. destruct (@serve_one X U A (lit "/a") (lit "/a") no_answer None) as (t & ps & B & E); [apply one_a|].
  assert (Ap : api_only [@ORoute (handler X U A) (middleware X U A) GET (lit "/a") no_answer]).
  { apply api_routes. repeat constructor. }
  exists [ORoute GET (lit "/a") no_answer], t, (lit "/a"). eexists. eexists. split; [exact B|]. split; [exact Ap|].
  unfold get_req in E. rewrite E. split; [vm_compute; apply run_ret|]. split; [reflexivity|]. split.
  - apply (other_methods _ t None (Request HEAD (lit "/a") None [] [] body_empty) B Ap); [|split; reflexivity].
    intros [K|[K|[K|[K|[K|[]]]]]]; discriminate K.
  - reflexivity.
Qed.

Lemma head_built {X U A} : exists t, built (H := handler X U A) (M := middleware X U A)
  [OService (logger true); ORoute GET (lit "/a") no_answer; ORoute POST (lit "/a") no_answer] t.
Proof.
  assert (L : forall (H M : Type) (h : H) (m : M), exists t, built [OService m; ORoute GET (lit "/a") h; ORoute POST (lit "/a") h] t)
    by (intros; eexists; built_by).
  apply L.
Qed.

Lemma head_api {X U A} : api_only (H := handler X U A) (M := middleware X U A)
  [OService (logger true); ORoute GET (lit "/a") no_answer; ORoute POST (lit "/a") no_answer].
Proof. apply api_routes. constructor; [exact I|]. constructor; [left; reflexivity|]. constructor; [right; left; reflexivity|]. constructor. Qed.

Definition path_chars : str :=
  lit "!$%&'()*+,-./0123456789:;=@ABCDEFGHIJKLMNOPQRSTUVWXYZ[\]^_abcdefghijklmnopqrstuvwxyz|~{}".

Lemma not_path_char c : existsb (N.eqb c) (34%N :: path_chars) = false -> ~ path_char c.
Proof.
  intros E P. assert (K : existsb (N.eqb c) (34%N :: path_chars) = true); [|congruence].
  apply existsb_exists. exists c. split; [|apply N.eqb_refl]. destruct P as [P| ->]; [right; exact P|left; reflexivity].
Qed.

Lemma is_path_char c : existsb (N.eqb c) (34%N :: path_chars) = true -> path_char c.
Proof.
  intros E. apply existsb_exists in E as (d & I & K). apply N.eqb_eq in K. subst d.
  destruct I as [<-|I]; [right; reflexivity|left; exact I].
Qed.

Lemma w_space_route :
  exists (l : list (op nat nat)) t p h,
    built l t /\ no_star_mount l /\ registered l p (CRoute GET h) /\
    forall path r, deliverable path -> search_route t path = LSome r -> rr_get_route r GET <> Some (Route GET h).
Proof.
  assert (B : exists t, @built nat nat [ORoute GET (lit "/my page") 1] t) by (eexists; built_by). destruct B as [t B].
  exists [ORoute GET (lit "/my page") 1], t, [lit "my page"], 1. split; [exact B|].
  assert (ET : table_of [@ORoute nat nat GET (lit "/my page") 1] = [([lit "my page"], CRoute GET 1)]) by reflexivity.
  split; [|split].
  - intros p I. unfold registered in I. rewrite ET in I. destruct I as [I|[]]. discriminate I.
  - unfold registered. rewrite ET. left. reflexivity.
  - apply (unreachable _ t [lit "my page"] GET 1 (lit "my page") 32%N B).
    + intros q m I. unfold registered in I. rewrite ET in I. destruct I as [I|[]]. injection I as <- _. reflexivity.
    + left. reflexivity.
    + intros r. discriminate.
    + vm_compute. intuition.
    + apply not_path_char. reflexivity.
Qed.

Lemma plain_example : plain_path [lit "users"; lit ":my id"; lit "a%20b"].
Proof.
  intros s c [<-|[<-|[<-|[]]]] L I.
  - apply is_path_char. vm_compute in I. repeat (destruct I as [<-|I]; [reflexivity|]). destruct I.
  - exfalso. exact (L _ eq_refl).
  - apply is_path_char. vm_compute in I. repeat (destruct I as [<-|I]; [reflexivity|]). destruct I.
Qed.

Lemma data_example : let l : list (op (handler nat unit unit) (middleware nat unit unit)) :=
    [OService (adder (1%N, 5)); OServiceTo (lit "/a") (adder (1%N, 6)); OServiceTo (lit "/a/b") (adder (2%N, 7));
     ORoute GET (lit "/a/b") no_answer] in
  exists t, built l t /\ exists ts ps, resolves (table_of l) (segments (lit "/a/b")) ts ps /\
    handler_for GET (routes_at (table_of l) ts) = Some no_answer /\
    mws_for (table_of l) ts = map (@adder nat unit unit) [(1%N, 5); (2%N, 7); (1%N, 6)] /\
    latest 1%N [(1%N, 5); (2%N, 7); (1%N, 6)] 6.
Proof.
  assert (L : forall (H M : Type) (h : H) (a b c : M), exists t rv,
    built [OService a; OServiceTo (lit "/a") b; OServiceTo (lit "/a/b") c; ORoute GET (lit "/a/b") h] t /\
    search_route t (lit "/a/b") = LSome rv /\ rr_get_route rv GET = Some (Route GET h) /\ rr_mws rv = [a; c; b])
    by (intros; one).
  destruct (L _ _ (@no_answer nat unit unit) (@adder nat unit unit (1%N, 5)) (adder (1%N, 6)) (adder (2%N, 7))) as (t & rv & B & E & G & W).
  intros l. exists t. split; [exact B|]. destruct (lookup_some _ t _ rv B E) as (ts & ps & R & (Dm & Dr & _)).
  exists ts, ps. split; [exact R|]. specialize (Dr GET). rewrite G in Dr. split; [|split].
  - destruct (handler_for GET (routes_at (table_of l) ts)) as [h'|] eqn:Eh; unfold l in Eh; rewrite Eh in Dr; [|discriminate Dr].
    cbn [option_map] in Dr. congruence.
  - fold l in Dm. rewrite <- Dm, W. reflexivity.
  - exists [(1%N, 5); (2%N, 7)], []. split; [reflexivity|]. intros y [].
Qed.

Lemma static_built {X U A} : exists t, built [@use_static_to X U A (lit "/files") (lit "public")] t.
Proof.
  assert (L : forall (H M : Type) (h : H), exists t, @built H M [ORoute GET (lit "/files/*") h] t) by (intros; eexists; built_by).
  apply L.
Qed.

Lemma w_space_file : forall X U A : Type,
  exists v d f t, f <> [] /\ ~ In c_slash f /\ built [@use_static_to X U A v d] t /\
    forall st (rq : request X) tr o r, deliverable (rq_path rq) -> runs (serve t st rq) tr o ->
      ~ In (EvRead (join_slash (segments d ++ [f])) r) tr.
Proof.
  intros X U A. destruct (@static_built X U A) as [t B].
  exists (lit "/files"), (lit "public"), (lit "my file.txt"), t. split; [discriminate|].
  assert (NS : ~ In c_slash (lit "my file.txt")) by (vm_compute; intuition discriminate).
  split; [exact NS|]. split; [exact B|]. intros st rq tr o r D R I.
  apply (not_path_char 32%N eq_refl). eapply (static_names (lit "/files") (lit "public") t st rq [lit "my file.txt"] tr o r B D).
  - intros s [<-|[]]. split; [discriminate|exact NS].
  - exact R.
  - exact I.
  - left. reflexivity.
  - vm_compute. intuition.
Qed.

Lemma files_example : forall X U A,
  (exists t, built [@use_static_to X U A (lit "/files") (lit "public")] t) /\ plain_path (segments (lit "/files")) /\
  file_segments [lit "img"; lit "a.png"] /\ (forall s c, In s [lit "img"; lit "a.png"] -> In c s -> path_char c) /\
  file_segments [lit "my file.txt"] /\ ~ path_char 32%N.
Proof.
  intros X U A. split; [apply static_built|]. split; [|split; [|split; [|split]]].
  - intros s c [<-|[]] _ I. apply is_path_char. vm_compute in I. repeat (destruct I as [<-|I]; [reflexivity|]). destruct I.
  - intros s [<-|[<-|[]]]; (split; [discriminate|vm_compute; intuition discriminate]).
  - intros s c [<-|[<-|[]]] I; apply is_path_char; vm_compute in I; repeat (destruct I as [<-|I]; [reflexivity|]); destruct I.
  - intros s [<-|[]]; (split; [discriminate|vm_compute; intuition discriminate]).
  - apply not_path_char. reflexivity.
Qed.
