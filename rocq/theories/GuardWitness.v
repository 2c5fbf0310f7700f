(** Cases that meet the hypotheses of the theorems about guarded paths, and the one
    that goes past the guard. *)

From Coq Require Import String.
From Verif Require Import Base BaseFacts Utf8 RouteTrie Router TableSpec PropSpec TextSpec Http App AppSpec ThroughSpec GuardSpec.
From Verif Require Import RouteFacts RouteLemmas RouteWitness AppLemmas AppLemmas2 AppWitness TextWitness.
Local Open Scope string_scope.
Local Open Scope list_scope.

(** A middleware that lets requests with the header "authorization" through and answers
    403 to the others. *)
Definition token {X U A} : middleware X U A := fun c =>
  if existsb (fun h => str_eqb (fst h) (lit "authorization")) (rq_headers (ctx_request c)) then MNext 0 c MDone else deny c.

Lemma token_refuses {X U A} (rq : request X) : rq_headers rq = [] -> refuses (@token X U A) rq.
Proof.
  intros E c (_ & _ & _ & Eh & _) tr n c' k G. unfold token in G. rewrite Eh, E in G. cbn [existsb] in G. inversion G.
Qed.

Lemma token_admits {X U A} (rq : request X) v : rq_headers rq = [(lit "authorization", v)] -> ~ refuses (@token X U A) rq.
Proof.
  intros E R. apply (R (Context rq [] None) ltac:(repeat split) [] 0 (Context rq [] None) MDone).
  unfold token. cbn [ctx_request]. rewrite E. apply go_next.
Qed.

Lemma token_polite {X U A} : never_skips (@token X U A) /\ keeps_input (@token X U A).
Proof.
  split; intros c; unfold token; destruct (existsb _ _); cbn; auto. split; [repeat split|auto].
Qed.

Lemma deny_polite {X U A} : never_skips (@deny X U A) /\ keeps_input (@deny X U A).
Proof. split; intros c; cbn; auto. Qed.

Lemma colons_mws {H M} (h : H) (m m' : M) q : registered (colons_of h m) q (CMw m') -> m' = m.
Proof.
  intros I. vm_compute in I. repeat (destruct I as [I|I]; [try discriminate I; injection I as _ <-; reflexivity|]). destruct I.
Qed.

(** A directory of files, one part of which is guarded, and a page in that part. *)
Definition files_of {H M} (h h' : H) (g : M) : list (op H M) :=
  [ORoute GET (lit "/files/*") h; OServiceTo (lit "/files/private") g; ORoute GET (lit "/files/private/list") h'].

Lemma files_built {H M} (h h' : H) (g : M) : let l := files_of h h' g in
  exists t, built l t /\ registered l [lit "files"; lit "private"] (CMw g) /\ no_star [lit "files"; lit "private"] /\
    registered l [lit "files"; s_star] (CRoute GET h) /\
    registered l [lit "files"; lit "private"; lit "list"] (CRoute GET h') /\
    (forall q m, registered l q (CMw m) -> m = g) /\
    (exists r, search_route t (lit "/files/private/list") = LSome r /\ rr_get_route r GET = Some (Route GET h') /\ rr_mws r = [g]) /\
    (exists r, search_route t (lit "/files/private/keys.txt") = LSome r /\ rr_get_route r GET = Some (Route GET h) /\ rr_mws r = []).
Proof.
  intros l. eexists. split; [built_by|]. split; [vm_compute; auto|].
  split; [intros [E|[E|[]]]; discriminate E|].
  split; [vm_compute; auto|]. split; [vm_compute; auto|]. split.
  - intros q m I. vm_compute in I. repeat (destruct I as [I|I]; [try discriminate I; injection I as _ <-; reflexivity|]). destruct I.
  - split; eexists; (split; [vm_compute; reflexivity|]); split; vm_compute; reflexivity.
Qed.

Lemma below_private {X} m q hd ext b last : literal_seg last -> segments (lit "/files/private/" ++ last) = [lit "files"; lit "private"; last] ->
  at_or_below [lit "files"; lit "private"] (@Request X m (lit "/files/private/" ++ last) q hd ext b).
Proof.
  intros L E. exists [lit "files"; lit "private"], [last], []. cbn [rq_path]. split; [exact E|].
  constructor; [|constructor; [|constructor]]; (split; [discriminate|]); intros [x Ex]; discriminate Ex.
Qed.

(** The files of the guarded part are sent to everybody: nothing is registered at the
    request's path, so that the wildcard above the guard answers. *)
Lemma w_unguarded {X U A} : exists (l : list (op (handler X U A) (middleware X U A))) t p g q h rq,
  built l t /\ registered l p (CMw g) /\ no_star p /\ at_or_below p rq /\ (forall rq', refuses g rq') /\
  (forall q' m, registered l q' (CMw m) -> never_skips m /\ keeps_input m) /\
  registered l q (CRoute (rq_method rq) h) /\
  forall st, exists c, starts rq (ctx_params c) st c /\ handles (serve t st rq) (h c).
Proof.
  exists (files_of (static_virtual_file_handler (lit "/files") (lit "public")) no_answer deny).
  destruct (files_built (H:=handler X U A) (static_virtual_file_handler (lit "/files") (lit "public")) no_answer (@deny X U A))
    as (t & B & Im & N & Ih & _ & W & _ & (r & E & Er & Em)).
  exists t, [lit "files"; lit "private"], deny, [lit "files"; s_star], (static_virtual_file_handler (lit "/files") (lit "public")).
  exists (Request GET (lit "/files/private/" ++ lit "keys.txt") None [] [] body_empty).
  split; [exact B|]. split; [exact Im|]. split; [exact N|].
  split; [apply below_private; [split; [discriminate|intros [x Ex]; discriminate Ex]|vm_compute; reflexivity]|].
  split; [intros rq' c _; apply deny_stops|]. split; [intros q' m I; rewrite (W _ _ I); exact deny_polite|].
  split; [exact Ih|]. intros st.
  destruct (any_handled t st (Request GET (lit "/files/private/" ++ lit "keys.txt") None [] [] body_empty) r _ _ E Er) as (c & St & Hd).
  exists c. split; [destruct St as (Ep & St); split; [reflexivity|exact St]|]. rewrite Em in Hd. exact Hd.
Qed.
