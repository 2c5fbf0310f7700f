(** Routing properties for every accepted router, colons anywhere.

    Paths are compared by their texts: the segments without the slashes.  [text],
    [text_mws], [mws_along], [hands_out], [caught_table] are defined in [TextSpec]; the rest
    in [TableSpec] and [PropSpec].  [exu] is the example router of [TextWitness]: it has
    boundaries right before colons inside segments, so no theorem about [built] applies. *)

From Coq Require Import String Permutation.
From Verif Require Import Base Utf8 RouteTrie Router TableSpec PropSpec TextSpec Http App AppSpec.
From Verif Require Import AppLemmas AppWitness TextSearch TextOwn TextStar TextCaught TextMore TextRoot TextServed TextWitness.
Import AppSpec.
Local Open Scope string_scope.
Local Open Scope list_scope.

Local Ltac reg := vm_compute; tauto.
Local Ltac lit_seg := split; [discriminate|intros [? E]; discriminate].

(** * C05: wildcards *)

Theorem C05_any_colons : forall (H M : Type) (l : list (op H M)) t q c path b,
  build l = (t, None) -> no_star_mount l -> registered l (q ++ [s_star]) c -> seg_match (q ++ [s_star]) (segments path) b ->
  exists p c' r, search_route t path = LSome r /\ registered l p c' /\ c' <> CNode /\ strict_prefix (text q) (text p) /\
    hands_out (table_of l) (text p) r /\ forall n v, first_binding b n = Some v -> pget n (rr_params r) = Some v.
Proof. exact (@wildcard_text). Qed.
Print Assumptions C05_any_colons.

Example C05_any_example : build exu = (exu_t, None) /\ no_star_mount exu /\ registered exu ([lit "a:b"] ++ [s_star]) (CRoute GET 4) /\
  seg_match ([lit "a:b"] ++ [s_star]) (segments (lit "/a:b/q/w")) [] /\
  exists r, search_route exu_t (lit "/a:b/q/w") = LSome r /\ rr_get_route r GET = Some (Route GET 4).
Proof.
  split; [exact exu_build|]. split; [intros p I J; vm_compute in I; intuition discriminate|].
  split; [reg|]. split; [apply sm_lit; [lit_seg|apply sm_star; discriminate]|]. eexists. split; vm_compute; reflexivity.
Qed.

(** * C06: what a request may be answered by *)

(** Refuted further: segments of the request may be lost. *)
Theorem C06_lost_segments_refuted :
  exists (l : list (op nat nat)) t path r p h,
    build l = (t, None) /\ search_route t path = LSome r /\ rr_get_route r GET = Some (Route GET h) /\
    (forall p', registered l p' (CRoute GET h) -> p' = p) /\ literal p /\ text (segments path) <> text p /\
    length (segments path) <> length p.
Proof. exact w_dropped. Qed.
Print Assumptions C06_lost_segments_refuted.

(** What is found has always been registered, and comes from one text. *)
Theorem C06_any_colons_partial : forall (H M : Type) (l : list (op H M)) t path r,
  build l = (t, None) -> search_route t path = LSome r ->
  exists p c, registered l p c /\ c <> CNode /\ hands_out (table_of l) (text p) r.
Proof. exact (@found_text). Qed.
Print Assumptions C06_any_colons_partial.

Example C06_any_example : exists r, search_route exu_t (lit "/a/zz") = LSome r /\ rr_get_route r GET = Some (Route GET 2) /\
  rr_mws r = [100; 101] /\ pget (lit "b") (rr_params r) = Some (lit "zz").
Proof. eexists. repeat (split; [vm_compute; reflexivity|]). vm_compute. reflexivity. Qed.

(** * C13-C17: middlewares *)

Theorem C13_any_colons : forall (H M : Type) (l : list (op H M)) t path r,
  build l = (t, None) -> search_route t path = LSome r ->
  exists p c, registered l p c /\ c <> CNode /\ hands_out (table_of l) (text p) r /\
              Permutation (rr_mws r) (mws_along (table_of l) (text p)).
Proof. exact (@found_applied). Qed.
Print Assumptions C13_any_colons.

Example C13_any_example : exists r, search_route exu_t (lit "/a/k/x/w") = LSome r /\ rr_mws r = [100; 102; 101] /\
  mws_along (table_of exu) (text [lit "a:b"; lit "x"; s_star]) = [100; 101; 102].
Proof. eexists. repeat (split; [vm_compute; reflexivity|]). vm_compute. reflexivity. Qed.

Theorem C14_any_colons_partial : forall (H M : Type) (l : list (op H M)) t path r mw,
  build l = (t, None) -> search_route t path = LSome r -> In mw (rr_mws r) ->
  exists p q c, registered l p (CMw mw) /\ registered l q c /\ c <> CNode /\ prefix (text p) (text q) /\
                hands_out (table_of l) (text q) r.
Proof. exact (@found_applied_in). Qed.
Print Assumptions C14_any_colons_partial.

Example C14_any_example : build exu = (exu_t, None) /\ registered exu [lit "a:b"; lit "x"] (CMw 102) /\
  prefix (text [lit "a:b"; lit "x"]) (text [lit "a:b"; lit "x"; s_star]) /\
  exists r, search_route exu_t (lit "/a/k/x/w") = LSome r /\ In 102 (rr_mws r) /\ rr_get_route r GET = Some (Route GET 5).
Proof.
  split; [exact exu_build|]. split; [reg|]. split; [exists s_star; reflexivity|]. eexists. split; [vm_compute; reflexivity|].
  split; vm_compute; auto.
Qed.

Theorem C15_any_colons : forall (H M : Type) (l : list (op H M)) t path r,
  build l = (t, None) -> search_route t path = LSome r ->
  exists p c, registered l p c /\ c <> CNode /\ hands_out (table_of l) (text p) r /\ rr_mws r = text_mws (table_of l) (text p).
Proof. exact (@text_order). Qed.
Print Assumptions C15_any_colons.

Example C15_any_example : build exu = (exu_t, None) /\ registered exu [lit "a:b"; lit "x"; s_star] (CRoute GET 5) /\
  text_mws (table_of exu) (text [lit "a:b"; lit "x"; s_star]) = [100; 102; 101] /\
  exists r, search_route exu_t (lit "/a/k/x/w") = LSome r /\ rr_mws r = [100; 102; 101].
Proof.
  split; [exact exu_build|]. split; [reg|]. split; [vm_compute; reflexivity|]. eexists. split; vm_compute; reflexivity.
Qed.

Theorem C16_any_colons_partial : forall (H M : Type) (l : list (op H M)) t path r,
  build l = (t, None) -> search_route t path = LSome r ->
  exists rest, rr_mws r = mws_on (table_of l) [] ++ rest.
Proof. exact (@text_root_first). Qed.
Print Assumptions C16_any_colons_partial.

Example C16_any_root_example : build exu = (exu_t, None) /\ mws_on (table_of exu) [] = [100] /\
  exists r, search_route exu_t (lit "/a/k/x/w") = LSome r /\ rr_mws r = [100] ++ [102; 101].
Proof. split; [exact exu_build|]. split; [vm_compute; reflexivity|]. eexists. split; vm_compute; reflexivity. Qed.

Theorem C16_any_colons_inner_first : forall (H M : Type) (l : list (op H M)) t path r p1 p2 m1 m2,
  build l = (t, None) -> search_route t path = LSome r ->
  registered l p1 (CMw m1) -> registered l p2 (CMw m2) -> text p1 <> [] -> strict_prefix (text p1) (text p2) ->
  exists p c, registered l p c /\ c <> CNode /\ hands_out (table_of l) (text p) r /\
    (prefix (text p2) (text p) -> exists x y z, rr_mws r = x ++ m2 :: y ++ m1 :: z).
Proof. exact (@text_inner_first). Qed.
Print Assumptions C16_any_colons_inner_first.

Example C16_any_example : registered exu [lit "a:b"] (CMw 101) /\ registered exu [lit "a:b"; lit "x"] (CMw 102) /\
  strict_prefix (text [lit "a:b"]) (text [lit "a:b"; lit "x"]) /\
  exists r, search_route exu_t (lit "/a:b/x") = LSome r /\ rr_mws r = [100; 102; 101].
Proof.
  split; [reg|]. split; [reg|]. split; [exists 120%N, []; reflexivity|]. eexists. split; vm_compute; reflexivity.
Qed.

(** A middleware applies whenever the lookup ends at or below its text. *)
Theorem C17_any_colons_partial : forall (H M : Type) (l : list (op H M)) t path r p mw,
  build l = (t, None) -> search_route t path = LSome r -> registered l p (CMw mw) ->
  exists q c, registered l q c /\ c <> CNode /\ hands_out (table_of l) (text q) r /\ (prefix (text p) (text q) -> In mw (rr_mws r)).
Proof. exact (@text_effective). Qed.
Print Assumptions C17_any_colons_partial.

Example C17_any_example : build exu = (exu_t, None) /\ registered exu [lit "a:b"] (CMw 101) /\
  registered exu [lit "a:b"; s_star] (CRoute GET 4) /\ prefix (text [lit "a:b"]) (text [lit "a:b"; s_star]) /\
  exists r, search_route exu_t (lit "/a/zz/y") = LSome r /\ rr_get_route r GET = Some (Route GET 4) /\ rr_mws r = [100; 101].
Proof.
  split; [exact exu_build|]. split; [reg|]. split; [reg|]. split; [exists s_star; reflexivity|].
  eexists. split; [vm_compute; reflexivity|]. split; vm_compute; reflexivity.
Qed.

(** * C20: methods *)

(** Another handler on a path that is there, accepted or rejected as a duplicate. *)
Theorem C20_any_colons : forall (H M : Type) (l : list (op H M)) t t' m path h p c req,
  build l = (t, None) -> run_op t (ORoute m path h) = (t', None) \/ run_op t (ORoute m path h) = (t', Some PDuplicate) ->
  segments path = p -> registered l p c -> c <> CNode ->
  match search_route t req, search_route t' req with
  | LNone, LNone => True
  | LSome r, LSome r' =>
      rr_mws r = rr_mws r' /\ (forall n, pget n (rr_params r) = pget n (rr_params r')) /\
      forall m', m' <> m -> rr_get_route r m' = rr_get_route r' m'
  | _, _ => False
  end.
Proof. exact (@methods_text). Qed.
Print Assumptions C20_any_colons.

Example C20_any_example : registered exu (segments (lit "/a:b/x")) (CRoute GET 3) /\
  snd (run_op exu_t (ORoute POST (lit "/a:b/x") 9)) = None /\ snd (run_op exu_t (ORoute GET (lit "/a:b/x") 9)) = Some PDuplicate.
Proof. split; [reg|]. split; vm_compute; reflexivity. Qed.

Theorem C20_any_colons_registered : forall (H M : Type) (l : list (op H M)) t path r m rt,
  build l = (t, None) -> search_route t path = LSome r -> rr_get_route r m = Some rt ->
  exists p h, registered l p (CRoute m h) /\ rt = Route m h /\ hands_out (table_of l) (text p) r.
Proof. exact (@text_method_registered). Qed.
Print Assumptions C20_any_colons_registered.

Example C20_any_registered_example : build exu = (exu_t, None) /\ registered exu [lit "a:b"; lit "x"] (CRoute GET 3) /\
  exists r, search_route exu_t (lit "/a/k/x") = LSome r /\ rr_get_route r GET = Some (Route GET 3) /\
    rr_get_route r POST = None.
Proof.
  split; [exact exu_build|]. split; [reg|]. eexists. split; [vm_compute; reflexivity|]. split; vm_compute; reflexivity.
Qed.

(** No two handlers for a method are accepted on one text. *)
Theorem C20_one_handler : forall (H M : Type) (l : list (op H M)) t p m h,
  build l = (t, None) -> registered l p (CRoute m h) -> handler_for m (routes_on (table_of l) (text p)) = Some h.
Proof. exact (@text_handler). Qed.
Print Assumptions C20_one_handler.

Example C20_one_handler_example : build exu = (exu_t, None) /\ registered exu [lit "a:b"; lit "x"] (CRoute GET 3) /\
  handler_for GET (routes_on (table_of exu) (text [lit "a:b"; lit "x"])) = Some 3 /\
  text [lit "a:b"; lit "x"] = text [lit "a"; lit ":bx"].
Proof. split; [exact exu_build|]. split; [reg|]. split; vm_compute; reflexivity. Qed.

(** * C21: precedence *)

Theorem C21_any_colons : forall (H M : Type) (l : list (op H M)) t p m h path b,
  build l = (t, None) -> registered l p (CRoute m h) -> no_star p -> seg_match p (segments path) b ->
  exists r, search_route t path = LSome r /\ rr_get_route r m = Some (Route m h) /\
    forall m' h', rr_get_route r m' = Some (Route m' h') -> exists p', registered l p' (CRoute m' h') /\ text p' = text p.
Proof. exact (@text_over_wildcard). Qed.
Print Assumptions C21_any_colons.

(** Both the route and the wildcard route match. *)
Example C21_any_route_example : build exu = (exu_t, None) /\ registered exu [lit "a:b"; lit "x"] (CRoute GET 3) /\
  no_star [lit "a:b"; lit "x"] /\ seg_match [lit "a:b"; lit "x"] (segments (lit "/a:b/x")) [] /\
  registered exu [lit "a:b"; s_star] (CRoute GET 4) /\ seg_match [lit "a:b"; s_star] (segments (lit "/a:b/x")) [] /\
  exists r, search_route exu_t (lit "/a:b/x") = LSome r /\ rr_get_route r GET = Some (Route GET 3).
Proof.
  split; [exact exu_build|]. split; [reg|]. split; [vm_compute; intuition discriminate|].
  split; [apply sm_lit; [lit_seg|apply sm_lit; [lit_seg|apply sm_nil]]|]. split; [reg|].
  split; [apply sm_lit; [lit_seg|apply sm_star; discriminate]|]. eexists. split; vm_compute; reflexivity.
Qed.

Theorem C21_any_colons_deepest : forall (H M : Type) (l : list (op H M)) t q1 q2 c1 c2 path b1 b2,
  build l = (t, None) -> no_star_mount l ->
  registered l (q2 ++ [s_star]) c2 ->
  seg_match (q1 ++ [s_star]) (segments path) b1 -> seg_match (q2 ++ [s_star]) (segments path) b2 ->
  registered l (q1 ++ [s_star]) c1 -> strict_prefix (text q1) (text q2) ->
  exists p c' r, search_route t path = LSome r /\ registered l p c' /\ c' <> CNode /\
    hands_out (table_of l) (text p) r /\ strict_prefix (text q2) (text p) /\ text p <> text (q1 ++ [s_star]).
Proof. exact (@text_deepest). Qed.
Print Assumptions C21_any_colons_deepest.

Example C21_any_example : registered exu ([lit "a:b"] ++ [s_star]) (CRoute GET 4) /\
  registered exu ([lit "a:b"; lit "x"] ++ [s_star]) (CRoute GET 5) /\
  (exists r, search_route exu_t (lit "/a:b/x/w") = LSome r /\ rr_get_route r GET = Some (Route GET 5)) /\
  exists r, search_route exu_t (lit "/a:b/x") = LSome r /\ rr_get_route r GET = Some (Route GET 3).
Proof. split; [reg|]. split; [reg|]. split; eexists; split; vm_compute; reflexivity. Qed.

(** * C22: the bare prefix of a wildcard *)

Theorem C22_any_colons_partial : forall (H M : Type) (l : list (op H M)) t q s c path b,
  build l = (t, None) -> registered l (q ++ [s; s_star]) c -> c <> CNode -> no_star q -> literal_seg s ->
  (forall p c', registered l p c' -> c' <> CNode -> text p <> text (q ++ [s])) ->
  seg_match (q ++ [s]) (segments path) b ->
  exists r, search_route t path = LSome r /\ hands_out (table_of l) (text (q ++ [s; s_star])) r /\
            forall n, pget n (rr_params r) = first_binding b n.
Proof. exact (@bare_prefix_text). Qed.
Print Assumptions C22_any_colons_partial.

Example C22_any_example : registered exu ([] ++ [lit "files"; s_star]) (CRoute GET 6) /\
  (forall p c, registered exu p c -> c <> CNode -> text p <> text ([] ++ [lit "files"])) /\
  exists r, search_route exu_t (lit "/files") = LSome r /\ rr_get_route r GET = Some (Route GET 6).
Proof.
  split; [reg|]. split; [|eexists; split; vm_compute; reflexivity].
  intros p c I _. vm_compute in I. repeat (destruct I as [I|I]; [injection I as <- _; vm_compute; discriminate|]). destruct I.
Qed.

(** * C54: a router whose panics are caught stays consistent *)

(** Every lookup hands out what one table says about the text of one of its paths, and
    the requests of its paths without wildcard are found. *)
Theorem C54_any_colons : forall (H M : Type) (l : list (op H M)),
  let t := run_caught trie_new l in
  let U := caught_table trie_new [] l in
  (forall path r, search_route t path = LSome r -> exists p c, In (p, c) U /\ c <> CNode /\ hands_out U (text p) r) /\
  (forall p c path b, In (p, c) U -> c <> CNode -> no_star p -> seg_match p (segments path) b ->
     exists r, search_route t path = LSome r /\ hands_out U (text p) r /\ forall n, pget n (rr_params r) = first_binding b n).
Proof. exact (@caught_text). Qed.
Print Assumptions C54_any_colons.

Example C54_any_example :
  let l := exu ++ [ORoute GET (lit "/ad") 7; ORoute GET (lit "/a:b/x") 8; ORoute GET (lit "/z") 9] in
  snd (run_op exu_t (ORoute GET (lit "/ad") 7)) = Some PAmbiguous /\
  caught_table trie_new [] l = ([lit "a:b"; lit "x"], CRoute GET 8) :: table_of exu ++ [([lit "z"], CRoute GET 9)] /\
  (exists r, search_route (run_caught trie_new l) (lit "/a:b/x") = LSome r /\ rr_get_route r GET = Some (Route GET 8)) /\
  exists r, search_route (run_caught trie_new l) (lit "/z") = LSome r /\ rr_get_route r GET = Some (Route GET 9).
Proof.
  cbv zeta. split; [vm_compute; reflexivity|]. split; [vm_compute; reflexivity|]. split; eexists; split; vm_compute; reflexivity.
Qed.

(** * C62, C31, C63: a middleware registered first at the root *)

Theorem C62_any_colons : forall (X U A : Type) (mw : middleware X U A) (l : list (op (handler X U A) (middleware X U A))) t,
  build l = (t, None) -> no_root_mount l ->
  exists t', build (OService mw :: l) = (t', None) /\ forall st (rq : request X),
    (exists p h pm c, registered l p (CRoute (rq_method rq) h) /\ starts rq pm st c /\
       handles (serve t st rq) (next (text_mws (table_of l) (text p)) h c) /\
       handles (serve t' st rq) (next (mw :: text_mws (table_of l) (text p)) h c)) \/
    (forall tr o,
       (runs (serve t st rq) tr o <-> tr = [] /\ o = Value (HttpResponse 404%N [] (Body [utf8 (lit "404 Not Found")] false))) /\
       (runs (serve t' st rq) tr o <-> tr = [] /\ o = Value (HttpResponse 404%N [] (Body [utf8 (lit "404 Not Found")] false)))).
Proof. exact (@root_wraps_text). Qed.
Print Assumptions C62_any_colons.

(** A boundary before a colon inside a segment, a middleware, and one that is put before. *)
Example C62_any_example :
  let l : list (op (handler unit unit unit) (middleware unit unit unit)) :=
    [ORoute GET (lit "/ac") no_answer; ORoute GET (lit "/a:b") (answer_with response_ok);
     OServiceTo (lit "/a:b") (around (lit "in") (lit "out"))] in
  no_root_mount l /\ (exists t, build l = (t, None)) /\
  text_mws (table_of l) (text [lit "a:b"]) = [around (lit "in") (lit "out")].
Proof.
  cbv zeta. split; [intros o [<-|[<-|[<-|[]]]] (path & sub & E & _); discriminate E|]. split; [|reflexivity].
  assert (L : forall H M (h1 h2 : H) (m : M), exists t : trie H M, build [ORoute GET (lit "/ac") h1; ORoute GET (lit "/a:b") h2;
      OServiceTo (lit "/a:b") m] = (t, None)) by (intros; eexists; vm_compute; reflexivity).
  apply L.
Qed.

Theorem C31_any_colons_partial : forall (X U A : Type) d (l : list (op (handler X U A) (middleware X U A))) t,
  build l = (t, None) -> no_root_mount l ->
  (forall p m h, registered l p (CRoute m h) -> answers h) ->
  (forall p mw, registered l p (CMw mw) -> keeps_answer mw) ->
  exists t', build (app_default d ++ l) = (t', None) /\ forall st rq,
    (forall tr o, runs (serve t st rq) tr o ->
       exists tr', runs (serve t' st rq) tr' o /\ unlogged tr' = unlogged tr) /\
    (forall tr o, runs (serve t' st rq) tr o ->
       exists tr', runs (serve t st rq) tr' o /\ unlogged tr' = unlogged tr).
Proof. exact (@default_transparent_text). Qed.
Print Assumptions C31_any_colons_partial.

Example C31_any_example : exists h h2 : handler unit unit unit, let l : list (op (handler unit unit unit) (middleware unit unit unit)) := [ORoute GET (lit "/ac") h; ORoute GET (lit "/a:b") h2] in
  no_root_mount l /\ (exists t, build l = (t, None)) /\ (forall p m h', registered l p (CRoute m h') -> answers h') /\
  forall p mw, registered l p (CMw mw) -> keeps_answer mw.
Proof.
  assert (AW : answers (@answer_with unit unit unit response_ok)).
  { intros c tr r R. apply runs_ret in R as [_ E]. injection E as ->. intros c' E. injection E as <-. discriminate. }
  exists (answer_with response_ok), (answer_with response_ok). cbv zeta.
  split; [intros o [<-|[<-|[]]] (path & sub & E & _); discriminate E|]. split; [eexists; vm_compute; reflexivity|]. split.
  - intros p m h' [I|[I|[]]]; injection I as <- <- <-; exact AW.
  - intros p mw [I|[I|[]]]; discriminate I.
Qed.

(** Either nothing is printed, and then the answer is 404 for want of a handler, or the
    first line names the request and the last one tells how it ended. *)
Theorem C63_any_colons_partial : forall (X U A : Type) d (l : list (op (handler X U A) (middleware X U A))) t,
  build l = (t, None) -> no_root_mount l ->
  exists t', build (app_default d ++ l) = (t', None) /\ forall st rq tr o, runs (serve t' st rq) tr o ->
    ((forall rv, search_route t (rq_path rq) = LSome rv -> rr_get_route rv (rq_method rq) = None) /\
     tr = [] /\ o = Value (HttpResponse 404%N [] (Body [utf8 (lit "404 Not Found")] false))) \/
    exists rv rt mid last, search_route t (rq_path rq) = LSome rv /\ rr_get_route rv (rq_method rq) = Some rt /\
      tr = EvPrint (LRequest (rq_method rq) (rq_path rq) (rq_query rq)) :: (if d then [EvPrint LDebug] else []) ++ mid ++ last /\
      match o with
      | Value resp => last = [EvPrint (LSent (h_status resp))] \/
          exists e, last = [EvPrint (LError e)] /\ h_status resp = 500%N /\ body_bytes (h_body resp) = utf8 e
      | Panicked _ => True
      end.
Proof. exact (@logged_text). Qed.
Print Assumptions C63_any_colons_partial.

(** The lines of one request to a router with a boundary before a colon. *)
Example C63_any_example :
  let l : list (op (handler unit unit unit) (middleware unit unit unit)) :=
    [ORoute GET (lit "/ac") no_answer; ORoute GET (lit "/a:b") (answer_with response_ok)] in
  no_root_mount l /\ exists t t', build l = (t, None) /\ build (app_default false ++ l) = (t', None) /\
    runs (serve t' None (get_req (lit "/a/zz")))
      [EvPrint (LRequest GET (lit "/a/zz") None); EvPrint (LSent 200%N)] (Value (HttpResponse 200%N [] body_empty)).
Proof.
  cbv zeta. split; [intros o [<-|[<-|[]]] (path & sub & E & _); discriminate E|].
  eexists. eexists. split; [vm_compute; reflexivity|]. split; [vm_compute; reflexivity|].
  vm_compute. repeat constructor.
Qed.

(** * C35: static files *)

Theorem C35_any_colons : forall (X U A : Type) (l : list (op (handler X U A) (middleware X U A))) t v d st (rq : request X) pre rest b fs tr o,
  build l = (t, None) -> no_root_mount l -> no_star_mount l -> In (use_static_to v d) l ->
  (forall p c, registered l p c -> c <> CNode ->
     strict_prefix (text (segments v)) (text p) -> text p = text (segments v ++ [s_star])) ->
  (forall p mw, ~ registered l p (CMw mw)) ->
  rq_method rq = GET -> segments (rq_path rq) = pre ++ rest -> rest <> [] -> seg_match (segments v) pre b ->
  runs (serve t st rq) tr o -> fs_ok fs tr ->
  exists resp, o = Value resp /\ h_headers resp = [] /\
    file_reply fs (join_slash (segments d ++ rest)) (h_status resp) (h_body resp).
Proof. exact (@static_served_text). Qed.
Print Assumptions C35_any_colons.

Example C35_any_example : exists h h2 : handler unit unit unit,
  let l := [ORoute GET (lit "/ac") h; ORoute GET (lit "/a:b") h2; use_static_to (lit "/files") (lit "public")] in
  (exists t, build l = (t, None)) /\ no_root_mount l /\ no_star_mount l /\ (forall p mw, ~ registered l p (CMw mw)) /\
  forall p c, registered l p c -> c <> CNode ->
     strict_prefix (text (segments (lit "/files"))) (text p) -> text p = text (segments (lit "/files") ++ [s_star]).
Proof.
  exists (answer_with response_ok), (answer_with response_ok). cbv zeta.
  assert (L : forall H M (h1 h2 h3 : H), exists t : trie H M, build [ORoute GET (lit "/ac") h1; ORoute GET (lit "/a:b") h2;
      ORoute GET (lit "/files" ++ [c_slash; c_star]) h3] = (t, None)) by (intros; eexists; vm_compute; reflexivity).
  split; [apply L|].
  split; [intros o [<-|[<-|[<-|[]]]] (path & sub & E & _); discriminate E|].
  split; [intros p [I|[I|[I|[]]]]; discriminate I|]. split; [intros p mw [I|[I|[I|[]]]]; discriminate I|].
  intros p c [I|[I|[I|[]]]] _ (x & r & E); injection I as <- _; try reflexivity; vm_compute in E; discriminate E.
Qed.

Theorem C35_dir_any_colons : forall (X U A : Type) (l : list (op (handler X U A) (middleware X U A))) t d st (rq : request X) pre rest b fs tr o,
  build l = (t, None) -> no_root_mount l -> no_star_mount l -> In (use_static d) l ->
  (forall p c, registered l p c -> c <> CNode ->
     strict_prefix (text (segments d)) (text p) -> text p = text (segments d ++ [s_star])) ->
  (forall p mw, ~ registered l p (CMw mw)) ->
  rq_method rq = GET -> segments (rq_path rq) = pre ++ rest -> rest <> [] -> seg_match (segments d) pre b ->
  runs (serve t st rq) tr o -> fs_ok fs tr ->
  exists resp, o = Value resp /\ h_headers resp = [] /\
    file_reply fs (join_slash (pre ++ rest)) (h_status resp) (h_body resp).
Proof. exact (@static_dir_served_text). Qed.
Print Assumptions C35_dir_any_colons.

Example C35_dir_any_example :
  let l : list (op (handler unit unit unit) (middleware unit unit unit)) :=
    [ORoute GET (lit "/ac") no_answer; ORoute GET (lit "/a:b") no_answer; use_static (lit "/public")] in
  (exists t, build l = (t, None)) /\ no_root_mount l /\ no_star_mount l /\ In (use_static (lit "/public")) l /\
  (forall p mw, ~ registered l p (CMw mw)) /\
  (forall p c, registered l p c -> c <> CNode ->
     strict_prefix (text (segments (lit "/public"))) (text p) -> text p = text (segments (lit "/public") ++ [s_star])) /\
  segments (lit "/public/img/a.png") = [lit "public"] ++ [lit "img"; lit "a.png"] /\
  seg_match (segments (lit "/public")) [lit "public"] [].
Proof.
  cbv zeta.
  assert (L : forall H M (h1 h2 h3 : H), exists t : trie H M, build [ORoute GET (lit "/ac") h1; ORoute GET (lit "/a:b") h2;
      ORoute GET (lit "/public" ++ [c_slash; c_star]) h3] = (t, None)) by (intros; eexists; vm_compute; reflexivity).
  split; [apply L|].
  split; [intros o [<-|[<-|[<-|[]]]] (path & sub & E & _); discriminate E|].
  split; [intros p [I|[I|[I|[]]]]; discriminate I|]. split; [right; right; left; reflexivity|].
  split; [intros p mw [I|[I|[I|[]]]]; discriminate I|]. split.
  { intros p c [I|[I|[I|[]]]] _ (x & r & E); injection I as <- _; try reflexivity; vm_compute in E; discriminate E. }
  split; [reflexivity|]. apply sm_lit; [lit_seg|apply sm_nil].
Qed.

(** * C25, C28-C30, C32, C60, C61: requests *)

Theorem C60_any_colons : forall (X U A : Type) (l : list (op (handler X U A) (middleware X U A))) t st (rq : request X) p b h,
  build l = (t, None) -> registered l p (CRoute (rq_method rq) h) -> no_star p -> seg_match p (segments (rq_path rq)) b ->
  exists pm c, (forall n, pget n pm = first_binding b n) /\ starts rq pm st c /\
    handles (serve t st rq) (next (text_mws (table_of l) (text p)) h c).
Proof. exact (@own_chain). Qed.
Print Assumptions C60_any_colons.

(** [colons_of h m]: the routes /ac and /a:b/:id with the handler [h], the middleware [m] at /a:b ([TextWitness]). *)
Example C60_any_colons_example : exists t, build (colons_of (@answer_with unit unit unit response_ok) (@around unit unit unit (lit "in") (lit "out"))) = (t, None) /\
  exists hm tr, runs (serve t None (get_req (lit "/a:b/7"))) tr (Value (HttpResponse 200%N hm body_empty)) /\ length tr = 2.
Proof.
  destruct (colons_built (@answer_with unit unit unit response_ok) (@around unit unit unit (lit "in") (lit "out"))) as ((t & B & E) & _).
  exists t. split; [exact B|]. unfold serve. cbn [rq_path get_req]. rewrite E. eexists. eexists. split; [vm_compute; repeat econstructor|reflexivity].
Qed.

(** Every request of every accepted router: a registered route for its method, below the middlewares of its path, or 404. *)
Theorem C25_any_colons : forall (X U A : Type) (l : list (op (handler X U A) (middleware X U A))) t st (rq : request X),
  build l = (t, None) ->
  (exists p h pm c, registered l p (CRoute (rq_method rq) h) /\ starts rq pm st c /\
     handles (serve t st rq) (next (text_mws (table_of l) (text p)) h c)) \/
  (forall tr o, runs (serve t st rq) tr o <->
     tr = [] /\ o = Value (HttpResponse 404%N [] (Body [utf8 (lit "404 Not Found")] false))).
Proof. exact (@every_request). Qed.
Print Assumptions C25_any_colons.

Example C25_any_colons_example : exists t, build (colons_of (@answer_with unit unit unit response_ok) (@around unit unit unit (lit "in") (lit "out"))) = (t, None) /\
  runs (serve t None (get_req (lit "/a:b"))) [] (Value (HttpResponse 404%N [] (Body [utf8 (lit "404 Not Found")] false))).
Proof. eexists. split; [vm_compute; reflexivity|]. vm_compute. apply run_ret. Qed.

Theorem C28_any_colons : forall (X U A : Type) (l : list (op (handler X U A) (middleware X U A))) t st (rq : request X) p b h,
  build l = (t, None) -> registered l p (CRoute (rq_method rq) h) -> no_star p -> seg_match p (segments (rq_path rq)) b ->
  exists pm c, (forall n, pget n pm = first_binding b n) /\ starts rq pm st c /\
    forall tr e, runs (next (text_mws (table_of l) (text p)) h c) tr (Value (inr e)) ->
      exists bd, body_bytes bd = utf8 (error_text e) /\ broken bd = false /\
        forall o, runs (serve t st rq) tr o <-> o = Value (HttpResponse 500%N [] bd).
Proof. exact (@own_error). Qed.
Print Assumptions C28_any_colons.

Example C28_any_colons_example : let h : handler unit unit unit := fun _ => Ret (inr (EGeneral (lit "no"))) in
  exists t, build (colons_of h (@around unit unit unit (lit "in") (lit "out"))) = (t, None) /\
  exists tr, runs (serve t None (get_req (lit "/a:b/7"))) tr (Value (HttpResponse 500%N [] (Body [utf8 (lit "no")] false))).
Proof.
  intros h. destruct (colons_built h (@around unit unit unit (lit "in") (lit "out"))) as ((t & B & E) & _).
  exists t. split; [exact B|]. unfold serve. cbn [rq_path get_req]. rewrite E. eexists. vm_compute. repeat econstructor.
Qed.

Theorem C29_any_colons : forall (X U A : Type) (l : list (op (handler X U A) (middleware X U A))) t st (rq : request X) p b h,
  build l = (t, None) -> registered l p (CRoute (rq_method rq) h) -> no_star p -> seg_match p (segments (rq_path rq)) b ->
  exists pm c, (forall n, pget n pm = first_binding b n) /\ starts rq pm st c /\
    forall tr c', runs (next (text_mws (table_of l) (text p)) h c) tr (Value (inl c')) ->
      (ctx_response c' = None -> exists bd, body_bytes bd = [] /\ broken bd = false /\
         forall o, runs (serve t st rq) tr o <-> o = Value (HttpResponse 200%N [] bd)) /\
      (forall r, ctx_response c' = Some r -> (forall k v, In (k, v) (header_list r) -> header_text v) ->
         exists hm, NoDup (map fst hm) /\ (forall k v, In (k, v) hm <-> last_value k (header_list r) = Some v) /\
           forall o, runs (serve t st rq) tr o <-> o = Value (HttpResponse (res_status r) hm (res_body r))) /\
      (forall r k v, ctx_response c' = Some r -> In (k, v) (header_list r) -> ~ header_text v ->
         forall o, runs (serve t st rq) tr o <-> o = Panicked PHeaderValue).
Proof. exact (@own_response). Qed.
Print Assumptions C29_any_colons.

Example C29_any_colons_example : let r := Response (Body [[1; 2]]%N false) 201%N (Some [(lit "x-a", lit "1"); (lit "x-a", lit "3")]) in
  exists t, build (colons_of (@answer_with unit unit unit r) (@around unit unit unit (lit "in") (lit "out"))) = (t, None) /\
  exists tr, runs (serve t None (get_req (lit "/a:b/7"))) tr (Value (HttpResponse 201%N [(lit "x-a", lit "3")] (Body [[1; 2]]%N false))).
Proof.
  intros r. destruct (colons_built (@answer_with unit unit unit r) (@around unit unit unit (lit "in") (lit "out"))) as ((t & B & E) & _).
  exists t. split; [exact B|]. unfold serve. cbn [rq_path get_req]. rewrite E. eexists. vm_compute. repeat econstructor.
Qed.

Theorem C30_any_colons_partial : forall (X U A : Type) (l : list (op (handler X U A) (middleware X U A))) t st (rq : request X) p b h,
  build l = (t, None) -> registered l p (CRoute (rq_method rq) h) -> no_star p -> seg_match p (segments (rq_path rq)) b ->
  exists pm c, (forall n, pget n pm = first_binding b n) /\ starts rq pm st c /\
    forall tr c' r o k v, runs (next (text_mws (table_of l) (text p)) h c) tr (Value (inl c')) -> ctx_response c' = Some r ->
      (forall k v, In (k, v) (header_list r) -> header_text v) -> NoDup (map fst (header_list r)) ->
      runs (serve t st rq) tr o -> In (k, v) (header_list r) ->
      exists resp, o = Value resp /\ In (k, v) (h_headers resp).
Proof. exact (@own_distinct). Qed.
Print Assumptions C30_any_colons_partial.

Example C30_any_colons_example : let r := Response body_empty 200%N (Some [(lit "x-a", lit "1"); (lit "x-b", lit "2")]) in
  NoDup (map fst (header_list r)) /\
  exists t, build (colons_of (@answer_with unit unit unit r) (@around unit unit unit (lit "in") (lit "out"))) = (t, None) /\
  exists tr, runs (serve t None (get_req (lit "/a:b/7"))) tr (Value (HttpResponse 200%N [(lit "x-a", lit "1"); (lit "x-b", lit "2")] body_empty)).
Proof.
  intros r. split; [repeat constructor; cbn; intuition discriminate|].
  destruct (colons_built (@answer_with unit unit unit r) (@around unit unit unit (lit "in") (lit "out"))) as ((t & B & E) & _).
  exists t. split; [exact B|]. unfold serve. cbn [rq_path get_req]. rewrite E. eexists. vm_compute. repeat econstructor.
Qed.

Theorem C61_any_colons_partial : forall (X U A : Type) (l : list (op (handler X U A) (middleware X U A))) t st (rq : request X) p b h,
  build l = (t, None) -> registered l p (CRoute (rq_method rq) h) -> no_star p -> seg_match p (segments (rq_path rq)) b ->
  exists pm c, (forall n, pget n pm = first_binding b n) /\ starts rq pm st c /\
    forall tr c' r k v, runs (next (text_mws (table_of l) (text p)) h c) tr (Value (inl c')) -> ctx_response c' = Some r ->
      In (k, v) (header_list r) -> ~ header_text v ->
      forall o, runs (serve t st rq) tr o <-> o = Panicked PHeaderValue.
Proof. exact (@own_bad_header). Qed.
Print Assumptions C61_any_colons_partial.

Example C61_any_colons_example : let r := Response body_empty 200%N (Some [(lit "x-name", [74; 233]%N)]) in
  exists t, build (colons_of (@answer_with unit unit unit r) (@around unit unit unit (lit "in") (lit "out"))) = (t, None) /\
  exists tr, runs (serve t None (get_req (lit "/a:b/7"))) tr (Panicked PHeaderValue).
Proof.
  intros r. destruct (colons_built (@answer_with unit unit unit r) (@around unit unit unit (lit "in") (lit "out"))) as ((t & B & E) & _).
  exists t. split; [exact B|]. unfold serve. cbn [rq_path get_req]. rewrite E. eexists. vm_compute. repeat econstructor.
Qed.

Theorem C32_any_colons : forall (X U A : Type) (l : list (op (handler X U A) (middleware X U A))) t st (rq : request X) p b h,
  build l = (t, None) -> registered l p (CRoute (rq_method rq) h) -> no_star p -> seg_match p (segments (rq_path rq)) b ->
  exists pm c, handles (serve t st rq) (next (text_mws (table_of l) (text p)) h c) /\
    (forall n, pget n pm = first_binding b n) /\ ctx_params c = pm /\
    (forall ty x, st = Some (ty, x) -> ctx_get ty c = Some x /\
       forall ty', ty' <> ty -> ctx_get ty' c = aget N.eqb ty' (rq_ext rq)) /\
    (st = None -> forall ty, ctx_get ty c = aget N.eqb ty (rq_ext rq)).
Proof. exact (@own_state). Qed.
Print Assumptions C32_any_colons.

(** A handler that answers with the state it finds. *)
Example C32_any_colons_example : let h : handler str unit unit := fun c => Ret (b_ok (build_res c (ROptString (ctx_get 5%N c)))) in
  exists t hm tr, build (colons_of h (@around str unit unit (lit "in") (lit "out"))) = (t, None) /\
    runs (serve t (Some (5%N, lit "state")) (Request GET (lit "/a:b/7") None [] [(5%N, lit "old")] body_empty)) tr
      (Value (HttpResponse 200%N hm (Body [utf8 (lit "state")] false))).
Proof.
  intros h. destruct (colons_built h (@around str unit unit (lit "in") (lit "out"))) as ((t & B & E) & _).
  exists t. eexists. eexists. split; [exact B|]. unfold serve. cbn [rq_path]. rewrite E. vm_compute. repeat econstructor.
Qed.
