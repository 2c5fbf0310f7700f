(** Witnesses for the properties of queries and forms. *)

From Coq Require Import String ZArith.
From Verif Require Import Base BaseFacts Utf8 RouteTrie Router PropSpec RouteFacts RouteLemmas RouteWitness.
From Verif Require Import UrlEncoded UrlFacts Http Form AppSpec AppLemmas4 AppWitness FormSpec FormLemmas FormLemmas2 FormLemmas3.
Local Open Scope string_scope.
Local Open Scope list_scope.

Lemma iteration_id {A} : iteration (fun l : list A => l).
Proof. intros l. reflexivity. Qed.
Lemma iteration_rev {A} : iteration (@rev A).
Proof. intros l. symmetry. apply Permutation_rev. Qed.

(** Example requests with a query string, and with a form in one chunk; a float parser and
    error texts. *)
Definition asked (q : str) : context unit :=
  context_new (Request GET (lit "/") (Some q) [] [] body_empty) [].
Definition sent (b : str) : context unit :=
  context_new (Request POST (lit "/") None [] [] (Body [utf8 b] false)) [].
Definition no_float : bool -> str -> unit + str := fun _ _ => inr [].
Definition no_msg : mismatch -> str := fun _ => [].

Lemma asked_data q : has_data FromQuery (asked q) (utf8 q).
Proof. reflexivity. Qed.
Lemma sent_data b : utf8 b <> [] -> has_data FromBody (sent b) (utf8 b).
Proof.
  intros N. split; [reflexivity|]. split; [|symmetry; apply app_nil_r].
  right. exists [], (utf8 b), []. split; [reflexivity|]. intros y [[]|[]].
Qed.

Section Witness.
  Context {F : Type} (parse_float : bool -> str -> F + str) (serde_msg : mismatch -> str).

  Lemma w_order : exists q it1 it2 it3 it4 k k',
    iteration it1 /\ iteration it2 /\ iteration it3 /\ iteration it4 /\
    parse_queries parse_float serde_msg it1 it2 TgString q = Done (RKey k) /\
    parse_queries parse_float serde_msg it3 it4 TgString q = Done (RKey k') /\ k <> k'.
  Proof.
    exists (utf8 (lit "a=1&b=2")), (fun l => l), (fun l => l), (fun l => l), (@rev _), (lit "a"), (lit "b").
    split; [apply iteration_id|]. split; [apply iteration_id|]. split; [apply iteration_id|]. split; [apply iteration_rev|].
    split; [vm_compute; reflexivity|]. split; [vm_compute; reflexivity|]. discriminate.
  Qed.

  Lemma w_panic_empty_list : exists (tg : target F) es p, NoDup (map fst es) /\
    from_cow_map parse_float serde_msg tg es = Panics p.
  Proof. exists (TgMap KString TString), [(lit "a", [])], PIndex. split; [repeat constructor; auto|reflexivity]. Qed.

  Lemma w_panic_option : exists (tg : target F) es p, NoDup (map fst es) /\ (forall k vs, In (k, vs) es -> vs <> []) /\
    from_cow_map parse_float serde_msg tg es = Panics p.
  Proof.
    exists (TgMap KString (TVec (TOption TString))), [(lit "a", [lit "x"; []])], PIndex.
    split; [repeat constructor; auto|]. split; [intros k vs [[= <- <-]|[]]; discriminate|reflexivity].
  Qed.

  Lemma w_lost_element : exists k l r,
    from_cow_map parse_float serde_msg (TgMap KString (TVec (TOption TString))) [(k, l)] = Done (RMap [(k, VSeq r)]) /\
    length r <> length l.
  Proof.
    exists (lit "a"), [[]; lit "x"], [VNone]. split; [reflexivity|discriminate].
  Qed.

  Lemma w_number_key : exists es e, NoDup (map fst es) /\
    (forall k vs, In (k, vs) es -> (exists z, int_text i32 k z) /\ vs <> []) /\
    from_cow_map parse_float serde_msg (TgMap KNumber TString) es = Fail e.
  Proof.
    eexists [(lit "7", [lit "x"])], _. split; [repeat constructor; auto|]. split; [|reflexivity].
    intros k vs [[= <- <-]|[]]. split; [|discriminate]. exists 7%Z. apply parse_int_spec. reflexivity.
  Qed.

  Lemma w_form_chunks {X} (c : context X) : exists it1 it2 tg c1 c2,
    iteration it1 /\ iteration it2 /\ same_but_body c c1 /\ same_but_body c c2 /\
    body_bytes (rq_body (ctx_request c1)) = body_bytes (rq_body (ctx_request c2)) /\
    broken (rq_body (ctx_request c1)) = false /\ broken (rq_body (ctx_request c2)) = false /\
    fst (ctx_form parse_float serde_msg it1 it2 tg c1) <> fst (ctx_form parse_float serde_msg it1 it2 tg c2).
  Proof.
    pose (d := utf8 (lit "a=1")). pose (e := utf8 (lit "&b=2")).
    pose (tg := TgMap (F:=F) KString TString).
    destruct (chunking_matters (fun b => queries_result (parse_queries parse_float serde_msg (fun l => l) (fun l => l) tg b)) d e c)
      as (c1 & c2 & S1 & S2 & B1 & B2 & R1 & R2 & N); [discriminate|vm_compute; discriminate|].
    exists (fun l => l), (fun l => l), tg, c1, c2.
    split; [apply iteration_id|]. split; [apply iteration_id|]. split; [exact S1|]. split; [exact S2|].
    split; [rewrite B1, B2; reflexivity|]. split; [exact R1|]. split; [exact R2|]. exact N.
  Qed.
End Witness.

(** A percent-encoded parameter arrives as written. *)
Lemma w_encoded_param : exists (t : trie nat nat) r s e,
  built [ORoute GET (lit "/u/:id") 0] t /\ search_route t (lit "/u/" ++ e) = LSome r /\
  writes_text [38; 43; 37; 47]%N s (utf8 e) /\ pget (lit "id") (rr_params r) = Some e /\ e <> s.
Proof.
  eexists. eexists. exists (lit "a b"), (lit "a%20b"). split; [built_by|]. split; [vm_compute; reflexivity|].
  split; [|split; [vm_compute; reflexivity|discriminate]].
  exists [[97]; [37; 50; 48]; [98]]%N. split; [|reflexivity]. repeat constructor.
  - intros I. repeat (destruct I as [I|I]; [discriminate I|]). exact I.
  - apply (wb_hex _ _ 50%N 48%N 2%N 0%N); [left; split; [split; discriminate|reflexivity]|left; split; [split; discriminate|reflexivity]|reflexivity].
  - intros I. repeat (destruct I as [I|I]; [discriminate I|]). exact I.
Qed.
