(** Cases that meet the hypotheses of the theorems about errors. *)

From Coq Require Import String ZArith.
From Verif Require Import Base BaseFacts Utf8 RouteTrie UrlEncoded UrlSpec UrlLemmas Http Form AppSpec FormSpec.
From Verif Require Import FormLemmas FormWitness Adjacent AdjacentSpec AdjacentLemmas ErrorSpec ErrorLemmas.
Local Open Scope string_scope.
Local Open Scope list_scope.

(** [struct { id: i32, age: u8 }]. *)
Definition person : list (field unit) := [Field (lit "id") (TInt i32) None; Field (lit "age") (TInt (Ity false 8)) None].

Lemma person_apart : NoDup (map f_name person).
Proof. repeat constructor; cbn; intros H; [destruct H as [H|[]]; discriminate H|exact H]. Qed.

Lemma complains_int {F} (pf : bool -> str -> F + str) msg it l m : complains pf msg (TInt it) l m ->
  exists s r, l = s :: r /\ parse_int it s = inr m.
Proof. intros C. inversion C; subst. do 2 eexists. split; [reflexivity|]. apply parse_int_says. assumption. Qed.

Lemma person_says :
  target_says no_float no_msg [(lit "id", lit "x")] (TgStruct person false) (lit "invalid digit found in string") /\
  ~ target_says no_float no_msg [(lit "id", lit "x")] (TgStruct person false) (lit "missing field `age`") /\
  target_says no_float no_msg [(lit "id", lit "1")] (TgStruct person false) (lit "missing field `age`").
Proof.
  assert (X : int_says i32 (lit "x") (lit "invalid digit found in string")) by (apply parse_int_says; reflexivity).
  assert (Fx : forall m, struct_fault no_float no_msg [(lit "id", lit "x")] person false m -> m = lit "invalid digit found in string").
  { intros m [f m' [<-|[<-|[]]] C|k D]; [| |discriminate D]; apply complains_int in C as (s & r & E & J); try discriminate E.
    vm_compute in E. injection E as <- <-. vm_compute in J. injection J as <-. reflexivity. }
  split; [|split].
  - apply ss_fault, sf_field with (f := Field (lit "id") (TInt i32) None); [left; reflexivity|]. apply co_int. exact X.
  - intros J. inversion J as [m S E|f No Fm E]; subst.
    + apply Fx in S. discriminate S.
    + apply (No (lit "invalid digit found in string")), sf_field with (f := Field (lit "id") (TInt i32) None); [left; reflexivity|].
      apply co_int. exact X.
  - apply (ss_missing no_float no_msg _ _ _ (Field (lit "age") (TInt (Ity false 8)) None)).
    + intros m [f m' [<-|[<-|[]]] C|k D]; [| |discriminate D]; apply complains_int in C as (s & r & E & J); try discriminate E.
      vm_compute in E. injection E as <- <-. vm_compute in J. discriminate J.
    + exists [Field (lit "id") (TInt i32) None], []. split; [reflexivity|]. split; [|split; [|reflexivity]].
      * intros g [<-|[]]. exists (VInt 1). left. split; [discriminate|]. exists []. apply rd_scalar, st_int, FormLemmas.parse_int_spec. reflexivity.
      * split; [reflexivity|]. intros t E. discriminate E.
Qed.

Lemma shape_says msg : let ps := [(lit "type", lit "Id"); (lit "value", lit "x")] in
  adjacent_says no_float msg shape ps (lit "invalid digit found in string") /\
  adjacent_says no_float msg shape ps (msg (MString (lit "x"))) /\
  (msg (MString (lit "x")) <> lit "missing field `value`" -> ~ adjacent_says no_float msg shape ps (lit "missing field `value`")).
Proof.
  intros ps. assert (T : tagged shape ps (Variant (lit "Id") (Some (TInt i32)))) by (split; [left; reflexivity|exists []; reflexivity]).
  split; [|split].
  - eapply as_content; [exact T|]. apply co_int. apply parse_int_says. reflexivity.
  - eapply as_text; [exact T|reflexivity|]. apply us_string. exact I.
  - intros N J. inversion J as [k D|Ad V|s r V Ni|n t m T' C|n t s r m T' V U|n s r T' V|n t Ad T' Nop V]; subst.
    + discriminate D.
    + vm_compute in V. injection V as <- <-. apply Ni. left. reflexivity.
    + pose proof (tagged_unique shape _ _ _ shape_sound T T') as E. injection E as <- <-.
      apply complains_int in C as (s & r & E & K). vm_compute in E. injection E as <- <-. vm_compute in K. discriminate K.
    + pose proof (tagged_unique shape _ _ _ shape_sound T T') as E. injection E as <- <-.
      inversion U; subst. vm_compute in V. injection V as <- <-. apply N. assumption.
    + pose proof (tagged_unique shape _ _ _ shape_sound T T') as E. discriminate E.
    + discriminate V.
Qed.
