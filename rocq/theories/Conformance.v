(** The unit tests of /repo replayed on the model.  These are tests of the model, not
    proofs of properties: each states what the test of the same name asserts.  Left out:
    the two tests of [json] (see [ConformanceJson]) and the two of
    responder.rs that are commented out. *)

From Coq Require Import String ZArith.
From Verif Require Import Base Utf8 RouteTrie Router Http App AppSpec AppWitness Form.
Local Open Scope string_scope.
Local Open Scope list_scope.

Definition text_normal : str := [12494; 12540; 12510; 12523]%N.   (* ノーマル *)
Definition text_test : str := [12486; 12473; 12488]%N.            (* テスト *)
Definition text_table : str := [12486; 12540; 12502; 12523]%N.    (* テーブル *)
Definition text_hello : str := [12371; 12435; 12395; 12385; 12399]%N.  (* こんにちは *)
Definition text_a : str := [21834]%N.                             (* 啊 *)

(** [/a/b/] *)
Definition dir (l : list str) : str := c_slash :: flat_map (fun s => s ++ [c_slash]) l.

(** What the tests look at: the number of middlewares and the methods with a route. *)
Definition seen {H M} (t : trie H M) (ms : list method) (path : str) : option (nat * list bool) :=
  match search_route t path with
  | LSome r => Some (length (rr_mws r), map (fun m => match rr_get_route r m with
                                                       | Some rt => method_eqb (r_method rt) m
                                                       | None => false
                                                       end) ms)
  | _ => None
  end.

(** A history of calls on a new [Router] or [RouteTrie], without a panic. *)
Definition after (l : list (op unit unit)) (f : trie unit unit -> Prop) : Prop :=
  match build l with
  | (t, None) => f t
  | (_, Some _) => False
  end.
Definition panics (l : list (op unit unit)) : Prop :=
  match build l with
  | (_, Some _) => True
  | (_, None) => False
  end.

Notation get path := (ORoute GET path tt).
Notation logger_at path := (OServiceTo path tt).
Notation a_logger := (OService tt).

(** ** route_trie.rs *)

Example radix_trie_head_test : after [a_logger; get (lit "/")] (fun t =>
  seen t [GET] (lit "/") = Some (1, [true])).
Proof. vm_compute. reflexivity. Qed.

Example radix_trie_normal_test :
  after [a_logger; get (lit "/normal/test/"); get (dir [text_normal; text_test]); logger_at (dir [text_normal; text_test])] (fun t =>
    seen t [GET] (lit "/normal/test/") = Some (1, [true]) /\
    seen t [GET] (dir [text_normal; text_test]) = Some (2, [true])).
Proof. vm_compute. split; reflexivity. Qed.

Example radix_trie_not_found_test : after [a_logger; get (lit "/normal/test/")] (fun t =>
  search_route t (lit "/fail/test/") = LNone).
Proof. vm_compute. reflexivity. Qed.

Example radix_trie_split_node_and_key_test :
  after [a_logger; get (lit "/normal/test/"); get (lit "/noral/test/"); get (dir [text_normal; text_test]);
         get (dir [text_normal; text_table]); logger_at (lit "/noral/test/"); logger_at (dir [text_normal; text_table])] (fun t =>
    seen t [GET] (lit "/normal/test/") = Some (1, [true]) /\
    seen t [GET] (lit "/noral/test/") = Some (2, [true]) /\
    seen t [GET] (dir [text_normal; text_test]) = Some (1, [true]) /\
    seen t [GET] (dir [text_normal; text_table]) = Some (2, [true])).
Proof. vm_compute. repeat split; reflexivity. Qed.

Example radix_trie_wildcard_test :
  after [get (lit "/normal/test/*"); logger_at (lit "/normal/test/*"); logger_at (lit "/normal/test/*"); logger_at (lit "/normal/test/*")] (fun t =>
    seen t [GET] (lit "/normal/test/test") = Some (3, [true]) /\
    seen t [GET] (lit "/normal/test/123") = Some (3, [true]) /\
    seen t [GET] (lit "/normal/test/" ++ text_hello) = Some (3, [true]) /\
    seen t [GET] (lit "/normal/test/" ++ text_a) = Some (3, [true])).
Proof. vm_compute. repeat split; reflexivity. Qed.

Example radix_trie_wildcard_param_conflict_test : panics [get (lit "/normal/test/*"); get (lit "/normal/test/:param")].
Proof. exact I. Qed.

Example radix_trie_param_wildcard_conflict_test : panics [get (lit "/normal/test/:param"); get (lit "/normal/test/*")].
Proof. exact I. Qed.

(** ** router.rs *)

(** router_get_test, router_post_test, router_put_test, router_delete_test *)
Example router_method_tests : forall m, In m [GET; POST; PUT; DELETE] ->
  after [ORoute m (lit "router/test") tt] (fun t =>
    seen t [m] (lit "router/test") = Some (0, [true]) /\ search_route t (lit "failed") = LNone).
Proof. intros m [<-|[<-|[<-|[<-|[]]]]]; vm_compute; split; reflexivity. Qed.

Example router_root_middleware_test : after [a_logger] (fun t =>
  seen t [] (lit "/") = Some (1, []) /\ search_route t (lit "failed") = LNone).
Proof. vm_compute. split; reflexivity. Qed.

Example router_relative_middleware_test : after [logger_at (lit "middleware/child")] (fun t =>
  seen t [] (lit "/middleware/child") = Some (1, []) /\ search_route t (lit "/") = LNone).
Proof. vm_compute. split; reflexivity. Qed.

Example router_search_test :
  after [get (lit "router/test"); ORoute POST (lit "router/test") tt; ORoute PUT (lit "router/test") tt;
         ORoute DELETE (lit "router/test") tt; get (lit "route/diff_route")] (fun t =>
    seen t [GET; POST; PUT; DELETE] (lit "router/test") = Some (0, [true; true; true; true]) /\
    seen t [GET] (lit "route/diff_route") = Some (0, [true]) /\
    search_route t (lit "failed") = LNone).
Proof. vm_compute. repeat split; reflexivity. Qed.

Example router_merge_test :
  after [get (lit "router/test"); ORouter (lit "sub_router") [get (lit "router/test"); a_logger]] (fun t =>
    seen t [GET] (lit "router/test") = Some (0, [true]) /\
    seen t [GET] (lit "sub_router/router/test") = Some (1, [true]) /\
    search_route t (lit "failed") = LNone).
Proof. vm_compute. repeat split; reflexivity. Qed.

Example router_duplicate_path_test : panics [get (lit "router/test"); get (lit "router/test")].
Proof. exact I. Qed.

Example router_ambiguous_path_test : panics [get (lit "router/:test"); get (lit "router/test")].
Proof. exact I. Qed.

Example router_duplicate_merge_test :
  panics [get (lit "sub_router/test"); ORouter (lit "sub_router") [get (lit "test"); a_logger]].
Proof. exact I. Qed.

(** ** app.rs *)

(** The closure of the test; its assertions panic. *)
Definition echo : handler unit unit unit := fun c =>
  let (b, c) := take_body c in
  match aggregate b with
  | Some buf =>
      if str_eqb (rq_path (ctx_request c)) (lit "/") && str_eqb (buf_chunk buf) (utf8 (lit "test_app_server"))
      then Ret (b_ok (build_res c (RStatic (lit "test_app_server"))))
      else Crash PUnwrapNone
  | None => Crash PUnwrapNone
  end.

Example test_app_server_resolve_endpoint :
  exists t resp, build [@ORoute _ (middleware unit unit unit) GET (lit "/") echo] = (t, None) /\
    runs (serve t None (Request GET (lit "/") None [] [] (body_from (utf8 (lit "test_app_server"))))) [] (Value resp) /\
    h_status resp = 200%N /\ body_bytes (h_body resp) = utf8 (lit "test_app_server").
Proof.
  eexists. eexists. split; [vm_compute; reflexivity|]. split; [vm_compute; apply run_ret|]. split; reflexivity.
Qed.

(** ** context.rs *)

Definition int_param (s : str) : option Z := match parse_int i32 s with inl z => Some z | inr _ => None end.

Example test_params : let c := context_new (@get_req unit (lit "/")) [(lit "id", lit "1"); (lit "mode", lit "edit")] in
  ctx_param int_param (lit "id") c = inl 1%Z /\ ctx_param (@Some str) (lit "mode") c = inl (lit "edit").
Proof. vm_compute. split; reflexivity. Qed.

Example test_params_without_value : let c := context_new (@get_req unit (lit "/")) [(lit "mode", lit "edit")] in
  ctx_param (@Some str) (lit "mode") c = inl (lit "edit") /\ exists e, ctx_param int_param (lit "id") c = inr e.
Proof. vm_compute. split; [reflexivity|]. eexists. reflexivity. Qed.

Definition form_result : target unit :=
  TgStruct [Field (lit "id") (TInt i32) None; Field (lit "mode") TString None] false.
Definition form_extra_result : target unit :=
  TgStruct [Field (lit "id") (TInt i32) None; Field (lit "mode") TString None; Field (lit "extra") (TInt i32) (Some (VInt 0))] false.

Definition no_float (w : bool) (s : str) : unit + str := inr [].
Definition posted (s : str) : context unit := context_new (Request GET (lit "/") None [] [] (body_from (utf8 s))) [].

Example test_string_query : forall it1 it2, (forall l : list entry, it1 l = l \/ it1 l = rev l) -> (forall l, it2 l = l \/ it2 l = rev l) ->
  ctx_query_params no_float (fun _ => []) it1 it2 form_result (context_new (Request GET (lit "/test/test") (Some (lit "id=1&mode=edit")) [] [] body_empty) [] : context unit)
  = inl (inl (RStruct [VInt 1; VString (lit "edit")])).
Proof.
  intros it1 it2 E1 E2. unfold ctx_query_params, parse_queries.
  cbn [ctx_request context_new rq_query].
  set (es := parsed_form_map _). vm_compute in es. subst es. match goal with |- context [it1 ?l] => destruct (E1 l) as [->| ->] end;
    cbn [rev app]; set (cs := cow_form_map _); vm_compute in cs; subst cs;
    (match goal with |- context [it2 ?l] => destruct (E2 l) as [->| ->] end); vm_compute; reflexivity.
Qed.

Notation form tg s := (fst (ctx_form no_float (fun _ => []) (fun l => l) (@rev _) tg (posted (lit s)))).

Example test_form : form form_result "id=1&mode=edit" = inl (inl (RStruct [VInt 1; VString (lit "edit")])).
Proof. vm_compute. reflexivity. Qed.

Example test_form_with_extra_body :
  form form_result "id=1&mode=edit&extra=true" = inl (inl (RStruct [VInt 1; VString (lit "edit")])).
Proof. vm_compute. reflexivity. Qed.

Example test_form_with_extra_field :
  form form_extra_result "id=1&mode=edit" = inl (inl (RStruct [VInt 1; VString (lit "edit"); VInt 0])).
Proof. vm_compute. reflexivity. Qed.

(** ** req_deserializer.rs *)

Example test_deserialize_to_struct_with_vec_and_single_variable :
  form (TgStruct [Field (lit "field1") (TVec TString) None; Field (lit "field2") (TInt i32) None] false)
    "field1=abc&field1=xyz&field2=12"
  = inl (inl (RStruct [VSeq [VString (lit "abc"); VString (lit "xyz")]; VInt 12])).
Proof. vm_compute. reflexivity. Qed.

Definition vec_struct : target unit := TgStruct [Field (lit "field1") (TVec (TInt i32)) None] false.

Example test_deserialize_to_struct_with_vec :
  form vec_struct "field1=1&field1=2" = inl (inl (RStruct [VSeq [VInt 1; VInt 2]])).
Proof. vm_compute. reflexivity. Qed.

Example test_deserialize_to_struct_with_extra_form_value :
  form vec_struct "field1=1&field1=2&field2=12" = inl (inl (RStruct [VSeq [VInt 1; VInt 2]])).
Proof. vm_compute. reflexivity. Qed.

Example test_deserialize_to_struct_with_extra_struct_field :
  form (TgStruct [Field (lit "field1") (TVec (TInt i32)) None; Field (lit "field2") (TInt i32) (Some (VInt 0))] false)
    "field1=1&field1=2"
  = inl (inl (RStruct [VSeq [VInt 1; VInt 2]; VInt 0])).
Proof. vm_compute. reflexivity. Qed.

Example test_deserialize_to_map_type :
  form (TgMap KString (TVec (TInt i32))) "field1=1&field1=2&field2=3"
  = inl (inl (RMap [(lit "field2", VSeq [VInt 3]); (lit "field1", VSeq [VInt 1; VInt 2])])).
Proof. vm_compute. reflexivity. Qed.

(** ** response.rs, responder.rs *)

Example test_response : res_status (response_new (BStatic (lit "Hello World"))) = 200%N.
Proof. reflexivity. Qed.

Example test_response_utilities_status :
  res_status response_ok = 200%N /\ res_status response_created = 201%N /\ res_status response_internal_server_error = 500%N.
Proof. repeat split. Qed.

Example test_complete_response :
  let r := json (inl (lit "{""name"":""Jun Kai"",""age"":27}")) (set_header (lit "authorization") (lit "token") response_created) in
  res_status r = 201%N /\ exists l, res_headers r = Some l /\
    In (content_type, lit "application/json") l /\ In (lit "authorization", lit "token") l.
Proof. split; [reflexivity|]. eexists. split; [reflexivity|]. split; cbn; auto. Qed.

Example test_str_responder : res_status (respond_to (RStatic (lit "Hello World"))) = 200%N.
Proof. reflexivity. Qed.

Example test_string_responder : res_status (respond_to (RString (lit "Hello World"))) = 200%N.
Proof. reflexivity. Qed.

Example test_responder_with_custom_status : res_status (respond_to (RResponse (rb_with_status (BStatic (lit "Test")) 201%N))) = 201%N.
Proof. reflexivity. Qed.

Example test_responder_with_custom_header :
  let r := respond_to (RResponse (rb_with_header (BStatic (lit "Test")) content_type (lit "application/json"))) in
  res_status r = 200%N /\ exists l, res_headers r = Some l /\ In (content_type, lit "application/json") l.
Proof. split; [reflexivity|]. eexists. split; [reflexivity|]. left. reflexivity. Qed.

(** ** examples/main.rs *)

(** The registrations of the example; handlers are numbered in the order of the file. *)
Definition main_router : list (op nat unit) :=
  [ORoute GET (lit "/") 1; ORoute GET (lit "/json") 2; ORoute GET (lit "/user") 3; ORoute PATCH (lit "/patch-here") 4;
   ORoute GET (lit "/json-with-headers") 5; ORoute GET (lit "/string-with-headers") 6; ORoute GET (lit "/empty-body") 7;
   ORoute GET (lit "/vec") 8; ORoute GET (lit "/String") 9; ORoute GET (lit "/test/radix") 10; ORoute GET (lit "/team/radix") 11;
   ORoute GET (lit "/test/radix2") 12; ORoute GET (lit "/jsontest") 13; ORoute GET (lit "/jsan") 14;
   ORoute GET (lit "/test/wildcard/*") 15; ORoute GET (lit "router/test") 16; ORoute POST (lit "router/test") 17;
   ORoute PUT (lit "router/test") 18; ORoute DELETE (lit "router/test") 19; ORoute GET (lit "route/diff_route") 20;
   OScope (lit "admin") [ORoute GET (lit "test") 21; ORoute GET (lit "test2") 22];
   OScope (lit "form") [ORoute GET (lit "/formtest") 23];
   OService tt;
   OScope (lit "params") [ORoute GET (lit "/test-next-wild/*") 24; ORoute GET (lit "/*") 25];
   ORoute GET (lit "/files//*") 26].

Definition reached (t : trie nat unit) (m : method) (path : str) : option (nat * nat) :=
  match search_route t path with
  | LSome r => option_map (fun rt => (r_handler rt, length (rr_mws r))) (rr_get_route r m)
  | _ => None
  end.

(** It starts, and every route is reached through the one middleware. *)
Example examples_main : match build main_router with
  | (t, None) =>
      map (fun p => reached t (fst p) (snd p))
        [(GET, lit "/"); (GET, lit "/json"); (GET, lit "/user"); (PATCH, lit "/patch-here"); (GET, lit "/json-with-headers");
         (GET, lit "/string-with-headers"); (GET, lit "/empty-body"); (GET, lit "/vec"); (GET, lit "/String"); (GET, lit "/test/radix");
         (GET, lit "/team/radix"); (GET, lit "/test/radix2"); (GET, lit "/jsontest"); (GET, lit "/jsan"); (GET, lit "/test/wildcard/a/b");
         (GET, lit "/router/test"); (POST, lit "/router/test"); (PUT, lit "/router/test"); (DELETE, lit "/router/test");
         (GET, lit "/route/diff_route"); (GET, lit "/admin/test"); (GET, lit "/admin/test2"); (GET, lit "/form/formtest");
         (GET, lit "/params/test-next-wild/x"); (GET, lit "/params/other"); (GET, lit "/files/favicon.ico")]
      = map (fun n => Some (n, 1)) (seq 1 26) /\
      map (reached t GET) [lit "/patch-here"; lit "/admin"; lit "/nothing"; lit "/test/rad"; lit "/jso"] = repeat None 5
  | _ => False
  end.
Proof. vm_compute. split; reflexivity. Qed.
