(** The program /repo/examples/main.rs served by the model: what a client gets from each
    of its routes, and what the program prints.  Tests of the model, not proofs. *)

From Coq Require Import String.
From Verif Require Import Base Utf8 RouteTrie Router Http Form App AppSpec Server AppCalls Names.
Local Open Scope string_scope.
Local Open Scope list_scope.

(** The typed data of the program are texts; type 1 is [LoggerExampleData]
    (examples/middleware/logger_example.rs 11). *)
Notation page := (handler str unit unit).
Notation ctx := (context str).

Definition method_text (m : method) : str :=
  match m with
  | GET => lit "GET" | POST => lit "POST" | PUT => lit "PUT" | PATCH => lit "PATCH" | DELETE => lit "DELETE" | _ => lit "?"
  end.

(** [Display] of the uri of a request that came with a path and a query. *)
Definition uri_text (c : ctx) : str :=
  rq_path (ctx_request c) ++ match rq_query (ctx_request c) with Some q => lit "?" ++ q | None => [] end.

(** logger_example.rs 20-42, debug build. *)
Definition logger_example : middleware str unit unit := fun c =>
  MPrint (LOther (lit "[debug] Inside middleware"))
    (match header_get true (lit "host") (rq_headers (ctx_request c)) with
     | None => MCrash PUnwrapNone
     | Some host =>
         if visible host then
           MPrint (LOther (method_text (rq_method (ctx_request c)) ++ lit " " ++ host ++ uri_text c))
             (MNext 0 (ctx_add 1%N (lit "This is logger data") c) MDone)
         else MCrash PUnwrapNone
     end).

Definition names_of := header_name true.

(** main.rs 76-78. *)
Definition index_html : str := lit "<!DOCTYPE html><html><head><link rel=""shotcut icon"" href=""favicon.ico"" type=""image/x-icon"" sizes=""32x32"" /></head> <h1>Hello Obsidian</h1></html>".
Definition p_index : page := fun c => Ret (b_ok (build_res c (RResponse (html (BString index_html) response_ok)))).

(** main.rs 15-19: [Point { x: 1, y: 2 }] as JSON. *)
Definition point : str := lit "{""x"":1,""y"":2}".

(** main.rs 80-88. *)
Definition p_json : page := fun c =>
  match with_header_str names_of (lit "X-Custom-Header") (lit "Custom header value")
          (with_header (lit "authorization") (lit "token") (with_status 200%N (build_json c (inl point)))) with
  | inl b => Ret (b_ok b)
  | inr p => Crash p
  end.

(** main.rs 90-111; the texts of errors of serde are given by [msg]. *)
Section User.
  Variable F : Type.
  Variable pf : bool -> str -> F + str.
  Variable msg : mismatch -> str.
  Definition query_string : target F := TgStruct [Field (lit "id") TString None; Field (lit "status") TString None] false.
  Definition debug_query (id status : str) : line :=
    LOther (lit "params: QueryString { id: """ ++ id ++ lit """, status: """ ++ status ++ lit """ }").
  Definition p_user : page := fun c =>
    match ctx_query_params pf msg (fun l => l) (fun l => l) query_string c with
    | inl (inl (RStruct [VString id; VString status])) =>
        Print (debug_query id status) (Ret (b_ok (build_res c (RStatic []))))
    | inl (inl _) => Crash PUnimplemented
    | inl (inr p) => Crash p
    | inr e => Print (LOther (lit "error: " ++ error_text e)) (Print (debug_query [] []) (Ret (b_ok (build_res c (RStatic [])))))
    end.
End User.

(** main.rs 113-115. *)
Definition p_patch : page := fun c => Ret (b_ok (build_res c (RStatic (lit "Here is patch request")))).

(** main.rs 120-129 and 141-150. *)
Definition custom_headers : list (str * str) :=
  [(lit "X-Custom-Header-1", lit "Custom header 1"); (lit "X-Custom-Header-2", lit "Custom header 2");
   (lit "X-Custom-Header-3", lit "Custom header 3")].
Definition standard_headers : list (hname * str) := [(lit "authorization", lit "token"); (lit "accept-charset", lit "utf-8")].

(** main.rs 117-138. *)
Definition p_json_headers : page := fun c =>
  match set_headers_str names_of custom_headers (set_headers standard_headers response_created) with
  | inl r => Ret (b_ok (build_res c (RResponse (json (inl point) r))))
  | inr p => Crash p
  end.
(** main.rs 140-156. *)
Definition p_string_headers : page := fun c =>
  match with_headers_str names_of custom_headers (with_headers standard_headers (build_res c (RStatic (lit "Hello World")))) with
  | inl b => Ret (b_ok b)
  | inr p => Crash p
  end.
(** main.rs 158-160. *)
Definition p_empty : page := fun c => Ret (b_ok (build_res c (RStatus 200%N))).
(** main.rs 162-166. *)
Definition p_vec : page := fun c => Ret (b_ok (with_status 201%N (build_res c (RBytes [1%N; 2%N; 3%N])))).
(** main.rs 168-182, 188-190: a constant [String]. *)
Definition p_string (s : str) : page := fun c => Ret (b_ok (build_res c (RString s))).
(** main.rs 184-186, 277-279. *)
Definition p_file (path : str) : page := fun c => bind (build_file c path) (fun b => Ret (b_ok b)).
(** main.rs 192-200, 220-261: a heading and the path. *)
Definition p_path (s : str) : page := fun c => Ret (b_ok (build_res c (RString (s ++ lit "<br>" ++ rq_path (ctx_request c))))).
(** main.rs 202-217: [dbg!] of the data, then [Some] of a text. *)
Definition p_router_get : page := fun c =>
  match ctx_get 1%N c with
  | None => Ret (inr ENone)
  | Some data => Print (LDbg data) (Ret (b_ok (build_res c (ROptString (Some (lit "<h1>router test get</h1><br>" ++ rq_path (ctx_request c)))))))
  end.
(** main.rs 264-272: a [&'static str]. *)
Definition p_static (s : str) : page := fun c => Ret (b_ok (build_res c (RStatic s))).
(** main.rs 317-324. *)
Definition p_missing : page := fun c => Ret (b_ok (build_res c (RResponse (rb_with_status (BString (lit "<h1>404 Not Found</h1>")) 404%N)))).

(** main.rs 73-331. *)
Definition main_calls {F} (pf : bool -> str -> F + str) (msg : mismatch -> str) : list (acall str unit unit) :=
  [app_get (lit "/") p_index; app_get (lit "/json") p_json; app_get (lit "/user") (p_user F pf msg);
   app_patch (lit "/patch-here") p_patch; app_get (lit "/json-with-headers") p_json_headers;
   app_get (lit "/string-with-headers") p_string_headers; app_get (lit "/empty-body") p_empty; app_get (lit "/vec") p_vec;
   app_get (lit "/String") (p_string (lit "<h1>This is a String</h1>"));
   app_get (lit "/test/radix") (p_string (lit "<h1>Test radix</h1>")); app_get (lit "/team/radix") (p_string (lit "Team radix"));
   app_get (lit "/test/radix2") (p_string (lit "<h1>Test radix2</h1>")); app_get (lit "/jsontest") (p_file (lit "./testjson.html"));
   app_get (lit "/jsan") (p_string (lit "<h1>jsan</h1>")); app_get (lit "/test/wildcard/*") (p_path (lit "<h1>Test wildcard</h1>"));
   app_get (lit "router/test") p_router_get; app_post (lit "router/test") (p_path (lit "<h1>router test post</h1>"));
   app_put (lit "router/test") (p_path (lit "<h1>router test put</h1>"));
   app_delete (lit "router/test") (p_path (lit "<h1>router test delete</h1>"));
   app_get (lit "route/diff_route") (p_path (lit "<h1>route diff get</h1>"));
   app_scope (lit "admin") [ORoute GET (lit "test") (p_static (lit "Hello admin test")); ORoute GET (lit "test2") (p_static (lit "Hello admin test 2"))];
   app_scope (lit "form") [ORoute GET (lit "/formtest") (p_file (lit "/.test.html"))];
   app_use_service logger_example;
   app_scope (lit "params") [ORoute GET (lit "/test-next-wild/*") (p_string (lit "<h1>test next wild</h1>")); ORoute GET (lit "/*") p_missing];
   app_use_static_to (lit "/files/") (lit "/assets/")].

(** The program, asked by a client of localhost. *)
Definition asked {F} (pf : bool -> str -> F + str) msg (m : method) (path : str) (query : option str) (hs : list (hname * str))
  (tr : list (event unit unit)) (o : outcome http_response) : Prop :=
  match run_acalls new_app (main_calls pf msg) with
  | (a, None) => runs (call_service (make_service (listen 0%N a)) (Request m path query hs [] body_empty)) tr o
  | _ => False
  end.

(** A request that passes the middleware; [uri] is the whole target. *)
Definition told {F} (pf : bool -> str -> F + str) msg (m : method) (path : str) (query : option str) (tr : list (event unit unit)) (r : http_response) : Prop :=
  asked pf msg m path query [(lit "host", lit "localhost:3000")]
    (EvPrint (LOther (lit "[debug] Inside middleware")) ::
     EvPrint (LOther (method_text m ++ lit " localhost:3000" ++ path ++ match query with Some q => lit "?" ++ q | None => [] end)) :: tr)
    (Value r).

Definition reply (s : N) (hs : list (hname * str)) (text : str) : http_response := HttpResponse s hs (Body [utf8 text] false).
Definition typed (v : str) : list (hname * str) := [(lit "content-type", v)].
Definition plain_text := typed (lit "text/plain; charset=utf-8").
Definition header_list : list (hname * str) :=
  [(lit "authorization", lit "token"); (lit "accept-charset", lit "utf-8"); (lit "x-custom-header-1", lit "Custom header 1");
   (lit "x-custom-header-2", lit "Custom header 2"); (lit "x-custom-header-3", lit "Custom header 3")].

(** Runs are computed, with the answers the files give. *)
Fixpoint computed {T} (files : str -> str + str) (p : comp unit unit T) : list (event unit unit) * outcome T :=
  match p with
  | Ret x => ([], Value x)
  | Print l k => let '(tr, o) := computed files k in (EvPrint l :: tr, o)
  | Read path k => let '(tr, o) := computed files (k (files path)) in (EvRead path (files path) :: tr, o)
  | Ask u k => let '(tr, o) := computed files (k tt) in (EvAsk u tt :: tr, o)
  | Crash p => ([], Panicked p)
  end.

Lemma computed_runs {T} files (p : comp unit unit T) : runs p (fst (computed files p)) (snd (computed files p)).
Proof.
  induction p as [x|l k IH|path k IH|u k IH|e]; cbn [computed].
  - constructor.
  - destruct (computed files k). constructor. exact IH.
  - specialize (IH (files path)). destruct (computed files (k (files path))). constructor. exact IH.
  - specialize (IH tt). destruct (computed files (k tt)). constructor. exact IH.
  - constructor.
Qed.

Lemma by_computing {F} (pf : bool -> str -> F + str) msg files m path query hs tr o :
  match run_acalls new_app (main_calls pf msg) with
  | (a, None) => computed files (call_service (make_service (listen 0%N a)) (Request m path query hs [] body_empty)) = (tr, o)
  | _ => False
  end -> asked pf msg m path query hs tr o.
Proof.
  unfold asked. destruct (run_acalls new_app (main_calls pf msg)) as [a [p|]]; [auto|]. intros E.
  pose proof (computed_runs files (call_service (make_service (listen 0%N a)) (Request m path query hs [] body_empty))) as R.
  rewrite E in R. exact R.
Qed.

Ltac told_with files := unfold told;
  match goal with |- asked ?pf ?msg ?m ?path ?query ?hs ?tr ?o => refine (by_computing pf msg files m path query hs tr o _) end;
  vm_compute; reflexivity.
Ltac told := told_with (fun _ : str => @inl str str (lit "<p>")).

Section Main.
  Context {F : Type} (pf : bool -> str -> F + str) (msg : mismatch -> str).
  Notation gets path tr r := (told pf msg GET (lit path) None tr r).

  Example main_index : gets "/" [] (reply 200%N (typed (lit "text/html")) index_html).
  Proof. told. Qed.
  Example main_json : gets "/json" []
    (reply 200%N (typed (lit "application/json") ++ [(lit "authorization", lit "token"); (lit "x-custom-header", lit "Custom header value")]) point).
  Proof. told. Qed.
  Example main_user : told pf msg GET (lit "/user") (Some (lit "status=ok&id=7")) [EvPrint (debug_query (lit "7") (lit "ok"))]
    (HttpResponse 200%N plain_text body_empty).
  Proof. told. Qed.
  Example main_user_error : gets "/user" [EvPrint (LOther (lit "error: missing field `id`")); EvPrint (debug_query [] [])]
    (HttpResponse 200%N plain_text body_empty).
  Proof. told. Qed.
  Example main_patch : told pf msg PATCH (lit "/patch-here") None [] (reply 200%N plain_text (lit "Here is patch request")).
  Proof. told. Qed.
  Example main_json_headers : gets "/json-with-headers" [] (reply 201%N (header_list ++ typed (lit "application/json")) point).
  Proof. told. Qed.
  Example main_string_headers : gets "/string-with-headers" [] (reply 200%N (plain_text ++ header_list) (lit "Hello World")).
  Proof. told. Qed.
  Example main_empty : gets "/empty-body" [] (HttpResponse 200%N [] body_empty).
  Proof. told. Qed.
  Example main_vec : gets "/vec" [] (reply 201%N [] (lit "[1,2,3]")).
  Proof. told. Qed.
  Example main_string : gets "/String" [] (reply 200%N plain_text (lit "<h1>This is a String</h1>")).
  Proof. told. Qed.
  Example main_radix : gets "/test/radix" [] (reply 200%N plain_text (lit "<h1>Test radix</h1>")) /\
    gets "/team/radix" [] (reply 200%N plain_text (lit "Team radix")) /\
    gets "/test/radix2" [] (reply 200%N plain_text (lit "<h1>Test radix2</h1>")) /\
    gets "/jsan" [] (reply 200%N plain_text (lit "<h1>jsan</h1>")).
  Proof. split; [|split; [|split]]; told. Qed.
  (** The file is there, or it is not. *)
  Example main_file : gets "/jsontest" [EvRead (lit "./testjson.html") (inl (lit "<p>"))] (reply 200%N [] (lit "<p>")) /\
    gets "/jsontest" [EvRead (lit "./testjson.html") (inr (lit "gone")); EvPrint (LDbg (lit "gone"))] (reply 404%N [] (lit "gone")) /\
    gets "/form/formtest" [EvRead (lit "/.test.html") (inl (lit "<p>"))] (reply 200%N [] (lit "<p>")).
  Proof. split; [told|]. split; [told_with (fun _ : str => @inr str str (lit "gone"))|told]. Qed.
  Example main_wildcard : gets "/test/wildcard/a/b" [] (reply 200%N plain_text (lit "<h1>Test wildcard</h1><br>/test/wildcard/a/b")).
  Proof. told. Qed.
  (** The handler finds the data of the middleware, although it was registered before it. *)
  Example main_router : gets "/router/test" [EvPrint (LDbg (lit "This is logger data"))] (reply 200%N plain_text (lit "<h1>router test get</h1><br>/router/test")) /\
    told pf msg POST (lit "/router/test") None [] (reply 200%N plain_text (lit "<h1>router test post</h1><br>/router/test")) /\
    told pf msg PUT (lit "/router/test") None [] (reply 200%N plain_text (lit "<h1>router test put</h1><br>/router/test")) /\
    told pf msg DELETE (lit "/router/test") None [] (reply 200%N plain_text (lit "<h1>router test delete</h1><br>/router/test")) /\
    gets "/route/diff_route" [] (reply 200%N plain_text (lit "<h1>route diff get</h1><br>/route/diff_route")).
  Proof. split; [|split; [|split; [|split]]]; told. Qed.
  Example main_scopes : gets "/admin/test" [] (reply 200%N plain_text (lit "Hello admin test")) /\
    gets "/admin/test2" [] (reply 200%N plain_text (lit "Hello admin test 2")) /\
    gets "/params/test-next-wild/x" [] (reply 200%N plain_text (lit "<h1>test next wild</h1>")) /\
    gets "/params/other" [] (reply 404%N [] (lit "<h1>404 Not Found</h1>")).
  Proof. split; [|split; [|split]]; told. Qed.
  (** The leading slash of "/assets/" is lost: the directory is looked for where the
      program was started. *)
  Example main_static : gets "/files/a/b.html" [EvRead (lit "assets/a/b.html") (inl (lit "<p>"))] (reply 200%N [] (lit "<p>")).
  Proof. told. Qed.
  (** No route: neither the middleware nor a handler runs. *)
  Example main_nothing : asked pf msg GET (lit "/nothing") None [] [] (Value (reply 404%N [] (lit "404 Not Found"))).
  Proof. told. Qed.
  (** Without the header "host" the middleware panics. *)
  Example main_no_host : asked pf msg GET (lit "/json") None [] [EvPrint (LOther (lit "[debug] Inside middleware"))] (Panicked PUnwrapNone).
  Proof. told. Qed.
End Main.
