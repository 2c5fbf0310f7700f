(** Proofs about handlers that write a reply, part 2: what the client receives. *)

From Coq Require Import String Lia.
From Verif Require Import Base BaseFacts Utf8 RouteTrie Router TableSpec PropSpec Http App AppSpec.
From Verif Require Import AppLemmas AppLemmas2 AppLemmas3 AppLemmas4 ReplySpec ReplyLemmas.
Local Open Scope string_scope.
Local Open Scope list_scope.

Section Reply2.
  Context {X U A : Type} (parse_name : str -> option hname).
  Notation calls_are := (@calls_are U A parse_name).
  Notation start_is := (@start_is U A parse_name).
  Notation written := (@written U A parse_name).
  Notation reply := (@reply X U A parse_name).
  Notation bad := (fun n => parse_name n = None).

  Lemma builder_call (b : builder X) k :
    match call parse_name b k with
    | inl b' => runs (U:=U) (A:=A) (rcall_run parse_name (b_response b) (on_response k)) [] (Value (b_response b')) /\ b_ctx b' = b_ctx b
    | inr p => runs (U:=U) (A:=A) (rcall_run parse_name (b_response b) (on_response k)) [] (Panicked p)
    end.
  Proof.
    destruct k; cbn [call on_response rcall_run]; try (split; [constructor|reflexivity]).
    - unfold with_header_str. destruct (set_header_str parse_name k v (b_response b)); cbn [or_crash]; [split; [constructor|reflexivity]|constructor].
    - unfold with_headers_str. destruct (set_headers_str parse_name l (b_response b)); cbn [or_crash]; [split; [constructor|reflexivity]|constructor].
  Qed.

  Lemma builder_calls l : forall b : builder X,
    match calls parse_name b l with
    | inl b' => runs (U:=U) (A:=A) (rcalls parse_name (b_response b) (map on_response l)) [] (Value (b_response b')) /\ b_ctx b' = b_ctx b
    | inr p => runs (U:=U) (A:=A) (rcalls parse_name (b_response b) (map on_response l)) [] (Panicked p)
    end.
  Proof.
    induction l as [|k l IH]; intros b; cbn [calls map rcalls]; [split; [constructor|reflexivity]|].
    pose proof (builder_call b k) as K. destruct (call parse_name b k) as [b1|p].
    - destruct K as [K E]. specialize (IH b1). destruct (calls parse_name b1 l) as [b2|p].
      + destruct IH as [R E2]. split; [|congruence]. apply bind_value. exists [], [], (b_response b1). auto.
      + apply runs_bind. left. exists [], [], (b_response b1). auto.
    - apply runs_bind. right. eauto.
  Qed.

  Lemma names_same l : flat_map rnames (map on_response l) = flat_map names l.
  Proof. induction l as [|[] l IH]; cbn [map flat_map rnames names on_response]; rewrite ?IH; reflexivity. Qed.

  Lemma responder_value x : (forall r, x <> RResponse r) -> responder_is x (look_of (respond_to x)) /\ sound (respond_to x).
  Proof.
    intros P. assert (T : forall s, body_bytes (into_body (BString s)) = utf8 s) by apply look_of_body.
    assert (D : forall s, look_of (set_content_type text_plain (response_new (BString s))) = Look 200%N (utf8 s) text_type).
    { intros s. unfold set_content_type. rewrite look_header. cbn [res_body response_new]. rewrite T. reflexivity. }
    assert (N : look_of (rb_with_status (BString (lit "Not Found")) 404%N) = Look 404%N (utf8 (lit "Not Found")) []).
    { unfold rb_with_status. rewrite look_status. unfold look_of. cbn [res_body response_new lk_body lk_headers]. rewrite T. reflexivity. }
    destruct x as [r|s|s| |s b|v|s|[s|]|[s|]]; cbn [respond_to]; rewrite ?D, ?N.
    - destruct (P r eq_refl).
    - split; [constructor|apply body_sound].
    - split; [constructor|apply body_sound].
    - split; [constructor|reflexivity].
    - split; [apply ri_with; apply body_is_iff; reflexivity|apply body_sound].
    - split; [|apply body_sound]. unfold rb_with_status. rewrite look_status. unfold look_of.
      cbn [res_body response_new lk_body lk_headers]. rewrite T. apply ri_bytes, json_of_bytes_array.
    - split; [constructor|reflexivity].
    - split; [constructor|apply body_sound].
    - split; [constructor|apply body_sound].
    - split; [constructor|apply body_sound].
    - split; [constructor|apply body_sound].
  Qed.

  Lemma responder_unique x a b : responder_is x a -> responder_is x b -> a = b.
  Proof.
    intros A1 A2. destruct A1; inversion A2; subst; try reflexivity.
    - match goal with B1 : body_is _ x, B2 : body_is _ x0 |- _ => apply body_is_iff in B1, B2; congruence end.
    - f_equal. f_equal. eapply json_array_unique; eassumption.
  Qed.

  Lemma responder_proper x a : responder_is x a -> forall r, x <> RResponse r.
  Proof. intros R. destruct R; discriminate. Qed.

  Lemma ok_look : look_of response_ok = Look 200%N [] [] /\ sound response_ok.
  Proof. split; reflexivity. Qed.

  (** One call, as a list. *)
  Lemma single r k tr o : runs (U:=U) (A:=A) (rcall_run parse_name r k) tr o <-> runs (rcalls parse_name r [k]) tr o.
  Proof.
    cbn [rcalls]. rewrite runs_bind. split.
    - intros R. destruct o as [x|p]; [left; exists tr, [], x; rewrite app_nil_r; split; [reflexivity|]; split; [exact R|constructor]|right; eauto].
    - intros [(t1 & t2 & x & -> & R1 & R2)|(p & -> & R)]; [|exact R].
      apply runs_ret in R2 as [-> ->]. rewrite app_nil_r. exact R1.
  Qed.

  Lemma start_value (c : context X) s tr (b : builder X) : proper s -> runs (hstart_run parse_name c s) tr (Value b) ->
    b_ctx b = c /\ start_is tr s (look_of (b_response b)) /\ sound (b_response b).
  Proof.
    destruct ok_look as [OL OS]. intros P. destruct s as [x|ser|path|s l]; cbn [hstart_run]; intros R.
    - apply runs_ret in R as [-> E]. injection E as ->. split; [reflexivity|].
      destruct (responder_value x) as [I S]; [intros r ->; exact (P r eq_refl)|]. split; [constructor; exact I|exact S].
    - apply runs_ret in R as [-> E]. injection E as ->. split; [reflexivity|].
      destruct (calls_value (U:=U) (A:=A) parse_name [CJson ser] response_ok [] (json ser response_ok) OS) as [C S];
        [apply single; constructor|]. split; [constructor; rewrite <- OL; exact C|exact S].
    - unfold build_file in R. apply bind_value in R as (t1 & t2 & r & -> & R1 & R2). apply runs_ret in R2 as [-> E]. injection E as ->.
      rewrite app_nil_r. split; [reflexivity|].
      destruct (calls_value (U:=U) (A:=A) parse_name [CFile path] response_ok t1 r OS) as [C S];
        [apply single; exact R1|]. split; [constructor; rewrite <- OL; exact C|exact S].
    - apply bind_value in R as (t1 & t2 & r & -> & R1 & R2). apply runs_ret in R2 as [-> E]. injection E as ->. rewrite app_nil_r.
      split; [reflexivity|]. apply bind_value in R1 as (t3 & t4 & r0 & -> & R1 & R2).
      destruct (first_value _ _ _ _ R1) as (-> & F & S0). destruct (calls_value _ _ _ _ _ S0 R2) as [C S].
      split; [econstructor; eassumption|exact S].
  Qed.

  Lemma start_run (c : context X) s tr a : start_is tr s a -> exists b : builder X, runs (hstart_run parse_name c s) tr (Value b) /\
    b_ctx b = c /\ look_of (b_response b) = a /\ sound (b_response b).
  Proof.
    destruct ok_look as [OL OS]. intros S. destruct S as [x a R|ser a C|tr path a C|tr s l a b F C]; cbn [hstart_run].
    - destruct (responder_value x (responder_proper _ _ R)) as [R' S]. exists (build_res c x). split; [constructor|].
      split; [reflexivity|]. split; [exact (responder_unique _ _ _ R' R)|exact S].
    - destruct (calls_run _ _ _ _ _ C response_ok OS OL) as (r & R & E & S). exists (Builder c r). apply single in R.
      cbn [rcall_run] in R. apply runs_ret in R as [_ R]. injection R as ->. split; [constructor|auto].
    - destruct (calls_run _ _ _ _ _ C response_ok OS OL) as (r & R & E & S). exists (Builder c r). apply single in R.
      split; [|auto]. unfold build_file. apply bind_value. exists tr, [], r. rewrite app_nil_r. split; [reflexivity|].
      split; [exact R|constructor].
    - destruct (first_run (U:=U) (A:=A) _ _ _ F) as (r0 & R0 & E0 & S0). destruct (calls_run _ _ _ _ _ C r0 S0 E0) as (r & R & E & S).
      exists (Builder c r). split; [|auto]. apply bind_value. exists tr, [], r. rewrite app_nil_r. split; [reflexivity|].
      split; [|constructor]. apply bind_value. exists [], tr, r0. auto.
  Qed.

  Lemma start_panic (c : context X) s tr p : runs (U:=U) (A:=A) (@hstart_run X U A parse_name c s) tr (Panicked p) ->
    p = PUnwrapNone /\ unlogged tr = tr /\ exists n, In n (names_in s []) /\ bad n.
  Proof.
    destruct s as [x|ser|path|s l]; cbn [hstart_run names_in]; intros R.
    - apply runs_ret in R as [_ E]. discriminate E.
    - apply runs_ret in R as [_ E]. discriminate E.
    - unfold build_file in R. apply runs_bind in R as [(t1 & t2 & r & -> & R1 & R2)|(q & E & R)].
      + apply runs_ret in R2 as [_ E]. discriminate E.
      + injection E as <-. apply (single _ (CFile path)) in R. destruct ok_look as [OL OS].
        destruct (calls_panic _ _ _ _ _ OS R) as (_ & _ & n & I & _). destruct I.
    - apply runs_bind in R as [(t1 & t2 & r & -> & R1 & R2)|(q & E & R)]; [apply runs_ret in R2 as [_ E]; discriminate E|].
      injection E as <-. apply runs_bind in R as [(t1 & t2 & r & -> & R1 & R2)|(q & E & R)].
      + destruct (first_value _ _ _ _ R1) as (-> & F & S0). destruct (calls_panic _ _ _ _ _ S0 R2) as (-> & E & n & I & B).
        split; [reflexivity|]. split; [exact E|]. exists n. split; [|exact B]. apply in_or_app. left.
        destruct s; try exact I. apply in_or_app. right. exact I.
      + injection E as <-. destruct (first_panic _ _ _ _ R) as (-> & -> & b & l0 & n & -> & I & B).
        split; [reflexivity|]. split; [reflexivity|]. exists n. split; [|exact B]. apply in_or_app. left. apply in_or_app. left. exact I.
  Qed.

  Lemma start_good s tr a : start_is tr s a -> forall n, In n (names_in s []) -> parse_name n <> None.
  Proof.
    intros S. destruct S as [x a R|ser a C|tr path a C|tr s l a b F C]; intros n I; cbn [names_in app flat_map] in I; try destruct I.
    rewrite app_nil_r in I. destruct s; try exact (calls_good _ _ _ _ _ C n I).
    apply in_app_or in I as [I|I]; [|exact (calls_good _ _ _ _ _ C n I)].
    inversion F; subst. eapply headers_good; eassumption.
  Qed.

  Lemma start_events s tr a : start_is tr s a -> unlogged tr = tr.
  Proof. intros S. destruct S; try reflexivity; eapply calls_events; eassumption. Qed.

  Lemma names_split s l : names_in s l = names_in s [] ++ flat_map names l.
  Proof. unfold names_in. cbn [flat_map]. rewrite app_nil_r. reflexivity. Qed.

  Lemma reply_value s l c tr res : proper s -> runs (reply s l c) tr (Value res) ->
    exists r, res = inl (set_response (Some r) c) /\ written tr s l (look_of r) /\ sound r.
  Proof.
    intros P R. unfold ReplySpec.reply in R. apply bind_value in R as (t1 & t2 & b & -> & R1 & R2).
    destruct (start_value _ _ _ _ P R1) as (<- & S1 & S). pose proof (builder_calls l b) as K.
    destruct (calls parse_name b l) as [b'|p]; cbn [or_crash bind] in R2; [|apply runs_crash in R2 as [_ E]; discriminate E].
    destruct K as [K E]. apply runs_ret in R2 as [-> F]. injection F as ->. rewrite app_nil_r.
    destruct (calls_value _ _ _ _ _ S K) as [C S']. exists (b_response b'). split; [unfold b_ok; rewrite E; reflexivity|].
    split; [|exact S']. exists (look_of (b_response b)). auto.
  Qed.

  Lemma reply_run s l c tr a : written tr s l a ->
    exists r, runs (reply s l c) tr (Value (inl (set_response (Some r) c))) /\ look_of r = a /\ sound r.
  Proof.
    intros (b0 & S & C). destruct (start_run c _ _ _ S) as (b & R & Ec & E & SB). pose proof (builder_calls l b) as K.
    destruct (calls_run _ _ _ _ _ C (b_response b) SB E) as (r & R2 & E2 & S2). exists r. split; [|auto].
    unfold ReplySpec.reply. apply bind_value. exists tr, [], b. rewrite app_nil_r. split; [reflexivity|]. split; [exact R|].
    destruct (calls parse_name b l) as [b'|p]; [|pose proof (runs_fun _ _ _ _ K R2) as F; discriminate F].
    destruct K as [K Ec']. pose proof (runs_fun _ _ _ _ K R2) as F. injection F as <-. cbn [or_crash bind]. unfold b_ok.
    rewrite Ec', Ec. constructor.
  Qed.

  Lemma reply_panic s l c tr p : proper s -> runs (reply s l c) tr (Panicked p) ->
    p = PUnwrapNone /\ unlogged tr = tr /\ exists n, In n (names_in s l) /\ bad n.
  Proof.
    intros P R. rewrite names_split. unfold ReplySpec.reply in R. apply runs_bind in R as [(t1 & t2 & b & -> & R1 & R2)|(q & E & R)].
    - destruct (start_value _ _ _ _ P R1) as (<- & S1 & S). pose proof (builder_calls l b) as K.
      destruct (calls parse_name b l) as [b'|q]; cbn [or_crash bind] in R2; [apply runs_ret in R2 as [_ E]; discriminate E|].
      apply runs_crash in R2 as [-> E]. injection E as ->. destruct (calls_panic _ _ _ _ _ S K) as (-> & _ & n & I & B).
      rewrite app_nil_r. split; [reflexivity|]. split; [exact (start_events _ _ _ S1)|]. exists n. split; [|exact B].
      apply in_or_app. right. rewrite <- names_same. exact I.
    - injection E as <-. destruct (start_panic _ _ _ _ R) as (-> & E & n & I & B). split; [reflexivity|]. split; [exact E|].
      exists n. split; [apply in_or_app; left; exact I|exact B].
  Qed.

  Lemma written_good tr s l a : written tr s l a -> forall n, In n (names_in s l) -> parse_name n <> None.
  Proof.
    intros (b & S & C) n I. rewrite names_split in I. apply in_app_or in I as [I|I]; [exact (start_good _ _ _ S n I)|].
    rewrite <- names_same in I. exact (calls_good _ _ _ _ _ C n I).
  Qed.

  Lemma written_events tr s l a : written tr s l a -> unlogged tr = tr.
  Proof. intros (b & S & _). exact (start_events _ _ _ S). Qed.

  (** ** Behind loggers *)

  Lemma behind_loggers mws (h : handler X U A) c : (forall m, In m mws -> exists d, m = logger d) ->
    (forall tr c', runs (h c) tr (Value (inl c')) -> ctx_response c' <> None) -> forall tr o,
    (runs (h c) tr o -> exists tr', runs (next mws h c) tr' o /\ unlogged tr' = unlogged tr) /\
    (runs (next mws h c) tr o -> exists tr', runs (h c) tr' o /\ unlogged tr' = unlogged tr).
  Proof.
    intros L NR. induction mws as [|m mws IH]; intros tr o; [split; intros R; exists tr; auto|].
    destruct (L m (or_introl eq_refl)) as [d ->]. specialize (IH (fun m I => L m (or_intror I))).
    assert (NR' : forall t c', runs (next mws h c) t (Value (inl c')) -> ctx_response c' <> None).
    { intros t c' R. destruct (IH t (Value (inl c'))) as [_ I]. destruct (I R) as (t' & R' & _). exact (NR t' c' R'). }
    split; intros R.
    - destruct (IH tr o) as [I _]. destruct (I R) as (t1 & R1 & E1).
      destruct (logger_first d mws h c t1 o NR') as [J _]. destruct (J R1) as (t2 & R2 & E2). exists t2. split; [exact R2|congruence].
    - destruct (logger_first d mws h c tr o NR') as [_ J]. destruct (J R) as (t1 & R1 & E1).
      destruct (IH t1 o) as [_ I]. destruct (I R1) as (t2 & R2 & E2). exists t2. split; [exact R2|congruence].
  Qed.

  (** ** The server *)

  Section Chain.
  Context (prog : comp U A http_response) (mws : list (middleware X U A)) (c : context X) (s : hstart) (bl : list bcall).
  Hypothesis HA : handles prog (next mws (reply s bl) c).
  Hypothesis Lg : forall m, In m mws -> exists d, m = logger d.
  Hypothesis P : proper s.

  Lemma reply_answers tr c' : runs (reply s bl c) tr (Value (inl c')) -> ctx_response c' <> None.
  Proof. intros R. destruct (reply_value _ _ _ _ _ P R) as (r & E & _). injection E as ->. discriminate. Qed.

  Lemma chain_received tr o : runs prog tr o ->
    (exists a r, written (unlogged tr) s bl a /\ sendable a /\ o = Value r /\ received a r) \/
    (exists a, written (unlogged tr) s bl a /\ ~ sendable a /\ o = Panicked PHeaderValue) \/
    (o = Panicked PUnwrapNone /\ exists n, In n (names_in s bl) /\ bad n).
  Proof.
    intros R. destruct HA as (HD & _ & _).
    destruct (HD _ _ R) as [(res & R1 & RP)|(p & R1 & ->)];
      destruct (proj2 (behind_loggers _ (reply s bl) c Lg reply_answers tr _) R1) as (tr' & R2 & E).
    - destruct (reply_value _ _ _ _ _ P R2) as (r & -> & W & S). rewrite (written_events _ _ _ _ W) in E. subst tr'.
      inversion RP as [|c0 b0 E0|c0 r0 hm E0 HT ND HM|c0 r0 k v E0 IN NT]; subst; cbn in E0; try discriminate E0; injection E0 as <-.
      + left. exists (look_of r), (HttpResponse (res_status r) hm (res_body r)).
        split; [exact W|]. split; [exact HT|]. split; [reflexivity|]. repeat split; try assumption; apply HM.
      + right. left. exists (look_of r). split; [exact W|]. split; [|reflexivity].
        intros F. exact (NT (F _ _ IN)).
    - destruct (reply_panic _ _ _ _ _ P R2) as (-> & _ & N). right. right. auto.
  Qed.

  Lemma chain_sent tr a : written tr s bl a -> exists tr', unlogged tr' = tr /\
    (sendable a -> exists r, runs prog tr' (Value r) /\ received a r) /\
    (~ sendable a -> runs prog tr' (Panicked PHeaderValue)).
  Proof.
    intros W. destruct HA as (_ & HD & _).
    destruct (reply_run _ _ c _ _ W) as (r & R & <- & S).
    destruct (proj1 (behind_loggers _ (reply s bl) c Lg reply_answers tr _) R) as (tr' & R2 & E).
    rewrite (written_events _ _ _ _ W) in E. exists tr'. split; [exact E|].
    destruct (HD _ _ R2) as (o & R3 & RP).
    inversion RP as [|c0 b0 E0|c0 r0 hm E0 HT ND HM|c0 r0 k v E0 IN NT]; subst; cbn in E0; try discriminate E0; injection E0 as <-.
    - split.
      + intros _. eexists. split; [exact R3|]. repeat split; try assumption; apply HM.
      + intros F. destruct (F HT).
    - split; [|auto]. intros F. destruct (NT (F _ _ IN)).
  Qed.
  End Chain.

  Lemma chain_gets prog mws c s bl : handles prog (next mws (reply s bl) c) -> (forall m, In m mws -> exists d, m = logger d) ->
    proper s -> client_gets parse_name prog s bl.
  Proof.
    intros HA Lg P. split; [intros tr o; apply (chain_received _ _ _ _ _ HA Lg P)|].
    intros tr a W. split; [exact (written_good _ _ _ _ W)|]. exact (chain_sent _ _ _ _ _ HA Lg P tr a W).
  Qed.
End Reply2.

Theorem reply_received {X U A : Type} parse_name (l : list (op (handler X U A) (middleware X U A))) t st (rq : request X) ts ps s bl :
  built l t -> resolves (table_of l) (segments (rq_path rq)) ts ps ->
  handler_for (rq_method rq) (routes_at (table_of l) ts) = Some (reply parse_name s bl) ->
  (forall m, In m (mws_for (table_of l) ts) -> exists d, m = logger d) -> proper s ->
  client_gets parse_name (serve t st rq) s bl.
Proof.
  intros B Rs Hf Lg P. destruct (end_to_end l t st rq ts ps _ B Rs Hf) as (pm & c & _ & _ & HA).
  exact (chain_gets _ _ _ _ _ _ HA Lg P).
Qed.

Theorem reply_received_any {X U A : Type} parse_name (t : trie (handler X U A) (middleware X U A)) st (rq : request X) r m s bl :
  search_route t (rq_path rq) = LSome r -> rr_get_route r (rq_method rq) = Some (Route m (reply parse_name s bl)) ->
  (forall m, In m (rr_mws r) -> exists d, m = logger d) -> proper s ->
  client_gets parse_name (serve t st rq) s bl.
Proof.
  intros SR G Lg P. destruct (any_handled t st rq r m _ SR G) as (c & _ & HA).
  exact (chain_gets _ _ _ _ _ _ HA Lg P).
Qed.
