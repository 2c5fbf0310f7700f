(** Proofs about writing documents and reading them again. *)

From Coq Require Import String Lia ZArith.
From Verif Require Import Base BaseFacts Utf8 Utf8Facts RouteTrie Http Form AppSpec Json JsonSpec JsonLemmas JsonLemmas2 JsonLemmas3 JsonLemmas4 JsonLemmas5.
Local Open Scope list_scope.

(** ** Texts *)

Lemma utf8_ascii s : Forall (fun x => (x < 128)%N) s -> utf8 s = s.
Proof.
  induction 1 as [|c s L _ IH]; [reflexivity|]. change (utf8 (c :: s)) with (utf8_char c ++ utf8 s). rewrite IH.
  unfold utf8_char. rewrite (proj2 (N.ltb_lt c 128) L). reflexivity.
Qed.

Lemma utf8_cons c s : utf8 (c :: s) = utf8_char c ++ utf8 s.
Proof. reflexivity. Qed.

Lemma hex_char_digit d : (d < 16)%N -> hex_digit (hex_char d) d.
Proof. unfold hex_char, hex_digit. destruct (N.ltb_spec d 10); lia. Qed.

Lemma hex_char_small d : (d < 16)%N -> (hex_char d < 128)%N.
Proof. unfold hex_char. destruct (N.ltb_spec d 10); lia. Qed.

Lemma escaped s : Forall scalar s -> string_text s (utf8 (flat_map escape_char s)).
Proof.
  induction 1 as [|c s SC _ IH]; [constructor|]. cbn [flat_map]. rewrite utf8_app. unfold escape_char.
  destruct (N.eqb_spec c 34) as [->|N1]; [apply (st_letter 34%N 34%N); [cbn; tauto|exact IH]|].
  destruct (N.eqb_spec c 92) as [->|N2]; [apply (st_letter 92%N 92%N); [cbn; tauto|exact IH]|].
  destruct (N.eqb_spec c 8) as [->|N3]; [apply (st_letter 8%N 98%N); [cbn; tauto|exact IH]|].
  destruct (N.eqb_spec c 9) as [->|N4]; [apply (st_letter 9%N 116%N); [cbn; tauto|exact IH]|].
  destruct (N.eqb_spec c 10) as [->|N5]; [apply (st_letter 10%N 110%N); [cbn; tauto|exact IH]|].
  destruct (N.eqb_spec c 12) as [->|N6]; [apply (st_letter 12%N 102%N); [cbn; tauto|exact IH]|].
  destruct (N.eqb_spec c 13) as [->|N7]; [apply (st_letter 13%N 114%N); [cbn; tauto|exact IH]|].
  destruct (N.ltb_spec c 32) as [L|G].
  - assert (D1 : (c / 16 < 16)%N) by (apply N.div_lt_upper_bound; lia).
    assert (D2 : (c mod 16 < 16)%N) by (apply N.mod_lt; lia).
    pose proof (N.div_mod c 16 ltac:(lia)) as DM.
    rewrite utf8_ascii.
    2: { pose proof (hex_char_small _ D1). pose proof (hex_char_small _ D2). repeat (constructor; [first [assumption|lia]|]). constructor. }
    change (string_text (c :: s) (92%N :: 117%N :: [48%N; 48%N; hex_char (c / 16); hex_char (c mod 16)] ++ utf8 (flat_map escape_char s))).
    apply st_hex; [exact SC| |exact IH].
    exists 48%N, 48%N, (hex_char (c / 16)), (hex_char (c mod 16)), 0%N, 0%N, (c / 16)%N, (c mod 16)%N.
    split; [reflexivity|]. split; [left; lia|]. split; [left; lia|]. split; [apply hex_char_digit; exact D1|].
    split; [apply hex_char_digit; exact D2|]. revert DM. generalize (c / 16)%N (c mod 16)%N. intros; lia.
  - change (utf8 [c]) with (utf8_char c ++ []). rewrite app_nil_r. apply st_plain; auto; lia.
Qed.

Lemma quoted_text s : utf8 (quoted s) = 34%N :: utf8 (flat_map escape_char s) ++ [34%N].
Proof. unfold quoted. rewrite utf8_cons, utf8_app. reflexivity. Qed.

Lemma dec_ascii n : utf8 (dec n) = dec n.
Proof.
  apply utf8_ascii. destruct (dec_digits n) as (D & _). eapply Forall_impl; [|exact D]. intros x. unfold digit_char. lia.
Qed.

Definition int_json (z : Z) : json := JNum (z <? 0)%Z (Z.to_N (Z.abs z)) [].

Lemma int_writes z : writes (int_json z) (utf8 (int_text z)).
Proof.
  unfold int_json, int_text. assert (T : number_tail []) by (exists [], []; split; [left; reflexivity|split; [left; reflexivity|reflexivity]]).
  destruct (Z.ltb_spec z 0) as [L|G].
  - rewrite utf8_cons, dec_ascii. replace (- z)%Z with (Z.abs z) by lia. rewrite <- (app_nil_r (dec _)). exact (w_num true _ [] T).
  - rewrite dec_ascii. replace z with (Z.abs z) at 2 by lia. rewrite <- (app_nil_r (dec _)). exact (w_num false _ [] T).
Qed.

Lemma space_nil : space [].
Proof. constructor. Qed.

Lemma commas_elements l ts : Forall2 (fun j t => writes j (utf8 t)) l ts -> l <> [] -> elements l (utf8 (commas ts)).
Proof.
  induction 1 as [|j t l ts W F IH]; intros N; [destruct (N eq_refl)|].
  destruct F as [|j' t' l ts W' F].
  - cbn [commas]. rewrite <- (app_nil_r (utf8 t)). exact (e_last [] j _ [] space_nil W space_nil).
  - change (commas (t :: t' :: ts)) with (t ++ 44%N :: commas (t' :: ts)). rewrite utf8_app, utf8_cons.
    exact (e_more [] j _ [] _ _ space_nil W space_nil (IH ltac:(discriminate))).
Qed.

Lemma commas_members l ts : Forall2 (fun m (p : str * str) => fst m = fst p /\ Forall scalar (fst p) /\ writes (snd m) (utf8 (snd p))) l ts -> l <> [] ->
  members l (utf8 (commas (map (fun p => quoted (fst p) ++ 58%N :: snd p) ts))).
Proof.
  induction 1 as [|[k j] [k' t] l ts (E & SC & W) F IH]; intros N; [destruct (N eq_refl)|]. cbn [fst snd] in *. subst k'.
  pose proof (escaped k SC) as ST.
  destruct F as [|m' p' l ts W' F].
  - cbn [map commas fst snd]. rewrite utf8_app, quoted_text, utf8_cons. cbn [app]. rewrite <- app_assoc. rewrite <- (app_nil_r (utf8 t)).
    exact (m_last [] k _ [] [] j _ [] space_nil ST space_nil space_nil W space_nil).
  - cbn [map fst snd] in *.
    change (commas ((quoted k ++ 58%N :: t) :: (quoted (fst p') ++ 58%N :: snd p') :: map (fun p => quoted (fst p) ++ 58%N :: snd p) ts)) with
      ((quoted k ++ 58%N :: t) ++ 44%N :: commas ((quoted (fst p') ++ 58%N :: snd p') :: map (fun p => quoted (fst p) ++ 58%N :: snd p) ts)).
    rewrite utf8_app, utf8_app, quoted_text, !utf8_cons.
    match goal with |- members _ ((_ ++ (_ ++ _)) ++ (_ ++ ?c)) =>
      replace (((34%N :: utf8 (flat_map escape_char k) ++ [34%N]) ++ (utf8_char 58%N ++ utf8 t)) ++ (utf8_char 44%N ++ c))
        with ([] ++ 34%N :: utf8 (flat_map escape_char k) ++ 34%N :: [] ++ 58%N :: [] ++ utf8 t ++ [] ++ 44%N :: c)
    end.
    + exact (m_more [] k _ [] [] j _ [] _ _ space_nil ST space_nil space_nil W space_nil (IH ltac:(discriminate))).
    + cbn [app]. repeat rewrite <- app_assoc. cbn [app]. repeat rewrite <- app_assoc. reflexivity.
Qed.

Lemma array_writes l ts : Forall2 (fun j t => writes j (utf8 t)) l ts -> writes (JArr l) (utf8 (91%N :: commas ts ++ [93%N])).
Proof.
  intros F. rewrite utf8_cons, utf8_app. destruct F as [|j t l ts W F].
  - exact (w_arr0 [] space_nil).
  - apply (w_arr (j :: l)). apply commas_elements; [constructor; assumption|discriminate].
Qed.

Lemma object_writes l ts : Forall2 (fun m (p : str * str) => fst m = fst p /\ Forall scalar (fst p) /\ writes (snd m) (utf8 (snd p))) l ts ->
  writes (JObj l) (utf8 (123%N :: commas (map (fun p => quoted (fst p) ++ 58%N :: snd p) ts) ++ [125%N])).
Proof.
  intros F. rewrite utf8_cons, utf8_app. destruct F as [|j t l ts W F].
  - exact (w_obj0 [] space_nil).
  - apply (w_obj (j :: l)). apply commas_members; [constructor; assumption|discriminate].
Qed.

Lemma string_writes s : Forall scalar s -> writes (JStr s) (utf8 (quoted s)).
Proof. intros S. rewrite quoted_text. apply w_str, escaped. exact S. Qed.

(** ** Lists *)

Lemma combine_parts {A B} (l : list (A * B)) : combine (map fst l) (map snd l) = l.
Proof. induction l as [|[a b] l IH]; [reflexivity|]. cbn [map combine fst snd]. rewrite IH. reflexivity. Qed.

Lemma named_unique {A} k (x : A) l : NoDup (map fst l) -> In (k, x) l -> members_named k l = [x].
Proof.
  induction l as [|[k' x'] l IH]; intros D I; [destruct I|]. cbn [map fst] in D. inversion D as [|? ? NI D']; subst.
  unfold members_named in *. cbn [filter fst]. destruct I as [E|I].
  - injection E as -> ->. rewrite str_eqb_refl. cbn [map snd]. f_equal. exact (proj2 (named_none k l) NI).
  - destruct (str_eqb_spec k' k) as [->|N]; [|exact (IH D' I)]. destruct NI. apply in_map_iff. exists (k, x). auto.
Qed.

Lemma max_le {A} (f : A -> nat) l n : fold_right (fun x => Nat.max (f x)) 0 l < n -> forall x, In x l -> f x < n.
Proof. induction l as [|y l IH]; intros L x I; [destruct I|]. cbn [fold_right] in L. destruct I as [->|I]; [lia|]. apply IH; [lia|exact I]. Qed.

Lemma max_map {A B} (f : B -> nat) (g : A -> B) l : fold_right (fun x => Nat.max (f x)) 0 (map g l) = fold_right (fun x => Nat.max (f (g x))) 0 l.
Proof. induction l as [|x l IH]; [reflexivity|]. cbn [map fold_right]. rewrite IH. reflexivity. Qed.

Section RoundTrip.
  Context {F : Type}.
  Context (float_lit : bytes -> option F) (float_int : Z -> F) (float_text : F -> str) (zero_float : bool).
  Notation num := (num F). Notation doc := (doc F). Notation jval := (jval F). Notation jty := (jty F).
  Notation number := (number float_lit zero_float).
  Notation denotes := (denotes float_lit zero_float).
  Notation doc_of := (doc_of float_lit zero_float).
  Notation read := (read float_lit float_int zero_float).
  Notation doc_text := (doc_text float_text).
  Notation to_text := (to_text float_text).
  Notation from_slice := (from_slice float_lit float_int zero_float).
  Notation field := (str * option jval * jty)%type.
  Notation fname := (fun f : field => fst (fst f)).
  Notation reader_of := (reader_of float_lit float_int zero_float).

  (** The document written for a value. *)
  Fixpoint doc_json (d : doc) : json :=
    match d with
    | DNull => JNull
    | DBool b => JBool b
    | DNum (NInt z) => int_json z
    | DNum (NFloat _) => JNull
    | DStr s => JStr s
    | DArr l => JArr (map doc_json l)
    | DObj l => JObj (map (fun m => (fst m, doc_json (snd m))) l)
    end.
  Fixpoint val_json (v : jval) : json :=
    match v with
    | JVBool b => JBool b
    | JVInt z => int_json z
    | JVFloat _ => JNull
    | JVStr s => JStr s
    | JVOpt None => JNull
    | JVOpt (Some x) => val_json x
    | JVSeq l => JArr (map val_json l)
    | JVMap l | JVStruct l => JObj (map (fun m => (fst m, val_json (snd m))) l)
    | JVDoc d => doc_json d
    | JVUnit => JNull
    | JVChar c => JStr [c]
    | JVTuple l => JArr (map val_json l)
    | JVEnum n None => JStr n
    | JVEnum n (Some x) => JObj [(n, val_json x)]
    end.

  Section DocInd.
    Variable P : doc -> Prop.
    Hypothesis (HN : P DNull) (HB : forall b, P (DBool b)) (HM : forall n, P (DNum n)) (HS : forall s, P (DStr s)).
    Hypothesis (HA : forall l, Forall P l -> P (DArr l)) (HO : forall l, Forall (fun m => P (snd m)) l -> P (DObj l)).
    Fixpoint doc_ind' (d : doc) : P d :=
      match d with
      | DNull => HN | DBool b => HB b | DNum n => HM n | DStr s => HS s
      | DArr l => HA l ((fix go l := match l return Forall P l with [] => Forall_nil _ | x :: r => Forall_cons x (doc_ind' x) (go r) end) l)
      | DObj l => HO l ((fix go l := match l return Forall (fun m : str * doc => P (snd m)) l with
                                     | [] => Forall_nil _
                                     | x :: r => @Forall_cons _ (fun m : str * doc => P (snd m)) x r (doc_ind' (snd x)) (go r) end) l)
      end.
  End DocInd.

  Lemma plain_arr (l : list doc) : plain_doc (DArr l) -> Forall plain_doc l.
  Proof. cbn [plain_doc]. induction l as [|x l IH]; intros A; constructor; [apply A|apply IH; apply A]. Qed.

  Lemma plain_obj (l : list (str * doc)) : plain_doc (DObj l) ->
    NoDup (map fst l) /\ Forall (fun m => Forall scalar (fst m)) l /\ Forall (fun m => plain_doc (snd m)) l.
  Proof.
    cbn [plain_doc]. intros [D A]. split; [exact D|]. clear D.
    induction l as [|[k x] l IH]; [split; constructor|]. destruct A as (S & P & A). destruct (IH A) as [I1 I2]. split; constructor; assumption.
  Qed.

  Lemma doc_writes d : plain_doc d -> writes (doc_json d) (utf8 (doc_text d)).
  Proof.
    induction d as [|b|[z|f]|s|l IH|l IH] using doc_ind'; intros P.
    - exact w_null.
    - destruct b; [exact w_true|exact w_false].
    - apply int_writes.
    - destruct P.
    - apply string_writes. exact P.
    - apply plain_arr in P. apply array_writes. clear - IH P.
      induction IH as [|x l H _ IHL]; inversion P; subst; constructor; auto.
    - apply plain_obj in P. destruct P as (_ & SC & P).
      assert (W : writes (doc_json (DObj l)) (utf8 (123%N :: commas (map (fun p => quoted (fst p) ++ 58%N :: snd p) (map (fun m => (fst m, doc_text (snd m))) l)) ++ [125%N]))).
      { apply object_writes. clear - IH P SC. induction IH as [|x l H _ IHL]; inversion P; inversion SC; subst; constructor; auto. }
      rewrite map_map in W. cbn [Json.doc_text]. erewrite map_ext; [exact W|]. intros [k x]. reflexivity.
  Qed.

  Lemma number_int neg n z : (- 2 ^ 63 <= z < 2 ^ 64)%Z -> neg = (z <? 0)%Z -> n = Z.to_N (Z.abs z) -> number neg (dec n) [] = Some (NInt z).
  Proof.
    intros B -> ->. apply number_denotes. destruct (Z.ltb_spec z 0) as [L|G].
    - assert (E : z = (- Z.of_N (Z.to_N (Z.abs z)))%Z) by lia. rewrite E at 2. apply den_neg. lia.
    - assert (E : z = Z.of_N (Z.to_N (Z.abs z))) by lia. rewrite E at 2. apply den_pos. lia.
  Qed.

  Lemma doc_back d : plain_doc d -> forall r n, shape (doc_json d) r -> doc_depth d < n -> doc_of r n = Some d.
  Proof.
    induction d as [|b|[z|f]|s|l IH|l IH] using doc_ind'; intros P r n S L; cbn [doc_json] in S; inversion S as [| | | |js rs SL|js rs SL]; subst; cbn [Json.doc_of].
    - reflexivity.
    - reflexivity.
    - rewrite (number_int _ _ z P eq_refl eq_refl). reflexivity.
    - destruct P.
    - match goal with H : string_of _ = Some _ |- _ => rewrite H end. reflexivity.
    - apply plain_arr in P. cbn [doc_depth] in L. rewrite enter_ok by lia.
      assert (A : all_read (fun x => doc_of x (pred n)) rs = Some l).
      { apply all_read_some. pose proof (max_le doc_depth l (pred n) ltac:(lia)) as LE. clear S L.
        revert rs SL. induction IH as [|x l H _ IHL]; intros rs SL; inversion SL; subst; constructor; inversion P; subst.
        - apply H; [assumption|assumption|apply LE; left; reflexivity].
        - apply IHL; [assumption|intros; apply LE; right; assumption|assumption]. }
      rewrite A. reflexivity.
    - apply plain_obj in P. destruct P as (D & _ & P). cbn [doc_depth] in L. rewrite enter_ok by lia.
      assert (A : read_map (fun x => doc_of x (pred n)) rs [] = Some l).
      { apply read_map_some. exists (map fst l), (map snd l). split; [|split].
        - pose proof (keys_read _ _ SL) as K. rewrite map_map in K. exact K.
        - pose proof (max_le (fun m => doc_depth (snd m)) l (pred n) ltac:(lia)) as LE. clear S L D.
          revert rs SL. induction IH as [|x l H _ IHL]; intros rs SL; inversion SL as [|? ? ? ? [_ SX]]; subst; constructor; inversion P; subst.
          + apply H; [assumption|assumption|apply LE; left; reflexivity].
          + apply IHL; [assumption|intros; apply LE; right; assumption|assumption].
        - rewrite combine_parts. symmetry. exact (insert_all_distinct l [] D). }
      rewrite A. reflexivity.
  Qed.

  (** ** Typed values *)

  Fixpoint fields_typed (fs : list field) (ys : list jval) : Prop :=
    match fs, ys with
    | [], [] => True
    | (_, _, t') :: fs', y :: ys' => has_type t' y /\ fields_typed fs' ys'
    | _, _ => False
    end.

  Fixpoint tuple_typed (ts : list jty) (ys : list jval) : Prop :=
    match ts, ys with
    | [], [] => True
    | t' :: ts', y :: ys' => has_type t' y /\ tuple_typed ts' ys'
    | _, _ => False
    end.

  Lemma has_tuple ts v : has_type (JTTuple ts) v -> exists ys, v = JVTuple ys /\ tuple_typed ts ys.
  Proof. intros H. exact H. Qed.

  Lemma has_enum (vs : list (str * option jty)) v : has_type (JTEnum vs) v -> NoDup (map fst vs) /\ Forall (fun w => Forall scalar (fst w)) vs /\
    ((exists n, In (n, None) vs /\ v = JVEnum n None) \/ (exists n t y, In (n, Some t) vs /\ v = JVEnum n (Some y) /\ has_type t y)).
  Proof.
    cbn [has_type]. intros (D & SC & H). split; [exact D|]. split; [exact SC|]. clear D SC.
    induction vs as [|[n [t|]] vs IH]; [destruct H|destruct H as [(y & E & HY)|H]|destruct H as [E|H]].
    - right. exists n, t, y. split; [left; reflexivity|auto].
    - destruct (IH H) as [(m & I & E)|(m & u & y & I & E)]; [left; exists m|right; exists m, u, y]; (split; [right; exact I|exact E]).
    - left. exists n. split; [left; reflexivity|exact E].
    - destruct (IH H) as [(m & I & E)|(m & u & y & I & E)]; [left; exists m|right; exists m, u, y]; (split; [right; exact I|exact E]).
  Qed.

  Lemma has_struct deny fs v : has_type (JTStruct deny fs) v -> NoDup (map fname fs) /\ Forall (fun f => Forall scalar (fst (fst f))) fs /\
    exists ys, v = JVStruct (combine (map fname fs) ys) /\ fields_typed fs ys.
  Proof. intros H. exact H. Qed.

  Lemma map_writes (l : list (str * jval)) : Forall (fun m => Forall scalar (fst m)) l -> Forall (fun m => writes (val_json (snd m)) (utf8 (to_text (snd m)))) l ->
    writes (JObj (map (fun m => (fst m, val_json (snd m))) l)) (utf8 (123%N :: commas (map (fun '(k, x) => quoted k ++ 58%N :: to_text x) l) ++ [125%N])).
  Proof.
    intros SC W.
    assert (O : writes (JObj (map (fun m => (fst m, val_json (snd m))) l)) (utf8 (123%N :: commas (map (fun p => quoted (fst p) ++ 58%N :: snd p) (map (fun m => (fst m, to_text (snd m))) l)) ++ [125%N]))).
    { apply object_writes. induction W as [|x l H _ IHL]; inversion SC; subst; constructor; auto. }
    rewrite map_map in O.
    assert (Q : map (fun '(k, x) => quoted k ++ 58%N :: to_text x) l = map (fun x => quoted (fst x) ++ 58%N :: to_text (snd x)) l)
      by (apply map_ext; intros [k x]; reflexivity).
    rewrite Q. exact O.
  Qed.

  Lemma val_writes t : forall v, has_type t v -> writes (val_json v) (utf8 (to_text v)).
  Proof.
    induction t as [|i| | |t IH|t IH|t IH|deny fs IH| | | |ts IH|vs IH] using jty_ind'; intros v H.
    - destruct H as (b & ->). destruct b; [exact w_true|exact w_false].
    - destruct H as (_ & z & -> & _). apply int_writes.
    - destruct H.
    - destruct H as (s & -> & S). apply string_writes. exact S.
    - destruct H as (_ & [->|(y & -> & H)]); [exact w_null|]. exact (IH y H).
    - destruct H as (l & -> & H). apply array_writes. induction H; constructor; auto.
    - destruct H as (l & -> & _ & SC & H). apply map_writes; [exact SC|]. clear SC.
      induction l as [|m l IHL]; cbn [map] in H; inversion H; subst; constructor; auto.
    - apply has_struct in H. destruct H as (_ & SC & ys & -> & H). apply map_writes.
      + clear - SC H. revert ys H. induction fs as [|[[n df] t] fs IHF]; intros ys H; [constructor|]. destruct ys as [|y ys]; [destruct H|].
        inversion SC; subst. cbn [map combine]. constructor; [assumption|]. apply IHF; [assumption|apply H].
      + clear SC. revert ys H. induction IH as [|[[n df] t] fs HF _ IHF]; intros ys H; [constructor|]. destruct ys as [|y ys]; [destruct H|].
        cbn [map combine]. destruct H as [HY H]. constructor; [exact (HF y HY)|exact (IHF ys H)].
    - destruct H as (d & -> & P). apply doc_writes. exact P.
    - cbn in H. subst v. exact w_null.
    - destruct H as (c & -> & S). apply string_writes. constructor; [exact S|constructor].
    - apply has_tuple in H. destruct H as (ys & -> & H). apply array_writes. revert ys H.
      induction IH as [|t ts HT _ IHT]; intros [|y ys] H; try (destruct H; fail); cbn [map]; constructor; [apply HT, H|apply IHT, H].
    - apply has_enum in H. rewrite Forall_forall in IH. destruct H as (_ & SC & [(n & I & ->)|(n & t & y & I & -> & H)]); rewrite Forall_forall in SC; specialize (SC _ I); cbn [fst] in SC.
      + apply string_writes. exact SC.
      + pose proof (map_writes [(n, y)] (Forall_cons (n, y) SC (Forall_nil _)) (Forall_cons (n, y) (IH _ I y H) (Forall_nil _))) as W.
        cbn [map commas fst snd] in W. rewrite <- app_assoc in W. exact W.
  Qed.

  Lemma val_not_null t v : ~ nullable t -> has_type t v -> val_json v <> JNull.
  Proof.
    destruct t as [| | | | | | |deny fs| | | |ts|vs]; intros N H; try (destruct (N I)).
    - destruct H as (b & ->). discriminate.
    - destruct H as (_ & z & -> & _). discriminate.
    - destruct H.
    - destruct H as (s & -> & _). discriminate.
    - destruct H as (l & -> & _). discriminate.
    - destruct H as (l & -> & _). discriminate.
    - apply has_struct in H. destruct H as (_ & _ & ys & -> & _). discriminate.
    - destruct H as (c & -> & _). discriminate.
    - destruct H as (l & -> & _). discriminate.
    - apply has_enum in H. destruct H as (_ & _ & [(n & _ & ->)|(n & t & y & _ & -> & _)]); discriminate.
  Qed.

  Lemma int_range i z : (i_bits i <= 64)%positive -> (i_min i <= z <= i_max i)%Z -> (- 2 ^ 63 <= z < 2 ^ 64)%Z.
  Proof.
    intros B R. unfold i_min, i_max in R. destruct (i_signed i).
    - assert (2 ^ (Z.pos (i_bits i) - 1) <= 2 ^ 63)%Z by (apply Z.pow_le_mono_r; lia). lia.
    - assert (2 ^ Z.pos (i_bits i) <= 2 ^ 64)%Z by (apply Z.pow_le_mono_r; lia). lia.
  Qed.

  Definition back_at (t : jty) : Prop := forall v, has_type t v -> forall r n, shape (val_json v) r -> val_depth v < n -> read t n r = Some v.

  Lemma fields_back n kxs : NoDup (map fst kxs) -> forall fs, Forall (fun f => back_at (snd f)) fs -> forall ys, fields_typed fs ys ->
    (forall y, In y ys -> val_depth y < n) ->
    Forall2 (fun f y => exists x, In (fst (fst f), x) kxs /\ shape (val_json y) x) fs ys ->
    after (map (reader_of n) fs) kxs (map (fun _ => None) fs) = Some (map Some ys) /\
    finish (map (reader_of n) fs) (map Some ys) = Some (combine (map fname fs) ys).
  Proof.
    intros D fs IH. induction IH as [|[[nm df] t] fs HF _ IHF]; intros ys H LE A; (destruct ys as [|y ys]; [try destruct H|]).
    - split; reflexivity.
    - destruct H.
    - destruct H as [HY H]. inversion A as [|? ? ? ? (x & IX & SX) A']; subst. cbn [fst] in IX.
      destruct (IHF ys H ltac:(intros; apply LE; right; assumption) A') as [E1 E2].
      cbn [map after reader_of JsonLemmas5.reader_of r_name]. rewrite (named_unique _ _ _ D IX). cbn [run]. unfold step. cbn [r_read].
      pose proof (HF y HY x n SX (LE y (or_introl eq_refl))) as RD. cbn [snd] in RD. rewrite RD. cbn [option_map]. unfold JsonLemmas5.reader_of in *. rewrite E1.
      split; [reflexivity|]. cbn [finish r_name combine]. rewrite E2. reflexivity.
  Qed.

  Lemma tuple_back n : forall ts, Forall back_at ts -> forall ys, tuple_typed ts ys -> (forall y, In y ys -> val_depth y < n) ->
    forall rs, Forall2 shape (map val_json ys) rs -> read_tuple (map (fun t => read t n) ts) rs = Some ys.
  Proof.
    induction 1 as [|t ts HT _ IH]; intros [|y ys] H LE rs S; try (destruct H; fail); cbn [map] in S; inversion S as [|? r ? rs' SX S']; subst; [reflexivity|].
    destruct H as [HY H]. cbn [map read_tuple]. rewrite (HT y HY r n SX (LE y (or_introl eq_refl))), (IH ys H ltac:(intros; apply LE; right; assumption) rs' S'). reflexivity.
  Qed.

  Lemma read_back t : back_at t.
  Proof.
    induction t as [|i| | |t IH|t IH|t IH|deny fs IH| | | |ts IH|vs IH] using jty_ind'; intros v H r n S L.
    - destruct H as (b & ->). inversion S; subst. reflexivity.
    - destruct H as (B & z & -> & R). cbn [val_json] in S. unfold int_json in S. inversion S; subst. cbn [Json.read].
      rewrite (number_int _ _ z (int_range i z B R) eq_refl eq_refl), (proj2 (Z.leb_le _ _) (proj1 R)), (proj2 (Z.leb_le _ _) (proj2 R)). reflexivity.
    - destruct H.
    - destruct H as (s & -> & _). inversion S; subst. cbn [Json.read]. match goal with H : string_of _ = Some _ |- _ => rewrite H end. reflexivity.
    - destruct H as (N & [->|(y & -> & H)]); [inversion S; subst; reflexivity|].
      pose proof (val_not_null t y N H) as NN. cbn [val_json val_depth Json.read] in *. pose proof (IH y H r n S L) as RD. rewrite RD.
      destruct r; try reflexivity. exfalso. inversion S. congruence.
    - destruct H as (l & -> & H). cbn [val_json val_depth] in *. inversion S as [| | | |js rs SL|]; subst. cbn [Json.read]. rewrite enter_ok by lia.
      assert (A : all_read (read t (pred n)) rs = Some l).
      { apply all_read_some. pose proof (max_le val_depth l (pred n) ltac:(lia)) as LE. clear S L.
        revert rs SL. induction H as [|x l HX _ IHL]; intros rs SL; inversion SL; subst; constructor.
        - apply IH; [assumption|assumption|apply LE; left; reflexivity].
        - apply IHL; [intros; apply LE; right; assumption|assumption]. }
      rewrite A. reflexivity.
    - destruct H as (l & -> & D & _ & H). cbn [val_json val_depth] in *. inversion S as [| | | | |js rs SL]; subst. cbn [Json.read]. rewrite enter_ok by lia.
      assert (A : read_map (read t (pred n)) rs [] = Some l).
      { apply read_map_some. exists (map fst l), (map snd l). split; [|split].
        - pose proof (keys_read _ _ SL) as K. rewrite map_map in K. exact K.
        - pose proof (max_le (fun m => val_depth (snd m)) l (pred n) ltac:(lia)) as LE. clear S L D.
          revert rs SL. induction l as [|x l IHL]; intros rs SL; inversion SL as [|? ? ? ? [_ SX]]; subst; constructor; inversion H; subst.
          + apply IH; [assumption|assumption|apply LE; left; reflexivity].
          + apply IHL; [assumption|intros; apply LE; right; assumption|assumption].
        - rewrite combine_parts. symmetry. exact (insert_all_distinct l [] D). }
      rewrite A. reflexivity.
    - apply has_struct in H. destruct H as (D & _ & ys & -> & H). cbn [val_json val_depth] in *. inversion S as [| | | | |js rs SL]; subst.
      rewrite read_struct, enter_ok by lia.
      assert (LEN : length fs = length ys).
      { clear - H. revert ys H. induction fs as [|[[nm df] t] fs IHF]; intros [|y ys] H; try destruct H; cbn [length]; auto. }
      assert (KS : map fst (map (fun m => (fst m, val_json (snd m))) (combine (map fname fs) ys)) = map fname fs).
      { rewrite map_map. cbn [fst]. clear - LEN. revert ys LEN. induction fs as [|f fs IHF]; intros [|y ys] LEN; try discriminate; [reflexivity|].
        cbn [map combine fst]. f_equal. apply IHF. cbn [length] in LEN. lia. }
      pose proof (keys_read _ _ SL) as K. rewrite KS in K.
      assert (LR : length fs = length rs).
      { clear - K. revert rs K. induction fs as [|f fs IHF]; intros rs K; cbn [map] in K; inversion K; subst; cbn [length]; auto. }
      assert (KN : known deny (map (reader_of (pred n)) fs) (map fname fs)) by (unfold known; rewrite reader_names; auto).
      rewrite (set_fields_after deny (map (reader_of (pred n)) fs) ltac:(rewrite reader_names; exact D) rs (map fname fs) _ K KN).
      destruct (fields_back (pred n) (combine (map fname fs) (map snd rs))) with (fs := fs) (ys := ys) as [E1 E2].
      + replace (map fst (combine (map fname fs) (map snd rs))) with (map fname fs); [exact D|].
        clear - LR. revert rs LR. induction fs as [|f fs IHF]; intros [|x rs] LR; try discriminate; [reflexivity|].
        cbn [map combine fst]. f_equal. apply IHF. cbn [length] in LR. lia.
      + exact IH.
      + exact H.
      + intros y I. pose proof (max_le (fun m => val_depth (snd m)) (combine (map fname fs) ys) (pred n) ltac:(lia)) as LE.
        clear - LE I LEN. revert ys LE I LEN. induction fs as [|f fs IHF]; intros [|z ys] LE I LEN; try discriminate; [destruct I|].
        cbn [map combine] in LE. destruct I as [->|I]; [exact (LE _ (or_introl eq_refl))|]. apply (IHF ys); [intros; apply LE; right; assumption|exact I|].
        cbn [length] in LEN. lia.
      + clear - SL LEN LR.
        assert (G : forall kxs, (forall p, In p (combine (map fname fs) (map snd rs)) -> In p kxs) ->
                  Forall2 (fun f y => exists x, In (fst (fst f), x) kxs /\ shape (val_json y) x) fs ys).
        { revert ys rs SL LEN LR. induction fs as [|f fs IHF]; intros [|y ys] [|x rs] SL LEN LR kxs SUB; try discriminate; constructor.
          - cbn [map combine] in SL. inversion SL as [|? ? ? ? [_ SX] _]; subst. exists (snd x). split; [|exact SX]. apply SUB. left. reflexivity.
          - cbn [map combine] in SL. inversion SL; subst. apply (IHF ys rs); [assumption|cbn [length] in LEN; lia|cbn [length] in LR; lia|].
            intros p I. apply SUB. right. exact I. }
        apply G. auto.
      + rewrite E1, E2. reflexivity.
    - destruct H as (d & -> & P). cbn [val_json val_depth Json.read] in *. rewrite (doc_back d P r n S L). reflexivity.
    - cbn in H. subst v. inversion S; subst. reflexivity.
    - destruct H as (c & -> & _). inversion S; subst. cbn [Json.read]. match goal with H : string_of _ = Some _ |- _ => rewrite H end. reflexivity.
    - apply has_tuple in H. destruct H as (ys & -> & H). cbn [val_json val_depth] in *. inversion S as [| | | |js rs SL|]; subst. cbn [Json.read]. rewrite enter_ok by lia.
      rewrite (tuple_back (pred n) ts IH ys H (max_le val_depth ys (pred n) ltac:(lia)) rs SL). reflexivity.
    - apply has_enum in H. rewrite read_enum. rewrite Forall_forall in IH. destruct H as (D & _ & [(m & I & ->)|(m & t & y & I & -> & H)]); cbn [val_json val_depth] in *.
      + inversion S as [| | |s ps K| |]; subst. rewrite K, (variant_unique _ _ _ D I). reflexivity.
      + inversion S as [| | | | |l rs SL]; subst. inversion SL as [|? [ps x] ? ? [K SX] SL']; subst. inversion SL'; subst. cbn [fst snd] in *.
        rewrite enter_ok by lia. rewrite K, (variant_unique _ _ _ D I), (IH _ I y H x (pred n) SX ltac:(lia)). reflexivity.
  Qed.

  Lemma round_trip t v : has_type t v -> val_depth v < max_depth -> from_slice t (utf8 (to_text v)) = Some v.
  Proof.
    intros H L. unfold Json.from_slice.
    assert (T : json_text (val_json v) (utf8 (to_text v))).
    { exists [], (utf8 (to_text v)), []. split; [constructor|]. split; [constructor|]. split; [exact (val_writes t v H)|]. rewrite app_nil_r. reflexivity. }
    change (2 + 2 * length (utf8 (to_text v))) with (S (1 + 2 * length (utf8 (to_text v)))).
    destruct (lex_json_text _ _ T (1 + 2 * length (utf8 (to_text v))) ltac:(lia)) as (x & r & LX & S & SH).
    rewrite LX, (skip_all _ S). cbn [is_empty]. exact (read_back t v H x max_depth SH L).
  Qed.
End RoundTrip.
