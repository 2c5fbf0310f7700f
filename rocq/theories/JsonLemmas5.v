(** Proofs about reading typed documents: [read] gives the value that [fits] describes. *)

From Coq Require Import String Lia ZArith.
From Verif Require Import Base BaseFacts Utf8 Utf8Facts RouteTrie Http Form AppSpec Json JsonSpec JsonLemmas JsonLemmas2 JsonLemmas3 JsonLemmas4.
Local Open Scope list_scope.

Section TyInd.
  Context {F : Type}.
  Variable P : jty F -> Prop.
  Hypothesis (HB : P JTBool) (HI : forall i, P (JTInt i)) (HF : P JTFloat) (HS : P JTString).
  Hypothesis (HO : forall t, P t -> P (JTOption t)) (HV : forall t, P t -> P (JTVec t)) (HM : forall t, P t -> P (JTMap t)).
  Hypothesis (HT : forall b fs, Forall (fun f => P (snd f)) fs -> P (JTStruct b fs)) (HD : P JTValue).
  Hypothesis (HU : P JTUnit) (HC : P JTChar) (HP : forall ts, Forall P ts -> P (JTTuple ts)).
  Definition of_variant (w : str * option (jty F)) : Prop := match snd w with None => True | Some t => P t end.
  Hypothesis (HE : forall vs, Forall of_variant vs -> P (JTEnum vs)).
  Fixpoint jty_ind' (t : jty F) : P t :=
    match t with
    | JTBool => HB | JTInt i => HI i | JTFloat => HF | JTString => HS
    | JTOption t' => HO t' (jty_ind' t') | JTVec t' => HV t' (jty_ind' t') | JTMap t' => HM t' (jty_ind' t')
    | JTStruct b fs => HT b fs ((fix go l := match l return Forall (fun f : str * option (jval F) * jty F => P (snd f)) l with
                                             | [] => Forall_nil _
                                             | x :: r => @Forall_cons _ (fun f : str * option (jval F) * jty F => P (snd f)) x r (jty_ind' (snd x)) (go r)
                                             end) fs)
    | JTValue => HD | JTUnit => HU | JTChar => HC
    | JTTuple ts => HP ts ((fix go l := match l return Forall P l with [] => Forall_nil _ | x :: r => Forall_cons x (jty_ind' x) (go r) end) ts)
    | JTEnum vs => HE vs ((fix go l := match l return Forall of_variant l with
                                       | [] => Forall_nil _
                                       | (n, o) :: r => Forall_cons (n, o) (match o return of_variant (n, o) with None => I | Some t => jty_ind' t end) (go r)
                                       end) vs)
    end.
End TyInd.

Section Structs.
  Context {F : Type}.
  Notation jval := (jval F).
  Notation reader := (reader (F := F)).

  Definition step (f : reader) (s : option jval) (x : raw) : option (option jval) :=
    match s with Some _ => None | None => option_map Some (r_read f x) end.
  Fixpoint run (f : reader) (xs : list raw) (s : option jval) : option (option jval) :=
    match xs with [] => Some s | x :: r => match step f s x with None => None | Some s' => run f r s' end end.
  Fixpoint after (rs : list reader) (kxs : list (str * raw)) (slots : list (option jval)) : option (list (option jval)) :=
    match rs, slots with
    | f :: rs', s :: ss =>
        match run f (members_named (r_name f) kxs) s with
        | None => None
        | Some s' => option_map (cons s') (after rs' kxs ss)
        end
    | _, _ => Some slots
    end.

  Lemma run_app f a b s : run f (a ++ b) s = match run f a s with None => None | Some s' => run f b s' end.
  Proof. revert s. induction a as [|x a IH]; intros s; [reflexivity|]. cbn [app run]. destruct (step f s x); [apply IH|reflexivity]. Qed.

  Lemma after_nil rs : forall slots, after rs [] slots = Some slots.
  Proof. induction rs as [|f rs IH]; intros [|s ss]; try reflexivity. cbn [after]. change (members_named (r_name f) (@nil (str * raw))) with (@nil raw). cbn [run]. rewrite IH. reflexivity. Qed.

  Lemma after_skip k x rs : ~ In k (map r_name rs) -> forall slots, after rs [(k, x)] slots = Some slots.
  Proof.
    induction rs as [|f rs IH]; intros NI [|s ss]; try reflexivity. cbn [after map In] in *.
    rewrite named_one, (proj2 (str_eqb_neq k (r_name f))) by (intros E; apply NI; left; symmetry; exact E). cbn [run]. rewrite IH by (intros I; apply NI; right; exact I). reflexivity.
  Qed.

  Lemma set_field_after k x rs : NoDup (map r_name rs) -> forall slots, set_field k x rs slots = after rs [(k, x)] slots.
  Proof.
    induction rs as [|f rs IH]; intros D [|s ss]; try reflexivity. cbn [set_field after map] in *. inversion D as [|? ? NI D']; subst.
    rewrite named_one. destruct (str_eqb_spec k (r_name f)) as [->|N].
    - cbn [run]. unfold step. destruct s; [reflexivity|]. destruct (r_read f x); [|reflexivity]. cbn [option_map].
      rewrite after_skip by exact NI. reflexivity.
    - cbn [run]. rewrite IH by exact D'. reflexivity.
  Qed.

  Lemma after_cons m kxs rs : forall slots,
    after rs (m :: kxs) slots = match after rs [m] slots with None => None | Some slots' => after rs kxs slots' end.
  Proof.
    change (m :: kxs) with ([m] ++ kxs).
    induction rs as [|f rs IH]; intros [|s ss]; try reflexivity. cbn [after]. rewrite named_app, run_app, IH.
    destruct (run f (members_named (r_name f) [m]) s) as [s'|]; [|reflexivity].
    destruct (after rs [m] ss) as [ss'|]; cbn [option_map after]; [reflexivity|]. destruct (run f _ s'); reflexivity.
  Qed.

  Lemma known_spec k (rs : list reader) : existsb (fun f => str_eqb k (r_name f)) rs = true <-> In k (map r_name rs).
  Proof.
    rewrite existsb_exists, in_map_iff. split; intros (f & A & B); exists f.
    - destruct (str_eqb_spec k (r_name f)) as [->|]; [auto|discriminate].
    - subst k. rewrite str_eqb_refl. auto.
  Qed.

  Definition known (deny : bool) (rs : list reader) (ks : list str) : Prop := deny = true -> forall k, In k ks -> In k (map r_name rs).

  Lemma set_fields_after deny rs : NoDup (map r_name rs) -> forall l ks slots, Forall2 (fun p k => string_of (fst p) = Some k) l ks -> known deny rs ks ->
    set_fields deny l rs slots = after rs (combine ks (map snd l)) slots.
  Proof.
    intros D l ks slots K. revert slots. induction K as [|[p x] k l ks E K IH]; intros slots KN.
    - cbn. rewrite after_nil. reflexivity.
    - cbn [set_fields combine map snd fst] in *. rewrite E, after_cons, set_field_after by exact D.
      assert (C : deny && negb (existsb (fun f => str_eqb k (r_name f)) rs) = false).
      { destruct deny; [|reflexivity]. rewrite (proj2 (known_spec k rs) (KN eq_refl k (or_introl eq_refl))). reflexivity. }
      rewrite C. destruct (after rs [(k, x)] slots); [apply IH|reflexivity]. intros Q k' I. apply (KN Q). right. exact I.
  Qed.

  Lemma set_fields_known deny rs l ks : Forall2 (fun p k => string_of (fst p) = Some k) l ks ->
    forall slots slots', set_fields deny l rs slots = Some slots' -> known deny rs ks.
  Proof.
    induction 1 as [|[p x] k l ks K _ IH]; intros slots slots' E Q k' I; [destruct I|]. cbn [set_fields fst] in *. rewrite K in E. subst deny. cbn [andb] in E.
    destruct (existsb (fun f => str_eqb k (r_name f)) rs) eqn:EX; [|discriminate]. cbn [negb] in E.
    destruct (set_field k x rs slots) as [s|]; [|discriminate]. destruct I as [<-|I]; [apply known_spec; exact EX|exact (IH _ _ E eq_refl k' I)].
  Qed.

  Lemma set_field_reads k x rs : In k (map r_name rs) -> forall slots s, length slots = length rs -> set_field k x rs slots = Some s ->
    (exists (f : reader) y, In f rs /\ r_read f x = Some y) /\ length s = length rs.
  Proof.
    induction rs as [|f rs IH]; intros I [|o slots] s L E; try discriminate; [destruct I|]. cbn [set_field map length] in *.
    destruct (str_eqb_spec k (r_name f)) as [->|N].
    - destruct o; [discriminate|]. destruct (r_read f x) as [y|] eqn:R; [|discriminate]. injection E as <-.
      split; [exists f, y; split; [left; reflexivity|exact R]|exact L].
    - destruct I as [Q|I]; [congruence|]. destruct (set_field k x rs slots) as [s'|] eqn:Q; [|discriminate]. injection E as <-.
      destruct (IH I slots s' ltac:(lia) Q) as ((g & y & IG & R) & L'). split; [exists g, y; split; [right; exact IG|exact R]|cbn [length]; lia].
  Qed.

  Lemma set_fields_reads rs : forall l slots s, length slots = length rs -> set_fields true l rs slots = Some s ->
    Forall (fun p => string_of (fst p) <> None /\ exists (f : reader) y, In f rs /\ r_read f (snd p) = Some y) l.
  Proof.
    induction l as [|[p x] l IH]; intros slots s L E; constructor; cbn [set_fields fst snd andb] in *; (destruct (string_of p) as [k|] eqn:K; [|discriminate]);
      (destruct (existsb (fun f => str_eqb k (r_name f)) rs) eqn:EX; [|discriminate]); cbn [negb] in E;
      (destruct (set_field k x rs slots) as [s'|] eqn:Q; [|discriminate]); destruct (set_field_reads k x rs (proj1 (known_spec k rs) EX) slots s' L Q) as (R & L').
    - split; [discriminate|exact R].
    - exact (IH s' s L' E).
  Qed.

  Lemma read_seq_reads rs : forall l out, read_seq rs l = Some out -> Forall (fun x => exists (f : reader) y, In f rs /\ r_read f x = Some y) l.
  Proof.
    induction rs as [|f rs IH]; intros [|x l] out E; try discriminate; try constructor; cbn [read_seq] in E;
      (destruct (r_read f x) as [y|] eqn:R; [|discriminate]).
    - exists f, y. split; [left; reflexivity|exact R].
    - destruct (read_seq rs l) as [o|] eqn:Q; [|discriminate]. eapply Forall_impl; [|exact (IH l o Q)]. intros a (g & z & IG & RG). exists g, z. split; [right; exact IG|exact RG].
  Qed.

  Lemma variant_in {A} k (x : A) vs : variant k vs = Some x -> In (k, x) vs.
  Proof.
    induction vs as [|[n y] vs IH]; [discriminate|]. cbn [variant]. destruct (str_eqb_spec k n) as [->|]; intros E; [injection E as ->; left; reflexivity|right; exact (IH E)].
  Qed.

  Lemma variant_unique {A} k (x : A) vs : NoDup (map fst vs) -> In (k, x) vs -> variant k vs = Some x.
  Proof.
    induction vs as [|[n y] vs IH]; intros D I; [destruct I|]. cbn [map fst variant] in *. inversion D as [|? ? NI D']; subst. destruct I as [E|I].
    - injection E as -> ->. rewrite str_eqb_refl. reflexivity.
    - destruct (str_eqb_spec k n) as [->|]; [|exact (IH D' I)]. destruct NI. apply in_map_iff. exists (n, x). auto.
  Qed.

  Lemma variant_map {A B} (g : A -> B) k vs : variant k (map (fun w : str * A => let '(n, p) := w in (n, g p)) vs) = option_map g (variant k vs).
  Proof. induction vs as [|[n y] vs IH]; [reflexivity|]. cbn [map variant]. rewrite IH. destruct (str_eqb k n); reflexivity. Qed.

  Lemma named_shape n js l : Forall2 entry_shape js l ->
    Forall2 shape (members_named n js) (members_named n (combine (map fst js) (map snd l))).
  Proof.
    induction 1 as [|[k j] [p x] js l [K SJ] S IH]; [constructor|]. cbn [map combine fst snd] in *.
    unfold members_named in *. cbn [filter fst]. destruct (str_eqb k n); cbn [map snd]; [constructor; assumption|exact IH].
  Qed.
End Structs.

Section Reading.
  Context {F : Type}.
  Context (float_lit : bytes -> option F) (float_int : Z -> F) (zero_float : bool).
  Notation num := (num F). Notation doc := (doc F). Notation jval := (jval F). Notation jty := (jty F).
  Notation number := (number float_lit zero_float).
  Notation denotes := (denotes float_lit zero_float).
  Notation doc_of := (doc_of float_lit zero_float).
  Notation doc_fits := (doc_fits float_lit zero_float).
  Notation read := (read float_lit float_int zero_float).
  Notation fits := (fits float_lit float_int zero_float).
  Notation field := (str * option jval * jty)%type.
  Notation fname := (fun f : field => fst (fst f)).

  Definition reader_of (d : nat) (f : field) : reader :=
    let '(n, df, t') := f in Reader n (missing df t') df (read t' d).

  Lemma reader_names d fs : map r_name (map (reader_of d) fs) = map fname fs.
  Proof. rewrite map_map. apply map_ext. intros [[n df] t]. reflexivity. Qed.

  (** What [fits] asks of the fields of a struct. *)
  Definition obj_fits (l : list (str * json)) := fix all (fs : list field) (ys : list jval) : Prop :=
    match fs, ys with
    | [], [] => True
    | (n, df, t') :: fs', y :: ys' =>
        ((exists x, members_named n l = [x] /\ fits t' x y) \/
         (members_named n l = [] /\ (df = Some y \/ df = None /\ (exists t'', t' = JTOption t'') /\ y = JVOpt None)))
        /\ all fs' ys'
    | _, _ => False
    end.
  Fixpoint seq_fits (fs : list field) (l : list json) (ys : list jval) : Prop :=
    match fs, l, ys with
    | [], [], [] => True
    | (n, df, t') :: fs', x :: l', y :: ys' => fits t' x y /\ seq_fits fs' l' ys'
    | (n, df, t') :: fs', [], y :: ys' => df = Some y /\ seq_fits fs' [] ys'
    | _, _, _ => False
    end.

  Lemma fits_struct deny fs j v : fits (JTStruct deny fs) j v <->
    (exists l ys, j = JObj l /\ v = JVStruct (combine (map fname fs) ys) /\ (deny = true -> forall k, In k (map fst l) -> In k (map fname fs)) /\ obj_fits l fs ys) \/
    (exists l ys, j = JArr l /\ v = JVStruct (combine (map fname fs) ys) /\ seq_fits fs l ys).
  Proof.
    change (fits (JTStruct deny fs) j v) with
     ((exists l ys, j = JObj l /\ v = JVStruct (combine (map fname fs) ys) /\
           (deny = true -> forall k, In k (map fst l) -> In k (map fname fs)) /\
           (fix all (fs : list field) (ys : list jval) : Prop :=
              match fs, ys with
              | [], [] => True
              | (n, df, t') :: fs', y :: ys' =>
                  ((exists x, members_named n l = [x] /\ fits t' x y) \/
                   (members_named n l = [] /\
                    (df = Some y \/ df = None /\ (exists t'', t' = JTOption t'') /\ y = JVOpt None)))
                  /\ all fs' ys'
              | _, _ => False
              end) fs ys) \/
        (exists l ys, j = JArr l /\ v = JVStruct (combine (map fname fs) ys) /\
           (fix all (fs : list field) (l : list json) (ys : list jval) : Prop :=
              match fs, l, ys with
              | [], [], [] => True
              | (n, df, t') :: fs', x :: l', y :: ys' => fits t' x y /\ all fs' l' ys'
              | (n, df, t') :: fs', [], y :: ys' => df = Some y /\ all fs' [] ys'
              | _, _, _ => False
              end) fs l ys)).
    reflexivity.
  Qed.

  Fixpoint tuple_fits (ts : list jty) (l : list json) (ys : list jval) : Prop :=
    match ts, l, ys with
    | [], [], [] => True
    | t' :: ts', x :: l', y :: ys' => fits t' x y /\ tuple_fits ts' l' ys'
    | _, _, _ => False
    end.

  Lemma fits_tuple ts j v : fits (JTTuple ts) j v <-> exists l ys, j = JArr l /\ v = JVTuple ys /\ tuple_fits ts l ys.
  Proof. reflexivity. Qed.

  Lemma fits_enum vs j v : fits (JTEnum vs) j v <->
    (exists n, In (n, None) vs /\ (j = JStr n \/ j = JObj [(n, JNull)]) /\ v = JVEnum n None) \/
    (exists n t x y, In (n, Some t) vs /\ j = JObj [(n, x)] /\ fits t x y /\ v = JVEnum n (Some y)).
  Proof.
    induction vs as [|[n [t|]] vs IH].
    - split; [intros []|]. intros [(n & [] & _)|(n & t & x & y & [] & _)].
    - change (fits (JTEnum ((n, Some t) :: vs)) j v) with ((exists x y, j = JObj [(n, x)] /\ fits t x y /\ v = JVEnum n (Some y)) \/ fits (JTEnum vs) j v).
      rewrite IH. split.
      + intros [(x & y & E)|[(m & I & E)|(m & t' & x & y & I & E)]].
        * right. exists n, t, x, y. split; [left; reflexivity|exact E].
        * left. exists m. split; [right; exact I|exact E].
        * right. exists m, t', x, y. split; [right; exact I|exact E].
      + intros [(m & [Q|I] & E)|(m & t' & x & y & [Q|I] & E)].
        * discriminate.
        * right. left. exists m. auto.
        * injection Q as -> ->. left. exists x, y. exact E.
        * right. right. exists m, t', x, y. auto.
    - change (fits (JTEnum ((n, None) :: vs)) j v) with (((j = JStr n \/ j = JObj [(n, JNull)]) /\ v = JVEnum n None) \/ fits (JTEnum vs) j v).
      rewrite IH. split.
      + intros [E|[(m & I & E)|(m & t' & x & y & I & E)]].
        * left. exists n. split; [left; reflexivity|exact E].
        * left. exists m. split; [right; exact I|exact E].
        * right. exists m, t', x, y. split; [right; exact I|exact E].
      + intros [(m & [Q|I] & E)|(m & t' & x & y & [Q|I] & E)].
        * injection Q as ->. left. exact E.
        * right. left. exists m. auto.
        * discriminate.
        * right. right. exists m, t', x, y. auto.
  Qed.

  Lemma read_enum vs d r : read (JTEnum vs) d r =
    match r with
    | RStr ps => match string_of ps with
                 | None => None
                 | Some k => match variant k vs with Some None => Some (JVEnum k None) | _ => None end
                 end
    | RObj [(ps, x)] =>
        match enter d, string_of ps with
        | Some d', Some k =>
            match variant k vs with
            | None => None
            | Some None => match x with RNull => Some (JVEnum k None) | _ => None end
            | Some (Some t) => option_map (fun y => JVEnum k (Some y)) (read t d' x)
            end
        | _, _ => None
        end
    | _ => None
    end.
  Proof.
    destruct r as [| | |ps|l|[|[ps x] [|q l]]]; try reflexivity. cbn [Json.read]. destruct (enter d) as [d'|]; [|reflexivity]. destruct (string_of ps) as [k|]; [|reflexivity].
    rewrite (variant_map (fun p => match p with None => None | Some t' => Some (read t' d') end)). destruct (variant k vs) as [[t|]|]; reflexivity.
  Qed.

  Lemma sound_tuple (ts : list jty) : sound_type (JTTuple ts) -> Forall sound_type ts.
  Proof. cbn [sound_type]. induction ts as [|t ts IH]; intros A; constructor; [apply A|apply IH; apply A]. Qed.

  Lemma sound_enum (vs : list (str * option jty)) : sound_type (JTEnum vs) -> NoDup (map fst vs) /\ forall n t, In (n, Some t) vs -> sound_type t.
  Proof.
    cbn [sound_type]. intros [D A]. split; [exact D|]. clear D. induction vs as [|[m [u|]] vs IH]; intros n t I; [destruct I| |].
    - destruct A as [AU A]. destruct I as [E|I]; [injection E as _ ->; exact AU|exact (IH A n t I)].
    - destruct I as [E|I]; [discriminate|exact (IH A n t I)].
  Qed.

  Lemma strict_tuple (ts : list jty) : skips_nothing (JTTuple ts) -> Forall skips_nothing ts.
  Proof. cbn [skips_nothing]. induction ts as [|t ts IH]; intros A; constructor; [apply A|apply IH; apply A]. Qed.

  Lemma strict_enum (vs : list (str * option jty)) : skips_nothing (JTEnum vs) -> forall n t, In (n, Some t) vs -> skips_nothing t.
  Proof.
    cbn [skips_nothing]. induction vs as [|[m [u|]] vs IH]; intros A n t I; [destruct I| |].
    - destruct A as [AU A]. destruct I as [E|I]; [injection E as _ ->; exact AU|exact (IH A n t I)].
    - destruct I as [E|I]; [discriminate|exact (IH A n t I)].
  Qed.

  Lemma strict_fields deny (fs : list field) : skips_nothing (JTStruct deny fs) -> deny = true /\ Forall (fun f => skips_nothing (snd f)) fs.
  Proof. cbn [skips_nothing]. intros [E A]. split; [exact E|]. clear E. induction fs as [|[[n df] t] fs IH]; constructor; [apply A|]. apply IH. apply A. Qed.

  Lemma missing_iff df (t : jty) y : missing df t = Some y <->
    (df = Some y \/ df = None /\ (exists t'', t = JTOption t'') /\ y = JVOpt None).
  Proof.
    unfold missing. destruct df as [z|].
    - split; [auto|]. intros [E|(E & _)]; [exact E|discriminate].
    - destruct t; (split; [try discriminate|intros [E|(_ & (t'' & E) & H)]; try discriminate]).
      + intros E. injection E as <-. right. repeat split. eexists. reflexivity.
      + subst. reflexivity.
  Qed.

  Definition sound_at (t : jty) : Prop := forall j r d v, shape j r -> read t d r = Some v -> fits t j v.
  Definition defined_at (t : jty) : Prop := forall j r d v, shape j r -> depth j < d -> fits t j v -> exists v', read t d r = Some v'.

  Lemma obj_sound js l d : Forall2 entry_shape js l -> forall fs, Forall (fun f => sound_at (snd f)) fs ->
    forall slots out,
    after (map (reader_of d) fs) (combine (map fst js) (map snd l)) (map (fun _ => None) fs) = Some slots ->
    finish (map (reader_of d) fs) slots = Some out ->
    exists ys, out = combine (map fname fs) ys /\ obj_fits js fs ys.
  Proof.
    intros SJ fs IH. induction IH as [|[[n df] t] fs HF HFS IHF]; intros slots out A E.
    - injection A as <-. injection E as <-. exists []. split; [reflexivity|exact I].
    - cbn [map after r_name reader_of] in A. pose proof (named_shape n js l SJ) as SN.
      destruct (run _ _ None) as [s|] eqn:R; [|discriminate].
      destruct (after (map (reader_of d) fs) _ _) as [ss|] eqn:AS; [|discriminate]. injection A as <-.
      cbn [map finish r_missing reader_of r_name] in E.
      set (w := match s with Some y => Some y | None => missing df t end) in E.
      destruct w as [y|] eqn:W; [|discriminate]. destruct (finish (map (reader_of d) fs) ss) as [o|] eqn:FI; [|discriminate]. injection E as <-.
      destruct (IHF _ _ eq_refl FI) as (ys & -> & O). exists (y :: ys). split; [reflexivity|]. cbn [obj_fits]. split; [|exact O]. clear - SN R W HF. subst w.
      destruct SN as [|x r xs rs SX SN].
      + injection R as <-. right. split; [reflexivity|]. apply missing_iff. exact W.
      + left. exists x. cbn [run step] in R. cbn [reader_of r_read] in R. destruct (read t d r) as [y'|] eqn:RD; [|discriminate]. cbn [option_map] in R.
        destruct SN as [|x2 r2 xs rs SX2 SN]; [|discriminate]. injection R as <-. injection W as <-. split; [reflexivity|]. exact (HF _ _ _ _ SX RD).
  Qed.

  Lemma seq_sound d : forall fs js l, Forall2 shape js l -> Forall (fun f => sound_at (snd f)) fs -> forall out,
    read_seq (map (reader_of d) fs) l = Some out ->
    exists ys, out = combine (map fname fs) ys /\ seq_fits fs js ys.
  Proof.
    induction fs as [|[[n df] t] fs IHF]; intros js l S IH out E.
    - cbn [map read_seq] in E. destruct S; [|discriminate]. injection E as <-. exists []. split; [reflexivity|exact I].
    - inversion IH as [|? ? HF HFS]; subst. cbn [map read_seq] in E. destruct S as [|x r xs rs SX S].
      + cbn [reader_of r_default r_name] in E. destruct df as [y|]; [|discriminate].
        destruct (read_seq (map (reader_of d) fs) []) as [o|] eqn:Q; [|discriminate]. injection E as <-.
        destruct (IHF [] [] (Forall2_nil _) HFS _ Q) as (ys & -> & O). exists (y :: ys). split; [reflexivity|]. split; [reflexivity|exact O].
      + cbn [reader_of r_read r_name] in E. destruct (read t d r) as [y|] eqn:RD; [|discriminate].
        destruct (read_seq (map (reader_of d) fs) rs) as [o|] eqn:Q; [|discriminate]. injection E as <-.
        destruct (IHF xs rs S HFS _ Q) as (ys & -> & O). exists (y :: ys). split; [reflexivity|]. split; [exact (HF _ _ _ _ SX RD)|exact O].
  Qed.

  Lemma tuple_sound d : forall ts js l, Forall2 shape js l -> Forall sound_at ts -> forall ys,
    read_tuple (map (fun t => read t d) ts) l = Some ys -> tuple_fits ts js ys.
  Proof.
    induction ts as [|t ts IHT]; intros js l S IH ys E; cbn [map read_tuple] in E; destruct S as [|x r xs rs SX S]; try discriminate.
    - injection E as <-. exact I.
    - inversion IH as [|? ? HT HTS]; subst. destruct (read t d r) as [y|] eqn:R; [|discriminate].
      destruct (read_tuple _ rs) as [zs|] eqn:Q; [|discriminate]. injection E as <-. split; [exact (HT _ _ _ _ SX R)|exact (IHT xs rs S HTS zs Q)].
  Qed.

  Lemma tuple_defined d : forall ts js l, Forall2 shape js l -> (forall j, In j js -> depth j < d) -> Forall defined_at ts -> forall ys, tuple_fits ts js ys ->
    exists zs, read_tuple (map (fun t => read t d) ts) l = Some zs.
  Proof.
    induction ts as [|t ts IHT]; intros js l S LE IH ys O; destruct S as [|x r xs rs SX S]; try (destruct O; fail).
    - exists []. reflexivity.
    - destruct ys as [|y ys]; [destruct O|]. destruct O as [OX O]. inversion IH as [|? ? HT HTS]; subst. cbn [map read_tuple].
      destruct (HT _ _ d _ SX (LE x (or_introl eq_refl)) OX) as (z & Z). rewrite Z.
      destruct (IHT xs rs S ltac:(intros; apply LE; right; assumption) HTS ys O) as (zs & Q). rewrite Q. eexists. reflexivity.
  Qed.

  Lemma sound_fields deny (fs : list field) : sound_type (JTStruct deny fs) -> NoDup (map fname fs) /\ Forall (fun f => sound_type (snd f)) fs.
  Proof.
    cbn [sound_type]. intros [D A]. split; [exact D|]. clear D. induction fs as [|[[n df] t] fs IH]; constructor; [apply A|]. apply IH. apply A.
  Qed.

  Lemma read_struct deny fs d r : read (JTStruct deny fs) d r =
    match enter d with
    | None => None
    | Some d' =>
        match r with
        | RObj l => match set_fields deny l (map (reader_of d') fs) (map (fun _ => None) fs) with
                    | None => None
                    | Some slots => option_map JVStruct (finish (map (reader_of d') fs) slots)
                    end
        | RArr l => option_map JVStruct (read_seq (map (reader_of d') fs) l)
        | _ => None
        end
    end.
  Proof. reflexivity. Qed.

  Lemma read_sound t : sound_type t -> sound_at t.
  Proof.
    induction t as [|i| | |t IH|t IH|t IH|deny fs IH| | | |ts IH|vs IH] using jty_ind'; intros ST j r d v S E.
    - inversion S; subst; try discriminate. injection E as <-. exists b. auto.
    - inversion S; subst; try discriminate. cbn [Json.read] in E. destruct (number neg (dec n) tl) as [[z|f]|] eqn:N; try discriminate.
      destruct (Z.leb_spec (i_min i) z) as [L1|]; [|discriminate]. destruct (Z.leb_spec z (i_max i)) as [L2|]; [|discriminate].
      injection E as <-. exists neg, n, tl, z. apply number_denotes in N. auto.
    - inversion S; subst; try discriminate. cbn [Json.read] in E. exists neg, n, tl. split; [reflexivity|].
      destruct (number neg (dec n) tl) as [[z|f]|] eqn:N; try discriminate; injection E as <-; apply number_denotes in N.
      + right. exists z. auto.
      + left. exists f. auto.
    - inversion S; subst; try discriminate. cbn [Json.read] in E. match goal with H : string_of _ = Some _ |- _ => rewrite H in E end.
      injection E as <-. exists s. auto.
    - cbn [JsonSpec.fits]. assert (C : j = JNull \/ j <> JNull) by (destruct j; auto; right; discriminate). destruct C as [->|N].
      + inversion S; subst. injection E as <-. auto.
      + right. split; [exact N|]. assert (E' : option_map (fun y => JVOpt (Some y)) (read t d r) = Some v) by (inversion S; subst; congruence || exact E).
        destruct (read t d r) as [y|] eqn:R; [|discriminate]. injection E' as <-. exists y. split; [exact (IH ST _ _ _ _ S R)|reflexivity].
    - inversion S as [| | | |l rs SL|]; subst; try discriminate. cbn [Json.read] in E. destruct (enter d) as [d'|]; [|discriminate].
      destruct (all_read (read t d') rs) as [ys|] eqn:A; [|discriminate]. injection E as <-. apply all_read_some in A.
      exists l, ys. split; [reflexivity|]. split; [|reflexivity]. clear S. revert ys A.
      induction SL as [|x r xs rs SX SL IHL]; intros ys A; inversion A; subst; constructor; [eapply (IH ST); eassumption|apply IHL; assumption].
    - inversion S as [| | | | |l rs SL]; subst; try discriminate. cbn [Json.read] in E. destruct (enter d) as [d'|]; [|discriminate].
      destruct (read_map (read t d') rs []) as [m|] eqn:A; [|discriminate]. injection E as <-. apply read_map_some in A. destruct A as (ks & ys & K & Y & ->).
      exists l, ys, (insert_all (combine ks ys) []). split; [reflexivity|]. rewrite (keys_unique _ _ _ SL K). split; [|split; [apply insert_all_holds|reflexivity]].
      clear S K. revert ys Y.
      induction SL as [|x r xs rs [_ SX] SL IHL]; intros ys A; inversion A; subst; cbn [map]; constructor; [eapply (IH ST); eassumption|apply IHL; assumption].
    - destruct (sound_fields deny fs ST) as [D SF]. rewrite read_struct in E. destruct (enter d) as [d'|]; [|discriminate].
      assert (IH' : Forall (fun f => sound_at (snd f)) fs).
      { clear - IH SF. induction IH as [|f fs H _ IHF]; inversion SF; subst; constructor; auto. }
      apply fits_struct. inversion S as [| | | |l rs SL|l rs SL]; subst; try discriminate.
      + right. destruct (read_seq _ rs) as [out|] eqn:Q; [|discriminate]. injection E as <-.
        destruct (seq_sound d' fs l rs SL IH' out Q) as (ys & -> & O). exists l, ys. auto.
      + left. destruct (set_fields deny rs _ _) as [slots|] eqn:Q; [|discriminate]. destruct (finish _ slots) as [out|] eqn:FI; [|discriminate]. injection E as <-.
        pose proof (set_fields_known deny _ _ _ (keys_read _ _ SL) _ _ Q) as KN.
        rewrite (set_fields_after deny (map (reader_of d') fs) ltac:(rewrite reader_names; exact D) rs (map fst l) _ (keys_read _ _ SL) KN) in Q.
        unfold known in KN. rewrite reader_names in KN.
        destruct (obj_sound l rs d' SL fs IH' slots out Q FI) as (ys & -> & O). exists l, ys. auto.
    - cbn [Json.read] in E. destruct (doc_of r d) as [x|] eqn:Q; [|discriminate]. injection E as <-. exists x. split; [|reflexivity]. eapply doc_of_sound; eassumption.
    - inversion S; subst; try discriminate. injection E as <-. split; reflexivity.
    - inversion S; subst; try discriminate. cbn [Json.read] in E. match goal with H : string_of _ = Some _ |- _ => rewrite H in E end.
      destruct s as [|c [|c' s]]; try discriminate. injection E as <-. exists c. auto.
    - apply sound_tuple in ST. assert (IH' : Forall sound_at ts) by (clear - IH ST; induction IH; inversion ST; subst; constructor; auto).
      inversion S as [| | | |l rs SL|]; subst; try discriminate. cbn [Json.read] in E. destruct (enter d) as [d'|]; [|discriminate].
      destruct (read_tuple _ rs) as [ys|] eqn:Q; [|discriminate]. injection E as <-. apply fits_tuple. exists l, ys. split; [reflexivity|]. split; [reflexivity|].
      exact (tuple_sound d' ts l rs SL IH' ys Q).
    - destruct (sound_enum vs ST) as [D SV]. rewrite read_enum in E. apply fits_enum. rewrite Forall_forall in IH.
      inversion S as [| | |s ps K| |l rs SL]; subst; try discriminate.
      + rewrite K in E. destruct (variant s vs) as [[t|]|] eqn:V; try discriminate. injection E as <-. left. exists s. split; [exact (variant_in _ _ _ V)|auto].
      + destruct SL as [|[k j] [ps x] l rs [K SX] SL]; [discriminate|]. destruct SL; [|discriminate]. cbn [fst snd] in *. rewrite K in E.
        destruct (enter d) as [d'|]; [|discriminate]. destruct (variant k vs) as [[t|]|] eqn:V; try discriminate; apply variant_in in V.
        * destruct (read t d' x) as [y|] eqn:R; [|discriminate]. injection E as <-. right. exists k, t, j, y. split; [exact V|]. split; [reflexivity|].
          split; [exact (IH _ V (SV _ _ V) _ _ _ _ SX R)|reflexivity].
        * destruct x; try discriminate. injection E as <-. inversion SX; subst. left. exists k. auto.
  Qed.

  Lemma obj_defined js l d : Forall2 entry_shape js l -> (forall m, In m js -> depth (snd m) < d) ->
    forall fs, Forall (fun f => defined_at (snd f)) fs -> forall ys, obj_fits js fs ys ->
    exists slots out,
      after (map (reader_of d) fs) (combine (map fst js) (map snd l)) (map (fun _ => None) fs) = Some slots /\
      finish (map (reader_of d) fs) slots = Some out.
  Proof.
    intros SJ LE fs IH. induction IH as [|[[n df] t] fs HF HFS IHF]; intros ys O.
    - exists [], []. split; reflexivity.
    - destruct ys as [|y ys]; [destruct O|]. destruct O as [OF O]. destruct (IHF ys O) as (ss & out & AS & FI).
      cbn [map after r_name reader_of]. pose proof (named_shape n js l SJ) as SN.
      destruct OF as [(x & NX & FX)|(NX & M)]; rewrite NX in SN.
      + inversion SN as [|? r ? ? SX SN']; inversion SN'; subst.
        assert (IX : In x (map snd js)).
        { assert (I : In x (members_named n js)) by (rewrite NX; left; reflexivity). unfold members_named in I.
          apply in_map_iff in I. destruct I as (m & <- & I). apply filter_In in I. apply in_map. apply I. }
        apply in_map_iff in IX. destruct IX as (m & <- & IX).
        destruct (HF _ _ d _ SX (LE m IX) FX) as (y' & RD); cbn [snd] in RD.
        exists (Some y' :: ss), ((n, y') :: out). cbn [run step]. unfold step. cbn [r_read]. rewrite RD. cbn [option_map]. rewrite AS. split; [reflexivity|].
        cbn [finish reader_of r_name]. rewrite FI. reflexivity.
      + inversion SN; subst. exists (None :: ss), ((n, y) :: out). cbn [run]. rewrite AS. split; [reflexivity|].
        cbn [finish reader_of r_name r_missing]. rewrite (proj2 (missing_iff df t y) M), FI. reflexivity.
  Qed.

  Lemma seq_defined d : forall fs js l, Forall2 shape js l -> (forall j, In j js -> depth j < d) ->
    Forall (fun f => defined_at (snd f)) fs -> forall ys, seq_fits fs js ys -> exists out, read_seq (map (reader_of d) fs) l = Some out.
  Proof.
    induction fs as [|[[n df] t] fs IHF]; intros js l S LE IH ys O.
    - destruct S; [exists []; reflexivity|destruct ys; destruct O].
    - inversion IH as [|? ? HF HFS]; subst. destruct S as [|x r xs rs SX S]; (destruct ys as [|y ys]; [destruct O|]); destruct O as [E O]; cbn [map read_seq].
      + subst df. cbn [reader_of r_default r_name]. destruct (IHF [] [] (Forall2_nil _) LE HFS ys O) as (out & Q). rewrite Q. eexists. reflexivity.
      + cbn [reader_of r_read r_name]. destruct (HF _ _ d _ SX (LE x (or_introl eq_refl)) E) as (y' & RD); cbn [snd] in RD. rewrite RD.
        destruct (IHF xs rs S ltac:(intros; apply LE; right; assumption) HFS ys O) as (out & Q). rewrite Q. eexists. reflexivity.
  Qed.

  Lemma read_defined t : sound_type t -> defined_at t.
  Proof.
    induction t as [|i| | |t IH|t IH|t IH|deny fs IH| | | |ts IH|vs IH] using jty_ind'; intros ST j r d v S L E.
    - destruct E as (b & -> & _). inversion S; subst. eexists. reflexivity.
    - destruct E as (neg & n & tl & z & -> & D & B & _). inversion S; subst. cbn [Json.read]. apply number_denotes in D. rewrite D.
      rewrite (proj2 (Z.leb_le _ _) (proj1 B)), (proj2 (Z.leb_le _ _) (proj2 B)). eexists. reflexivity.
    - destruct E as (neg & n & tl & -> & [(f & D & _)|(z & D & _)]); inversion S; subst; cbn [Json.read]; apply number_denotes in D; rewrite D; eexists; reflexivity.
    - destruct E as (s & -> & _). inversion S; subst. cbn [Json.read]. match goal with H : string_of _ = Some _ |- _ => rewrite H end. eexists. reflexivity.
    - destruct E as [(-> & _)|(N & y & FY & _)].
      + inversion S; subst. eexists. reflexivity.
      + destruct (IH ST _ _ d _ S L FY) as (y' & R). exists (JVOpt (Some y')). cbn [Json.read]. rewrite R. destruct r; try reflexivity. inversion S; subst. destruct (N eq_refl).
    - destruct E as (l & ys & -> & A & _). inversion S as [| | | |l' rs SL|]; subst. cbn [Json.read]. rewrite enter_ok by (cbn [depth] in L; lia).
      assert (LE : forall j, In j l -> depth j < pred d) by (intros j I; pose proof (depth_elem l j I); lia).
      assert (B : exists zs, Forall2 (fun x y => read t (pred d) x = Some y) rs zs).
      { clear S L. revert ys A LE. induction SL as [|x r xs rs SX SL IHL]; intros ys A LE; [exists []; constructor|]. inversion A; subst.
        destruct (IH ST _ _ (pred d) _ SX (LE x (or_introl eq_refl)) ltac:(eassumption)) as (z & Z).
        destruct (IHL _ ltac:(eassumption) ltac:(intros; apply LE; right; assumption)) as (zs & ZS). exists (z :: zs). constructor; assumption. }
      destruct B as (zs & B). apply all_read_some in B. rewrite B. eexists. reflexivity.
    - destruct E as (l & ys & m & -> & A & _). inversion S as [| | | | |l' rs SL]; subst. cbn [Json.read]. rewrite enter_ok by (cbn [depth] in L; lia).
      assert (LE : forall j, In j l -> depth (snd j) < pred d) by (intros j I; pose proof (depth_member l j I); lia).
      assert (B : exists zs, Forall2 (fun p y => read t (pred d) (snd p) = Some y) rs zs).
      { clear S L. revert ys A LE. induction SL as [|x r xs rs [_ SX] SL IHL]; intros ys A LE; [exists []; constructor|]. cbn [map] in A. inversion A; subst.
        destruct (IH ST _ _ (pred d) _ SX (LE x (or_introl eq_refl)) ltac:(eassumption)) as (z & Z).
        destruct (IHL _ ltac:(eassumption) ltac:(intros; apply LE; right; assumption)) as (zs & ZS). exists (z :: zs). constructor; assumption. }
      destruct B as (zs & B).
      assert (RM : read_map (read t (pred d)) rs [] = Some (insert_all (combine (map fst l) zs) [])).
      { apply read_map_some. exists (map fst l), zs. split; [apply keys_read; exact SL|]. split; [exact B|reflexivity]. }
      rewrite RM. eexists. reflexivity.
    - destruct (sound_fields deny fs ST) as [D SF]. rewrite read_struct.
      assert (IH' : Forall (fun f => defined_at (snd f)) fs).
      { clear - IH SF. induction IH as [|f fs H _ IHF]; inversion SF; subst; constructor; auto. }
      apply fits_struct in E. destruct E as [(l & ys & -> & _ & KN & O)|(l & ys & -> & _ & O)]; inversion S as [| | | |l' rs SL|l' rs SL]; subst; rewrite enter_ok by (cbn [depth] in L; lia).
      + assert (LE : forall j, In j l -> depth (snd j) < pred d) by (intros j I; pose proof (depth_member l j I); lia).
        destruct (obj_defined l rs (pred d) SL LE fs IH' ys O) as (slots & out & A & FI).
        assert (KN' : known deny (map (reader_of (pred d)) fs) (map fst l)) by (unfold known; rewrite reader_names; exact KN).
        rewrite (set_fields_after deny (map (reader_of (pred d)) fs) ltac:(rewrite reader_names; exact D) rs (map fst l) _ (keys_read _ _ SL) KN'), A, FI.
        eexists. reflexivity.
      + assert (LE : forall j, In j l -> depth j < pred d) by (intros j I; pose proof (depth_elem l j I); lia).
        destruct (seq_defined (pred d) fs l rs SL LE IH' ys O) as (out & Q). rewrite Q. eexists. reflexivity.
    - destruct E as (x & DF & _). cbn [Json.read]. destruct (doc_of_defined float_lit zero_float j r d x S L DF) as (y & Y). rewrite Y. eexists. reflexivity.
    - destruct E as [-> _]. inversion S; subst. eexists. reflexivity.
    - destruct E as (c & -> & _). inversion S; subst. cbn [Json.read]. match goal with H : string_of _ = Some _ |- _ => rewrite H end. eexists. reflexivity.
    - apply sound_tuple in ST. assert (IH' : Forall defined_at ts) by (clear - IH ST; induction IH; inversion ST; subst; constructor; auto).
      apply fits_tuple in E. destruct E as (l & ys & -> & _ & O). inversion S as [| | | |l' rs SL|]; subst. cbn [Json.read]. rewrite enter_ok by (cbn [depth] in L; lia).
      assert (LE : forall j, In j l -> depth j < pred d) by (intros j I; pose proof (depth_elem l j I); lia).
      destruct (tuple_defined (pred d) ts l rs SL LE IH' ys O) as (zs & Q). rewrite Q. eexists. reflexivity.
    - destruct (sound_enum vs ST) as [D SV]. rewrite read_enum. apply fits_enum in E. rewrite Forall_forall in IH.
      destruct E as [(n & I & [->| ->] & _)|(n & t & x & y & I & -> & FX & _)].
      + inversion S as [| | |s ps K| |]; subst. rewrite K, (variant_unique _ _ _ D I). eexists. reflexivity.
      + inversion S as [| | | | |l rs SL]; subst. inversion SL as [|? [ps r] ? ? [K SX] SL']; subst. inversion SL'; subst. cbn [fst snd] in *.
        rewrite enter_ok by (cbn [depth] in L; lia). rewrite K, (variant_unique _ _ _ D I). inversion SX; subst. eexists. reflexivity.
      + inversion S as [| | | | |l rs SL]; subst. inversion SL as [|? [ps r] ? ? [K SX] SL']; subst. inversion SL'; subst. cbn [fst snd] in *.
        rewrite enter_ok by (cbn [depth] in L; lia). rewrite K, (variant_unique _ _ _ D I).
        destruct (IH _ I (SV _ _ I) _ _ (pred d) _ SX ltac:(cbn [depth fold_right snd] in L; lia) FX) as (z & Z). rewrite Z. eexists. reflexivity.
  Qed.

  Lemma read_strict t : skips_nothing t -> forall r d v, read t d r = Some v -> strict r.
  Proof.
    induction t as [|i| | |t IH|t IH|t IH|deny fs IH| | | |ts IH|vs IH] using jty_ind'; intros SK r d v E; try (cbn [Json.read skips_nothing] in * ).
    8: change (read (JTStruct deny fs) d r = Some v) in E. 8: change (skips_nothing (JTStruct deny fs)) in SK.
    13: change (read (JTEnum vs) d r = Some v) in E. 13: change (@skips_nothing F (JTEnum vs)) in SK.
    12: change (@skips_nothing F (JTTuple ts)) in SK.
    - destruct r; try discriminate. constructor.
    - destruct r; try discriminate. constructor.
    - destruct r; try discriminate. constructor.
    - destruct r; try discriminate. constructor. destruct (string_of ps); discriminate.
    - destruct r eqn:R; [constructor|..]; rewrite <- R in *; (destruct (read t d r) as [y|] eqn:Q; [exact (IH SK _ _ _ Q)|discriminate]).
    - destruct r; try discriminate. destruct (enter d) as [d'|]; [|discriminate]. destruct (all_read _ l) as [ys|] eqn:A; [|discriminate]. apply all_read_some in A.
      constructor. clear E. induction A; constructor; [eapply (IH SK); eassumption|assumption].
    - destruct r; try discriminate. destruct (enter d) as [d'|]; [|discriminate]. destruct (read_map _ l []) as [ys|] eqn:A; [|discriminate]. apply read_map_some in A.
      destruct A as (ks & zs & K & Y & _). constructor. clear E. revert ks K. induction Y as [|p y l zs RD Y IHY]; intros ks K; inversion K; subst; constructor.
      + split; [congruence|eapply (IH SK); eassumption].
      + eapply IHY. eassumption.
    - destruct (strict_fields deny fs SK) as [-> SF]. rewrite read_struct in E. destruct (enter d) as [d'|]; [|discriminate].
      assert (R : forall f x y, In f (map (reader_of d') fs) -> r_read f x = Some y -> strict x).
      { clear - IH SF. intros f x y I R. apply in_map_iff in I. destruct I as ([[n df] t] & <- & I). cbn [reader_of r_read] in R.
        rewrite Forall_forall in IH, SF. exact (IH _ I (SF _ I) _ _ _ R). }
      destruct r; try discriminate; constructor.
      + destruct (read_seq _ l) as [out|] eqn:Q; [|discriminate]. eapply Forall_impl; [|exact (read_seq_reads _ _ _ Q)]. intros x (f & y & I & RD). exact (R f x y I RD).
      + destruct (set_fields true l _ _) as [slots|] eqn:Q; [|discriminate]. eapply Forall_impl; [|eapply set_fields_reads; [|exact Q]; rewrite !map_length; reflexivity].
        intros p (K & f & y & I & RD). split; [exact K|exact (R f (snd p) y I RD)].
    - destruct (doc_of r d) as [x|] eqn:Q; [|discriminate]. eapply doc_of_strict. exact Q.
    - destruct r; try discriminate. constructor.
    - destruct r; try discriminate. constructor. destruct (string_of ps); discriminate.
    - apply strict_tuple in SK. destruct r; try discriminate. destruct (enter d) as [d'|]; [|discriminate]. constructor.
      destruct (read_tuple _ l) as [ys|] eqn:Q; [|discriminate]. clear E. revert l ys Q.
      induction IH as [|t ts HT _ IHT]; intros [|x l] ys Q; try discriminate; [constructor|]. inversion SK; subst. cbn [map read_tuple] in Q.
      destruct (read t d' x) as [y|] eqn:R; [|discriminate]. destruct (read_tuple _ l) as [zs|] eqn:Q'; [|discriminate]. constructor; [eapply HT; eassumption|eapply IHT; eassumption].
    - rewrite read_enum in E. rewrite Forall_forall in IH. destruct r as [| | |ps|l|[|[ps x] [|q l]]]; try discriminate.
      + constructor. destruct (string_of ps); discriminate.
      + destruct (enter d) as [d'|]; [|discriminate]. destruct (string_of ps) as [k|] eqn:K; [|discriminate].
        constructor. constructor; [|constructor]. cbn [fst snd]. split; [rewrite K; discriminate|].
        destruct (variant k vs) as [[t|]|] eqn:V; try discriminate; apply variant_in in V.
        * destruct (read t d' x) as [y|] eqn:R; [|discriminate]. exact (IH _ V (strict_enum vs SK _ _ V) _ _ _ R).
        * destruct x; try discriminate. constructor.
  Qed.

  (** What is read and skips nothing is not too deep. *)
  Lemma below_arr l d : 0 < d -> (forall j, In j l -> depth j < d) -> depth (JArr l) < S d.
  Proof.
    intros P H. cbn [depth]. assert (M : fold_right (fun x => Nat.max (depth x)) 0 l < d); [|lia].
    induction l as [|x l IH]; cbn [fold_right]; [exact P|]. pose proof (H x (or_introl eq_refl)). specialize (IH ltac:(intros; apply H; right; assumption)). lia.
  Qed.
  Lemma below_obj l d : 0 < d -> (forall m, In m l -> depth (snd m) < d) -> depth (JObj l) < S d.
  Proof.
    intros P H. cbn [depth]. assert (M : fold_right (fun x => Nat.max (depth (snd x))) 0 l < d); [|lia].
    induction l as [|x l IH]; cbn [fold_right]; [exact P|]. pose proof (H x (or_introl eq_refl)). specialize (IH ltac:(intros; apply H; right; assumption)). lia.
  Qed.

  Lemma shape_left {A B} (R : A -> B -> Prop) js l : Forall2 R js l -> forall (P : B -> Prop), Forall P l -> forall j, In j js -> exists r, R j r /\ P r.
  Proof.
    induction 1 as [|j r js l SX _ IH]; intros P Q k I; [destruct I|]. inversion Q; subst. destruct I as [<-|I]; [exists r; auto|]. exact (IH P ltac:(assumption) k I).
  Qed.

  Lemma read_depth t : skips_nothing t -> forall j r d v, shape j r -> 0 < d -> read t d r = Some v -> depth j < d.
  Proof.
    induction t as [|i| | |t IH|t IH|t IH|deny fs IH| | | |ts IH|vs IH] using jty_ind'; intros SK j r d v S P E.
    - inversion S; subst; try discriminate. exact P.
    - inversion S; subst; try discriminate. exact P.
    - inversion S; subst; try discriminate. exact P.
    - inversion S; subst; try discriminate. exact P.
    - assert (C : j = JNull \/ j <> JNull) by (destruct j; auto; right; discriminate). destruct C as [->|N]; [exact P|].
      assert (E' : option_map (fun y => JVOpt (Some y)) (read t d r) = Some v) by (inversion S; subst; congruence || exact E).
      destruct (read t d r) as [y|] eqn:R; [|discriminate]. exact (IH SK _ _ _ _ S P R).
    - inversion S as [| | | |l rs SL|]; subst; try discriminate. cbn [Json.read] in E. destruct (enter d) as [d'|] eqn:EN; [|discriminate]. destruct (enter_some _ _ EN) as [-> P'].
      destruct (all_read _ rs) as [ys|] eqn:A; [|discriminate]. apply all_read_some in A. apply below_arr; [exact P'|]. intros j I.
      assert (Q : Forall (fun r => exists y, read t d' r = Some y) rs) by (clear - A; induction A; constructor; eauto).
      destruct (shape_left _ _ _ SL _ Q j I) as (r & SX & y & R). exact (IH SK _ _ _ _ SX P' R).
    - inversion S as [| | | | |l rs SL]; subst; try discriminate. cbn [Json.read] in E. destruct (enter d) as [d'|] eqn:EN; [|discriminate]. destruct (enter_some _ _ EN) as [-> P'].
      destruct (read_map _ rs []) as [m|] eqn:A; [|discriminate]. apply read_map_some in A. destruct A as (ks & ys & _ & A & _). apply below_obj; [exact P'|]. intros j I.
      assert (Q : Forall (fun p => exists y, read t d' (snd p) = Some y) rs) by (clear - A; induction A; constructor; eauto).
      destruct (shape_left _ _ _ SL _ Q j I) as (r & [_ SX] & y & R). exact (IH SK _ _ _ _ SX P' R).
    - destruct (strict_fields deny fs SK) as [-> SF]. rewrite read_struct in E. destruct (enter d) as [d'|] eqn:EN; [|discriminate]. destruct (enter_some _ _ EN) as [-> P'].
      assert (R : forall f j x y, In f (map (reader_of d') fs) -> shape j x -> r_read f x = Some y -> depth j < d').
      { clear - IH SF P'. intros f j x y I SX R. apply in_map_iff in I. destruct I as ([[n df] t] & <- & I). cbn [reader_of r_read] in R.
        rewrite Forall_forall in IH, SF. exact (IH _ I (SF _ I) _ _ _ _ SX P' R). }
      inversion S as [| | | |l rs SL|l rs SL]; subst; try discriminate.
      + destruct (read_seq _ rs) as [out|] eqn:Q; [|discriminate]. apply below_arr; [exact P'|]. intros j I.
        destruct (shape_left _ _ _ SL _ (read_seq_reads _ _ _ Q) j I) as (r & SX & f & y & IF & RD). exact (R f j r y IF SX RD).
      + destruct (set_fields true rs _ _) as [slots|] eqn:Q; [|discriminate]. apply below_obj; [exact P'|]. intros j I.
        assert (LN : length (map (fun _ => @None jval) fs) = length (map (reader_of d') fs)) by (rewrite !map_length; reflexivity).
        destruct (shape_left _ _ _ SL _ (set_fields_reads _ _ _ _ LN Q) j I) as (r & [_ SX] & _ & f & y & IF & RD). exact (R f (snd j) (snd r) y IF SX RD).
    - cbn [Json.read] in E. destruct (doc_of r d) as [x|] eqn:Q; [|discriminate]. exact (doc_of_depth _ _ j r d x S P Q).
    - inversion S; subst; try discriminate. exact P.
    - inversion S; subst; try discriminate. exact P.
    - apply strict_tuple in SK. inversion S as [| | | |l rs SL|]; subst; try discriminate. cbn [Json.read] in E. destruct (enter d) as [d'|] eqn:EN; [|discriminate].
      destruct (enter_some _ _ EN) as [-> P']. destruct (read_tuple _ rs) as [ys|] eqn:Q; [|discriminate]. apply below_arr; [exact P'|]. clear S E v. revert l rs ys SL Q.
      induction IH as [|t ts HT _ IHT]; intros l rs ys SL Q j I; destruct SL as [|x r l rs SX SL]; try discriminate; [destruct I|]. inversion SK; subst. cbn [map read_tuple] in Q.
      destruct (read t d' r) as [y|] eqn:R; [|discriminate]. destruct (read_tuple _ rs) as [zs|] eqn:Q'; [|discriminate].
      destruct I as [<-|I]; [eapply HT; eassumption|eapply IHT; eassumption].
    - rewrite read_enum in E. rewrite Forall_forall in IH. inversion S as [| | |s ps K| |l rs SL]; subst; try discriminate; [exact P|].
      destruct SL as [|[k j] [ps x] l rs [K SX] SL]; [discriminate|]. destruct SL; [|discriminate]. cbn [fst snd] in *. rewrite K in E.
      destruct (enter d) as [d'|] eqn:EN; [|discriminate]. destruct (enter_some _ _ EN) as [-> P']. apply below_obj; [exact P'|]. intros m [<-|[]]. cbn [snd].
      destruct (variant k vs) as [[t|]|] eqn:V; try discriminate; apply variant_in in V.
      + destruct (read t d' x) as [y|] eqn:R; [|discriminate]. exact (IH _ V (strict_enum vs SK _ _ V) _ _ _ _ SX P' R).
      + destruct x; try discriminate. inversion SX; subst. exact P'.
  Qed.
End Reading.
