(** The reflective codec on truncated input and failing writers. *)
From Verif Require Import Base Prog AbiPrim BaseProofs SpecWire ProgProofs AbiPrimProofs Chain SpecChain ChainProofs
  Values Leaf SpecLeaf LeafProofs Reflect SpecReflect ReflectProofs SpecStrict.

(** ** Tags met from a type standing anywhere *)
Definition tags_from (good : tag -> Prop) (E : types) (a : place * gtype) : Prop :=
  forall pl t' fs tg vis u, within E a (pl, t') -> head E t' = TStruct fs -> In (tg, vis, u) fs -> good tg.
Lemma tags_part good E a b : tags_from good E a -> part E a b -> tags_from good E b.
Proof. intros H P pl t' fs tg vis u W. apply (H pl). eapply wi_part; eauto. Qed.
Lemma tags_leaf good E pl k : tags_from good E (pl, TLeaf k).
Proof.
  intros pl' t' fs tg vis u W H. inversion W as [a|a b c P W']; subst; [discriminate|].
  exfalso. inversion P; subst; discriminate.
Qed.

Definition methods_from (good : nat -> gtype -> Prop) (E : types) (a : place * gtype) : Prop :=
  forall pl t' i u, within E a (pl, t') -> head E t' = TUser i u -> good i u.
Lemma methods_part good E a b : methods_from good E a -> part E a b -> methods_from good E b.
Proof. intros H P pl t' i u W. apply (H pl). eapply wi_part; eauto. Qed.
Lemma methods_leaf good E pl k : methods_from good E (pl, TLeaf k).
Proof.
  intros pl' t' i u W H. inversion W as [a|a b c P W']; subst; [discriminate|].
  exfalso. inversion P; subst; discriminate.
Qed.

(** ** Truncated input *)
Ltac ends := try match goal with |- IoStrict (DRet _) => constructor | |- Strict _ (DRet _) => constructor end.
Lemma wrap_strict {A B} (c : A -> B) p : IoStrict p -> IoStrict (wrap c p).
Proof.
  intros H. apply strict_bind_err; [exact H|constructor|constructor|auto].
Qed.
Lemma read_prim_strict p : IoStrict (read_prim p).
Proof.
  destruct p; cbn [read_prim]; apply wrap_strict;
    first [ apply ReadBool_strict | apply ReadString_strict | apply ReadUint8_strict | apply ReadUint16_strict
      | apply ReadUint32_strict | apply ReadUint64_strict | apply ReadInt8_strict | apply ReadInt16_strict
      | apply ReadInt32_strict | apply ReadInt64_strict | apply ReadFloat32_strict | apply ReadFloat64_strict
      | apply ReadVarint_strict | apply ReadVaruint_strict | apply DecodeByteSlice_strict | apply Uint128_strict
      | apply Checksum_strict | apply Asset_strict | apply ExtendedAsset_strict | apply Bytes_strict
      | apply PublicKey_strict | apply Signature_strict | apply Action_strict | apply PL_strict
      | apply Transaction_strict | apply Ext_strict | apply Header_strict | apply Name_strict
      | apply strict_keep; first [apply ReadUint64_strict|apply ReadUint32_strict|apply ReadInt64_strict] | idtac ].
Qed.
Lemma leaf_read_strict p : IoStrict (leaf_read p).
Proof. apply strict_bind_err; [apply read_prim_strict|constructor|constructor|auto]. Qed.
Lemma through_strict E f t v : (forall t' x, head E t = TPtr t' -> IoStrict (f t' x)) -> IoStrict (f t v) ->
  IoStrict (through E f t v).
Proof.
  intros H1 H2. unfold through. destruct (head E t) eqn:H; try exact H2. destruct v; try exact H2.
  apply strict_bind_err; [now apply H1|constructor|constructor|auto].
Qed.
Lemma get_elems_strict f l : (forall x, IoStrict (f x)) -> IoStrict (get_elems f l).
Proof.
  intros H. induction l as [|x l IH]; cbn [get_elems]; [constructor|].
  apply strict_bind_err; [apply H| |constructor|auto].
  intros a. apply strict_bind_err; [exact IH|constructor|constructor|auto].
Qed.
Lemma get_slice_strict size z f old : (forall x, IoStrict (f x)) -> IoStrict (get_slice size z f old).
Proof.
  intros H. apply strict_bind_err; [apply ReadVaruint_strict| |constructor|auto].
  intros l. destruct (_ =? _).
  - destruct old; [|constructor]. apply strict_bind_err; [now apply get_elems_strict|constructor|constructor|auto].
  - destruct (make_ok _ _); [|constructor].
    apply strict_bind_err; [now apply get_elems_strict|constructor|constructor|auto].
Qed.
Lemma get_pairs_strict fk fv n : IoStrict fk -> IoStrict fv -> forall m, IoStrict (get_pairs fk fv n m).
Proof.
  intros Hk Hv. induction n as [|n IH]; intros m; cbn [get_pairs]; [constructor|].
  apply strict_bind_err; [exact Hk| |constructor|auto].
  intros k. apply strict_bind_err; [exact Hv| |constructor|auto].
  intros x. apply IH.
Qed.
Lemma get_map_strict fk fv old : IoStrict fk -> IoStrict fv -> IoStrict (get_map fk fv old).
Proof.
  intros Hk Hv. apply strict_bind_err; [apply ReadVaruint_strict| |constructor|auto].
  intros l. apply strict_bind_err; [now apply get_pairs_strict|constructor|constructor|auto].
Qed.
Lemma get_field_strict E f g tg vis t v : tg <> Extension ->
  (forall u x, u = t \/ head E t = TPtr u -> IoStrict (f u x) /\ IoStrict (g u x)) ->
  IoStrict (get_field E f g (tg, vis, t) v).
Proof.
  intros N H.
  assert (F : IoStrict (through E f t v)) by (apply through_strict; intros; apply H; auto).
  assert (G : IoStrict (through E g t v)) by (apply through_strict; intros; apply H; auto).
  unfold get_field. destruct vis; try constructor. destruct tg; [exact F| |now elim N|exact G].
  apply strict_bind_err; [apply ReadBool_strict| |constructor|auto].
  intros b. destruct b; [exact F|constructor].
Qed.
Lemma get_fields_strict E f g fs : Forall (fun '(tg, vis, t) => forall v, IoStrict (get_field E f g (tg, vis, t) v)) fs ->
  forall l, IoStrict (get_fields E f g fs l).
Proof.
  induction 1 as [|[[tg vis] t] fs H _ IH]; intros l; [constructor|]. destruct l as [|v l]; [constructor|].
  cbn [get_fields]. apply strict_bind_err; [apply H| |constructor|auto].
  intros a. apply strict_bind_err; [apply IH|constructor|constructor|auto].
Qed.
Lemma get_alternative_strict E f i fs l :
  (forall tg vis t u x, In (tg, vis, t) fs -> head E t = TPtr u -> IoStrict (f u x)) -> IoStrict (get_alternative E f i fs l).
Proof.
  intros H. unfold get_alternative. destruct (zlen fs <=? i); [constructor|].
  destruct (clear_others _ _ _ _) as [l'|]; [|constructor].
  destruct (nth_error fs (Z.to_nat i)) as [[[tg vis] t]|] eqn:N; [|constructor].
  apply nth_error_In in N. destruct (head E t) eqn:Ht; try constructor.
  apply strict_bind_err; [eapply H; eauto| |constructor|auto].
  intros x. destruct vis; constructor.
Qed.
Lemma decode_strict E : forall fuel pl m t old, tags_from (fun tg => tg <> Extension) E (pl, t) ->
  methods_from (fun i _ => forall old, IoStrict (unmarshals E i old)) E (pl, t) ->
  IoStrict (decode fuel E chain_decoder m t old).
Proof.
  induction fuel as [|fuel IH]; intros pl m t old NE ME; [constructor|].
  assert (SUB : forall pl' t' m' v, part E (pl, t) (pl', t') -> IoStrict (decode fuel E chain_decoder m' t' v)).
  { intros pl' t' m' v P. eapply IH; [eapply tags_part|eapply methods_part]; eauto. }
  assert (SUB2 : forall pl' t' t'' m' v, part E (pl, t) (pl', t') -> head E t' = TPtr t'' ->
      IoStrict (decode fuel E chain_decoder m' t'' v)).
  { intros pl' t' t'' m' v P H. eapply (IH (beneath pl')); [eapply tags_part; [eapply tags_part; eauto|now constructor]|].
    eapply methods_part; [eapply methods_part; eauto|now constructor]. }
  assert (SELF : forall m' v, IoStrict (decode fuel E chain_decoder m' t v)) by (intros; eapply IH; eauto).
  cbn [decode]. destruct m.
  - eapply (strict_bind (fun r => snd (snd r) <> None)).
    + unfold chain_decoder. destruct (head E t); ends. destruct old; ends.
      destruct (table_kind k); [|constructor].
      eapply strict_bind; [apply leaf_read_strict|intros [v e]; constructor|].
      intros [v [e|]] He; [|now elim He]. constructor. cbn. congruence.
    + intros [v [[] [e|]]]; ends.
      destruct (head E t); try apply SELF. destruct v; try apply SELF.
      destruct (go_kind k); [apply leaf_read_strict|apply SELF].
    + intros [v [b [e|]]] He; [|now elim He]. destruct b; constructor; unfold errs; cbn; congruence.
  - destruct (head E t) eqn:H; destruct old; ends.
    + destruct (go_kind k); [|apply leaf_read_strict].
      destruct p; ends;
        try (apply strict_bind_err; [apply leaf_read_strict|constructor|constructor|auto]).
      apply strict_bind_err; [|constructor|constructor|auto].
      apply get_slice_strict. intros x. apply (IH Slot); [apply tags_leaf|apply methods_leaf].
    + apply strict_bind_err; [|constructor|constructor|auto].
      apply strict_keep. destruct k; [apply ReadUint64_strict|apply ReadUint32_strict|apply ReadInt64_strict|apply ReadInt32_strict].
    + apply through_strict; [|apply SELF]. intros u x Hu. eapply SUB. econstructor. exact Hu.
    + apply strict_bind_err; [|constructor|constructor|auto].
      apply get_slice_strict. intros x. apply through_strict.
      * intros u y Hu. eapply SUB2; [eapply pt_slice, H|exact Hu].
      * eapply SUB, pt_slice, H.
    + apply strict_bind_err; [|constructor|constructor|auto].
      apply get_elems_strict. intros x. apply through_strict.
      * intros u y Hu. eapply SUB2; [eapply pt_array, H|exact Hu].
      * eapply SUB, pt_array, H.
    + apply strict_bind_err; [|constructor|constructor|auto].
      apply get_map_strict; eapply SUB; [eapply pt_key, H|eapply pt_value, H].
    + apply strict_bind_err; [|constructor|constructor|auto].
      apply get_fields_strict. apply Forall_forall. intros [[tg vis] u] I v. apply get_field_strict.
      * eapply NE; [apply wi_here|exact H|exact I].
      * assert (A : forall m' w x, w = u \/ head E u = TPtr w -> IoStrict (decode fuel E chain_decoder m' w x)).
        { intros m' w x [->|Hu]; [eapply SUB, pt_field; eauto|eapply SUB2; [eapply pt_field; eauto|exact Hu]]. }
        intros w x Hw. split; [now apply A|].
        apply strict_bind_err; [apply ReadByte_strict|intros i; now apply A|constructor|auto].
    + apply strict_bind_err; [eapply ME; [apply wi_here|exact H]|constructor|constructor|auto].
  - destruct (head E t) eqn:H; destruct old; ends.
    + destruct (go_kind k); [constructor|apply leaf_read_strict].
    + apply through_strict; [|apply SELF]. intros u x Hu. eapply SUB. econstructor. exact Hu.
    + apply strict_bind_err; [|constructor|constructor|auto].
      apply get_alternative_strict. intros tg vis u w x I Hu. eapply SUB2; [eapply pt_field; eauto|exact Hu].
    + apply strict_bind_err; [eapply ME; [apply wi_here|exact H]|constructor|constructor|auto].
Qed.
Lemma Decode_strict fuel E t old : no_extensions E t -> reads_checked E t -> IoStrict (Decode fuel E t old).
Proof. intros H M. apply (decode_strict E fuel Target); assumption. Qed.

(** ** Failing writers *)

Definition flags_only (q : wr) : Prop :=
  forall out full, runw q out = WDone None full -> exists tail, full = out ++ tail /\ Forall flag_byte tail.
(** Once a write has failed the program ends with an error, unless the write was a
    flag and it would only have written flags from there on. *)
Inductive WLossy : wr -> Prop :=
| WL_ret e : WLossy (ERet e)
| WL_panic m : WLossy (EPanic m)
| WL_fuel : WLossy EFuel
| WL_write bs k : WLossy (k None) ->
    (forall e, WFailing (k (Some e)))
    \/ (exists b, bs = [b] /\ flag_byte b) /\ (forall e, EFailing (fun _ => True) (k (Some e))) /\ flags_only (k None) ->
    WLossy (EWrite bs k).
Lemma wstrict_lossy p : WStrict p -> WLossy p.
Proof. intros H. induction H; constructor; auto. Qed.
(** Run with every write failing. *)
Definition Tail (q : wr) : Prop := WFailing q \/ EFailing (fun _ => True) q /\ flags_only q.
Lemma lossy_tail q out r full : WLossy q -> runw q out = WDone r full -> Tail q.
Proof.
  intros H R. destruct H as [e| | |bs k H [F|(B & F & O)]]; try discriminate R.
  - destruct e; [left; constructor; unfold werrs; congruence|right].
    split; [now constructor|]. intros o f E. cbn in E. injection E as <-. exists []. now rewrite app_nil_r.
  - left. now constructor.
  - right. split; [now constructor|]. intros o f E. cbn [runw] in E. apply O in E as (tail & -> & T).
    exists (bs ++ tail). rewrite app_assoc. split; [reflexivity|]. apply Forall_app. split; [|exact T].
    destruct B as (b & -> & B). now constructor.
Qed.
Lemma flags_etry p q : flags_only p -> flags_only q -> flags_only (etry p q).
Proof.
  intros P Q out full R. apply runw_etry_done in R as (mid & R1 & R2).
  apply P in R1 as (t1 & -> & T1). apply Q in R2 as (t2 & -> & T2). exists (t1 ++ t2).
  rewrite app_assoc. split; [reflexivity|]. now apply Forall_app.
Qed.
Lemma efail_etry p q : EFailing (fun _ => True) p -> EFailing (fun _ => True) q -> EFailing (fun _ => True) (etry p q).
Proof.
  intros P Q. eapply efailing_bind; [exact P|]. intros [e|] _; [now constructor|exact Q].
Qed.
Lemma wfail_etry p q : EFailing (fun _ => True) p -> WFailing q -> WFailing (etry p q).
Proof.
  intros P Q. eapply efailing_bind; [exact P|]. intros [e|] _; [constructor; unfold werrs; congruence|exact Q].
Qed.
Lemma lossy_etry p q out r full : WLossy p -> WLossy q -> runw q out = WDone r full -> WLossy (etry p q).
Proof.
  intros P Q R. pose proof (lossy_tail _ _ _ _ Q R) as T. unfold etry.
  induction P as [e| | |bs k P IH [F|(B & F & O)]]; cbn [ebind].
  - destruct e; [constructor|exact Q].
  - constructor.
  - constructor.
  - constructor; [exact IH|]. left. intros e. apply wfailing_etry, F.
  - constructor; [exact IH|]. destruct T as [T|[T1 T2]].
    + left. intros e. apply (wfail_etry (k (Some e))); [apply F|exact T].
    + right. split; [exact B|]. split; [intros e; now apply (efail_etry (k (Some e)))|].
      now apply (flags_etry (k None)).
Qed.
Lemma lossy_flag b q out r full : WLossy q -> runw q out = WDone r full -> WLossy (ebind (WriteBool b) (fun _ => q)).
Proof.
  intros Q R. pose proof (lossy_tail _ _ _ _ Q R) as T.
  assert (E : ebind (WriteBool b) (fun _ => q) = EWrite [if b then x01 else x00] (fun _ => q)) by now destruct b.
  rewrite E. constructor; [exact Q|]. destruct T as [T|[T1 T2]]; [left; auto|right].
  split; [|auto]. eexists. split; [reflexivity|]. destruct b; [now right|now left].
Qed.

(** Which programs the encoder is made of, for any class closed under its steps. *)
Definition done (q : wr) : Prop := exists out full, runw q out = WDone None full.
Lemma Transaction_done_wstrict t : done (Transaction_MarshalABI t) -> WStrict (Transaction_MarshalABI t).
Proof.
  intros (out & full & H).
  apply runw_etry_done in H as [m1 [H0 H]].
  apply runw_etry_done in H as [m2 [H1 H]].
  pose proof (write_all_in _ _ _ _ _ H) as A1.
  apply (write_all_done _ (fun _ => True)) in H as [_ [m3 H]]; [|auto].
  apply runw_etry_done in H as [m4 [H2 H]].
  pose proof (write_all_in _ _ _ _ _ H) as A2.
  assert (G : forall l, (forall x, In x l -> exists o o', runw (Action_MarshalABI x) o = WDone None o') ->
    Forall (fun x => WStrict (Action_MarshalABI x)) l).
  { intros l Hl. apply Forall_forall. intros x I. destruct (Hl x I) as [o [o' R]].
    apply Action_wstrict. eapply Action_runw_short, R. }
  apply wstrict_etry; [apply Header_wstrict|].
  apply wstrict_etry; [apply wstrict_varuint|].
  apply write_all_wstrict; [apply G, A1|].
  apply wstrict_etry; [apply wstrict_varuint|].
  apply write_all_wstrict; [apply G, A2|].
  apply wstrict_etry; [apply wstrict_varuint|].
  apply write_all_wstrict; [|constructor].
  apply Forall_forall. intros e _. apply Ext_wstrict.
Qed.
Lemma write_prim_wstrict p : done (write_prim p) -> WStrict (write_prim p).
Proof.
  intros D. pose proof D as (out & full & R).
  destruct p; cbn [write_prim] in *;
    first [ apply wstrict_bool | apply wstrict_string | apply wstrict_byte | apply wstrict_bytes | apply wstrict_varuint
          | apply wstrict_varint | apply Bytes_wstrict | apply Asset_wstrict | apply PL_wstrict | apply Key_wstrict
          | apply Header_wstrict | apply Ext_wstrict | now apply Transaction_done_wstrict
          | apply Action_wstrict; eapply Action_runw_short, R
          | apply wstrict_etry; apply wstrict_bytes
          | apply wstrict_etry; [apply Asset_wstrict|apply wstrict_bytes] ].
Qed.
Lemma hooked_wstrict k p z rest : (table_kind k = true -> WStrict (write_prim p)) -> WStrict rest ->
  WStrict (hooked chain_encoder (TLeaf k) (RLeaf p z) rest).
Proof.
  intros H R. unfold hooked. eapply (estrict_bind (fun r => snd r <> None)).
  - cbn [chain_encoder]. destruct (table_kind k); [|constructor].
    eapply estrict_bind; [now apply H|constructor|]. intros e He. constructor. exact He.
  - intros [[] [e|]]; try constructor. exact R.
  - intros [b [e|]] He; [|now elim He]. destruct b; constructor; unfold werrs; congruence.
Qed.
Lemma Encode_leaf_wstrict E t k p z : head E t = TLeaf k -> kind_of p = k -> done (Encode E t (RLeaf p z)) ->
  WStrict (Encode E t (RLeaf p z)).
Proof.
  intros H K (out & full & R). rewrite (Encode_leaf _ _ _ _ _ H K) in R.
  assert (W : WStrict (write_prim p)) by (apply write_prim_wstrict; now exists out, full).
  unfold Encode. cbn [encode]. rewrite H. apply hooked_wstrict; [auto|].
  destruct p; try exact W. cbn [encode_leaf].
  apply wstrict_etry; (apply hooked_wstrict; [intros _|]); first [apply Asset_wstrict|apply wstrict_bytes].
Qed.
Lemma marshal_wstrict p : done (marshal p) -> WStrict (marshal p).
Proof.
  destruct p; try exact (write_prim_wstrict _). intros _. apply ExtendedAsset_wstrict.
Qed.
Lemma done_etry p q : done (etry p q) -> done p /\ done q.
Proof. intros (o & f & R). apply runw_etry_done in R as (m & R1 & R2). split; [now exists o, m|now exists m, f]. Qed.
Lemma done_flag b q : done (ebind (WriteBool b) (fun _ => q)) -> done q.
Proof. intros (o & f & R). destruct b; cbn in R; eexists; eauto. Qed.

Definition writes_from (good : tag -> Prop) (E : types) (a : place * gtype) : Prop :=
  tags_from good E a /\ methods_from (fun i _ => forall v, WStrict (marshals E i v)) E a.
Lemma writes_part good E a b : writes_from good E a -> part E a b -> writes_from good E b.
Proof. intros [T M] P. split; [eapply tags_part|eapply methods_part]; eauto. Qed.
Lemma encode_class (K : wr -> Prop) (good : tag -> Prop) E :
  (forall p, WStrict p -> K p) ->
  (forall p q, K p -> K q -> done q -> K (etry p q)) ->
  (forall b q, good Optional -> K q -> done q -> K (ebind (WriteBool b) (fun _ => q))) ->
  (forall t v, has_type E any_leaf t v -> forall pl, writes_from good E (pl, t) -> done (Encode E t v) -> K (Encode E t v))
  /\ (forall t l, have_type E any_leaf t l -> forall pl, writes_from good E (pl, t) ->
        done (put_list (Encode E t) l) -> K (put_list (Encode E t) l))
  /\ (forall kt vt m, have_pair_type E any_leaf kt vt m -> forall pl pl', writes_from good E (pl, kt) ->
        writes_from good E (pl', vt) -> done (put_pairs (Encode E kt) (Encode E vt) m) ->
        K (put_pairs (Encode E kt) (Encode E vt) m))
  /\ (forall fs l, have_field_types E any_leaf fs l ->
        (forall tg vis t, In (tg, vis, t) fs -> good tg /\ exists pl, writes_from good E (pl, t)) ->
        done (put_fields E chain_encoder fs l) -> K (put_fields E chain_encoder fs l)).
Proof.
  intros HS HT HF.
  assert (N : forall e, K (ERet e)) by (intros; apply HS; constructor).
  apply has_type_all.
  - intros t k p z H Kp Z T pl G D. apply HS. eapply Encode_leaf_wstrict; eauto.
  - intros t k v H R pl G D. apply HS. rewrite (Encode_int _ _ _ _ H).
    destruct k; apply wstrict_bytes.
  - intros t z H pl G D. unfold Encode. cbn [encode]. rewrite H. apply N.
  - intros t t' H pl G (o & f & D). now elim (Encode_nil _ _ _ H o f).
  - intros t t' v H V IH pl G D. pose proof (has_type_leaf_shaped _ _ _ _ V) as S.
    assert (D' : done (Encode E t' v)).
    { destruct D as (o & f & D). rewrite (Encode_ptr _ _ _ _ H S) in D. now exists o, f. }
    unfold Encode in *. cbn [encode] in *. rewrite H in *. unfold hooked in *. cbn [chain_encoder ebind] in *.
    assert (I : K (encode E chain_encoder t' v)).
    { eapply IH; [|exact D']. eapply writes_part; [exact G|now constructor]. }
    destruct (head E t') eqn:H'; try exact I; [destruct (go_kind k); [exact I|]|].
    { destruct (proj1 S k H') as (p & z & -> & Kp). apply HS. now apply marshal_wstrict. }
    destruct (proj2 S _ _ H') as (x & ->). apply HS. destruct G as [_ G].
    eapply (G (beneath pl)); [eapply wi_part; [apply (pt_ptr E pl t t' H)|apply wi_here]|exact H'].
  - intros t t' H pl G D. rewrite (Encode_slice _ _ _ _ H) in *. apply HT; [apply HS, wstrict_varuint|apply N|].
    now apply done_etry in D.
  - intros t t' l H V IH M pl G D. rewrite (Encode_slice _ _ _ _ H) in *. cbn [elems] in *.
    apply done_etry in D as [D1 D2]. apply HT; [apply HS, wstrict_varuint| |exact D2].
    eapply IH; [|exact D2]. eapply writes_part; [exact G|]. eapply pt_slice, H.
  - intros t t' n l H V IH L pl G D. rewrite (Encode_array _ _ _ _ _ H) in *.
    eapply IH; [|exact D]. eapply writes_part; [exact G|]. eapply pt_array, H.
  - intros t kt vt H pl G D. rewrite (Encode_map _ _ _ _ _ H) in *. apply HT; [apply HS, wstrict_varuint|apply N|].
    now apply done_etry in D.
  - intros t kt vt m H C V IH ND pl G D. rewrite (Encode_map _ _ _ _ _ H) in *. cbn [elems] in *.
    apply done_etry in D as [D1 D2]. apply HT; [apply HS, wstrict_varuint| |exact D2].
    eapply IH; [| |exact D2]; (eapply writes_part; [exact G|]); [eapply pt_key, H|eapply pt_value, H].
  - intros t fs l H V IH pl G D. rewrite (Encode_struct _ _ _ _ H) in *. apply IH; [|exact D].
    intros tg vis u I. split; [eapply (proj1 G); [apply wi_here|exact H|exact I]|].
    exists Slot. eapply writes_part; [exact G|]. eapply pt_field; eauto.
  - intros t i u v H V IH pl G D. rewrite (Encode_user _ _ _ _ _ H). apply HS. eapply (proj2 G); [apply wi_here|exact H].
  - intros t pl G D. apply N.
  - intros t v l V IHv L IHl pl G D. cbn [put_list] in *. apply done_etry in D as [D1 D2].
    apply HT; [eapply IHv; eauto|eapply IHl; eauto|exact D2].
  - intros kt vt pl pl' G G' D. apply N.
  - intros kt vt k v m Vk IHk V IHv M IHm pl pl' G G' D. cbn [put_pairs] in *. pose proof D as D0.
    apply done_etry in D as [D1 D2]. apply done_etry in D2 as [D2 D3]. apply done_etry in D0 as [_ D0].
    apply HT; [eapply IHk; eauto| |exact D0]. apply HT; [eapply IHv; eauto|eapply IHm; eauto|exact D3].
  - intros G D. apply N.
  - intros tg vis t fs v l V IHv L IHl G D. destruct (G tg vis t) as (Gt & pl & Gp); [now left|].
    assert (GR : forall tg vis t, In (tg, vis, t) fs -> good tg /\ exists pl, writes_from good E (pl, t))
      by (intros; eapply G; right; eauto).
    assert (F : forall q, K q -> done (etry match vis with Exported => encode E chain_encoder t v
                      | _ => EPanic "cannot return value obtained from unexported field" end q) ->
                 K (etry match vis with Exported => encode E chain_encoder t v
                      | _ => EPanic "cannot return value obtained from unexported field" end q)).
    { intros q Kq Dq. apply done_etry in Dq as [D1 D2]. apply HT; [|exact Kq|exact D2].
      destruct vis; [eapply IHv; eauto|apply HS; constructor|apply HS; constructor]. }
    change (put_fields E chain_encoder ((tg, vis, t) :: fs) (v :: l)) with
      (let field := match vis with Exported => encode E chain_encoder t v
                    | _ => EPanic "cannot return value obtained from unexported field" end in
       match tg with
       | Optional => ebind (WriteBool (negb (is_zero v))) (fun _ =>
           if is_zero v then put_fields E chain_encoder fs l else etry field (put_fields E chain_encoder fs l))
       | _ => etry field (put_fields E chain_encoder fs l)
       end) in *. cbv zeta in *.
    destruct tg.
    + apply F; [|exact D]. apply IHl; [exact GR|]. now apply done_etry in D.
    + pose proof (done_flag _ _ D) as Dq. apply HF; [exact Gt| |exact Dq].
      destruct (is_zero v); [now apply IHl|]. apply F; [|exact Dq]. apply IHl; [exact GR|]. now apply done_etry in Dq.
    + apply F; [|exact D]. apply IHl; [exact GR|]. now apply done_etry in D.
    + apply F; [|exact D]. apply IHl; [exact GR|]. now apply done_etry in D.
Qed.
Lemma Encode_lossy E t v : has_type E any_leaf t v -> writes_checked E t -> done (Encode E t v) -> WLossy (Encode E t v).
Proof.
  intros V M D. eapply (encode_class WLossy (fun _ => True) E); eauto.
  - exact wstrict_lossy.
  - intros p q P Q (o & f & R). eapply lossy_etry; eauto.
  - intros b q _ Q (o & f & R). eapply lossy_flag; eauto.
  - instantiate (1 := Target). split; [now intros pl t' fs tg vis u|exact M].
Qed.
Lemma Encode_wstrict E t v : has_type E any_leaf t v -> no_optionals E t -> writes_checked E t -> done (Encode E t v) -> WStrict (Encode E t v).
Proof.
  intros V NO M D. eapply (encode_class WStrict (fun tg => tg <> Optional) E); eauto.
  - intros p q P Q _. now apply wstrict_etry.
  - congruence.
  - split; [exact NO|exact M].
Qed.
Lemma lossy_runf (p : wr) o : WLossy p -> sticky o ->
  forall i out full, (forall j, (j < i)%nat -> o j = None) -> runw p out = WDone None full ->
  exists r out', runf o i p out = WDone r out' /\ prefix out' full
    /\ (r = None -> exists tail, full = out' ++ tail /\ Forall flag_byte tail).
Proof.
  intros H So. induction H as [a|m| |bs k Hk IH Hf]; intros i out full Hi F; cbn [runw runf] in *; try discriminate.
  - injection F as -> ->. exists None, full. repeat split; [exists []; now rewrite app_nil_r|].
    intros _. exists []. now rewrite app_nil_r.
  - destruct (o i) as [[n e]|] eqn:E.
    + assert (Hs : forall j, (S i <= j)%nat -> exists e, o j = Some (O, e)).
      { intros j Hj. apply (So i j); [lia|congruence]. }
      assert (X : prefix (out ++ firstn n bs) full).
      { pose proof (runw_extends (k None) (out ++ bs)) as X. rewrite F in X.
        eapply prefix_trans; [apply prefix_app_firstn|exact X]. }
      destruct Hf as [Hf|((b & -> & B) & Hf & O)].
      * destruct (efailing_runf _ o _ (Hf e) (S i) (out ++ firstn n bs) Hs) as [r [-> Hr]].
        exists r, (out ++ firstn n bs). repeat split; [exact X|]. intros ->. now elim Hr.
      * destruct (efailing_runf _ o _ (Hf e) (S i) (out ++ firstn n [b]) Hs) as [r [-> Hr]].
        exists r, (out ++ firstn n [b]). repeat split; [exact X|]. intros _.
        apply O in F as (tail & -> & T). exists (skipn n [b] ++ tail).
        split; [rewrite <- !app_assoc, (app_assoc (firstn n [b])), firstn_skipn; reflexivity|]. apply Forall_app. split; [|exact T].
        destruct n as [|[|n]]; cbn [skipn]; auto.
    + apply IH; [|exact F]. intros j Hj. destruct (Nat.eq_dec j i) as [->|]; [exact E|apply Hi; lia].
Qed.

(** Types without user-defined types. *)
Lemma no_methods_within good E t : no_methods E t -> methods_within good E t.
Proof. intros N pl t' i u W H. destruct (N pl t' i u W H). Qed.
Lemma plain_no_methods E t : plain Target t = true -> no_methods E t.
Proof.
  intros Q pl t' i u W H. apply plain_within in W; [|exact Q]. cbn [fst snd] in W. rewrite (plain_head E _ _ W) in H. now subst.
Qed.
