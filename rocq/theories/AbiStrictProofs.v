(** The dynamic codec on truncated input, failing writers and the end of input. *)
From Verif Require Import Base Prog AbiPrim BaseProofs SpecWire ProgProofs AbiPrimProofs Chain SpecChain ChainProofs
  Values Leaf SpecLeaf LeafProofs AbiDyn SpecAbi AbiResolveProofs AbiCodecProofs AbiTermProofs.

(** ** Truncated input *)
Lemma into_strict {A} (c : A -> prim) p : IoStrict p -> IoStrict (into c p).
Proof.
  intros H. eapply strict_bind; [exact H| |].
  - intros [x e]. constructor.
  - intros [x [e|]] He; [|now elim He]. constructor. unfold errs; cbn; congruence.
Qed.
Lemma keep_strict {A} (old : A) p : IoStrict p -> IoStrict (keep old p).
Proof.
  intros H. eapply strict_bind; [exact H| |].
  - intros [x e]. constructor.
  - intros [x [e|]] He; [|now elim He]. constructor. unfold errs; cbn; congruence.
Qed.
Lemma decodeBuiltin_strict b : IoStrict (decodeBuiltin b).
Proof.
  unfold decodeBuiltin. destruct (builtin_of b) as [B|]; [|constructor].
  destruct B; cbv iota; try (match goal with |- IoStrict (DRet _) => constructor end); apply into_strict;
    first [ apply ReadBool_strict | apply ReadString_strict | apply ReadUint8_strict | apply ReadUint16_strict
      | apply ReadUint32_strict | apply ReadUint64_strict | apply ReadInt8_strict | apply ReadInt16_strict
      | apply ReadInt32_strict | apply ReadInt64_strict | apply ReadFloat32_strict | apply ReadFloat64_strict
      | apply ReadVarint_strict | apply ReadVaruint_strict | apply Uint128_strict | apply Checksum_strict
      | apply Asset_strict | apply ExtendedAsset_strict | apply Bytes_strict | apply PublicKey_strict
      | apply Signature_strict | apply keep_strict; first [apply ReadUint64_strict|apply ReadUint32_strict|apply ReadInt64_strict] ].
Qed.
Lemma decode_elems_strict f : IoStrict f -> forall n acc, IoStrict (decode_elems f n acc).
Proof.
  intros H n. induction n as [|n IH]; intros acc; cbn [decode_elems]; [constructor|].
  eapply strict_bind; [exact H| |].
  - intros [x [e|]]; [constructor|apply IH].
  - intros [x [e|]] He; [constructor; unfold errs; cbn; congruence|now elim He].
Qed.
Lemma decode_fields_strict rec fs : (forall f t, In (f, t) fs -> IoStrict (rec t)) -> forall acc,
  IoStrict (decode_fields rec fs acc).
Proof.
  induction fs as [|[f t] fs IH]; intros H acc; cbn [decode_fields]; [constructor|].
  eapply strict_bind; [apply (H f); now left| |].
  - intros [x [e|]]; [constructor|]. apply IH. intros f' t' I. apply (H f'). now right.
  - intros [x [e|]] He; [constructor; unfold errs; cbn; congruence|now elim He].
Qed.
Lemma ext_eof_plain t r : t_isExtension t = false -> ext_eof t r = DRet r.
Proof. intros E. destruct r as [v [[]|]]; cbn [ext_eof]; rewrite ?E; reflexivity. Qed.
Lemma decodeInner_strict a n0 tbl rec n t : table_for a n0 tbl -> reach a n0 n -> lookup tbl n = Some t ->
  (forall m, reach a n0 m -> IoStrict (rec m)) -> IoStrict (decodeInner rec tbl t).
Proof.
  intros TB R LK HR. destruct (table_lookup _ _ _ _ TB R) as (t' & L' & Ds). rewrite LK in L'. injection L' as <-.
  pose proof Ds as (N & D & _). unfold decodeInner. destruct (t_ref t) as [r|] eqn:E1.
  { apply (describes_alias _ _ _ _ _ _ _ r Ds D) in E1. apply HR.
    eapply reach_step; [exact R|exact D|exact E1|cbn; auto]. }
  destruct (allFields tbl (t_name t)) as [fs|] eqn:E2.
  { rewrite N in E2. apply (allFields_spec _ _ _ _ TB) in E2; [|now exists t]. destruct E2 as [I _].
    apply decode_fields_strict. intros f m Hm. apply HR. eapply inherits_reach; eauto. }
  destruct (t_variant t) as [l|] eqn:E3; [|apply decodeBuiltin_strict].
  apply (describes_variant _ _ _ _ _ _ _ l Ds D) in E3.
  eapply strict_bind; [apply ReadVaruint_strict| |].
  - intros [i [e|]]; [constructor|]. destruct (zlen l <=? i64 i); [constructor|].
    destruct (at_ l i) as [tv|] eqn:EA; [|constructor].
    eapply strict_bind; [apply HR| |].
    + eapply reach_step; [exact R|exact D|exact E3|].
      unfold at_ in EA. destruct (i <? 0); [discriminate|]. now apply nth_error_In in EA.
    + intros [x [e|]]; constructor.
    + intros [x [e|]] He; [constructor; unfold errs; cbn; congruence|now elim He].
  - intros [x [e|]] He; [constructor; unfold errs; cbn; congruence|now elim He].
Qed.
Lemma decodeType_strict a n0 tbl : table_for a n0 tbl -> no_extension a n0 ->
  forall fuel n, reach a n0 n -> IoStrict (decodeType fuel tbl n).
Proof.
  intros TB NE. induction fuel as [|fuel IH]; intros n R; [constructor|].
  destruct (table_lookup _ _ _ _ TB R) as (t & LK & Ds). rewrite (decodeType_S _ _ _ _ LK).
  pose proof Ds as (_ & D & _). pose proof (NE _ _ _ _ _ R D) as EX.
  pose proof (decodeInner_strict _ _ _ (decodeType fuel tbl) _ _ TB R LK IH) as SI.
  assert (B : IoStrict (dec_body fuel tbl t)).
  { unfold dec_body. destruct (t_isArray t).
    - eapply strict_bind; [apply ReadVaruint_strict| |].
      + intros [l [e|]]; [rewrite ext_eof_plain by exact EX; constructor|].
        destruct (make_ok 16 l); [|constructor].
        eapply strict_bind; [apply decode_elems_strict; exact SI| |].
        * intros [va [e|]]; constructor.
        * intros [va [e|]] He; [constructor; unfold errs; cbn; congruence|now elim He].
      + intros [l [e|]] He; [|now elim He]. rewrite ext_eof_plain by exact EX. constructor. unfold errs; cbn; congruence.
    - eapply strict_bind; [exact SI| |].
      + intros r. rewrite ext_eof_plain by exact EX. constructor.
      + intros r He. rewrite ext_eof_plain by exact EX. now constructor. }
  destruct (t_isOptional t); [|exact B].
  eapply strict_bind; [apply ReadBool_strict| |].
  - intros [x [e|]]; [constructor|]. destruct x; [exact B|constructor].
  - intros [x [e|]] He; [constructor; unfold errs; cbn; congruence|now elim He].
Qed.

(** ** Failing writers *)
Lemma encodeBuiltin_wstrict b v : WStrict (encodeBuiltin b v).
Proof.
  unfold encodeBuiltin. destruct (builtin_of b) as [B|]; [|constructor].
  destruct v as [|p| | |]; [destruct B; constructor| |destruct B; constructor..].
  destruct B; destruct p; match goal with |- WStrict (ERet _) => constructor | _ => idtac end;
    first [ apply wstrict_bool | apply wstrict_string | apply wstrict_byte | apply wstrict_bytes | apply wstrict_varuint
          | apply wstrict_varint | apply Asset_wstrict | apply ExtendedAsset_wstrict | apply Key_wstrict
          | apply wstrict_etry; apply wstrict_bytes ].
Qed.
Lemma encodeInner_wstrict a n0 tbl rec n t : table_for a n0 tbl -> reach a n0 n -> lookup tbl n = Some t ->
  (forall m v, reach a n0 m -> WStrict (rec m v)) -> forall v, WStrict (encodeInner rec tbl t v).
Proof.
  intros TB R LK HR v. destruct (table_lookup _ _ _ _ TB R) as (t' & L' & Ds). rewrite LK in L'. injection L' as <-.
  pose proof Ds as (N & D & _). unfold encodeInner. destruct (t_ref t) as [r|] eqn:E1.
  { apply (describes_alias _ _ _ _ _ _ _ r Ds D) in E1. apply HR.
    eapply reach_step; [exact R|exact D|exact E1|cbn; auto]. }
  destruct (allFields tbl (t_name t)) as [fs|] eqn:E2.
  { rewrite N in E2. apply (allFields_spec _ _ _ _ TB) in E2; [|now exists t]. destruct E2 as [I _].
    destruct v as [| | |m|]; try constructor. pose proof (inherits_reach _ _ _ _ I R) as Rf. clear I.
    induction fs as [|[f ty] fs IH]; cbn [encode_fields]; [constructor|].
    apply wstrict_etry; [apply HR, (Rf f); now left|]. apply IH. intros f' t' I. apply (Rf f'). now right. }
  destruct (t_variant t) as [l|] eqn:E3; [|apply encodeBuiltin_wstrict].
  apply (describes_variant _ _ _ _ _ _ _ l Ds D) in E3.
  destruct v as [| |vs| |]; try constructor. destruct vs as [|x1 [|x2 [|x3 vs]]]; try constructor;
    destruct x1 as [|p| | |]; try constructor; destruct p; try constructor.
  pose proof (find_variant_spec s l 0) as FV. destruct (find_variant 0 s l) as [k|]; [|constructor].
  destruct FV as (i & -> & FA & _). apply wstrict_etry; [apply wstrict_varuint|]. apply HR.
  eapply reach_step; [exact R|exact D|exact E3|]. now apply nth_error_In in FA.
Qed.
Lemma encodeType_wstrict a n0 tbl : table_for a n0 tbl -> no_optional a n0 ->
  forall fuel n v, reach a n0 n -> WStrict (encodeType fuel tbl n v).
Proof.
  intros TB NO. induction fuel as [|fuel IH]; intros n v R; [constructor|].
  destruct (table_lookup _ _ _ _ TB R) as (t & LK & Ds). rewrite (encodeType_S _ _ _ _ _ LK).
  pose proof Ds as (_ & D & _). rewrite (NO _ _ _ _ _ R D).
  pose proof (encodeInner_wstrict _ _ _ (encodeType fuel tbl) _ _ TB R LK (fun m v => IH m v)) as SI.
  destruct (negb (negb (is_nil v))); [constructor|]. unfold enc_body. destruct (t_isArray t); [|apply SI].
  destruct v as [| |vs| |]; try constructor. apply wstrict_etry; [apply wstrict_varuint|].
  induction vs as [|x vs IHv]; cbn [encode_elems]; [constructor|]. now apply wstrict_etry.
Qed.

(** ** At the end of input *)
Definition unknown_type : gerr := ErrMsg "unknown type".
Lemma builtin_list_of b : In b builtin_list <-> exists B, builtin_of b = Some B.
Proof.
  split.
  - intros H. unfold builtin_list in H. cbn [map In] in H.
    repeat (destruct H as [<-|H]; [eexists; reflexivity|]). destruct H.
  - intros (B & H). apply builtin_of_name in H. subst b. destruct B; unfold builtin_list; cbn [map In]; tauto.
Qed.
Lemma builtin_eof env b : r_end env = EOF ->
  (exists z, run env (decodeBuiltin b) [] = Done (VPrim z, Some EOF) []
     /\ decoded_type z = Some b /\ z = zero_prim (kind_of z))
  \/ run env (decodeBuiltin b) [] = Done (VNil, Some unknown_type) []
     /\ (builtin_of b = None \/ b = str "eosio::name").
Proof.
  intros E. unfold decodeBuiltin. destruct (builtin_of b) as [B|] eqn:EB; [|right; split; [reflexivity|now left]].
  apply builtin_of_name in EB. subst b. destruct env as [re st]. cbn in E. subst re.
  destruct B; try (right; split; [reflexivity|now right]); left; eexists;
    (split; [destruct st; vm_compute; reflexivity|split; reflexivity]).
Qed.
(** What decoding from an exhausted bytes.Reader can give. *)
Definition calm_eof {A} (env : renv) (U : Prop) (p : io A) : Prop :=
  run env p [] = Diverged \/ exists v e, run env p [] = Done (v, e) []
    /\ (e = None \/ e = Some EOF \/ e = Some unknown_type /\ U).
Lemma bool_eof env : r_end env = EOF -> exists x, run env ReadBool [] = Done (x, Some EOF) [].
Proof. intros E. destruct env as [re st]. cbn in E. subst re. eexists. destruct st; vm_compute; reflexivity. Qed.
Lemma varuint_eof env : r_end env = EOF -> exists x, run env ReadVaruint [] = Done (x, Some EOF) [].
Proof. intros E. destruct env as [re st]. cbn in E. subst re. eexists. destruct st; vm_compute; reflexivity. Qed.
Lemma run_ext_eof env t r : run env (ext_eof t r) [] = Done (fst r, if t_isExtension t then match snd r with Some EOF => None | e => e end else snd r) [].
Proof. destruct r as [v [[]|]]; cbn; destruct (t_isExtension t); reflexivity. Qed.
Lemma decode_fields_eof env U rec fs : (forall f t, In (f, t) fs -> calm_eof env U (rec t)) -> forall acc,
  calm_eof env U (decode_fields rec fs acc).
Proof.
  induction fs as [|[f t] fs IH]; intros H acc; cbn [decode_fields].
  - right. eexists _, _. split; [reflexivity|now left].
  - destruct (H f t (or_introl eq_refl)) as [D|(v & e & D & E)]; unfold calm_eof; rewrite run_dbind, D; [now left|].
    destruct e as [e|].
    + right. eexists _, _. split; [reflexivity|exact E].
    + apply IH. intros f' t' I. apply (H f'). now right.
Qed.
Lemma decodeType_eof env a n0 tbl : r_end env = EOF -> table_for a n0 tbl ->
  forall fuel n, reach a n0 n -> calm_eof env (~ all_known a n0) (decodeType fuel tbl n)
    /\ forall b arr, decomposes n b arr false true ->
        run env (decodeType fuel tbl n) [] = Diverged
        \/ exists v e, run env (decodeType fuel tbl n) [] = Done (v, e) [] /\ (e = None \/ e = Some unknown_type /\ ~ all_known a n0).
Proof.
  intros EE TB. induction fuel as [|fuel IH]; intros n R; [split; [left; reflexivity|left; reflexivity]|].
  destruct (table_lookup _ _ _ _ TB R) as (t & LK & Ds). rewrite (decodeType_S _ _ _ _ LK).
  pose proof Ds as (N & D & _).
  assert (SI : calm_eof env (~ all_known a n0) (decodeInner (decodeType fuel tbl) tbl t)).
  { unfold decodeInner. destruct (t_ref t) as [r|] eqn:E1.
    { apply (describes_alias _ _ _ _ _ _ _ r Ds D) in E1. apply IH.
      eapply reach_step; [exact R|exact D|exact E1|cbn; auto]. }
    destruct (allFields tbl (t_name t)) as [fs|] eqn:E2.
    { rewrite N in E2. apply (allFields_spec _ _ _ _ TB) in E2; [|now exists t]. destruct E2 as [I _].
      apply decode_fields_eof. intros f m Hm. apply IH. eapply inherits_reach; eauto. }
    destruct (t_variant t) as [l|] eqn:E3.
    - destruct (varuint_eof env EE) as (x & EX). unfold calm_eof. rewrite run_dbind, EX. right.
      eexists _, _. split; [reflexivity|right; now left].
    - right. assert (FT : falls_through a n (t_baseName t)) by (apply (inner_builtin _ _ _ _ _ _ _ _ _ TB LK Ds D); rewrite E2; auto).
      destruct (builtin_eof env (t_baseName t) EE) as [(z & H & _)|(H & U)]; rewrite H; eexists _, _;
        (split; [reflexivity|]); [auto|]. right; right. split; [reflexivity|]. intros AK.
      destruct (AK _ _ _ _ _ R D FT) as [K1 K2]. destruct U as [U|U]; [|contradiction].
      apply builtin_list_of in K1 as (B & K1). congruence. }
  assert (B : run env (dec_body fuel tbl t) [] = Diverged \/ exists v e, run env (dec_body fuel tbl t) [] = Done (v, e) []
     /\ (e = None \/ (t_isExtension t = false /\ e = Some EOF) \/ e = Some unknown_type /\ ~ all_known a n0)).
  { unfold dec_body. destruct (t_isArray t).
    - destruct (varuint_eof env EE) as (x & EX). rewrite run_dbind, EX. right. cbv iota beta.
      rewrite run_ext_eof. eexists _, _. split; [reflexivity|]. cbn. destruct (t_isExtension t); auto.
    - rewrite run_dbind. destruct SI as [H|(v & e & H & E)]; rewrite H; [now left|].
      right. rewrite run_ext_eof. eexists _, _. split; [reflexivity|]. cbn.
      destruct (t_isExtension t); destruct E as [->|[->|[-> U]]]; auto. }
  split.
  - destruct (t_isOptional t).
    + destruct (bool_eof env EE) as (x & EX). unfold calm_eof. rewrite run_dbind, EX. right.
      eexists _, _. split; [reflexivity|auto].
    + destruct B as [B|(v & e & B & E)]; [now left|right]. exists v, e. split; [exact B|]. intuition.
  - intros b arr D'. destruct (decomposes_fun _ _ _ _ _ _ _ _ _ D D') as (_ & _ & EO & EX).
    rewrite EO. destruct B as [B|(v & e & B & E)]; [now left|right]. exists v, e. split; [exact B|].
    destruct E as [->|[(EF & _)|[-> U]]]; auto. congruence.
Qed.
