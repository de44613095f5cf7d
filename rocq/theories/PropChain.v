(** Properties C07, C08, C33, C36-C39: binary form of the chain types. *)
From Verif Require Import Base Prog SpecWire GoVarint AbiPrim Chain SpecChain
  BaseProofs ProgProofs AbiPrimProofs ChainProofs.

(** * C07: truncation, for every decoder of a fixed chain type *)
Theorem C07_primitives :
  truncation_safe ReadUint8 /\ truncation_safe ReadUint16 /\ truncation_safe ReadUint32
  /\ truncation_safe ReadUint64 /\ truncation_safe ReadInt8 /\ truncation_safe ReadInt16
  /\ truncation_safe ReadInt32 /\ truncation_safe ReadInt64 /\ truncation_safe ReadBool
  /\ truncation_safe ReadFloat32 /\ truncation_safe ReadFloat64
  /\ truncation_safe ReadVaruint /\ truncation_safe ReadVarint /\ truncation_safe ReadString
  /\ truncation_safe ReadByte /\ (forall n, truncation_safe (ReadBytes n))
  /\ (forall old, truncation_safe (DecodeByteSlice old)).
Proof.
  repeat split; intros; apply strict_truncation;
    auto using ReadUint8_strict, ReadUint16_strict, ReadUint32_strict, ReadUint64_strict,
    ReadInt8_strict, ReadInt16_strict, ReadInt32_strict, ReadInt64_strict, ReadBool_strict,
    ReadFloat32_strict, ReadFloat64_strict, ReadVaruint_strict, ReadVarint_strict, ReadString_strict,
    ReadByte_strict, ReadBytes_strict, DecodeByteSlice_strict.
Qed.
Print Assumptions C07_primitives.

Theorem C07_chain_scalars :
  (forall old, truncation_safe (Name_UnmarshalABI old))
  /\ (forall old, truncation_safe (Symbol_UnmarshalABI old))
  /\ (forall old, truncation_safe (Uint64_UnmarshalABI old))
  /\ (forall old, truncation_safe (BlockNum_UnmarshalABI old))
  /\ (forall old, truncation_safe (Uint128_UnmarshalABI old))
  /\ (forall old, truncation_safe (Float128_UnmarshalABI old))
  /\ (forall old, truncation_safe (TimePoint_UnmarshalABI old))
  /\ (forall old, truncation_safe (TimePointSec_UnmarshalABI old))
  /\ (forall old, truncation_safe (BlockTimestamp_UnmarshalABI old))
  /\ (forall old, truncation_safe (Asset_UnmarshalABI old))
  /\ (forall old, truncation_safe (ExtendedAsset_UnmarshalABI old))
  /\ (forall n old, truncation_safe (Checksum_UnmarshalABI n old)).
Proof.
  repeat split; intros; apply strict_truncation;
    first [apply strict_keep; first [apply ReadUint32_strict|apply ReadUint64_strict|apply ReadInt64_strict]
          |apply Uint128_strict|apply Asset_strict|apply ExtendedAsset_strict
          |apply Checksum_strict|apply (Checksum_strict 16)].
Qed.
Print Assumptions C07_chain_scalars.

Theorem C07_chain_composites :
  (forall old, truncation_safe (Bytes_UnmarshalABI old))
  /\ (forall old, truncation_safe (PublicKey_UnmarshalABI old))
  /\ (forall old, truncation_safe (Signature_UnmarshalABI old))
  /\ (forall old, truncation_safe (PermissionLevel_UnmarshalABI old))
  /\ (forall old, truncation_safe (Action_UnmarshalABI old))
  /\ (forall old, truncation_safe (TransactionHeader_UnmarshalABI old))
  /\ (forall old, truncation_safe (TransactionExtension_UnmarshalABI old))
  /\ (forall old, truncation_safe (Transaction_UnmarshalABI old)).
Proof.
  repeat split; intros; apply strict_truncation;
    auto using Bytes_strict, PublicKey_strict, Signature_strict, PL_strict, Action_strict,
      Header_strict, Ext_strict, Transaction_strict.
Qed.
Print Assumptions C07_chain_composites.

(** A non-trivial successful decode, so that the statement above is not vacuous:
    an action with one authorization and two data bytes followed by garbage. *)
Definition ex_action : Action :=
  {| Account := 6138663577826885632; AName := 14829575313431724032;
     Authorization := [{| Actor := 7; Permission := 2 ^ 63 |}]; AData := [xca; xfe] |}.
Lemma ex_action_wf : wf_action ex_action.
Proof.
  unfold wf_action, wf_permission, in_u, short, zlen; cbn.
  repeat split; try lia. repeat constructor; cbn; lia.
Qed.
Example C07_ex : forall env rest, exists bs,
  run env (Action_UnmarshalABI zero_action) (bs ++ rest) = Done (ex_action, None) rest
  /\ length bs = 36%nat.
Proof.
  intros env rest. exists (b_action ex_action). split; [apply (Action_reads _ ex_action_wf)|reflexivity].
Qed.

(** * C08: failing writers *)
Theorem C08_primitives : forall v b s,
  write_faults_reported (WriteUint8 v) /\ write_faults_reported (WriteUint16 v)
  /\ write_faults_reported (WriteUint32 v) /\ write_faults_reported (WriteUint64 v)
  /\ write_faults_reported (WriteInt8 v) /\ write_faults_reported (WriteInt16 v)
  /\ write_faults_reported (WriteInt32 v) /\ write_faults_reported (WriteInt64 v)
  /\ write_faults_reported (WriteBool b) /\ write_faults_reported (WriteBytes s)
  /\ write_faults_reported (WriteFloat32 v) /\ write_faults_reported (WriteFloat64 v)
  /\ write_faults_reported (WriteVaruint v) /\ write_faults_reported (WriteVarint v)
  /\ write_faults_reported (WriteString s).
Proof.
  intros. repeat split; intros; apply wstrict_faults;
    first [apply wstrict_bytes|apply wstrict_byte|apply wstrict_bool|apply wstrict_varuint
          |apply wstrict_varint|apply wstrict_string].
Qed.
Print Assumptions C08_primitives.

Theorem C08_chain_types :
  (forall n, write_faults_reported (Name_MarshalABI n))
  /\ (forall s, write_faults_reported (Symbol_MarshalABI s))
  /\ (forall v, write_faults_reported (Uint64_MarshalABI v))
  /\ (forall v, write_faults_reported (BlockNum_MarshalABI v))
  /\ (forall u, write_faults_reported (Uint128_MarshalABI u))
  /\ (forall d, write_faults_reported (Float128_MarshalABI d))
  /\ (forall t, write_faults_reported (TimePoint_MarshalABI t))
  /\ (forall t, write_faults_reported (TimePointSec_MarshalABI t))
  /\ (forall t, write_faults_reported (BlockTimestamp_MarshalABI t))
  /\ (forall a, write_faults_reported (Asset_MarshalABI a))
  /\ (forall a, write_faults_reported (ExtendedAsset_MarshalABI a))
  /\ (forall c, write_faults_reported (Checksum_MarshalABI c))
  /\ (forall b, write_faults_reported (Bytes_MarshalABI b))
  /\ (forall k, write_faults_reported (Key_MarshalABI k))
  /\ (forall p, write_faults_reported (PermissionLevel_MarshalABI p))
  /\ (forall h, write_faults_reported (TransactionHeader_MarshalABI h))
  /\ (forall e, write_faults_reported (TransactionExtension_MarshalABI e)).
Proof.
  repeat split; intros; apply wstrict_faults;
    first [apply wstrict_bytes|apply Asset_wstrict|apply ExtendedAsset_wstrict|apply Bytes_wstrict
          |apply Key_wstrict|apply PL_wstrict|apply Header_wstrict|apply Ext_wstrict].
Qed.
Print Assumptions C08_chain_types.

Theorem C08_action : forall a, write_faults_reported (Action_MarshalABI a).
Proof. exact action_faults. Qed.
Print Assumptions C08_action.

Theorem C08_transaction : forall t, write_faults_reported (Transaction_MarshalABI t).
Proof. exact transaction_faults. Qed.
Print Assumptions C08_transaction.

(** With a writer that fails once and then recovers the property is false: the
    first eight bytes of an action are lost and no error is returned. *)
Theorem C08_action_transient_fault_refuted :
  exists (o : woracle) a full out, wf_action a
    /\ runw (Action_MarshalABI a) [] = WDone None full
    /\ runf o 0 (Action_MarshalABI a) [] = WDone None out /\ (length out < length full)%nat.
Proof. exact action_transient. Qed.
Print Assumptions C08_action_transient_fault_refuted.

(** ... for every encodable action, whichever of the two discarded writes fails. *)
Theorem C08_action_lost_write : forall a k e, wf_action a -> (k < 2)%nat ->
  exists full out,
    runw (Action_MarshalABI a) [] = WDone None full
    /\ runf (fun i => if Nat.eqb i k then Some (O, e) else None) 0 (Action_MarshalABI a) [] = WDone None out
    /\ length full = (8 + length out)%nat.
Proof. exact action_lost_write. Qed.
Print Assumptions C08_action_lost_write.

Example C08_ex : exists full, runw (Action_MarshalABI ex_action) [] = WDone None full
  /\ length full = 36%nat
  /\ sticky (fun i => match i with 0%nat => None | 1%nat => Some (3%nat, ErrIO 5) | _ => Some (0%nat, ErrIO 6) end).
Proof.
  exists (b_action ex_action). split; [exact (Action_writes _ ex_action_wf [])|]. split; [reflexivity|].
  intros i j L H. destruct i as [|[|i]]; [now elim H| |].
  - destruct j as [|[|j]]; [lia|lia|]. eauto.
  - destruct j as [|[|j]]; [lia|lia|]. eauto.
Qed.

(** * C33: keys and signatures *)
Theorem C33_public_key : forall old k, wf_public_key k ->
  exists bs, writes (Key_MarshalABI k) bs /\ key_layout k bs /\ reads (PublicKey_UnmarshalABI old) bs k.
Proof. exact public_key_round. Qed.
Print Assumptions C33_public_key.
Theorem C33_signature : forall old k, wf_signature k ->
  exists bs, writes (Key_MarshalABI k) bs /\ key_layout k bs /\ reads (Signature_UnmarshalABI old) bs k.
Proof. exact signature_round. Qed.
Print Assumptions C33_signature.
(** Any other type byte is rejected, reading nothing more. *)
Theorem C33_unknown_type : forall env old b inp, 3 <= zb b ->
  (exists k, run env (PublicKey_UnmarshalABI old) (b :: inp) = Done (k, Some (ErrMsg "unknown key type")) inp)
  /\ (exists k, run env (Signature_UnmarshalABI old) (b :: inp) = Done (k, Some (ErrMsg "unknown key type")) inp).
Proof. exact key_unknown_type. Qed.
Print Assumptions C33_unknown_type.
(** Whatever is accepted carries the type byte it was read from. *)
Theorem C33_type_faithful : forall env old inp k rest,
  run env (PublicKey_UnmarshalABI old) inp = Done (k, None) rest
  \/ run env (Signature_UnmarshalABI old) inp = Done (k, None) rest ->
  exists b inp', inp = b :: inp' /\ KType k = zb b /\ zb b <= 2.
Proof.
  intros env old inp k rest [H|H]; [eapply PublicKey_type, H|eapply Signature_type, H].
Qed.
Print Assumptions C33_type_faithful.
Example C33_ex : wf_public_key {| KType := 2; KData := repeat x07 34 ++ [x03; x61; x62; x63] |}.
Proof.
  right. split; [reflexivity|]. exists (repeat x07 34), [x61; x62; x63].
  split; [reflexivity|]. split; [vm_compute; reflexivity|].
  exists (repeat x07 34), [x03; x61; x62; x63]. split; [reflexivity|]. split; [reflexivity|].
  exists [x03], [x61; x62; x63]. split; [reflexivity|]. split; [|reflexivity].
  split; [|reflexivity]. split; [cbn; lia|now left].
Qed.

(** * C36: actions and transactions *)
Theorem C36_action : forall a, wf_action a ->
  exists bs, writes (Action_MarshalABI a) bs /\ action_layout a bs
    /\ reads (Action_UnmarshalABI zero_action) bs a.
Proof. exact action_round. Qed.
Print Assumptions C36_action.
Theorem C36_transaction : forall old t, wf_transaction t ->
  exists bs, writes (Transaction_MarshalABI t) bs /\ transaction_layout t bs
    /\ reads (Transaction_UnmarshalABI old) bs t.
Proof. exact transaction_round. Qed.
Print Assumptions C36_transaction.
(** The layouts determine the bytes. *)
Theorem C36_layout_determines : 
  (forall a x y, action_layout a x -> action_layout a y -> x = y)
  /\ (forall t x y, transaction_layout t x -> transaction_layout t y -> x = y).
Proof. exact (conj func_action func_transaction). Qed.
Print Assumptions C36_layout_determines.
Theorem C36_scalars :
  (forall old a, wf_asset a -> exists bs, writes (Asset_MarshalABI a) bs /\ asset_layout a bs
     /\ reads (Asset_UnmarshalABI old) bs a)
  /\ (forall old e, wf_asset (Quantity e) -> in_u 64 (Contract e) ->
     exists bs, writes (ExtendedAsset_MarshalABI e) bs /\ extended_asset_layout e bs
     /\ reads (ExtendedAsset_UnmarshalABI old) bs e)
  /\ (forall old u, wf_u128 u -> exists bs, writes (Uint128_MarshalABI u) bs /\ u128_layout u bs
     /\ reads (Uint128_UnmarshalABI old) bs u)
  /\ (forall old n, in_u 64 n -> exists bs, writes (Name_MarshalABI n) bs /\ fixed_le 8 n bs
     /\ reads (Name_UnmarshalABI old) bs n)
  /\ (forall old n, in_u 64 n -> exists bs, writes (Symbol_MarshalABI n) bs /\ fixed_le 8 n bs
     /\ reads (Symbol_UnmarshalABI old) bs n)
  /\ (forall old n, in_u 64 n -> exists bs, writes (Uint64_MarshalABI n) bs /\ fixed_le 8 n bs
     /\ reads (Uint64_UnmarshalABI old) bs n)
  /\ (forall old n, in_u 32 n -> exists bs, writes (BlockNum_MarshalABI n) bs /\ fixed_le 4 n bs
     /\ reads (BlockNum_UnmarshalABI old) bs n)
  /\ (forall old n, - 2 ^ 63 <= n < 2 ^ 63 -> exists bs, writes (TimePoint_MarshalABI n) bs /\ fixed_le 8 n bs
     /\ reads (TimePoint_UnmarshalABI old) bs n)
  /\ (forall old n, in_u 32 n -> exists bs, writes (TimePointSec_MarshalABI n) bs /\ fixed_le 4 n bs
     /\ reads (TimePointSec_UnmarshalABI old) bs n)
  /\ (forall old n, in_u 32 n -> exists bs, writes (BlockTimestamp_MarshalABI n) bs /\ fixed_le 4 n bs
     /\ reads (BlockTimestamp_UnmarshalABI old) bs n)
  /\ (forall n old c, zlen c = n -> n <= 64 ->
     writes (Checksum_MarshalABI c) c /\ reads (Checksum_UnmarshalABI n old) c c)
  /\ (forall old d, length d = 16%nat ->
     writes (Float128_MarshalABI d) d /\ reads (Float128_UnmarshalABI old) d d)
  /\ (forall old d, short d -> exists bs, writes (Bytes_MarshalABI d) bs /\ bytes_layout d bs
     /\ reads (Bytes_UnmarshalABI old) bs d).
Proof. exact chain_scalars_round. Qed.
Print Assumptions C36_scalars.
Definition ex_transaction : Transaction :=
  {| Header := {| Expiration := 1700000000; RefBlockNum := 65535; RefBlockPrefix := 3735928559;
                  MaxNetUsageWords := 300; MaxCpuUsageMs := 200; DelaySec := 2 ^ 28 - 1 |};
     ContextFreeActions := [];
     Actions := [ex_action; zero_action];
     Extensions := [{| EType := 1; EData := [x01] |}] |}.
Example C36_ex : wf_transaction ex_transaction.
Proof.
  unfold wf_transaction, wf_header, in_u, short, zlen; cbn.
  repeat split; try lia; repeat constructor; try apply ex_action_wf; cbn; unfold in_u, short, zlen; cbn; lia.
Qed.

(** * C37: injectivity and digests *)
Theorem C37_action_injective : forall a b ba bb ra rb, typed_action a -> typed_action b ->
  writes (Action_MarshalABI a) ba -> writes (Action_MarshalABI b) bb ->
  ba ++ ra = bb ++ rb -> a = b /\ ra = rb.
Proof. exact action_injective. Qed.
Print Assumptions C37_action_injective.
Theorem C37_transaction_injective : forall a b ba bb ra rb, typed_transaction a -> typed_transaction b ->
  writes (Transaction_MarshalABI a) ba -> writes (Transaction_MarshalABI b) bb ->
  ba ++ ra = bb ++ rb -> a = b /\ ra = rb.
Proof. exact transaction_injective. Qed.
Print Assumptions C37_transaction_injective.
Theorem C37_encodable_iff : forall a, typed_action a ->
  ((exists bs, writes (Action_MarshalABI a) bs) <-> short (Authorization a) /\ short (AData a)).
Proof. exact action_encodable_iff. Qed.
Print Assumptions C37_encodable_iff.
Theorem C37_digest_is_hash_of_encoding : forall sha256 a bs, (forall m, length (sha256 m) = 32%nat) ->
  writes (Action_MarshalABI a) bs -> Action_Digest sha256 a = Ok (sha256 bs).
Proof. exact action_digest. Qed.
Print Assumptions C37_digest_is_hash_of_encoding.
(** A hash function with digests of the size of the array is returned unchanged. *)
Theorem C37_checksums : forall sha256 sha512, (forall m, length (sha256 m) = 32%nat) -> (forall m, length (sha512 m) = 64%nat) ->
  forall m, Checksum256Digest sha256 m = Ok (sha256 m) /\ Checksum512Digest sha512 m = Ok (sha512 m).
Proof. intros s s' L L' m. split; now apply digest_copy_all. Qed.
Print Assumptions C37_checksums.
Theorem C37_digest_collision : forall sha256 a b d, (forall m, length (sha256 m) = 32%nat) -> typed_action a -> typed_action b ->
  Action_Digest sha256 a = Ok d -> Action_Digest sha256 b = Ok d -> a <> b ->
  exists x y, x <> y /\ sha256 x = sha256 y.
Proof. exact action_digest_collision. Qed.
Print Assumptions C37_digest_collision.
Example C37_ex : typed_action ex_action /\ typed_action zero_action /\ typed_transaction ex_transaction
  /\ (exists bs, writes (Action_MarshalABI ex_action) bs) /\ (forall m : list byte, length ((fun _ => zeros 32) m) = 32%nat).
Proof.
  pose proof ex_action_wf as W. pose proof C36_ex as T.
  split; [unfold typed_action; unfold wf_action in W; tauto|].
  split; [unfold typed_action, in_u; cbn; repeat split; try lia; constructor|].
  split.
  { unfold typed_transaction, typed_header, in_u; cbn.
    repeat split; try lia; repeat constructor; cbn; unfold in_u; lia. }
  split; [|reflexivity]. exists (b_action ex_action). apply Action_writes, ex_action_wf.
Qed.

(** * C38: used targets *)
Theorem C38_action_appends : forall env old inp a rest,
  run env (Action_UnmarshalABI old) inp = Done (a, None) rest <->
  exists f, run env (Action_UnmarshalABI zero_action) inp = Done (f, None) rest
    /\ a = {| Account := Account f; AName := AName f;
              Authorization := Authorization old ++ Authorization f; AData := AData f |}.
Proof. exact Action_target. Qed.
Print Assumptions C38_action_appends.
Theorem C38_action_fresh_iff : forall env old inp f rest,
  run env (Action_UnmarshalABI zero_action) inp = Done (f, None) rest ->
  (run env (Action_UnmarshalABI old) inp = Done (f, None) rest <-> Authorization old = []).
Proof. exact Action_target_fresh. Qed.
Print Assumptions C38_action_fresh_iff.
Theorem C38_transaction_overwrites : forall env old old' inp t rest,
  run env (Transaction_UnmarshalABI old) inp = Done (t, None) rest ->
  run env (Transaction_UnmarshalABI old') inp = Done (t, None) rest.
Proof. exact Transaction_target. Qed.
Print Assumptions C38_transaction_overwrites.
Example C38_ex : forall env rest,
  run env (Action_UnmarshalABI ex_action) (b_action ex_action ++ rest)
  = Done ({| Account := Account ex_action; AName := AName ex_action;
             Authorization := [{| Actor := 7; Permission := 2 ^ 63 |}; {| Actor := 7; Permission := 2 ^ 63 |}];
             AData := [xca; xfe] |}, None) rest.
Proof. intros env rest. exact (Action_reads_into ex_action ex_action ex_action_wf env rest). Qed.

(** * C39: hostile lengths *)
(** Byte strings: the outcome for every announced length. *)
Theorem C39_bytes : forall old env pre rest, leb_wf pre -> (length pre <= 10)%nat -> leb_value pre < 2 ^ 64 ->
  (2 ^ 63 <= leb_value pre -> exists e, run env (Bytes_UnmarshalABI old) (pre ++ rest) = Done (old, Some e) rest)
  /\ (2 ^ 48 < leb_value pre < 2 ^ 63 -> exists m, run env (Bytes_UnmarshalABI old) (pre ++ rest) = Crash m)
  /\ (leb_value pre <= 2 ^ 48 -> zlen rest < leb_value pre ->
        exists v e, run env (Bytes_UnmarshalABI old) (pre ++ rest) = Done (v, Some e) [])
  /\ (leb_value pre <= 2 ^ 48 -> forall d rest', rest = d ++ rest' -> zlen d = leb_value pre ->
        run env (Bytes_UnmarshalABI old) (pre ++ rest) = Done (d, None) rest').
Proof. exact Bytes_hostile. Qed.
Print Assumptions C39_bytes.
Theorem C39_string : forall env pre rest, leb_wf pre -> (length pre <= 10)%nat -> leb_value pre < 2 ^ 64 ->
  (2 ^ 63 <= leb_value pre -> exists e, run env ReadString (pre ++ rest) = Done ([], Some e) rest)
  /\ (2 ^ 48 < leb_value pre < 2 ^ 63 -> exists m, run env ReadString (pre ++ rest) = Crash m)
  /\ (leb_value pre <= 2 ^ 48 -> zlen rest < leb_value pre ->
        exists v e, run env ReadString (pre ++ rest) = Done (v, Some e) [])
  /\ (leb_value pre <= 2 ^ 48 -> forall d rest', rest = d ++ rest' -> zlen d = leb_value pre ->
        run env ReadString (pre ++ rest) = Done (d, None) rest').
Proof. exact String_hostile. Qed.
Print Assumptions C39_string.
(** An authorization count of 2^63 or more is taken for an empty list. *)
Theorem C39_action : forall env old h1 h2 pre rest,
  length h1 = 8%nat -> length h2 = 8%nat ->
  leb_wf pre -> (length pre <= 10)%nat -> 2 ^ 63 <= leb_value pre < 2 ^ 64 ->
  forall d rest', run env (Bytes_UnmarshalABI []) rest = Done (d, None) rest' ->
  run env (Action_UnmarshalABI old) (h1 ++ h2 ++ pre ++ rest) =
  Done ({| Account := le_value h1; AName := le_value h2;
           Authorization := Authorization old; AData := d |}, None) rest'.
Proof. exact Action_hostile. Qed.
Print Assumptions C39_action.
(** An action count above 2^48/64 panics. *)
Theorem C39_transaction : forall env old h pre rest, wf_header h ->
  leb_wf pre -> (length pre <= 10)%nat -> 2 ^ 42 < leb_value pre < 2 ^ 64 ->
  exists hb, header_layout h hb
    /\ run env (Transaction_UnmarshalABI old) (hb ++ pre ++ rest) = Crash "makeslice: len out of range".
Proof. exact Transaction_hostile. Qed.
Print Assumptions C39_transaction.
(** Decoders of types without a length never panic. *)
Theorem C39_length_free :
  never_panics ReadUint8 /\ never_panics ReadUint16 /\ never_panics ReadUint32 /\ never_panics ReadUint64
  /\ never_panics ReadInt8 /\ never_panics ReadInt16 /\ never_panics ReadInt32 /\ never_panics ReadInt64
  /\ never_panics ReadBool /\ never_panics ReadFloat32 /\ never_panics ReadFloat64
  /\ never_panics ReadVaruint /\ never_panics ReadVarint
  /\ (forall old, never_panics (Name_UnmarshalABI old))
  /\ (forall old, never_panics (Symbol_UnmarshalABI old))
  /\ (forall old, never_panics (Uint64_UnmarshalABI old))
  /\ (forall old, never_panics (BlockNum_UnmarshalABI old))
  /\ (forall old, never_panics (TimePoint_UnmarshalABI old))
  /\ (forall old, never_panics (TimePointSec_UnmarshalABI old))
  /\ (forall old, never_panics (BlockTimestamp_UnmarshalABI old))
  /\ (forall old, never_panics (Asset_UnmarshalABI old))
  /\ (forall old, never_panics (ExtendedAsset_UnmarshalABI old))
  /\ (forall old, never_panics (Uint128_UnmarshalABI old))
  /\ (forall old, never_panics (Float128_UnmarshalABI old))
  /\ (forall n old, n <= 64 -> never_panics (Checksum_UnmarshalABI n old))
  /\ (forall old, never_panics (PermissionLevel_UnmarshalABI old))
  /\ (forall old, never_panics (TransactionHeader_UnmarshalABI old)).
Proof. exact length_free_calm. Qed.
Print Assumptions C39_length_free.
Example C39_ex : leb_wf [xff; xff; xff; xff; xff; xff; xff; xff; xff; x01]
  /\ leb_value [xff; xff; xff; xff; xff; xff; xff; xff; xff; x01] = 2 ^ 64 - 1
  /\ leb_value [x80; x80; x80; x80; x80; x80; x80; x01] = 2 ^ 49
  /\ wf_header (Header ex_transaction).
Proof. repeat split; vm_compute; congruence. Qed.
