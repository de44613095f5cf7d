(** Properties C01-C06: the wire primitives of pkg/abi. *)
From Verif Require Import Base Prog SpecWire GoVarint AbiPrim BaseProofs ProgProofs AbiPrimProofs.

(** * C01 *)
Theorem C01_uint8 : forall v, 0 <= v < 2 ^ 8 ->
  exists bs, writes (WriteUint8 v) bs /\ is_le 1 v bs /\ reads ReadUint8 bs v.
Proof. exact uint8_wire. Qed.
Print Assumptions C01_uint8.

Theorem C01_uint16 : forall v, 0 <= v < 2 ^ 16 ->
  exists bs, writes (WriteUint16 v) bs /\ is_le 2 v bs /\ reads ReadUint16 bs v.
Proof. exact uint16_wire. Qed.
Print Assumptions C01_uint16.

Theorem C01_uint32 : forall v, 0 <= v < 2 ^ 32 ->
  exists bs, writes (WriteUint32 v) bs /\ is_le 4 v bs /\ reads ReadUint32 bs v.
Proof. exact uint32_wire. Qed.
Print Assumptions C01_uint32.

Theorem C01_uint64 : forall v, 0 <= v < 2 ^ 64 ->
  exists bs, writes (WriteUint64 v) bs /\ is_le 8 v bs /\ reads ReadUint64 bs v.
Proof. exact uint64_wire. Qed.
Print Assumptions C01_uint64.

Theorem C01_int8 : forall v, - 2 ^ 7 <= v < 2 ^ 7 ->
  exists bs, writes (WriteInt8 v) bs /\ is_le 1 v bs /\ reads ReadInt8 bs v.
Proof. exact int8_wire. Qed.
Print Assumptions C01_int8.

Theorem C01_int16 : forall v, - 2 ^ 15 <= v < 2 ^ 15 ->
  exists bs, writes (WriteInt16 v) bs /\ is_le 2 v bs /\ reads ReadInt16 bs v.
Proof. exact int16_wire. Qed.
Print Assumptions C01_int16.

Theorem C01_int32 : forall v, - 2 ^ 31 <= v < 2 ^ 31 ->
  exists bs, writes (WriteInt32 v) bs /\ is_le 4 v bs /\ reads ReadInt32 bs v.
Proof. exact int32_wire. Qed.
Print Assumptions C01_int32.

Theorem C01_int64 : forall v, - 2 ^ 63 <= v < 2 ^ 63 ->
  exists bs, writes (WriteInt64 v) bs /\ is_le 8 v bs /\ reads ReadInt64 bs v.
Proof. exact int64_wire. Qed.
Print Assumptions C01_int64.

Theorem C01_float32 : forall bits, 0 <= bits < 2 ^ 32 ->
  exists bs, writes (WriteFloat32 bits) bs /\ is_le 4 bits bs /\ reads ReadFloat32 bs bits.
Proof. exact float32_wire. Qed.
Print Assumptions C01_float32.

Theorem C01_float64 : forall bits, 0 <= bits < 2 ^ 64 ->
  exists bs, writes (WriteFloat64 bits) bs /\ is_le 8 bits bs /\ reads ReadFloat64 bs bits.
Proof. exact float64_wire. Qed.
Print Assumptions C01_float64.

Theorem C01_bool : forall v : bool,
  exists bs, writes (WriteBool v) bs /\ is_le 1 (if v then 1 else 0) bs /\ reads ReadBool bs v.
Proof. exact bool_wire'. Qed.
Print Assumptions C01_bool.

(** The specification pins the bytes: two encodings of one number are equal. *)
Theorem C01_bytes_determined : forall n v a b, is_le n v a -> is_le n v b -> a = b.
Proof. exact is_le_unique. Qed.
Print Assumptions C01_bytes_determined.

Example C01_ex : is_le 4 (-2) [xfe; xff; xff; xff] /\ -2 ^ 31 <= -2 < 2 ^ 31
  /\ writes (WriteInt32 (-2)) [xfe; xff; xff; xff].
Proof. split; [split; reflexivity|]. split; [lia|]. intros out. reflexivity. Qed.

(** * C02 *)
Theorem C02_varuint : forall v, 0 <= v < 2 ^ 28 ->
  exists bs, writes (WriteVaruint v) bs /\ leb_minimal bs /\ leb_value bs = v /\ reads ReadVaruint bs v.
Proof. exact varuint_wire. Qed.
Print Assumptions C02_varuint.

Theorem C02_varint : forall v, - 2 ^ 27 <= v < 2 ^ 27 ->
  exists bs, writes (WriteVarint v) bs /\ leb_minimal bs /\ leb_value bs = zigzag v /\ reads ReadVarint bs v.
Proof. exact varint_wire. Qed.
Print Assumptions C02_varint.

(** The minimal numeral of a number is unique, so the two theorems pin the bytes. *)
Theorem C02_minimal_unique : forall a b,
  leb_minimal a -> leb_minimal b -> leb_value a = leb_value b -> a = b.
Proof. exact leb_minimal_unique. Qed.
Print Assumptions C02_minimal_unique.

Example C02_ex : writes (WriteVaruint 300) [xac; x02] /\ leb_minimal [xac; x02]
  /\ leb_value [xac; x02] = 300 /\ writes (WriteVarint (-151)) [xad; x02].
Proof.
  split; [intros out; reflexivity|]. split; [|split; [reflexivity|intros out; reflexivity]].
  split; [split; [|]; vm_compute; congruence|]. right. discriminate.
Qed.

(** * C03 *)
Theorem C03_varuint_panics_iff : forall v, 0 <= v < 2 ^ 64 ->
  (wpanics (WriteVaruint v) <-> 2 ^ 28 <= v).
Proof. exact varuint_panics_iff. Qed.
Print Assumptions C03_varuint_panics_iff.

Theorem C03_varint_panics_iff : forall v, - 2 ^ 63 <= v < 2 ^ 63 ->
  (wpanics (WriteVarint v) <-> ~ (- 2 ^ 27 <= v < 2 ^ 27)).
Proof. exact varint_panics_iff. Qed.
Print Assumptions C03_varint_panics_iff.

(** A panic leaves nothing behind: no byte was written. *)
Theorem C03_panic_writes_nothing : forall v m out out',
  runw (WriteVaruint v) out = WCrash m out' -> out' = out.
Proof. exact varuint_panic_clean. Qed.
Print Assumptions C03_panic_writes_nothing.

Example C03_ex : wpanics (WriteVaruint (2 ^ 32 - 1)) /\ writes (WriteVaruint (2 ^ 28 - 1)) [xff; xff; xff; x7f].
Proof. split; intros out; [eexists; eexists|]; reflexivity. Qed.

(** * C04 *)
Theorem C04_varuint_reads_total : forall env inp,
  (exists bs rest, inp = bs ++ rest /\ leb_wf bs /\ (length bs <= 10)%nat /\ leb_value bs < 2 ^ 64
     /\ run env ReadVaruint inp = Done (leb_value bs, None) rest)
  \/ (exists bs b rest, inp = bs ++ b :: rest /\ all_cont bs /\ length bs = 9%nat /\ 2 <= zb b
     /\ run env ReadVaruint inp = Done (0, Some overflow_err) rest)
  \/ (all_cont inp /\ (length inp < 10)%nat
     /\ run env ReadVaruint inp = Done (0, Some (varuint_eof env inp)) []).
Proof. exact ReadVaruint_cases. Qed.
Print Assumptions C04_varuint_reads_total.

(** Every base-128 numeral of at most ten bytes with a 64-bit value is accepted,
    minimal or not. *)
Theorem C04_nonminimal_accepted : forall bs,
  leb_wf bs -> (length bs <= 10)%nat -> leb_value bs < 2 ^ 64 -> reads ReadVaruint bs (leb_value bs).
Proof. exact ReadVaruint_reads_leb. Qed.
Print Assumptions C04_nonminimal_accepted.

Example C04_ex : leb_wf [x80; x80; x00] /\ leb_value [x80; x80; x00] = 0 /\ leb_wf [x00] /\ leb_value [x00] = 0.
Proof. repeat split; vm_compute; congruence. Qed.

(** * C05 *)
Theorem C05_string : forall s, zlen s < 2 ^ 28 ->
  exists pre, leb_minimal pre /\ leb_value pre = zlen s
    /\ writes (WriteString s) (pre ++ s) /\ reads ReadString (pre ++ s) s.
Proof. exact string_wire. Qed.
Print Assumptions C05_string.

Theorem C05_byte_slice : forall b old, zlen b < 2 ^ 28 ->
  exists pre, leb_minimal pre /\ leb_value pre = zlen b
    /\ writes (EncodeByteSlice b) (pre ++ b) /\ reads (DecodeByteSlice old) (pre ++ b) b.
Proof. exact byteslice_wire. Qed.
Print Assumptions C05_byte_slice.

(** Whatever a string read returns without error, it is exactly as long as the
    prefix announced and it is the bytes behind the prefix. *)
Theorem C05_string_exact : forall env inp s rest,
  run env ReadString inp = Done (s, None) rest ->
  exists pre, leb_wf pre /\ leb_value pre = zlen s /\ inp = pre ++ s ++ rest.
Proof. exact ReadString_exact. Qed.
Print Assumptions C05_string_exact.

Example C05_ex : writes (WriteString (str "hi")) [x02; x68; x69] /\ zlen (str "hi") < 2 ^ 28.
Proof. split; [intros out; cbn; now rewrite <- app_assoc|vm_compute; reflexivity]. Qed.

(** * C06: for every decoding program whatsoever *)
Theorem C06_fragmentation_independent : forall (A : Type) (env : renv) (p : dec A) cs data,
  delivers (r_end env) cs data ->
  same_outcome (r_end env) (run env p data) (run_chunks env p cs).
Proof. exact @fragmentation. Qed.
Print Assumptions C06_fragmentation_independent.

Example C06_ex : delivers EOF
  [ {| c_data := [x05]; c_err := None |}; {| c_data := []; c_err := None |};
    {| c_data := [x68; x69]; c_err := Some EOF |} ] [x05; x68; x69].
Proof.
  apply (del_cons EOF [x05] _ [x68; x69]). apply (del_cons EOF [] _ [x68; x69]). apply del_last.
Qed.
