(** Proofs about the wire primitives. *)
From Verif Require Import Base BaseProofs Prog ProgProofs SpecWire GoVarint AbiPrim.
Ltac Zify.zify_post_hook ::= Z.div_mod_to_equations.

Lemma le_value_get bs : le_value bs = le_get bs.
Proof.
  induction bs as [|b bs IH]; [reflexivity|].
  cbn [le_value]. destruct (le_get_cons b bs) as [-> _]. now rewrite IH.
Qed.

Lemma is_le_put n v : is_le n v (le_put n v).
Proof.
  split; [apply le_put_length|]. rewrite le_value_get. apply le_get_put_mod.
Qed.

Lemma is_le_unique n v a b : is_le n v a -> is_le n v b -> a = b.
Proof.
  intros [La Va] [Lb Vb]. apply le_get_inj; [congruence|].
  rewrite <- !le_value_get. congruence.
Qed.

(** ** Writers *)
Lemma writes_bytes b : writes (WriteBytes b) b.
Proof. intros out. reflexivity. Qed.
Lemma writes_byte b : writes (WriteByte b) [bz b].
Proof. intros out. reflexivity. Qed.

Lemma wstrict_bytes b : WStrict (WriteBytes b).
Proof. constructor; [constructor|]. intros e. constructor. unfold werrs. congruence. Qed.
Lemma wstrict_byte b : WStrict (WriteByte b).
Proof. apply wstrict_bytes. Qed.
Lemma wfailing_bytes b : WFailing (WriteBytes b).
Proof. constructor. intros e. constructor. unfold werrs. congruence. Qed.
Lemma wstrict_bool b : WStrict (WriteBool b).
Proof. destruct b; apply wstrict_byte. Qed.
Lemma wstrict_varuint v : WStrict (WriteVaruint v).
Proof. unfold WriteVaruint. destruct (PutUvarint 4 v); [apply wstrict_bytes|constructor]. Qed.
Lemma wstrict_varint v : WStrict (WriteVarint v).
Proof. unfold WriteVarint. destruct (PutVarint 4 v); [apply wstrict_bytes|constructor]. Qed.
Lemma wstrict_string v : WStrict (WriteString v).
Proof. apply wstrict_etry; [apply wstrict_varuint|apply wstrict_bytes]. Qed.

(** ** ReadBytes *)
Lemma ReadBytes_strict n : IoStrict (ReadBytes n).
Proof.
  unfold ReadBytes. destruct (n <? 0) eqn:?; [constructor|].
  destruct (n =? 0) eqn:?; [constructor|].
  destruct (make_ok 1 n); [|constructor].
  constructor; [lia|intros; constructor|].
  intros got e L. constructor. unfold errs; cbn; congruence.
Qed.

Lemma ReadBytes_failing n : 0 < n <= max_alloc -> IoFailing (ReadBytes n).
Proof.
  intros H. unfold ReadBytes, make_ok. destruct (n <? 0) eqn:?; [lia|].
  destruct (n =? 0) eqn:?; [lia|].
  destruct (((0 <=? n) && (n * 1 <=? max_alloc))) eqn:?; [|unfold max_alloc in *; lia].
  constructor; [lia|]. intros e. constructor. unfold errs; cbn; congruence.
Qed.

Lemma ReadBytes_calm n : n <= max_alloc -> Calm (ReadBytes n).
Proof.
  intros H. unfold ReadBytes, make_ok. destruct (n <? 0) eqn:?; [constructor|].
  destruct (n =? 0) eqn:?; [constructor|].
  destruct (((0 <=? n) && (n * 1 <=? max_alloc))) eqn:?; [|lia].
  constructor; [lia|intros; constructor|intros; constructor].
Qed.

Lemma ReadBytes_reads bs : zlen bs <= max_alloc ->
  reads (ReadBytes (zlen bs)) bs (zlen bs, bs).
Proof.
  intros H env rest. unfold ReadBytes, make_ok. pose proof (zlen_nonneg bs).
  destruct (zlen bs <? 0) eqn:?; [lia|].
  destruct (zlen bs =? 0) eqn:E0.
  { destruct bs; [reflexivity|]. rewrite zlen_cons in E0. pose proof (zlen_nonneg bs). lia. }
  destruct (((0 <=? zlen bs) && (zlen bs * 1 <=? max_alloc))) eqn:?; [|lia].
  cbn [run]. rewrite zlen_app. pose proof (zlen_nonneg rest).
  destruct (Z.leb_spec (zlen bs) (zlen bs + zlen rest)); [|lia].
  unfold zlen. rewrite Nat2Z.id, firstn_app_exact, skipn_app_exact. reflexivity.
Qed.

(** Reading a fixed number of bytes and post-processing them. *)
Definition fixed {A} (d : A) (n : Z) (f : list byte -> A) : io A :=
  '(_, b, err) <-- ReadBytes n ;;
  match err with Some e => DRet (d, Some e) | None => DRet (f b, None) end.

Lemma fixed_strict {A} (d : A) n f : IoStrict (fixed d n f).
Proof.
  unfold fixed. eapply strict_bind; [apply ReadBytes_strict| |].
  - intros [[an b] [e|]]; constructor.
  - intros [[an b] [e|]] H; [|now elim H]. constructor. unfold errs; cbn; congruence.
Qed.

Lemma fixed_failing {A} (d : A) n f : 0 < n <= max_alloc -> IoFailing (fixed d n f).
Proof.
  intros H. unfold fixed. eapply failing_bind; [apply ReadBytes_failing; exact H|].
  intros [[an b] [e|]] He; [|now elim He]. constructor. unfold errs; cbn; congruence.
Qed.

Lemma fixed_calm {A} (d : A) n f : n <= max_alloc -> Calm (fixed d n f).
Proof.
  intros H. apply calm_bind; [now apply ReadBytes_calm|].
  intros [[an b] [e|]]; constructor.
Qed.

Lemma fixed_reads {A} (d : A) n f bs :
  zlen bs = n -> n <= max_alloc -> reads (fixed d n f) bs (f bs).
Proof.
  intros <- H. rewrite <- (app_nil_r bs) at 2. unfold fixed.
  eapply reads_dbind; [now apply ReadBytes_reads|]. apply reads_ret.
Qed.

(** ReadByte *)
Lemma ReadByte_strict : IoStrict ReadByte.
Proof.
  unfold ReadByte. eapply strict_bind; [apply ReadBytes_strict| |].
  - intros [[an [|c b]] [e|]]; constructor.
  - intros [[an b] [e|]] H; [|now elim H]. constructor. unfold errs; cbn; congruence.
Qed.
Lemma ReadByte_failing : IoFailing ReadByte.
Proof.
  unfold ReadByte. eapply failing_bind; [apply ReadBytes_failing; unfold max_alloc; lia|].
  intros [[an b] [e|]] He; [|now elim He]. constructor. unfold errs; cbn; congruence.
Qed.
Lemma ReadByte_eq : ReadByte = DRead 1 (fun got err =>
  dbind (match err with
         | None => DRet ((zlen got, got), None)
         | Some e => DRet ((zlen got, got ++ zeros (Z.to_nat 1 - length got)), Some e)
         end)
    (fun '(_, b, err) => match err with
  | Some e => DRet (0, Some e)
  | None => match b with c :: _ => DRet (zb c, None) | [] => DPanic "index out of range" end end)).
Proof. reflexivity. Qed.
Lemma ReadByte_calm : Calm ReadByte.
Proof.
  rewrite ReadByte_eq. constructor; [lia| |].
  - intros [|c bs] L; [cbn in L; discriminate|constructor].
  - intros. constructor.
Qed.
Lemma run_ReadByte_cons env b inp : run env ReadByte (b :: inp) = Done (zb b, None) inp.
Proof.
  rewrite ReadByte_eq. cbn [run].
  rewrite zlen_cons. pose proof (zlen_nonneg inp).
  destruct (Z.leb_spec 1 (1 + zlen inp)); [reflexivity|lia].
Qed.
Lemma run_ReadByte_nil env : run env ReadByte [] = Done (0, Some (r_end env)) [].
Proof. rewrite ReadByte_eq. cbn. now destruct (r_end env). Qed.

(** ** Fixed-width round trips *)
Definition wire {A} (w : A -> wr) (r : io A) (n : nat) (num : A -> Z) (v : A) : Prop :=
  exists bs, writes (w v) bs /\ is_le n (num v) bs /\ reads r bs v.

Lemma wire_fixed (w : Z -> wr) (r : io Z) n (f : list byte -> Z) v :
  w v = WriteBytes (le_put n v) ->
  r = fixed 0 (Z.of_nat n) f ->
  Z.of_nat n <= max_alloc ->
  f (le_put n v) = v ->
  wire w r n (fun v => v) v.
Proof.
  intros Hw Hr Hn Hf. exists (le_put n v).
  split; [rewrite Hw; apply writes_bytes|]. split; [apply is_le_put|].
  rewrite Hr. rewrite <- Hf at 2. apply fixed_reads; [|exact Hn].
  unfold zlen. now rewrite le_put_length.
Qed.

Lemma uint8_wire v : 0 <= v < two8 -> wire WriteUint8 ReadUint8 1 (fun v => v) v.
Proof.
  intros H. exists [bz v]. split; [apply writes_byte|].
  split; [apply (is_le_put 1)|]. intros env rest. unfold ReadUint8.
  rewrite run_dtry. cbn [app]. rewrite run_ReadByte_cons, zb_bz. cbn [run].
  rewrite Z.mod_small by lia. reflexivity.
Qed.
Lemma uint16_wire v : 0 <= v < two16 -> wire WriteUint16 ReadUint16 2 (fun v => v) v.
Proof.
  intros H. apply wire_fixed with (f := le_get); try reflexivity; [unfold max_alloc; lia|].
  apply le_get_put. lia.
Qed.
Lemma uint32_wire v : 0 <= v < two32 -> wire WriteUint32 ReadUint32 4 (fun v => v) v.
Proof.
  intros H. apply wire_fixed with (f := le_get); try reflexivity; [unfold max_alloc; lia|].
  apply le_get_put. lia.
Qed.
Lemma uint64_wire v : 0 <= v < two64 -> wire WriteUint64 ReadUint64 8 (fun v => v) v.
Proof.
  intros H. apply wire_fixed with (f := le_get); try reflexivity; [unfold max_alloc; lia|].
  apply le_get_put. lia.
Qed.

Lemma is_le_mod n v bs : is_le n (v mod 256 ^ Z.of_nat n) bs -> is_le n v bs.
Proof.
  intros [L V]. split; [exact L|]. rewrite V, Z.mod_mod; [reflexivity|].
  apply Z.pow_nonzero; lia.
Qed.

Lemma wire_signed (w wu : Z -> wr) (r ru : io Z) n cast ucast v :
  w v = wu (ucast v) ->
  r = dtry 0 ru (fun v => DRet (cast v, None)) ->
  ucast v = v mod 256 ^ Z.of_nat n ->
  cast (ucast v) = v ->
  wire wu ru n (fun v => v) (ucast v) ->
  wire w r n (fun v => v) v.
Proof.
  intros Hw Hr Hu Hc [bs [W [L R]]]. exists bs. split; [now rewrite Hw|].
  split; [apply is_le_mod; now rewrite <- Hu|].
  rewrite Hr, <- (app_nil_r bs). eapply reads_dtry; [exact R|].
  rewrite Hc. apply reads_ret.
Qed.

Lemma int8_wire v : -128 <= v < 128 -> wire WriteInt8 ReadInt8 1 (fun v => v) v.
Proof.
  intros H. apply wire_signed with (wu := WriteUint8) (ru := ReadByte) (cast := i8) (ucast := u8);
    try reflexivity; [now apply i8_u8|].
  assert (U : 0 <= u8 v < 256) by (unfold u8; lia).
  destruct (uint8_wire (u8 v) U) as [bs [W [L R]]].
  exists [bz (u8 v)]. split; [apply writes_byte|]. split; [apply (is_le_put 1)|].
  intros env rest. cbn [app]. rewrite run_ReadByte_cons, zb_bz, Z.mod_small by lia. reflexivity.
Qed.
Lemma int16_wire v : -32768 <= v < 32768 -> wire WriteInt16 ReadInt16 2 (fun v => v) v.
Proof.
  intros H. apply wire_signed with (wu := WriteUint16) (ru := ReadUint16) (cast := i16) (ucast := u16);
    try reflexivity; [now apply i16_u16|]. apply uint16_wire. unfold u16; lia.
Qed.
Lemma int32_wire v : -2147483648 <= v < 2147483648 -> wire WriteInt32 ReadInt32 4 (fun v => v) v.
Proof.
  intros H. apply wire_signed with (wu := WriteUint32) (ru := ReadUint32) (cast := i32) (ucast := u32);
    try reflexivity; [now apply i32_u32|]. apply uint32_wire. unfold u32; lia.
Qed.
Lemma int64_wire v : -two63 <= v < two63 -> wire WriteInt64 ReadInt64 8 (fun v => v) v.
Proof.
  intros H. apply wire_signed with (wu := WriteUint64) (ru := ReadUint64) (cast := i64) (ucast := u64);
    try reflexivity; [now apply i64_u64|]. apply uint64_wire. unfold u64; lia.
Qed.
Lemma float32_wire v : 0 <= v < two32 -> wire WriteFloat32 ReadFloat32 4 (fun v => v) v.
Proof.
  intros H. apply wire_signed with (wu := WriteUint32) (ru := ReadUint32) (cast := fun v => v) (ucast := u32);
    try reflexivity; [|now apply u32_small|].
  - unfold WriteFloat32. now rewrite u32_small.
  - apply uint32_wire. unfold u32; lia.
Qed.
Lemma float64_wire v : 0 <= v < two64 -> wire WriteFloat64 ReadFloat64 8 (fun v => v) v.
Proof.
  intros H. apply wire_signed with (wu := WriteUint64) (ru := ReadUint64) (cast := fun v => v) (ucast := u64);
    try reflexivity; [|now apply u64_small|].
  - unfold WriteFloat64. now rewrite u64_small.
  - apply uint64_wire. unfold u64; lia.
Qed.
Lemma bool_wire v : wire WriteBool ReadBool 1 Z.b2z v.
Proof.
  exists [if v then x01 else x00]. split; [destruct v; intros out; reflexivity|].
  split; [destruct v; split; reflexivity|].
  intros env rest. unfold ReadBool. rewrite run_dbind. cbn [app].
  rewrite run_ReadByte_cons. destruct v; reflexivity.
Qed.

Lemma ReadUint64_reads v : 0 <= v < two64 -> reads ReadUint64 (le_put 8 v) v.
Proof.
  intros H. rewrite <- (le_get_put 8 v) at 2 by lia.
  apply (fixed_reads 0 8 le_get); [unfold zlen; now rewrite le_put_length|unfold max_alloc; lia].
Qed.
Lemma ReadUint32_reads v : 0 <= v < two32 -> reads ReadUint32 (le_put 4 v) v.
Proof.
  intros H. rewrite <- (le_get_put 4 v) at 2 by lia.
  apply (fixed_reads 0 4 le_get); [unfold zlen; now rewrite le_put_length|unfold max_alloc; lia].
Qed.
Lemma ReadUint16_reads v : 0 <= v < two16 -> reads ReadUint16 (le_put 2 v) v.
Proof.
  intros H. rewrite <- (le_get_put 2 v) at 2 by lia.
  apply (fixed_reads 0 2 le_get); [unfold zlen; now rewrite le_put_length|unfold max_alloc; lia].
Qed.

(** ** Varints *)

Lemma lor128_mod x : zb (bz (Z.lor x 128)) = 128 + x mod 128.
Proof.
  rewrite zb_bz. change 256 with (2 ^ 8). rewrite <- Z.land_ones by lia.
  rewrite Z.land_lor_distr_l, Z.land_ones by lia. change (Z.land 128 (Z.ones 8)) with 128.
  change (2 ^ 8) with 256.
  assert (H : x mod 256 = x mod 128 \/ x mod 256 = x mod 128 + 128) by lia.
  assert (R : 0 <= x mod 128 < 128) by lia.
  assert (E : Z.lor (x mod 128) 128 = x mod 128 + 128).
  { change 128 with (Z.shiftl 1 7) at 2. rewrite lor_add_disjoint by (cbn; lia). lia. }
  destruct H as [->| ->].
  - lia.
  - rewrite <- E, <- Z.lor_assoc. change (Z.lor 128 128) with 128. lia.
Qed.

Lemma leb_value_nonneg bs : 0 <= leb_value bs.
Proof.
  induction bs as [|b bs IH]; cbn [leb_value]; [lia|]. pose proof (zb_range b). lia.
Qed.

Lemma PutUvarint_some cap : forall x, 0 <= x < 128 ^ Z.of_nat cap -> cap <> O ->
  exists bs, PutUvarint cap x = Some bs /\ leb_minimal bs /\ leb_value bs = x
    /\ (length bs <= cap)%nat /\ (bs <> [x00] -> 0 < x).
Proof.
  induction cap as [|c IH]; intros x Hx Hc; [congruence|].
  cbn [PutUvarint]. rewrite Z.geb_leb. destruct (Z.leb_spec 128 x) as [G|G].
  - rewrite Z.shiftr_div_pow2 by lia. change (2 ^ 7) with 128.
    rewrite Nat2Z.inj_succ, Z.pow_succ_r in Hx by lia.
    destruct c as [|c].
    { change (128 ^ Z.of_nat 0) with 1 in Hx. lia. }
    destruct (IH (x / 128)) as [bs [E [[W M] [V [L P]]]]]; [lia|congruence|].
    rewrite E. exists (bz (Z.lor x 128) :: bs). split; [reflexivity|].
    destruct bs as [|b bs]; [destruct W|].
    assert (NZ : b :: bs <> [x00]).
    { intros EQ. rewrite EQ in V. cbn in V. lia. }
    split; [split|split; [|split]].
    + change (leb_wf (bz (Z.lor x 128) :: b :: bs)) with (128 <= zb (bz (Z.lor x 128)) /\ leb_wf (b :: bs)).
      split; [rewrite lor128_mod; lia|exact W].
    + right. destruct M as [M|M].
      * destruct bs; [|discriminate]. cbn. intros ->. congruence.
      * exact M.
    + change (leb_value (bz (Z.lor x 128) :: b :: bs))
        with (zb (bz (Z.lor x 128)) mod 128 + 128 * leb_value (b :: bs)).
      rewrite lor128_mod, V. lia.
    + cbn [length] in *. lia.
    + lia.
  - exists [bz x]. split; [reflexivity|]. cbn [leb_value leb_wf].
    split; [split|split; [|split]].
    + cbn. rewrite zb_bz, Z.mod_small by lia. lia.
    + now left.
    + rewrite zb_bz. lia.
    + cbn; lia.
    + intros N. destruct (Z.eq_dec x 0) as [->|]; [|lia]. now elim N.
Qed.

Lemma PutUvarint_none cap : forall x, 128 ^ Z.of_nat cap <= x -> PutUvarint cap x = None.
Proof.
  induction cap as [|c IH]; intros x Hx; [reflexivity|].
  cbn [PutUvarint]. rewrite Nat2Z.inj_succ, Z.pow_succ_r in Hx by lia.
  assert (1 <= 128 ^ Z.of_nat c) by (pose proof (Z.pow_pos_nonneg 128 (Z.of_nat c)); lia).
  rewrite Z.geb_leb. destruct (Z.leb_spec 128 x) as [G|G]; [|lia].
  rewrite Z.shiftr_div_pow2 by lia. change (2 ^ 7) with 128.
  rewrite IH by lia. reflexivity.
Qed.

(** The bytes WriteVaruint writes for v. *)
Definition varuint (v : Z) : list byte :=
  match PutUvarint 4 v with Some b => b | None => [] end.

Lemma varuint_spec v : 0 <= v < 268435456 ->
  PutUvarint 4 v = Some (varuint v) /\ leb_minimal (varuint v) /\ leb_value (varuint v) = v
  /\ (1 <= length (varuint v) <= 4)%nat.
Proof.
  intros H. destruct (PutUvarint_some 4 v) as [bs [E [M [V [L _]]]]];
    [change (128 ^ Z.of_nat 4) with 268435456; lia|congruence|].
  unfold varuint. rewrite E. repeat split; try apply M; auto.
  destruct M as [W _]. destruct bs; [destruct W|cbn; lia].
Qed.

Lemma WriteVaruint_writes v : 0 <= v < 268435456 -> writes (WriteVaruint v) (varuint v).
Proof.
  intros H. destruct (varuint_spec v H) as [E _]. unfold WriteVaruint. rewrite E. apply writes_bytes.
Qed.

Lemma WriteVaruint_panics v : 268435456 <= v -> WriteVaruint v = EPanic "index out of range".
Proof. intros H. unfold WriteVaruint. rewrite PutUvarint_none; [reflexivity|exact H]. Qed.

(** *** Reading *)
Lemma run_loop_nil env l x s :
  run env (ReadUvarint_loop ReadByte (S l) x s) [] =
  Done (x, Some (match r_end env with
                 | EOF => if r_strict env && negb (Nat.eqb (S l) 10) then ErrUnexpectedEOF else EOF
                 | e => e end)) [].
Proof.
  cbn [ReadUvarint_loop]. rewrite run_dbind, run_ReadByte_nil. cbn [run].
  destruct (r_end env); try reflexivity.
  destruct (r_strict env && negb (Nat.eqb (S l) 10)); reflexivity.
Qed.

Lemma run_loop_cons env l x s b inp :
  run env (ReadUvarint_loop ReadByte (S l) x s) (b :: inp) =
  if zb b <? 128
  then if Nat.eqb (S l) 1 && (zb b >? 1)
       then Done (x, Some (ErrMsg "binary: varint overflows a 64-bit integer")) inp
       else Done (Z.lor x (u64 (Z.shiftl (zb b) s)), None) inp
  else run env (ReadUvarint_loop ReadByte l (Z.lor x (u64 (Z.shiftl (Z.land (zb b) 127) s))) (s + 7)) inp.
Proof.
  cbn [ReadUvarint_loop]. rewrite run_dbind, run_ReadByte_cons.
  destruct (zb b <? 128); [|reflexivity].
  destruct (Nat.eqb (S l) 1 && (zb b >? 1)); reflexivity.
Qed.

Lemma step_value x b s m : 0 <= s -> 0 <= x < 2 ^ s -> 0 <= b < 2 ^ m -> 0 <= m -> s + m <= 64 ->
  Z.lor x (u64 (Z.shiftl b s)) = x + b * 2 ^ s /\ 0 <= x + b * 2 ^ s < 2 ^ (s + m).
Proof.
  intros Hs Hx Hb Hm Hsm.
  assert (E : 2 ^ (s + m) = 2 ^ s * 2 ^ m) by (apply Z.pow_add_r; lia).
  assert (P : 2 ^ (s + m) <= two64) by (apply (Z.pow_le_mono_r 2 (s+m) 64); lia).
  assert (0 < 2 ^ s) by (apply Z.pow_pos_nonneg; lia).
  assert (B : b * 2 ^ s <= (2 ^ m - 1) * 2 ^ s) by (apply Z.mul_le_mono_nonneg_r; lia).
  assert (0 <= b * 2 ^ s) by (apply Z.mul_nonneg_nonneg; lia).
  rewrite Z.shiftl_mul_pow2 by lia. unfold u64. rewrite Z.mod_small by lia.
  rewrite <- Z.shiftl_mul_pow2 by lia. rewrite lor_add_disjoint by lia.
  rewrite <- (Z.shiftl_mul_pow2 b s) by lia. rewrite Z.shiftl_mul_pow2 by lia.
  split; [reflexivity|]. lia.
Qed.

Lemma land127 b : Z.land b 127 = b mod 128.
Proof. apply (Z.land_ones b 7); lia. Qed.

(** The full case analysis of the loop. *)
Lemma loop_cases env : forall left x inp, (left <= 10)%nat ->
  let s := 7 * (10 - Z.of_nat left) in
  0 <= x < 2 ^ s ->
  (exists bs rest, inp = bs ++ rest /\ leb_wf bs /\ (length bs <= left)%nat
     /\ x + leb_value bs * 2 ^ s < two64
     /\ run env (ReadUvarint_loop ReadByte left x s) inp = Done (x + leb_value bs * 2 ^ s, None) rest)
  \/ (exists bs b rest x', inp = bs ++ b :: rest /\ all_cont bs /\ length (bs ++ [b]) = left
     /\ 2 <= zb b
     /\ run env (ReadUvarint_loop ReadByte left x s) inp = Done (x', Some overflow_err) rest)
  \/ left = O
  \/ (all_cont inp /\ (length inp < left)%nat
     /\ exists x', run env (ReadUvarint_loop ReadByte left x s) inp =
        Done (x', Some (match r_end env with
                 | EOF => if r_strict env && negb (Nat.eqb (left - length inp) 10) then ErrUnexpectedEOF else EOF
                 | e => e end)) []).
Proof.
  induction left as [|l IH]; intros x inp Hl s Hx; [auto|].
  destruct inp as [|b inp].
  - right. right. right. split; [constructor|]. split; [cbn; lia|]. exists x.
    rewrite run_loop_nil. reflexivity.
  - rewrite run_loop_cons. pose proof (zb_range b) as Rb.
    destruct (Z.ltb_spec (zb b) 128) as [Lb|Lb].
    + destruct (Nat.eqb_spec (S l) 1) as [E1|E1].
      * rewrite Z.gtb_ltb. destruct (Z.ltb_spec 1 (zb b)) as [O1|O1]; cbn [andb].
        -- right. left. exists [], b, inp, x. split; [reflexivity|]. split; [constructor|].
           split; [cbn; lia|]. split; [lia|]. reflexivity.
        -- left. assert (Hs : s = 63) by (subst s; lia).
           destruct (step_value x (zb b) s 1) as [E B]; try lia.
           exists [b], inp. split; [reflexivity|]. split; [cbn; lia|]. split; [cbn; lia|].
           cbn [leb_value]. rewrite Z.mod_small by lia.
           rewrite Hs in *. change (2 ^ (63 + 1)) with two64 in B.
           split; [lia|]. rewrite E. do 2 f_equal. lia.
      * cbn [andb]. left.
        destruct (step_value x (zb b) s 7) as [E B]; try (subst s; lia).
        exists [b], inp. split; [reflexivity|]. split; [cbn; lia|]. split; [cbn; lia|].
        cbn [leb_value]. rewrite Z.mod_small by lia.
        assert (P : 2 ^ (s + 7) <= two64) by (apply (Z.pow_le_mono_r 2 (s+7) 64); subst s; lia).
        split; [lia|]. rewrite E. do 2 f_equal. lia.
    + rewrite land127.
      destruct l as [|l'].
      * right. left. eexists [], b, inp, _. split; [reflexivity|]. split; [constructor|].
        split; [reflexivity|]. split; [lia|]. reflexivity.
      * destruct (step_value x (zb b mod 128) s 7) as [E B]; try (subst s; lia).
        rewrite E.
        assert (Hs' : s + 7 = 7 * (10 - Z.of_nat (S l'))) by (subst s; lia).
        rewrite Hs'. rewrite Hs' in B.
        assert (Hpow : 2 ^ (7 * (10 - Z.of_nat (S l'))) = 2 ^ s * 128).
        { rewrite <- Hs'. rewrite Z.pow_add_r by (subst s; lia). reflexivity. }
        destruct (IH (x + zb b mod 128 * 2 ^ s) inp ltac:(lia) B)
          as [[bs [rest [-> [W [L [V R]]]]]]|[[bs [c [rest [x' [-> [A [L [Z2 R]]]]]]]]|[?|[A [L [x' R]]]]]].
        -- left. exists (b :: bs), rest. split; [reflexivity|].
           split; [destruct bs; [destruct W|split; [lia|exact W]]|]. split; [cbn; lia|].
           cbn [leb_value]. rewrite R. rewrite Hpow in *.
           replace (x + (zb b mod 128 + 128 * leb_value bs) * 2 ^ s)
             with (x + zb b mod 128 * 2 ^ s + leb_value bs * (2 ^ s * 128)) by ring.
           split; [exact V|reflexivity].
        -- right. left. exists (b :: bs), c, rest, x'. split; [reflexivity|].
           split; [constructor; [lia|exact A]|]. split; [cbn in *; lia|]. split; [exact Z2|exact R].
        -- discriminate.
        -- right. right. right. split; [constructor; [lia|exact A]|]. split; [cbn; lia|].
           exists x'. rewrite R. reflexivity.
Qed.

Lemma ReadVaruint_cases env inp :
  (exists bs rest, inp = bs ++ rest /\ leb_wf bs /\ (length bs <= 10)%nat
     /\ leb_value bs < two64
     /\ run env ReadVaruint inp = Done (leb_value bs, None) rest)
  \/ (exists bs b rest, inp = bs ++ b :: rest /\ all_cont bs /\ length bs = 9%nat
     /\ 2 <= zb b
     /\ run env ReadVaruint inp = Done (0, Some overflow_err) rest)
  \/ (all_cont inp /\ (length inp < 10)%nat
     /\ run env ReadVaruint inp = Done (0, Some (varuint_eof env inp)) []).
Proof.
  unfold ReadVaruint. rewrite run_dtry. unfold ReadUvarint.
  destruct (loop_cases env 10 0 inp (le_n 10)) as [H|[H|[H|H]]]; [cbn; lia| | | |].
  - left. destruct H as [bs [rest [E [W [L [V R]]]]]]. exists bs, rest.
    change (2 ^ (7 * (10 - Z.of_nat 10))) with 1 in *.
    change (7 * (10 - Z.of_nat 10)) with 0 in R. rewrite R.
    rewrite Z.add_0_l, Z.mul_1_r in *. repeat split; auto.
  - right. left. destruct H as [bs [b [rest [x' [E [A [L [Z2 R]]]]]]]]. exists bs, b, rest.
    change (7 * (10 - Z.of_nat 10)) with 0 in R. rewrite R.
    rewrite app_length in L. cbn in L. repeat split; auto. lia.
  - discriminate.
  - right. right. destruct H as [A [L [x' R]]].
    change (7 * (10 - Z.of_nat 10)) with 0 in R. rewrite R. repeat split; auto.
    cbn [run]. unfold varuint_eof. do 3 f_equal.
    destruct (r_end env); try reflexivity. destruct (r_strict env); [|reflexivity].
    destruct inp as [|b inp]; [reflexivity|]. cbn [length andb].
    destruct (Nat.eqb_spec (10 - S (length inp)) 10); [lia|reflexivity].
Qed.

Lemma leb_wf_not_cont bs : leb_wf bs -> ~ all_cont bs.
Proof.
  induction bs as [|b bs IH]; [intros []|]. destruct bs as [|c bs].
  - cbn. intros H A. inversion A; subst. lia.
  - intros [_ W] A. inversion A; subst. now apply IH.
Qed.

Lemma leb_prefix_unique a : forall b ra rb,
  leb_wf a -> leb_wf b -> a ++ ra = b ++ rb -> a = b /\ ra = rb.
Proof.
  induction a as [|x a IH]; intros b ra rb Wa Wb E; [destruct Wa|].
  destruct b as [|y b]; [destruct Wb|]. cbn in E. inversion E; subst y.
  destruct a as [|x' a], b as [|y' b].
  - cbn in *. split; [reflexivity|assumption].
  - destruct Wb as [G _]. cbn in Wa. lia.
  - destruct Wa as [G _]. cbn in Wb. lia.
  - destruct Wa as [_ Wa], Wb as [_ Wb].
    destruct (IH _ _ _ Wa Wb H1) as [-> ->]. auto.
Qed.

Lemma leb_value_bound bs : leb_value bs < 128 ^ zlen bs.
Proof.
  induction bs as [|b bs IH]; [cbn; lia|].
  cbn [leb_value]. rewrite zlen_cons, Z.pow_add_r by (try lia; apply zlen_nonneg).
  change (128 ^ 1) with 128. pose proof (zb_range b). lia.
Qed.

Lemma leb_split_cont bs b rest c rest' :
  leb_wf c -> all_cont bs -> bs ++ b :: rest = c ++ rest' -> (length bs < length c)%nat.
Proof.
  revert c. induction bs as [|x bs IH]; intros c W A E.
  - destruct c; [destruct W|cbn; lia].
  - destruct c as [|y c]; [destruct W|]. cbn in E. inversion E; subst. inversion A; subst.
    destruct c as [|z c]; [cbn in W; lia|]. destruct W as [_ W]. cbn [length].
    specialize (IH (z :: c) W H3 H1). cbn [length] in IH. lia.
Qed.

Lemma ReadVaruint_reads_leb bs : leb_wf bs -> (length bs <= 10)%nat -> leb_value bs < two64 ->
  reads ReadVaruint bs (leb_value bs).
Proof.
  intros W L V env rest.
  destruct (ReadVaruint_cases env (bs ++ rest))
    as [[bs' [r' [E [W' [L' [V' R]]]]]]|[[bs' [b [r' [E [A [L' [Z2 R]]]]]]]|[A [L' R]]]].
  - destruct (leb_prefix_unique _ _ _ _ W W' E) as [<- <-]. exact R.
  - exfalso. symmetry in E. pose proof (leb_split_cont _ _ _ _ _ W A E) as Lb.
    assert (Lbs : length bs = 10%nat) by lia.
    assert (Ebs : bs = bs' ++ [b]).
    { change (b :: r') with ([b] ++ r') in E. rewrite app_assoc in E.
      apply app_inj_len in E; [now destruct E|]. rewrite app_length. cbn. lia. }
    assert (Hlt : zb b < 128).
    { clear - W Ebs. subst bs. induction bs' as [|x bs' IH]; [exact W|].
      destruct bs' as [|y bs']; cbn [app] in W; destruct W as [_ W]; [exact W|now apply IH]. }
    assert (Hv : forall p, leb_value (p ++ [b]) = leb_value p + 128 ^ zlen p * zb b).
    { clear - Hlt. pose proof (zb_range b). induction p as [|x p IH].
      - change (zlen (@nil byte)) with 0. cbn [app leb_value]. rewrite Z.mod_small by lia.
        rewrite Z.pow_0_r. lia.
      - cbn [app leb_value]. rewrite IH, zlen_cons, Z.pow_add_r by (try lia; apply zlen_nonneg).
        change (128 ^ 1) with 128. ring. }
    rewrite Ebs, Hv in V. pose proof (leb_value_nonneg bs').
    unfold zlen in V. rewrite L' in V. change (128 ^ Z.of_nat 9) with 9223372036854775808 in V. lia.
  - exfalso. apply (leb_wf_not_cont bs W). unfold all_cont in *. apply Forall_app in A. tauto.
Qed.

Lemma ReadVaruint_reads v : 0 <= v < 268435456 -> reads ReadVaruint (varuint v) v.
Proof.
  intros H. destruct (varuint_spec v H) as [_ [[W _] [V L]]].
  rewrite <- V at 2. apply ReadVaruint_reads_leb; [exact W|lia|lia].
Qed.

Lemma ReadUvarint_strict_loop l : forall x s, IoStrict (ReadUvarint_loop ReadByte l x s).
Proof.
  induction l as [|l IH]; intros x s; cbn [ReadUvarint_loop]; [constructor|].
  assert (X : forall e', @IoFailing Z (DRet (x, Some e'))) by (intros; constructor; unfold errs; cbn; congruence).
  change (ReadByte) with (DRead 1 (fun got err => '(_, b, err) <-- match err with
    | None => DRet ((zlen got, got), None) | Some e => DRet ((zlen got, got ++ zeros (Z.to_nat 1 - length got)), Some e) end ;;
    match err with Some e => DRet (0, Some e) | None => match b with c :: _ => DRet (zb c, None) | [] => DPanic "index out of range" end end)).
  cbn [dbind]. constructor; [lia| |].
  - intros [|c bs] L; [discriminate L|]. cbn [dbind]. destruct (_ <? 128); [|apply IH]. destruct ((_ =? 1)%nat && _); constructor.
  - intros got e _. cbn [dbind]. constructor. intros st. destruct e; try apply X. destruct (st && _); apply X.
Qed.

Lemma ReadUvarint_failing_loop l : forall x s, IoFailing (ReadUvarint_loop ReadByte l x s).
Proof.
  destruct l as [|l]; intros x s; cbn [ReadUvarint_loop].
  { constructor. unfold errs; cbn; congruence. }
  eapply failing_bind; [apply ReadByte_failing|].
  intros [b [e|]] He; [|now elim He]. constructor. intros st.
  assert (X : forall e', @IoFailing Z (DRet (x, Some e'))) by (intros; constructor; unfold errs; cbn; congruence).
  destruct e; try apply X. destruct (st && _); apply X.
Qed.

Lemma ReadUvarint_calm_loop l : forall x s, Calm (ReadUvarint_loop ReadByte l x s).
Proof.
  induction l as [|l IH]; intros x s; cbn [ReadUvarint_loop]; [constructor|].
  apply calm_bind; [apply ReadByte_calm|].
  intros [b [e|]].
  - constructor. intros st. destruct e; try constructor. destruct (st && _); constructor.
  - destruct (b <? 128); [|apply IH]. destruct ((_ =? 1)%nat && _); constructor.
Qed.

Lemma ReadVaruint_strict : IoStrict ReadVaruint.
Proof. apply strict_dtry; [apply ReadUvarint_strict_loop|intros; constructor]. Qed.
Lemma ReadVaruint_failing : IoFailing ReadVaruint.
Proof. apply failing_dtry, ReadUvarint_failing_loop. Qed.
Lemma ReadVaruint_calm : Calm ReadVaruint.
Proof. apply calm_dtry; [apply ReadUvarint_calm_loop|intros; constructor]. Qed.

(** *** Signed *)
Lemma PutVarint_zigzag cap v : - two63 <= v < two63 -> PutVarint cap v = PutUvarint cap (zigzag v).
Proof.
  intros H. unfold PutVarint, zigzag. f_equal.
  rewrite Z.shiftl_mul_pow2 by lia. change (2 ^ 1) with 2.
  unfold u64, Z.lnot. destruct (Z.ltb_spec v 0), (Z.leb_spec 0 v); lia.
Qed.

Lemma zigzag_range v : 0 <= zigzag v.
Proof. unfold zigzag. destruct (Z.leb_spec 0 v); lia. Qed.

Lemma zigzag_lt28 v : zigzag v < 268435456 <-> -134217728 <= v < 134217728.
Proof. unfold zigzag. destruct (Z.leb_spec 0 v); lia. Qed.

Lemma WriteVarint_zigzag v : - two63 <= v < two63 -> WriteVarint v = WriteVaruint (zigzag v).
Proof. intros H. unfold WriteVarint, WriteVaruint. now rewrite PutVarint_zigzag. Qed.

Lemma unzigzag ux : 0 <= ux < two64 ->
  forall v, zigzag v = ux ->
  (if Z.land ux 1 =? 0 then i64 (Z.shiftr ux 1) else Z.lnot (i64 (Z.shiftr ux 1))) = v.
Proof.
  intros H v Hz. rewrite Z.shiftr_div_pow2 by lia. change (2 ^ 1) with 2.
  change (Z.land ux 1) with (Z.land ux (Z.ones 1)). rewrite (Z.land_ones ux 1) by lia. change (2 ^ 1) with 2.
  unfold Z.lnot, i64. unfold zigzag in Hz.
  destruct (Z.leb_spec 0 v); destruct (Z.eqb_spec (ux mod 2) 0); lia.
Qed.

Lemma ReadVarint_reads bs v : reads (ReadUvarint ReadByte) bs (zigzag v) -> zigzag v < two64 ->
  reads ReadVarint bs v.
Proof.
  intros R H env rest. unfold ReadVarint. rewrite run_dtry. unfold GoVarint.ReadVarint.
  rewrite run_dbind, R. cbn [run]. rewrite unzigzag with (v := v); [reflexivity| |reflexivity].
  pose proof (zigzag_range v). lia.
Qed.

Lemma reads_uvarint v : 0 <= v < 268435456 -> reads (ReadUvarint ReadByte) (varuint v) v.
Proof.
  intros H env rest. pose proof (ReadVaruint_reads v H env rest) as R.
  unfold ReadVaruint in R. rewrite run_dtry in R.
  destruct (run env (ReadUvarint ReadByte) (varuint v ++ rest)) as [[a [e|]] r|m|];
    cbn in R; congruence.
Qed.

Lemma ReadVarint_strict : IoStrict ReadVarint.
Proof.
  apply strict_dtry; [|intros; constructor].
  eapply strict_bind; [apply ReadUvarint_strict_loop| |].
  - intros [ux e]. constructor.
  - intros [ux [e|]] He; [|now elim He]. constructor. unfold errs; cbn; congruence.
Qed.
Lemma ReadVarint_calm : Calm ReadVarint.
Proof.
  apply calm_dtry; [|intros; constructor].
  apply calm_bind; [apply ReadUvarint_calm_loop|]. intros [ux e]. constructor.
Qed.

(** ** Length-prefixed bytes *)
Definition sized (v : list byte) : list byte := varuint (zlen v) ++ v.

Lemma WriteString_writes v : zlen v < 268435456 -> writes (WriteString v) (sized v).
Proof.
  intros H. apply writes_etry; [|apply writes_bytes].
  apply WriteVaruint_writes. pose proof (zlen_nonneg v). lia.
Qed.

Lemma ReadString_reads v : zlen v < 268435456 -> reads ReadString (sized v) v.
Proof.
  intros H. pose proof (zlen_nonneg v).
  eapply reads_dtry; [apply ReadVaruint_reads; lia|].
  rewrite i64_small by lia.
  rewrite <- (app_nil_r v) at 2.
  eapply reads_dbind; [apply ReadBytes_reads; unfold max_alloc; lia|]. apply reads_ret.
Qed.

Lemma DecodeByteSlice_reads old v : zlen v < 268435456 -> reads (DecodeByteSlice old) (sized v) v.
Proof.
  intros H. pose proof (zlen_nonneg v).
  eapply reads_dbind; [apply ReadVaruint_reads; lia|].
  rewrite i64_small by lia.
  rewrite <- (app_nil_r v) at 2.
  eapply reads_dbind; [apply ReadBytes_reads; unfold max_alloc; lia|]. apply reads_ret.
Qed.

Lemma ReadString_strict : IoStrict ReadString.
Proof.
  apply strict_dtry; [apply ReadVaruint_strict|]. intros len.
  apply (fixed_strict [] (i64 len) (fun b => b)).
Qed.

Lemma DecodeByteSlice_strict old : IoStrict (DecodeByteSlice old).
Proof.
  eapply strict_bind; [apply ReadVaruint_strict| |].
  - intros [len [e|]]; [constructor|]. eapply strict_bind; [apply ReadBytes_strict| |].
    + intros [[an b] e]. constructor.
    + intros [[an b] [e|]] He; [|now elim He]. constructor. unfold errs; cbn; congruence.
  - intros [len [e|]] He; [|now elim He]. constructor. unfold errs; cbn; congruence.
Qed.

Lemma ReadUint64_strict : IoStrict ReadUint64.
Proof. apply (fixed_strict 0 8 le_get). Qed.
Lemma ReadUint32_strict : IoStrict ReadUint32.
Proof. apply (fixed_strict 0 4 le_get). Qed.
Lemma ReadUint16_strict : IoStrict ReadUint16.
Proof. apply (fixed_strict 0 2 le_get). Qed.
Lemma ReadUint8_strict : IoStrict ReadUint8.
Proof. apply strict_dtry; [apply ReadByte_strict|intros; constructor]. Qed.
Lemma ReadInt64_strict : IoStrict ReadInt64.
Proof. apply strict_dtry; [apply ReadUint64_strict|intros; constructor]. Qed.
Lemma ReadInt32_strict : IoStrict ReadInt32.
Proof. apply strict_dtry; [apply ReadUint32_strict|intros; constructor]. Qed.
Lemma ReadInt16_strict : IoStrict ReadInt16.
Proof. apply strict_dtry; [apply ReadUint16_strict|intros; constructor]. Qed.
Lemma ReadInt8_strict : IoStrict ReadInt8.
Proof. apply strict_dtry; [apply ReadByte_strict|intros; constructor]. Qed.
Lemma ReadFloat32_strict : IoStrict ReadFloat32.
Proof. apply strict_dtry; [apply ReadUint32_strict|intros; constructor]. Qed.
Lemma ReadFloat64_strict : IoStrict ReadFloat64.
Proof. apply strict_dtry; [apply ReadUint64_strict|intros; constructor]. Qed.
Lemma ReadBool_strict : IoStrict ReadBool.
Proof.
  eapply strict_bind; [apply ReadByte_strict| |].
  - intros [b e]. constructor.
  - intros [b [e|]] He; [|now elim He]. constructor. unfold errs; cbn; congruence.
Qed.
Lemma ReadUint64_failing : IoFailing ReadUint64.
Proof. apply (fixed_failing 0 8 le_get). unfold max_alloc; lia. Qed.
Lemma ReadUint64_calm : Calm ReadUint64.
Proof. apply (fixed_calm 0 8 le_get). unfold max_alloc; lia. Qed.
Lemma ReadUint32_calm : Calm ReadUint32.
Proof. apply (fixed_calm 0 4 le_get). unfold max_alloc; lia. Qed.
Lemma ReadUint16_calm : Calm ReadUint16.
Proof. apply (fixed_calm 0 2 le_get). unfold max_alloc; lia. Qed.
Lemma ReadUint8_calm : Calm ReadUint8.
Proof. apply calm_dtry; [apply ReadByte_calm|intros; constructor]. Qed.
Lemma ReadInt64_calm : Calm ReadInt64.
Proof. apply calm_dtry; [apply ReadUint64_calm|intros; constructor]. Qed.
Lemma ReadInt32_calm : Calm ReadInt32.
Proof. apply calm_dtry; [apply ReadUint32_calm|intros; constructor]. Qed.
Lemma ReadInt16_calm : Calm ReadInt16.
Proof. apply calm_dtry; [apply ReadUint16_calm|intros; constructor]. Qed.
Lemma ReadInt8_calm : Calm ReadInt8.
Proof. apply calm_dtry; [apply ReadByte_calm|intros; constructor]. Qed.
Lemma ReadFloat32_calm : Calm ReadFloat32.
Proof. apply calm_dtry; [apply ReadUint32_calm|intros; constructor]. Qed.
Lemma ReadFloat64_calm : Calm ReadFloat64.
Proof. apply calm_dtry; [apply ReadUint64_calm|intros; constructor]. Qed.
Lemma ReadBool_calm : Calm ReadBool.
Proof. apply calm_bind; [apply ReadByte_calm|]. intros [b e]. constructor. Qed.

(** ** Statements used by PropWire *)
Lemma bool_wire' (v : bool) :
  exists bs, writes (WriteBool v) bs /\ is_le 1 (if v then 1 else 0) bs /\ reads ReadBool bs v.
Proof. destruct (bool_wire v) as [bs H]. exists bs. destruct v; exact H. Qed.

Lemma varuint_wire v : 0 <= v < 2 ^ 28 ->
  exists bs, writes (WriteVaruint v) bs /\ leb_minimal bs /\ leb_value bs = v /\ reads ReadVaruint bs v.
Proof.
  intros H. change (2 ^ 28) with 268435456 in H. exists (varuint v).
  destruct (varuint_spec v H) as [_ [M [V _]]].
  split; [now apply WriteVaruint_writes|]. split; [exact M|]. split; [exact V|].
  now apply ReadVaruint_reads.
Qed.

Lemma varint_wire v : - 2 ^ 27 <= v < 2 ^ 27 ->
  exists bs, writes (WriteVarint v) bs /\ leb_minimal bs /\ leb_value bs = zigzag v /\ reads ReadVarint bs v.
Proof.
  intros H. change (2 ^ 27) with 134217728 in H.
  assert (Z0 : 0 <= zigzag v < 268435456) by (split; [apply zigzag_range|apply zigzag_lt28; lia]).
  exists (varuint (zigzag v)). rewrite WriteVarint_zigzag by lia.
  destruct (varuint_spec _ Z0) as [_ [M [V _]]].
  split; [now apply WriteVaruint_writes|]. split; [exact M|]. split; [exact V|].
  apply ReadVarint_reads; [now apply reads_uvarint|lia].
Qed.

Lemma leb_wf_cons x a : leb_wf (x :: a) -> a <> [] -> 128 <= zb x /\ leb_wf a.
Proof. destruct a; [congruence|]. intros H _. exact H. Qed.

Lemma leb_min_tail x a : leb_minimal (x :: a) -> a <> [] -> leb_minimal a /\ 0 < leb_value a.
Proof.
  intros [W M] N. destruct (leb_wf_cons x a W N) as [_ Wa].
  assert (La : last a x00 <> x00).
  { destruct M as [M|M]; [destruct a; [congruence|discriminate]|].
    destruct a; [congruence|]. exact M. }
  split; [split; [exact Wa|now right]|].
  clear - La Wa. induction a as [|y a IH]; [elim La; reflexivity|].
  cbn [leb_value]. destruct a as [|z a].
  - cbn in *. pose proof (zb_range y). assert (zb y <> 0).
    { intros E. apply La. apply zb_inj. rewrite E. reflexivity. }
    lia.
  - destruct Wa as [_ Wa]. specialize (IH Wa La). pose proof (zb_range y). lia.
Qed.

Lemma leb_minimal_unique a : forall b,
  leb_minimal a -> leb_minimal b -> leb_value a = leb_value b -> a = b.
Proof.
  induction a as [|x a IH]; intros b Ma Mb E; [destruct Ma as [[] _]|].
  destruct b as [|y b]; [destruct Mb as [[] _]|].
  cbn [leb_value] in E. pose proof (leb_value_nonneg a). pose proof (leb_value_nonneg b).
  pose proof (zb_range x). pose proof (zb_range y).
  destruct a as [|x' a], b as [|y' b].
  - destruct Ma as [Wa _], Mb as [Wb _]. cbn in Wa, Wb. cbn [leb_value] in E.
    f_equal. apply zb_inj. lia.
  - destruct (leb_min_tail _ _ Mb ltac:(congruence)) as [_ P]. cbn [leb_value] in *. lia.
  - destruct (leb_min_tail _ _ Ma ltac:(congruence)) as [_ P]. cbn [leb_value] in *. lia.
  - destruct (leb_min_tail _ _ Ma ltac:(congruence)) as [Ta _].
    destruct (leb_min_tail _ _ Mb ltac:(congruence)) as [Tb _].
    destruct Ma as [Wa _], Mb as [Wb _].
    apply leb_wf_cons in Wa; [|congruence]. apply leb_wf_cons in Wb; [|congruence].
    f_equal; [apply zb_inj; lia|]. apply IH; auto. lia.
Qed.

Lemma writes_not_panics p bs : writes p bs -> ~ wpanics p.
Proof. intros W P. destruct (P []) as [m [o E]]. rewrite W in E. discriminate. Qed.

Lemma varuint_panics_iff v : 0 <= v < 2 ^ 64 -> (wpanics (WriteVaruint v) <-> 2 ^ 28 <= v).
Proof.
  intros H. split.
  - intros P. destruct (Z.le_gt_cases (2 ^ 28) v) as [|L]; [assumption|].
    exfalso. apply (writes_not_panics _ _ (WriteVaruint_writes v ltac:(lia))). exact P.
  - intros L out. rewrite WriteVaruint_panics by lia. cbn. eauto.
Qed.

Lemma varint_panics_iff v : - 2 ^ 63 <= v < 2 ^ 63 ->
  (wpanics (WriteVarint v) <-> ~ (- 2 ^ 27 <= v < 2 ^ 27)).
Proof.
  intros H. rewrite WriteVarint_zigzag by lia. pose proof (zigzag_lt28 v) as Z1.
  pose proof (zigzag_range v). split.
  - intros P L. apply (writes_not_panics _ _ (WriteVaruint_writes (zigzag v) ltac:(lia))). exact P.
  - intros L out. rewrite WriteVaruint_panics by lia. cbn. eauto.
Qed.

Lemma varuint_panic_clean v m out out' :
  runw (WriteVaruint v) out = WCrash m out' -> out' = out.
Proof.
  unfold WriteVaruint. destruct (PutUvarint 4 v); cbn; intros H; [discriminate|congruence].
Qed.

Lemma string_wire s : zlen s < 2 ^ 28 ->
  exists pre, leb_minimal pre /\ leb_value pre = zlen s
    /\ writes (WriteString s) (pre ++ s) /\ reads ReadString (pre ++ s) s.
Proof.
  intros H. exists (varuint (zlen s)). pose proof (zlen_nonneg s).
  destruct (varuint_spec (zlen s) ltac:(lia)) as [_ [M [V _]]].
  split; [exact M|]. split; [exact V|].
  split; [apply WriteString_writes; lia|apply ReadString_reads; lia].
Qed.

Lemma byteslice_wire s old : zlen s < 2 ^ 28 ->
  exists pre, leb_minimal pre /\ leb_value pre = zlen s
    /\ writes (EncodeByteSlice s) (pre ++ s) /\ reads (DecodeByteSlice old) (pre ++ s) s.
Proof.
  intros H. exists (varuint (zlen s)). pose proof (zlen_nonneg s).
  destruct (varuint_spec (zlen s) ltac:(lia)) as [_ [M [V _]]].
  split; [exact M|]. split; [exact V|].
  split; [apply WriteString_writes; lia|apply DecodeByteSlice_reads; lia].
Qed.

(** What ReadBytes can return. *)
Lemma ReadBytes_run env n inp :
  run env (ReadBytes n) inp =
  if n <? 0 then Done ((0, []), Some (ErrMsg "abi: read with negative count")) inp
  else if n =? 0 then Done ((0, []), None) inp
  else if make_ok 1 n then
    if n <=? zlen inp
    then Done ((zlen (firstn (Z.to_nat n) inp), firstn (Z.to_nat n) inp), None) (skipn (Z.to_nat n) inp)
    else Done ((zlen inp, inp ++ zeros (Z.to_nat n - length inp)), Some (short_err inp (r_end env))) []
  else Crash "makeslice: len out of range".
Proof.
  unfold ReadBytes. destruct (n <? 0); [reflexivity|]. destruct (n =? 0); [reflexivity|].
  destruct (make_ok 1 n); [|reflexivity]. cbn [run]. destruct (n <=? zlen inp); reflexivity.
Qed.

Lemma ReadBytes_exact env n inp an b rest :
  run env (ReadBytes n) inp = Done ((an, b), None) rest -> zlen b = n /\ inp = b ++ rest.
Proof.
  rewrite ReadBytes_run. destruct (Z.ltb_spec n 0); [discriminate|].
  destruct (Z.eqb_spec n 0).
  { intros E; inversion E; subst. split; reflexivity. }
  destruct (make_ok 1 n); [|discriminate].
  destruct (Z.leb_spec n (zlen inp)); [|discriminate].
  intros E; inversion E; subst. split.
  - unfold zlen in *. rewrite firstn_length. lia.
  - now rewrite firstn_skipn.
Qed.

Lemma ReadVaruint_exact env inp v rest :
  run env ReadVaruint inp = Done (v, None) rest ->
  exists pre, leb_wf pre /\ leb_value pre = v /\ v < two64 /\ inp = pre ++ rest.
Proof.
  intros R. destruct (ReadVaruint_cases env inp)
    as [[bs [r' [E [W [L [V R']]]]]]|[[bs [b [r' [E [A [L [Z2 R']]]]]]]|[A [L R']]]];
    rewrite R in R'; inversion R'; subst. eauto.
Qed.

Lemma ReadString_exact env inp s rest :
  run env ReadString inp = Done (s, None) rest ->
  exists pre, leb_wf pre /\ leb_value pre = zlen s /\ inp = pre ++ s ++ rest.
Proof.
  unfold ReadString. rewrite run_dtry. intros R.
  destruct (run env ReadVaruint inp) as [[len [e|]] r1|m|] eqn:E1; try discriminate.
  apply ReadVaruint_exact in E1 as [pre [W [V [B ->]]]].
  pose proof (leb_value_nonneg pre).
  rewrite run_dbind in R.
  destruct (run env (ReadBytes (i64 len)) r1) as [[[an b] [e|]] r2|m|] eqn:E2; try discriminate.
  apply ReadBytes_exact in E2 as [L ->]. cbn in R. inversion R; subst.
  exists pre. split; [exact W|]. split; [|reflexivity].
  pose proof (zlen_nonneg s). rewrite L. unfold i64 in *. lia.
Qed.
