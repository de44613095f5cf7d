(** C17-C20: 128-bit numbers, JSON integers, block numbers. *)
From Verif Require Import Base GoStd SpecText GoStdProofs Numbers SpecNumbers SpecName NumbersProofs.
From Verif Require Import Chain.

(** * C17 *)
Theorem C17_bigint : forall u, u128_ok u -> Uint128_BigInt u = Hi u * 2 ^ 64 + Lo u.
Proof. exact big_u128. Qed.
Print Assumptions C17_bigint.
Theorem C17_bytes : forall u, u128_ok u ->
  length (U128_BytesBE u) = 16%nat /\ be_value (U128_BytesBE u) = Hi u * 2 ^ 64 + Lo u
  /\ U128_BytesLE u = rev (U128_BytesBE u).
Proof.
  intros u H. split; [apply u128_bytes_len|]. split; [|apply u128_bytes_le].
  rewrite <- be_get_value. now apply u128_bytes.
Qed.
Print Assumptions C17_bytes.
Theorem C17_roundtrip : forall u old, u128_ok u ->
  NewUint128 (Uint128_BigInt u) = Ok u /\ NewUint128FromString (Uint128_String u) = Ok u
  /\ Uint128_UnmarshalText old (Uint128_String u) = Ok (u, None).
Proof.
  intros u old H. assert (E : NewUint128FromString (Uint128_String u) = Ok u).
  { apply NewUint128FromString_ok. exists (u128_value u). unfold Uint128_String. rewrite big_u128 by exact H.
    split; [apply FormatInt_text|]. pose proof (u128_value_bound u H). split; [lia|]. auto. }
  split; [rewrite big_u128 by exact H; now apply NewUint128_value|]. split; [exact E|].
  unfold Uint128_UnmarshalText. now rewrite E.
Qed.
Print Assumptions C17_roundtrip.
Theorem C17_text : forall u, u128_ok u -> int_numeral (Hi u * 2 ^ 64 + Lo u) (Uint128_String u).
Proof. intros u H. unfold Uint128_String. rewrite big_u128 by exact H. apply FormatInt_numeral. Qed.
Print Assumptions C17_text.
(** Exactly the signed decimal integers in range are accepted, with that value. *)
Theorem C17_accepts : forall s u,
  NewUint128FromString s = Ok u <->
  exists i, int_text s i /\ 0 <= i < 2 ^ 128 /\ u128_ok u /\ Hi u * 2 ^ 64 + Lo u = i.
Proof. exact NewUint128FromString_ok. Qed.
Print Assumptions C17_accepts.
Theorem C17_total : forall s m, NewUint128FromString s <> Panic m.
Proof. exact NewUint128FromString_nopanic. Qed.
Print Assumptions C17_total.
(** NewUint128 takes the absolute value, and panics exactly when it does not fit. *)
Theorem C17_new : forall i,
  (- 2 ^ 128 < i < 2 ^ 128 -> exists u, NewUint128 i = Ok u /\ u128_ok u /\ Hi u * 2 ^ 64 + Lo u = Z.abs i)
  /\ (~ (- 2 ^ 128 < i < 2 ^ 128) -> exists m, NewUint128 i = Panic m).
Proof. intros i. split; [apply NewUint128_ok|apply NewUint128_panic]. Qed.
Print Assumptions C17_new.
Example C17_example : u128_ok {| Lo := 1; Hi := 2 |} /\ Uint128_String {| Lo := 1; Hi := 2 |} = str "36893488147419103233".
Proof. split; [unfold u128_ok; cbn; lia|vm_compute; reflexivity]. Qed.

(** * C18 *)
Theorem C18_bigint : forall u, u128_ok u -> Int128_BigInt u = i128_value u /\ - 2 ^ 127 <= i128_value u < 2 ^ 127.
Proof. intros u H. split; [now apply big_i128|now apply i128_value_range]. Qed.
Print Assumptions C18_bigint.
Theorem C18_roundtrip : forall u old, u128_ok u -> i128_value u <> - 2 ^ 127 ->
  NewInt128 (Int128_BigInt u) = Ok u /\ NewInt128FromString (Int128_String u) = Ok u
  /\ Int128_UnmarshalText old (Int128_String u) = Ok (u, None).
Proof.
  intros u old H NM. pose proof (i128_value_range u H) as R.
  assert (Q : int128_result (i128_value u) = i128_value u).
  { unfold int128_result. destruct (Z.leb_spec (i128_value u) (- 2 ^ 127)); [lia|].
    destruct (Z.ltb_spec (i128_value u) (2 ^ 127)); [reflexivity|]. change (2 ^ 127) with 170141183460469231731687303715884105728 in *. lia. }
  assert (E : NewInt128FromString (Int128_String u) = Ok u).
  { apply NewInt128FromString_ok. exists (i128_value u). unfold Int128_String. rewrite big_i128 by exact H.
    split; [apply FormatInt_text|]. split; [lia|]. auto. }
  split.
  - rewrite big_i128 by exact H. destruct (NewInt128_ok (i128_value u)) as [v [E2 [K V]]]; [lia|].
    rewrite E2. f_equal. apply i128_value_inj; auto. congruence.
  - split; [exact E|]. unfold Int128_UnmarshalText. now rewrite E.
Qed.
Print Assumptions C18_roundtrip.
(** The exact outcome of NewInt128FromString on every string:
    values in (-2^127, 2^127) are kept, 2^127..2^128-1 wrap, values <= -2^127 lose
    their low byte. *)
Theorem C18_accepts : forall s u,
  NewInt128FromString s = Ok u <->
  exists i, int_text s i /\ - 2 ^ 128 < i < 2 ^ 128 /\ u128_ok u /\
    i128_value u = (if i <=? - 2 ^ 127 then i / 256 else if i <? 2 ^ 127 then i else i - 2 ^ 128).
Proof. exact NewInt128FromString_ok. Qed.
Print Assumptions C18_accepts.
Theorem C18_total : forall s m, NewInt128FromString s <> Panic m.
Proof. exact NewInt128FromString_nopanic. Qed.
Print Assumptions C18_total.
(** So the minimum does not survive its own text form. *)
Theorem C18_minimum_corrupted : forall u, u128_ok u -> i128_value u = - 2 ^ 127 ->
  exists v, NewInt128FromString (Int128_String u) = Ok v /\ i128_value v = - 2 ^ 119.
Proof.
  intros u H M. destruct (NewInt128_ok (- 2 ^ 127)) as [v [E [K V]]]; [cbn; lia|].
  exists v. split; [|exact V]. apply NewInt128FromString_ok. exists (- 2 ^ 127).
  unfold Int128_String. rewrite big_i128, M by exact H. split; [apply FormatInt_text|]. split; [cbn; lia|]. auto.
Qed.
Print Assumptions C18_minimum_corrupted.
Theorem C18_new : forall i,
  (- 2 ^ 127 < i < 2 ^ 127 -> exists u, NewInt128 i = Ok u /\ u128_ok u /\ i128_value u = i)
  /\ (~ (- 2 ^ 128 < i < 2 ^ 128) -> exists m, NewInt128 i = Panic m).
Proof.
  intros i. split; [|apply NewInt128_panic]. intros H.
  destruct (NewInt128_ok i) as [u [E [K V]]]; [change (2 ^ 127) with 170141183460469231731687303715884105728 in H; lia|].
  exists u. split; [exact E|]. split; [exact K|]. rewrite V. unfold int128_result.
  destruct (Z.leb_spec i (- 2 ^ 127)); [lia|]. destruct (Z.ltb_spec i (2 ^ 127)); [reflexivity|lia].
Qed.
Print Assumptions C18_new.
Example C18_example : u128_ok {| Lo := 0; Hi := 9223372036854775808 |}
  /\ i128_value {| Lo := 0; Hi := 9223372036854775808 |} = - 2 ^ 127
  /\ Int128_String {| Lo := 18446744073709551615; Hi := 18446744073709551615 |} = str "-1".
Proof. split; [unfold u128_ok; cbn; lia|]. split; vm_compute; reflexivity. Qed.

(** * C19 *)
Theorem C19_form : forall v, 0 <= v < 2 ^ 64 ->
  exists ds, numeral v ds /\
    Uint64_MarshalJSON v = if 2 ^ 32 - 1 <? v then str """" ++ ds ++ str """" else ds.
Proof. intros v H. exists (FormatUint v). split; [apply FormatUint_numeral; lia|reflexivity]. Qed.
Print Assumptions C19_form.
Theorem C19_roundtrip : forall v old, 0 <= v < 2 ^ 64 -> Uint64_UnmarshalJSON old (Uint64_MarshalJSON v) = (v, None).
Proof. intros v old H. unfold Uint64_UnmarshalJSON, Uint64_MarshalJSON. now rewrite readUintJSON_write. Qed.
Print Assumptions C19_roundtrip.
Theorem C19_accepts : forall old s v, Uint64_UnmarshalJSON old s = (v, None) <->
  exists ds, (s = ds \/ s = str """" ++ ds ++ str """") /\ ds <> [] /\ digits ds /\ v = dec_val ds /\ v < 2 ^ 64.
Proof.
  intros old s v. fold (str """"). rewrite <- (readUintJSON_ok s v : _ <-> _).
  unfold Uint64_UnmarshalJSON. destruct (readUintJSON s) as [w [e|]]; split; intros [= ->]; try discriminate; reflexivity.
Qed.
Print Assumptions C19_accepts.
Theorem C19_reject_keeps : forall old s v e, Uint64_UnmarshalJSON old s = (v, Some e) -> v = old.
Proof.
  intros old s v e. unfold Uint64_UnmarshalJSON. destruct (readUintJSON s) as [w [e'|]]; [now intros [= <- _]|discriminate].
Qed.
Print Assumptions C19_reject_keeps.
Example C19_example : Uint64_MarshalJSON 4294967295 = str "4294967295" /\ Uint64_MarshalJSON 4294967296 = str """4294967296""".
Proof. vm_compute. auto. Qed.

(** * C20 *)
Theorem C20_roundtrip : forall n old, 0 <= n < 2 ^ 32 -> BlockNum_UnmarshalJSON old (BlockNum_MarshalJSON n) = (n, None).
Proof.
  intros n old H. change (2 ^ 32) with 4294967296 in H. unfold BlockNum_UnmarshalJSON, BlockNum_MarshalJSON.
  rewrite readUintJSON_write by lia. destruct (Z.ltb_spec 4294967295 n); [lia|]. unfold u32. now rewrite Z.mod_small by lia.
Qed.
Print Assumptions C20_roundtrip.
Theorem C20_accepts : forall old s v, BlockNum_UnmarshalJSON old s = (v, None) <->
  exists ds, (s = ds \/ s = str """" ++ ds ++ str """") /\ ds <> [] /\ digits ds /\ v = dec_val ds /\ v < 2 ^ 32.
Proof.
  intros old s v. change (2 ^ 32) with 4294967296. unfold BlockNum_UnmarshalJSON. split.
  - destruct (readUintJSON s) as [w [e|]] eqn:E; destruct (Z.ltb_spec 4294967295 w); try discriminate.
    intros [= <-]. apply readUintJSON_ok in E as (ds & Q & N & D & V & L). exists ds.
    pose proof (dec_val_bound ds D). unfold u32. rewrite Z.mod_small by lia. repeat split; auto. lia.
  - intros (ds & Q & N & D & V & L). pose proof (dec_val_bound ds D).
    assert (E : readUintJSON s = (v, None)) by (apply readUintJSON_ok; exists ds; repeat split; auto; lia).
    rewrite E. destruct (Z.ltb_spec 4294967295 v); [lia|]. unfold u32. now rewrite Z.mod_small by lia.
Qed.
Print Assumptions C20_accepts.
Theorem C20_reject_keeps : forall old s v e, BlockNum_UnmarshalJSON old s = (v, Some e) -> v = old.
Proof.
  intros old s v e. unfold BlockNum_UnmarshalJSON. destruct (readUintJSON s) as [w [e'|]];
    destruct (4294967295 <? w); intros [= <-]; reflexivity.
Qed.
Print Assumptions C20_reject_keeps.
Theorem C20_string : forall n, 0 <= n < 2 ^ 32 ->
  length (BlockNum_String n) = 10%nat /\ digits (BlockNum_String n) /\ dec_val (BlockNum_String n) = n.
Proof. intros n H. pose proof (BlockNum_String_ok n H). tauto. Qed.
Print Assumptions C20_string.
Theorem C20_order : forall a b, 0 <= a < 2 ^ 32 -> 0 <= b < 2 ^ 32 ->
  (a < b <-> str_lt (BlockNum_String a) (BlockNum_String b)).
Proof.
  intros a b Ha Hb. destruct (BlockNum_String_ok a Ha) as [Da [La Va]]. destruct (BlockNum_String_ok b Hb) as [Db [Lb Vb]].
  rewrite digits_order by (auto; congruence). now rewrite Va, Vb.
Qed.
Print Assumptions C20_order.
Example C20_example : BlockNum_String 42 = str "0000000042" /\ str_lt (BlockNum_String 9) (BlockNum_String 42).
Proof. split; [vm_compute; reflexivity|apply C20_order; lia]. Qed.
