(** Leaf values: layouts, round trip, strictness. *)
From Verif Require Import Base Prog AbiPrim BaseProofs SpecWire ProgProofs AbiPrimProofs Chain SpecChain ChainProofs
  Values Leaf SpecLeaf.

Lemma func_prim p : functional (prim_layout p).
Proof.
  destruct p; cbn [prim_layout];
    first [apply func_raw | apply func_le | apply func_varu | apply func_bytes | apply func_action
          | apply func_transaction | idtac];
    repeat (apply func_cat; [first [apply func_le|apply func_raw|apply func_varu|apply func_cat; apply func_le]|]);
    first [apply func_le | apply func_raw | apply func_varu | apply func_bytes].
Qed.

Definition fresh (p : prim) : Prop :=
  match p with PAction a => Authorization a = [] | _ => True end.
Definition rounds (p : prim) (bs : list byte) : Prop :=
  writes (write_prim p) bs /\ prim_layout p bs
  /\ (wf_keys p -> forall old, kind_of old = kind_of p -> fresh old -> reads (read_prim old) bs p).

Lemma wrap_reads {A B} (c : A -> B) p bs x : reads p bs x -> reads (wrap c p) bs (c x).
Proof.
  intros H. unfold wrap. rewrite <- (app_nil_r bs). eapply reads_dbind; [exact H|]. apply reads_ret.
Qed.

Ltac same_kind := intros _ old E F; destruct old; try discriminate E; cbn [read_prim]; apply wrap_reads.
Ltac by_wire L :=
  let bs := fresh "bs" in let W := fresh "W" in let LL := fresh "LL" in let R := fresh "R" in
  destruct L as [bs [W [LL R]]]; exists bs; split; [exact W|split; [exact LL|same_kind; apply R]].

Ltac scalar z R T :=
  let bs := fresh "bs" in let W := fresh "W" in let LL := fresh "LL" in
  destruct (R z _ T) as [bs [W [LL _]]]; exists bs; split; [exact W|]; split; [exact LL|];
  intros _ old E F; destruct old; try discriminate E; cbn [read_prim]; apply wrap_reads;
  match goal with |- reads (_ ?o) _ _ =>
    let bs' := fresh "bs'" in let W' := fresh "W'" in let RR := fresh "RR" in
    destruct (R o _ T) as [bs' [W' [_ RR]]]; rewrite (writes_det _ _ _ W W'); exact RR end.
Ltac checksum R RC :=
  let W := fresh "W" in
  eexists; split; [apply R; [unfold zlen; lia|lia]|]; split; [reflexivity|same_kind]; apply RC; [unfold zlen; lia|lia].

Lemma leaf_round p : typed_prim p -> bounded_prim p -> exists bs, rounds p bs.
Proof.
  destruct chain_scalars_round as
    (RA & REA & RU & RN & RS & RU64 & RB & RT & RTS & RBT & RC & RF & RBY).
  intros T B; destruct p; cbn [typed_prim bounded_prim] in T, B; unfold rounds; cbn [write_prim prim_layout].
  - destruct (bool_wire b) as [bs [W [L R]]]. exists [if b then x01 else x00].
    assert (E : bs = [if b then x01 else x00]).
    { apply (writes_det _ _ _ W). destruct b; intros out; reflexivity. }
    subst bs. split; [exact W|split; [reflexivity|same_kind; exact R]].
  - unfold short in B. destruct (string_wire s B) as (pre & M & V & W & R). exists (pre ++ s).
    split; [exact W|]. split; [apply lay_cat; [split; assumption|reflexivity]|same_kind; exact R].
  - by_wire (uint8_wire v T).
  - by_wire (uint16_wire v T).
  - by_wire (uint32_wire v T).
  - by_wire (uint64_wire v T).
  - by_wire (int8_wire v T).
  - by_wire (int16_wire v T).
  - by_wire (int32_wire v T).
  - by_wire (int64_wire v T).
  - by_wire (float32_wire v T).
  - by_wire (float64_wire v T).
  - destruct (varint_wire v B) as (bs & W & M & V & R). exists bs. split; [exact W|].
    split; [split; assumption|same_kind; exact R].
  - destruct (varuint_wire v (conj (proj1 T) B)) as (bs & W & M & V & R). exists bs. split; [exact W|].
    split; [split; assumption|same_kind; exact R].
  - unfold short in B. destruct (byteslice_wire b [] B) as (pre & M & V & W & _). exists (pre ++ b).
    split; [exact W|]. split; [apply lay_cat; [split; assumption|reflexivity]|same_kind].
    destruct (byteslice_wire b b0 B) as (pre' & M' & V' & _ & R).
    rewrite (leb_minimal_unique pre pre') by congruence. exact R.
  - exists (b_action a). split; [now apply Action_writes|]. split; [now apply action_lay|].
    same_kind. cbn [fresh] in F. rewrite <- (append_auth_fresh a0 a F) at 2. now apply Action_reads_into.
  - scalar zero_asset RA T.
  - scalar (@nil byte) RBY B.
  - scalar 0 RB T.
  - scalar 0 RBT T.
  - scalar (@nil byte) RBY B.
  - checksum (RC 20 [] b) RC.
  - checksum (RC 32 [] b) RC.
  - checksum (RC 64 [] b) RC.
  - exists b. destruct (RF [] b T) as [W _]. split; [exact W|]. split; [reflexivity|same_kind]. now apply RF.
  - scalar zero_u128 RU T.
  - scalar 0 RN T.
  - exists (b_pl p). split; [apply PL_writes|]. split; [apply lay_cat; apply lay_le|same_kind; now apply PL_reads].
  - exists (bz (KType k) :: KData k). split; [apply Key_writes|]. split; [apply key_lay; exact T|].
    intros K old E F. destruct old; try discriminate E. apply wrap_reads. apply PublicKey_reads. exact K.
  - exists (bz (KType k) :: KData k). split; [apply Key_writes|]. split; [apply key_lay; exact T|].
    intros K old E F. destruct old; try discriminate E. apply wrap_reads. apply Signature_reads. exact K.
  - scalar 0 RS T.
  - scalar 0 RS T.
  - scalar 0 RT T.
  - scalar 0 RTS T.
  - exists (b_tx t). split; [now apply Transaction_writes|]. split; [now apply transaction_lay|].
    same_kind. now apply Transaction_reads.
  - exists (b_ext e). split; [now apply Ext_writes|]. split; [now apply ext_lay|]. same_kind. now apply Ext_reads.
  - exists (b_header h). split; [now apply Header_writes|]. split; [now apply header_lay|]. same_kind. now apply Header_reads.
  - scalar zero_u128 RU T.
  - scalar 0 RU64 T.
  - destruct T as [T1 T2]. destruct (REA {| Quantity := zero_asset; Contract := 0 |} e T1 T2) as [bs [W [L _]]].
    destruct (RA zero_asset (Quantity e) T1) as [b1 [W1 _]]. destruct (RN 0 (Contract e) T2) as [b2 [W2 _]].
    pose proof (writes_etry _ _ _ _ W1 W2) as W3.
    assert (EQ : bs = b1 ++ b2).
    { destruct L as (x1 & x2 & -> & L1 & L2).
      destruct (RA zero_asset (Quantity e) T1) as [b1' [W1' [L1' _]]].
      destruct (RN 0 (Contract e) T2) as [b2' [W2' [L2' _]]].
      rewrite (writes_det _ _ _ W1 W1'), (writes_det _ _ _ W2 W2').
      f_equal; [exact (func_prim (PAsset (Quantity e)) _ _ L1 L1')|exact (func_le 8 _ _ _ L2 L2')]. }
    exists bs. split; [rewrite EQ; exact W3|]. split; [exact L|same_kind].
    destruct (REA e0 e T1 T2) as [bs' [W' [_ R]]]. now rewrite (writes_det _ _ _ W W').
Qed.

Lemma leaf_layout_writes p bs : typed_prim p -> bounded_prim p -> prim_layout p bs -> writes (write_prim p) bs.
Proof.
  intros T B L. destruct (leaf_round p T B) as (bs' & W & L' & _). now rewrite (func_prim p _ _ L L').
Qed.
Lemma leaf_layout_reads p bs old : typed_prim p -> bounded_prim p -> wf_keys p -> prim_layout p bs ->
  kind_of old = kind_of p -> fresh old -> reads (read_prim old) bs p.
Proof.
  intros T B K L. destruct (leaf_round p T B) as (bs' & W & L' & R). rewrite (func_prim p _ _ L L'). now apply R.
Qed.

(** Whatever was written without error is within the bounds. *)
Lemma WriteVarint_done v out full : - 2 ^ 63 <= v < 2 ^ 63 -> runw (WriteVarint v) out = WDone None full ->
  - 2 ^ 27 <= v < 2 ^ 27.
Proof.
  intros T H. rewrite WriteVarint_zigzag in H by exact T. apply Varuint_done in H.
  unfold zigzag in H. change (2 ^ 27) with 134217728. destruct (0 <=? v) eqn:E; lia.
Qed.
Lemma sized_done s out full : runw (WriteString s) out = WDone None full -> short s.
Proof. intros H. apply runw_etry_done in H as [mid [H _]]. apply Varuint_done in H. unfold short. lia. Qed.
Lemma Header_done h out full : typed_header h -> runw (TransactionHeader_MarshalABI h) out = WDone None full ->
  wf_header h.
Proof.
  intros (A1 & A2 & A3 & A4 & A5 & A6) H0. unfold in_u in *.
  apply runw_etry_done in H0 as [? [_ H0]]. apply runw_etry_done in H0 as [? [_ H0]].
  apply runw_etry_done in H0 as [? [_ H0]]. apply runw_etry_done in H0 as [? [B1 H0]].
  apply runw_etry_done in H0 as [? [_ H0]]. apply Varuint_done in B1. apply Varuint_done in H0.
  unfold wf_header, in_u. lia.
Qed.
Lemma leaf_done p out full : typed_prim p -> runw (write_prim p) out = WDone None full -> bounded_prim p.
Proof.
  intros T H. destruct p; cbn [bounded_prim]; try exact I; cbn [typed_prim write_prim] in T, H.
  - now apply sized_done in H.
  - now apply WriteVarint_done in H.
  - apply Varuint_done in H. lia.
  - now apply sized_done in H.
  - now apply Action_done in H.
  - now apply Bytes_done in H.
  - now apply Bytes_done in H.
  - now apply Transaction_done in H.
  - apply runw_etry_done in H as [? [_ H]]. apply Bytes_done in H. split; assumption.
  - now apply Header_done in H.
Qed.
