(** The reflective codec: layout, round trip, map order. *)
From Verif Require Import Base Prog AbiPrim BaseProofs SpecWire ProgProofs AbiPrimProofs Chain SpecChain ChainProofs
  Values Leaf SpecLeaf LeafProofs Reflect SpecReflect.
From Coq Require Import Permutation.

(** ** Equations of Encode *)
Lemma Encode_leaf E t k p z : head E t = TLeaf k -> kind_of p = k ->
  forall out, runw (Encode E t (RLeaf p z)) out = runw (write_prim p) out.
Proof.
  intros H K out. unfold Encode. cbn [encode]. rewrite H. unfold hooked. rewrite runw_ebind. cbn [chain_encoder].
  destruct (table_kind k) eqn:T.
  - rewrite runw_ebind. destruct (runw (write_prim p) out) as [[e|] o|m o|]; reflexivity.
  - cbn [runw]. destruct p; cbn [kind_of] in K; subst k; try discriminate T; try reflexivity.
Qed.

Ltac open_encode H :=
  unfold Encode; cbn [encode]; rewrite H; unfold hooked; cbn [chain_encoder ebind]; try reflexivity.

Lemma Encode_int E t k v : head E t = TInt k -> Encode E t (RInt v) = write_int k v.
Proof. intros H. open_encode H. Qed.
Lemma Encode_slice E t t' o : head E t = TSlice t' ->
  Encode E t (RSlice o) = etry (WriteVaruint (zlen (elems o))) (put_list (Encode E t') (elems o)).
Proof. intros H. open_encode H. destruct o as [l|]; [|reflexivity]. reflexivity. Qed.
Lemma Encode_array E t n t' l : head E t = TArray n t' -> Encode E t (RArray l) = put_list (Encode E t') l.
Proof. intros H. open_encode H. Qed.
Lemma Encode_map E t kt vt o : head E t = TMap kt vt ->
  Encode E t (RMap o) = etry (WriteVaruint (zlen (elems o))) (put_pairs (Encode E kt) (Encode E vt) (elems o)).
Proof. intros H. open_encode H. destruct o as [l|]; [|reflexivity]. reflexivity. Qed.
Lemma Encode_struct E t fs l : head E t = TStruct fs -> Encode E t (RStruct l) = put_fields E chain_encoder fs l.
Proof.
  intros H. open_encode H.
Qed.
Lemma Encode_nil E t t' : head E t = TPtr t' -> forall out full, runw (Encode E t (RPtr None)) out <> WDone None full.
Proof.
  intros H out full. open_encode H. destruct (head E t'); try discriminate.
  destruct (go_kind k); discriminate.
Qed.
(** Encoding through a pointer. *)
Definition leaf_shaped (E : types) (t : gtype) (v : rval) : Prop :=
  (forall k, head E t = TLeaf k -> exists p z, v = RLeaf p z /\ kind_of p = k)
  /\ (forall i u, head E t = TUser i u -> exists x, v = RUser x).
Lemma Encode_ptr E t t' v : head E t = TPtr t' -> leaf_shaped E t' v ->
  forall out, runw (Encode E t (RPtr (Some v))) out = runw (Encode E t' v) out.
Proof.
  intros H S out. unfold Encode at 1. cbn [encode]. rewrite H. unfold hooked. cbn [chain_encoder ebind].
  destruct (head E t') as [k|k| |u|u|n u|ku vu|fs|i u|i] eqn:H'; try reflexivity.
  - destruct (proj1 S k H') as (p & z & -> & K). destruct (go_kind k); [reflexivity|].
    rewrite (Encode_leaf _ _ _ _ z H' K). destruct p; reflexivity.
  - destruct (proj2 S i u H') as (x & ->). unfold Encode. cbn [encode]. rewrite H'. reflexivity.
Qed.

Lemma has_type_leaf_shaped E ok t v : has_type E ok t v -> leaf_shaped E t v.
Proof.
  intros H. split.
  - intros k Hk. destruct H; try congruence. assert (k0 = k) by congruence. subst. eauto.
  - intros i u Hu. destruct H; try congruence. eauto.
Qed.
Lemma encoded_leaf_shaped E pl t v bs v' : encoded E pl t v bs v' -> leaf_shaped E t v.
Proof.
  intros H. split.
  - intros k Hk. destruct H; try congruence. assert (k0 = k) by congruence. subst. eauto.
  - intros i u Hu. destruct H; try congruence. eauto.
Qed.
Lemma Encode_user E t i u v : head E t = TUser i u -> Encode E t (RUser v) = marshals E i v.
Proof. intros H. open_encode H. Qed.

Lemma writes_eq p q bs : (forall out, runw p out = runw q out) -> writes q bs -> writes p bs.
Proof. intros H W out. now rewrite H, W. Qed.
Lemma varu_ok v pre : 0 <= v < 2 ^ 28 -> varu v pre -> writes (WriteVaruint v) pre /\ reads ReadVaruint pre v.
Proof.
  intros H [M V]. destruct (varuint_wire v H) as (bs & W & M' & V' & R).
  rewrite (leb_minimal_unique pre bs) by congruence. auto.
Qed.
Lemma rd_bind0 {A B} (p : io A) (f : A * option gerr -> io B) a bs b :
  reads p bs a -> reads (f (a, None)) [] b -> reads (dbind p f) bs b.
Proof. intros H1 H2. rewrite <- (app_nil_r bs). eapply reads_dbind; eauto. Qed.
Lemma bool_ok (b : bool) : reads ReadBool [if b then x01 else x00] b.
Proof.
  destruct (bool_wire b) as (bs & W & _ & R). replace [if b then x01 else x00] with bs; [exact R|].
  apply (writes_det _ _ _ W). destruct b; intros out; reflexivity.
Qed.

Lemma int_writes k v bs : int_range k v -> int_layout k v bs -> writes (write_int k v) bs.
Proof.
  intros R L. destruct k; cbn [int_range int_layout write_int] in *.
  - apply (leaf_layout_writes (PU64 v) bs); cbn; auto.
  - apply (leaf_layout_writes (PU32 v) bs); cbn; auto.
  - apply (leaf_layout_writes (PI64 v) bs); cbn; auto.
  - apply (leaf_layout_writes (PI32 v) bs); cbn; auto.
Qed.
Definition read_int (k : ikind) : io Z :=
  match k with IU64 => ReadUint64 | IU32 => ReadUint32 | II64 => ReadInt64 | II32 => ReadInt32 end.
Lemma int_reads k v bs : int_range k v -> int_layout k v bs -> reads (read_int k) bs v.
Proof.
  intros R L.
  assert (G : forall (w : Z -> wr) (r : io Z) n (P : prim), wire w r n (fun v => v) v -> fixed_le n v bs -> reads r bs v).
  { intros w r n P (bs' & W & L' & Rd) L0. now rewrite (is_le_unique n v bs bs' L0 L'). }
  destruct k; cbn [int_range int_layout read_int] in *; unfold in_u, in_i in R.
  - eapply (G _ _ _ (PU64 v)); [apply uint64_wire; exact R|exact L].
  - eapply (G _ _ _ (PU64 v)); [apply uint32_wire; exact R|exact L].
  - eapply (G _ _ _ (PU64 v)); [apply int64_wire; exact R|exact L].
  - eapply (G _ _ _ (PU64 v)); [apply int32_wire; exact R|exact L].
Qed.

(** ** A value with a wire form is written as that form *)
Lemma put_absent E t fs v l : is_zero v = true ->
  put_fields E chain_encoder ((Optional, Exported, t) :: fs) (v :: l)
  = ebind (WriteBool false) (fun _ => put_fields E chain_encoder fs l).
Proof. intros Z. cbn [put_fields]. cbn iota beta. rewrite Z. reflexivity. Qed.
Lemma put_present E t fs v l : is_zero v = false ->
  put_fields E chain_encoder ((Optional, Exported, t) :: fs) (v :: l)
  = ebind (WriteBool true) (fun _ => etry (Encode E t v) (put_fields E chain_encoder fs l)).
Proof. intros Z. cbn [put_fields]. cbn iota beta. rewrite Z. reflexivity. Qed.
Lemma put_plain E tg t fs v l : tg <> Optional ->
  put_fields E chain_encoder ((tg, Exported, t) :: fs) (v :: l) = etry (Encode E t v) (put_fields E chain_encoder fs l).
Proof. intros Z. destruct tg; try reflexivity. congruence. Qed.

Lemma encoded_writes E :
  (forall pl t v bs v', encoded E pl t v bs v' -> writes (Encode E t v) bs)
  /\ (forall t l bs l', encoded_list E t l bs l' -> writes (put_list (Encode E t) l) bs)
  /\ (forall kt vt m bs m', encoded_pairs E kt vt m bs m' -> writes (put_pairs (Encode E kt) (Encode E vt) m) bs)
  /\ (forall fs l bs l', encoded_fields E fs l bs l' -> writes (put_fields E chain_encoder fs l) bs).
Proof.
  apply encoded_all.
  - intros pl t k p z bs H K R T B W L. eapply writes_eq; [exact (Encode_leaf _ _ _ _ _ H K)|].
    now apply leaf_layout_writes.
  - intros pl t k v bs H R L. rewrite (Encode_int _ _ _ _ H). now apply int_writes.
  - intros pl t t' v bs v' H S IH. eapply writes_eq; [apply (Encode_ptr _ _ _ _ H)|exact IH].
    eapply encoded_leaf_shaped; eassumption.
  - intros pl t t' o pre bs l' H SH MK V S IH. rewrite (Encode_slice _ _ _ _ H).
    pose proof (zlen_nonneg (elems o)). apply writes_etry; [apply varu_ok; [lia|assumption]|assumption].
  - intros pl t n t' l bs l' H D L S IH. now rewrite (Encode_array _ _ _ _ _ H).
  - intros pl t kt vt o pre bs m' H CK SH V S IH N. rewrite (Encode_map _ _ _ _ _ H).
    pose proof (zlen_nonneg (elems o)). apply writes_etry; [apply varu_ok; [lia|assumption]|assumption].
  - intros pl t fs l bs l' H S IH. now rewrite (Encode_struct _ _ _ _ H).
  - intros pl t i u v bs v' H W R. now rewrite (Encode_user _ _ _ _ _ H).
  - intros t. apply writes_ret.
  - intros t v l b bs v' l' _ IH1 _ IH2. cbn [put_list]. now apply writes_etry.
  - intros kt vt. apply writes_ret.
  - intros kt vt k v m b1 b2 bs k' v' m' _ IH1 _ IH2 _ IH3. cbn [put_pairs]. repeat apply writes_etry; assumption.
  - apply writes_ret.
  - intros tg t fs v l b bs v' l' TG D _ IH1 _ IH2. rewrite put_plain by (destruct TG; congruence). now apply writes_etry.
  - intros t fs v l bs l' Z D _ IH. rewrite put_absent by assumption.
    apply writes_ebind; [intros out; reflexivity|assumption].
  - intros t fs v l b bs v' l' Z D _ IH1 _ IH2. rewrite put_present by assumption.
    apply writes_ebind; [intros out; reflexivity|]. now apply writes_etry.
Qed.

(** ** ... and read back from it *)
Definition get (fuel : nat) (E : types) (pl : place) (t : gtype) (old : rval) : io rval :=
  match pl with
  | Slot => through E (decode fuel E chain_decoder Whole) t old
  | Target => decode fuel E chain_decoder Whole t old
  | Behind => decode fuel E chain_decoder Deref t old
  end.
Definition get_variant (fuel : nat) (E : types) (t : gtype) (v : rval) : io rval :=
  '(i, err) <-- ReadByte ;;
  match err with Some e => DRet (v, Some e) | None => decode fuel E chain_decoder (Alt i) t v end.

Lemma zero_struct fs : zero_of (TStruct fs) = RStruct (map (fun fd : tag * visibility * gtype => zero_of (snd fd)) fs).
Proof. cbn [zero_of]. f_equal. induction fs as [|[[tg vis] t] fs IH]; [reflexivity|]. cbn [map snd]. now rewrite IH. Qed.
Lemma zero_direct E t : direct t = true -> zero E t = zero_of t.
Proof. destruct t; try reflexivity; discriminate. Qed.

Lemma leaf_reads p q bs : typed_prim p -> bounded_prim p -> wf_keys p -> prim_layout p bs ->
  kind_of q = kind_of p -> LeafProofs.fresh q -> reads (leaf_read q) bs (RLeaf p (leaf_zero p)).
Proof.
  intros T B W L K F. unfold leaf_read. eapply rd_bind0; [apply (leaf_layout_reads p bs q); assumption|]. apply reads_ret.
Qed.
Lemma zero_kind k : kind_of (zero_prim k) = k.
Proof. destruct k; reflexivity. Qed.
Lemma zero_fresh k : LeafProofs.fresh (zero_prim k).
Proof. destruct k; exact I || reflexivity. Qed.

(** Decode's own steps on values that are not leaves. *)
Lemma decode_whole fuel E t old : (forall k p z, head E t = TLeaf k -> old <> RLeaf p z) ->
  decode (S fuel) E chain_decoder Whole t old = decode fuel E chain_decoder Deref t old.
Proof.
  intros H. cbn [decode]. unfold chain_decoder at 1.
  destruct (head E t) eqn:Ht; try reflexivity. destruct old; try reflexivity. now elim (H k p z).
Qed.
Lemma decode_whole_leaf fuel E t k p z bs v : head E t = TLeaf k -> kind_of p = k ->
  reads (leaf_read p) bs v -> reads (decode (S (S fuel)) E chain_decoder Whole t (RLeaf p z)) bs v.
Proof.
  intros H K R. set (f := S fuel). cbn [decode]. unfold chain_decoder at 1. rewrite H.
  destruct (table_kind k) eqn:TK.
  - rewrite <- (app_nil_r bs). intros env rest. rewrite run_dbind, run_dbind, <- app_assoc, R. reflexivity.
  - cbn [dbind]. destruct (go_kind k) eqn:GK; [exact R|]. unfold f. cbn [decode]. rewrite H, GK. exact R.
Qed.

Lemma map_set_new k x m : ~ In k (map fst m) -> map_set k x m = m ++ [(k, x)].
Proof.
  induction m as [|[k' x'] m IH]; intros N; [reflexivity|]. cbn [map_set map fst In app] in *.
  destruct (rval_dec k k'); [subst; tauto|]. rewrite IH by tauto. reflexivity.
Qed.

Lemma elem_byte_elem c z : elem_byte (RLeaf (PU8 (zb c)) z) = c.
Proof. cbn [elem_byte]. apply bz_zb. Qed.
Lemma byte_elems_reads fuel E h b : reads (get_elems (decode (S fuel) E chain_decoder Whole (TLeaf KU8))
   (repeat (RLeaf (PU8 0) h) (length b))) b (byte_elems b).
Proof.
  induction b as [|c b IH]; [apply reads_ret|]. cbn [repeat length get_elems byte_elems map].
  change (c :: b) with ([c] ++ b). eapply reads_dbind.
  - cbn [decode]. cbn [head chain_decoder table_kind go_kind negb dbind].
    apply (leaf_reads (PU8 (zb c)) (PU8 0) [c]); try exact I; try reflexivity; cbn [typed_prim prim_layout].
    + unfold in_u. pose proof (zb_range c). lia.
    + split; [reflexivity|]. cbn [le_value]. pose proof (zb_range c). change (256 ^ Z.of_nat 1) with 256. rewrite Z.mod_small; lia.
  - cbv beta iota. eapply rd_bind0; [exact IH|]. apply reads_ret.
Qed.

Definition composite (E : types) (t : gtype) : Prop :=
  match head E t with TLeaf _ | TPtr _ => False | _ => True end.
Lemma get_composite E pl t old bs v F : composite E t ->
  (forall fuel, (F <= fuel)%nat -> reads (decode fuel E chain_decoder Deref t old) bs v) ->
  exists F', forall fuel, (F' <= fuel)%nat -> reads (get fuel E pl t old) bs v.
Proof.
  intros C H. unfold composite in C. exists (S F). intros [|fuel] Hf; [lia|].
  assert (W : reads (decode (S fuel) E chain_decoder Whole t old) bs v).
  { rewrite decode_whole; [apply H; lia|]. intros k p z Hk. now rewrite Hk in C. }
  destruct pl; cbn [get]; [|exact W|apply H; lia].
  unfold through. destruct (head E t); try exact W; contradiction.
Qed.
Lemma i64_len n : 0 <= n < 2 ^ 28 -> i64 n = n.
Proof. intros H. apply i64_small. lia. Qed.

Lemma slice_reads size z f pre bs l' n : varu (Z.of_nat n) pre -> Z.of_nat n < 2 ^ 28 ->
  make_ok size (Z.of_nat n) = true -> (n = O -> l' = []) ->
  reads (get_elems f (repeat z n)) bs l' -> reads (get_slice size z f None) (pre ++ bs)
    match l' with [] => None | _ => Some l' end.
Proof.
  intros V SH MK N0 R. unfold get_slice. destruct (varu_ok _ _ (conj (Nat2Z.is_nonneg n) SH) V) as [_ RV].
  eapply reads_dbind; [exact RV|]. cbv beta iota. rewrite i64_len by lia.
  destruct n as [|n].
  - rewrite N0 in * by reflexivity. cbn [zlen length]. cbn [repeat get_elems] in R.
    specialize (R {| r_end := EOF; r_strict := true |} []). cbn [run] in R. injection R as R.
    rewrite app_nil_r in R. subst bs. apply reads_ret.
  - replace (zlen (@nil rval) =? Z.of_nat (S n)) with false by (unfold zlen; cbn [length]; lia).
    rewrite MK, Nat2Z.id.
    destruct l' as [|x l'].
    + exfalso. assert (H : forall f n l env inp out rest, run env (get_elems f l) inp = Done (out, None) rest -> length l = S n -> out <> []).
      { clear. intros f n l env inp out rest R L. destruct l as [|y l]; [discriminate|]. cbn [get_elems] in R.
        rewrite run_dbind in R. destruct (run env (f y) inp) as [[x [e|]] r|m|]; try discriminate.
        rewrite run_dbind in R. destruct (run env (get_elems f l) r) as [[xs e] r'|m|]; try discriminate.
        injection R as <- _ _. discriminate. }
      eapply (H f n (repeat z (S n)) {| r_end := EOF; r_strict := true |} (bs ++ []) [] []); [apply R|now rewrite repeat_length|reflexivity].
    + eapply rd_bind0; [exact R|]. apply reads_ret.
Qed.
Lemma encoded_list_length E t l bs l' : encoded_list E t l bs l' -> length l' = length l.
Proof. induction 1; cbn [length]; congruence. Qed.

Ltac by_deref F := apply (get_composite _ _ _ _ _ _ F); [unfold composite; now match goal with H : head _ _ = _ |- _ => rewrite H end|].

Lemma encoded_reads E :
  (forall pl t v bs v', encoded E pl t v bs v' ->
     exists F, forall fuel, (F <= fuel)%nat -> reads (get fuel E pl t (zero E t)) bs v')
  /\ (forall t l bs l', encoded_list E t l bs l' ->
     exists F, forall fuel, (F <= fuel)%nat ->
       reads (get_elems (get fuel E Slot t) (repeat (zero E t) (length l))) bs l')
  /\ (forall kt vt m bs m', encoded_pairs E kt vt m bs m' ->
     exists F, forall fuel, (F <= fuel)%nat -> forall acc, NoDup (map fst (acc ++ m')) ->
       reads (get_pairs (get fuel E Target kt (zero E kt)) (get fuel E Target vt (zero E vt)) (length m) acc)
         bs (acc ++ m'))
  /\ (forall fs l bs l', encoded_fields E fs l bs l' ->
     exists F, forall fuel, (F <= fuel)%nat ->
       reads (get_fields E (decode fuel E chain_decoder Whole) (get_variant fuel E) fs
                (map (fun fd : tag * visibility * gtype => zero_of (snd fd)) fs)) bs l').
Proof.
  apply encoded_all.
  - (* leaf *)
    intros pl t k p z bs H K R T B W L. exists 2%nat. intros [|[|fuel]] Hf; try lia.
    unfold zero. rewrite H. cbn [zero_of].
    assert (LR : reads (leaf_read (zero_prim k)) bs (RLeaf p (leaf_zero p))).
    { apply leaf_reads; try assumption; [now rewrite zero_kind|apply zero_fresh]. }
    assert (WR : reads (decode (S (S fuel)) E chain_decoder Whole t (RLeaf (zero_prim k) true)) bs (RLeaf p (leaf_zero p))).
    { apply (decode_whole_leaf _ _ _ k); [exact H|apply zero_kind|exact LR]. }
    destruct pl; cbn [get].
    + unfold through. rewrite H. exact WR.
    + exact WR.
    + cbn [readable] in R. set (f := S fuel). cbn [decode]. rewrite H. destruct (go_kind k) eqn:GK.
      2:{ replace (read_zero Behind p) with (leaf_zero p); [exact LR|].
          destruct p; try reflexivity. cbn [kind_of] in K. subst k. discriminate GK. }
      cbn [negb orb] in R. subst k.
      destruct p; try discriminate R; cbn [kind_of zero_prim] in *.
      1-4: eapply rd_bind0; [exact LR|]; apply reads_ret.
      cbn [bounded_prim prim_layout] in *. unfold short in B. destruct L as (pre & d & -> & V & Ld).
      unfold raw in Ld. subst d. eapply rd_bind0.
      * assert (GS : forall o, elems o = [] -> reads (get_slice 1 (zero_of (TLeaf KU8)) (decode f E chain_decoder Whole (TLeaf KU8)) o)
                       (pre ++ b) match b with [] => o | _ => Some (byte_elems b) end).
        { intros o Ho. unfold get_slice.
          destruct (varu_ok _ _ (conj (zlen_nonneg b) B) V) as [_ RV].
          eapply reads_dbind; [exact RV|]. cbv beta iota. pose proof (zlen_nonneg b). rewrite i64_len by lia.
          change (match o with Some cur => cur | None => [] end) with (elems o). rewrite Ho.
          destruct b as [|c b].
          - cbn [zlen length]. change (zlen (@nil byte)) with 0. change (zlen (@nil rval) =? 0) with true. cbv iota.
            destruct o as [l|]; [|apply reads_ret]. cbn [elems] in Ho. subst l. apply reads_ret.
          - replace (zlen (@nil rval) =? zlen (c :: b)) with false by (unfold zlen; cbn [length]; lia).
            assert (MK : make_ok 1 (zlen (c :: b)) = true) by (unfold make_ok, max_alloc; lia).
            rewrite MK. unfold zlen at 1. rewrite Nat2Z.id.
            eapply rd_bind0; [apply (byte_elems_reads fuel E true (c :: b))|]. apply reads_ret. }
        apply (GS None). reflexivity.
      * cbv beta iota.
        destruct b as [|c b]; [apply reads_ret|]. cbn [byte_slice read_zero leaf_zero].
        assert (EB : map elem_byte (byte_elems (c :: b)) = c :: b).
        { unfold byte_elems. rewrite map_map.
          rewrite <- (map_id (c :: b)) at 2. apply map_ext. intros x. apply elem_byte_elem. }
        rewrite EB. apply reads_ret.
  - (* int *)
    intros pl t k v bs H R L. by_deref 1%nat. intros [|fuel] Hf; [lia|]. cbn [decode]. unfold zero. rewrite H.
    cbn [zero_of]. eapply rd_bind0; [apply reads_keep; exact (int_reads _ _ _ R L)|]. apply reads_ret.
  - (* pointer *)
    intros pl t t' v bs v' H S [F HF]. exists (Datatypes.S (Datatypes.S F)). intros [|[|fuel]] Hf; try lia.
    assert (Z : zero E t = RPtr None) by (unfold zero; now rewrite H). rewrite Z.
    assert (DR : beneath pl = Behind -> forall fuel, (F <= fuel)%nat ->
              reads (decode (Datatypes.S fuel) E chain_decoder Deref t (RPtr None)) bs (RPtr (Some v'))).
    { intros EB f Hf'. cbn [decode]. rewrite H. unfold through. rewrite H. eapply rd_bind0; [|apply reads_ret].
      specialize (HF f Hf'). rewrite EB in HF. exact HF. }
    destruct pl; cbn [get beneath] in *.
    + unfold through. rewrite H. eapply rd_bind0; [|apply reads_ret]. apply HF. lia.
    + rewrite decode_whole by (intros; congruence). apply DR; [reflexivity|lia].
    + apply DR; [reflexivity|lia].
  - (* slice *)
    intros pl t t' o pre bs l' H SH MK V S [F HF]. by_deref (Datatypes.S F). intros [|fuel] Hf; [lia|].
    replace (zero E t) with (RSlice None) by (unfold zero; now rewrite H). cbn [decode]. rewrite H.
    eapply rd_bind0; [|apply reads_ret].
    apply slice_reads with (n := length (elems o)); try assumption.
    + intros N. apply encoded_list_length in S. rewrite N in S. now destruct l'.
    + apply (HF fuel). lia.
  - (* array *)
    intros pl t n t' l bs l' H D LE S [F HF]. by_deref (Datatypes.S F). intros [|fuel] Hf; [lia|].
    cbn [decode]. unfold zero. rewrite H. cbn [zero_of].
    eapply rd_bind0; [|apply reads_ret]. rewrite <- (zero_direct E t' D), <- LE. apply (HF fuel). lia.
  - (* map *)
    intros pl t kt vt o pre bs m' H CK SH V S [F HF] N. by_deref (Datatypes.S F). intros [|fuel] Hf; [lia|].
    replace (zero E t) with (RMap None) by (unfold zero; now rewrite H). cbn [decode]. rewrite H.
    eapply rd_bind0; [|apply reads_ret]. unfold get_map.
    pose proof (zlen_nonneg (elems o)). destruct (varu_ok (zlen (elems o)) pre ltac:(lia) V) as [_ RV].
    eapply reads_dbind; [exact RV|]. cbv beta iota. rewrite i64_len by lia. unfold zlen at 1. rewrite Nat2Z.id.
    eapply rd_bind0; [|apply reads_ret]. apply (HF fuel ltac:(lia) []). exact N.
  - (* struct *)
    intros pl t fs l bs l' H S [F HF]. by_deref (Datatypes.S F). intros [|fuel] Hf; [lia|].
    cbn [decode]. unfold zero. rewrite H, zero_struct.
    eapply rd_bind0; [|apply reads_ret]. apply (HF fuel). lia.
  - (* user *)
    intros pl t i u v bs v' H W R. by_deref 1%nat. intros [|fuel] Hf; [lia|].
    cbn [decode]. unfold zero. rewrite H. cbn [zero_of]. eapply rd_bind0; [apply R|apply reads_ret].
  - intros t. exists O. intros fuel _. apply reads_ret.
  - intros t v l b bs v' l' _ [F1 H1] _ [F2 H2]. exists (Nat.max F1 F2). intros fuel Hf.
    cbn [length repeat get_elems]. eapply reads_dbind; [apply H1; lia|]. cbv beta iota.
    eapply rd_bind0; [apply H2; lia|]. apply reads_ret.
  - intros kt vt. exists O. intros fuel _ acc _. rewrite app_nil_r. apply reads_ret.
  - intros kt vt k v m b1 b2 bs k' v' m' _ [F1 H1] _ [F2 H2] _ [F3 H3].
    exists (Nat.max F1 (Nat.max F2 F3)). intros fuel Hf acc N. cbn [length get_pairs].
    eapply reads_dbind; [apply H1; lia|]. cbv beta iota. eapply reads_dbind; [apply H2; lia|]. cbv beta iota.
    rewrite map_set_new.
    + replace (acc ++ (k', v') :: m') with ((acc ++ [(k', v')]) ++ m') by now rewrite <- app_assoc.
      apply H3; [lia|]. now rewrite <- app_assoc.
    + rewrite map_app in N. cbn [map fst] in N. apply NoDup_remove_2 in N. intros I. apply N. apply in_or_app. now left.
  - exists O. intros fuel _. apply reads_ret.
  - intros tg t fs v l b bs v' l' TG D _ [F1 H1] _ [F2 H2]. exists (Nat.max F1 F2). intros fuel Hf.
    cbn [map snd get_fields]. rewrite <- (zero_direct E t D).
    eapply reads_dbind with (a := v').
    + cbn [get_field]. specialize (H1 fuel ltac:(lia)). destruct TG as [-> | ->]; [exact H1|].
      eapply rd_bind0; [exact H1|]. apply reads_ret.
    + cbv beta iota. eapply rd_bind0; [apply H2; lia|]. apply reads_ret.
  - intros t fs v l bs l' Z D _ [F H]. exists F. intros fuel Hf.
    cbn [map snd get_fields]. eapply reads_dbind with (a := zero_of t).
    + cbn [get_field]. eapply rd_bind0; [apply (bool_ok false)|]. cbv beta iota. rewrite (zero_direct E t D). apply reads_ret.
    + cbv beta iota. eapply rd_bind0; [apply H; lia|]. apply reads_ret.
  - intros t fs v l b bs v' l' Z D _ [F1 H1] _ [F2 H2]. exists (Nat.max F1 F2). intros fuel Hf.
    cbn [map snd get_fields]. rewrite app_assoc. eapply reads_dbind with (a := v').
    + cbn [get_field]. eapply reads_dbind; [apply (bool_ok true)|]. cbv beta iota.
      rewrite <- (zero_direct E t D). apply (H1 fuel). lia.
    + cbv beta iota. eapply rd_bind0; [apply H2; lia|]. apply reads_ret.
Qed.

(** ** Whatever was encoded without error has a wire form *)
Definition supported_at (E : types) (pl : place) (t : gtype) : Prop :=
  forall pl' t', within E (pl, t) (pl', t') -> supported_here E pl' t'.
Lemma supported_self E pl t : supported_at E pl t -> supported_here E pl t.
Proof. intros H. apply H. constructor. Qed.
Lemma supported_part E pl t pl' t' : supported_at E pl t -> part E (pl, t) (pl', t') -> supported_at E pl' t'.
Proof. intros H P pl'' t'' W. apply H. eapply wi_part; eassumption. Qed.
Definition fields_supported (E : types) (fs : list (tag * visibility * gtype)) : Prop :=
  Forall (fun '(tg, vis, t) => tg <> Variant /\ vis = Exported /\ direct t = true /\ supported_at E Slot t) fs.
Lemma fields_supported_cons E tg vis t fs : fields_supported E ((tg, vis, t) :: fs) ->
  tg <> Variant /\ vis = Exported /\ direct t = true /\ supported_at E Slot t /\ fields_supported E fs.
Proof. intros H. inversion H as [|x y A B]; subst. cbv beta iota in A. tauto. Qed.
Lemma supported_fields E pl t fs : head E t = TStruct fs -> supported_at E pl t -> fields_supported E fs.
Proof.
  intros H S. pose proof (supported_self _ _ _ S) as S0. unfold supported_here in S0. rewrite H in S0.
  unfold fields_supported. rewrite Forall_forall in *. intros [[tg vis] t'] I. specialize (S0 _ I).
  cbv beta iota in S0 |- *. destruct S0 as (A & B & C). repeat split; try assumption.
  eapply supported_part; [exact S|]. eapply pt_field; eassumption.
Qed.

Lemma zero_by_value E ok :
  (forall t v, has_type E ok t v -> by_value t = true -> is_zero v = true -> v = zero_of t)
  /\ (forall t l, have_type E ok t l -> by_value t = true -> is_zero (RArray l) = true -> l = repeat (zero_of t) (length l))
  /\ (forall kt vt m, have_pair_type E ok kt vt m -> True)
  /\ (forall fs l, have_field_types E ok fs l -> by_value (TStruct fs) = true -> is_zero (RStruct l) = true ->
        l = map (fun fd : tag * visibility * gtype => zero_of (snd fd)) fs).
Proof.
  assert (HD : forall t, by_value t = true -> head E t = t) by (intros [] B; try reflexivity; discriminate B).
  apply has_type_all; try (intros; exact I); try discriminate.
  - intros t k p z H K [Z1 Z2] O B Z. rewrite HD in H by exact B. subst t. cbn [is_zero zero_of] in *. subst z. now rewrite Z1, K.
  - intros t k v H R B Z. rewrite HD in H by exact B. subst t. cbn [is_zero zero_of] in *. f_equal. lia.
  - intros t z H B Z. rewrite HD in H by exact B. subst t. cbn [is_zero zero_of] in *. now subst z.
  - intros t t' H B Z. rewrite HD in H by exact B. now subst t.
  - intros t t' H B Z. rewrite HD in H by exact B. now subst t.
  - intros t t' n l H HL IH N B Z. rewrite HD in H by exact B. subst t n. cbn [zero_of]. f_equal. now apply IH.
  - intros t kt vt H B Z. rewrite HD in H by exact B. now subst t.
  - intros t fs l H HL IH B Z. rewrite HD in H by exact B. subst t. rewrite zero_struct. f_equal. now apply IH.
  - intros t i u v H HV IH B Z. rewrite HD in H by exact B. subst t. cbn [zero_of]. f_equal. now apply IH.
  - reflexivity.
  - intros t v l Hv IHv Hl IHl B Z. cbn [is_zero] in Z. apply andb_prop in Z as [Z1 Z2]. cbn [length repeat].
    f_equal; [now apply IHv|now apply IHl].
  - reflexivity.
  - intros tg vis t fs v l Hv IHv Hl IHl B Z. cbn [is_zero] in Z. apply andb_prop in Z as [Z1 Z2].
    cbn [by_value] in B. apply andb_prop in B as [B1 B2]. cbn [map snd]. f_equal; [now apply IHv|now apply IHl].
Qed.
Lemma zero_unique E ok :
  (forall t v, has_type E ok t v -> forall pl, supported_at E pl t -> is_zero v = true -> v = zero E t)
  /\ (forall t l, have_type E ok t l -> supported_at E Slot t -> is_zero (RArray l) = true -> l = repeat (zero E t) (length l))
  /\ (forall kt vt m, have_pair_type E ok kt vt m -> True)
  /\ (forall fs l, have_field_types E ok fs l -> fields_supported E fs -> is_zero (RStruct l) = true ->
        l = map (fun fd : tag * visibility * gtype => zero_of (snd fd)) fs).
Proof.
  apply has_type_all; try (intros; exact I); unfold zero.
  - intros t k p z H K [Z1 Z2] O pl S Z. cbn [is_zero] in Z. subst z. rewrite H. cbn [zero_of]. rewrite Z1 by reflexivity. now rewrite K.
  - intros t k v H R pl S Z. cbn [is_zero] in Z. rewrite H. cbn [zero_of]. f_equal. lia.
  - intros t z H pl S Z. cbn [is_zero] in Z. subst z. now rewrite H.
  - intros t t' H pl S Z. now rewrite H.
  - discriminate.
  - intros t t' H pl S Z. now rewrite H.
  - discriminate.
  - intros t t' n l H HL IH N pl S Z. rewrite H. cbn [zero_of]. subst n.
    pose proof (supported_self _ _ _ S) as S0. unfold supported_here in S0. rewrite H in S0.
    rewrite <- (zero_direct E t' S0). f_equal. apply IH; [|exact Z].
    eapply supported_part; [exact S|]. eapply pt_array; eassumption.
  - intros t kt vt H pl S Z. now rewrite H.
  - discriminate.
  - intros t fs l H HL IH pl S Z. rewrite H, zero_struct. f_equal. apply IH; [|exact Z].
    eapply supported_fields; eassumption.
  - intros t i u v H HV IH pl S Z. rewrite H. cbn [zero_of]. f_equal.
    pose proof (supported_self _ _ _ S) as S0. unfold supported_here in S0. rewrite H in S0.
    now apply (proj1 (zero_by_value E ok)).
  - reflexivity.
  - intros t v l Hv IHv Hl IHl S Z. cbn [is_zero] in Z. apply andb_prop in Z as [Z1 Z2]. cbn [length repeat].
    f_equal; [now apply (IHv Slot)|now apply IHl].
  - reflexivity.
  - intros tg vis t fs v l Hv IHv Hl IHl S Z. cbn [is_zero] in Z. apply andb_prop in Z as [Z1 Z2].
    apply fields_supported_cons in S as (A & B & D & C & S'). cbn [map snd]. f_equal; [|now apply IHl].
    rewrite (IHv Slot C Z1). now apply zero_direct.
Qed.

Lemma int_done k v : int_range k v -> exists bs, int_layout k v bs.
Proof. intros _. destruct k; cbn [int_layout]; eexists; apply lay_le. Qed.
Lemma varu_done v out full : 0 <= v -> runw (WriteVaruint v) out = WDone None full ->
  v < 2 ^ 28 /\ exists pre, varu v pre /\ full = out ++ pre.
Proof.
  intros N H. pose proof (Varuint_done _ _ _ H) as L. split; [lia|].
  exists (varuint v). split; [apply lay_varu; lia|]. rewrite (WriteVaruint_writes v) in H by lia. congruence.
Qed.
Lemma leaf_done_layout p out full : typed_prim p -> runw (write_prim p) out = WDone None full ->
  bounded_prim p /\ exists bs, prim_layout p bs /\ full = out ++ bs.
Proof.
  intros T H. pose proof (leaf_done _ _ _ T H) as B. split; [exact B|].
  destruct (leaf_round p T B) as (bs & W & L & _). exists bs. split; [exact L|]. rewrite W in H. congruence.
Qed.
Lemma same_refl_all : forall v, same v v.
Proof.
  fix IH 1. intros [p z|v|z|[v|]|[l|]|l|[m|]|l|v].
  - constructor.
  - constructor.
  - constructor.
  - constructor. apply IH.
  - constructor.
  - constructor. cbn [elems]. revert l. fix IHl 1. intros [|v l]; constructor; [apply IH|apply IHl].
  - constructor. constructor.
  - constructor. revert l. fix IHl 1. intros [|v l]; constructor; [apply IH|apply IHl].
  - eapply sm_map; [apply Permutation_refl|]. cbn [elems]. revert m. fix IHl 1. intros [|[k v] l]; constructor; [apply IH|apply IH|apply IHl].
  - eapply sm_map; [apply Permutation_refl|]. constructor.
  - constructor. revert l. fix IHl 1. intros [|v l]; constructor; [apply IH|apply IHl].
  - constructor. apply IH.
Qed.

Definition fields_comparable (fs : list (tag * visibility * gtype)) : bool := comparable (TStruct fs).
Lemma comparable_head E t : comparable t = true -> head E t = t.
Proof. destruct t; try reflexivity. discriminate. Qed.

Lemma encode_complete E :
  (forall t v, has_type E sound_leaf t v -> forall pl out full, supported_at E pl t ->
     runw (Encode E t v) out = WDone None full ->
     exists bs v', full = out ++ bs /\ encoded E pl t v bs v' /\ same v v' /\ (comparable t = true -> v' = v))
  /\ (forall t l, have_type E sound_leaf t l -> forall out full, supported_at E Slot t ->
     runw (put_list (Encode E t) l) out = WDone None full ->
     exists bs l', full = out ++ bs /\ encoded_list E t l bs l' /\ same_list l l' /\ (comparable t = true -> l' = l))
  /\ (forall kt vt m, have_pair_type E sound_leaf kt vt m -> forall out full, supported_at E Target kt -> supported_at E Target vt ->
     runw (put_pairs (Encode E kt) (Encode E vt) m) out = WDone None full ->
     exists bs m', full = out ++ bs /\ encoded_pairs E kt vt m bs m' /\ same_pairs m m'
       /\ (comparable kt = true -> map fst m' = map fst m))
  /\ (forall fs l, have_field_types E sound_leaf fs l -> forall out full, fields_supported E fs ->
     runw (put_fields E chain_encoder fs l) out = WDone None full ->
     exists bs l', full = out ++ bs /\ encoded_fields E fs l bs l' /\ same_list l l'
       /\ (fields_comparable fs = true -> l' = l)).
Proof.
  apply has_type_all.
  - intros t k p z H K ZF [T W] pl out full S R. rewrite (Encode_leaf _ _ _ _ _ H K) in R.
    destruct (leaf_done_layout _ _ _ T R) as (B & bs & L & ->).
    pose proof (supported_self _ _ _ S) as S0. unfold supported_here in S0. rewrite H in S0.
    exists bs, (RLeaf p (read_zero pl p)). split; [reflexivity|]. split; [now apply (w_leaf E pl t k)|]. split; [constructor|].
    intros C. rewrite (comparable_head E) in H by assumption. subst t. cbn [comparable] in C. apply andb_prop in C as [C _].
    assert (HS : holds_slice (kind_of p) = false) by (rewrite K; now destruct (holds_slice k)).
    destruct ZF as [_ ZF]. rewrite (ZF HS). f_equal. destruct p; try discriminate HS; now destruct pl.
  - intros t k v H R pl out full S D. rewrite (Encode_int _ _ _ _ H) in D. destruct (int_done k v R) as [bs L].
    rewrite (int_writes _ _ _ R L) in D. exists bs, (RInt v). split; [congruence|]. split; [now apply (w_int E pl t k)|].
    split; [constructor|reflexivity].
  - intros t z H pl out full S D. apply supported_self in S. unfold supported_here in S. now rewrite H in S.
  - intros t t' H pl out full S D. now apply (Encode_nil _ _ _ H) in D.
  - intros t t' v H Hv IH pl out full S D. rewrite (Encode_ptr _ _ _ _ H) in D by (eapply has_type_leaf_shaped; eassumption).
    destruct (IH (beneath pl) out full) as (bs & v' & -> & W & M & _); [|exact D|].
    + eapply supported_part; [exact S|]. now constructor.
    + exists bs, (RPtr (Some v')). split; [reflexivity|]. split; [eapply w_ptr; eassumption|]. split; [now constructor|].
      intros C. rewrite (comparable_head E) in H by assumption. subst t. discriminate.
  - intros t t' H pl out full S D. rewrite (Encode_slice _ _ _ _ H) in D. cbn [elems put_list] in D.
    apply runw_etry_done in D as (mid & D1 & D2). cbn [runw] in D2. injection D2 as <-.
    destruct (varu_done 0 out mid ltac:(lia) D1) as (_ & pre & V & ->). exists (pre ++ []), (RSlice None).
    split; [now rewrite app_nil_r|]. split.
    + apply (w_slice E pl t t' None pre [] []); try assumption; try (cbn; lia); constructor.
    + split; [constructor; constructor|]. intros C. rewrite (comparable_head E) in H by assumption. subst t. discriminate.
  - intros t t' l H Hl IH MK pl out full S D. rewrite (Encode_slice _ _ _ _ H) in D.
    apply runw_etry_done in D as (mid & D1 & D2). cbn [elems] in *.
    destruct (varu_done _ out mid (zlen_nonneg l) D1) as (SH & pre & V & ->).
    destruct (IH _ full ltac:(eapply supported_part; [exact S|econstructor; eassumption]) D2) as (bs & l' & -> & W & M & _).
    exists (pre ++ bs), (RSlice match l' with [] => None | _ => Some l' end). split; [now rewrite app_assoc|]. split.
    + apply (w_slice E pl t t' (Some l)); assumption.
    + split; [|intros C; rewrite (comparable_head E) in H by assumption; subst t; discriminate].
      constructor. destruct l'; exact M.
  - intros t t' n l H Hl IH N pl out full S D. rewrite (Encode_array _ _ _ _ _ H) in D.
    destruct (IH _ full ltac:(eapply supported_part; [exact S|econstructor; eassumption]) D) as (bs & l' & -> & W & M & C).
    pose proof (supported_self _ _ _ S) as S0. unfold supported_here in S0. rewrite H in S0.
    exists bs, (RArray l'). split; [reflexivity|]. split; [now apply (w_array E pl t n t')|]. split; [now constructor|].
    intros CC. rewrite (comparable_head E) in H by assumption. subst t. cbn [comparable] in CC. now rewrite C.
  - intros t kt vt H pl out full S D. rewrite (Encode_map _ _ _ _ _ H) in D. cbn [elems put_pairs] in D.
    apply runw_etry_done in D as (mid & D1 & D2). cbn [runw] in D2. injection D2 as <-.
    destruct (varu_done 0 out mid ltac:(lia) D1) as (_ & pre & V & ->). exists (pre ++ []), (RMap (Some [])).
    split; [now rewrite app_nil_r|]. split.
    + pose proof (supported_self _ _ _ S) as S0. unfold supported_here in S0. rewrite H in S0.
      apply (w_map E pl t kt vt None pre [] []); try assumption; try (cbn; lia); constructor.
    + split; [apply (sm_map None (Some []) []); constructor|]. intros C. rewrite (comparable_head E) in H by assumption. subst t. discriminate.
  - intros t kt vt m H CK Hm IH N pl out full S D. rewrite (Encode_map _ _ _ _ _ H) in D.
    apply runw_etry_done in D as (mid & D1 & D2). cbn [elems] in *.
    destruct (varu_done _ out mid (zlen_nonneg m) D1) as (SH & pre & V & ->).
    destruct (IH _ full ltac:(eapply supported_part; [exact S|econstructor; eassumption])
                ltac:(eapply supported_part; [exact S|eapply pt_value; eassumption]) D2) as (bs & m' & -> & W & M & C).
    exists (pre ++ bs), (RMap (Some m')). split; [now rewrite app_assoc|]. split.
    + apply (w_map E pl t kt vt (Some m)); try assumption. now rewrite C.
    + split; [|intros C'; rewrite (comparable_head E) in H by assumption; subst t; discriminate].
      eapply sm_map; [apply Permutation_refl|exact M].
  - intros t fs l H Hl IH pl out full S D. rewrite (Encode_struct _ _ _ _ H) in D.
    destruct (IH _ full (supported_fields _ _ _ _ H S) D) as (bs & l' & -> & W & M & C).
    exists bs, (RStruct l'). split; [reflexivity|]. split; [eapply w_struct; eassumption|]. split; [now constructor|].
    intros CC. rewrite (comparable_head E) in H by assumption. subst t. now rewrite C.
  - intros t i u v H Hv IH pl out full S D. rewrite (Encode_user _ _ _ _ _ H) in D.
    pose proof (supported_self _ _ _ S) as S0. unfold supported_here in S0. rewrite H in S0. destruct S0 as [_ FA].
    destruct (FA v out full Hv D) as (bs & v' & -> & R & M & C). exists bs, (RUser v'). split; [reflexivity|]. split.
    + eapply w_user; [exact H| |exact R]. intros out'. pose proof (runw_shift (marshals E i v) out out') as X. rewrite D in X.
      now apply X.
    + split; [now constructor|]. intros CC. rewrite (comparable_head E) in H by assumption. subst t. now rewrite C.
  - intros t out full S D. cbn in D. injection D as <-. exists [], []. rewrite app_nil_r. repeat split; constructor.
  - intros t v l Hv IHv Hl IHl out full S D. cbn [put_list] in D. apply runw_etry_done in D as (mid & D1 & D2).
    destruct (IHv _ _ _ S D1) as (b & v' & -> & W & M & C). destruct (IHl _ _ S D2) as (bs & l' & -> & W' & M' & C').
    exists (b ++ bs), (v' :: l'). split; [now rewrite app_assoc|]. split; [now constructor|]. split; [now constructor|].
    intros CC. now rewrite C, C'.
  - intros kt vt out full S1 S2 D. cbn in D. injection D as <-. exists [], []. rewrite app_nil_r. repeat split; constructor.
  - intros kt vt k v m Hk IHk Hv IHv Hm IHm out full S1 S2 D. cbn [put_pairs] in D.
    apply runw_etry_done in D as (mid & D1 & D2). apply runw_etry_done in D2 as (mid2 & D2 & D3).
    destruct (IHk _ _ _ S1 D1) as (b1 & k' & -> & W1 & M1 & C1). destruct (IHv _ _ _ S2 D2) as (b2 & v' & -> & W2 & M2 & _).
    destruct (IHm _ _ S1 S2 D3) as (bs & m' & -> & W3 & M3 & C3).
    exists (b1 ++ b2 ++ bs), ((k', v') :: m'). split; [now rewrite !app_assoc|]. split; [now constructor|]. split; [now constructor|].
    intros CC. cbn [map fst]. now rewrite C1, C3.
  - intros out full S D. cbn in D. injection D as <-. exists [], []. rewrite app_nil_r. repeat split; constructor.
  - intros tg vis t fs v l Hv IHv Hl IHl out full S D.
    apply fields_supported_cons in S as (TG & -> & DI & S1 & S2).
    assert (CF : fields_comparable ((tg, Exported, t) :: fs) = true -> comparable t = true /\ fields_comparable fs = true)
      by (unfold fields_comparable; cbn [comparable]; apply andb_prop).
    destruct (match tg with Optional => true | _ => false end) eqn:OP.
    + assert (tg = Optional) by (destruct tg; congruence). subst tg. destruct (is_zero v) eqn:Z.
      * rewrite put_absent in D by assumption. rewrite runw_ebind in D. cbn in D.
        destruct (IHl _ _ S2 D) as (bs & l' & -> & W & M & C). exists ([x00] ++ bs), (zero_of t :: l').
        assert (VZ : v = zero_of t).
        { rewrite <- (zero_direct E t DI). eapply (proj1 (zero_unique E sound_leaf)); eassumption. }
        split; [now rewrite app_assoc|]. split; [now apply wf_absent|]. split.
        -- constructor; [rewrite VZ; apply same_refl_all|exact M].
        -- intros CC. destruct (CF CC) as [_ CC']. rewrite C, <- VZ by assumption. reflexivity.
      * rewrite put_present in D by assumption. rewrite runw_ebind in D. cbn [WriteBool WriteByte runw] in D.
        assert (D' : runw (etry (Encode E t v) (put_fields E chain_encoder fs l)) (out ++ [x01]) = WDone None full) by exact D.
        apply runw_etry_done in D' as (mid & D1 & D2).
        destruct (IHv _ _ _ S1 D1) as (b & v' & -> & W & M & C). destruct (IHl _ _ S2 D2) as (bs & l' & -> & W' & M' & C').
        exists ([x01] ++ b ++ bs), (v' :: l'). split; [now rewrite !app_assoc|]. split; [now apply wf_present|]. split; [now constructor|].
        intros CC. destruct (CF CC) as [CC1 CC2]. now rewrite C, C'.
    + rewrite put_plain in D by (destruct tg; discriminate). apply runw_etry_done in D as (mid & D1 & D2).
      destruct (IHv _ _ _ S1 D1) as (b & v' & -> & W & M & C). destruct (IHl _ _ S2 D2) as (bs & l' & -> & W' & M' & C').
      exists (b ++ bs), (v' :: l'). split; [now rewrite app_assoc|]. split.
      * apply wf_field; try assumption. destruct tg; auto; congruence.
      * split; [now constructor|]. intros CC. destruct (CF CC) as [CC1 CC2]. now rewrite C, C'.
Qed.

Lemma round_trip E t v out full : supported E t -> has_type E sound_leaf t v ->
  runw (Encode E t v) out = WDone None full ->
  exists bs v', full = out ++ bs /\ same v v' /\ encoded E Target t v bs v' /\ decodes_whatever_follows E t bs v'.
Proof.
  intros S T R. destruct (proj1 (encode_complete E) t v T Target out full S R) as (bs & v' & -> & W & M & _).
  exists bs, v'. split; [reflexivity|]. split; [exact M|]. split; [exact W|].
  destruct (proj1 (encoded_reads E) _ _ _ _ _ W) as [F H]. exists F. exact H.
Qed.

(** ** A check for types without back references *)
Definition plain_field (f : place -> gtype -> bool) (fd : tag * visibility * gtype) : bool :=
  match fd with
  | (Variant, _, _) => false
  | (_, Exported, t) => f Slot t
  | _ => false
  end.
Fixpoint plain (pl : place) (t : gtype) : bool :=
  match t with
  | TLeaf k => readable pl k
  | TInt _ => true
  | TOther | TName _ => false
  | TPtr t => plain (beneath pl) t
  | TSlice t | TArray _ t => plain Slot t
  | TMap kt vt => comparable kt && (plain Target kt && plain Target vt)
  | TStruct fs => forallb (plain_field plain) fs
  | TUser _ _ => false
  end.
Lemma plain_direct pl t : plain pl t = true -> direct t = true.
Proof. destruct t; try reflexivity. discriminate. Qed.
Lemma plain_head E pl t : plain pl t = true -> head E t = t.
Proof. destruct t; try reflexivity. discriminate. Qed.
Lemma plain_field_ok fs tg vis t : forallb (plain_field plain) fs = true -> In (tg, vis, t) fs ->
  tg <> Variant /\ vis = Exported /\ plain Slot t = true.
Proof.
  intros H I. rewrite forallb_forall in H. specialize (H _ I). unfold plain_field in H.
  destruct tg, vis; try discriminate H; repeat split; try discriminate; exact H.
Qed.
Lemma plain_within E a b : within E a b -> plain (fst a) (snd a) = true -> plain (fst b) (snd b) = true.
Proof.
  induction 1 as [|a b c P W IH]; [auto|]. intros Q. apply IH. clear IH W.
  destruct P; cbn [fst snd] in *; rewrite (plain_head E _ _ Q) in *; subst; cbn [plain] in Q; try exact Q.
  - apply andb_prop in Q as [_ Q]. now apply andb_prop in Q as [Q _].
  - apply andb_prop in Q as [_ Q]. now apply andb_prop in Q as [_ Q].
  - now destruct (plain_field_ok _ _ _ _ Q H0) as (_ & _ & Q').
Qed.
Lemma plain_supported_at E pl t : plain pl t = true -> supported_at E pl t.
Proof.
  intros Q pl' t' W. apply plain_within in W; [|exact Q]. cbn [fst snd] in W. unfold supported_here. rewrite (plain_head E _ _ W).
  destruct t'; cbn [plain] in W; try exact I; try exact W; try discriminate W.
  - now apply plain_direct in W.
  - now apply andb_prop in W as [W _].
  - apply Forall_forall. intros [[tg vis] t2] I. destruct (plain_field_ok _ _ _ _ W I) as (A & B & C).
    repeat split; try assumption. now apply plain_direct in C.
Qed.
Lemma plain_supported E t : plain Target t = true -> supported E t.
Proof. apply plain_supported_at. Qed.
