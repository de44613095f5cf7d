(** What Decode accepts, and encoding it again. *)
From Coq Require Import Permutation.
From Verif Require Import Base Prog GoVarint AbiPrim BaseProofs SpecWire ProgProofs AbiPrimProofs Chain SpecChain ChainProofs
  Values Leaf SpecLeaf LeafProofs Reflect SpecReflect ReflectProofs SpecStrict ReflectOverwrite ReflectStrict SpecDecoded.

(** ** What a program returns when it succeeds on an input below 2^28 bytes *)
Definition yields {A} (Q : A -> Prop) (p : io A) : Prop :=
  forall env inp v rest, zlen inp < 2 ^ 28 -> run env p inp = Done (v, None) rest -> Q v.
(** ... and whether or not it succeeds. *)
Definition leaves {A} (Q : A -> Prop) (p : io A) : Prop :=
  forall env inp v e rest, zlen inp < 2 ^ 28 -> run env p inp = Done (v, e) rest -> Q v.
Lemma run_rest {A} env (p : dec A) : forall inp a rest, run env p inp = Done a rest -> zlen rest <= zlen inp.
Proof.
  induction p as [a|m| |n k IH|k IH]; intros inp b rest R; cbn [run] in R; try discriminate.
  - injection R as <- <-. lia.
  - destruct (n <=? zlen inp).
    + apply IH in R. unfold zlen in *. rewrite skipn_length in R. lia.
    + apply IH in R. unfold zlen in *. cbn [length] in R. lia.
  - eapply IH, R.
Qed.
Lemma yields_ret {A} (Q : A -> Prop) a e : (e = None -> Q a) -> yields Q (DRet (a, e)).
Proof. intros H env inp v rest _ R. cbn [run] in R. injection R as <- -> <-. auto. Qed.
Lemma yields_error {A} (Q : A -> Prop) a e : yields Q (DRet (a, Some e)).
Proof. apply yields_ret. discriminate. Qed.
Lemma yields_panic {A} (Q : A -> Prop) m : yields Q (DPanic m).
Proof. intros env inp v rest _ R. discriminate R. Qed.
Lemma yields_fuel {A} (Q : A -> Prop) : yields Q DFuel.
Proof. intros env inp v rest _ R. discriminate R. Qed.
Lemma yields_bind {A B} (P : A -> Prop) (Q : B -> Prop) (p : io A) (f : A * option gerr -> io B) :
  yields P p -> (forall a, P a -> yields Q (f (a, None))) -> (forall a e, yields Q (f (a, Some e))) ->
  yields Q (dbind p f).
Proof.
  intros Hp H1 H2 env inp v rest L R. rewrite run_dbind in R.
  destruct (run env p inp) as [[a [e|]] r|m|] eqn:E; try discriminate.
  - apply run_rest in E. eapply H2, R. lia.
  - pose proof (run_rest _ _ _ _ _ E). apply Hp in E; [|exact L]. eapply H1; [exact E| |exact R]. lia.
Qed.
Lemma leaves_bind {A B} (P : A -> Prop) (Q : B -> Prop) (p : io A) (f : A * option gerr -> io B) :
  leaves P p -> (forall a e, P a -> yields Q (f (a, e))) -> yields Q (dbind p f).
Proof.
  intros Hp H env inp v rest L R. rewrite run_dbind in R.
  destruct (run env p inp) as [[a e] r|m|] eqn:E; try discriminate.
  pose proof (run_rest _ _ _ _ _ E). apply Hp in E; [|exact L]. eapply H; [exact E| |exact R]. lia.
Qed.
Lemma yields_dtry {A B} (P : A -> Prop) (Q : B -> Prop) d (p : io A) (f : A -> io B) :
  yields P p -> (forall a, P a -> yields Q (f a)) -> yields Q (dtry d p f).
Proof. intros Hp H. eapply yields_bind; [exact Hp|exact H|]. intros a e. apply yields_error. Qed.
Lemma yields_weaken {A} (P Q : A -> Prop) p : yields P p -> (forall a, P a -> Q a) -> yields Q p.
Proof. intros H I env inp v rest L R. eapply I, H; eassumption. Qed.
Lemma yields_wrap {A B} (P : A -> Prop) (Q : B -> Prop) (c : A -> B) p : yields P p -> (forall a, P a -> Q (c a)) -> yields Q (wrap c p).
Proof.
  intros H I. eapply yields_bind; [exact H| |]; intros; apply yields_ret; auto. discriminate.
Qed.
Lemma yields_keep {A} (P : A -> Prop) old p : yields P p -> yields P (keep old p).
Proof. intros H. eapply yields_bind; [exact H| |]; intros; apply yields_ret; auto. discriminate. Qed.
Lemma leaves_keep {A} (P : A -> Prop) old p : P old -> yields P p -> leaves P (keep old p).
Proof.
  intros O H env inp v e rest L R. unfold keep in R. rewrite run_dbind in R.
  destruct (run env p inp) as [[a [e'|]] r|m|] eqn:E; try discriminate; cbn [run] in R; injection R as <- <- <-; [exact O|].
  eapply H; eassumption.
Qed.

(** ** Reading methods *)
Lemma Bytes_yields n : yields (fun r : Z * list byte => zlen (snd r) = n /\ short (snd r)) (ReadBytes n).
Proof.
  intros env inp [an b] rest L R. apply ReadBytes_exact in R as [<- ->]. cbn [snd]. split; [reflexivity|].
  rewrite zlen_app in L. pose proof (zlen_nonneg rest). unfold short. lia.
Qed.
Lemma Byte_yields : yields (in_u 8) ReadByte.
Proof.
  eapply yields_bind; [apply (Bytes_yields 1)| |intros [n b] e; apply yields_error].
  intros [n b] [L _]. cbn [snd] in L. destruct b; [apply yields_panic|].
  apply yields_ret. intros _. unfold in_u. apply zb_range.
Qed.
Lemma le_yields n (p : io Z) : p = ('(_, b, err) <-- ReadBytes n ;; match err with Some e => DRet (0, Some e) | None => DRet (le_get b, None) end) ->
  yields (fun v => 0 <= v < 256 ^ n) p.
Proof.
  intros ->. eapply yields_bind; [apply (Bytes_yields n)| |intros [m b] e; apply yields_error].
  intros [m b] [<- _]. apply yields_ret. intros _. apply le_get_bound.
Qed.
Lemma U64_yields : yields (in_u 64) ReadUint64. Proof. exact (le_yields 8 ReadUint64 eq_refl). Qed.
Lemma U32_yields : yields (in_u 32) ReadUint32. Proof. exact (le_yields 4 ReadUint32 eq_refl). Qed.
Lemma U16_yields : yields (in_u 16) ReadUint16. Proof. exact (le_yields 2 ReadUint16 eq_refl). Qed.
Lemma U8_yields : yields (in_u 8) ReadUint8.
Proof. eapply yields_dtry; [apply Byte_yields|]. intros. now apply yields_ret. Qed.
Lemma conv_yields {A} (P : A -> Prop) (p : io A) (f : A -> Z) (Q : Z -> Prop) : yields P p -> (forall a, P a -> Q (f a)) ->
  yields Q (dtry 0 p (fun v => DRet (f v, None))).
Proof. intros H I. eapply yields_dtry; [exact H|]. intros. apply yields_ret. auto. Qed.
Lemma I64_yields : yields (in_i 64) ReadInt64.
Proof. eapply conv_yields; [apply U64_yields|]. intros a _. apply i64_range. Qed.
Lemma I32_yields : yields (in_i 32) ReadInt32.
Proof. eapply conv_yields; [apply U32_yields|]. intros a _. unfold in_i, i32. lia. Qed.
Lemma I16_yields : yields (in_i 16) ReadInt16.
Proof. eapply conv_yields; [apply U16_yields|]. intros a _. unfold in_i, i16. lia. Qed.
Lemma I8_yields : yields (in_i 8) ReadInt8.
Proof. eapply conv_yields; [apply Byte_yields|]. intros a _. unfold in_i, i8. lia. Qed.
Lemma F32_yields : yields (in_u 32) ReadFloat32.
Proof. eapply (conv_yields _ _ (fun v => v)); [apply U32_yields|auto]. Qed.
Lemma F64_yields : yields (in_u 64) ReadFloat64.
Proof. eapply (conv_yields _ _ (fun v => v)); [apply U64_yields|auto]. Qed.
Lemma Varuint_yields : yields (in_u 64) ReadVaruint.
Proof.
  intros env inp v rest _ R. apply ReadVaruint_exact in R as (pre & _ & <- & B & _).
  pose proof (leb_value_nonneg pre). unfold in_u in *. lia.
Qed.
Lemma Varint_yields : yields (in_i 64) ReadVarint.
Proof.
  eapply (conv_yields _ _ (fun v => v)); [|intros a H; exact H].
  unfold GoVarint.ReadVarint. eapply (yields_bind (fun _ => True)); [now intros ? ? ? ? ? ?| |intros; apply yields_error].
  intros a _. apply yields_ret. intros _. pose proof (i64_range (Z.shiftr a 1)). unfold in_i in *.
  destruct (_ =? _); [lia|]. unfold Z.lnot. lia.
Qed.
Lemma GoString_yields : yields short ReadString.
Proof.
  eapply yields_dtry; [apply Varuint_yields|]. intros l _.
  eapply yields_bind; [apply Bytes_yields| |intros [n b] e; apply yields_error].
  intros [n b] [_ S]. now apply yields_ret.
Qed.
Lemma Blob_yields old : yields short (Bytes_UnmarshalABI old).
Proof.
  eapply yields_dtry; [apply Varuint_yields|]. intros l _.
  eapply yields_bind; [apply Bytes_yields| |intros [n b] e; apply yields_error].
  intros [n b] [_ S]. now apply yields_ret.
Qed.
Lemma GoBytes_yields old : yields short (DecodeByteSlice old).
Proof.
  eapply yields_bind; [apply Varuint_yields| |intros; apply yields_error]. intros l _.
  eapply yields_bind; [apply Bytes_yields| |intros [n b] e; apply yields_error].
  intros [n b] [_ S]. now apply yields_ret.
Qed.
Lemma Fixed_yields n old : yields (fun b => zlen b = n) (Checksum_UnmarshalABI n old).
Proof.
  eapply yields_bind; [apply Bytes_yields| |intros [m b] e; apply yields_error].
  intros [m b] [L _]. now apply yields_ret.
Qed.
Lemma U128_yields old : yields wf_u128 (Uint128_UnmarshalABI old).
Proof.
  eapply yields_dtry; [apply U64_yields|]. intros lo L.
  eapply yields_bind; [apply U64_yields| |intros; apply yields_error].
  intros hi H. apply yields_ret. now split.
Qed.
Lemma Asset_yields old : yields wf_asset (Asset_UnmarshalABI old).
Proof.
  eapply yields_dtry; [apply I64_yields|]. intros v V.
  eapply yields_bind; [apply yields_keep, U64_yields| |intros; apply yields_error].
  intros s S. apply yields_ret. now split.
Qed.
Lemma ExtendedAsset_yields old : yields (fun x => wf_asset (Quantity x) /\ in_u 64 (Contract x)) (ExtendedAsset_UnmarshalABI old).
Proof.
  eapply yields_bind; [apply Asset_yields| |intros; apply yields_error]. intros q Q.
  eapply yields_bind; [apply yields_keep, U64_yields| |intros; apply yields_error].
  intros s S. apply yields_ret. now split.
Qed.
Lemma Permission_yields old : wf_permission old -> yields wf_permission (PermissionLevel_UnmarshalABI old).
Proof.
  intros [A B]. eapply leaves_bind; [apply (leaves_keep (in_u 64)); [exact A|apply U64_yields]|]. intros a e Ha.
  eapply yields_bind; [apply yields_keep, U64_yields| |intros; apply yields_error].
  intros s S. apply yields_ret. now split.
Qed.
Lemma auths_yields n : forall acc, Forall wf_permission acc -> yields (Forall wf_permission) (read_auths n acc).
Proof.
  induction n as [|n IH]; intros acc H; cbn [read_auths]; [now apply yields_ret|].
  eapply yields_bind; [apply Permission_yields; split; cbn; unfold in_u; lia| |intros; apply yields_error].
  intros p P. apply IH. apply Forall_app. auto.
Qed.
Lemma Action_yields old : typed_action old -> yields typed_action (Action_UnmarshalABI old).
Proof.
  intros (A & B & C). eapply leaves_bind; [apply (leaves_keep (in_u 64)); [exact A|apply U64_yields]|]. intros a e Ha.
  eapply leaves_bind; [apply (leaves_keep (in_u 64)); [exact B|apply U64_yields]|]. intros b e' Hb.
  eapply yields_bind; [apply Varuint_yields| |intros; apply yields_error]. intros l _.
  eapply yields_bind; [apply auths_yields, C| |intros; apply yields_error]. intros au Hau.
  eapply yields_bind; [apply Blob_yields| |intros; apply yields_error]. intros d _.
  apply yields_ret. intros _. split; [exact Ha|]. split; [exact Hb|exact Hau].
Qed.
Lemma Header_yields old : yields typed_header (TransactionHeader_UnmarshalABI old).
Proof.
  eapply yields_bind; [apply yields_keep, U32_yields| |intros; apply yields_error]. intros a A. cbv beta iota zeta.
  eapply yields_bind; [apply U16_yields| |intros; apply yields_error]. intros b B. cbv beta iota zeta.
  eapply yields_bind; [apply U32_yields| |intros; apply yields_error]. intros c C. cbv beta iota zeta.
  eapply yields_bind; [apply Varuint_yields| |intros; apply yields_error]. intros d D. cbv beta iota zeta.
  eapply yields_bind; [apply U8_yields| |intros; apply yields_error]. intros e E. cbv beta iota zeta.
  eapply yields_bind; [apply Varuint_yields| |intros; apply yields_error]. intros f F.
  apply yields_ret. intros _. repeat split; cbn; first [apply A|apply B|apply C|apply D|apply E|apply F].
Qed.
Lemma Ext_yields old : yields (fun e => in_u 16 (EType e)) (TransactionExtension_UnmarshalABI old).
Proof.
  eapply yields_bind; [apply U16_yields| |intros; apply yields_error]. intros a A. cbv beta iota zeta.
  eapply yields_bind; [apply Blob_yields| |intros; apply yields_error]. intros b B.
  apply yields_ret. intros _. exact A.
Qed.
Lemma all_yields {A} (P : A -> Prop) zero f : P zero -> (forall x, P x -> yields P (f x)) -> forall n, yields (Forall P) (read_all zero f n).
Proof.
  intros Z F n. induction n as [|n IH]; cbn [read_all]; [apply yields_ret; constructor|].
  eapply yields_bind; [apply F, Z| |intros; apply yields_error]. intros x X.
  eapply yields_bind; [apply IH| |intros; apply yields_error]. intros xs XS. apply yields_ret. now constructor.
Qed.
Lemma slice_yields {A} (P : A -> Prop) size zero f old : P zero -> (forall x, P x -> yields P (f x)) -> yields (Forall P) (read_slice size zero f old).
Proof.
  intros Z F. eapply yields_bind; [apply Varuint_yields| |intros; apply yields_error]. intros l _.
  cbv beta iota. destruct (make_ok size l); [now apply all_yields|apply yields_panic].
Qed.
Lemma zero_action_typed : typed_action zero_action.
Proof. repeat split; cbn; try lia. constructor. Qed.
Lemma Transaction_yields old : yields typed_transaction (Transaction_UnmarshalABI old).
Proof.
  eapply yields_bind; [apply Header_yields| |intros; apply yields_error]. intros h H. cbv beta iota zeta.
  eapply yields_bind; [apply (slice_yields typed_action); [apply zero_action_typed|apply Action_yields]| |intros; apply yields_error].
  intros a A. cbv beta iota zeta.
  eapply yields_bind; [apply (slice_yields typed_action); [apply zero_action_typed|apply Action_yields]| |intros; apply yields_error].
  intros b B. cbv beta iota zeta.
  eapply yields_bind; [apply (slice_yields (fun e => in_u 16 (EType e))); [cbn; unfold in_u; lia|intros; apply Ext_yields]| |intros; apply yields_error].
  intros c C. apply yields_ret. intros _. exact (conj H (conj A (conj B C))).
Qed.
(** A length read back is written in minimal form. *)
Lemma put_len_yields {A} l (f : list byte -> io A) Q : 0 <= l < 268435456 -> yields Q (f (varuint l)) -> yields Q (put_len l f).
Proof. intros L H. unfold put_len. now rewrite varuint5. Qed.
Lemma len_ok l (b : list byte) : in_u 64 l -> zlen b = i64 l -> short b -> zlen b = l /\ 0 <= l < 268435456.
Proof.
  intros L E S. pose proof (zlen_nonneg b). unfold short, in_u, i64 in *. lia.
Qed.
Lemma PublicKey_yields old : yields wf_public_key (PublicKey_UnmarshalABI old).
Proof.
  eapply yields_dtry; [apply Byte_yields|]. intros t T.
  destruct ((t =? K1) || (t =? P1)) eqn:K.
  { eapply yields_bind; [apply Bytes_yields| |intros [? ?] ?; apply yields_error].
    intros [n b] [L _]. apply yields_ret. intros _. left. cbn [KType KData snd] in *. unfold K1, P1, zlen in *. lia. }
  destruct (t =? WA) eqn:W; [|apply yields_error]. cbv zeta.
  eapply yields_dtry; [apply Bytes_yields|]. intros [n d] [Ld _].
  eapply yields_dtry; [apply Varuint_yields|]. intros l L.
  eapply yields_dtry; [apply Bytes_yields|]. intros [m b] [Lb S]. cbn [snd] in *.
  destruct (len_ok _ _ L Lb S) as [<- R]. apply put_len_yields; [exact R|].
  apply yields_ret. intros _. right. cbn [KType KData]. split; [unfold WA in W; lia|].
  exists d, b. split; [unfold zlen in *; lia|]. split; [exact S|]. apply lay_cat; [reflexivity|]. now apply lay_bytes.
Qed.
Lemma Signature_yields old : yields wf_signature (Signature_UnmarshalABI old).
Proof.
  eapply yields_dtry; [apply Byte_yields|]. intros t T.
  destruct ((t =? K1) || (t =? P1)) eqn:K.
  { eapply yields_bind; [apply Bytes_yields| |intros [? ?] ?; apply yields_error].
    intros [n b] [L _]. apply yields_ret. intros _. left. cbn [KType KData snd] in *. unfold K1, P1, zlen in *. lia. }
  destruct (t =? WA) eqn:W; [|apply yields_error]. cbv zeta.
  eapply yields_dtry; [apply Bytes_yields|]. intros [n d] [Ld _].
  eapply yields_dtry; [apply Varuint_yields|]. intros l L.
  eapply yields_dtry; [apply Bytes_yields|]. intros [m b] [Lb S]. cbn [snd] in *.
  eapply yields_dtry; [apply Varuint_yields|]. intros l' L'.
  eapply yields_dtry; [apply Bytes_yields|]. intros [m' b'] [Lb' S']. cbn [snd] in *.
  destruct (len_ok _ _ L Lb S) as [<- R]. destruct (len_ok _ _ L' Lb' S') as [<- R'].
  apply put_len_yields; [exact R|]. apply put_len_yields; [exact R'|].
  apply yields_ret. intros _. right. cbn [KType KData]. split; [unfold WA in W; lia|].
  exists d, b, b'. split; [unfold zlen in *; lia|]. split; [exact S|]. split; [exact S'|].
  apply lay_cat; [reflexivity|]. rewrite app_assoc. apply lay_cat; now apply lay_bytes.
Qed.

Definition read_ok (k : kind) (p : prim) : Prop := kind_of p = k /\ sound_leaf p.
Lemma prim_yields old : typed_prim old -> yields (read_ok (kind_of old)) (read_prim old).
Proof.
  assert (Z : forall n (b : list byte), zlen b = Z.of_nat n -> length b = n) by (unfold zlen; lia).
  intros T. destruct old; cbn [read_prim typed_prim kind_of] in *; eapply yields_wrap;
    first [ apply GoString_yields | apply U8_yields | apply U16_yields | apply U32_yields | apply U64_yields
      | apply I8_yields | apply I16_yields | apply I32_yields | apply I64_yields | apply F32_yields | apply F64_yields
      | apply Varint_yields | apply Varuint_yields | apply GoBytes_yields | now apply Action_yields | apply Asset_yields
      | apply Blob_yields | apply (yields_keep (in_u 32)), U32_yields | apply (yields_keep (in_u 64)), U64_yields
      | apply (yields_keep (in_i 64)), I64_yields | apply (Fixed_yields 20) | apply (Fixed_yields 32) | apply (Fixed_yields 64)
      | apply (Fixed_yields 16) | apply U128_yields | now apply Permission_yields | apply PublicKey_yields | apply Signature_yields
      | apply Transaction_yields | apply Ext_yields | apply Header_yields | apply ExtendedAsset_yields
      | instantiate (1 := fun _ => True); now intros ? ? ? ? ? ?
      | idtac ];
    intros xx Ha; repeat split; cbn; try exact Ha; try (apply Z; exact Ha); try apply Ha.
  - destruct Ha as [[[->| ->] _]|[-> _]]; lia.
  - destruct Ha as [[[->| ->] _]|[-> _]]; lia.
  - destruct Ha as [[[->| ->] _]|[-> _]]; lia.
  - destruct Ha as [[[->| ->] _]|[-> _]]; lia.
Qed.

(** ** Types *)
Definition shape_here (E : types) (t : gtype) : Prop :=
  match head E t with
  | TArray _ t => direct t = true
  | TMap kt _ => comparable kt = true
  | TStruct fs => Forall (fun '(tg, vis, t) => tg <> Variant /\ vis = Exported /\ direct t = true) fs
  | TUser i u => by_value u = true /\ regular E i u
  | TOther | TName _ => False
  | _ => True
  end.
Definition shape (E : types) (t : gtype) : Prop := forall pl pl' t', within E (pl, t) (pl', t') -> shape_here E t'.
Lemma supported_shape E pl t : supported_at E pl t -> methods_from (regular E) E (pl, t) -> shape E t.
Proof.
  intros H M pl1 pl' t' W. destruct (within_place _ _ _ W pl) as [pl0 W0]. specialize (H _ _ W0). cbn [snd] in H.
  specialize (M pl0 t'). unfold supported_here, shape_here in *. destruct (head E t') eqn:HT; auto.
  split; [apply H|]. eapply M; [exact W0|reflexivity].
Qed.
Lemma shape_self E t : shape E t -> shape_here E t.
Proof. intros H. apply (H Slot Slot). constructor. Qed.
Lemma shape_part E pl t pl' t' : shape E t -> part E (pl, t) (pl', t') -> shape E t'.
Proof.
  intros H P pl0 pl1 t1 W. destruct (within_place _ _ _ W pl') as [pl2 W2]. apply (H pl pl2). eapply wi_part; eassumption.
Qed.
Definition shape_fields (E : types) (fs : list (tag * visibility * gtype)) : Prop :=
  Forall (fun '(tg, vis, t) => tg <> Variant /\ vis = Exported /\ direct t = true /\ shape E t) fs.
Lemma shape_struct E t fs : head E t = TStruct fs -> shape E t -> shape_fields E fs.
Proof.
  intros H S. pose proof (shape_self _ _ S) as S0. unfold shape_here in S0. rewrite H in S0.
  unfold shape_fields. rewrite Forall_forall in *. intros [[tg vis] t'] I. specialize (S0 _ I).
  cbv beta iota in S0 |- *. destruct S0 as (A & B & C). repeat split; try assumption.
  eapply (shape_part _ Slot); [exact S|]. eapply pt_field; eassumption.
Qed.
Lemma shape_fields_cons E tg vis t fs : shape_fields E ((tg, vis, t) :: fs) ->
  tg <> Variant /\ vis = Exported /\ direct t = true /\ shape E t /\ shape_fields E fs.
Proof. intros H. inversion H as [|x y A B]; subst. cbv beta iota in A. tauto. Qed.
Lemma direct_head E t : direct t = true -> head E t = t.
Proof. destruct t; try reflexivity. discriminate. Qed.

Lemma zero_prim_typed k : typed_prim (zero_prim k).
Proof. destruct k; cbn; try exact I; try reflexivity; repeat split; cbn; try lia; constructor. Qed.
Lemma zero_prim_bounded k : bounded_prim (zero_prim k).
Proof.
  destruct k; cbn; try exact I; unfold short; try (cbn; lia); repeat split; cbn; try lia; constructor.
Qed.
Lemma is_zero_by_value : forall t, by_value t = true -> is_zero (zero_of t) = true.
Proof.
  fix IH 1. intros t B. destruct t as [k|k| |t|t|n t|kt vt|fs|i u|i]; try reflexivity.
  - cbn [by_value] in B. specialize (IH t B). cbn [zero_of is_zero]. clear -IH.
    induction n as [|n IHn]; cbn [repeat]; [reflexivity|]. now rewrite IH.
  - cbn [by_value] in B. cbn [zero_of is_zero]. revert fs B. fix IHf 1. intros [|[[tg vis] t] fs] B; [reflexivity|].
    apply andb_prop in B as [B1 B2]. rewrite (IH t B1). exact (IHf fs B2).
  - exact (IH u B).
Qed.
Lemma zero_is E : forall t t0, head E t0 = t -> shape E t0 ->
  has_type E any_leaf t0 (zero_of t) /\ is_zero (zero_of t) = true /\ small (zero_of t).
Proof.
  fix IH 1. intros t t0 H O. pose proof (shape_self _ _ O) as O0. unfold shape_here in O0.
  rewrite H in O0. destruct t as [k|k| |t|t|n t|kt vt|fs|i u|i]; cbn [zero_of].
  - split; [eapply ht_leaf; [exact H|apply zero_kind|apply zero_flags|apply zero_prim_typed]|].
    split; [reflexivity|apply zero_prim_bounded].
  - split; [|split; [reflexivity|exact I]]. eapply ht_int; [exact H|]. clear. destruct k; cbn; unfold in_u, in_i; lia.
  - elim O0.
  - split; [now apply (ht_nil _ _ _ t)|]. now split.
  - split; [now apply (ht_nil_slice _ _ _ t)|]. now split.
  - destruct (IH t t) as (A & B & C).
    { now apply direct_head. }
    { eapply (shape_part _ Slot); [exact O|]. eapply pt_array; exact H. }
    split; [|clear - B C; cbn [is_zero small]; induction n; cbn [repeat]; [now split|destruct IHn; split; [now rewrite B|now split]]].
    apply (ht_array _ _ _ t n); [exact H| |now rewrite repeat_length]. now apply repeat_typed.
  - split; [now apply (ht_nil_map _ _ _ kt vt)|]. now split.
  - apply (shape_struct _ _ _ H) in O.
    assert (G : have_field_types E any_leaf fs (map (fun fd : tag * visibility * gtype => zero_of (snd fd)) fs)
      /\ is_zero (RStruct (map (fun fd : tag * visibility * gtype => zero_of (snd fd)) fs)) = true
      /\ small (RStruct (map (fun fd : tag * visibility * gtype => zero_of (snd fd)) fs))).
    { clear H O0 t0. induction fs as [|[[tg vis] t] fs IHfs]; [split; [constructor|now split]|].
      apply shape_fields_cons in O as (V & X & D & O1 & O2).
      destruct (IH t t (direct_head _ _ D) O1) as (A1 & A2 & A3). destruct (IHfs O2) as (B1 & B2 & B3).
      cbn [map snd]. split; [now constructor|]. cbn [is_zero small] in *. rewrite A2. now split. }
    change (RStruct _) with (zero_of (TStruct fs)). rewrite zero_struct. destruct G as (G1 & G2). split; [|exact G2].
    now apply (ht_struct _ _ _ fs).
  - destruct O0 as [B _]. split; [|split; [now apply is_zero_by_value|exact I]].
    eapply ht_user; [exact H|]. apply zero_by_value_typed; [exact zero_prim_typed|exact B].
  - elim O0.
Qed.
Lemma zero_typed_any E t : shape E t -> has_type E any_leaf t (zero E t).
Proof. intros H. now apply zero_is. Qed.

(** ** Decoding fills *)
Definition fills (E : types) (f : gtype -> rval -> io rval) : Prop :=
  forall t v, shape E t -> has_type E any_leaf t v -> yields (filled E t) (f t v).
Lemma through_fills E f : fills E f -> fills E (through E f).
Proof.
  intros Hf t v S V. unfold through.
  destruct (head E t) as [| | |t'| | | | | |] eqn:H; try (now apply Hf).
  inversion V as [| | |? t1 H1|? t1 y H1 Y| | | | | | |]; subst; try (now apply Hf);
    rewrite H in H1; injection H1 as <-;
    (assert (S' : shape E t') by (eapply (shape_part _ Slot); [exact S|]; eapply pt_ptr; exact H));
    (eapply yields_bind; [apply Hf; [exact S'|]| |intros; apply yields_error]).
  - now apply zero_typed_any.
  - intros a A. apply yields_ret. intros _. now apply (fi_ptr _ _ t').
  - exact Y.
  - intros a A. apply yields_ret. intros _. now apply (fi_ptr _ _ t').
Qed.
Lemma elems_yields E t f : (forall v, has_type E any_leaf t v -> yields (filled E t) (f v)) ->
  forall l, have_type E any_leaf t l -> yields (fun l' => filled_list E t l' /\ length l' = length l) (get_elems f l).
Proof.
  intros Hf l. induction l as [|v l IH]; intros L; cbn [get_elems]; [apply yields_ret; intros _; now split; [constructor|]|].
  inversion L; subst. eapply yields_bind; [now apply Hf| |intros; apply yields_error]. intros a A.
  eapply yields_bind; [now apply IH| |intros; apply yields_error]. intros l' [L' N].
  apply yields_ret. intros _. split; [now constructor|]. cbn. now rewrite N.
Qed.
Lemma get_slice_yields E t size z f o :
  (forall v, has_type E any_leaf t v -> yields (filled E t) (f v)) -> has_type E any_leaf t z ->
  match o with None => True | Some l => have_type E any_leaf t l /\ make_ok size (zlen l) = true end ->
  yields (fun o => match o with None => True | Some l => filled_list E t l /\ make_ok size (zlen l) = true end)
    (get_slice size z f o).
Proof.
  intros Hf Hz Ho. eapply yields_bind; [apply Varuint_yields| |intros; apply yields_error]. intros l _. cbv beta iota.
  destruct (_ =? _) eqn:EQ.
  - destruct o as [cur|]; [|now apply yields_ret]. destruct Ho as [T M].
    eapply yields_bind; [apply (elems_yields E t f Hf _ T)| |intros; apply yields_error].
    intros xs [X N]. apply yields_ret. intros _. split; [exact X|]. unfold zlen in *. now rewrite N.
  - destruct (make_ok size (i64 l)) eqn:M; [|apply yields_panic].
    eapply yields_bind; [apply (elems_yields E t f Hf); now apply repeat_typed| |intros; apply yields_error].
    intros xs [X N]. apply yields_ret. intros _. split; [exact X|].
    rewrite repeat_length in N. assert (0 <= i64 l) by (unfold make_ok in M; lia).
    replace (zlen xs) with (i64 l); [exact M|]. unfold zlen. lia.
Qed.
Lemma map_set_in k x m k' : In k' (map fst (map_set k x m)) -> k' = k \/ In k' (map fst m).
Proof.
  induction m as [|[k1 x1] m IH]; cbn [map_set map fst]; [cbn; intuition congruence|].
  destruct (rval_dec k k1) as [->|]; cbn [map fst In]; [intuition congruence|]. intros [H|H]; [tauto|]. apply IH in H. tauto.
Qed.
Lemma map_set_nodup k x m : NoDup (map fst m) -> NoDup (map fst (map_set k x m)).
Proof.
  induction m as [|[k1 x1] m IH]; cbn [map_set map fst]; [repeat constructor; auto|].
  intros N. inversion N; subst. destruct (rval_dec k k1) as [->|]; cbn [map fst]; [now constructor|].
  constructor; [|now apply IH]. intros I. apply map_set_in in I as [I|I]; congruence.
Qed.
Lemma map_set_filled E kt vt k x m : filled E kt k -> filled E vt x -> filled_pairs E kt vt m ->
  filled_pairs E kt vt (map_set k x m).
Proof.
  intros K X. induction m as [|[k1 x1] m IH]; intros M; cbn [map_set]; [now repeat constructor|].
  inversion M; subst. destruct (rval_dec k k1); constructor; auto.
Qed.
Lemma get_pairs_yields E kt vt fk fv : yields (filled E kt) fk -> yields (filled E vt) fv ->
  forall n m, filled_pairs E kt vt m -> NoDup (map fst m) ->
  yields (fun m => filled_pairs E kt vt m /\ NoDup (map fst m)) (get_pairs fk fv n m).
Proof.
  intros Hk Hv. induction n as [|n IH]; intros m M N; cbn [get_pairs]; [now apply yields_ret|].
  eapply yields_bind; [exact Hk| |intros; apply yields_error]. intros k K. cbv beta iota.
  eapply yields_bind; [exact Hv| |intros; apply yields_error]. intros x X.
  apply IH; [now apply map_set_filled|now apply map_set_nodup].
Qed.
Lemma fields_yields E f g : fills E f -> forall fs l, shape_fields E fs -> have_field_types E any_leaf fs l ->
  yields (filled_fields E fs) (get_fields E f g fs l).
Proof.
  intros Hf. induction fs as [|[[tg vis] t] fs IH]; intros l S L; inversion L; subst; cbn [get_fields].
  { apply yields_ret. constructor. }
  apply shape_fields_cons in S as (V & -> & D & S1 & S2).
  assert (F : yields (fun x => filled E t x \/ (x = zero E t /\ (tg = Optional \/ tg = Extension))) (get_field E f g (tg, Exported, t) v)).
  { pose proof (through_fills E f Hf t v S1 ltac:(assumption)) as T. cbn [get_field]. destruct tg.
    - eapply yields_weaken; [exact T|]. auto.
    - eapply (yields_bind (fun _ => True)); [now intros ? ? ? ? ? ?| |intros; apply yields_error]. intros [] _.
      + eapply yields_weaken; [exact T|]. auto.
      + apply yields_ret. auto.
    - eapply yields_bind; [exact T| |].
      + intros a A. apply yields_ret. auto.
      + intros a []; apply yields_ret; auto; discriminate.
    - congruence. }
  eapply yields_bind; [exact F| |intros; apply yields_error]. intros a A. cbv beta iota.
  eapply yields_bind; [apply IH; assumption| |intros; apply yields_error]. intros l' L'.
  apply yields_ret. intros _. destruct A as [A|[-> A]]; [now apply ff_value|now apply ff_absent].
Qed.
Lemma leaf_read_yields E t k p z : head E t = TLeaf k -> has_type E any_leaf t (RLeaf p z) -> yields (filled E t) (leaf_read p).
Proof.
  intros H V. inversion V; subst. eapply yields_bind; [apply prim_yields; assumption| |intros; apply yields_error].
  intros q [K Q]. apply yields_ret. intros _. eapply fi_leaf; eauto; congruence.
Qed.
Lemma decode_fills E : forall fuel m, m = Whole \/ m = Deref -> fills E (decode fuel E chain_decoder m).
Proof.
  induction fuel as [|fuel IH]; intros m M t v S V; [apply yields_fuel|].
  pose proof (IH Whole (or_introl eq_refl)) as IW. pose proof (IH Deref (or_intror eq_refl)) as ID.
  destruct M as [-> | ->]; cbn [decode].
  - destruct v as [p z| | | | | | | |]; try (destruct (head E t) eqn:H; exact (ID t _ S V)).
    inversion V as [? k ? ? H Kp ZF OK| | | | | | | | | | |]; subst. rewrite H. cbn [chain_decoder].
    pose proof (leaf_read_yields _ _ _ _ _ H V) as LR. destruct (table_kind (kind_of p)).
    + intros env inp w rest L R. rewrite !run_dbind in R.
      destruct (run env (leaf_read p) inp) as [[x e] r|m|] eqn:E1; try discriminate. cbn [run] in R.
      injection R as <- -> <-. eapply LR; eassumption.
    + cbn [dbind]. destruct (go_kind (kind_of p)); [exact LR|]. exact (ID t _ S V).
  - pose proof (shape_self _ _ S) as S0. unfold shape_here in S0.
    inversion V as [? k p z H Kp ZF OK|? k x H R|? z H|? t' H|? t' x H X|? t' H|? t' l H HL MK|? t' n l H HL N|? kt vt H|? kt vt m H CK HM ND|? fs l H HF|? i u x H X];
      subst; rewrite H in *.
    + pose proof (leaf_read_yields _ _ _ _ _ H V) as LR. destruct (go_kind (kind_of p)); [|exact LR].
      assert (NR : yields (filled E t) ('(v0, err) <-- leaf_read p ;; DRet (match err with Some _ => RLeaf p z | None => v0 end, err))).
      { eapply yields_bind; [exact LR| |intros; apply yields_error]. intros a A. now apply yields_ret. }
      destruct p; try exact NR; try apply yields_error.
      eapply (yields_bind (fun _ => True)); [now intros ? ? ? ? ? ?| |intros; apply yields_error].
      intros o O. apply yields_ret. intros _. destruct o; [apply (fi_leaf _ _ KGoBytes); [exact H|reflexivity|now split]|now constructor].
    + eapply (yields_bind (int_range k)); [apply yields_keep; destruct k|intros a A|intros; apply yields_error].
      * apply U64_yields.
      * apply U32_yields.
      * apply I64_yields.
      * apply I32_yields.
      * apply yields_ret. intros _. now apply (fi_int _ _ k).
    + elim S0.
    + now apply through_fills.
    + now apply through_fills.
    + assert (S' : shape E t') by (eapply (shape_part _ Slot); [exact S|]; eapply pt_slice; exact H).
      eapply yields_bind; [apply (get_slice_yields E t')| |intros; apply yields_error].
      * intros x X. now apply through_fills.
      * now apply zero_typed_any.
      * exact I.
      * intros [l|] O; apply yields_ret; intros _; [now apply (fi_slice _ _ t')|now apply (fi_nil_slice _ _ t')].
    + assert (S' : shape E t') by (eapply (shape_part _ Slot); [exact S|]; eapply pt_slice; exact H).
      eapply yields_bind; [apply (get_slice_yields E t')| |intros; apply yields_error].
      * intros x X. now apply through_fills.
      * now apply zero_typed_any.
      * now split.
      * intros [l'|] O; apply yields_ret; intros _; [now apply (fi_slice _ _ t')|now apply (fi_nil_slice _ _ t')].
    + assert (S' : shape E t') by (eapply (shape_part _ Slot); [exact S|]; eapply pt_array; exact H).
      eapply yields_bind; [apply (elems_yields E t'); [|exact HL]| |intros; apply yields_error].
      * intros x X. now apply through_fills.
      * intros l' [L' N']. apply yields_ret. intros _. now apply (fi_array _ _ (length l) t').
    + assert (S1 : shape E kt) by (eapply (shape_part _ Slot); [exact S|]; eapply pt_key; exact H).
      assert (S2 : shape E vt) by (eapply (shape_part _ Slot); [exact S|]; eapply pt_value; exact H).
      assert (Hm : yields (fun o => exists m, o = Some m /\ filled_pairs E kt vt m /\ NoDup (map fst m))
        (get_map (decode fuel E chain_decoder Whole kt (zero E kt)) (decode fuel E chain_decoder Whole vt (zero E vt)) None)).
      { eapply yields_bind; [apply Varuint_yields| |intros; apply yields_error]. intros n _. cbv beta iota.
        eapply yields_bind; [apply (get_pairs_yields E kt vt)| |intros; apply yields_error];
          try (apply IW; [assumption|now apply zero_typed_any]); try constructor.
        intros m' M'. apply yields_ret. eauto. }
      eapply yields_bind; [exact Hm| |intros; apply yields_error]. intros o (m & -> & A & B). apply yields_ret. intros _. now apply (fi_map _ _ kt vt).
    + assert (S1 : shape E kt) by (eapply (shape_part _ Slot); [exact S|]; eapply pt_key; exact H).
      assert (S2 : shape E vt) by (eapply (shape_part _ Slot); [exact S|]; eapply pt_value; exact H).
      assert (Hm : yields (fun o => exists m, o = Some m /\ filled_pairs E kt vt m /\ NoDup (map fst m))
        (get_map (decode fuel E chain_decoder Whole kt (zero E kt)) (decode fuel E chain_decoder Whole vt (zero E vt)) (Some m))).
      { eapply yields_bind; [apply Varuint_yields| |intros; apply yields_error]. intros n _. cbv beta iota.
        eapply yields_bind; [apply (get_pairs_yields E kt vt)| |intros; apply yields_error];
          try (apply IW; [assumption|now apply zero_typed_any]); try constructor.
        intros m' M'. apply yields_ret. eauto. }
      eapply yields_bind; [exact Hm| |intros; apply yields_error]. intros o (m' & -> & A & B). apply yields_ret. intros _. now apply (fi_map _ _ kt vt).
    + eapply yields_bind; [apply fields_yields; [exact IW|eapply shape_struct; eassumption|exact HF]| |intros; apply yields_error].
      intros l' L'. apply yields_ret. intros _. now apply (fi_struct _ _ fs).
    + eapply (yields_bind (has_type E sound_leaf u)); [|intros a A|intros; apply yields_error].
      * intros env inp w rest L R. eapply (proj1 (proj2 S0)); eassumption.
      * apply yields_ret. intros _. now apply (fi_user _ _ i u).
Qed.

(** ** Decoded values are values of their type *)
Lemma writes_once p out bs : runw p out = WDone None (out ++ bs) -> writes p bs.
Proof. intros R out'. pose proof (runw_shift p out out') as X. rewrite R in X. now apply X. Qed.
Lemma have_type_weaken E (ok ok' : prim -> Prop) : (forall p, ok p -> ok' p) ->
  (forall t v, has_type E ok t v -> has_type E ok' t v)
  /\ (forall t l, have_type E ok t l -> have_type E ok' t l)
  /\ (forall kt vt m, have_pair_type E ok kt vt m -> have_pair_type E ok' kt vt m)
  /\ (forall fs l, have_field_types E ok fs l -> have_field_types E ok' fs l).
Proof. intros I. apply has_type_all; intros; econstructor; eauto. Qed.
Lemma has_type_weaken E (ok ok' : prim -> Prop) t v : (forall p, ok p -> ok' p) -> has_type E ok t v -> has_type E ok' t v.
Proof. intros I. now apply (have_type_weaken E ok ok' I). Qed.

Lemma zeros_all n : forall b : list byte, length b = n -> forallb (fun c => zb c =? 0) b = true -> b = zeros n.
Proof.
  induction n as [|n IH]; intros [|c b] L H; try discriminate L; [reflexivity|].
  cbn [forallb] in H. apply andb_prop in H as [H1 H2]. injection L as L. change (zeros (S n)) with (x00 :: zeros n). f_equal; [|now apply IH].
  rewrite <- (bz_zb c). assert (zb c = 0) as -> by lia. reflexivity.
Qed.
Lemma leaf_zero_ok p : typed_prim p -> zero_flag_ok p (leaf_zero p).
Proof.
  intros T. split; [|reflexivity]. intros Z.
  destruct p as [[]|[|]| | | | | | | | | | | | | | |[]| | | | | | | | |[]| |[]| | | | | | | | |[]|[]| |[[]]];
    cbn in *; try discriminate;
    repeat match goal with H : _ && _ = true |- _ => apply andb_prop in H as [? ?] end;
    repeat match goal with H : (_ =? _) = true |- _ => apply Z.eqb_eq in H end; subst; try reflexivity;
    f_equal; exact (zeros_all _ _ T Z).
Qed.
Lemma filled_typed E :
  (forall t v, filled E t v -> shape E t -> has_type E any_leaf t v)
  /\ (forall t l, filled_list E t l -> shape E t -> have_type E any_leaf t l)
  /\ (forall kt vt m, filled_pairs E kt vt m -> shape E kt -> shape E vt -> have_pair_type E any_leaf kt vt m)
  /\ (forall fs l, filled_fields E fs l -> shape_fields E fs -> have_field_types E any_leaf fs l).
Proof.
  apply filled_all.
  - intros t k p H K [T W] S. apply (ht_leaf _ _ _ k); auto. now apply leaf_zero_ok.
  - intros t H S. apply (ht_leaf _ _ _ KGoBytes); first [exact H|reflexivity|exact I|now split].
  - intros t k v H R S. now apply (ht_int _ _ _ k).
  - intros t t' v H F IH S. apply (ht_ptr _ _ _ t'); [exact H|]. apply IH.
    eapply (shape_part _ Slot); [exact S|]. now apply pt_ptr.
  - intros t t' H S. now apply (ht_nil_slice _ _ _ t').
  - intros t t' l H F IH M S. apply (ht_slice _ _ _ t'); auto. apply IH.
    eapply (shape_part _ Slot); [exact S|]. now apply pt_slice.
  - intros t n t' l H F IH N S. apply (ht_array _ _ _ t' n); auto. apply IH.
    eapply (shape_part _ Slot); [exact S|]. eapply pt_array, H.
  - intros t kt vt m H F IH N S. pose proof (shape_self _ _ S) as S0. unfold shape_here in S0. rewrite H in S0.
    apply (ht_map _ _ _ kt vt); auto. apply IH; (eapply (shape_part _ Slot); [exact S|]); [eapply pt_key, H|eapply pt_value, H].
  - intros t fs l H F IH S. apply (ht_struct _ _ _ fs); [exact H|]. apply IH. eapply shape_struct; eassumption.
  - intros t i u v H V S. apply (ht_user _ _ _ i u); [exact H|]. eapply has_type_weaken; [|exact V]. intros p [P _]. exact P.
  - constructor.
  - intros t v l _ IH1 _ IH2 S. constructor; auto.
  - constructor.
  - intros kt vt k v m _ IH1 _ IH2 _ IH3 S1 S2. constructor; auto.
  - constructor.
  - intros tg vis t fs v l _ IH1 _ IH2 S. apply shape_fields_cons in S as (A & B & C & D & S). constructor; auto.
  - intros tg vis t fs l TG _ IH2 S. apply shape_fields_cons in S as (A & B & C & D & S). constructor; auto.
    now apply zero_typed_any.
Qed.

(** ** Encoding what was decoded *)
Definition tame (good : tag -> Prop) (E : types) (a : place * gtype) : Prop :=
  tags_from good E a /\ methods_from (regular E) E a.
Lemma tame_part good E a b : tame good E a -> part E a b -> tame good E b.
Proof. intros [T M] P. split; [eapply tags_part|eapply methods_part]; eauto. Qed.
Definition fields_tagged (good : tag -> Prop) (E : types) (fs : list (tag * visibility * gtype)) : Prop :=
  forall tg vis t, In (tg, vis, t) fs -> good tg /\ tame good E (Slot, t).
Lemma tagged_struct good E pl t fs : head E t = TStruct fs -> tame good E (pl, t) -> fields_tagged good E fs.
Proof.
  intros H G tg vis u I. split; [eapply (proj1 G); [apply wi_here|exact H|exact I]|].
  eapply tame_part; [exact G|]. eapply pt_field; eauto.
Qed.
Lemma tagged_cons good E tg vis t fs : fields_tagged good E ((tg, vis, t) :: fs) ->
  good tg /\ tame good E (Slot, t) /\ fields_tagged good E fs.
Proof.
  intros H. destruct (H tg vis t) as [A B]; [now left|]. split; [exact A|]. split; [exact B|].
  intros tg' vis' t' I. apply (H tg' vis'). now right.
Qed.
Definition not_ext (tg : tag) : Prop := tg <> Extension.
Lemma filled_leaf_shaped E t v : filled E t v -> leaf_shaped E t v.
Proof.
  intros F. split.
  - intros k H. inversion F; subst; try congruence. all: eexists _, _; (split; [reflexivity|cbn [kind_of]; congruence]).
  - intros i u H. inversion F; subst; try congruence. eauto.
Qed.
(** An optional field holding a zero value holds the zero value of its type. *)
Lemma optional_zero E t v : filled E t v -> supported_at E Slot t -> methods_from (regular E) E (Slot, t) -> is_zero v = true -> v = zero E t.
Proof.
  intros F S M Z. eapply (proj1 (zero_unique E any_leaf)); [|exact S|exact Z].
  apply filled_typed; [exact F|]. eapply supported_shape; eassumption.
Qed.
Definition all_small : list rval -> Prop :=
  fix all l := match l with [] => True | v :: l => small v /\ all l end.
Definition all_small_pairs : list (rval * rval) -> Prop :=
  fix all m := match m with [] => True | (k, v) :: m => small k /\ small v /\ all m end.

Lemma small_encoded E :
  (forall t v, filled E t v -> forall pl, supported_at E pl t -> tame not_ext E (pl, t) -> small v ->
     exists bs v', encoded E pl t v bs v' /\ same v v' /\ (comparable t = true -> v' = v))
  /\ (forall t l, filled_list E t l -> supported_at E Slot t -> tame not_ext E (Slot, t) -> all_small l ->
     exists bs l', encoded_list E t l bs l' /\ same_list l l' /\ (comparable t = true -> l' = l))
  /\ (forall kt vt m, filled_pairs E kt vt m -> supported_at E Target kt -> supported_at E Target vt ->
     tame not_ext E (Target, kt) -> tame not_ext E (Target, vt) -> all_small_pairs m ->
     exists bs m', encoded_pairs E kt vt m bs m' /\ same_pairs m m' /\ (comparable kt = true -> map fst m' = map fst m))
  /\ (forall fs l, filled_fields E fs l -> fields_supported E fs -> fields_tagged not_ext E fs -> all_small l ->
     exists bs l', encoded_fields E fs l bs l' /\ same_list l l' /\ (fields_comparable fs = true -> l' = l)).
Proof.
  apply filled_all.
  - intros t k p H K [T W] pl S G B. cbn [small] in B. destruct (leaf_round p T B) as (bs & _ & L & _).
    pose proof (supported_self _ _ _ S) as S0. unfold supported_here in S0. rewrite H in S0.
    exists bs, (RLeaf p (read_zero pl p)). split; [now apply (w_leaf E pl t k)|]. split; [constructor|].
    intros C. rewrite (comparable_head E) in H by assumption. subst t. cbn [comparable] in C. apply andb_prop in C as [C _].
    f_equal. subst k. destruct p; try discriminate C; now destruct pl.
  - intros t H pl S G B. destruct (leaf_round (PGoBytes []) I B) as (bs & _ & L & _).
    pose proof (supported_self _ _ _ S) as S0. unfold supported_here in S0. rewrite H in S0.
    exists bs, (RLeaf (PGoBytes []) (read_zero pl (PGoBytes []))). split; [now apply (w_leaf E pl t KGoBytes)|]. split; [constructor|].
    intros C. rewrite (comparable_head E) in H by assumption. subst t. discriminate C.
  - intros t k v H R pl S G B. destruct (int_done k v R) as [bs L]. exists bs, (RInt v).
    split; [now apply (w_int E pl t k)|]. split; [constructor|reflexivity].
  - intros t t' v H F IH pl S G B. destruct (IH (beneath pl)) as (bs & v' & W & M & _); auto.
    { eapply supported_part; [exact S|]. now constructor. }
    { eapply tame_part; [exact G|]. now constructor. }
    exists bs, (RPtr (Some v')). split; [eapply w_ptr; eassumption|]. split; [now constructor|].
    intros C. rewrite (comparable_head E) in H by assumption. subst t. discriminate.
  - intros t t' H pl S G B. exists (varuint 0 ++ []), (RSlice None). split.
    + apply (w_slice E pl t t' None (varuint 0) [] []); [assumption|cbn; lia|cbn; lia|apply lay_varu; cbn; lia|constructor].
    + split; [constructor; constructor|]. intros C. rewrite (comparable_head E) in H by assumption. subst t. discriminate.
  - intros t t' l H F IH MK pl S G [B1 B2]. pose proof (zlen_nonneg l). unfold short in B1.
    destruct IH as (bs & l' & W & M & _); auto.
    { eapply supported_part; [exact S|]. now apply pt_slice. }
    { eapply tame_part; [exact G|]. now apply pt_slice. }
    exists (varuint (zlen l) ++ bs), (RSlice match l' with [] => None | _ => Some l' end). split.
    + apply (w_slice E pl t t' (Some l)); try assumption. apply lay_varu. cbn [elems]. lia.
    + split; [|intros C; rewrite (comparable_head E) in H by assumption; subst t; discriminate].
      constructor. destruct l'; exact M.
  - intros t n t' l H F IH N pl S G B. destruct IH as (bs & l' & W & M & C); auto.
    { eapply supported_part; [exact S|]. eapply pt_array, H. }
    { eapply tame_part; [exact G|]. eapply pt_array, H. }
    pose proof (supported_self _ _ _ S) as S0. unfold supported_here in S0. rewrite H in S0.
    exists bs, (RArray l'). split; [now apply (w_array E pl t n t')|]. split; [now constructor|].
    intros CC. rewrite (comparable_head E) in H by assumption. subst t. cbn [comparable] in CC. now rewrite C.
  - intros t kt vt m H F IH N pl S G [B1 B2]. pose proof (zlen_nonneg m). unfold short in B1.
    destruct IH as (bs & m' & W & M & C); auto;
      try (eapply supported_part; [exact S|]; solve [eapply pt_key, H|eapply pt_value, H]);
      try (eapply tame_part; [exact G|]; solve [eapply pt_key, H|eapply pt_value, H]).
    pose proof (supported_self _ _ _ S) as S0. unfold supported_here in S0. rewrite H in S0.
    exists (varuint (zlen m) ++ bs), (RMap (Some m')). split.
    + apply (w_map E pl t kt vt (Some m)); try assumption; [apply lay_varu; cbn [elems]; lia|]. now rewrite C.
    + split; [|intros C'; rewrite (comparable_head E) in H by assumption; subst t; discriminate].
      eapply sm_map; [apply Permutation_refl|exact M].
  - intros t fs l H F IH pl S G B. destruct IH as (bs & l' & W & M & C); auto.
    { eapply supported_fields; eassumption. }
    { eapply tagged_struct; eassumption. }
    exists bs, (RStruct l'). split; [eapply w_struct; eassumption|]. split; [now constructor|].
    intros CC. rewrite (comparable_head E) in H by assumption. subst t. now rewrite C.
  - intros t i u v H V pl S G B. pose proof (supported_self _ _ _ S) as S0. unfold supported_here in S0. rewrite H in S0.
    destruct (proj2 (proj2 G pl t i u (wi_here _ _) H) v V) as (out & full & R).
    destruct (proj2 S0 v out full V R) as (bs & v' & -> & RD & M & C). exists bs, (RUser v'). split; [|split; [now constructor|]].
    + eapply w_user; [exact H|now apply (writes_once _ out)|exact RD].
    + intros CC. rewrite (comparable_head E) in H by assumption. subst t. now rewrite C.
  - intros t S G B. exists [], []. repeat split; constructor.
  - intros t v l _ IH1 _ IH2 S G [B1 B2]. destruct (IH1 _ S G B1) as (b & v' & W & M & C).
    destruct (IH2 S G B2) as (bs & l' & W' & M' & C'). exists (b ++ bs), (v' :: l').
    split; [now constructor|]. split; [now constructor|]. intros CC. now rewrite C, C'.
  - intros kt vt S1 S2 G1 G2 B. exists [], []. repeat split; constructor.
  - intros kt vt k v m _ IH1 _ IH2 _ IH3 S1 S2 G1 G2 (B1 & B2 & B3).
    destruct (IH1 _ S1 G1 B1) as (b1 & k' & W1 & M1 & C1). destruct (IH2 _ S2 G2 B2) as (b2 & v' & W2 & M2 & _).
    destruct (IH3 S1 S2 G1 G2 B3) as (bs & m' & W3 & M3 & C3). exists (b1 ++ b2 ++ bs), ((k', v') :: m').
    split; [now constructor|]. split; [now constructor|]. intros CC. cbn [map fst]. now rewrite C1, C3.
  - intros S G B. exists [], []. repeat split; constructor.
  - intros tg vis t fs v l F IH1 _ IH2 S G [B1 B2]. apply fields_supported_cons in S as (TG & -> & DI & S1 & S2).
    apply tagged_cons in G as (NE & G1 & G2).
    destruct (IH2 S2 G2 B2) as (bs & l' & W' & M' & C').
    assert (CF : fields_comparable ((tg, Exported, t) :: fs) = true -> comparable t = true /\ fields_comparable fs = true)
      by (unfold fields_comparable; cbn [comparable]; apply andb_prop).
    destruct (IH1 _ S1 G1 B1) as (b & v' & W & M & C).
    destruct tg; try congruence; [|destruct (is_zero v) eqn:Z].
    + exists (b ++ bs), (v' :: l'). split; [apply wf_field; auto|]. split; [now constructor|].
      intros CC. destruct (CF CC). now rewrite C, C'.
    + pose proof (optional_zero _ _ _ F S1 (proj2 G1) Z) as VZ. rewrite (zero_direct E t DI) in VZ.
      exists ([x00] ++ bs), (zero_of t :: l'). split; [now apply wf_absent|].
      split; [constructor; [rewrite VZ; apply same_refl_all|exact M']|]. intros CC. destruct (CF CC). now rewrite C', <- VZ.
    + exists ([x01] ++ b ++ bs), (v' :: l'). split; [now apply wf_present|]. split; [now constructor|].
      intros CC. destruct (CF CC). now rewrite C, C'.
  - intros tg vis t fs l TG _ IH2 S G [B1 B2]. apply fields_supported_cons in S as (TG' & -> & DI & S1 & S2).
    apply tagged_cons in G as (NE & G1 & G2). destruct TG as [->| ->]; [|now elim NE].
    destruct (IH2 S2 G2 B2) as (bs & l' & W' & M' & C').
    destruct (zero_is E (head E t) t eq_refl (supported_shape _ _ _ S1 (proj2 G1))) as (_ & Z & _).
    exists ([x00] ++ bs), (zero_of t :: l'). split; [now apply wf_absent|].
    split; [constructor; [rewrite (zero_direct E t DI); apply same_refl_all|exact M']|]. intros CC.
    assert (fields_comparable fs = true) by (unfold fields_comparable in CC; cbn [comparable] in CC; now apply andb_prop in CC).
    now rewrite C', (zero_direct E t DI).
Qed.

(** *** Values that are too large *)
Definition succeeds_or_panics (p : wr) : Prop :=
  forall out, (exists m o, runw p out = WCrash m o) \/ (exists full, runw p out = WDone None full).
Lemma sp_etry p q : succeeds_or_panics p -> succeeds_or_panics q -> succeeds_or_panics (etry p q).
Proof.
  intros P Q out. unfold etry. rewrite runw_ebind.
  destruct (P out) as [(m & o & ->)|(f & ->)]; [left; eauto|]. apply Q.
Qed.
Lemma sp_eq p q : (forall out, runw p out = runw q out) -> succeeds_or_panics q -> succeeds_or_panics p.
Proof. intros H Q out. rewrite H. apply Q. Qed.
Lemma sp_ret : succeeds_or_panics (ERet None).
Proof. intros out. right. cbn. eauto. Qed.
Lemma sp_bytes b : succeeds_or_panics (WriteBytes b).
Proof. intros out. right. cbn. eauto. Qed.
Lemma sp_varuint v : succeeds_or_panics (WriteVaruint v).
Proof. unfold WriteVaruint. destruct (PutUvarint 4 v); [apply sp_bytes|]. intros out. left. cbn. eauto. Qed.
Lemma sp_varint v : succeeds_or_panics (WriteVarint v).
Proof. unfold WriteVarint. destruct (PutVarint 4 v); [apply sp_bytes|]. intros out. left. cbn. eauto. Qed.
Lemma sp_then b q : succeeds_or_panics q -> succeeds_or_panics (ebind (WriteBytes b) (fun _ => q)).
Proof. intros Q out. cbn. apply Q. Qed.
Lemma sp_sized b : succeeds_or_panics (Bytes_MarshalABI b).
Proof. apply sp_etry; [apply sp_varuint|apply sp_bytes]. Qed.
Lemma sp_permission p : succeeds_or_panics (PermissionLevel_MarshalABI p).
Proof. apply sp_then, sp_bytes. Qed.
Lemma sp_auths l q : succeeds_or_panics q -> succeeds_or_panics (write_auths l q).
Proof. intros Q. induction l; cbn [write_auths]; [exact Q|]. apply sp_etry; [apply sp_permission|exact IHl]. Qed.
Lemma sp_action a : succeeds_or_panics (Action_MarshalABI a).
Proof. apply sp_then, sp_then, sp_etry; [apply sp_varuint|apply sp_auths, sp_sized]. Qed.
Lemma sp_all {A} (f : A -> wr) l q : (forall x, succeeds_or_panics (f x)) -> succeeds_or_panics q -> succeeds_or_panics (write_all f l q).
Proof. intros F Q. induction l; cbn [write_all]; [exact Q|]. apply sp_etry; [apply F|exact IHl]. Qed.
Lemma sp_header h : succeeds_or_panics (TransactionHeader_MarshalABI h).
Proof. repeat (apply sp_etry); first [apply sp_varuint|apply sp_bytes]. Qed.
Lemma sp_extension e : succeeds_or_panics (TransactionExtension_MarshalABI e).
Proof. apply sp_etry; [apply sp_bytes|apply sp_sized]. Qed.
Lemma sp_transaction t : succeeds_or_panics (Transaction_MarshalABI t).
Proof.
  apply sp_etry; [apply sp_header|].
  apply sp_etry; [apply sp_varuint|]. apply sp_all; [apply sp_action|].
  apply sp_etry; [apply sp_varuint|]. apply sp_all; [apply sp_action|].
  apply sp_etry; [apply sp_varuint|]. apply sp_all; [apply sp_extension|apply sp_ret].
Qed.
Lemma sp_prim p : succeeds_or_panics (write_prim p).
Proof.
  destruct p; cbn [write_prim];
    first [ apply sp_varuint | apply sp_varint | apply sp_bytes | apply sp_sized | apply sp_action | apply sp_transaction
          | apply sp_header | apply sp_extension | apply sp_permission
          | apply sp_etry; [apply sp_bytes|apply sp_bytes]
          | apply sp_etry; [apply sp_etry; apply sp_bytes|apply sp_bytes] | idtac ].
  destruct b; apply sp_bytes.
Qed.
Lemma large_panics E :
  (forall t v, filled E t v -> forall pl, supported_at E pl t -> tame not_ext E (pl, t) ->
     succeeds_or_panics (Encode E t v) /\ (done (Encode E t v) -> small v))
  /\ (forall t l, filled_list E t l -> supported_at E Slot t -> tame not_ext E (Slot, t) ->
     succeeds_or_panics (put_list (Encode E t) l) /\ (done (put_list (Encode E t) l) -> all_small l))
  /\ (forall kt vt m, filled_pairs E kt vt m -> supported_at E Target kt -> supported_at E Target vt ->
     tame not_ext E (Target, kt) -> tame not_ext E (Target, vt) ->
     succeeds_or_panics (put_pairs (Encode E kt) (Encode E vt) m)
     /\ (done (put_pairs (Encode E kt) (Encode E vt) m) -> all_small_pairs m))
  /\ (forall fs l, filled_fields E fs l -> fields_supported E fs -> fields_tagged not_ext E fs ->
     succeeds_or_panics (put_fields E chain_encoder fs l) /\ (done (put_fields E chain_encoder fs l) -> all_small l)).
Proof.
  apply filled_all.
  - intros t k p H K [T W] pl S G. split.
    + eapply sp_eq; [apply (Encode_leaf _ _ _ _ _ H K)|apply sp_prim].
    + intros (o & f & R). rewrite (Encode_leaf _ _ _ _ _ H K) in R. exact (leaf_done _ _ _ T R).
  - intros t H pl S G. assert (EB : zlen (@nil byte) < 2 ^ 28) by reflexivity. split; [|intros _; exact EB].
    eapply sp_eq; [apply (Encode_leaf _ _ _ (PGoBytes []) _ H eq_refl)|apply sp_prim].
  - intros t k v H R pl S G. split; [|exact (fun _ => I)]. rewrite (Encode_int _ _ _ _ H). destruct k; apply sp_bytes.
  - intros t t' v H F IH pl S G. pose proof (filled_leaf_shaped _ _ _ F) as LS.
    destruct (IH (beneath pl)) as [A B].
    { eapply supported_part; [exact S|]. now constructor. }
    { eapply tame_part; [exact G|]. now constructor. }
    split; [eapply sp_eq; [apply (Encode_ptr _ _ _ _ H LS)|exact A]|].
    intros (o & f & R). apply B. exists o, f. now rewrite <- (Encode_ptr _ _ _ _ H LS).
  - intros t t' H pl S G. split; [|exact (fun _ => I)]. rewrite (Encode_slice _ _ _ _ H). apply sp_etry; [apply sp_varuint|apply sp_ret].
  - intros t t' l H F IH MK pl S G. rewrite (Encode_slice _ _ _ _ H). cbn [elems]. destruct IH as [A B].
    { eapply supported_part; [exact S|]. now apply pt_slice. }
    { eapply tame_part; [exact G|]. now apply pt_slice. }
    split; [apply sp_etry; [apply sp_varuint|exact A]|]. intros D. apply done_etry in D as [(o & f & D1) D2].
    split; [apply (varu_done _ _ _ (zlen_nonneg l) D1)|exact (B D2)].
  - intros t n t' l H F IH N pl S G. rewrite (Encode_array _ _ _ _ _ H). apply IH.
    { eapply supported_part; [exact S|]. eapply pt_array, H. }
    { eapply tame_part; [exact G|]. eapply pt_array, H. }
  - intros t kt vt m H F IH N pl S G. rewrite (Encode_map _ _ _ _ _ H). cbn [elems]. destruct IH as [A B];
      try (eapply supported_part; [exact S|]; solve [eapply pt_key, H|eapply pt_value, H]);
      try (eapply tame_part; [exact G|]; solve [eapply pt_key, H|eapply pt_value, H]).
    split; [apply sp_etry; [apply sp_varuint|exact A]|]. intros D. apply done_etry in D as [(o & f & D1) D2].
    split; [apply (varu_done _ _ _ (zlen_nonneg m) D1)|exact (B D2)].
  - intros t fs l H F IH pl S G. rewrite (Encode_struct _ _ _ _ H). apply IH.
    { eapply supported_fields; eassumption. }
    { eapply tagged_struct; eassumption. }
  - intros t i u v H V pl S G. rewrite (Encode_user _ _ _ _ _ H). split; [|exact (fun _ => I)].
    pose proof (supported_self _ _ _ S) as S0. unfold supported_here in S0. rewrite H in S0.
    destruct (proj2 (proj2 G pl t i u (wi_here _ _) H) v V) as (out & full & R).
    destruct (proj2 S0 v out full V R) as (bs & v' & -> & _). intros o. right. exists (o ++ bs). now apply (writes_once _ out).
  - intros t S G. split; [apply sp_ret|exact (fun _ => I)].
  - intros t v l _ IH1 _ IH2 S G. cbn [put_list]. destruct (IH1 _ S G) as [A1 B1], (IH2 S G) as [A2 B2].
    split; [now apply sp_etry|]. intros D. apply done_etry in D as [D1 D2]. split; auto.
  - intros kt vt S1 S2 G1 G2. split; [apply sp_ret|exact (fun _ => I)].
  - intros kt vt k v m _ IH1 _ IH2 _ IH3 S1 S2 G1 G2. cbn [put_pairs].
    destruct (IH1 _ S1 G1) as [A1 B1], (IH2 _ S2 G2) as [A2 B2], (IH3 S1 S2 G1 G2) as [A3 B3].
    split; [repeat apply sp_etry; assumption|]. intros D. apply done_etry in D as [D1 D2]. apply done_etry in D2 as [D2 D3].
    repeat split; auto.
  - intros S G. split; [apply sp_ret|exact (fun _ => I)].
  - intros tg vis t fs v l F IH1 _ IH2 S G. apply fields_supported_cons in S as (TG & -> & DI & S1 & S2).
    apply tagged_cons in G as (NE & G1 & G2). destruct (IH1 _ S1 G1) as [A1 B1], (IH2 S2 G2) as [A2 B2].
    assert (Q : succeeds_or_panics (etry (Encode E t v) (put_fields E chain_encoder fs l)) /\
      (done (etry (Encode E t v) (put_fields E chain_encoder fs l)) -> all_small (v :: l))).
    { split; [now apply sp_etry|]. intros D. apply done_etry in D as [D1 D2]. split; auto. }
    destruct tg; try congruence; [rewrite put_plain by discriminate; exact Q|destruct (is_zero v) eqn:Z].
    + rewrite put_absent by assumption. split; [intros out; cbn; apply A2|]. intros D. apply done_flag in D.
      split; [|auto]. rewrite (optional_zero _ _ _ F S1 (proj2 G1) Z). exact (proj2 (proj2 (zero_is E (head E t) t eq_refl (supported_shape _ _ _ S1 (proj2 G1))))).
    + rewrite put_present by assumption. split; [intros out; cbn; apply Q|]. intros D. apply done_flag in D. now apply Q.
  - intros tg vis t fs l TG _ IH2 S G. apply fields_supported_cons in S as (TG' & -> & DI & S1 & S2).
    apply tagged_cons in G as (NE & G1 & G2). destruct TG as [->| ->]; [|now elim NE]. destruct (IH2 S2 G2) as [A2 B2].
    destruct (zero_is E (head E t) t eq_refl (supported_shape _ _ _ S1 (proj2 G1))) as (_ & Z & ZS).
    rewrite put_absent by exact Z. split; [intros out; cbn; apply A2|]. intros D. apply done_flag in D. split; auto.
Qed.
