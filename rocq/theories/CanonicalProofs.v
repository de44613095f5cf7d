(** Encoding again what was decoded. *)
From Verif Require Import Base Prog GoVarint AbiPrim BaseProofs SpecWire ProgProofs AbiPrimProofs Chain SpecChain ChainProofs
  Values Leaf SpecLeaf LeafProofs Reflect SpecReflect ReflectProofs SpecStrict ReflectOverwrite SpecCanonical.

(** ** What a program takes from its input when it succeeds *)
Definition takes {A} (Q : list byte -> A -> Prop) (p : io A) : Prop :=
  forall env inp v rest, run env p inp = Done (v, None) rest -> exists c, inp = c ++ rest /\ Q c v.
Lemma takes_ret {A} (Q : list byte -> A -> Prop) a : Q [] a -> takes Q (DRet (a, None)).
Proof. intros H env inp v rest R. cbn [run] in R. injection R as <- <-. now exists []. Qed.
Lemma takes_error {A} (Q : list byte -> A -> Prop) a e : takes Q (DRet (a, Some e)).
Proof. intros env inp v rest R. discriminate R. Qed.
Lemma takes_panic {A} (Q : list byte -> A -> Prop) m : takes Q (DPanic m).
Proof. intros env inp v rest R. discriminate R. Qed.
Lemma takes_fuel {A} (Q : list byte -> A -> Prop) : takes Q DFuel.
Proof. intros env inp v rest R. discriminate R. Qed.
Lemma takes_weaken {A} (P Q : list byte -> A -> Prop) p : takes P p -> (forall c a, P c a -> Q c a) -> takes Q p.
Proof. intros H I env inp v rest R. apply H in R as (c & -> & R). exists c. auto. Qed.
Lemma takes_bind {A B} (P : list byte -> A -> Prop) (Q : list byte -> B -> Prop) (p : io A) (f : A * option gerr -> io B) :
  takes P p -> (forall c a, P c a -> takes (fun c' b => Q (c ++ c') b) (f (a, None))) ->
  (forall a e, takes (fun _ _ => False) (f (a, Some e))) -> takes Q (dbind p f).
Proof.
  intros Hp H1 H2 env inp v rest R. rewrite run_dbind in R.
  destruct (run env p inp) as [[a [e|]] r|m|] eqn:E; try discriminate.
  - apply H2 in R as (c & _ & []).
  - apply Hp in E as (c & -> & Pc). destruct (H1 c a Pc _ _ _ _ R) as (c' & -> & Qc). exists (c ++ c').
    split; [now rewrite app_assoc|exact Qc].
Qed.
Lemma takes_map {A B} (P : list byte -> A -> Prop) (Q : list byte -> B -> Prop) (p : io A) (f : A -> option gerr -> B) :
  takes P p -> (forall c a, P c a -> Q c (f a None)) -> takes Q ('(a, err) <-- p ;; DRet (f a err, err)).
Proof.
  intros Hp H. eapply takes_bind; [exact Hp| |intros; apply takes_error].
  intros c a Pc. apply takes_ret. rewrite app_nil_r. auto.
Qed.
Lemma takes_wrap {A B} (P : list byte -> A -> Prop) (Q : list byte -> B -> Prop) (g : A -> B) p :
  takes P p -> (forall c a, P c a -> Q c (g a)) -> takes Q (wrap g p).
Proof. intros Hp H. exact (takes_map P Q p (fun a _ => g a) Hp H). Qed.
Lemma takes_keep {A} (P : list byte -> A -> Prop) old p : takes P p -> takes P (keep old p).
Proof. intros Hp. eapply takes_map; [exact Hp|]. auto. Qed.
Lemma takes_dtry {A B} (P : list byte -> A -> Prop) (Q : list byte -> B -> Prop) d (p : io A) (f : A -> io B) :
  takes P p -> (forall c a, P c a -> takes (fun c' b => Q (c ++ c') b) (f a)) -> takes Q (dtry d p f).
Proof. intros Hp H. eapply takes_bind; [exact Hp|exact H|]. intros a e. apply takes_error. Qed.

(** ** What the bytes cover *)
Definition canon (s : bool) (c bs : list byte) : Prop := zlen bs <= zlen c /\ (s = true -> zlen bs = zlen c -> bs = c).
Definition covers (s : bool) (c : list byte) (w : wr) : Prop := forall bs, writes w bs -> canon s c bs.
Lemma canon_refl s c : canon s c c.
Proof. now split. Qed.
Lemma canon_app s c1 c2 b1 b2 : canon s c1 b1 -> canon s c2 b2 -> canon s (c1 ++ c2) (b1 ++ b2).
Proof.
  intros [L1 E1] [L2 E2]. unfold canon. rewrite !zlen_app. split; [lia|]. intros S L.
  rewrite E1, E2; [reflexivity|exact S|lia|exact S|lia].
Qed.
Lemma canon_weaken s s' c bs : canon s c bs -> (s' = true -> s = true) -> canon s' c bs.
Proof. intros [L E] I. split; auto. Qed.
Lemma covers_weaken s s' c w : covers s c w -> (s' = true -> s = true) -> covers s' c w.
Proof. intros H I bs W. eapply canon_weaken; [apply H, W|exact I]. Qed.
Lemma covers_exact s c w : writes w c -> covers s c w.
Proof. intros W bs W'. rewrite (writes_det _ _ _ W' W). apply canon_refl. Qed.
Lemma covers_nil s : covers s [] (ERet None).
Proof. apply covers_exact, writes_ret. Qed.
Lemma writes_split p q bs : writes (etry p q) bs -> exists b1 b2, bs = b1 ++ b2 /\ writes p b1 /\ writes q b2.
Proof.
  intros W. pose proof (W []) as R. apply runw_etry_done in R as (mid & R1 & R2). cbn [app] in R2.
  exists mid. pose proof (runw_extends q mid) as X. rewrite R2 in X. destruct X as [b2 ->]. exists b2. split; [reflexivity|].
  split; intros out.
  - pose proof (runw_shift p [] out) as S. rewrite R1 in S. exact (S mid eq_refl).
  - pose proof (runw_shift q mid out) as S. rewrite R2 in S. exact (S b2 eq_refl).
Qed.
Lemma covers_etry s c1 c2 p q : covers s c1 p -> covers s c2 q -> covers s (c1 ++ c2) (etry p q).
Proof.
  intros H1 H2 bs W. apply writes_split in W as (b1 & b2 & -> & W1 & W2). apply canon_app; auto.
Qed.
Lemma writes_then b q bs : writes (ebind (WriteBytes b) (fun _ => q)) bs -> exists b2, bs = b ++ b2 /\ writes q b2.
Proof.
  intros W. pose proof (W []) as R. cbn [ebind WriteBytes runw] in R.
  pose proof (runw_extends q ([] ++ b)) as X. rewrite R in X. destruct X as [b2 X]. exists b2. split; [exact X|].
  intros out. pose proof (runw_shift q ([] ++ b) out) as S. rewrite R in S. exact (S b2 X).
Qed.
Lemma covers_then s b c q : covers s c q -> covers s (b ++ c) (ebind (WriteBytes b) (fun _ => q)).
Proof. intros H bs W. apply writes_then in W as (b2 & -> & W). apply canon_app; [apply canon_refl|auto]. Qed.
Lemma covers_bytes s b : covers s b (WriteBytes b).
Proof. apply covers_exact, writes_bytes. Qed.
Lemma covers_eq s c p q : (forall out, runw p out = runw q out) -> covers s c q -> covers s c p.
Proof. intros E H bs W. apply H. intros out. now rewrite <- E. Qed.

(** ** Numbers of variable length *)
Lemma leb_minimal_lower bs : leb_minimal bs -> (2 <= length bs)%nat -> 128 ^ (zlen bs - 1) <= leb_value bs.
Proof.
  induction bs as [|b bs IH]; intros M L; [cbn in L; lia|].
  destruct bs as [|b' bs]; [cbn in L; lia|].
  destruct (leb_min_tail _ _ M ltac:(congruence)) as [M' P]. pose proof (zb_range b).
  change (leb_value (b :: b' :: bs)) with (zb b mod 128 + 128 * leb_value (b' :: bs)).
  destruct bs as [|b2 bs].
  - change (zlen [b; b'] - 1) with 1. change (128 ^ 1) with 128. lia.
  - specialize (IH M' ltac:(cbn; lia)).
    replace (zlen (b :: b' :: b2 :: bs) - 1) with (1 + (zlen (b' :: b2 :: bs) - 1)) by (unfold zlen; cbn [length]; lia).
    rewrite Z.pow_add_r by (unfold zlen; cbn [length]; lia). change (128 ^ 1) with 128. lia.
Qed.
Lemma leb_shorter a b : leb_minimal a -> leb_wf b -> leb_value a <= leb_value b -> zlen a <= zlen b.
Proof.
  intros M W L. destruct b as [|b0 b]; [destruct W|]. destruct (Nat.le_gt_cases (length a) 1) as [S|S].
  { unfold zlen; cbn [length]; lia. }
  pose proof (leb_minimal_lower a M S) as LA. pose proof (leb_value_bound (b0 :: b)) as UB.
  destruct (Z.le_gt_cases (zlen a) (zlen (b0 :: b))) as [|G]; [assumption|exfalso].
  assert (128 ^ zlen (b0 :: b) <= 128 ^ (zlen a - 1)) by (apply Z.pow_le_mono_r; [lia|lia]). lia.
Qed.
Lemma leb_same_length a b : leb_minimal a -> leb_wf b -> leb_value a = leb_value b -> zlen a = zlen b -> a = b.
Proof.
  intros M W E L. apply leb_minimal_unique; [exact M| |exact E]. split; [exact W|].
  destruct (Nat.eq_dec (length b) 1) as [|N]; [now left|right]. intros Z0.
  destruct (Nat.le_gt_cases (length a) 1) as [S|S].
  { destruct b; [destruct W|]. unfold zlen in L. cbn [length] in *. lia. }
  pose proof (leb_minimal_lower a M S) as LA.
  assert (UB : leb_value b < 128 ^ (zlen b - 1)).
  { assert (NE : b <> []) by (destruct b; [destruct W|congruence]). rewrite (app_removelast_last x00 NE), Z0.
    assert (X : forall l, leb_value (l ++ [x00]) = leb_value l).
    { induction l as [|x l IH]; [reflexivity|]. cbn [app leb_value]. now rewrite IH. }
    rewrite X, zlen_app. change (zlen [x00]) with 1. replace (zlen (removelast b) + 1 - 1) with (zlen (removelast b)) by lia.
    apply leb_value_bound. }
  rewrite L in LA. lia.
Qed.
Lemma varuint_inv v bs : 0 <= v -> writes (WriteVaruint v) bs -> leb_minimal bs /\ leb_value bs = v.
Proof.
  intros P W. pose proof (Varuint_done _ _ _ (W [])) as L. destruct (varuint_spec v (conj P L)) as (_ & M & V & _).
  rewrite (writes_det _ _ _ W (WriteVaruint_writes v (conj P L))). now split.
Qed.
Lemma varuint_covers s pre : leb_wf pre -> covers s pre (WriteVaruint (leb_value pre)).
Proof.
  intros W bs B. apply varuint_inv in B as [M V]; [|apply leb_value_nonneg]. split; [apply leb_shorter; [exact M|exact W|lia]|].
  intros _ L. apply leb_same_length; auto.
Qed.
Lemma varuint_covers_less pre m : leb_wf pre -> 0 <= m <= leb_value pre -> covers false pre (WriteVaruint m).
Proof.
  intros W R bs B. apply varuint_inv in B as [M V]; [|lia]. split; [apply leb_shorter; [exact M|exact W|lia]|discriminate].
Qed.
(** A count of elements, read as a machine integer. *)
Lemma count_covers s pre n : leb_wf pre -> leb_value pre < two64 -> n = Z.of_nat (Z.to_nat (i64 (leb_value pre))) -> covers s pre (WriteVaruint n).
Proof.
  intros W B ->. pose proof (leb_value_nonneg pre) as P. destruct (Z.lt_ge_cases (leb_value pre) two63) as [L|L].
  - replace (Z.of_nat (Z.to_nat (i64 (leb_value pre)))) with (leb_value pre) by (unfold i64; lia). now apply varuint_covers.
  - replace (Z.of_nat (Z.to_nat (i64 (leb_value pre)))) with 0 by (unfold i64; lia). intros bs X.
    apply varuint_inv in X as [M V]; [|lia]. split; [apply leb_shorter; [exact M|exact W|lia]|]. intros _ E. exfalso.
    assert (Q : bs = [x00]).
    { apply leb_minimal_unique; [exact M| |exact V]. split; [cbn; lia|now left]. }
    subst bs. destruct pre as [|b [|b' pre]]; [destruct W| |unfold zlen in E; cbn [length] in E; lia].
    cbn [leb_value] in L. pose proof (zb_range b). lia.
Qed.

(** ** The reading methods *)
Lemma Bytes_takes n : takes (fun c (r : Z * list byte) => snd r = c /\ zlen c = n) (ReadBytes n).
Proof.
  intros env inp [an b] rest R. apply ReadBytes_exact in R as [L ->]. exists b. now split.
Qed.
Lemma Byte_takes : takes (fun c v => c = [bz v] /\ 0 <= v < 256) ReadByte.
Proof.
  eapply takes_bind; [apply (Bytes_takes 1)| |intros [n b] e; apply takes_error].
  intros c [n b] [E L]. cbn [snd] in E. subst b. destruct c as [|x [|y c]]; try discriminate.
  - apply takes_ret. rewrite app_nil_r, bz_zb. split; [reflexivity|apply zb_range].
  - exfalso. unfold zlen in L. cbn [length] in L. lia.
Qed.
Lemma le_takes n (p : io Z) : p = ('(_, b, err) <-- ReadBytes (Z.of_nat n) ;; match err with Some e => DRet (0, Some e) | None => DRet (le_get b, None) end) ->
  takes (fun c v => c = le_put n v /\ 0 <= v < 256 ^ Z.of_nat n) p.
Proof.
  intros ->. eapply takes_bind; [apply (Bytes_takes (Z.of_nat n))| |intros [m b] e; apply takes_error].
  intros c [m b] [E L]. cbn [snd] in E. subst b. apply takes_ret. rewrite app_nil_r.
  assert (N : length c = n) by (unfold zlen in L; lia). split; [|rewrite <- L; apply le_get_bound].
  rewrite <- N at 1. now rewrite le_put_get.
Qed.
Lemma U64_takes : takes (fun c v => c = le_put 8 v /\ 0 <= v < 256 ^ Z.of_nat 8) ReadUint64. Proof. exact (le_takes 8 ReadUint64 eq_refl). Qed.
Lemma U32_takes : takes (fun c v => c = le_put 4 v /\ 0 <= v < 256 ^ Z.of_nat 4) ReadUint32. Proof. exact (le_takes 4 ReadUint32 eq_refl). Qed.
Lemma U16_takes : takes (fun c v => c = le_put 2 v /\ 0 <= v < 256 ^ Z.of_nat 2) ReadUint16. Proof. exact (le_takes 2 ReadUint16 eq_refl). Qed.
Lemma W64_takes : takes (fun c v => writes (WriteUint64 v) c) ReadUint64.
Proof. eapply takes_weaken; [apply U64_takes|]. intros c v [-> _]. apply writes_bytes. Qed.
Lemma W32_takes : takes (fun c v => writes (WriteUint32 v) c) ReadUint32.
Proof. eapply takes_weaken; [apply U32_takes|]. intros c v [-> _]. apply writes_bytes. Qed.
Lemma W16_takes : takes (fun c v => writes (WriteUint16 v) c) ReadUint16.
Proof. eapply takes_weaken; [apply U16_takes|]. intros c v [-> _]. apply writes_bytes. Qed.
Lemma conv_takes {A} (P : list byte -> A -> Prop) (Q : list byte -> Z -> Prop) (p : io A) (f : A -> Z) : takes P p -> (forall c a, P c a -> Q c (f a)) ->
  takes Q (dtry 0 p (fun v => DRet (f v, None))).
Proof.
  intros H I. eapply takes_dtry; [exact H|]. intros c a Pc. apply takes_ret. rewrite app_nil_r. auto.
Qed.
Lemma W8_takes : takes (fun c v => writes (WriteUint8 v) c) ReadUint8.
Proof. eapply (conv_takes _ _ _ (fun v => v)); [apply Byte_takes|]. intros c v [-> _]. apply writes_byte. Qed.
Lemma WI64_takes : takes (fun c v => writes (WriteInt64 v) c) ReadInt64.
Proof.
  eapply conv_takes; [apply U64_takes|]. intros c v [-> R]. unfold WriteInt64. replace (u64 (i64 v)) with v; [apply writes_bytes|].
  change (256 ^ Z.of_nat 8) with two64 in R. unfold u64, i64. lia.
Qed.
Lemma WI32_takes : takes (fun c v => writes (WriteInt32 v) c) ReadInt32.
Proof.
  eapply conv_takes; [apply U32_takes|]. intros c v [-> R]. unfold WriteInt32. replace (u32 (i32 v)) with v; [apply writes_bytes|].
  change (256 ^ Z.of_nat 4) with two32 in R. unfold u32, i32. lia.
Qed.
Lemma WI16_takes : takes (fun c v => writes (WriteInt16 v) c) ReadInt16.
Proof.
  eapply conv_takes; [apply U16_takes|]. intros c v [-> R]. unfold WriteInt16. replace (u16 (i16 v)) with v; [apply writes_bytes|].
  change (256 ^ Z.of_nat 2) with two16 in R. unfold u16, i16. lia.
Qed.
Lemma WI8_takes : takes (fun c v => writes (WriteInt8 v) c) ReadInt8.
Proof.
  eapply conv_takes; [apply Byte_takes|]. intros c v [-> R]. unfold WriteInt8. replace (u8 (i8 v)) with v; [apply writes_byte|].
  unfold u8, i8. lia.
Qed.
Lemma WF32_takes : takes (fun c v => writes (WriteFloat32 v) c) ReadFloat32.
Proof. eapply (conv_takes _ _ _ (fun v => v)); [apply W32_takes|auto]. Qed.
Lemma WF64_takes : takes (fun c v => writes (WriteFloat64 v) c) ReadFloat64.
Proof. eapply (conv_takes _ _ _ (fun v => v)); [apply W64_takes|auto]. Qed.
Lemma Bool_takes : takes (fun c v => covers false c (WriteBool v)) ReadBool.
Proof.
  eapply (takes_map _ _ ReadByte (fun b _ => negb (b =? 0))); [apply Byte_takes|].
  intros c a [-> _] bs W. assert (L : zlen bs = 1); [|split; [rewrite L; reflexivity|discriminate]].
  destruct (negb (a =? 0)); cbn [WriteBool] in W; rewrite (writes_det _ _ _ W (writes_byte _)); reflexivity.
Qed.
Lemma Varuint_takes : takes (fun c v => leb_wf c /\ v = leb_value c /\ leb_value c < two64) ReadVaruint.
Proof. intros env inp v rest R. apply ReadVaruint_exact in R as (pre & W & <- & B & ->). exists pre. auto. Qed.
Lemma WVaruint_takes s : takes (fun c v => covers s c (WriteVaruint v)) ReadVaruint.
Proof. eapply takes_weaken; [apply Varuint_takes|]. intros c v (W & -> & _). now apply varuint_covers. Qed.
Lemma Uvarint_takes : takes (fun c v => leb_wf c /\ v = leb_value c /\ leb_value c < two64) (ReadUvarint ReadByte).
Proof.
  intros env inp v rest R. apply (Varuint_takes env). unfold ReadVaruint. rewrite run_dtry, R. reflexivity.
Qed.
Lemma WVarint_takes s : takes (fun c v => covers s c (WriteVarint v)) ReadVarint.
Proof.
  eapply (conv_takes _ _ _ (fun v => v)); [|intros c a H; exact H].
  unfold GoVarint.ReadVarint. eapply (takes_map _ _ _ (fun ux _ => if Z.land ux 1 =? 0 then i64 (Z.shiftr ux 1) else Z.lnot (i64 (Z.shiftr ux 1))));
    [apply Uvarint_takes|].
  intros c a (W & -> & B). pose proof (leb_value_nonneg c) as P. set (ux := leb_value c) in *.
  set (v := if ux mod 2 =? 0 then ux / 2 else - (ux / 2) - 1).
  assert (Z0 : zigzag v = ux) by (unfold zigzag, v; destruct (Z.eqb_spec (ux mod 2) 0); destruct (Z.leb_spec 0 (ux / 2)); try lia; destruct (Z.leb_spec 0 (- (ux / 2) - 1)); lia).
  rewrite (unzigzag ux (conj P B) v Z0). rewrite WriteVarint_zigzag, Z0; [now apply varuint_covers|].
  unfold v. destruct (ux mod 2 =? 0); lia.
Qed.
Lemma sized_takes s (rd : io (list byte)) (w : list byte -> wr) :
  (forall b, w b = etry (WriteVaruint (zlen b)) (WriteBytes b)) ->
  (forall env inp b rest, run env rd inp = Done (b, None) rest ->
     exists l r n, run env ReadVaruint inp = Done (l, None) r /\ run env (ReadBytes (i64 l)) r = Done ((n, b), None) rest) ->
  takes (fun c b => covers s c (w b)) rd.
Proof.
  intros Hw H env inp b rest R. apply H in R as (l & r & n & R1 & R2).
  apply Varuint_takes in R1 as (pre & -> & W & -> & B). apply ReadBytes_exact in R2 as [L ->].
  exists (pre ++ b). split; [now rewrite app_assoc|]. rewrite Hw. apply covers_etry; [|apply covers_bytes].
  apply count_covers; [exact W|exact B|]. pose proof (zlen_nonneg b). lia.
Qed.
Lemma WString_takes s : takes (fun c b => covers s c (WriteString b)) ReadString.
Proof.
  apply (sized_takes s _ WriteString); [reflexivity|]. intros env inp b rest R. unfold ReadString in R. rewrite run_dtry in R.
  destruct (run env ReadVaruint inp) as [[l [e|]] r|m|]; try discriminate. rewrite run_dbind in R.
  destruct (run env (ReadBytes (i64 l)) r) as [[[n d] [e|]] r'|m|] eqn:E; try discriminate. cbn [run] in R. injection R as <- <-. eauto 6.
Qed.
Lemma WBytes_takes s old : takes (fun c b => covers s c (Bytes_MarshalABI b)) (Bytes_UnmarshalABI old).
Proof.
  apply (sized_takes s _ Bytes_MarshalABI); [reflexivity|]. intros env inp b rest R. unfold Bytes_UnmarshalABI in R. rewrite run_dtry in R.
  destruct (run env ReadVaruint inp) as [[l [e|]] r|m|]; try discriminate. rewrite run_dbind in R.
  destruct (run env (ReadBytes (i64 l)) r) as [[[n d] [e|]] r'|m|] eqn:E; try discriminate. cbn [run] in R. injection R as <- <-. eauto 6.
Qed.
Lemma WGoBytes_takes s old : takes (fun c b => covers s c (EncodeByteSlice b)) (DecodeByteSlice old).
Proof.
  apply (sized_takes s _ EncodeByteSlice); [reflexivity|]. intros env inp b rest R. unfold DecodeByteSlice in R. rewrite run_dbind in R.
  destruct (run env ReadVaruint inp) as [[l [e|]] r|m|]; try discriminate. rewrite run_dbind in R.
  destruct (run env (ReadBytes (i64 l)) r) as [[[n d] [e|]] r'|m|] eqn:E; try discriminate. cbn [run] in R. injection R as <- <-. eauto 6.
Qed.
Lemma WFixed_takes n old : takes (fun c b => writes (Checksum_MarshalABI b) c) (Checksum_UnmarshalABI n old).
Proof.
  eapply takes_bind; [apply Bytes_takes| |intros [m b] e; apply takes_error].
  intros c [m b] [E L]. cbn [snd] in E. subst b. apply takes_ret. rewrite app_nil_r. apply writes_bytes.
Qed.
Lemma WU128_takes old : takes (fun c u => writes (Uint128_MarshalABI u) c) (Uint128_UnmarshalABI old).
Proof.
  eapply takes_dtry; [apply U64_takes|]. intros c lo [-> _].
  eapply takes_bind; [apply U64_takes| |intros; apply takes_error].
  intros c hi [-> _]. apply takes_ret. rewrite app_nil_r. apply writes_bytes.
Qed.
Lemma WAsset_takes old : takes (fun c a => writes (Asset_MarshalABI a) c) (Asset_UnmarshalABI old).
Proof.
  eapply takes_dtry; [apply WI64_takes|]. intros c v V.
  eapply takes_bind; [apply takes_keep, W64_takes| |intros; apply takes_error].
  intros c' s S. apply takes_ret. rewrite app_nil_r. now apply writes_etry.
Qed.
Lemma WExtendedAsset_takes old : takes (fun c x => writes (ExtendedAsset_MarshalABI x) c) (ExtendedAsset_UnmarshalABI old).
Proof.
  eapply takes_bind; [apply WAsset_takes| |intros; apply takes_error]. intros c q Q.
  eapply takes_bind; [apply takes_keep, W64_takes| |intros; apply takes_error].
  intros c' s S. apply takes_ret. rewrite app_nil_r. now apply writes_etry.
Qed.
(** The error of the first read is discarded, but then the second fails as well. *)
Lemma WPermission_takes old : takes (fun c p => writes (PermissionLevel_MarshalABI p) c) (PermissionLevel_UnmarshalABI old).
Proof.
  intros env inp p rest R. unfold PermissionLevel_UnmarshalABI, Name_UnmarshalABI, keep in R. rewrite !run_dbind in R.
  destruct (ReadUint64_run env inp) as [[a [r1 E1]]|[e E1]]; rewrite E1 in R; cbn [run] in R; rewrite !run_dbind in R.
  2:{ rewrite ReadUint64_empty in R. discriminate. }
  destruct (run env ReadUint64 r1) as [[q [e|]] r2|m|] eqn:E2; try discriminate. cbn [run] in R. injection R as <- <-.
  apply U64_takes in E1 as (c1 & -> & -> & _). apply U64_takes in E2 as (c2 & -> & -> & _).
  exists (le_put 8 a ++ le_put 8 q). split; [now rewrite app_assoc|]. apply PL_writes.
Qed.
Lemma auths_takes s n : forall acc, takes (fun c l => exists l', l = acc ++ l' /\ length l' = n
  /\ forall k ck, covers s ck k -> covers s (c ++ ck) (write_auths l' k)) (read_auths n acc).
Proof.
  induction n as [|n IH]; intros acc; cbn [read_auths].
  { apply takes_ret. exists []. rewrite app_nil_r. split; [reflexivity|]. split; [reflexivity|]. auto. }
  eapply takes_bind; [apply WPermission_takes| |intros; apply takes_error]. intros c p P. cbv beta iota.
  eapply takes_weaken; [apply IH|]. intros c' l (l' & -> & L & K). exists (p :: l'). rewrite <- app_assoc. split; [reflexivity|].
  split; [cbn; lia|]. intros k ck Hk. rewrite <- app_assoc. cbn [write_auths].
  apply covers_etry; [now apply covers_exact|]. now apply K.
Qed.
Lemma WAction_takes s old : Authorization old = [] -> takes (fun c a => covers s c (Action_MarshalABI a)) (Action_UnmarshalABI old).
Proof.
  intros F env inp a rest R. apply Action_success in R as (acc & nm & au & d & (r1 & r2 & l & r3 & r4 & R1 & R2 & R3 & R4 & R5) & ->).
  rewrite F. cbn [app]. apply U64_takes in R1 as (c1 & -> & -> & _). apply U64_takes in R2 as (c2 & -> & -> & _).
  apply Varuint_takes in R3 as (pre & -> & W & -> & B). apply (auths_takes s) in R4 as (c4 & -> & l' & -> & L & K).
  apply (WBytes_takes s) in R5 as (c5 & -> & D). exists (le_put 8 acc ++ le_put 8 nm ++ pre ++ c4 ++ c5).
  split; [now rewrite <- !app_assoc|]. unfold Action_MarshalABI, Name_MarshalABI, WriteUint64. cbn [Account AName Authorization AData app].
  apply covers_then, covers_then, covers_etry; [apply count_covers; [exact W|exact B|unfold zlen; now rewrite L]|]. now apply K.
Qed.
Lemma WHeader_takes s old : takes (fun c h => covers s c (TransactionHeader_MarshalABI h)) (TransactionHeader_UnmarshalABI old).
Proof.
  eapply takes_bind; [apply takes_keep, W32_takes| |intros; apply takes_error]. intros c1 a A. cbv beta iota zeta.
  eapply takes_bind; [apply W16_takes| |intros; apply takes_error]. intros c2 b B. cbv beta iota zeta.
  eapply takes_bind; [apply W32_takes| |intros; apply takes_error]. intros c3 c C. cbv beta iota zeta.
  eapply takes_bind; [apply (WVaruint_takes s)| |intros; apply takes_error]. intros c4 d D. cbv beta iota zeta.
  eapply takes_bind; [apply W8_takes| |intros; apply takes_error]. intros c5 e E. cbv beta iota zeta.
  eapply takes_bind; [apply (WVaruint_takes s)| |intros; apply takes_error]. intros c6 f F.
  apply takes_ret. rewrite app_nil_r. unfold TransactionHeader_MarshalABI.
  cbn [Expiration RefBlockNum RefBlockPrefix MaxNetUsageWords MaxCpuUsageMs DelaySec].
  repeat (apply covers_etry; [first [assumption|now apply covers_exact]|]). exact F.
Qed.
Lemma WExt_takes s old : takes (fun c e => covers s c (TransactionExtension_MarshalABI e)) (TransactionExtension_UnmarshalABI old).
Proof.
  eapply takes_bind; [apply W16_takes| |intros; apply takes_error]. intros c a A. cbv beta iota zeta.
  eapply takes_bind; [apply (WBytes_takes s)| |intros; apply takes_error]. intros c' b B.
  apply takes_ret. rewrite app_nil_r. apply covers_etry; [now apply covers_exact|exact B].
Qed.
Lemma all_takes {A} s (w : A -> wr) zero f : takes (fun c x => covers s c (w x)) (f zero) ->
  forall n, takes (fun c l => length l = n /\ forall k ck, covers s ck k -> covers s (c ++ ck) (write_all w l k)) (read_all zero f n).
Proof.
  intros F n. induction n as [|n IH]; cbn [read_all]; [apply takes_ret; split; [reflexivity|auto]|].
  eapply takes_bind; [exact F| |intros; apply takes_error]. intros c x X. cbv beta iota.
  eapply takes_bind; [apply IH| |intros; apply takes_error]. intros c' xs (L & K). apply takes_ret. rewrite app_nil_r.
  split; [cbn; lia|]. intros k ck Hk. rewrite <- app_assoc. cbn [write_all]. apply covers_etry; [exact X|]. now apply K.
Qed.
Lemma slice_takes {A} s (w : A -> wr) size zero f old : takes (fun c x => covers s c (w x)) (f zero) ->
  takes (fun c l => forall k ck, covers s ck k -> covers s (c ++ ck) (etry (WriteVaruint (zlen l)) (write_all w l k))) (read_slice size zero f old).
Proof.
  intros F. eapply takes_bind; [apply Varuint_takes| |intros; apply takes_error]. intros pre l (W & -> & B).
  cbv beta iota. destruct (make_ok size (leb_value pre)); [|apply takes_panic].
  eapply takes_weaken; [apply (all_takes s w); exact F|]. intros c l (L & K) k ck Hk. rewrite <- app_assoc.
  apply covers_etry; [apply count_covers; [exact W|exact B|unfold zlen; now rewrite L]|]. now apply K.
Qed.
Lemma WTransaction_takes s old : takes (fun c t => covers s c (Transaction_MarshalABI t)) (Transaction_UnmarshalABI old).
Proof.
  eapply takes_bind; [apply (WHeader_takes s)| |intros; apply takes_error]. intros c1 h H. cbv beta iota zeta.
  eapply takes_bind; [apply (slice_takes s Action_MarshalABI); now apply WAction_takes| |intros; apply takes_error].
  intros c2 a A. cbv beta iota zeta.
  eapply takes_bind; [apply (slice_takes s Action_MarshalABI); now apply WAction_takes| |intros; apply takes_error].
  intros c3 b B. cbv beta iota zeta.
  eapply takes_bind; [apply (slice_takes s TransactionExtension_MarshalABI); now apply WExt_takes| |intros; apply takes_error].
  intros c4 c C. apply takes_ret. apply covers_etry; [exact H|]. cbn [ContextFreeActions Actions Extensions].
  apply A. apply B. apply C. apply covers_nil.
Qed.
Lemma put_len_takes {A} pre (f : list byte -> io A) Q :
  (forall b, canon true pre b -> takes Q (f b)) -> leb_wf pre -> takes Q (put_len (leb_value pre) f).
Proof.
  intros H W. unfold put_len. pose proof (leb_value_nonneg pre) as P.
  destruct (PutUvarint 5 (leb_value pre)) as [b|] eqn:E; [|apply takes_panic]. apply H.
  destruct (Z.lt_ge_cases (leb_value pre) (128 ^ Z.of_nat 5)) as [L|L]; [|rewrite PutUvarint_none in E by exact L; discriminate].
  destruct (PutUvarint_some 5 (leb_value pre) (conj P L) ltac:(congruence)) as (b' & E' & M & V & _).
  rewrite E in E'. injection E' as <-. split; [apply leb_shorter; [exact M|exact W|lia]|]. intros _ X. now apply leb_same_length.
Qed.
Lemma covers_key s c0 c t d : c0 = [bz t] -> canon s c d -> covers s (c0 ++ c) (Key_MarshalABI {| KType := t; KData := d |}).
Proof.
  intros -> H. unfold Key_MarshalABI. cbn [KType KData]. apply covers_etry; [apply covers_exact, writes_byte|].
  intros bs W. now rewrite (writes_det _ _ _ W (writes_bytes _)).
Qed.
Lemma WPublicKey_takes s old : takes (fun c k => covers s c (Key_MarshalABI k)) (PublicKey_UnmarshalABI old).
Proof.
  eapply takes_dtry; [apply Byte_takes|]. intros c0 t [E T].
  destruct ((t =? K1) || (t =? P1)).
  { eapply takes_bind; [apply Bytes_takes| |intros [? ?] ?; apply takes_error].
    intros c [n b] [B _]. cbn [snd] in B. subst b. apply takes_ret. rewrite app_nil_r. apply covers_key; [exact E|apply canon_refl]. }
  destruct (t =? WA); [|apply takes_error]. cbv zeta.
  eapply takes_dtry; [apply Bytes_takes|]. intros c1 [n d] [D _]. cbn [snd] in D. subst d.
  eapply takes_dtry; [apply Varuint_takes|]. intros pre l (W & -> & B).
  eapply takes_dtry; [apply Bytes_takes|]. intros c2 [m d] [D _]. cbn [snd] in D. subst d.
  apply put_len_takes; [|exact W]. intros b C. apply takes_ret. rewrite app_nil_r. apply covers_key; [exact E|].
  apply canon_app; [apply canon_refl|]. apply canon_app; [|apply canon_refl]. eapply canon_weaken; [exact C|auto].
Qed.
Lemma WSignature_takes s old : takes (fun c k => covers s c (Key_MarshalABI k)) (Signature_UnmarshalABI old).
Proof.
  eapply takes_dtry; [apply Byte_takes|]. intros c0 t [E T].
  destruct ((t =? K1) || (t =? P1)).
  { eapply takes_bind; [apply Bytes_takes| |intros [? ?] ?; apply takes_error].
    intros c [n b] [B _]. cbn [snd] in B. subst b. apply takes_ret. rewrite app_nil_r. apply covers_key; [exact E|apply canon_refl]. }
  destruct (t =? WA); [|apply takes_error]. cbv zeta.
  eapply takes_dtry; [apply Bytes_takes|]. intros c1 [n d] [D _]. cbn [snd] in D. subst d.
  eapply takes_dtry; [apply Varuint_takes|]. intros pre l (W & -> & B).
  eapply takes_dtry; [apply Bytes_takes|]. intros c2 [m d] [D _]. cbn [snd] in D. subst d.
  eapply takes_dtry; [apply Varuint_takes|]. intros pre' l' (W' & -> & B').
  eapply takes_dtry; [apply Bytes_takes|]. intros c3 [m' d] [D _]. cbn [snd] in D. subst d.
  apply put_len_takes; [|exact W]. intros b C. apply put_len_takes; [|exact W']. intros b' C'.
  apply takes_ret. rewrite app_nil_r. apply covers_key; [exact E|].
  apply canon_app; [apply canon_refl|]. apply canon_app; [eapply canon_weaken; [exact C|auto]|]. apply canon_app; [apply canon_refl|].
  apply canon_app; [eapply canon_weaken; [exact C'|auto]|apply canon_refl].
Qed.

(** ** Leaves *)
Lemma prim_takes s old : unused_leaf old -> (s = true -> kind_of old <> KBool) ->
  takes (fun c p => kind_of p = kind_of old /\ covers s c (write_prim p)) (read_prim old).
Proof.
  intros U NB. destruct old; cbn [read_prim unused_leaf kind_of] in *;
    (eapply takes_wrap;
      [first [ apply (WString_takes s) | apply W8_takes | apply W16_takes | apply W32_takes | apply W64_takes
      | apply WI8_takes | apply WI16_takes | apply WI32_takes | apply WI64_takes | apply WF32_takes | apply WF64_takes
      | apply (WVarint_takes s) | apply (WVaruint_takes s) | apply (WGoBytes_takes s) | now apply (WAction_takes s) | apply WAsset_takes
      | apply (WBytes_takes s) | apply takes_keep, W32_takes | apply takes_keep, W64_takes
      | apply takes_keep, WI64_takes | apply WFixed_takes
      | apply WU128_takes | apply WPermission_takes | apply (WPublicKey_takes s) | apply (WSignature_takes s)
      | apply (WTransaction_takes s) | apply (WExt_takes s) | apply (WHeader_takes s) | apply WExtendedAsset_takes
      | apply Bool_takes ]|]);
    intros cc xx Ha; (split; [reflexivity|]); cbn [write_prim]; try exact Ha; try (apply covers_exact; exact Ha).
  eapply covers_weaken; [exact Ha|]. intros S. now specialize (NB S).
Qed.

(** ** Types *)
Definition tidy_here (s : bool) (E : types) (t : gtype) : Prop :=
  match head E t with
  | TLeaf k => s = true -> k <> KBool
  | TArray _ t => direct t = true
  | TMap _ _ => s = false
  | TStruct fs => Forall (fun '(tg, vis, t) => (tg = NoTag \/ (tg = Optional /\ s = false)) /\ vis = Exported /\ direct t = true) fs
  | TUser i u => by_value u = true /\ method_reencodes (canon s) E i u
  | TOther | TName _ => False
  | _ => True
  end.
Definition tidy (s : bool) (E : types) (t : gtype) : Prop := forall pl pl' t', within E (pl, t) (pl', t') -> tidy_here s E t'.
Lemma tidy_self s E t : tidy s E t -> tidy_here s E t.
Proof. intros H. apply (H Slot Slot). constructor. Qed.
Lemma tidy_part s E pl t pl' t' : tidy s E t -> part E (pl, t) (pl', t') -> tidy s E t'.
Proof.
  intros H P pl0 pl1 t1 W. destruct (within_place _ _ _ W pl') as [pl2 W2]. apply (H pl pl2). eapply wi_part; eassumption.
Qed.
Definition tidy_fields (s : bool) (E : types) (fs : list (tag * visibility * gtype)) : Prop :=
  Forall (fun '(tg, vis, t) => (tg = NoTag \/ (tg = Optional /\ s = false)) /\ vis = Exported /\ direct t = true /\ tidy s E t) fs.
Lemma tidy_struct s E t fs : head E t = TStruct fs -> tidy s E t -> tidy_fields s E fs.
Proof.
  intros H S. pose proof (tidy_self _ _ _ S) as S0. unfold tidy_here in S0. rewrite H in S0.
  unfold tidy_fields. rewrite Forall_forall in *. intros [[tg vis] t'] I. specialize (S0 _ I).
  cbv beta iota in S0 |- *. destruct S0 as (A & B & C). repeat split; try assumption.
  eapply (tidy_part _ _ Slot); [exact S|]. eapply pt_field; eassumption.
Qed.
Lemma tidy_fields_cons s E tg vis t fs : tidy_fields s E ((tg, vis, t) :: fs) ->
  (tg = NoTag \/ (tg = Optional /\ s = false)) /\ vis = Exported /\ direct t = true /\ tidy s E t /\ tidy_fields s E fs.
Proof. intros H. inversion H as [|x y A B]; subst. cbv beta iota in A. tauto. Qed.
Lemma direct_is_head E t : direct t = true -> head E t = t.
Proof. destruct t; try reflexivity. discriminate. Qed.
Lemma unused_zero k : unused_leaf (zero_prim k).
Proof. destruct k; exact I || reflexivity. Qed.
Lemma is_zero_of_value : forall t, by_value t = true -> is_zero (zero_of t) = true.
Proof.
  fix IH 1. intros t B. destruct t as [k|k| |t|t|n t|kt vt|fs|i u|i]; try reflexivity.
  - cbn [by_value] in B. specialize (IH t B). cbn [zero_of is_zero]. clear -IH.
    induction n as [|n IHn]; cbn [repeat]; [reflexivity|]. now rewrite IH.
  - cbn [by_value] in B. cbn [zero_of is_zero]. revert fs B. fix IHf 1. intros [|[[tg vis] t] fs] B; [reflexivity|].
    apply andb_prop in B as [B1 B2]. rewrite (IH t B1). exact (IHf fs B2).
  - exact (IH u B).
Qed.
Lemma tidy_zero s E : forall t t0, head E t0 = t -> tidy s E t0 ->
  has_type E unused_leaf t0 (zero_of t) /\ is_zero (zero_of t) = true.
Proof.
  fix IH 1. intros t t0 H O. pose proof (tidy_self _ _ _ O) as O0. unfold tidy_here in O0.
  rewrite H in O0. destruct t as [k|k| |t|t|n t|kt vt|fs|i u|i]; cbn [zero_of].
  - split; [|reflexivity]. eapply ht_leaf; [exact H|apply zero_kind|apply zero_flags|apply unused_zero].
  - split; [|reflexivity]. eapply ht_int; [exact H|]. clear. destruct k; cbn; unfold in_u, in_i; lia.
  - elim O0.
  - split; [now apply (ht_nil _ _ _ t)|reflexivity].
  - split; [now apply (ht_nil_slice _ _ _ t)|reflexivity].
  - destruct (IH t t) as (A & B).
    { now apply direct_is_head. }
    { eapply (tidy_part _ _ Slot); [exact O|]. eapply pt_array; exact H. }
    split; [|clear - B; cbn [is_zero]; induction n; cbn [repeat]; [reflexivity|now rewrite B]].
    apply (ht_array _ _ _ t n); [exact H| |now rewrite repeat_length]. now apply repeat_typed.
  - split; [now apply (ht_nil_map _ _ _ kt vt)|reflexivity].
  - apply (tidy_struct _ _ _ _ H) in O.
    assert (G : have_field_types E unused_leaf fs (map (fun fd : tag * visibility * gtype => zero_of (snd fd)) fs)
      /\ is_zero (RStruct (map (fun fd : tag * visibility * gtype => zero_of (snd fd)) fs)) = true).
    { clear H O0 t0. induction fs as [|[[tg vis] t] fs IHfs]; [split; [constructor|reflexivity]|].
      apply tidy_fields_cons in O as (V & X & D & O1 & O2).
      destruct (IH t t (direct_is_head _ _ D) O1) as (A1 & A2). destruct (IHfs O2) as (B1 & B2).
      cbn [map snd]. split; [now constructor|]. cbn [is_zero] in *. now rewrite A2. }
    change (RStruct _) with (zero_of (TStruct fs)). rewrite zero_struct. destruct G as (G1 & G2). split; [|exact G2].
    now apply (ht_struct _ _ _ fs).
  - destruct O0 as [B _]. split; [|now apply is_zero_of_value].
    eapply ht_user; [exact H|]. apply zero_by_value_typed; [exact unused_zero|exact B].
  - elim O0.
Qed.
Lemma tidy_zero_typed s E t : tidy s E t -> has_type E unused_leaf t (zero E t).
Proof. intros O. unfold zero. now apply (tidy_zero s E). Qed.

(** ** Decode *)
Definition good (s : bool) (E : types) (t : gtype) (c : list byte) (v : rval) : Prop :=
  leaf_shaped E t v /\ covers s c (Encode E t v).
Definition reencodes (s : bool) (E : types) (f : gtype -> rval -> io rval) : Prop :=
  forall t v, tidy s E t -> has_type E unused_leaf t v -> takes (good s E t) (f t v).
Lemma unleafed E t v : (forall k, head E t <> TLeaf k) -> (forall i u, head E t <> TUser i u) -> leaf_shaped E t v.
Proof. intros A B. split; intros; exfalso; [eapply A|eapply B]; eassumption. Qed.
Lemma through_reencodes s E f : reencodes s E f -> reencodes s E (through E f).
Proof.
  intros Hf t v S V. unfold through.
  destruct (head E t) as [| | |t'| | | | | |] eqn:H; try (now apply Hf).
  assert (S' : tidy s E t') by (eapply (tidy_part _ _ Slot); [exact S|]; eapply pt_ptr; exact H).
  assert (G : forall x, has_type E unused_leaf t' x -> takes (good s E t) ('(x, err) <-- f t' x ;; DRet (RPtr (Some x), err))).
  { intros x X. eapply takes_map; [apply Hf; [exact S'|exact X]|]. intros c a [LS C]. split.
    - apply unleafed; intros; rewrite H; discriminate.
    - eapply covers_eq; [apply (Encode_ptr _ _ _ _ H LS)|exact C]. }
  inversion V as [| | |? t1 H1|? t1 y H1 Y| | | | | | |]; subst; try (now apply Hf);
    rewrite H in H1; injection H1 as <-; apply G; [|exact Y]. now apply (tidy_zero_typed s).
Qed.
Lemma elems_takes s E t f : (forall v, has_type E unused_leaf t v -> takes (good s E t) (f v)) ->
  forall l, have_type E unused_leaf t l ->
  takes (fun c l' => covers s c (put_list (Encode E t) l') /\ length l' = length l /\ Forall (leaf_shaped E t) l') (get_elems f l).
Proof.
  intros Hf l. induction l as [|v l IH]; intros L; cbn [get_elems]; [apply takes_ret; split; [apply covers_nil|split; constructor]|].
  inversion L; subst. eapply takes_bind; [now apply Hf| |intros; apply takes_error]. intros c a [LS A]. cbv beta iota.
  eapply takes_bind; [now apply IH| |intros; apply takes_error]. intros c' l' (L' & N & F).
  apply takes_ret. rewrite app_nil_r. split; [now apply covers_etry|]. split; [cbn; now rewrite N|now constructor].
Qed.
Lemma get_slice_takes s E t size z f o :
  (forall v, has_type E unused_leaf t v -> takes (good s E t) (f v)) -> has_type E unused_leaf t z ->
  match o with None => True | Some l => have_type E unused_leaf t l end ->
  takes (fun c o => covers s c (etry (WriteVaruint (zlen (elems o))) (put_list (Encode E t) (elems o))) /\ Forall (leaf_shaped E t) (elems o))
    (get_slice size z f o).
Proof.
  intros Hf Hz Ho. eapply takes_bind; [apply Varuint_takes| |intros; apply takes_error]. intros pre l (W & -> & B). cbv beta iota.
  destruct (_ =? _) eqn:EQ.
  - destruct o as [cur|].
    + eapply (takes_map _ _ _ (fun xs _ => Some xs)); [apply (elems_takes s E t f Hf _ Ho)|].
      intros c xs (X & N & F). cbn [elems]. split; [|exact F]. apply covers_etry; [|exact X]. apply count_covers; [exact W|exact B|].
      unfold zlen in *. rewrite N. lia.
    + apply takes_ret. cbn [elems]. split; [|constructor]. apply covers_etry; [|apply covers_nil]. apply count_covers; [exact W|exact B|].
      change (zlen (@nil rval)) with 0 in *. lia.
  - destruct (make_ok size (i64 (leb_value pre))) eqn:M; [|apply takes_panic].
    eapply (takes_map _ _ _ (fun xs _ => Some xs)); [apply (elems_takes s E t f Hf); now apply repeat_typed|].
    intros c xs (X & N & F). cbn [elems]. split; [|exact F]. apply covers_etry; [|exact X]. apply count_covers; [exact W|exact B|].
    rewrite repeat_length in N. unfold zlen. lia.
Qed.
(** Entries of a map, each with the bytes spent on it. *)
Definition within_budget (E : types) (kt vt : gtype) (e : rval * rval) (n : Z) : Prop :=
  0 <= n /\ forall bk bx, writes (Encode E kt (fst e)) bk -> writes (Encode E vt (snd e)) bx -> zlen bk + zlen bx <= n.
Definition budget (ns : list Z) : Z := fold_right Z.add 0 ns.
Lemma map_set_budget E kt vt k x m ns n : Forall2 (within_budget E kt vt) m ns -> within_budget E kt vt (k, x) n ->
  exists ns', Forall2 (within_budget E kt vt) (map_set k x m) ns' /\ budget ns' <= budget ns + n /\ (length (map_set k x m) <= S (length m))%nat.
Proof.
  intros F N. induction F as [|[k' x'] n' m ns H F IH]; cbn [map_set].
  - exists [n]. split; [repeat constructor; apply N|]. split; [cbn; lia|cbn; lia].
  - destruct (rval_dec k k') as [->|NE].
    + exists (n :: ns). split; [now constructor|]. pose proof (proj1 H). split; [cbn; lia|cbn; lia].
    + destruct IH as (ns' & F' & B & L). exists (n' :: ns'). split; [now constructor|]. unfold budget in *. cbn [fold_right length]. split; lia.
Qed.
Lemma get_pairs_takes E kt vt fk fv : takes (good false E kt) fk -> takes (good false E vt) fv ->
  forall n m ns, Forall2 (within_budget E kt vt) m ns ->
  takes (fun c m' => (length m' <= n + length m)%nat /\ exists ns', Forall2 (within_budget E kt vt) m' ns' /\ budget ns' <= budget ns + zlen c)
    (get_pairs fk fv n m).
Proof.
  intros Hk Hv. induction n as [|n IH]; intros m ns M; cbn [get_pairs].
  { apply takes_ret. split; [lia|]. exists ns. split; [exact M|]. change (zlen (@nil byte)) with 0. lia. }
  eapply takes_bind; [exact Hk| |intros; apply takes_error]. intros c1 k [_ K]. cbv beta iota.
  eapply takes_bind; [exact Hv| |intros; apply takes_error]. intros c2 x [_ X]. cbv beta iota.
  destruct (map_set_budget E kt vt k x m ns (zlen c1 + zlen c2) M) as (ns' & M' & B & L).
  { pose proof (zlen_nonneg c1). pose proof (zlen_nonneg c2). split; [lia|]. intros bk bx Wk Wx. cbn [fst snd] in *.
    apply K in Wk as [Wk _]. apply X in Wx as [Wx _]. lia. }
  eapply takes_weaken; [apply (IH _ _ M')|]. intros c3 m' (L' & ns2 & F2 & B2). split; [lia|].
  exists ns2. split; [exact F2|]. rewrite !zlen_app. lia.
Qed.
Lemma budget_covers E kt vt m ns c : Forall2 (within_budget E kt vt) m ns -> budget ns <= zlen c ->
  covers false c (put_pairs (Encode E kt) (Encode E vt) m).
Proof.
  intros F B bs W. split; [|discriminate]. enough (zlen bs <= budget ns) by lia. clear c B. revert bs W.
  induction F as [|[k x] n m ns H F IH]; intros bs W; cbn [put_pairs] in W.
  - rewrite (writes_det _ _ _ W writes_ret). cbn. lia.
  - apply writes_split in W as (b1 & b2 & -> & W1 & W). apply writes_split in W as (b3 & b4 & -> & W3 & W4).
    apply IH in W4. pose proof (proj2 H _ _ W1 W3). rewrite !zlen_app. cbn. fold (budget ns). lia.
Qed.
Lemma get_map_takes E kt vt fk fv o : takes (good false E kt) fk -> takes (good false E vt) fv ->
  takes (fun c o => covers false c (etry (WriteVaruint (zlen (elems o))) (put_pairs (Encode E kt) (Encode E vt) (elems o)))) (get_map fk fv o).
Proof.
  intros Hk Hv. eapply takes_bind; [apply Varuint_takes| |intros; apply takes_error]. intros pre l (W & -> & B). cbv beta iota.
  eapply (takes_map _ _ _ (fun m _ => Some m)); [apply (get_pairs_takes E kt vt fk fv Hk Hv _ [] []); constructor|].
  intros c m (L & ns & F & N). cbn [elems]. apply covers_etry.
  - apply varuint_covers_less; [exact W|]. pose proof (leb_value_nonneg pre). cbn [length] in L. unfold zlen, i64 in *. lia.
  - eapply budget_covers; [exact F|]. cbn in N. lia.
Qed.
Lemma fields_takes s E f g : reencodes s E f -> forall fs l, tidy_fields s E fs -> have_field_types E unused_leaf fs l ->
  takes (fun c l' => covers s c (put_fields E chain_encoder fs l')) (get_fields E f g fs l).
Proof.
  intros Hf. induction fs as [|[[tg vis] t] fs IH]; intros l S L; inversion L; subst; cbn [get_fields].
  { apply takes_ret. apply covers_nil. }
  apply tidy_fields_cons in S as (TG & -> & D & S1 & S2).
  pose proof (through_reencodes s E f Hf t v S1 ltac:(assumption)) as T. pose proof (direct_is_head E t D) as DH.
  destruct TG as [-> | [-> ->]]; cbn [get_field].
  - eapply takes_bind; [exact T| |intros; apply takes_error]. intros c a [_ A]. cbv beta iota.
    eapply takes_bind; [apply IH; assumption| |intros; apply takes_error]. intros c' l' L'.
    apply takes_ret. rewrite app_nil_r, put_plain by discriminate. now apply covers_etry.
  - assert (F : takes (fun c x => forall l' c', covers false c' (put_fields E chain_encoder fs l') ->
       covers false (c ++ c') (put_fields E chain_encoder ((Optional, Exported, t) :: fs) (x :: l')))
       ('(b, err) <-- ReadBool ;;
        match err with
        | Some e => DRet (allocated E t v, Some e)
        | None => if (b : bool) then through E f t v else DRet (zero E t, None)
        end)).
    { assert (Z0 : forall q c', covers false c' q -> forall b c0, zlen c0 = 1 -> covers false (c0 ++ c') (ebind (WriteBool b) (fun _ => q))).
      { intros q c' Q b c0 L0 bs W.
        assert (W' : exists b2, zlen bs = 1 + zlen b2 /\ writes q b2).
        { destruct b; cbn [WriteBool] in W; apply (writes_then _ _ _) in W as (b2 & -> & W2);
            exists b2; rewrite zlen_app; split; [reflexivity|exact W2|reflexivity|exact W2]. }
        destruct W' as (b2 & LB & W2). split; [|discriminate]. apply Q in W2 as [W2 _]. rewrite zlen_app. lia. }
      eapply takes_bind; [apply (takes_map (fun c a => c = [bz a] /\ 0 <= a < 256) (fun c _ => zlen c = 1) ReadByte (fun b _ => negb (b =? 0))); [apply Byte_takes|]| |intros; apply takes_error].
      { intros c a [-> _]. reflexivity. }
      intros c0 b C0. cbv beta iota. destruct b.
      - eapply takes_weaken; [exact T|]. intros c x [_ X] l' c' L'. rewrite <- app_assoc. destruct (is_zero x) eqn:Zx.
        + rewrite put_absent by exact Zx. apply Z0; [|exact C0]. intros bs W. split; [|discriminate].
          apply L' in W as [W _]. rewrite zlen_app. pose proof (zlen_nonneg c). lia.
        + rewrite put_present by exact Zx. apply Z0; [|exact C0]. now apply covers_etry.
      - apply takes_ret. intros l' c' L'. rewrite app_nil_r. rewrite put_absent.
        + now apply Z0.
        + unfold zero. exact (proj2 (tidy_zero false E (head E t) t eq_refl S1)). }
    eapply takes_bind; [exact F| |intros; apply takes_error]. intros c a A. cbv beta iota.
    eapply takes_bind; [apply IH; assumption| |intros; apply takes_error]. intros c' l' L'.
    apply takes_ret. rewrite app_nil_r. now apply A.
Qed.
Lemma leaf_read_takes s E t k p z : head E t = TLeaf k -> tidy s E t -> has_type E unused_leaf t (RLeaf p z) -> takes (good s E t) (leaf_read p).
Proof.
  intros H S V. pose proof (tidy_self _ _ _ S) as S0. unfold tidy_here in S0. rewrite H in S0.
  inversion V; subst. assert (kind_of p = k) by congruence. subst k.
  eapply (takes_map _ _ _ (fun q _ => RLeaf q (leaf_zero q))); [apply prim_takes; eassumption|].
  intros c q [K Q]. split.
  - split; [|intros i u HU; congruence]. intros k Hk. exists q, (leaf_zero q). split; [reflexivity|congruence].
  - eapply covers_eq; [apply (Encode_leaf _ _ _ _ _ H K)|exact Q].
Qed.
(** The elements of a byte slice. *)
Lemma tidy_byte s E : tidy s E (TLeaf KU8).
Proof.
  intros pl pl' t' W. remember (pl, TLeaf KU8) as a eqn:EA. remember (pl', t') as b0 eqn:EB0. revert pl EA.
  induction W as [a|a b c P W IH]; intros pl EA; subst.
  - injection EA as -> ->. intros _. discriminate.
  - inversion P; subst; cbn [head] in *; discriminate.
Qed.
Lemma bytes_written E l : Forall (leaf_shaped E (TLeaf KU8)) l -> writes (put_list (Encode E (TLeaf KU8)) l) (map elem_byte l).
Proof.
  induction 1 as [|v l [LS _] F IH]; cbn [put_list map]; [apply writes_ret|].
  destruct (LS KU8 eq_refl) as (p & z & -> & K). destruct p; try discriminate K.
  change (?x :: ?l) with ([x] ++ l). apply writes_etry; [|exact IH].
  eapply writes_eq; [apply (Encode_leaf E (TLeaf KU8) KU8); reflexivity|]. cbn [write_prim elem_byte]. apply writes_byte.
Qed.
Lemma decode_reencodes s E : forall fuel m, m = Whole \/ m = Deref -> reencodes s E (decode fuel E chain_decoder m).
Proof.
  induction fuel as [|fuel IH]; intros m M t v S V; [apply takes_fuel|].
  pose proof (IH Whole (or_introl eq_refl)) as IW. pose proof (IH Deref (or_intror eq_refl)) as ID.
  destruct M as [-> | ->]; cbn [decode].
  - destruct v as [p z| | | | | | | |]; try (destruct (head E t) eqn:H; exact (ID t _ S V)).
    inversion V as [? k ? ? H Kp ZF OK| | | | | | | | | | |]; subst. rewrite H. cbn [chain_decoder].
    pose proof (leaf_read_takes _ _ _ _ _ _ H S V) as LR. destruct (table_kind (kind_of p)).
    + intros env inp w rest R. rewrite !run_dbind in R.
      destruct (run env (leaf_read p) inp) as [[x e] r|m|] eqn:E1; try discriminate. cbn [run] in R.
      injection R as <- -> <-. eapply LR; eassumption.
    + cbn [dbind]. destruct (go_kind (kind_of p)); [exact LR|]. exact (ID t _ S V).
  - pose proof (tidy_self _ _ _ S) as S0. unfold tidy_here in S0.
    inversion V as [? k p z H Kp ZF OK|? k x H R|? z H|? t' H|? t' x H X|? t' H|? t' l H HL MK|? t' n l H HL N|? kt vt H|? kt vt m H CK HM ND|? fs l H HF|? i u x H X];
      subst; rewrite H in *.
    + pose proof (leaf_read_takes _ _ _ _ _ _ H S V) as LR. destruct (go_kind (kind_of p)); [|exact LR].
      assert (NR : takes (good s E t) ('(v0, err) <-- leaf_read p ;; DRet (match err with Some _ => RLeaf p z | None => v0 end, err))).
      { eapply takes_bind; [exact LR| |intros; apply takes_error]. intros c a A. apply takes_ret. now rewrite app_nil_r. }
      destruct p; try exact NR; try apply takes_error.
      eapply (takes_map _ _ _ (fun o _ => byte_slice o)); [apply (get_slice_takes s E (TLeaf KU8))|].
      * intros x X. apply IW; [apply tidy_byte|exact X].
      * apply (tidy_zero s E (TLeaf KU8) (TLeaf KU8) eq_refl (tidy_byte s E)).
      * destruct z; [exact I|]. clear. unfold byte_elems. induction b as [|x b IHb]; cbn [map]; constructor; [|exact IHb].
        eapply ht_leaf; try reflexivity; try exact I. split; [|reflexivity]. cbn. intros Z. f_equal. lia.
      * intros c o [C F].
        assert (EX : exists z', byte_slice o = RLeaf (PGoBytes (map elem_byte (elems o))) z').
        { destruct o; eexists; reflexivity. }
        destruct EX as [z' ->]. split.
        { split; [|intros i u HU; congruence]. intros k Hk. rewrite H in Hk. injection Hk as <-. eexists _, _. split; reflexivity. }
        eapply covers_eq; [apply (Encode_leaf _ _ _ _ _ H); reflexivity|].
        intros bs W. apply C. apply writes_split in W as (b1 & b2 & -> & W1 & W2).
        apply writes_etry.
        { unfold zlen in W1 |- *. now rewrite map_length in W1. }
        { rewrite (writes_det _ _ _ W2 (writes_bytes _)). now apply bytes_written. }
    + eapply (takes_map (fun c a => writes (write_int k a) c) _ _ (fun x _ => RInt x)); [apply takes_keep; destruct k|].
      * apply W64_takes.
      * apply W32_takes.
      * apply WI64_takes.
      * apply WI32_takes.
      * intros c a A. split; [apply unleafed; intros; rewrite H; discriminate|]. rewrite (Encode_int _ _ _ _ H). now apply covers_exact.
    + elim S0.
    + now apply through_reencodes.
    + now apply through_reencodes.
    + assert (S' : tidy s E t') by (eapply (tidy_part _ _ Slot); [exact S|]; eapply pt_slice; exact H).
      eapply (takes_map _ _ _ (fun o _ => RSlice o)); [apply (get_slice_takes s E t')|].
      * intros x X. now apply through_reencodes.
      * now apply (tidy_zero_typed s).
      * exact I.
      * intros c o [O _]. split; [apply unleafed; intros; rewrite H; discriminate|]. now rewrite (Encode_slice _ _ _ _ H).
    + assert (S' : tidy s E t') by (eapply (tidy_part _ _ Slot); [exact S|]; eapply pt_slice; exact H).
      eapply (takes_map _ _ _ (fun o _ => RSlice o)); [apply (get_slice_takes s E t')|].
      * intros x X. now apply through_reencodes.
      * now apply (tidy_zero_typed s).
      * exact HL.
      * intros c o [O _]. split; [apply unleafed; intros; rewrite H; discriminate|]. now rewrite (Encode_slice _ _ _ _ H).
    + assert (S' : tidy s E t') by (eapply (tidy_part _ _ Slot); [exact S|]; eapply pt_array; exact H).
      eapply (takes_map _ _ _ (fun o _ => RArray o)); [apply (elems_takes s E t'); [|exact HL]|].
      * intros x X. now apply through_reencodes.
      * intros c o [O _]. split; [apply unleafed; intros; rewrite H; discriminate|]. now rewrite (Encode_array _ _ _ _ _ H).
    + subst s. assert (S1 : tidy false E kt) by (eapply (tidy_part _ _ Slot); [exact S|]; eapply pt_key; exact H).
      assert (S2 : tidy false E vt) by (eapply (tidy_part _ _ Slot); [exact S|]; eapply pt_value; exact H).
      eapply (takes_map _ _ _ (fun o _ => RMap o)); [apply (get_map_takes E kt vt); apply IW; try assumption; now apply (tidy_zero_typed false)|].
      intros c o O. split; [apply unleafed; intros; rewrite H; discriminate|]. now rewrite (Encode_map _ _ _ _ _ H).
    + subst s. assert (S1 : tidy false E kt) by (eapply (tidy_part _ _ Slot); [exact S|]; eapply pt_key; exact H).
      assert (S2 : tidy false E vt) by (eapply (tidy_part _ _ Slot); [exact S|]; eapply pt_value; exact H).
      eapply (takes_map _ _ _ (fun o _ => RMap o)); [apply (get_map_takes E kt vt); apply IW; try assumption; now apply (tidy_zero_typed false)|].
      intros c o O. split; [apply unleafed; intros; rewrite H; discriminate|]. now rewrite (Encode_map _ _ _ _ _ H).
    + eapply (takes_map _ _ _ (fun o _ => RStruct o)); [apply fields_takes; [exact IW|eapply tidy_struct; eassumption|exact HF]|].
      intros c o O. split; [apply unleafed; intros; rewrite H; discriminate|]. now rewrite (Encode_struct _ _ _ _ H).
    + eapply (takes_map (fun c a => covers s c (marshals E i a)) _ _ (fun o _ => RUser o)).
      * intros env inp w rest R. eapply (proj2 S0); eassumption.
      * intros c o O. split; [|now rewrite (Encode_user _ _ _ _ _ H)].
        split; [intros; congruence|]. intros; eauto.
Qed.

(** ** From the types users write *)
Lemma canon_no_longer c bs : canon false c bs <-> no_longer c bs.
Proof. unfold canon, no_longer. split; [tauto|]. split; [assumption|discriminate]. Qed.
Lemma canon_shortest c bs : canon true c bs <-> shortest c bs.
Proof. unfold canon, shortest. tauto. Qed.
Lemma supported_tidy s E t : supported E t -> no_extensions E t -> methods_within (method_reencodes (canon s) E) E t ->
  (s = true -> rigid E t) -> tidy s E t.
Proof.
  intros S X M R pl pl' t' W. destruct (within_place _ _ _ W Target) as [pl0 W0]. cbn [snd] in W0. specialize (S _ _ W0).
  unfold tidy_here, supported_here in *. destruct (head E t') eqn:H; auto.
  - intros ->. specialize (R eq_refl); unfold rigid in R; specialize (R _ _ W0). now rewrite H in R.
  - destruct s; [|reflexivity]. specialize (R eq_refl); unfold rigid in R; specialize (R _ _ W0). now rewrite H in R.
  - rewrite Forall_forall in *. intros [[tg vis] u] I. specialize (S _ I). cbv beta iota in S |- *. destruct S as (V & Y & D).
    split; [|now split]. pose proof (X _ _ _ _ _ _ W0 H I) as NX. destruct tg; try congruence; [now left|].
    right. split; [reflexivity|]. destruct s; [|reflexivity]. specialize (R eq_refl); unfold rigid in R; specialize (R _ _ W0). rewrite H in R.
    rewrite Forall_forall in R. now specialize (R _ I).
  - split; [apply S|]. eapply M; eassumption.
Qed.
Lemma methods_reencode R R' E t : (forall c bs, R c bs <-> R' c bs) -> methods_within (method_reencodes R E) E t -> methods_within (method_reencodes R' E) E t.
Proof.
  intros HR M pl t' i u W H old env inp v rest T D. destruct (M _ _ _ _ W H _ _ _ _ _ T D) as (c & EQ & A). exists c. split; [exact EQ|].
  intros bs B. apply HR. auto.
Qed.
