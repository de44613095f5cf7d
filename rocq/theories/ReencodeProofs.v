(** The dynamic codec: encoding again what was decoded. *)
From Verif Require Import Base Prog GoVarint AbiPrim BaseProofs SpecWire ProgProofs AbiPrimProofs Chain SpecChain ChainProofs
  Values Leaf SpecLeaf LeafProofs SpecCanonical CanonicalProofs SpecDecoded DecodedProofs
  AbiDyn SpecAbi AbiResolveProofs AbiCodecProofs AbiTermProofs AbiStrictProofs AbiApiProofs SpecReencode.

(** ** Every successful decoding consumes something *)
Definition eats {A} (p : io A) : Prop := takes (fun c _ => c <> []) p.
Lemma eats_first {A B} (p : io A) (f : A * option gerr -> io B) :
  eats p -> (forall a, takes (fun _ _ => True) (f (a, None))) -> (forall a e, takes (fun _ _ => False) (f (a, Some e))) -> eats (dbind p f).
Proof.
  intros Hp H1 H2. eapply takes_bind; [exact Hp| |exact H2]. intros c a N. eapply takes_weaken; [apply H1|].
  intros c' b _ E. apply app_eq_nil in E as [E _]. contradiction.
Qed.
Lemma prefix_of {A} env (p : dec A) : forall inp a rest, run env p inp = Done a rest -> exists c, inp = c ++ rest.
Proof.
  induction p as [a|m| |n k IH|k IH]; intros inp b rest R; cbn [run] in R; try discriminate.
  - injection R as <- <-. now exists [].
  - destruct (n <=? zlen inp).
    + apply IH in R as [c E]. exists (firstn (Z.to_nat n) inp ++ c). rewrite <- app_assoc, <- E. now rewrite firstn_skipn.
    + apply IH in R as [c E]. symmetry in E. apply app_eq_nil in E as [-> ->]. exists inp. now rewrite app_nil_r.
  - eapply IH, R.
Qed.
Lemma takes_any {A} (p : io A) : takes (fun _ _ => True) p.
Proof. intros env inp v rest R. apply prefix_of in R as [c E]. now exists c. Qed.
Lemma eats_byte : eats ReadByte.
Proof. eapply takes_weaken; [apply Byte_takes|]. intros c v [-> _]. discriminate. Qed.
Lemma eats_bytes n : 0 < n -> eats (ReadBytes n).
Proof. intros P. eapply takes_weaken; [apply Bytes_takes|]. intros c [m b] [_ L] ->. cbn in L. lia. Qed.
Lemma eats_varuint : eats ReadVaruint.
Proof. eapply takes_weaken; [apply Varuint_takes|]. intros c v (W & _) ->. destruct W. Qed.
Lemma eats_le n (p : io Z) : (0 < n)%nat -> takes (fun c v => c = le_put n v /\ 0 <= v < 256 ^ Z.of_nat n) p -> eats p.
Proof. intros P H. eapply takes_weaken; [exact H|]. intros c v [-> _]. destruct n; [lia|discriminate]. Qed.
Lemma eats_dtry {A B} d (p : io A) (f : A -> io B) : eats p -> eats (dtry d p f).
Proof. intros H. apply eats_first; [exact H| |]; intros; [apply takes_any|apply takes_error]. Qed.
Lemma eats_keep {A} old (p : io A) : eats p -> eats (keep old p).
Proof. apply takes_keep. Qed.
Lemma eats_into {A} (c : A -> prim) p : eats p -> eats (into c p).
Proof. intros H. apply eats_first; [exact H| |]; intros; [apply takes_any|apply takes_error]. Qed.
Lemma eats_varint : eats ReadVarint.
Proof.
  unfold ReadVarint. apply eats_dtry. unfold GoVarint.ReadVarint. apply eats_first; [|intros; apply takes_any|intros; apply takes_error].
  eapply takes_weaken; [apply Uvarint_takes|]. intros c v (W & _) ->. destruct W.
Qed.
Lemma eats_u64 : eats ReadUint64. Proof. exact (eats_le 8 _ ltac:(lia) U64_takes). Qed.
Lemma eats_u32 : eats ReadUint32. Proof. exact (eats_le 4 _ ltac:(lia) U32_takes). Qed.
Lemma eats_u16 : eats ReadUint16. Proof. exact (eats_le 2 _ ltac:(lia) U16_takes). Qed.
Lemma eats_bool : eats ReadBool.
Proof. apply eats_first; [apply eats_byte|intros; apply takes_any|intros; apply takes_error]. Qed.
Ltac eat := first [ apply eats_byte | apply eats_varuint | apply eats_varint | apply eats_u64 | apply eats_u32 | apply eats_u16
  | apply eats_bool | apply eats_bytes; lia | apply eats_dtry; eat | apply eats_keep; eat ].
Lemma eats_builtin b : eats (decodeBuiltin b).
Proof.
  unfold decodeBuiltin. destruct (builtin_of b) as [B|]; [|apply takes_error].
  destruct B; cbv iota; try apply takes_error; apply eats_into; try eat;
    first [ apply eats_first; [eat|intros; apply takes_any|intros; try (destruct a); apply takes_error] | idtac ].
Qed.

(** ** Builtin types *)
Lemma no_writes s c e : covers s c (ERet (Some e)).
Proof. intros bs W. specialize (W []). discriminate W. Qed.
Lemma into_run {A} (c : A -> prim) rd env inp v rest : run env (into c rd) inp = Done (v, None) rest ->
  exists x, v = VPrim (c x) /\ run env rd inp = Done (x, None) rest.
Proof.
  intros R. unfold into in R. rewrite run_dbind in R.
  destruct (run env rd inp) as [[x e] r|m|]; try discriminate. cbn [run] in R. injection R as <- -> ->. eauto.
Qed.
(** Which reader of pkg/abi and pkg/chain decodes a builtin type. *)
Lemma builtin_reader b env inp v rest : run env (decodeBuiltin b) inp = Done (v, None) rest ->
  exists k p, v = VPrim p /\ run env (read_prim (zero_prim k)) inp = Done (p, None) rest
    /\ kind_of (zero_prim k) = k /\ typed_prim (zero_prim k) /\ unused_leaf (zero_prim k)
    /\ (k = KBool -> b = str "bool") /\ forall p, kind_of p = k -> decoded_type p = Some b.
Proof.
  unfold decodeBuiltin. destruct (builtin_of b) as [B|] eqn:EB; [|discriminate]. apply builtin_of_name in EB. subst b.
  destruct B; cbv iota; try discriminate; intros R; apply into_run in R as (x & -> & R).
  all: match goal with |- exists k p, VPrim ?P = _ /\ _ => let f := eval cbv in (kind_of P) in exists f, P end;
    (split; [reflexivity|split; [cbn [zero_prim read_prim]; unfold wrap, keep, Uint64_UnmarshalABI, keep; rewrite ?run_dbind, R; try reflexivity|
      split; [reflexivity|split; [|split; [exact I|split; [discriminate||reflexivity|]]]]]]);
    [|intros p K; destruct p; try discriminate K; reflexivity].
  all: try exact I; try (cbn; unfold in_u, in_i; lia).
  all: try (repeat split; cbn; unfold in_u, in_i; try lia).
Qed.
Lemma builtin_takes s b : (s = true -> b <> str "bool") ->
  takes (fun c v => c <> [] /\ covers s c (encodeBuiltin b v)) (decodeBuiltin b).
Proof.
  intros NB env inp v rest R. destruct (eats_builtin b env inp v rest R) as (c & EQ & NE).
  destruct (builtin_reader _ _ _ _ _ R) as (k & p & -> & R' & K & T & U & KB & DT).
  destruct (prim_takes s (zero_prim k) U) with (env := env) (inp := inp) (v := p) (rest := rest) as (c2 & EQ2 & K2 & C2);
    [intros S Q; rewrite K in Q; exact (NB S (KB Q))|exact R'|].
  rewrite EQ in EQ2. apply app_inv_tail in EQ2. subst c2. exists c. rewrite K in K2. split; [exact EQ|]. split; [exact NE|].
  specialize (DT p K2). destruct p; cbn [decoded_type builtin_type] in DT; try discriminate DT; injection DT as <-; try exact C2; try apply no_writes.
  change (encodeBuiltin (str "uint64") (VPrim (PUint64 v))) with (WriteInt64 (i64 v)).
  unfold WriteInt64. rewrite le_put_wrap; [exact C2|]. cbn [kind_of] in K2. subst k. cbn [zero_prim read_prim] in R'.
  assert (X : takes (fun _ p => match p with PUint64 v => in_u 64 v | _ => True end) (wrap PUint64 (Uint64_UnmarshalABI 0))).
  { eapply takes_wrap; [apply takes_keep, U64_takes|]. intros c0 x [_ H]. exact H. }
  apply X in R' as (_ & _ & H). exact H.
Qed.

(** ** One level *)
Lemma elems_takes s (f : io gval) (g : gval -> wr) : takes (fun c v => c <> [] /\ covers s c (g v)) f -> forall n acc,
  takes (fun c l => exists l', l = acc ++ l' /\ length l' = n /\ zlen l' <= zlen c /\ covers s c (encode_elems g l')) (decode_elems f n acc).
Proof.
  intros H n. induction n as [|n IH]; intros acc; cbn [decode_elems].
  - apply takes_ret. exists []. rewrite app_nil_r. split; [reflexivity|]. split; [reflexivity|]. split; [cbn; lia|apply covers_nil].
  - eapply takes_bind; [exact H| |intros; apply takes_error]. intros c v [N C]. eapply takes_weaken; [apply IH|].
    intros c' l (l' & -> & L & Z & C'). exists (v :: l'). rewrite <- app_assoc. split; [reflexivity|].
    split; [cbn [length]; lia|]. split; [|apply covers_etry; assumption].
    rewrite zlen_app. destruct c; [congruence|]. unfold zlen in *. cbn [length] in *. lia.
Qed.
Lemma fields_takes s (dr : name -> io gval) (er : name -> gval -> wr) fs :
  (forall f t, In (f, t) fs -> takes (fun c v => c <> [] /\ covers s c (er t v)) (dr t)) ->
  forall acc, NoDup (map fst acc ++ map fst fs) ->
  takes (fun c v => exists l, v = VMap (acc ++ l) /\ map fst l = map fst fs /\ (fs <> [] -> c <> [])
    /\ forall m, (forall k x, In (k, x) l -> lookup m k = Some x) -> covers s c (encode_fields er fs m)) (decode_fields dr fs acc).
Proof.
  induction fs as [|[f t] fs IH]; intros H acc ND; cbn [decode_fields].
  - apply takes_ret. exists []. rewrite app_nil_r. split; [reflexivity|]. split; [reflexivity|]. split; [congruence|]. intros; apply covers_nil.
  - eapply takes_bind; [apply (H f); now left| |intros; apply takes_error]. intros c v [N C]. cbv beta iota.
    assert (NI : ~ In f (map fst acc)).
    { intros I. cbn [map fst] in ND. apply NoDup_remove_2 in ND. apply ND, in_or_app. now left. }
    rewrite (assign_new _ _ _ NI). eapply takes_weaken.
    + apply IH; [intros; eapply H; now right; eassumption|]. rewrite map_app, <- app_assoc. exact ND.
    + intros c' x (l & -> & ML & _ & CV). exists ((f, v) :: l). rewrite <- app_assoc. split; [reflexivity|].
      split; [cbn [map fst]; congruence|]. split; [intros _ E; apply app_eq_nil in E as [E _]; contradiction|].
      intros m Hm. cbn [encode_fields]. rewrite (Hm f v) by now left. apply covers_etry; [exact C|]. apply CV. intros k y I. apply Hm. now right.
Qed.
Lemma flag_covers (f : bool) c0 c w : zlen c0 = 1 -> (f = true -> covers false c w) ->
  covers false (c0 ++ c) (err <~~ WriteBool f ;; if negb f || match err with Some _ => true | None => false end then ERet None else w).
Proof.
  intros L H1 bs W. assert (X : exists b bs', bs = [b] ++ bs' /\ (f = true -> writes w bs') /\ (f = false -> bs' = [])).
  { pose proof (W []) as R. destruct f; cbn in R.
    - pose proof (runw_extends w [x01]) as X. change ([] ++ [x01]) with [x01] in R. rewrite R in X. destruct X as [b2 X]. exists x01, b2. split; [exact X|]. split; [|discriminate].
      intros _ out. pose proof (runw_shift w [x01] out) as S. rewrite R in S. exact (S b2 X).
    - injection R as R. exists x00, []. split; [symmetry; exact R|]. split; [discriminate|reflexivity]. }
  destruct X as (b & bs' & -> & X1 & X2). split; [|discriminate]. rewrite !zlen_app, L. change (zlen [b]) with 1. destruct f.
  - destruct (H1 eq_refl _ (X1 eq_refl)). lia.
  - rewrite X2 by reflexivity. pose proof (zlen_nonneg c). change (zlen []) with 0. lia.
Qed.

(** ** Types *)
Definition tidy_schema (s : bool) (a : Abi) (n0 : name) : Prop :=
  no_extension a n0 /\ distinct_fields a n0 /\ (s = true -> rigid_schema a n0).
Lemma first_of_nodup (l : list name) i j n : NoDup l -> nth_error l i = Some n -> first_at l j n -> i = j.
Proof.
  intros ND Hi [Hj _]. apply (proj1 (NoDup_nth_error l) ND); [|congruence]. apply nth_error_Some. congruence.
Qed.
Lemma first_before (l : list name) i j n : nth_error l i = Some n -> first_at l j n -> (j <= i)%nat.
Proof. intros Hi [_ Hj]. destruct (Nat.le_gt_cases j i) as [|G]; [assumption|]. elim (Hj i G Hi). Qed.
Lemma type_takes s a n0 tbl : table_for a n0 tbl -> tidy_schema s a n0 -> forall fuel n, reach a n0 n ->
  takes (fun c v => c <> [] /\ forall fuel', covers s c (encodeType fuel' tbl n v)) (decodeType fuel tbl n).
Proof.
  intros TB (NX & DF & RG). induction fuel as [|fuel IH]; intros n R; [apply takes_fuel|].
  destruct (table_lookup _ _ _ _ TB R) as (t & LK & Ds). rewrite (decodeType_S _ _ _ _ LK).
  pose proof Ds as (N & D & _). pose proof (NX _ _ _ _ _ R D) as EX.
  assert (SI : takes (fun c v => c <> [] /\ forall fuel', covers s c (encodeInner (encodeType fuel' tbl) tbl t v)) (decodeInner (decodeType fuel tbl) tbl t)).
  { unfold decodeInner, encodeInner. destruct (t_ref t) as [r|] eqn:E1.
    { apply (describes_alias _ _ _ _ _ _ _ r Ds D) in E1. apply IH. eapply reach_step; [exact R|exact D|exact E1|cbn; auto]. }
    destruct (allFields tbl (t_name t)) as [fs|] eqn:E2.
    { rewrite N in E2. apply (allFields_spec _ _ _ _ TB) in E2; [|now exists t]. destruct E2 as [I NE].
      intros env inp v rest RD.
      assert (X : forall fuel', exists c l, inp = c ++ rest /\ v = VMap l /\ c <> [] /\ covers s c (encode_fields (encodeType fuel' tbl) fs l)).
      { intros fuel'. edestruct (fields_takes s (decodeType fuel tbl) (encodeType fuel' tbl) fs) with (acc := @nil (name * gval)) as (c & EQ & l & EV & ML & NC & CV); [| |exact RD|].
        - intros f m Hm. eapply takes_weaken; [apply IH; eapply inherits_reach; eauto|]. intros c v' [Nc Cv]. split; [exact Nc|apply Cv].
        - cbn [map app]. eapply DF; eassumption.
        - exists c, l. cbn [app] in EV. split; [exact EQ|]. split; [exact EV|]. split; [now apply NC|]. apply CV.
          intros k x Hk. apply lookup_nodup; [|exact Hk]. rewrite ML. eapply DF; eassumption. }
      destruct (X O) as (c & l & EQ & -> & Nc & _). exists c. split; [exact EQ|]. split; [exact Nc|]. intros fuel'.
      destruct (X fuel') as (c' & l' & EQ' & EV & _ & C'). injection EV as <-. rewrite EQ in EQ'. apply app_inv_tail in EQ'. now subst c'. }
    destruct (t_variant t) as [l|] eqn:E3.
    - apply (describes_variant _ _ _ _ _ _ _ l Ds D) in E3.
      eapply takes_bind; [apply Varuint_takes| |intros; apply takes_error]. intros c i (LW & -> & LB). cbv beta iota.
      destruct (zlen l <=? i64 (leb_value c)) eqn:EI; [apply takes_error|].
      destruct (at_ l (leb_value c)) as [tv|] eqn:EA; [|apply takes_panic].
      unfold at_ in EA. destruct (leb_value c <? 0) eqn:EN; [discriminate|].
      eapply takes_bind; [apply IH| |intros; apply takes_error].
      { eapply reach_step; [exact R|exact D|exact E3|]. now apply nth_error_In in EA. }
      intros c' x [Nc Cv]. apply takes_ret. rewrite app_nil_r.
      split; [intros E; apply app_eq_nil in E as [_ E]; contradiction|]. intros fuel'.
      pose proof (find_variant_spec tv l 0) as FV. destruct (find_variant 0 tv l) as [k|]; [|apply no_writes].
      destruct FV as (j & -> & FA). apply covers_etry; [|apply Cv].
      pose proof (leb_value_nonneg c). destruct s.
      + destruct (RG eq_refl) as (_ & _ & DA). rewrite <- (first_of_nodup _ _ _ _ (DA _ _ _ _ _ _ R D E3) EA FA).
        replace (0 + Z.of_nat (Z.to_nat (leb_value c))) with (leb_value c) by lia. now apply varuint_covers.
      + apply varuint_covers_less; [exact LW|]. pose proof (first_before _ _ _ _ EA FA). lia.
    - eapply takes_weaken; [apply builtin_takes|intros c v [Nc Cv]; split; [exact Nc|intros _; exact Cv]].
      intros S EB. destruct (RG S) as (_ & NB & _). apply NB. exists n, (t_isArray t), (t_isOptional t), (t_isExtension t).
      rewrite <- EB. split; [exact R|]. split; [exact D|]. apply (inner_builtin _ _ _ _ _ _ _ _ _ TB LK Ds D). rewrite E2. auto. }
  assert (B : takes (fun c v => c <> [] /\ forall fuel', covers s c (enc_body fuel' tbl t v)) (dec_body fuel tbl t)).
  { unfold dec_body, enc_body. destruct (t_isArray t).
    - eapply takes_bind; [apply Varuint_takes| |intros; rewrite ext_eof_plain by exact EX; apply takes_error].
      intros c l (LW & -> & LB). cbv beta iota. destruct (make_ok 16 (leb_value c)); [|apply takes_panic].
      intros env inp v rest RD. rewrite run_dbind in RD.
      destruct (run env (decode_elems (decodeInner (decodeType fuel tbl) tbl t) (Z.to_nat (i64 (leb_value c))) []) inp) as [[va [e|]] r|m|] eqn:EE; try discriminate.
      cbn [run] in RD. injection RD as <- <-.
      assert (X : forall fuel', exists c', inp = c' ++ r /\ length va = Z.to_nat (i64 (leb_value c))
        /\ covers s c' (encode_elems (encodeInner (encodeType fuel' tbl) tbl t) va)).
      { intros fuel'. edestruct (elems_takes s (decodeInner (decodeType fuel tbl) tbl t) (encodeInner (encodeType fuel' tbl) tbl t)) with (acc := @nil gval) as (c' & EQ & l' & -> & L' & _ & C'); [|exact EE|].
        - eapply takes_weaken; [apply SI|]. intros c1 v1 [N1 C1]. split; [exact N1|apply C1].
        - exists c'. auto. }
      destruct (X O) as (c' & EQ & L' & _). exists c'. split; [exact EQ|]. split.
      { intros E. apply app_eq_nil in E as [E _]. subst c. destruct LW. }
      intros fuel'. destruct (X fuel') as (c1 & EQ1 & _ & C1). rewrite EQ in EQ1. apply app_inv_tail in EQ1. subst c1.
      apply covers_etry; [|exact C1]. apply count_covers; [exact LW|exact LB|]. unfold zlen. now rewrite L'.
    - eapply takes_bind; [apply SI| |intros; rewrite ext_eof_plain by exact EX; apply takes_error].
      intros c v [Nc Cv]. rewrite ext_eof_plain by exact EX. apply takes_ret. rewrite app_nil_r. auto. }
  destruct (t_isOptional t) eqn:EO.
  - assert (SF : s = false).
    { destruct s; [|reflexivity]. destruct (RG eq_refl) as (NO & _). pose proof (NO _ _ _ _ _ R D). congruence. }
    subst s. eapply (takes_bind (fun c _ => zlen c = 1)); [| |intros; apply takes_error].
    { eapply (takes_map _ _ ReadByte (fun b _ => negb (b =? 0))); [apply Byte_takes|]. intros c v [-> _]. reflexivity. }
    intros c0 f L0. cbv beta iota. assert (N0 : c0 <> []) by (intros ->; discriminate).
    destruct f.
    + eapply takes_weaken; [apply B|]. intros c v [Nc Cv]. split; [intros E; apply app_eq_nil in E as [E _]; contradiction|].
      intros [|fuel']; [cbn [encodeType]; intros bs W; specialize (W []); discriminate W|]. rewrite (encodeType_S _ _ _ _ _ LK), EO.
      apply flag_covers; [exact L0|]. intros _. apply Cv.
    + apply takes_ret. rewrite app_nil_r. split; [exact N0|].
      intros [|fuel']; [cbn [encodeType]; intros bs W; specialize (W []); discriminate W|]. rewrite (encodeType_S _ _ _ _ _ LK), EO.
      rewrite <- (app_nil_r c0). apply flag_covers; [exact L0|]. discriminate.
  - eapply takes_weaken; [apply B|]. intros c v [Nc Cv]. split; [exact Nc|].
    intros [|fuel']; [cbn [encodeType]; intros bs W; specialize (W []); discriminate W|]. rewrite (encodeType_S _ _ _ _ _ LK), EO.
    destruct (negb (negb (is_nil v))); [apply no_writes|apply Cv].
Qed.
Lemma api_covers s env a n inp v rest : tidy_schema s a n -> decodes env a n inp (Done (v, None) rest) ->
  exists c, inp = c ++ rest /\ c <> [] /\ forall out bs, encodes a n v out (WDone None (out ++ bs)) -> canon s c bs.
Proof.
  intros TS (_ & F & HF). specialize (HF F ltac:(lia)). pose proof (decode_well_named _ _ _ _ _ _ _ HF) as W.
  destruct (resolved a n W) as (tbl & _ & T & ED & EE). rewrite ED in HF.
  destruct (type_takes s a n tbl T TS F n (reach_refl _ _) env inp v rest HF) as (c & -> & Nc & Cv).
  exists c. split; [reflexivity|]. split; [exact Nc|]. intros out bs (_ & F' & HE). specialize (HE F' ltac:(lia)). rewrite EE in HE.
  apply (Cv F'). intros out'. pose proof (runw_shift (encodeType F' tbl n v) out out') as S. rewrite HE in S. exact (S bs eq_refl).
Qed.

(** ** What was decoded can be encoded *)
Lemma fields_eat (dr : name -> io gval) fs : (forall f t, In (f, t) fs -> eats (dr t)) -> fs <> [] -> forall acc, eats (decode_fields dr fs acc).
Proof.
  intros H N acc. destruct fs as [|[f t] fs]; [congruence|]. cbn [decode_fields].
  apply eats_first; [apply (H f); now left|intros; apply takes_any|intros; apply takes_error].
Qed.
Lemma inner_eats a n0 tbl rec n t : table_for a n0 tbl -> reach a n0 n -> lookup tbl n = Some t ->
  (forall m, reach a n0 m -> eats (rec m)) -> eats (decodeInner rec tbl t).
Proof.
  intros TB R LK HR. destruct (table_lookup _ _ _ _ TB R) as (t' & L' & Ds). rewrite LK in L'. injection L' as <-.
  pose proof Ds as (N & D & _). unfold decodeInner. destruct (t_ref t) as [r|] eqn:E1.
  { apply (describes_alias _ _ _ _ _ _ _ r Ds D) in E1. apply HR. eapply reach_step; [exact R|exact D|exact E1|cbn; auto]. }
  destruct (allFields tbl (t_name t)) as [fs|] eqn:E2.
  { rewrite N in E2. apply (allFields_spec _ _ _ _ TB) in E2; [|now exists t]. destruct E2 as [I NE].
    apply fields_eat; [|exact NE]. intros f m Hm. apply HR. eapply inherits_reach; eauto. }
  destruct (t_variant t) as [l|]; [|apply eats_builtin].
  apply eats_first; [apply eats_varuint|intros; apply takes_any|intros; apply takes_error].
Qed.
Lemma type_eats a n0 tbl : table_for a n0 tbl -> no_extension a n0 -> forall fuel n, reach a n0 n -> eats (decodeType fuel tbl n).
Proof.
  intros TB NE. induction fuel as [|fuel IH]; intros n R; [apply takes_fuel|].
  destruct (table_lookup _ _ _ _ TB R) as (t & LK & Ds). rewrite (decodeType_S _ _ _ _ LK).
  pose proof Ds as (_ & D & _). pose proof (NE _ _ _ _ _ R D) as EX.
  assert (B : eats (dec_body fuel tbl t)).
  { unfold dec_body. destruct (t_isArray t).
    - apply eats_first; [apply eats_varuint|intros; apply takes_any|intros; rewrite ext_eof_plain by exact EX; apply takes_error].
    - apply eats_first; [|intros; apply takes_any|intros; rewrite ext_eof_plain by exact EX; apply takes_error].
      eapply inner_eats; eassumption. }
  destruct (t_isOptional t); [|exact B].
  apply eats_first; [apply eats_bool|intros; apply takes_any|intros; apply takes_error].
Qed.
Lemma elems_count (f : io gval) n env inp l rest : eats f -> run env (decode_elems f n []) inp = Done (l, None) rest -> zlen l <= zlen inp.
Proof.
  intros H R. destruct (elems_takes false f (fun _ => EFuel)) with (n := n) (acc := @nil gval) (env := env) (inp := inp) (v := l) (rest := rest) as (c & -> & l' & -> & _ & L & _); [|exact R|].
  - eapply takes_weaken; [apply H|]. intros c v N. split; [exact N|]. intros bs W. specialize (W []). discriminate W.
  - cbn [app]. rewrite zlen_app. pose proof (zlen_nonneg rest). lia.
Qed.

Definition again_schema (a : Abi) (n0 : name) : Prop :=
  no_extension a n0 /\ distinct_fields a n0 /\ few_alternatives a n0 /\ no_hidden_optional a n0 /\ ~ uses_builtin a n0 (str "bytes").
Lemma builtin_again a n b : falls_through a n b -> b <> str "bytes" ->
  yields (fun v => small_numbers v -> wf_gval v /\ exists bs, abi_inner a n b v bs v) (decodeBuiltin b).
Proof.
  intros FT NB env inp v rest L R SN. destruct (builtin_reader _ _ _ _ _ R) as (k & p & -> & R' & K & T & U & KB & DT).
  destruct (prim_yields (zero_prim k) T env inp p rest L R') as [K2 [TP WK]]. rewrite K in K2. specialize (DT p K2).
  inversion SN as [|q SQ| | |]; subst q.
  assert (BT : builtin_type p = Some b /\ read_back p = p /\ bounded_prim p).
  { destruct p; cbn [decoded_type builtin_type] in *; try discriminate DT; try (injection DT as <-; congruence);
      (split; [exact DT|split; [reflexivity|]]); try exact I; try exact SQ.
    subst k. cbn [kind_of zero_prim read_prim] in R'. unfold wrap in R'. rewrite run_dbind in R'.
    destruct (run env ReadString inp) as [[x e] r|m|] eqn:E; try discriminate. cbn [run] in R'. injection R' as <- -> ->.
    exact (GoString_yields env inp x rest L E). }
  destruct BT as (BT & RB & BD). split; [constructor; split; [exact TP|exact WK]|].
  destruct (leaf_round p TP BD) as (bs & _ & LY & _). exists bs. apply in_builtin; [exact FT|]. now repeat split.
Qed.
Lemma elems_again a n b (f : io gval) : yields (fun v => small_numbers v -> wf_gval v /\ exists bs, abi_inner a n b v bs v) f ->
  forall k acc, yields (fun l => exists l', l = acc ++ l' /\ (Forall small_numbers l' -> Forall wf_gval l' /\ exists bs, abi_elems a n b l' bs l')) (decode_elems f k acc).
Proof.
  intros H k. induction k as [|k IH]; intros acc; cbn [decode_elems].
  - apply yields_ret. intros _. exists []. rewrite app_nil_r. split; [reflexivity|]. intros _. split; [constructor|]. exists []. constructor.
  - eapply yields_bind; [exact H| |intros; apply yields_error]. intros v Hv. eapply yields_weaken; [apply IH|].
    intros l (l' & -> & Hl). exists (v :: l'). rewrite <- app_assoc. split; [reflexivity|]. intros F. inversion F; subst.
    destruct (Hv H2) as [W (bs & Wb)]. destruct (Hl H3) as [Ws (bs' & Wb')]. split; [now constructor|]. exists (bs ++ bs'). now constructor.
Qed.
Lemma fields_again a (dr : name -> io gval) fs :
  (forall f t, In (f, t) fs -> yields (fun v => small_numbers v -> wf_gval v /\ exists bs, abi_enc a t v bs v) (dr t)) ->
  forall acc, NoDup (map fst acc ++ map fst fs) ->
  yields (fun v => exists l, v = VMap (acc ++ l) /\ map fst l = map fst fs
    /\ (Forall (fun kv => small_numbers (snd kv)) l -> Forall (fun kv => wf_gval (snd kv)) l
        /\ forall m, (forall k x, In (k, x) l -> lookup m k = Some x) -> exists bs, abi_fields a fs m bs l)) (decode_fields dr fs acc).
Proof.
  induction fs as [|[f t] fs IH]; intros H acc ND; cbn [decode_fields].
  - apply yields_ret. intros _. exists []. rewrite app_nil_r. split; [reflexivity|]. split; [reflexivity|]. intros _. split; [constructor|].
    intros m _. exists []. constructor.
  - eapply yields_bind; [apply (H f); now left| |intros; apply yields_error]. intros v Hv. cbv beta iota.
    assert (NI : ~ In f (map fst acc)).
    { intros I. cbn [map fst] in ND. apply NoDup_remove_2 in ND. apply ND, in_or_app. now left. }
    rewrite (assign_new _ _ _ NI). eapply yields_weaken.
    + apply IH; [intros; eapply H; now right; eassumption|]. rewrite map_app, <- app_assoc. exact ND.
    + intros x (l & -> & ML & CV). exists ((f, v) :: l). rewrite <- app_assoc. split; [reflexivity|].
      split; [cbn [map fst]; congruence|]. intros F. inversion F; subst. destruct (Hv H2) as [W (bs & Wb)]. destruct (CV H3) as [Ws Hb].
      split; [now constructor|]. intros m Hm. destruct (Hb m) as (bs' & Wb'); [intros k y I; apply Hm; now right|].
      exists (bs ++ bs'). constructor; [|exact Wb']. unfold entry. rewrite (Hm f v) by now left. exact Wb.
Qed.
Lemma enc_required a t v bs v' : abi_enc a t v bs v' -> (forall b arr ext, ~ decomposes t b arr true ext) -> v <> VNil.
Proof. intros E H. inversion E; subst; [elim (H _ _ _ H0)|assumption|assumption]. Qed.
Lemma inner_required a n0 n b v bs v' ext : no_hidden_optional a n0 -> reach a n0 n -> decomposes n b false false ext ->
  abi_inner a n b v bs v' -> v <> VNil.
Proof.
  intros NH R D I. inversion I; subst; try discriminate. eapply enc_required; [eassumption|]. intros b' arr' ext'. eapply NH; eassumption.
Qed.
Lemma type_again a n0 tbl : table_for a n0 tbl -> again_schema a n0 -> forall fuel n, reach a n0 n ->
  yields (fun v => small_numbers v -> wf_gval v /\ exists bs, abi_enc a n v bs v) (decodeType fuel tbl n).
Proof.
  intros TB (NX & DF & FA & NH & NB). induction fuel as [|fuel IH]; intros n R; [apply yields_fuel|].
  destruct (table_lookup _ _ _ _ TB R) as (t & LK & Ds). rewrite (decodeType_S _ _ _ _ LK).
  pose proof Ds as (N & D & _). pose proof (NX _ _ _ _ _ R D) as EX.
  assert (SI : yields (fun v => small_numbers v -> wf_gval v /\ exists bs, abi_inner a n (t_baseName t) v bs v) (decodeInner (decodeType fuel tbl) tbl t)).
  { unfold decodeInner. destruct (t_ref t) as [r|] eqn:E1.
    { apply (describes_alias _ _ _ _ _ _ _ r Ds D) in E1. eapply yields_weaken; [apply IH; eapply reach_step; [exact R|exact D|exact E1|cbn; auto]|].
      intros v H S. destruct (H S) as [W (bs & B)]. split; [exact W|]. exists bs. eapply in_alias; eassumption. }
    destruct (allFields tbl (t_name t)) as [fs|] eqn:E2.
    { rewrite N in E2. apply (allFields_spec _ _ _ _ TB) in E2; [|now exists t]. destruct E2 as [I NE]. pose proof (DF _ _ R I) as ND.
      eapply yields_weaken; [apply (fields_again a)|].
      - intros f m Hm. apply IH. eapply inherits_reach; eauto.
      - exact ND.
      - intros v (l & -> & ML & H) S. cbn [app] in *. inversion S as [| | |m SM|]; subst m. destruct (H SM) as [W B]. split; [now constructor|].
        rewrite <- ML in ND. destruct (B l) as (bs & Bb); [intros k x Hk; now apply lookup_nodup|]. exists bs.
        rewrite <- (to_map_id _ ND) at 2. now apply in_struct with (fs := fs). }
    destruct (t_variant t) as [l|] eqn:E3.
    - apply (describes_variant _ _ _ _ _ _ _ l Ds D) in E3.
      eapply yields_bind; [apply Varuint_yields| |intros; apply yields_error]. intros i _. cbv beta iota.
      destruct (zlen l <=? i64 i) eqn:EI; [apply yields_error|].
      destruct (at_ l i) as [tv|] eqn:EA; [|apply yields_panic].
      unfold at_ in EA. destruct (i <? 0) eqn:EN; [discriminate|]. pose proof (nth_error_In _ _ EA) as IN.
      eapply yields_bind; [apply IH| |intros; apply yields_error].
      { eapply reach_step; [exact R|exact D|exact E3|exact IN]. }
      intros x Hx. apply yields_ret. intros _ S. inversion S as [| |l0 SL| |]; subst l0. inversion SL as [|x0 l0 _ SL']; subst. inversion SL' as [|x0 l0 SX _]; subst.
      destruct (Hx SX) as [W (bs & B)]. split.
      { constructor. constructor; [constructor; split; exact I|]. constructor; [exact W|constructor]. }
      pose proof (find_variant_spec tv l 0) as FV. destruct (find_variant 0 tv l) as [k|]; [|contradiction].
      destruct FV as (j & _ & FJ). assert (LT : Z.of_nat j < 2 ^ 28).
      { pose proof (FA _ _ _ _ _ _ R D E3). destruct FJ as [FJ _]. assert (j < length l)%nat by (apply nth_error_Some; congruence). unfold zlen in *. lia. }
      destruct (varu_exists (Z.of_nat j)) as (pre & VP); [lia|]. exists (pre ++ bs). eapply in_variant; eassumption.
    - assert (FT : falls_through a n (t_baseName t)) by (apply (inner_builtin _ _ _ _ _ _ _ _ _ TB LK Ds D); rewrite E2; auto).
      apply builtin_again; [exact FT|]. intros EB. apply NB. exists n, (t_isArray t), (t_isOptional t), (t_isExtension t). rewrite <- EB. auto. }
  assert (B : yields (fun v => small_numbers v -> wf_gval v /\ exists bs, abi_body a n (t_baseName t) (t_isArray t) v bs v) (dec_body fuel tbl t)).
  { unfold dec_body. destruct (t_isArray t) eqn:EA.
    - eapply yields_bind; [apply Varuint_yields| |intros; rewrite ext_eof_plain by exact EX; apply yields_error].
      intros l _. cbv beta iota. destruct (make_ok 16 l); [|apply yields_panic].
      intros env inp v rest L RD S. rewrite run_dbind in RD.
      destruct (run env (decode_elems (decodeInner (decodeType fuel tbl) tbl t) (Z.to_nat (i64 l)) []) inp) as [[va [e|]] r|m|] eqn:EE; try discriminate.
      cbn [run] in RD. injection RD as <- <-.
      assert (SH : zlen va <= zlen inp).
      { eapply elems_count; [|exact EE]. eapply inner_eats; eauto. intros m Rm. eapply type_eats; eassumption. }
      destruct (elems_again a n (t_baseName t) _ SI _ _ _ _ _ _ L EE) as (l' & EV & H). cbn [app] in EV. subst l'.
      inversion S as [| |l0 SL| |]; subst l0. destruct (H SL) as [W (bs & Bb)]. split; [now constructor|].
      destruct (varu_exists (zlen va)) as (pre & VP); [pose proof (zlen_nonneg va); lia|]. exists (pre ++ bs).
      constructor; [unfold short; lia|exact VP|exact Bb].
    - eapply yields_bind; [apply SI| |intros; rewrite ext_eof_plain by exact EX; apply yields_error].
      intros v H. rewrite ext_eof_plain by exact EX. apply yields_ret. intros _ S. destruct (H S) as [W (bs & Bb)].
      split; [exact W|]. exists bs. now constructor. }
  destruct (t_isOptional t) eqn:EO.
  - eapply (yields_bind (fun _ => True)); [now intros ? ? ? ? ? ?| |intros; apply yields_error]. intros f _. cbv beta iota. destruct f.
    + eapply yields_weaken; [apply B|]. intros v H S. destruct (H S) as [W (bs & Bb)]. split; [exact W|].
      destruct (is_nil v) eqn:EV.
      * destruct v; try discriminate. exists [x00]. eapply enc_nil; eassumption.
      * exists (x01 :: bs). eapply enc_opt; [eassumption|intros ->; discriminate|exact Bb].
    + apply yields_ret. intros _ _. split; [constructor|]. exists [x00]. eapply enc_nil; eassumption.
  - eapply yields_weaken; [apply B|]. intros v H S. destruct (H S) as [W (bs & Bb)]. split; [exact W|]. exists bs.
    eapply enc_req; [eassumption| |exact Bb]. inversion Bb; subst; [discriminate|]. eapply inner_required; try eassumption.
    rewrite <- H0 in D. exact D.
Qed.
Lemma api_again env a n inp v rest : again_schema a n -> zlen inp < 2 ^ 28 -> decodes env a n inp (Done (v, None) rest) -> small_numbers v ->
  exists bs, (forall out, encodes a n v out (WDone None (out ++ bs))) /\ (forall env rest, decodes env a n (bs ++ rest) (Done (v, None) rest)).
Proof.
  intros AS L (_ & F & HF) SN. specialize (HF F ltac:(lia)). pose proof (decode_well_named _ _ _ _ _ _ _ HF) as W.
  destruct (resolved a n W) as (tbl & _ & T & ED & EE). rewrite ED in HF.
  destruct (type_again a n tbl T AS F n (reach_refl _ _) env inp v rest L HF SN) as [WF (bs & B)].
  exists bs. now apply api_layout.
Qed.
