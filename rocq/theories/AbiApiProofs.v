(** From the interpreter over a resolved table to Abi.Decode and Abi.Encode. *)
From Verif Require Import Base Prog AbiPrim BaseProofs SpecWire ProgProofs AbiPrimProofs Chain SpecChain ChainProofs
  Values Leaf SpecLeaf LeafProofs AbiDyn SpecAbi AbiResolveProofs AbiCodecProofs AbiTermProofs AbiStrictProofs.

Lemma resolved a n : well_named a n ->
  exists tbl, resolve (resolve_fuel a) a n [] = Some (Ok tbl) /\ table_for a n tbl
    /\ (forall fuel, Abi_Decode fuel a n = decodeType fuel tbl n)
    /\ (forall fuel v, Abi_Encode fuel a n v = encodeType fuel tbl n v).
Proof.
  intros W. destruct (resolve_outcome a n) as [(tbl & _ & E & T & _)|(_ & m & R & M)]; [|elim (W m R M)].
  exists tbl. split; [exact E|]. split; [exact T|]. unfold Abi_Decode, Abi_Encode, with_types. rewrite E. auto.
Qed.
Lemma unresolved a n m : reach a n m -> malformed m ->
  exists s, resolve (resolve_fuel a) a n [] = Some (Panic s)
    /\ (forall fuel, Abi_Decode fuel a n = DPanic s) /\ (forall fuel v, Abi_Encode fuel a n v = EPanic s).
Proof.
  intros R M. destruct (resolve_outcome a n) as [(tbl & _ & _ & _ & W)|(P & _)]; [elim (W m R M)|].
  destruct (P _ (Nat.le_refl _)) as (s & E). exists s. split; [exact E|]. unfold Abi_Decode, Abi_Encode, with_types. rewrite E. auto.
Qed.
Lemma malformed_iff n : malformed n <->
  exists core, (length core <= 1)%nat /\ (n = core \/ n = core ++ str "?" \/ n = core ++ str "$" \/ n = core ++ str "$?").
Proof.
  split.
  - intros M.
    destruct (last_byte n) as [[i c]|] eqn:L1; pose proof (last_byte_spec n) as S1; rewrite L1 in S1;
      [|exists []; split; [cbn; lia|auto]].
    assert (P : parse_name n = None).
    { destruct (parse_name n) as [[[[b arr] opt] ext]|] eqn:P; [|reflexivity]. apply parse_sound in P. elim (M _ _ _ _ P). }
    unfold parse_name in P. rewrite L1 in P.
    destruct (Byte.eqb c x3f) eqn:C1.
    + apply Byte.byte_dec_bl in C1. subst c.
      destruct (last_byte i) as [[j d]|] eqn:L2; pose proof (last_byte_spec i) as S2; rewrite L2 in S2.
      2:{ exists []. split; [cbn; lia|]. right; left. now subst. }
      destruct (Byte.eqb d x24) eqn:C2.
      * apply Byte.byte_dec_bl in C2. subst d. exists j.
        destruct (last_byte j) as [[k g]|] eqn:L3; pose proof (last_byte_spec j) as S3; rewrite L3 in S3.
        -- destruct (last_byte k) as [[]|] eqn:L4; pose proof (last_byte_spec k) as S4; rewrite L4 in S4; [discriminate|].
           subst. split; [cbn; lia|auto].
        -- subst. split; [cbn; lia|auto].
      * exists i. rewrite L2 in P.
        destruct (last_byte j) as [[]|] eqn:L4; pose proof (last_byte_spec j) as S4; rewrite L4 in S4; [discriminate|].
        subst. split; [cbn; lia|auto].
    + rewrite L1 in P. destruct (Byte.eqb c x24) eqn:C2.
      * apply Byte.byte_dec_bl in C2. subst c. exists i.
        destruct (last_byte i) as [[k g]|] eqn:L3; pose proof (last_byte_spec i) as S3; rewrite L3 in S3.
        -- destruct (last_byte k) as [[]|] eqn:L4; pose proof (last_byte_spec k) as S4; rewrite L4 in S4; [discriminate|].
           subst. split; [cbn; lia|auto].
        -- subst. split; [cbn; lia|auto].
      * exists n. rewrite L1 in P.
        destruct (last_byte i) as [[]|] eqn:L4; pose proof (last_byte_spec i) as S4; rewrite L4 in S4; [discriminate|].
        subst. split; [cbn; lia|auto].
  - intros (core & Hl & E) b arr opt ext D. apply parse_complete in D.
    destruct core as [|c [|c' core]]; [| |cbn in Hl; lia].
    + destruct E as [->|[->|[->| ->]]]; vm_compute in D; discriminate.
    + destruct E as [->|[->|[->| ->]]]; unfold parse_name, last_byte in D; cbn in D.
      * destruct (Byte.eqb c x3f); cbn in D; [discriminate|]. destruct (Byte.eqb c x24); cbn in D; discriminate.
      * destruct (Byte.eqb c x24); cbn in D; discriminate.
      * discriminate.
      * discriminate.
Qed.

(** ** Round trip *)
Lemma api_layout a n v bs v' : well_named a n -> wf_gval v -> abi_enc a n v bs v' ->
  (forall out, encodes a n v out (WDone None (out ++ bs)))
  /\ (forall env rest, decodes env a n (bs ++ rest) (Done (v', None) rest)).
Proof.
  intros W WF H. destruct (resolved a n W) as (tbl & _ & T & ED & EE).
  destruct (proj1 (codec_sound a n tbl T) n v bs v' H WF (reach_refl _ _)) as (F & HF).
  split; intros; (split; [discriminate|]); exists F; intros fuel Hf; rewrite ?ED, ?EE; now apply HF.
Qed.
Lemma encode_well_named fuel a n v out r full : runw (Abi_Encode fuel a n v) out = WDone r full -> well_named a n.
Proof.
  intros H m R M. destruct (unresolved a n m R M) as (s & _ & _ & E). rewrite E in H. discriminate.
Qed.
Lemma decode_well_named env fuel a n inp r rest : run env (Abi_Decode fuel a n) inp = Done r rest -> well_named a n.
Proof.
  intros H m R M. destruct (unresolved a n m R M) as (s & _ & E & _). rewrite E in H. discriminate.
Qed.
Lemma Encode_stable a n v fuel fuel' out : (fuel <= fuel')%nat -> runw (Abi_Encode fuel a n v) out <> WDiverged ->
  runw (Abi_Encode fuel' a n v) out = runw (Abi_Encode fuel a n v) out.
Proof.
  intros L. unfold Abi_Encode, with_types. destruct (resolve (resolve_fuel a) a n []) as [[tbl|e|s]|]; try reflexivity.
  now apply encodeType_stable.
Qed.
Lemma Decode_stable env a n fuel fuel' inp : (fuel <= fuel')%nat -> run env (Abi_Decode fuel a n) inp <> Diverged ->
  run env (Abi_Decode fuel' a n) inp = run env (Abi_Decode fuel a n) inp.
Proof.
  intros L. unfold Abi_Decode, with_types. destruct (resolve (resolve_fuel a) a n []) as [[tbl|e|s]|]; try reflexivity.
  now apply decodeType_stable.
Qed.
Lemma encodes_fun a n v out r r' : encodes a n v out r -> encodes a n v out r' -> r = r'.
Proof.
  intros (_ & F & H) (_ & F' & H'). rewrite <- (H (F + F')%nat) by lia. apply H'. lia.
Qed.
Lemma api_roundtrip a n v out full : plain_schema a n -> wf_gval v -> encodes a n v out (WDone None full) ->
  exists bs v', full = out ++ bs /\ abi_enc a n v bs v'
    /\ forall env rest, decodes env a n (bs ++ rest) (Done (v', None) rest).
Proof.
  intros P WF E. pose proof E as (_ & F & H). specialize (H F (Nat.le_refl _)).
  pose proof (encode_well_named _ _ _ _ _ _ _ H) as W.
  destruct (resolved a n W) as (tbl & _ & T & ED & EE). rewrite EE in H.
  destruct (codec_complete a n tbl T P F n v _ _ (reach_refl _ _) WF H) as (bs & v' & A).
  destruct (api_layout a n v bs v' W WF A) as [E2 D]. exists bs, v'. split; [|split; [exact A|exact D]].
  pose proof (encodes_fun _ _ _ _ _ _ E (E2 out)) as Q. now injection Q.
Qed.
Lemma lookup_assign {A} (m : list (name * A)) k v k' : lookup (assign m k v) k' = if bytes_eqb k k' then Some v else lookup m k'.
Proof.
  induction m as [|[k0 v0] m IH]; cbn [assign lookup].
  - reflexivity.
  - destruct (bytes_eqb k0 k) eqn:E; cbn [lookup].
    + apply eqb_name in E. subst k0. destruct (bytes_eqb k k'); reflexivity.
    + rewrite IH. destruct (bytes_eqb k0 k') eqn:E'; [|reflexivity]. destruct (bytes_eqb k k') eqn:E''; [|reflexivity].
      apply eqb_name in E', E''. subst. rewrite eqb_name_refl in E. discriminate.
Qed.
Lemma lookup_to_map {A} (l : list (name * A)) : forall m k x, lookup (fold_left (fun m '(k, v) => assign m k v) l m) k = Some x ->
  In (k, x) l \/ lookup m k = Some x.
Proof.
  induction l as [|[k0 v0] l IH]; intros m k x H; cbn [fold_left] in H; [now right|].
  apply IH in H. destruct H as [H|H]; [left; now right|]. rewrite lookup_assign in H.
  destruct (bytes_eqb k0 k) eqn:E; [|now right]. apply eqb_name in E. subst k0. injection H as ->. left; now left.
Qed.
Lemma enc_keeps a :
  (forall n v bs v', abi_enc a n v bs v' -> keeps v v')
  /\ (forall n b arr v bs v', abi_body a n b arr v bs v' -> keeps v v')
  /\ (forall n b v bs v', abi_inner a n b v bs v' -> keeps v v')
  /\ (forall n b vs bs vs', abi_elems a n b vs bs vs' -> Forall2 keeps vs vs')
  /\ (forall fs m bs out, abi_fields a fs m bs out -> forall f v, In (f, v) out -> keeps (entry m f) v).
Proof.
  apply abi_mind; intros; eauto using keeps.
  - constructor. intros k x' Hx. apply lookup_to_map in Hx. destruct Hx as [Hx|Hx]; [eauto|discriminate].
  - constructor. constructor; [apply (keep_prim (PString vn))|]. constructor; [assumption|constructor].
  - match goal with H : builtin_layout _ _ _ _ |- _ => destruct H as (_ & _ & _ & ->) end. constructor.
  - match goal with H : In _ [] |- _ => destruct H end.
  - match goal with H : In _ (_ :: _) |- _ => destruct H as [H|H]; [injection H as <- <-; assumption|eauto] end.
Qed.
Lemma api_fixed a n v bs v' : distinct_fields a n -> abi_enc a n v bs v' -> abi_enc a n v' bs v'.
Proof. intros D H. apply (proj1 (enc_fixed a n D) n v bs v' H (reach_refl _ _)). Qed.

(** ** One step *)
Lemma encodes_at a n v out r fuel : runw (Abi_Encode fuel a n v) out = r -> r <> WDiverged -> encodes a n v out r.
Proof. intros H N. split; [exact N|]. exists fuel. intros f L. rewrite <- H. apply Encode_stable; [exact L|congruence]. Qed.
Lemma decodes_at env a n inp r fuel : run env (Abi_Decode fuel a n) inp = r -> r <> Diverged -> decodes env a n inp r.
Proof. intros H N. split; [exact N|]. exists fuel. intros f L. rewrite <- H. apply Decode_stable; [exact L|congruence]. Qed.
Lemma api_step a n b arr opt ext : well_named a n -> decomposes n b arr opt ext ->
  exists tbl t, table_for a n tbl /\ lookup tbl n = Some t /\ describes a t n
    /\ t_baseName t = b /\ t_isArray t = arr /\ t_isOptional t = opt /\ t_isExtension t = ext
    /\ (forall f, Abi_Decode (S f) a n = if opt then
           '(exists_, err) <-- ReadBool ;;
           match err with
           | Some e => DRet (VNil, Some e)
           | None => if exists_ then dec_body f tbl t else DRet (VNil, None)
           end
         else dec_body f tbl t)
    /\ (forall f v, Abi_Encode (S f) a n v =
         if opt then
           err <~~ WriteBool (negb (is_nil v)) ;;
           if negb (negb (is_nil v)) || match err with Some _ => true | None => false end
           then ERet None else enc_body f tbl t v
         else if negb (negb (is_nil v)) then ERet (Some (ErrMsg "found nil for non optional"))
         else enc_body f tbl t v).
Proof.
  intros W D. destruct (resolved a n W) as (tbl & _ & T & ED & EE).
  destruct (table_lookup _ _ _ _ T (reach_refl _ _)) as (t & L & Ds).
  destruct (describes_flags _ _ _ _ _ _ _ Ds D) as (N & EB & EA & EO & EX).
  exists tbl, t. rewrite <- EO. repeat (split; [first [assumption|reflexivity]|]). split; intros.
  - rewrite ED. apply (decodeType_S _ _ _ _ L).
  - rewrite EE. apply (encodeType_S _ _ _ _ _ L).
Qed.

(** ** Unknown types *)
Lemma unknown_builtin b : ~ In b builtin_list -> builtin_of b = None.
Proof.
  intros H. destruct (builtin_of b) as [B|] eqn:E; [|reflexivity]. elim H. apply builtin_list_of. eauto.
Qed.
Lemma unknown_rejected a n b ext : well_named a n -> decomposes n b false false ext -> falls_through a n b ->
  ~ In b builtin_list -> (forall v, encode_rejects a n v) /\ decode_rejects a n.
Proof.
  intros W D F NB. destruct (api_step _ _ _ _ _ _ W D) as (tbl & t & T & L & Ds & EB & EA & EO & EX & HD & HE).
  destruct (proj1 (inner_builtin _ _ _ _ _ _ _ _ _ T L Ds D) F) as (F1 & F2 & F3). apply unknown_builtin in NB.
  assert (NB' : builtin_of (t_baseName t) = None) by congruence.
  split.
  - intros v out. destruct v; eexists; (apply (encodes_at _ _ _ _ _ 1); [|discriminate]); rewrite HE;
    cbn [is_nil negb]; unfold enc_body; rewrite ?EA; unfold encodeInner; rewrite ?F1, ?F2, ?F3;
      unfold encodeBuiltin; rewrite ?NB'; cbn; reflexivity.
  - intros env inp. eexists. apply (decodes_at _ _ _ _ _ 1); [|discriminate]. rewrite HD.
    unfold dec_body. rewrite EA. unfold decodeInner. rewrite F1, F2, F3. unfold decodeBuiltin. rewrite NB'. reflexivity.
Qed.
Lemma inherits_chain a n fs : inherits a n fs -> Acc (fun p n => base_of a n p) n.
Proof.
  intros H. induction H as [n b arr opt ext fs D F|n b arr opt ext p fs up D F H IH]; constructor;
    intros q (b' & arr' & opt' & ext' & fs' & D' & F'); destruct (decomposes_fun _ _ _ _ _ _ _ _ _ D D') as (<- & _);
    pose proof (defines_fun _ _ _ _ F F') as Q; [discriminate|]. injection Q as <- <-. exact IH.
Qed.
Lemma inherits_circular a n fs : path (base_of a) n n -> ~ inherits a n fs.
Proof.
  intros P I. pose proof (inherits_chain _ _ _ I) as A. clear I. revert P.
  induction A as [n _ IH]. intros P. inversion P as [y H|y z H1 H2]; subst.
  - apply (IH n H). exact P.
  - apply (IH y H1). eapply path_snoc; eauto.
Qed.
Lemma inherits_nonstruct a n p fs b arr opt ext d : base_of a n p -> decomposes p b arr opt ext -> defines a b d ->
  (forall q own, d <> DStruct q own) -> ~ inherits a n fs.
Proof.
  intros (b' & arr' & opt' & ext' & own & D & F) D' F' ND H.
  inversion H as [? b0 ? ? ? fs0 D0 F0|? b0 ? ? ? p0 fs0 up D0 F0 Hp]; subst;
    destruct (decomposes_fun _ _ _ _ _ _ _ _ _ D D0) as (<- & _); pose proof (defines_fun _ _ _ _ F F0) as Q; [discriminate|].
  injection Q as <- <-. destruct (inherits_defines _ _ _ _ _ _ _ _ Hp D' F') as (q & w & ->). now apply (ND q w).
Qed.
Lemma inherits_fun a n fs : inherits a n fs -> forall fs', inherits a n fs' -> fs = fs'.
Proof.
  intros H. induction H as [n b arr opt ext fs D F|n b arr opt ext p fs up D F H IH]; intros fs' H';
    inversion H' as [? b0 ? ? ? fs0 D0 F0|? b0 ? ? ? p0 fs0 up0 D0 F0 Hp]; subst;
    destruct (decomposes_fun _ _ _ _ _ _ _ _ _ D D0) as (<- & _); pose proof (defines_fun _ _ _ _ F F0) as Q;
    try discriminate; injection Q.
  - auto.
  - intros <- <-. f_equal. now apply IH.
Qed.
Lemma struct_layout a n fs b ext m bs out0 : well_named a n -> wf_gval (VMap m) -> inherits a n fs -> fs <> [] ->
  decomposes n b false false ext -> abi_fields a fs m bs out0 ->
  (forall out, encodes a n (VMap m) out (WDone None (out ++ bs)))
  /\ (forall env rest, decodes env a n (bs ++ rest) (Done (VMap (to_map out0), None) rest)).
Proof.
  intros W WF I NE D F. apply api_layout; [exact W|exact WF|]. eapply enc_req; [exact D|discriminate|].
  apply body_single. eapply in_struct; eauto.
Qed.

(** ** Termination *)
Lemma api_decode_ends a n : acyclic a n -> forall env inp, exists r, decodes env a n inp r.
Proof.
  intros AC env inp. destruct (resolve_outcome a n) as [(tbl & _ & E & T & W)|(P & m & R & M)].
  - destruct (resolved a n W) as (tbl' & _ & T' & ED & _).
    pose proof (decode_ends a n tbl' env T' AC (length inp * S (length tbl') + S (length tbl'))%nat n [] inp (reach_refl _ _)
      (NoDup_nil _) (fun x H => match H with end) (fun x H => match H with end)) as H.
    assert (H' : ends env (decodeType (length inp * S (length tbl') + S (length tbl')) tbl' n) inp) by (apply H; cbn [length]; lia).
    rewrite <- ED in H'. unfold ends in H'. eexists. eapply decodes_at; [reflexivity|].
    intros Q. rewrite Q in H'. exact H'.
  - destruct (unresolved a n m R M) as (s & _ & ED & _). eexists. apply (decodes_at _ _ _ _ _ 0); [rewrite ED; reflexivity|discriminate].
Qed.
Lemma api_encode_ends a n : alias_acyclic a n -> forall v out, exists r, encodes a n v out r.
Proof.
  intros AC v out. destruct (resolve_outcome a n) as [(tbl & _ & E & T & W)|(P & m & R & M)].
  - destruct (resolved a n W) as (tbl' & _ & T' & _ & EE).
    pose proof (encode_ends a n tbl' T' AC (gsize v * S (length tbl') + S (length tbl'))%nat n [] v (reach_refl _ _)
      (NoDup_nil _) (fun x H => match H with end) (fun x H => match H with end)) as H.
    assert (H' : eends (encodeType (gsize v * S (length tbl') + S (length tbl')) tbl' n v)) by (apply H; cbn [length]; lia).
    eexists. eapply encodes_at; [reflexivity|]. rewrite EE. apply H'.
  - destruct (unresolved a n m R M) as (s & _ & _ & EE). eexists. apply (encodes_at _ _ _ _ _ 0); [rewrite EE; reflexivity|discriminate].
Qed.
Lemma api_decode_cycle a n env inp : well_named a n -> leads_to_cycle (direct_first a) n -> decode_never_returns env a n inp.
Proof.
  intros W C fuel. destruct (resolved a n W) as (tbl & _ & T & ED & _). rewrite ED.
  now apply (decode_cycle a n tbl env T fuel n inp (reach_refl _ _)).
Qed.
Lemma api_encode_cycle a n v out : well_named a n -> v <> VNil -> leads_to_cycle (plain_alias a) n -> encode_never_returns a n v out.
Proof.
  intros W NV C fuel. destruct (resolved a n W) as (tbl & _ & T & _ & EE). rewrite EE.
  now apply (encode_cycle a n tbl T fuel n v out NV (reach_refl _ _)).
Qed.

(** ** Variants *)
Lemma variant_rejects a n b ext l v : well_named a n -> decomposes n b false false ext -> defines a b (DVariant l) ->
  (forall vn x, v = VSlice [VPrim (PString vn); x] -> ~ In vn l) -> encode_rejects a n v.
Proof.
  intros W D V NO out. destruct (api_step _ _ _ _ _ _ W D) as (tbl & t & T & L & Ds & EB & EA & EO & EX & HD & HE).
  destruct (inner_variant _ _ _ _ _ _ _ _ _ _ T L Ds D V) as (F1 & F2 & F3).
  assert (X : exists e, runw (Abi_Encode 1 a n v) out = WDone (Some e) out).
  { rewrite HE. destruct v as [|p|vs|m|i]; cbn [is_nil negb]; unfold enc_body; rewrite ?EA; unfold encodeInner; rewrite ?F1, ?F2, ?F3;
      try (eexists; reflexivity).
    destruct vs as [|x1 [|x2 [|x3 vs]]]; try (eexists; reflexivity); destruct x1 as [|p| | |]; try (eexists; reflexivity);
      destruct p; try (eexists; reflexivity).
    pose proof (find_variant_spec s l 0) as FV. destruct (find_variant 0 s l) as [k|]; [|eexists; reflexivity].
    destruct FV as (i & _ & FA & _). elim (NO s x2 eq_refl). now apply nth_error_In in FA. }
  destruct X as (e & X). exists e. apply (encodes_at _ _ _ _ _ 1); [exact X|discriminate].
Qed.
Lemma variant_index a n b ext l pre rest env : well_named a n -> decomposes n b false false ext -> defines a b (DVariant l) ->
  leb_wf pre -> (length pre <= 10)%nat -> leb_value pre < two64 -> zlen l < two63 ->
  (zlen l <= leb_value pre < two63 -> exists e, decodes env a n (pre ++ rest) (Done (VNil, Some e) rest))
  /\ (two63 <= leb_value pre -> exists m, decodes env a n (pre ++ rest) (Crash m)).
Proof.
  intros W D V LW LL LV ZL. destruct (api_step _ _ _ _ _ _ W D) as (tbl & t & T & L & Ds & EB & EA & EO & EX & HD & HE).
  destruct (inner_variant _ _ _ _ _ _ _ _ _ _ T L Ds D V) as (F1 & F2 & F3).
  pose proof (ReadVaruint_reads_leb pre LW LL LV env rest) as RV.
  assert (P : 0 <= zlen l) by (unfold zlen; lia).
  split.
  - intros R. eexists. apply (decodes_at _ _ _ _ _ 1); [|discriminate]. rewrite HD. unfold dec_body. rewrite EA.
    unfold decodeInner. rewrite F1, F2, F3. rewrite run_dbind, run_dbind, RV. cbv beta iota.
    rewrite (i64_small (leb_value pre)) by lia. replace (zlen l <=? leb_value pre) with true by lia. reflexivity.
  - intros R. eexists. apply (decodes_at _ _ _ _ _ 1); [|discriminate]. rewrite HD. unfold dec_body. rewrite EA.
    unfold decodeInner. rewrite F1, F2, F3. rewrite run_dbind, run_dbind, RV. cbv beta iota.
    assert (NEG : i64 (leb_value pre) < 0) by (unfold i64; lia).
    replace (zlen l <=? i64 (leb_value pre)) with false by lia.
    replace (at_ l (leb_value pre)) with (@None name); [reflexivity|]. unfold at_. destruct (leb_value pre <? 0); [reflexivity|].
    symmetry. apply nth_error_None. unfold zlen in ZL. lia.
Qed.
Lemma variant_any_index a n b ext l i vn x bs x' pre : well_named a n -> decomposes n b false false ext -> defines a b (DVariant l) ->
  nth_error l i = Some vn -> leb_wf pre -> (length pre <= 10)%nat -> leb_value pre = Z.of_nat i -> zlen l < two63 ->
  wf_gval x -> abi_enc a vn x bs x' ->
  forall env rest, decodes env a n (pre ++ bs ++ rest) (Done (VSlice [VPrim (PString vn); x'], None) rest).
Proof.
  intros W D V NE LW LL LV ZL WF A env rest. destruct (api_step _ _ _ _ _ _ W D) as (tbl & t & T & L & Ds & EB & EA & EO & EX & HD & HE).
  destruct (inner_variant _ _ _ _ _ _ _ _ _ _ T L Ds D V) as (F1 & F2 & F3).
  assert (LI : Z.of_nat i < zlen l) by (unfold zlen; apply inj_lt, nth_error_Some; congruence).
  assert (LV' : leb_value pre < two64) by (lia).
  pose proof (ReadVaruint_reads_leb pre LW LL LV' env (bs ++ rest)) as RV.
  destruct (proj1 (codec_sound a n tbl T) vn x bs x' A WF) as (F & HF).
  { eapply reach_step; [apply reach_refl|exact D|exact V|]. now apply nth_error_In in NE. }
  apply (decodes_at _ _ _ _ _ (S F)); [|discriminate]. rewrite HD. unfold dec_body. rewrite EA.
  unfold decodeInner. rewrite F1, F2, F3. rewrite run_dbind, run_dbind, RV. cbv beta iota. rewrite LV.
  rewrite (i64_small (Z.of_nat i)) by lia. replace (zlen l <=? Z.of_nat i) with false by lia.
  unfold at_. replace (Z.of_nat i <? 0) with false by lia. rewrite Nat2Z.id, NE.
  rewrite run_dbind, (proj2 (HF F (Nat.le_refl _)) env rest). reflexivity.
Qed.

(** ** Optional and extension *)
Lemma nil_optional a n b arr ext : well_named a n -> decomposes n b arr true ext ->
  (forall out, encodes a n VNil out (WDone None (out ++ [x00])))
  /\ (forall env rest, decodes env a n (x00 :: rest) (Done (VNil, None) rest)).
Proof.
  intros W D. apply (api_layout a n VNil [x00] VNil W wf_nil). eapply enc_nil; eauto.
Qed.
Lemma nil_required a n b arr ext : well_named a n -> decomposes n b arr false ext -> encode_rejects a n VNil.
Proof.
  intros W D out. destruct (api_step _ _ _ _ _ _ W D) as (tbl & t & T & L & Ds & EB & EA & EO & EX & HD & HE).
  eexists. apply (encodes_at _ _ _ _ _ 1); [|discriminate]. rewrite HE. reflexivity.
Qed.
Lemma ext_at_end a n b arr env : r_end env = EOF -> well_named a n -> decomposes n b arr false true -> acyclic a n ->
  all_known a n -> exists v, decodes env a n [] (Done (v, None) []).
Proof.
  intros EE W D AC AK. destruct (api_decode_ends a n AC env []) as (r & HR). pose proof HR as (NR & F & HF).
  destruct (resolved a n W) as (tbl & _ & T & ED & _). specialize (HF F (Nat.le_refl _)). rewrite ED in HF.
  destruct (proj2 (decodeType_eof env a n tbl EE T F n (reach_refl _ _)) b arr D) as [Q|(v & e & Q & U)]; [congruence|].
  exists v. replace (Done (v, None) []) with r; [exact HR|]. rewrite <- HF, Q. destruct U as [->|[_ U]]; [reflexivity|contradiction].
Qed.
Lemma ext_builtin a n b env : r_end env = EOF -> well_named a n -> decomposes n b false false true ->
  falls_through a n b -> In b builtin_list -> b <> str "eosio::name" ->
  exists z, decoded_type z = Some b /\ z = zero_prim (kind_of z) /\ decodes env a n [] (Done (VPrim z, None) []).
Proof.
  intros EE W D F NB NN. destruct (api_step _ _ _ _ _ _ W D) as (tbl & t & T & L & Ds & EB & EA & EO & EX & HD & HE).
  destruct (proj1 (inner_builtin _ _ _ _ _ _ _ _ _ T L Ds D) F) as (F1 & F2 & F3).
  destruct (builtin_eof env b EE) as [(z & H & DT & Z)|(_ & [H|H])].
  - exists z. split; [exact DT|]. split; [exact Z|]. apply (decodes_at _ _ _ _ _ 1); [|discriminate]. rewrite HD.
    unfold dec_body. rewrite EA. unfold decodeInner. rewrite F1, F2, F3, run_dbind, EB, H. rewrite run_ext_eof, EX. reflexivity.
  - apply builtin_list_of in NB as (B & NB). congruence.
  - contradiction.
Qed.
Lemma ext_array a n b env : r_end env = EOF -> well_named a n -> decomposes n b true false true ->
  decodes env a n [] (Done (VNil, None) []).
Proof.
  intros EE W D. destruct (api_step _ _ _ _ _ _ W D) as (tbl & t & T & L & Ds & EB & EA & EO & EX & HD & HE).
  apply (decodes_at _ _ _ _ _ 1); [|discriminate]. rewrite HD. unfold dec_body. rewrite EA.
  destruct (varuint_eof env EE) as (x & V). rewrite run_dbind, V. cbv beta iota. rewrite run_ext_eof, EX. reflexivity.
Qed.
Lemma ext_optional a n b arr env : r_end env = EOF -> well_named a n -> decomposes n b arr true true ->
  decodes env a n [] (Done (VNil, Some EOF) []).
Proof.
  intros EE W D. destruct (api_step _ _ _ _ _ _ W D) as (tbl & t & T & L & Ds & EB & EA & EO & EX & HD & HE).
  apply (decodes_at _ _ _ _ _ 1); [|discriminate]. rewrite HD.
  destruct (bool_eof env EE) as (x & V). rewrite run_dbind, V. reflexivity.
Qed.

(** ** bytes and eosio::name *)
Lemma api_builtin a n b ext : well_named a n -> decomposes n b false false ext -> falls_through a n b ->
  (forall v, v <> VNil -> Abi_Encode 1 a n v = encodeBuiltin b v)
  /\ (forall env inp, run env (Abi_Decode 1 a n) inp = match run env (decodeBuiltin b) inp with
        | Done r rest => run env (if ext then match r with (v, Some EOF) => DRet (v, None) | r => DRet r end else DRet r) rest
        | Crash m => Crash m | Diverged => Diverged end).
Proof.
  intros W D F. destruct (api_step _ _ _ _ _ _ W D) as (tbl & t & T & L & Ds & EB & EA & EO & EX & HD & HE).
  destruct (proj1 (inner_builtin _ _ _ _ _ _ _ _ _ T L Ds D) F) as (F1 & F2 & F3). split.
  - intros v NV. rewrite HE. destruct v; [congruence|..]; cbn [is_nil negb]; unfold enc_body; rewrite EA; unfold encodeInner;
      now rewrite F1, F2, F3, EB.
  - intros env inp. rewrite HD. unfold dec_body. rewrite EA. unfold decodeInner. rewrite F1, F2, F3, EB, run_dbind.
    destruct (run env (decodeBuiltin b) inp) as [[v e] rest| |]; try reflexivity. unfold ext_eof. rewrite EX.
    destruct ext, e as [[]|]; reflexivity.
Qed.
Lemma bytes_asymmetric a ext n : well_named a n -> decomposes n (str "bytes") false false ext -> falls_through a n (str "bytes") ->
  (forall d out, encodes a n (VPrim (PGoBytes d)) out (WDone None (out ++ d)))
  /\ (forall d, encode_rejects a n (VPrim (PBytes d)))
  /\ (forall d pre env rest, zlen d <= 2 ^ 48 -> leb_wf pre -> (length pre <= 10)%nat -> leb_value pre = zlen d ->
        decodes env a n (pre ++ d ++ rest) (Done (VPrim (PBytes d), None) rest)).
Proof.
  intros W D F. destruct (api_builtin _ _ _ _ W D F) as [HE HD]. split; [|split].
  - intros d out. apply (encodes_at _ _ _ _ _ 1); [|discriminate]. rewrite HE by discriminate.
    change (encodeBuiltin (str "bytes") (VPrim (PGoBytes d))) with (WriteBytes d). apply writes_bytes.
  - intros d out. eexists. apply (encodes_at _ _ _ _ _ 1); [|discriminate]. rewrite HE by discriminate. reflexivity.
  - intros d pre env rest S LW LL LV. apply (decodes_at _ _ _ _ _ 1); [|discriminate]. rewrite HD.
    change (decodeBuiltin (str "bytes")) with (into PBytes (Bytes_UnmarshalABI [])).
    assert (B : run env (into PBytes (Bytes_UnmarshalABI [])) (pre ++ d ++ rest) = Done (VPrim (PBytes d), None) rest).
    { unfold into. rewrite run_dbind.
      destruct (Bytes_hostile [] env pre (d ++ rest) LW LL) as (_ & _ & _ & H); [lia|].
      rewrite LV in H. rewrite (H S d rest eq_refl eq_refl). reflexivity. }
    rewrite B. destruct ext; reflexivity.
Qed.
Lemma eosio_name_asymmetric a n ext : well_named a n -> decomposes n (str "eosio::name") false false ext ->
  falls_through a n (str "eosio::name") ->
  (forall v out, in_u 64 v -> exists bs, fixed_le 8 v bs /\ encodes a n (VPrim (PName v)) out (WDone None (out ++ bs)))
  /\ decode_rejects a n.
Proof.
  intros W D F. destruct (api_builtin _ _ _ _ W D F) as [HE HD]. split.
  - intros v out V. exists (le_put 8 v). split; [apply is_le_put|].
    apply (encodes_at _ _ _ _ _ 1); [|discriminate]. rewrite HE by discriminate.
    change (encodeBuiltin (str "eosio::name") (VPrim (PName v))) with (Name_MarshalABI v).
    unfold Name_MarshalABI. unfold WriteUint64. apply writes_bytes.
  - intros env inp. eexists. apply (decodes_at _ _ _ _ _ 1); [|discriminate]. rewrite HD.
    change (decodeBuiltin (str "eosio::name")) with (DRet (VNil, Some (ErrMsg "unknown type"))). destruct ext; reflexivity.
Qed.

(** ** Maps *)
Lemma lookup_fold {A} (l : list (name * A)) : forall m k,
  (exists x, lookup (fold_left (fun m '(k, v) => assign m k v) l m) k = Some x) <-> In k (map fst l) \/ exists x, lookup m k = Some x.
Proof.
  induction l as [|[k0 v0] l IH]; intros m k; cbn [fold_left map In fst]; [tauto|].
  rewrite IH, lookup_assign. destruct (bytes_eqb k0 k) eqn:E.
  - apply eqb_name in E. subst k0. split; [auto|intros _; right; eauto].
  - assert (k0 <> k) by (intros ->; rewrite eqb_name_refl in E; discriminate). tauto.
Qed.
Lemma declared_fields a n b arr opt ext fs m bs v' : decomposes n b arr opt ext -> inherits a n fs -> fs <> [] ->
  abi_inner a n b (VMap m) bs v' ->
  exists m', v' = VMap m' /\ forall k, (exists x, lookup m' k = Some x) <-> In k (map fst fs).
Proof.
  intros D I NE H. inversion H as [? ? t ? ? ? Hd|? ? fs' ? ? out I' NE' F| |]; subst.
  - destruct (inherits_defines _ _ _ _ _ _ _ _ I D Hd) as (p & own & Q). discriminate Q.
  - rewrite (inherits_fun a n fs I fs' I'). exists (to_map out). split; [reflexivity|]. intros k. unfold to_map.
    rewrite lookup_fold, (fields_names _ _ _ _ _ F). split; [intros [X|(x & X)]; [exact X|discriminate]|auto].
Qed.
Lemma no_fields a n fs :
  (exists p, (p = n \/ path (base_of a) n p) /\
     (path (base_of a) p p \/ exists q b arr opt ext d, base_of a p q /\ decomposes q b arr opt ext /\ defines a b d
                              /\ forall r own, d <> DStruct r own)) ->
  ~ inherits a n fs.
Proof.
  intros (p & PA & BAD). assert (X : forall fs, ~ inherits a p fs).
  { intros f. destruct BAD as [C|(q & b & arr & opt & ext & d & B & D & F & ND)]; [now apply inherits_circular|].
    eapply inherits_nonstruct; eauto. }
  clear BAD. destruct PA as [->|PA]; [apply X|]. revert fs. induction PA as [x y B|x y z B PA IH].
  - intros fs H. destruct B as (b & arr & opt & ext & own & D & F).
    inversion H as [? b0 ? ? ? fs0 D0 F0|? b0 ? ? ? p0 fs0 up D0 F0 Hp]; subst;
      destruct (decomposes_fun _ _ _ _ _ _ _ _ _ D D0) as (<- & _); pose proof (defines_fun _ _ _ _ F F0) as Q; [discriminate|].
    injection Q as <- <-. now apply (X up).
  - intros fs H. destruct B as (b & arr & opt & ext & own & D & F).
    inversion H as [? b0 ? ? ? fs0 D0 F0|? b0 ? ? ? p0 fs0 up D0 F0 Hp]; subst;
      destruct (decomposes_fun _ _ _ _ _ _ _ _ _ D D0) as (<- & _); pose proof (defines_fun _ _ _ _ F F0) as Q; [discriminate|].
    injection Q as <- <-. now apply (IH X up).
Qed.

(** ** Hostile input and failing writers *)
Lemma dynamic_array_hostile a n b ext pre rest env : well_named a n -> decomposes n b true false ext ->
  leb_wf pre -> (length pre <= 10)%nat -> 2 ^ 44 < leb_value pre < 2 ^ 64 ->
  exists m, decodes env a n (pre ++ rest) (Crash m).
Proof.
  intros W D LW LL LV. destruct (api_step _ _ _ _ _ _ W D) as (tbl & t & T & L & Ds & EB & EA & EO & EX & HD & HE).
  pose proof (ReadVaruint_reads_leb pre LW LL ltac:(lia) env rest) as RV.
  eexists. apply (decodes_at _ _ _ _ _ 1); [|discriminate]. rewrite HD. unfold dec_body. rewrite EA, run_dbind, RV.
  cbv beta iota. replace (make_ok 16 (leb_value pre)) with false by (unfold make_ok, max_alloc; lia). reflexivity.
Qed.
Lemma api_truncation a n fuel : no_extension a n -> truncation_safe (Abi_Decode fuel a n).
Proof.
  intros NE. apply strict_truncation. destruct (resolve_outcome a n) as [(tbl & _ & _ & _ & W)|(_ & m & R & M)].
  - destruct (resolved a n W) as (tbl' & _ & T & ED & _). rewrite ED. apply (decodeType_strict a n tbl' T NE fuel n (reach_refl _ _)).
  - destruct (unresolved a n m R M) as (s & _ & ED & _). rewrite ED. constructor.
Qed.
Lemma api_write_faults a n v fuel : no_optional a n -> write_faults_reported (Abi_Encode fuel a n v).
Proof.
  intros NE. apply wstrict_faults. destruct (resolve_outcome a n) as [(tbl & _ & _ & _ & W)|(_ & m & R & M)].
  - destruct (resolved a n W) as (tbl' & _ & T & _ & EE). rewrite EE. apply (encodeType_wstrict a n tbl' T NE fuel n v (reach_refl _ _)).
  - destruct (unresolved a n m R M) as (s & _ & _ & EE). rewrite EE. constructor.
Qed.
Lemma optional_fault_lost a n b arr ext v fuel o k e : well_named a n -> decomposes n b arr true ext ->
  o O = Some (k, e) -> runf o 0 (Abi_Encode (S fuel) a n v) [] = WDone None (firstn k [if is_nil v then x00 else x01]).
Proof.
  intros W D O. destruct (api_step _ _ _ _ _ _ W D) as (tbl & t & T & L & Ds & EB & EA & EO & EX & HD & HE).
  rewrite HE. destruct v; cbn [is_nil negb]; unfold WriteBool, WriteByte, WriteBytes; cbn [ebind runf]; rewrite O; reflexivity.
Qed.
