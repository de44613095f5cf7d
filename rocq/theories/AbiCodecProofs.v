(** The dynamic codec against the specification of the binary form. *)
From Verif Require Import Base Prog AbiPrim BaseProofs SpecWire ProgProofs AbiPrimProofs Chain SpecChain ChainProofs
  Values Leaf SpecLeaf LeafProofs AbiDyn SpecAbi AbiResolveProofs.

(** ** Builtin types *)
Lemma le_put_wrap v : in_u 64 v -> u64 (i64 v) = v.
Proof. unfold in_u, u64, i64. intros H. change (2 ^ 64) with 18446744073709551616 in *. lia. Qed.
Lemma builtin_enc p b : builtin_type p = Some b -> typed_prim p -> encodeBuiltin b (VPrim p) = write_prim p.
Proof.
  intros E T. destruct p; cbn [builtin_type] in E; try discriminate E; injection E as <-; try reflexivity.
  change (encodeBuiltin (str "uint64") (VPrim (PUint64 v))) with (WriteInt64 (i64 v)).
  unfold WriteInt64. cbn [typed_prim] in T. rewrite le_put_wrap by exact T. reflexivity.
Qed.
Lemma into_reads {A} (c : A -> prim) p bs x : reads p bs x -> reads (into c p) bs (VPrim (c x)).
Proof.
  intros H. unfold into. rewrite <- (app_nil_r bs). eapply reads_dbind; [exact H|]. apply reads_ret.
Qed.
Lemma wrap_unreads {A B} (c : A -> B) p bs x :
  (forall a b, c a = c b -> a = b) -> reads (wrap c p) bs (c x) -> reads p bs x.
Proof.
  intros I H env rest. specialize (H env rest). unfold wrap in H. rewrite run_dbind in H.
  destruct (run env p (bs ++ rest)) as [[y e] r|m|]; try discriminate. cbn in H.
  injection H as H1 H2 H3. apply I in H1. now subst.
Qed.
Lemma builtin_dec p b bs : builtin_type p = Some b -> typed_prim p -> bounded_prim p -> wf_keys p ->
  prim_layout p bs -> reads (decodeBuiltin b) bs (VPrim (read_back p)).
Proof.
  intros E T B K L.
  assert (R : reads (read_prim (zero_prim (kind_of p))) bs p).
  { apply leaf_layout_reads; auto; destruct p; reflexivity. }
  destruct p; cbn [builtin_type] in E; try discriminate E; injection E as <-; cbn [kind_of zero_prim read_prim] in R;
    (apply wrap_unreads in R; [|intros ? ? EQ; injection EQ as ->; reflexivity]);
    match goal with |- reads _ _ (VPrim ?q) => let q' := eval cbn [read_back] in q in change q with q' end;
    match goal with |- reads (decodeBuiltin ?b) _ (VPrim (?c ?x)) => exact (into_reads c _ _ _ R) end.
Qed.

(** ** The encoder and decoder, one level at a time *)
Definition enc_body (fuel : nat) (tbl : rtable) (t : rtype) (v : gval) : wr :=
  if t_isArray t then
    match v with
    | VSlice va => etry (WriteVaruint (zlen va)) (encode_elems (encodeInner (encodeType fuel tbl) tbl t) va)
    | _ => ERet (Some (ErrMsg "expected slice"))
    end
  else encodeInner (encodeType fuel tbl) tbl t v.
Definition dec_body (fuel : nat) (tbl : rtable) (t : rtype) : io gval :=
  if t_isArray t then
    '(l, err) <-- ReadVaruint ;;
    match err with
    | Some e => ext_eof t (VNil, Some e)
    | None =>
        if make_ok 16 l then
          '(va, err) <-- decode_elems (decodeInner (decodeType fuel tbl) tbl t) (Z.to_nat (i64 l)) [] ;;
          match err with
          | Some e => DRet (VNil, Some e)
          | None => DRet (VSlice va, None)
          end
        else DPanic "makeslice: len out of range"
    end
  else r <-- decodeInner (decodeType fuel tbl) tbl t ;; ext_eof t r.
Lemma encodeType_S fuel tbl n t v : lookup tbl n = Some t ->
  encodeType (S fuel) tbl n v =
  if t_isOptional t then
    err <~~ WriteBool (negb (is_nil v)) ;;
    if negb (negb (is_nil v)) || match err with Some _ => true | None => false end
    then ERet None else enc_body fuel tbl t v
  else if negb (negb (is_nil v)) then ERet (Some (ErrMsg "found nil for non optional"))
  else enc_body fuel tbl t v.
Proof. intros E. cbn [encodeType]. rewrite E. reflexivity. Qed.
Lemma decodeType_S fuel tbl n t : lookup tbl n = Some t ->
  decodeType (S fuel) tbl n =
  if t_isOptional t then
    '(exists_, err) <-- ReadBool ;;
    match err with
    | Some e => DRet (VNil, Some e)
    | None => if exists_ then dec_body fuel tbl t else DRet (VNil, None)
    end
  else dec_body fuel tbl t.
Proof. intros E. cbn [decodeType]. rewrite E. reflexivity. Qed.

(** ** What the table says *)
Lemma table_lookup a n0 tbl n : table_for a n0 tbl -> reach a n0 n -> exists t, lookup tbl n = Some t /\ describes a t n.
Proof. intros [D L] R. apply D in R as [t E]. exists t. split; [exact E|now apply L]. Qed.
Lemma describes_flags a t n b arr opt ext : describes a t n -> decomposes n b arr opt ext ->
  t_name t = n /\ t_baseName t = b /\ t_isArray t = arr /\ t_isOptional t = opt /\ t_isExtension t = ext.
Proof. intros (N & D & _) D'. pose proof (decomposes_fun _ _ _ _ _ _ _ _ _ D D'). tauto. Qed.
Lemma describes_alias a t n b arr opt ext r : describes a t n -> decomposes n b arr opt ext ->
  (defines a b (DAlias r) <-> t_ref t = Some r).
Proof.
  intros (_ & D & M) D'. destruct (decomposes_fun _ _ _ _ _ _ _ _ _ D D') as (EB & _). rewrite EB in M.
  destruct (t_base t) as [p|], (t_fields t) as [fs|], (t_variant t) as [vs|], (t_ref t) as [r'|]; try contradiction;
    (split; [intros H; pose proof (defines_fun _ _ _ _ H M); congruence|intros H; try discriminate H]).
  injection H as ->. exact M.
Qed.
Lemma describes_variant a t n b arr opt ext l : describes a t n -> decomposes n b arr opt ext ->
  (defines a b (DVariant l) <-> t_variant t = Some l).
Proof.
  intros (_ & D & M) D'. destruct (decomposes_fun _ _ _ _ _ _ _ _ _ D D') as (EB & _). rewrite EB in M.
  destruct (t_base t) as [p|], (t_fields t) as [fs|], (t_variant t) as [vs|], (t_ref t) as [r'|]; try contradiction;
    (split; [intros H; pose proof (defines_fun _ _ _ _ H M); congruence|intros H; try discriminate H]).
  injection H as ->. exact M.
Qed.
Lemma inherits_struct a n fs : inherits a n fs -> exists b arr opt ext p own,
  decomposes n b arr opt ext /\ defines a b (DStruct p own).
Proof. intros H. destruct H; eauto 10. Qed.
Lemma inherits_defines a n fs b arr opt ext d : inherits a n fs -> decomposes n b arr opt ext -> defines a b d ->
  exists p own, d = DStruct p own.
Proof.
  intros H D Hd. apply inherits_struct in H as (b' & arr' & opt' & ext' & p & own & D' & Hs).
  destruct (decomposes_fun _ _ _ _ _ _ _ _ _ D D') as (-> & _).
  exists p, own. eapply defines_fun; eauto.
Qed.
Lemma inherits_reach a n0 n fs : inherits a n fs -> reach a n0 n -> forall f t, In (f, t) fs -> reach a n0 t.
Proof.
  intros H. induction H as [n b arr opt ext fs D F|n b arr opt ext p fs up D F H IH]; intros R f t I.
  - eapply reach_step; [exact R|exact D|exact F|]. cbn. apply (in_map snd) in I. exact I.
  - apply in_app_or in I as [I|I].
    + eapply IH; [|exact I]. eapply reach_step; [exact R|exact D|exact F|]. cbn. auto.
    + eapply reach_step; [exact R|exact D|exact F|]. cbn. right. apply (in_map snd) in I. exact I.
Qed.

(** The four ways to continue with a single value. *)
Inductive shape (a : Abi) (n b : name) : Type :=
| sh_alias r : defines a b (DAlias r) -> shape a n b
| sh_struct fs : inherits a n fs -> fs <> [] -> shape a n b
| sh_variant l : defines a b (DVariant l) -> shape a n b
| sh_builtin : falls_through a n b -> shape a n b.
Lemma inner_alias a t n b arr opt ext r : describes a t n -> decomposes n b arr opt ext ->
  defines a b (DAlias r) -> t_ref t = Some r.
Proof. intros H D. apply (describes_alias _ _ _ _ _ _ _ r H D). Qed.
Lemma inner_struct a n0 tbl t n fs : table_for a n0 tbl -> lookup tbl n = Some t -> describes a t n ->
  inherits a n fs -> fs <> [] -> t_ref t = None /\ allFields tbl (t_name t) = Some fs.
Proof.
  intros TB L H I NE. split.
  - destruct (t_ref t) as [r|] eqn:E; [|reflexivity]. exfalso.
    destruct H as (N & D & M). pose proof (conj N (conj D M) : describes a t n) as H.
    apply (describes_alias _ _ _ _ _ _ _ r H D) in E.
    destruct (inherits_defines _ _ _ _ _ _ _ _ I D E) as (p & own & Q). discriminate Q.
  - destruct H as (N & _). rewrite N. apply (allFields_spec _ _ _ _ TB); [now exists t|auto].
Qed.
Lemma inner_variant a n0 tbl t n b arr opt ext l : table_for a n0 tbl -> lookup tbl n = Some t -> describes a t n ->
  decomposes n b arr opt ext -> defines a b (DVariant l) ->
  t_ref t = None /\ allFields tbl (t_name t) = None /\ t_variant t = Some l.
Proof.
  intros TB L H D V. split; [|split].
  - destruct (t_ref t) as [r|] eqn:E; [|reflexivity]. exfalso.
    apply (describes_alias _ _ _ _ _ _ _ r H D) in E. pose proof (defines_fun _ _ _ _ E V). discriminate.
  - destruct H as (N & _). rewrite N. apply (allFields_none _ _ _ _ TB); [now exists t|].
    intros fs I. destruct (inherits_defines _ _ _ _ _ _ _ _ I D V) as (p & own & Q). discriminate Q.
  - now apply (describes_variant _ _ _ _ _ _ _ l H D).
Qed.
Lemma inner_builtin a n0 tbl t n b arr opt ext : table_for a n0 tbl -> lookup tbl n = Some t -> describes a t n ->
  decomposes n b arr opt ext ->
  (falls_through a n b <-> t_ref t = None /\ allFields tbl (t_name t) = None /\ t_variant t = None).
Proof.
  intros TB L H D. pose proof H as (N & _). rewrite N.
  rewrite (allFields_none _ _ _ n TB) by now exists t. split.
  - intros F. split; [|split].
    + destruct (t_ref t) as [r|] eqn:E; [|reflexivity]. exfalso.
      apply (describes_alias _ _ _ _ _ _ _ r H D) in E.
      destruct F as [F|(p & fs & F & _)]; pose proof (defines_fun _ _ _ _ E F); discriminate.
    + intros fs I. destruct F as [F|(p & fs' & F & G)]; [|now apply G].
      destruct (inherits_defines _ _ _ _ _ _ _ _ I D F) as (p & own & Q). discriminate Q.
    + destruct (t_variant t) as [r|] eqn:E; [|reflexivity]. exfalso.
      apply (describes_variant _ _ _ _ _ _ _ r H D) in E.
      destruct F as [F|(p & fs & F & _)]; pose proof (defines_fun _ _ _ _ E F); discriminate.
  - intros (E1 & E2 & E3). destruct (defines_total a b) as [d Hd]. destruct d as [p fs|l|r|].
    + right. eauto.
    + apply (describes_variant _ _ _ _ _ _ _ l H D) in Hd. congruence.
    + apply (describes_alias _ _ _ _ _ _ _ r H D) in Hd. congruence.
    + now left.
Qed.

(** ** Elementary facts *)
Lemma find_variant_spec vn l : forall i,
  match find_variant i vn l with
  | Some k => exists j, k = i + Z.of_nat j /\ first_at l j vn
  | None => ~ In vn l
  end.
Proof.
  induction l as [|x l IH]; intros i; cbn [find_variant]; [intros []|].
  destruct (bytes_eqb x vn) eqn:E.
  - apply eqb_name in E. subst. exists 0%nat. split; [lia|]. split; [reflexivity|intros; lia].
  - specialize (IH (i + 1)). assert (N : x <> vn) by (intros ->; rewrite eqb_name_refl in E; discriminate).
    destruct (find_variant (i + 1) vn l) as [k|].
    + destruct IH as (j & -> & F1 & F2). exists (S j). split; [lia|]. split; [exact F1|].
      intros [|j'] Hj; cbn; [congruence|]. apply F2. lia.
    + intros [H|H]; [contradiction|auto].
Qed.
Lemma first_at_fun l i j n : first_at l i n -> first_at l j n -> i = j.
Proof.
  intros [A1 A2] [B1 B2]. destruct (Nat.lt_trichotomy i j) as [H|[H|H]]; [|exact H|].
  - now apply B2 in H.
  - now apply A2 in H.
Qed.
Lemma find_variant_first vn l i : first_at l i vn -> find_variant 0 vn l = Some (Z.of_nat i).
Proof.
  intros F. pose proof (find_variant_spec vn l 0) as H. destruct (find_variant 0 vn l) as [k|].
  - destruct H as (j & -> & F'). now rewrite (first_at_fun _ _ _ _ F F').
  - destruct F as [F _]. apply nth_error_In in F. contradiction.
Qed.
Lemma wf_entry m k : wf_gval (VMap m) -> wf_gval (entry m k).
Proof.
  intros H. inversion H as [| | |m' F|]; subst. unfold entry. clear H.
  induction m as [|[k' v] m IH]; cbn [lookup]; [constructor|].
  inversion F as [|x y F1 F2]; subst. destruct (bytes_eqb k' k); [exact F1|auto].
Qed.
Lemma varu_writes v pre : 0 <= v < 2 ^ 28 -> varu v pre -> writes (WriteVaruint v) pre /\ reads ReadVaruint pre v.
Proof.
  intros H [M V]. destruct (varuint_wire v H) as (bs & W & M' & V' & R).
  rewrite (leb_minimal_unique pre bs) by congruence. auto.
Qed.
Lemma reads_bind0 {A B} (p : io A) (f : A * option gerr -> io B) a bs b :
  reads p bs a -> reads (f (a, None)) [] b -> reads (dbind p f) bs b.
Proof. intros H1 H2. rewrite <- (app_nil_r bs). eapply reads_dbind; eauto. Qed.

(** ** Soundness: a value with a binary form is written and read back *)
Scheme enc_mind := Minimality for abi_enc Sort Prop
  with body_mind := Minimality for abi_body Sort Prop
  with inner_mind := Minimality for abi_inner Sort Prop
  with elems_mind := Minimality for abi_elems Sort Prop
  with fields_mind := Minimality for abi_fields Sort Prop.
Combined Scheme abi_mind from enc_mind, body_mind, inner_mind, elems_mind, fields_mind.

Lemma codec_sound a n0 tbl : table_for a n0 tbl ->
  (forall n v bs v', abi_enc a n v bs v' -> wf_gval v -> reach a n0 n ->
     exists F, forall fuel, (F <= fuel)%nat ->
       writes (encodeType fuel tbl n v) bs /\ reads (decodeType fuel tbl n) bs v')
  /\ (forall n b arr v bs v', abi_body a n b arr v bs v' -> wf_gval v -> reach a n0 n ->
     forall opt ext t, decomposes n b arr opt ext -> lookup tbl n = Some t ->
     exists F, forall fuel, (F <= fuel)%nat ->
       writes (enc_body fuel tbl t v) bs /\ reads (dec_body fuel tbl t) bs v')
  /\ (forall n b v bs v', abi_inner a n b v bs v' -> wf_gval v -> reach a n0 n ->
     forall arr opt ext t, decomposes n b arr opt ext -> lookup tbl n = Some t ->
     exists F, forall fuel, (F <= fuel)%nat ->
       writes (encodeInner (encodeType fuel tbl) tbl t v) bs
       /\ reads (decodeInner (decodeType fuel tbl) tbl t) bs v')
  /\ (forall n b vs bs vs', abi_elems a n b vs bs vs' -> Forall wf_gval vs -> reach a n0 n ->
     forall arr opt ext t, decomposes n b arr opt ext -> lookup tbl n = Some t ->
     exists F, forall fuel, (F <= fuel)%nat ->
       writes (encode_elems (encodeInner (encodeType fuel tbl) tbl t) vs) bs
       /\ forall acc, reads (decode_elems (decodeInner (decodeType fuel tbl) tbl t) (length vs) acc) bs (acc ++ vs'))
  /\ (forall fs m bs out, abi_fields a fs m bs out -> wf_gval (VMap m) -> (forall f t, In (f, t) fs -> reach a n0 t) ->
     exists F, forall fuel, (F <= fuel)%nat ->
       writes (encode_fields (encodeType fuel tbl) fs m) bs
       /\ forall acc, reads (decode_fields (decodeType fuel tbl) fs acc) bs
            (VMap (fold_left (fun m '(k, v) => assign m k v) out acc))).
Proof.
  intros TB. apply abi_mind.
  - (* nil for an optional *)
    intros n b arr ext D _ R. destruct (table_lookup _ _ _ _ TB R) as (t & L & Ds).
    destruct (describes_flags _ _ _ _ _ _ _ Ds D) as (N & EB & EA & EO & EE).
    exists 1%nat. intros [|fuel] Hf; [lia|]. rewrite (encodeType_S _ _ _ _ _ L), (decodeType_S _ _ _ _ L), EO. split.
    + intros out. reflexivity.
    + apply (reads_bind0 _ _ false); [|apply reads_ret]. destruct (bool_wire false) as (bs & W & _ & Rd).
      rewrite (writes_det (WriteBool false) [x00] bs) by (exact W || (intros out; reflexivity)). exact Rd.
  - (* some for an optional *)
    intros n b arr ext v bs v' D NN _ IH WF R. destruct (table_lookup _ _ _ _ TB R) as (t & L & Ds).
    destruct (describes_flags _ _ _ _ _ _ _ Ds D) as (N & EB & EA & EO & EE).
    destruct (IH WF R _ _ _ D L) as [F HF]. exists (S F). intros [|fuel] Hf; [lia|].
    destruct (HF fuel ltac:(lia)) as [W Rd].
    rewrite (encodeType_S _ _ _ _ _ L), (decodeType_S _ _ _ _ L), EO.
    assert (NV : is_nil v = false) by (destruct v; [congruence|reflexivity..]). rewrite NV. split.
    + apply (writes_ebind (WriteBool true) _ [x01] bs); [intros out; reflexivity|exact W].
    + apply (reads_dbind _ _ true [x01] bs); [|exact Rd]. destruct (bool_wire true) as (bs' & W' & _ & Rd').
      rewrite (writes_det (WriteBool true) [x01] bs') by (exact W' || (intros out; reflexivity)). exact Rd'.
  - (* required *)
    intros n b arr ext v bs v' D NN _ IH WF R. destruct (table_lookup _ _ _ _ TB R) as (t & L & Ds).
    destruct (describes_flags _ _ _ _ _ _ _ Ds D) as (N & EB & EA & EO & EE).
    destruct (IH WF R _ _ _ D L) as [F HF]. exists (S F). intros [|fuel] Hf; [lia|].
    destruct (HF fuel ltac:(lia)) as [W Rd].
    rewrite (encodeType_S _ _ _ _ _ L), (decodeType_S _ _ _ _ L), EO.
    assert (NV : is_nil v = false) by (destruct v; [congruence|reflexivity..]). rewrite NV. auto.
  - (* array *)
    intros n b vs pre bs vs' SH VU _ IH WF R opt ext t D L.
    destruct (table_lookup _ _ _ _ TB R) as (t' & L' & Ds). rewrite L in L'. injection L' as <-.
    destruct (describes_flags _ _ _ _ _ _ _ Ds D) as (N & EB & EA & EO & EE).
    inversion WF as [| |l Fw| |]; subst l.
    destruct (IH Fw R _ _ _ _ D L) as [F HF]. exists F. intros fuel Hf. destruct (HF fuel Hf) as [W Rd].
    unfold short in SH. pose proof (zlen_nonneg vs) as Z0.
    destruct (varu_writes (zlen vs) pre ltac:(lia) VU) as [Wp Rp].
    unfold enc_body, dec_body. rewrite EA. split; [apply writes_etry; assumption|].
    eapply reads_dbind; [exact Rp|]. cbv beta iota.
    assert (MK : make_ok 16 (zlen vs) = true) by (unfold make_ok, max_alloc; lia).
    rewrite MK. rewrite i64_small by lia. unfold zlen at 1. rewrite Nat2Z.id.
    eapply reads_bind0; [apply (Rd [])|]. apply reads_ret.
  - (* single *)
    intros n b v bs v' _ IH WF R opt ext t D L.
    destruct (table_lookup _ _ _ _ TB R) as (t' & L' & Ds). rewrite L in L'. injection L' as <-.
    destruct (describes_flags _ _ _ _ _ _ _ Ds D) as (N & EB & EA & EO & EE).
    destruct (IH WF R _ _ _ _ D L) as [F HF]. exists F. intros fuel Hf. destruct (HF fuel Hf) as [W Rd].
    unfold enc_body, dec_body. rewrite EA. split; [exact W|].
    eapply reads_bind0; [exact Rd|]. apply reads_ret.
  - (* alias *)
    intros n b r v bs v' Hd _ IH WF R arr opt ext t D L.
    destruct (table_lookup _ _ _ _ TB R) as (t' & L' & Ds). rewrite L in L'. injection L' as <-.
    assert (Rr : reach a n0 r) by (eapply reach_step; [exact R|exact D|exact Hd|cbn; auto]).
    destruct (IH WF Rr) as [F HF]. exists F. intros fuel Hf.
    unfold encodeInner, decodeInner. rewrite (inner_alias _ _ _ _ _ _ _ _ Ds D Hd). now apply HF.
  - (* struct *)
    intros n b fs m bs out Hi NE _ IH WF R arr opt ext t D L.
    destruct (table_lookup _ _ _ _ TB R) as (t' & L' & Ds). rewrite L in L'. injection L' as <-.
    destruct (inner_struct _ _ _ _ _ _ TB L Ds Hi NE) as [E1 E2].
    destruct (IH WF (inherits_reach _ _ _ _ Hi R)) as [F HF]. exists F. intros fuel Hf. destruct (HF fuel Hf) as [W Rd].
    unfold encodeInner, decodeInner. rewrite E1, E2. split; [exact W|]. apply (Rd []).
  - (* variant *)
    intros n b l i vn x pre bs x' Hd FA LT VU _ IH WF R arr opt ext t D L.
    destruct (table_lookup _ _ _ _ TB R) as (t' & L' & Ds). rewrite L in L'. injection L' as <-.
    destruct (inner_variant _ _ _ _ _ _ _ _ _ _ TB L Ds D Hd) as (E1 & E2 & E3).
    assert (Iv : In vn l) by (destruct FA as [FA _]; now apply nth_error_In in FA).
    assert (Rr : reach a n0 vn) by (eapply reach_step; [exact R|exact D|exact Hd|exact Iv]).
    assert (Wx : wf_gval x).
    { inversion WF as [| |l' Fw| |]; subst. inversion Fw as [|? ? _ Fw']; subst. inversion Fw'; subst. assumption. }
    destruct (IH Wx Rr) as [F HF]. exists F. intros fuel Hf. destruct (HF fuel Hf) as [W Rd].
    destruct (varu_writes (Z.of_nat i) pre ltac:(lia) VU) as [Wp Rp].
    unfold encodeInner, decodeInner. rewrite E1, E2, E3, (find_variant_first _ _ _ FA).
    split; [apply writes_etry; assumption|].
    eapply reads_dbind; [exact Rp|]. cbv beta iota.
    destruct FA as [FA _]. assert (LL : (i < length l)%nat) by (apply nth_error_Some; congruence).
    assert (C : (zlen l <=? i64 (Z.of_nat i)) = false) by (rewrite i64_small by lia; unfold zlen; lia).
    rewrite C. unfold at_. destruct (Z.of_nat i <? 0) eqn:E0; [lia|]. rewrite Nat2Z.id, FA.
    eapply reads_bind0; [exact Rd|]. apply reads_ret.
  - (* builtin *)
    intros n b p bs p' FT (BT & BD & LY & ->) WF R arr opt ext t D L.
    destruct (table_lookup _ _ _ _ TB R) as (t' & L' & Ds). rewrite L in L'. injection L' as <-.
    destruct (proj1 (inner_builtin _ _ _ _ _ _ _ _ _ TB L Ds D) FT) as (E1 & E2 & E3).
    destruct (describes_flags _ _ _ _ _ _ _ Ds D) as (N & EB & EA & EO & EE).
    inversion WF as [|p0 [T K]| | |]; subst p0.
    exists 0%nat. intros fuel _. unfold encodeInner, decodeInner. rewrite E1, E2, E3, EB.
    rewrite (builtin_enc _ _ BT T). split; [now apply leaf_layout_writes|now apply builtin_dec].
  - intros n b _ R arr opt ext t D L. exists 0%nat. intros fuel _. split; [apply writes_ret|].
    intros acc. cbn [length decode_elems]. rewrite app_nil_r. apply reads_ret.
  - intros n b v vs bs bs' v' vs' _ IH1 _ IH2 WF R arr opt ext t D L. inversion WF as [|? ? W1 W2]; subst.
    destruct (IH1 W1 R _ _ _ _ D L) as [F1 H1]. destruct (IH2 W2 R _ _ _ _ D L) as [F2 H2].
    exists (Nat.max F1 F2). intros fuel Hf. destruct (H1 fuel ltac:(lia)) as [Wa Ra]. destruct (H2 fuel ltac:(lia)) as [Wb Rb].
    cbn [encode_elems length decode_elems]. split; [now apply writes_etry|].
    intros acc. eapply reads_dbind; [exact Ra|]. cbv beta iota. replace (acc ++ v' :: vs') with ((acc ++ [v']) ++ vs')
      by now rewrite <- app_assoc. apply Rb.
  - intros m _ _. exists 0%nat. intros fuel _. split; [apply writes_ret|]. intros acc. apply reads_ret.
  - intros f t fs m bs bs' v' out _ IH1 _ IH2 WF R.
    destruct (IH1 (wf_entry m f WF) (R f t (or_introl eq_refl))) as [F1 H1].
    destruct (IH2 WF (fun f' t' I => R f' t' (or_intror I))) as [F2 H2].
    exists (Nat.max F1 F2). intros fuel Hf. destruct (H1 fuel ltac:(lia)) as [Wa Ra]. destruct (H2 fuel ltac:(lia)) as [Wb Rb].
    cbn [encode_fields decode_fields]. split; [apply writes_etry; [exact Wa|exact Wb]|].
    intros acc. eapply reads_dbind; [exact Ra|]. cbv beta iota. apply Rb.
Qed.

(** ** Completeness: whatever is written has a binary form *)
Lemma lookup_In {A} (m : list (name * A)) k v : lookup m k = Some v -> In (k, v) m.
Proof.
  induction m as [|[k' v'] m IH]; cbn [lookup]; [discriminate|].
  destruct (bytes_eqb k' k) eqn:E; [|cbn; auto]. apply eqb_name in E. intros H. injection H as ->. subst. now left.
Qed.
Definition builtin_name (B : builtin) : name :=
  match find (fun e => match B, snd e with
    | B_bool, B_bool | B_string, B_string | B_uint8, B_uint8 | B_uint16, B_uint16 | B_uint32, B_uint32
    | B_uint64, B_uint64 | B_uint128, B_uint128 | B_int8, B_int8 | B_int16, B_int16 | B_int32, B_int32
    | B_int64, B_int64 | B_int128, B_int128 | B_float32, B_float32 | B_float64, B_float64 | B_float128, B_float128
    | B_varuint32, B_varuint32 | B_varint32, B_varint32 | B_bytes, B_bytes | B_asset, B_asset
    | B_block_timestamp_type, B_block_timestamp_type | B_checksum160, B_checksum160 | B_checksum256, B_checksum256
    | B_checksum512, B_checksum512 | B_eosio_name, B_eosio_name | B_extended_asset, B_extended_asset | B_name, B_name
    | B_public_key, B_public_key | B_signature, B_signature | B_symbol_code, B_symbol_code | B_symbol, B_symbol
    | B_time_point_sec, B_time_point_sec | B_time_point, B_time_point => true
    | _, _ => false end) builtin_names with
  | Some e => fst e
  | None => []
  end.
Lemma builtin_of_name b B : builtin_of b = Some B -> b = builtin_name B.
Proof.
  intros E. apply lookup_In in E. unfold builtin_names in E. cbn [In] in E.
  repeat (destruct E as [E|E]; [injection E as <- <-; reflexivity|]). destruct E.
Qed.
Lemma encodeBuiltin_type b v out full : runw (encodeBuiltin b v) out = WDone None full ->
  exists p, v = VPrim p /\ (builtin_type p = Some b \/ b = str "bytes" \/ b = str "eosio::name").
Proof.
  unfold encodeBuiltin. destruct (builtin_of b) as [B|] eqn:E; [|discriminate].
  apply builtin_of_name in E. subst b.
  destruct v as [|p| | |]; [destruct B; discriminate| |destruct B; discriminate..].
  intros H. exists p. split; [reflexivity|].
  destruct B; try (right; left; reflexivity); try (right; right; reflexivity); left;
    destruct p; try discriminate H; reflexivity.
Qed.

Definition rec_complete (a : Abi) (n0 : name) (rec : name -> gval -> wr) : Prop :=
  forall n v out full, reach a n0 n -> wf_gval v -> runw (rec n v) out = WDone None full ->
  exists bs v', abi_enc a n v bs v'.
Lemma varu_exists v : 0 <= v < 2 ^ 28 -> exists pre, varu v pre.
Proof. intros H. destruct (varuint_wire v H) as (bs & _ & M & V & _). exists bs. now split. Qed.

Lemma inner_complete a n0 tbl rec n b arr opt ext t : table_for a n0 tbl -> plain_schema a n0 ->
  rec_complete a n0 rec -> reach a n0 n -> decomposes n b arr opt ext -> lookup tbl n = Some t ->
  forall v out full, wf_gval v -> runw (encodeInner rec tbl t v) out = WDone None full ->
  exists bs v', abi_inner a n b v bs v'.
Proof.
  intros TB [PS1 PS2] RC R D L v out full WF H.
  destruct (table_lookup _ _ _ _ TB R) as (t' & L' & Ds). rewrite L in L'. injection L' as <-.
  destruct (describes_flags _ _ _ _ _ _ _ Ds D) as (N & EB & _).
  unfold encodeInner in H. destruct (t_ref t) as [r|] eqn:E1.
  { apply (describes_alias _ _ _ _ _ _ _ r Ds D) in E1.
    destruct (RC r v out full) as (bs & v' & HE); [|exact WF|exact H|].
    - eapply reach_step; [exact R|exact D|exact E1|cbn; auto].
    - exists bs, v'. eapply in_alias; eauto. }
  destruct (allFields tbl (t_name t)) as [fs|] eqn:E2.
  { rewrite N in E2. apply (allFields_spec _ _ _ _ TB) in E2; [|now exists t]. destruct E2 as [I NE].
    destruct v as [| | |m|]; try discriminate H.
    pose proof (inherits_reach _ _ _ _ I R) as Rf.
    assert (G : exists bs out', abi_fields a fs m bs out').
    { clear I NE. revert out H. induction fs as [|[f ty] fs IH]; intros out H; [eexists _, _; constructor|].
      cbn [encode_fields] in H. apply runw_etry_done in H as (mid & H1 & H2).
      destruct (RC ty (entry m f) out mid) as (b1 & v1 & HE);
        [apply (Rf f); now left|now apply wf_entry|exact H1|].
      destruct (IH (fun f' t' I => Rf f' t' (or_intror I)) mid H2) as (b2 & o2 & HF).
      eexists _, _. econstructor; eauto. }
    destruct G as (bs & o & G). eexists _, _. eapply in_struct; eauto. }
  destruct (t_variant t) as [l|] eqn:E3.
  { apply (describes_variant _ _ _ _ _ _ _ l Ds D) in E3.
    destruct v as [| |vs| |]; try discriminate H. destruct vs as [|x1 [|x2 [|x3 vs]]]; try discriminate H;
      destruct x1 as [|p| | |]; try discriminate H; destruct p; try discriminate H.
    pose proof (find_variant_spec s l 0) as FV. destruct (find_variant 0 s l) as [k|]; [|discriminate H].
    destruct FV as (i & -> & FA). apply runw_etry_done in H as (mid & H1 & H2). apply Varuint_done in H1.
    destruct (varu_exists (Z.of_nat i)) as [pre VP]; [lia|].
    destruct (RC s x2 mid full) as (bs & v' & HE); [| |exact H2|].
    - eapply reach_step; [exact R|exact D|exact E3|]. destruct FA as [FA _]. now apply nth_error_In in FA.
    - inversion WF as [| |l' Fw| |]; subst. inversion Fw as [|? ? _ Fw']; subst. inversion Fw'; subst. assumption.
    - eexists _, _. eapply in_variant; eauto. }
  assert (FT : falls_through a n b) by (apply (inner_builtin _ _ _ _ _ _ _ _ _ TB L Ds D); auto).
  rewrite EB in H. destruct (encodeBuiltin_type _ _ _ _ H) as (p & -> & BT).
  destruct BT as [BT|[-> | ->]];
    [|exfalso; apply PS1; unfold uses_builtin; eauto 8|exfalso; apply PS2; unfold uses_builtin; eauto 8].
  inversion WF as [|p0 [T K]| | |]; subst p0. rewrite (builtin_enc _ _ BT T) in H.
  pose proof (leaf_done _ _ _ T H) as BD. destruct (leaf_round p T BD) as (bs & _ & LY & _).
  exists bs, (VPrim (read_back p)). apply in_builtin; [exact FT|]. now split.
Qed.

Lemma codec_complete a n0 tbl : table_for a n0 tbl -> plain_schema a n0 ->
  forall fuel, rec_complete a n0 (encodeType fuel tbl).
Proof.
  intros TB PS. induction fuel as [|fuel IH]; intros n v out full R WF H; [discriminate H|].
  destruct (table_lookup _ _ _ _ TB R) as (t & L & Ds). rewrite (encodeType_S _ _ _ _ _ L) in H.
  pose proof Ds as (_ & D & _). set (b := t_baseName t) in *.
  assert (BODY : forall out full, v <> VNil -> runw (enc_body fuel tbl t v) out = WDone None full ->
            exists bs v', abi_body a n b (t_isArray t) v bs v').
  { clear out full H. intros out full NV H. unfold enc_body in H.
    assert (IN : forall v out full, wf_gval v -> runw (encodeInner (encodeType fuel tbl) tbl t v) out = WDone None full ->
              exists bs v', abi_inner a n b v bs v') by (eapply inner_complete; eauto).
    destruct (t_isArray t).
    - destruct v as [| |vs| |]; try discriminate H. apply runw_etry_done in H as (mid & H1 & H2).
      apply Varuint_done in H1. destruct (varu_exists (zlen vs)) as [pre VP]; [pose proof (zlen_nonneg vs); lia|].
      inversion WF as [| |l Fw| |]; subst l.
      assert (G : exists bs vs', abi_elems a n b vs bs vs').
      { clear H1 VP NV WF. revert mid H2. induction vs as [|x vs IHv]; intros mid H2; [eexists _, _; constructor|].
        inversion Fw as [|? ? W1 W2]; subst. cbn [encode_elems] in H2. apply runw_etry_done in H2 as (m2 & H1 & H2).
        destruct (IN _ _ _ W1 H1) as (b1 & v1 & I1). destruct (IHv W2 _ H2) as (b2 & v2 & I2).
        eexists _, _. econstructor; eauto. }
      destruct G as (bs & vs' & G). eexists _, _. econstructor; eauto.
    - destruct (IN _ _ _ WF H) as (bs & v' & G). exists bs, v'. now constructor. }
  destruct v as [|p|vs|m|i] eqn:EV; cbn [is_nil negb] in H.
  { destruct (t_isOptional t) eqn:EO; [|discriminate H]. exists [x00], VNil. econstructor. exact D. }
  all: rewrite <- EV in *; assert (NV : v <> VNil) by congruence.
  all: destruct (t_isOptional t) eqn:EO;
    [rewrite runw_ebind in H; cbn [orb negb] in H;
     assert (EW : runw (WriteBool true) out = WDone None (out ++ [x01])) by reflexivity;
     rewrite EW in H; destruct (BODY _ _ NV H) as (bs & v' & G); exists (x01 :: bs), v'; eapply enc_opt; eauto
    |destruct (BODY _ _ NV H) as (bs & v' & G); exists bs, v'; eapply enc_req; eauto].
Qed.

(** ** What comes back is a fixed point *)
Lemma assign_new {A} (m : list (name * A)) k v : ~ In k (map fst m) -> assign m k v = m ++ [(k, v)].
Proof.
  induction m as [|[k' v'] m IH]; cbn [assign map In app fst]; [reflexivity|]. intros H.
  rewrite eqb_name_neq by tauto. rewrite IH by tauto. reflexivity.
Qed.
Lemma fold_assign_new {A} (l : list (name * A)) : forall m, NoDup (map fst m ++ map fst l) ->
  fold_left (fun m '(k, v) => assign m k v) l m = m ++ l.
Proof.
  induction l as [|[k v] l IH]; intros m H; cbn [fold_left]; [now rewrite app_nil_r|].
  cbn [map fst] in H. rewrite assign_new.
  - rewrite IH; [now rewrite <- app_assoc|]. rewrite map_app, <- app_assoc. exact H.
  - apply NoDup_remove_2 in H. intros I. apply H. apply in_or_app. now left.
Qed.
Lemma to_map_id l : NoDup (map fst l) -> to_map l = l.
Proof. intros H. unfold to_map. now rewrite fold_assign_new. Qed.
Lemma lookup_nodup {A} (l : list (name * A)) k v : NoDup (map fst l) -> In (k, v) l -> lookup l k = Some v.
Proof.
  induction l as [|[k' v'] l IH]; cbn [lookup map fst]; [intros _ []|]. intros ND I. inversion ND as [|? ? N1 N2]; subst.
  destruct I as [I|I]; [injection I as -> ->; now rewrite eqb_name_refl|].
  rewrite eqb_name_neq; [auto|]. intros ->. apply N1. apply (in_map fst) in I. exact I.
Qed.
Lemma fields_names a fs m bs out : abi_fields a fs m bs out -> map fst out = map fst fs.
Proof. intros H. induction H; cbn; congruence. Qed.

Lemma enc_nonnil a :
  (forall n v bs v', abi_enc a n v bs v' -> v <> VNil -> v' <> VNil)
  /\ (forall n b arr v bs v', abi_body a n b arr v bs v' -> v <> VNil -> v' <> VNil)
  /\ (forall n b v bs v', abi_inner a n b v bs v' -> v <> VNil -> v' <> VNil)
  /\ (forall n b vs bs vs', abi_elems a n b vs bs vs' -> True)
  /\ (forall fs m bs out, abi_fields a fs m bs out -> True).
Proof. apply abi_mind; auto; try discriminate; intros; contradiction. Qed.

Lemma enc_fixed a n0 : distinct_fields a n0 ->
  (forall n v bs v', abi_enc a n v bs v' -> reach a n0 n -> abi_enc a n v' bs v')
  /\ (forall n b arr v bs v', abi_body a n b arr v bs v' -> forall opt ext, decomposes n b arr opt ext -> reach a n0 n -> abi_body a n b arr v' bs v')
  /\ (forall n b v bs v', abi_inner a n b v bs v' -> forall arr opt ext, decomposes n b arr opt ext -> reach a n0 n -> abi_inner a n b v' bs v')
  /\ (forall n b vs bs vs', abi_elems a n b vs bs vs' -> forall arr opt ext, decomposes n b arr opt ext -> reach a n0 n -> length vs' = length vs /\ abi_elems a n b vs' bs vs')
  /\ (forall fs m bs out, abi_fields a fs m bs out -> (forall f t, In (f, t) fs -> reach a n0 t) ->
        forall M, (forall f v, In (f, v) out -> lookup M f = Some v) -> abi_fields a fs M bs out).
Proof.
  intros DF. destruct (enc_nonnil a) as (NN1 & NN2 & _). apply abi_mind.
  - intros. econstructor; eauto.
  - intros n b arr ext v bs v' D NV B IH R. eapply enc_opt; [exact D|eapply NN2; eauto|]. eapply IH; eauto.
  - intros n b arr ext v bs v' D NV B IH R. eapply enc_req; [exact D|eapply NN2; eauto|]. eapply IH; eauto.
  - intros n b vs pre bs vs' SH VU _ IH opt ext D R. destruct (IH _ _ _ D R) as [LN IH'].
    assert (EZ : zlen vs' = zlen vs) by (unfold zlen; now rewrite LN).
    apply body_array; [unfold short in *; now rewrite EZ|now rewrite EZ|exact IH'].
  - intros n b v bs v' _ IH opt ext D R. constructor. eapply IH; eauto.
  - intros n b t v bs v' Hd _ IH arr opt ext D R. eapply in_alias; [exact Hd|]. apply IH.
    eapply reach_step; [exact R|exact D|exact Hd|cbn; auto].
  - intros n b fs m bs out Hi NE HF IH arr opt ext D R. pose proof (DF n fs R Hi) as ND.
    rewrite <- (fields_names _ _ _ _ _ HF) in ND.
    rewrite (to_map_id _ ND). rewrite <- (to_map_id _ ND) at 2. apply in_struct with (fs := fs); auto.
    apply IH; [now apply (inherits_reach _ _ _ _ Hi R)|]. intros f v I. now apply lookup_nodup.
  - intros n b l i vn x pre bs x' Hd FA LT VU _ IH arr opt ext D R. apply in_variant with (l := l) (i := i); auto. apply IH.
    eapply reach_step; [exact R|exact D|exact Hd|]. destruct FA as [FA _]. now apply nth_error_In in FA.
  - intros n b p bs p' FT (BT & BD & LY & ->) arr opt ext D R. apply in_builtin; [exact FT|].
    destruct p; (split; [exact BT|split; [exact BD|split; [exact LY|reflexivity]]]).
  - intros. split; [reflexivity|constructor].
  - intros n b v vs bs bs' v' vs' _ IH1 _ IH2 arr opt ext D R. destruct (IH2 _ _ _ D R) as [LN IH2'].
    split; [cbn; congruence|]. constructor; [eapply IH1; eauto|exact IH2'].
  - intros. constructor.
  - intros f t fs m bs bs' v' out _ IH1 _ IH2 R M HM.
    assert (EM : entry M f = v') by (unfold entry; rewrite (HM f v'); [reflexivity|now left]).
    constructor; [rewrite EM; apply IH1; apply (R f); now left|].
    apply IH2; [intros f' t' I; apply (R f'); now right|intros f' w I; apply HM; now right].
Qed.
