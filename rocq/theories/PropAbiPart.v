(** C87: what a failed Abi.Encode has written. *)
From Coq Require Import String.
From Verif Require Import Base Prog AbiPrim BaseProofs SpecWire ProgProofs AbiPrimProofs Chain SpecChain ChainProofs
  Values Leaf SpecLeaf LeafProofs AbiDyn SpecAbi AbiResolveProofs AbiCodecProofs AbiTermProofs AbiStrictProofs AbiApiProofs AbiSample.
From Verif Require Import PanicProofs SpecAbiPart.
Import ListNotations.
Local Open Scope Z_scope.

Lemma inner_stable tbl t fuel fuel' v out : (fuel <= fuel')%nat ->
  runw (encodeInner (encodeType fuel tbl) tbl t v) out <> WDiverged ->
  runw (encodeInner (encodeType fuel' tbl) tbl t v) out = runw (encodeInner (encodeType fuel tbl) tbl t v) out.
Proof.
  intros L. induction L as [|fuel' L IH]; intros H; [reflexivity|].
  destruct (ele_run _ _ (encodeInner_mono _ _ tbl t (encodeType_mono tbl fuel') v) out) as [D|E]; [|rewrite E; auto].
  rewrite IH in D by exact H. contradiction.
Qed.
(** What succeeds has written the form of the value. *)
Lemma type_done a n0 tbl fuel n v out full : table_for a n0 tbl -> plain_schema a n0 -> reach a n0 n -> wf_gval v ->
  runw (encodeType fuel tbl n v) out = WDone None full -> exists bs v', abi_enc a n v bs v' /\ full = out ++ bs.
Proof.
  intros T P R W H. destruct (codec_complete a n0 tbl T P fuel n v out full R W H) as (bs & v' & A). exists bs, v'. split; [exact A|].
  destruct (proj1 (codec_sound a n0 tbl T) _ _ _ _ A W R) as [F S]. destruct (S (Nat.max F fuel) ltac:(lia)) as [Wr _].
  specialize (Wr out). rewrite (encodeType_stable tbl fuel) in Wr by (lia || congruence). congruence.
Qed.
Lemma inner_done a n0 tbl fuel n b arr opt ext t v out full : table_for a n0 tbl -> plain_schema a n0 -> reach a n0 n -> wf_gval v ->
  decomposes n b arr opt ext -> lookup tbl n = Some t ->
  runw (encodeInner (encodeType fuel tbl) tbl t v) out = WDone None full -> exists bs v', abi_inner a n b v bs v' /\ full = out ++ bs.
Proof.
  intros T P R W D L H.
  destruct (inner_complete a n0 tbl (encodeType fuel tbl) n b arr opt ext t T P (codec_complete a n0 tbl T P fuel) R D L v out full W H) as (bs & v' & A).
  exists bs, v'. split; [exact A|].
  destruct (proj1 (proj2 (proj2 (codec_sound a n0 tbl T))) _ _ _ _ _ A W R _ _ _ _ D L) as [F S]. destruct (S (Nat.max F fuel) ltac:(lia)) as [Wr _].
  specialize (Wr out). rewrite (inner_stable tbl t fuel) in Wr by (lia || congruence). congruence.
Qed.
Lemma now_failed (e' : gerr) out (e : gerr) full : runw (ERet (Some e')) out = WDone (Some e) full -> e = e' /\ full = out.
Proof. cbn [runw]. intros H. split; congruence. Qed.
Lemma etry_failed p q out e full : runw (etry p q) out = WDone (Some e) full ->
  runw p out = WDone (Some e) full \/ exists mid, runw p out = WDone None mid /\ runw q mid = WDone (Some e) full.
Proof.
  unfold etry. rewrite runw_ebind. destruct (runw p out) as [[e'|] mid|m mid|]; try discriminate; eauto.
Qed.
Lemma builtin_failed b v out e full : wf_gval v -> b <> str "bytes" -> b <> str "eosio::name" ->
  runw (encodeBuiltin b v) out = WDone (Some e) full -> full = out /\ e = ErrMsg "expected builtin type" /\ forall p, v = VPrim p -> builtin_type p <> Some b.
Proof.
  intros W NB NE H.
  assert (Q : forall p, v = VPrim p -> builtin_type p <> Some b).
  { intros p -> B. inversion W as [|p0 [T K]| | |]; subst p0. rewrite (builtin_enc _ _ B T) in H. exact (quiet_prim p _ _ _ H). }
  assert (X : full = out /\ e = ErrMsg "expected builtin type"); [|destruct X; auto]. unfold encodeBuiltin in H. destruct (builtin_of b) as [B|] eqn:EB; [|cbn [runw] in H; split; congruence].
  apply builtin_of_name in EB. subst b.
  destruct v as [|p| | |]; [destruct B; cbn [runw] in H; split; congruence| |destruct B; cbn [runw] in H; split; congruence..].
  specialize (Q p eq_refl). destruct B; try (elim NB; reflexivity); try (elim NE; reflexivity);
    destruct p; try (cbn [runw] in H; split; congruence); elim Q; reflexivity.
Qed.
Lemma fields_failed a n0 tbl fuel m : table_for a n0 tbl -> plain_schema a n0 -> wf_gval (VMap m) ->
  (forall n v out e full, reach a n0 n -> wf_gval v -> runw (encodeType fuel tbl n v) out = WDone (Some e) full -> exists bs, fail_enc a n v bs e /\ full = out ++ bs) ->
  forall fs out e full, (forall f t, In (f, t) fs -> reach a n0 t) -> runw (encode_fields (encodeType fuel tbl) fs m) out = WDone (Some e) full ->
  exists fs1 f t fs2 b1 o b2, fs = fs1 ++ (f, t) :: fs2 /\ abi_fields a fs1 m b1 o /\ fail_enc a t (entry m f) b2 e /\ full = out ++ b1 ++ b2.
Proof.
  intros T P W IH. induction fs as [|[f t] fs IHf]; intros out e full R H; [discriminate H|]. cbn [encode_fields] in H.
  change (match lookup m f with Some v => v | None => VNil end) with (entry m f) in H.
  apply etry_failed in H as [H|(mid & H1 & H2)].
  - apply IH in H as (b2 & A & ->); [|apply (R f); now left|now apply wf_entry]. exists [], f, t, fs, [], [], b2. repeat split; [constructor|exact A].
  - destruct (type_done a n0 tbl fuel t (entry m f) out mid T P (R f t (or_introl eq_refl)) (wf_entry m f W) H1) as (b0 & v' & A & ->).
    apply IHf in H2 as (fs1 & g & u & fs2 & b1 & o & b2 & -> & F & G & ->); [|intros f' t' I; apply (R f'); now right].
    exists ((f, t) :: fs1), g, u, fs2, (b0 ++ b1), ((f, v') :: o), b2. repeat split; [now constructor|exact G|now rewrite <- !app_assoc].
Qed.
Lemma elems_failed a n0 tbl fuel n b arr opt ext t : table_for a n0 tbl -> plain_schema a n0 -> reach a n0 n -> decomposes n b arr opt ext -> lookup tbl n = Some t ->
  (forall v out e full, wf_gval v -> runw (encodeInner (encodeType fuel tbl) tbl t v) out = WDone (Some e) full -> exists bs, fail_inner a n b v bs e /\ full = out ++ bs) ->
  forall l out e full, Forall wf_gval l -> runw (encode_elems (encodeInner (encodeType fuel tbl) tbl t) l) out = WDone (Some e) full ->
  exists vs x ws b1 vs' b2, l = vs ++ x :: ws /\ abi_elems a n b vs b1 vs' /\ fail_inner a n b x b2 e /\ full = out ++ b1 ++ b2.
Proof.
  intros T P R D L IH. induction l as [|x l IHl]; intros out e full W H; [discriminate H|]. cbn [encode_elems] in H.
  inversion W as [|? ? W1 W2]; subst. apply etry_failed in H as [H|(mid & H1 & H2)].
  - apply IH in H as (b2 & A & ->); [|exact W1]. exists [], x, l, [], [], b2. repeat split; [constructor|exact A].
  - destruct (inner_done a n0 tbl fuel n b arr opt ext t x out mid T P R W1 D L H1) as (b0 & v' & A & ->).
    apply IHl in H2 as (vs & y & ws & b1 & vs' & b2 & -> & F & G & ->); [|exact W2].
    exists (x :: vs), y, ws, (b0 ++ b1), (v' :: vs'), b2. repeat split; [now constructor|exact G|now rewrite <- !app_assoc].
Qed.
Lemma varuint_wrote v out mid : 0 <= v -> runw (WriteVaruint v) out = WDone None mid -> exists pre, v < 2 ^ 28 /\ varu v pre /\ mid = out ++ pre.
Proof.
  intros N H. pose proof (Varuint_done _ _ _ H) as B. destruct (varu_exists v) as [pre V]; [lia|]. exists pre. split; [lia|]. split; [exact V|].
  destruct (varu_writes v pre) as [Wr _]; [lia|exact V|]. rewrite Wr in H. congruence.
Qed.
Lemma type_failed a n0 tbl : table_for a n0 tbl -> plain_schema a n0 -> forall fuel n v out e full, reach a n0 n -> wf_gval v ->
  runw (encodeType fuel tbl n v) out = WDone (Some e) full -> exists bs, fail_enc a n v bs e /\ full = out ++ bs.
Proof.
  intros T P. induction fuel as [|fuel IH]; intros n v out e full R W H; [discriminate H|].
  destruct (table_lookup _ _ _ _ T R) as (t & L & Ds). pose proof Ds as (N & D & _). rewrite (encodeType_S _ _ _ _ _ L) in H. set (b := t_baseName t) in *.
  assert (IN : forall v out e full, wf_gval v -> runw (encodeInner (encodeType fuel tbl) tbl t v) out = WDone (Some e) full ->
    exists bs, fail_inner a n b v bs e /\ full = out ++ bs).
  { clear v out e full W H. intros v out e full W H. unfold encodeInner in H. destruct (t_ref t) as [r|] eqn:E1.
    { apply (describes_alias _ _ _ _ _ _ _ r Ds D) in E1. apply IH in H as (bs & A & ->); [|eapply reach_step; [exact R|exact D|exact E1|now left]|exact W].
      exists bs. split; [eapply fi_alias; eassumption|reflexivity]. }
    destruct (allFields tbl (t_name t)) as [fs|] eqn:E2.
    { rewrite N in E2. apply (allFields_spec _ _ _ _ T) in E2; [|now exists t]. destruct E2 as [I NE].
      destruct v as [| | |m|]; [..|]; try (apply now_failed in H as [-> ->]; exists []; split; [eapply fi_not_map; [exact I|exact NE|discriminate]|now rewrite app_nil_r]).
      apply (fields_failed a n0 tbl fuel m T P W IH) in H as (fs1 & f & u & fs2 & b1 & o & b2 & -> & F & G & ->); [|exact (inherits_reach _ _ _ _ I R)].
      exists (b1 ++ b2). split; [eapply fi_field; eassumption|reflexivity]. }
    destruct (t_variant t) as [l|] eqn:E3.
    { apply (describes_variant _ _ _ _ _ _ _ l Ds D) in E3.
      assert (BAD : forall e', runw (ERet (Some e')) out = WDone (Some e) full -> variant_fault l v e' ->
        exists bs, fail_inner a n b v bs e /\ full = out ++ bs).
      { intros e' H' Q. apply now_failed in H' as [-> ->]. exists []. split; [eapply fi_not_variant; eassumption|now rewrite app_nil_r]. }
      destruct v as [|p|vs|m|i]; try (eapply BAD; [exact H|apply vf_not_slice; discriminate]).
      assert (TWO : length vs <> 2%nat \/ exists x1 x2, vs = [x1; x2]).
      { destruct vs as [|x1 [|x2 [|x3 vs]]]; [left; discriminate..|right; eauto|left; discriminate]. }
      destruct TWO as [TWO|(x1 & x2 & ->)].
      { apply BAD with (ErrMsg "expected two elements"); [|now apply vf_not_two]. rewrite <- H. clear - TWO.
        destruct vs as [|x1 [|x2 [|x3 vs]]]; [reflexivity| |elim TWO; reflexivity|]; destruct x1 as [|p| | |]; try reflexivity; destruct p; reflexivity. }
      destruct x1 as [|p| | |]; try (eapply BAD; [exact H|apply vf_not_named; discriminate]); destruct p; try (eapply BAD; [exact H|apply vf_not_named; discriminate]).
      pose proof (find_variant_spec s l 0) as FV. destruct (find_variant 0 s l) as [k|]; [|eapply BAD; [exact H|now apply vf_unknown]].
      destruct FV as (i & -> & FA). apply etry_failed in H as [H|(mid & H1 & H2)]; [elim (quiet_varuint _ _ _ _ H)|].
      apply varuint_wrote in H1 as (pre & B & V & ->); [|lia].
      apply IH in H2 as (bs & A & ->).
      - exists (pre ++ bs). split; [eapply fi_variant; eassumption|now rewrite <- app_assoc].
      - eapply reach_step; [exact R|exact D|exact E3|]. destruct FA as [FA _]. now apply nth_error_In in FA.
      - inversion W as [| |l' Fw| |]; subst. inversion Fw as [|? ? _ Fw']; subst. inversion Fw'; subst. assumption. }
    assert (FT : falls_through a n b) by (apply (inner_builtin _ _ _ _ _ _ _ _ _ T L Ds D); auto).
    destruct P as [P1 P2]. apply builtin_failed in H as (-> & -> & Q); [|exact W|..].
    - exists []. split; [now apply fi_builtin|now rewrite app_nil_r].
    - intros EB. apply P1. fold b in EB. rewrite EB in *. unfold uses_builtin. eauto 8.
    - intros EB. apply P2. fold b in EB. rewrite EB in *. unfold uses_builtin. eauto 8. }
  assert (BODY : forall out e full, runw (enc_body fuel tbl t v) out = WDone (Some e) full -> exists bs, fail_body a n b (t_isArray t) v bs e /\ full = out ++ bs).
  { clear out e full H. intros out e full H. unfold enc_body in H. destruct (t_isArray t) eqn:EA.
    - destruct v as [|p|vs|m|i]; try (apply now_failed in H as [-> ->]; exists []; split; [apply fb_not_list; discriminate|now rewrite app_nil_r]).
      apply etry_failed in H as [H|(mid & H1 & H2)]; [elim (quiet_varuint _ _ _ _ H)|].
      apply varuint_wrote in H1 as (pre & B & V & ->); [|apply zlen_nonneg].
      inversion W as [| |l Fw| |]; subst l.
      apply (elems_failed a n0 tbl fuel n b _ _ _ t T P R D L IN) in H2 as (xs & x & ws & b1 & vs' & b2 & -> & F & G & ->); [|exact Fw].
      exists (pre ++ b1 ++ b2). split; [eapply fb_element; eassumption|now rewrite <- app_assoc].
    - apply IN in H as (bs & A & ->); [|exact W]. exists bs. split; [now apply fb_single|reflexivity]. }
  assert (C : v = VNil \/ v <> VNil) by (destruct v; (now left) || (right; discriminate)). destruct C as [->|NV].
  - cbn [is_nil negb] in H. destruct (t_isOptional t) eqn:EO.
    + rewrite runw_ebind in H. discriminate H.
    + apply now_failed in H as [-> ->]. exists []. split; [eapply fe_nil; exact D|now rewrite app_nil_r].
  - assert (IN' : is_nil v = false) by (destruct v; [congruence|reflexivity..]). rewrite IN' in H. cbn [negb] in H. destruct (t_isOptional t) eqn:EO.
    + rewrite runw_ebind in H. assert (EW : runw (WriteBool true) out = WDone None (out ++ [x01])) by reflexivity. rewrite EW in H. cbn [orb] in H.
      apply BODY in H as (bs & A & ->). exists (x01 :: bs). split; [eapply fe_opt; eassumption|now rewrite <- app_assoc].
    + apply BODY in H as (bs & A & ->). exists bs. split; [eapply fe_req; eassumption|reflexivity].
Qed.

(** What was written before the error, and which error it is. *)
Theorem C87_written a n v out e full : plain_schema a n -> wf_gval v -> encodes a n v out (WDone (Some e) full) ->
  exists bs, fail_enc a n v bs e /\ full = out ++ bs.
Proof.
  intros P W [_ (F & H)]. specialize (H F (Nat.le_refl _)). unfold Abi_Encode, with_types in H.
  destruct (resolve_outcome a n) as [(tbl & _ & E & T & _)|(Q & _)].
  - rewrite E in H. exact (type_failed a n tbl T P F n v out e full (reach_refl _ _) W H).
  - destruct (Q _ (Nat.le_refl _)) as (s & Q'). rewrite Q' in H. discriminate H.
Qed.
Print Assumptions C87_written.

(** ** The other way round: such a value is refused, with these bytes written *)
Definition fails (p : wr) (bs : list byte) (e : gerr) : Prop := forall out, runw p out = WDone (Some e) (out ++ bs).
Lemma fails_now e : fails (ERet (Some e)) [] e.
Proof. intros out. cbn [runw]. now rewrite app_nil_r. Qed.
Lemma fails_first p q bs e : fails p bs e -> fails (etry p q) bs e.
Proof. intros F out. unfold etry. now rewrite runw_ebind, F. Qed.
Lemma fails_then p q b1 b2 e : writes p b1 -> fails q b2 e -> fails (etry p q) (b1 ++ b2) e.
Proof. intros W F out. unfold etry. now rewrite runw_ebind, W, F, app_assoc. Qed.
Lemma fields_app rec m ys b1 b2 e : forall xs, writes (encode_fields rec xs m) b1 -> fails (encode_fields rec ys m) b2 e -> fails (encode_fields rec (xs ++ ys) m) (b1 ++ b2) e.
Proof.
  intros xs W F out. pose proof (F (out ++ b1)) as R. specialize (W out). rewrite app_assoc.
  assert (G : forall full xs out mid, runw (encode_fields rec xs m) out = WDone None mid -> runw (encode_fields rec ys m) mid = WDone (Some e) full ->
    runw (encode_fields rec (xs ++ ys) m) out = WDone (Some e) full).
  { clear. induction xs as [|[f t] xs IH]; intros out mid W R.
    - cbn [encode_fields runw app] in *. congruence.
    - cbn [encode_fields app] in *. apply runw_etry_done in W as (o & W1 & W2). unfold etry. rewrite runw_ebind, W1. exact (IH _ _ W2 R). }
  exact (G _ xs out (out ++ b1) W R).
Qed.
Lemma elems_app f ys b1 b2 e : forall xs, writes (encode_elems f xs) b1 -> fails (encode_elems f ys) b2 e -> fails (encode_elems f (xs ++ ys)) (b1 ++ b2) e.
Proof.
  intros xs W F out. pose proof (F (out ++ b1)) as R. specialize (W out). rewrite app_assoc.
  assert (G : forall full xs out mid, runw (encode_elems f xs) out = WDone None mid -> runw (encode_elems f ys) mid = WDone (Some e) full ->
    runw (encode_elems f (xs ++ ys)) out = WDone (Some e) full).
  { clear. induction xs as [|x xs IH]; intros out mid W R.
    - cbn [encode_elems runw app] in *. congruence.
    - cbn [encode_elems app] in *. apply runw_etry_done in W as (o & W1 & W2). unfold etry. rewrite runw_ebind, W1. exact (IH _ _ W2 R). }
  exact (G _ xs out (out ++ b1) W R).
Qed.
Lemma builtin_refused b v : b <> str "bytes" -> b <> str "eosio::name" -> (forall p, v = VPrim p -> builtin_type p <> Some b) -> fails (encodeBuiltin b v) [] (ErrMsg "expected builtin type").
Proof.
  intros NB NE Q. assert (X : encodeBuiltin b v = ERet (Some (ErrMsg "expected builtin type"))); [|rewrite X; apply fails_now].
  unfold encodeBuiltin. destruct (builtin_of b) as [B|] eqn:EB; [|reflexivity].
  apply builtin_of_name in EB. subst b.
  destruct v as [|p| | |]; [destruct B; reflexivity| |destruct B; reflexivity..].
  specialize (Q p eq_refl). destruct B; try (elim NB; reflexivity); try (elim NE; reflexivity);
    destruct p; try (reflexivity); elim Q; reflexivity.
Qed.

Scheme fail_mind := Minimality for fail_enc Sort Prop
  with fail_body_mind := Minimality for fail_body Sort Prop
  with fail_inner_mind := Minimality for fail_inner Sort Prop.
Combined Scheme fails_mind from fail_mind, fail_body_mind, fail_inner_mind.

Lemma refused a n0 tbl : table_for a n0 tbl -> plain_schema a n0 ->
  (forall n v bs e, fail_enc a n v bs e -> wf_gval v -> reach a n0 n -> exists F, forall fuel, (F <= fuel)%nat -> fails (encodeType fuel tbl n v) bs e)
  /\ (forall n b arr v bs e, fail_body a n b arr v bs e -> wf_gval v -> reach a n0 n -> forall opt ext t, decomposes n b arr opt ext -> lookup tbl n = Some t ->
     exists F, forall fuel, (F <= fuel)%nat -> fails (enc_body fuel tbl t v) bs e)
  /\ (forall n b v bs e, fail_inner a n b v bs e -> wf_gval v -> reach a n0 n -> forall arr opt ext t, decomposes n b arr opt ext -> lookup tbl n = Some t ->
     exists F, forall fuel, (F <= fuel)%nat -> fails (encodeInner (encodeType fuel tbl) tbl t v) bs e).
Proof.
  intros T P. apply fails_mind.
  - intros n b arr ext D _ R. destruct (table_lookup _ _ _ _ T R) as (t & L & Ds). destruct (describes_flags _ _ _ _ _ _ _ Ds D) as (N & EB & EA & EO & EE).
    exists 1%nat. intros [|fuel] Hf; [lia|]. rewrite (encodeType_S _ _ _ _ _ L), EO. cbn [is_nil negb]. apply fails_now.
  - intros n b arr ext v bs e D NV _ IH W R. destruct (table_lookup _ _ _ _ T R) as (t & L & Ds). destruct (describes_flags _ _ _ _ _ _ _ Ds D) as (N & EB & EA & EO & EE).
    destruct (IH W R _ _ _ D L) as [F HF]. exists (S F). intros [|fuel] Hf; [lia|]. specialize (HF fuel ltac:(lia)). rewrite (encodeType_S _ _ _ _ _ L), EO.
    assert (IN : is_nil v = false) by (destruct v; [congruence|reflexivity..]). rewrite IN. cbn [negb]. intros out. pose proof (HF (out ++ [x01])) as Q.
    rewrite runw_ebind. assert (EW : runw (WriteBool true) out = WDone None (out ++ [x01])) by reflexivity. rewrite EW. cbn [orb]. rewrite Q. now rewrite <- app_assoc.
  - intros n b arr ext v bs e D NV _ IH W R. destruct (table_lookup _ _ _ _ T R) as (t & L & Ds). destruct (describes_flags _ _ _ _ _ _ _ Ds D) as (N & EB & EA & EO & EE).
    destruct (IH W R _ _ _ D L) as [F HF]. exists (S F). intros [|fuel] Hf; [lia|]. specialize (HF fuel ltac:(lia)). rewrite (encodeType_S _ _ _ _ _ L), EO.
    assert (IN : is_nil v = false) by (destruct v; [congruence|reflexivity..]). rewrite IN. cbn [negb]. exact HF.
  - intros n b v NL W R opt ext t D L. destruct (table_lookup _ _ _ _ T R) as (t' & L' & Ds). rewrite L in L'. injection L' as <-.
    destruct (describes_flags _ _ _ _ _ _ _ Ds D) as (N & EB & EA & EO & EE). exists 0%nat. intros fuel _. unfold enc_body. rewrite EA.
    destruct v; try apply fails_now. elim (NL l eq_refl).
  - intros n b vs x ws pre bs vs' bs' e SH V A _ IH W R opt ext t D L. destruct (table_lookup _ _ _ _ T R) as (t' & L' & Ds). rewrite L in L'. injection L' as <-.
    destruct (describes_flags _ _ _ _ _ _ _ Ds D) as (N & EB & EA & EO & EE).
    inversion W as [| |l Fw| |]; subst l. apply Forall_app in Fw as [Fw1 Fw2]. inversion Fw2 as [|? ? Wx Fw3]; subst.
    destruct (proj1 (proj2 (proj2 (proj2 (codec_sound a n0 tbl T)))) _ _ _ _ _ A Fw1 R _ _ _ _ D L) as [F1 H1].
    destruct (IH Wx R _ _ _ _ D L) as [F2 H2]. exists (Nat.max F1 F2). intros fuel Hf. destruct (H1 fuel ltac:(lia)) as [Wr _]. specialize (H2 fuel ltac:(lia)).
    unfold enc_body. rewrite EA. apply fails_then; [apply varu_writes; [split; [apply zlen_nonneg|exact SH]|exact V]|].
    apply elems_app; [exact Wr|]. cbn [encode_elems]. now apply fails_first.
  - intros n b v bs e _ IH W R opt ext t D L. destruct (table_lookup _ _ _ _ T R) as (t' & L' & Ds). rewrite L in L'. injection L' as <-.
    destruct (describes_flags _ _ _ _ _ _ _ Ds D) as (N & EB & EA & EO & EE). destruct (IH W R _ _ _ _ D L) as [F HF]. exists F. intros fuel Hf. unfold enc_body. rewrite EA. now apply HF.
  - intros n b r v bs e AL _ IH W R arr opt ext t D L. destruct (table_lookup _ _ _ _ T R) as (t' & L' & Ds). rewrite L in L'. injection L' as <-.
    destruct (IH W) as [F HF]; [eapply reach_step; [exact R|exact D|exact AL|now left]|]. exists F. intros fuel Hf. unfold encodeInner.
    rewrite (inner_alias _ _ _ _ _ _ _ _ Ds D AL). now apply HF.
  - intros n b fs v I NE NM W R arr opt ext t D L. destruct (table_lookup _ _ _ _ T R) as (t' & L' & Ds). rewrite L in L'. injection L' as <-.
    destruct (inner_struct _ _ _ _ _ _ T L Ds I NE) as [F1 F2]. exists 0%nat. intros fuel _. unfold encodeInner. rewrite F1, F2.
    destruct v; try apply fails_now. elim (NM m eq_refl).
  - intros n b fs f u gs m bs out bs' e I A _ IH W R arr opt ext t D L. destruct (table_lookup _ _ _ _ T R) as (t' & L' & Ds). rewrite L in L'. injection L' as <-.
    destruct (inner_struct _ _ _ _ _ _ T L Ds I) as [F1 F2]; [now destruct fs|].
    pose proof (inherits_reach _ _ _ _ I R) as RF.
    destruct (proj2 (proj2 (proj2 (proj2 (codec_sound a n0 tbl T)))) _ _ _ _ A W) as [G1 H1]; [intros f' t' J; apply (RF f'); apply in_or_app; now left|].
    destruct (IH (wf_entry m f W)) as [G2 H2]; [apply (RF f); apply in_or_app; right; now left|].
    exists (Nat.max G1 G2). intros fuel Hf. destruct (H1 fuel ltac:(lia)) as [Wr _]. specialize (H2 fuel ltac:(lia)). unfold encodeInner. rewrite F1, F2.
    apply fields_app; [exact Wr|]. cbn [encode_fields]. now apply fails_first.
  - intros n b l v e DV NV W R arr opt ext t D L. destruct (table_lookup _ _ _ _ T R) as (t' & L' & Ds). rewrite L in L'. injection L' as <-.
    destruct (inner_variant _ _ _ _ _ _ _ _ _ _ T L Ds D DV) as (F1 & F2 & F3). exists 0%nat. intros fuel _. unfold encodeInner. rewrite F1, F2, F3.
    destruct NV as [v NS|vs TWO|x y NN|vn x NI].
    + destruct v as [|p|vs|m|i]; try apply fails_now. elim (NS vs eq_refl).
    + destruct vs as [|x1 [|x2 [|x3 vs]]]; [apply fails_now| |elim TWO; reflexivity|]; destruct x1 as [|p| | |]; try apply fails_now; destruct p; apply fails_now.
    + destruct x as [|p| | |]; try apply fails_now; destruct p; try apply fails_now. elim (NN s eq_refl).
    + pose proof (find_variant_spec vn l 0) as FV. destruct (find_variant 0 vn l) as [k|]; [|apply fails_now].
      destruct FV as (i & -> & [FA _]). apply nth_error_In in FA. elim (NI FA).
  - intros n b l i vn x pre bs e DV FA B V _ IH W R arr opt ext t D L. destruct (table_lookup _ _ _ _ T R) as (t' & L' & Ds). rewrite L in L'. injection L' as <-.
    destruct (inner_variant _ _ _ _ _ _ _ _ _ _ T L Ds D DV) as (F1 & F2 & F3).
    destruct IH as [F HF].
    + inversion W as [| |l' Fw| |]; subst. inversion Fw as [|? ? _ Fw']; subst. inversion Fw'; subst. assumption.
    + eapply reach_step; [exact R|exact D|exact DV|]. destruct FA as [FA _]. now apply nth_error_In in FA.
    + exists F. intros fuel Hf. unfold encodeInner. rewrite F1, F2, F3. rewrite (find_variant_first _ _ _ FA).
      apply fails_then; [apply varu_writes; [lia|exact V]|now apply HF].
  - intros n b v FT Q W R arr opt ext t D L. destruct (table_lookup _ _ _ _ T R) as (t' & L' & Ds). rewrite L in L'. injection L' as <-.
    destruct (describes_flags _ _ _ _ _ _ _ Ds D) as (N & EB & EA & EO & EE).
    destruct (proj1 (inner_builtin _ _ _ _ _ _ _ _ _ T L Ds D) FT) as (F1 & F2 & F3). exists 0%nat. intros fuel _. unfold encodeInner. rewrite F1, F2, F3, EB.
    destruct P as [P1 P2]. apply builtin_refused; [..|exact Q].
    + intros ->. apply P1. unfold uses_builtin. eauto 8.
    + intros ->. apply P2. unfold uses_builtin. eauto 8.
Qed.
(** Every such value is refused with this error, and exactly these bytes are written. *)
Theorem C87_refused a n v bs e : well_named a n -> plain_schema a n -> wf_gval v -> fail_enc a n v bs e ->
  forall out, encodes a n v out (WDone (Some e) (out ++ bs)).
Proof.
  intros WN P W H out. destruct (resolved a n WN) as (tbl & _ & T & _ & EE).
  destruct (proj1 (refused a n tbl T P) _ _ _ _ H W (reach_refl _ _)) as [F HF]. pose proof (HF F (Nat.le_refl _) out) as Q.
  apply (encodes_at _ _ _ _ _ F); [now rewrite EE|discriminate].
Qed.
Print Assumptions C87_refused.

(** A transfer whose alternative holds a number where the account's name should be: the
    fields before it, and the index of the alternative, are written. *)
Definition bad_value : gval :=
  VMap [(str "tags", VSlice [VPrim (PString (str "a")); VPrim (PString [])]); (str "from", VPrim (PName 5));
        (str "kind", VSlice [VPrim (PString (str "account")); VPrim (PU8 7)]); (str "next", VSlice []); (str "note", VPrim (PU8 9))].
Definition bad_bytes : list byte := [x05; x00; x00; x00; x00; x00; x00; x00; x00; x02; x01; x61; x00; x01].
Example C87_ex : encodes sample (str "transfer") bad_value [] (WDone (Some (ErrMsg "expected builtin type")) bad_bytes)
  /\ wf_gval bad_value /\ well_named sample (str "transfer") /\ plain_schema sample (str "transfer").
Proof.
  split; [apply (encodes_at _ _ _ _ _ 10); [vm_compute; reflexivity|discriminate]|].
  split; [repeat (constructor; cbn [snd]); try exact I; try (vm_compute; split; congruence); lia|].
  split; [destruct (resolve (resolve_fuel sample) sample (str "transfer") []) as [[tbl| |]|] eqn:E; try (vm_compute in E; discriminate); now apply (well_named_ok _ _ tbl)|].
  split; intros (m & arr & opt & ext & R & D & _); apply sample_names in R; apply parse_complete in D;
    cbn [map In] in R; repeat (destruct R as [<-|R]; [vm_compute in D; discriminate D|]); destruct R.
Qed.
