(** C88: what a failed Encode has written. *)
From Coq Require Import String.
From Verif Require Import Base Prog AbiPrim BaseProofs SpecWire ProgProofs AbiPrimProofs Chain SpecChain ChainProofs
  Values Leaf SpecLeaf LeafProofs Reflect SpecReflect ReflectProofs ReflectTags SpecPanics PanicProofs AbiCodecProofs AbiDefProofs PropPanics SpecCut.
Import ListNotations.
Local Open Scope Z_scope.

Lemma done_writes (p : wr) out full : runw p out = WDone None full -> exists bs, full = out ++ bs /\ writes p bs.
Proof.
  intros R. pose proof (runw_extends p out) as X. rewrite R in X. destruct X as [bs ->]. exists bs. split; [reflexivity|].
  intros o. pose proof (runw_shift p out o) as S. rewrite R in S. exact (S bs eq_refl).
Qed.
Lemma failed_adds (p : wr) out e full : runw p out = WDone (Some e) full -> exists bs, full = out ++ bs /\ forall o, runw p o = WDone (Some e) (o ++ bs).
Proof.
  intros R. pose proof (runw_extends p out) as X. rewrite R in X. destruct X as [bs ->]. exists bs. split; [reflexivity|].
  intros o. pose proof (runw_shift p out o) as S. rewrite R in S. exact (S bs eq_refl).
Qed.
Lemma etry_cut p q out e full : runw (etry p q) out = WDone (Some e) full ->
  runw p out = WDone (Some e) full \/ exists bs, writes p bs /\ runw q (out ++ bs) = WDone (Some e) full.
Proof.
  unfold etry. rewrite runw_ebind. destruct (runw p out) as [[e'|] mid|m mid|] eqn:R; try discriminate; [auto|].
  intros H. apply done_writes in R as (bs & -> & W). eauto.
Qed.
Lemma count_wrote {A} (l : list A) pre : writes (WriteVaruint (zlen l)) pre -> short l /\ varu (zlen l) pre.
Proof.
  intros W. pose proof (count_done _ [] _ (W [])) as S. split; [exact S|]. unfold short in S. pose proof (zlen_nonneg l).
  destruct (varu_exists (zlen l)) as [pre' V]; [lia|]. destruct (varu_writes (zlen l) pre') as [Wr _]; [lia|exact V|].
  now rewrite (writes_det _ _ _ W Wr).
Qed.
Lemma encode_cut E :
  (forall t v, has_type E any_leaf t v -> forall out e full, runw (Encode E t v) out = WDone (Some e) full -> exists bs, cut_short E t v bs e /\ full = out ++ bs)
  /\ (forall t l, have_type E any_leaf t l -> forall out e full, runw (put_list (Encode E t) l) out = WDone (Some e) full ->
     exists xs y ys b1 b2, l = xs ++ y :: ys /\ elements_written E t xs b1 /\ cut_short E t y b2 e /\ full = out ++ b1 ++ b2)
  /\ (forall kt vt m, have_pair_type E any_leaf kt vt m -> forall out e full, runw (put_pairs (Encode E kt) (Encode E vt) m) out = WDone (Some e) full ->
     exists m1 k x m2 b1 b2, m = m1 ++ (k, x) :: m2 /\ entries_written E kt vt m1 b1
       /\ (cut_short E kt k b2 e \/ exists b b', b2 = b ++ b' /\ writes (Encode E kt k) b /\ cut_short E vt x b' e) /\ full = out ++ b1 ++ b2)
  /\ (forall fs l, have_field_types E any_leaf fs l -> forall out e full, runw (put_fields E chain_encoder fs l) out = WDone (Some e) full ->
     exists fs1 tg t fs2 xs y ys b1 b2, fs = fs1 ++ (tg, Exported, t) :: fs2 /\ l = xs ++ y :: ys /\ fields_written E fs1 xs b1
       /\ written tg y /\ cut_short E t y b2 e /\ full = out ++ b1 ++ flag tg ++ b2).
Proof.
  apply has_type_all.
  - intros t k p z H K _ T out e full R. exfalso. revert R. rewrite (Encode_leaf _ _ _ _ _ H K). apply quiet_prim.
  - intros t k v H _ out e full R. exfalso. revert R. rewrite (Encode_int _ _ _ _ H). destruct k; apply quiet_bytes.
  - intros t z H out e full R. assert (C : e = unexpected_type_err /\ full = out) by (revert R; open_encode H; cbn [runw]; intros R; split; congruence).
    destruct C as [-> ->]. exists []. split; [now apply cs_other|now rewrite app_nil_r].
  - intros t t' H out e full R.
    assert (C : error_cause E t (RPtr None) /\ e = nil_pointer_err /\ full = out).
    { revert R. unfold error_cause. rewrite H. open_encode H.
      destruct (head E t') eqn:H'; cbn [runw]; try (intros R; split; [split; discriminate|split; congruence]).
      destruct (go_kind k) eqn:G; [|discriminate]. intros R. cbn [runw] in R. split; [|split; congruence]. split; [intros k' Q; congruence|discriminate]. }
    destruct C as (C & -> & ->). exists []. split; [eapply cs_nil; eassumption|now rewrite app_nil_r].
  - intros t t' v H Hv IH out e full R. rewrite (Encode_ptr _ _ _ _ H) in R by (eapply has_type_leaf_shaped; eassumption).
    apply IH in R as (bs & C & ->). exists bs. split; [eapply cs_ptr; eassumption|reflexivity].
  - intros t t' H out e full R. exfalso. revert R. rewrite (Encode_slice _ _ _ _ H). apply quiet_etry; [apply quiet_varuint|apply quiet_ret].
  - intros t t' l H Hl IH M out e full R. rewrite (Encode_slice _ _ _ _ H) in R. cbn [elems] in R.
    apply etry_cut in R as [R|(pre & W & R)]; [elim (quiet_varuint _ _ _ _ R)|].
    apply IH in R as (xs & y & ys & b1 & b2 & -> & A & C & ->). exists (pre ++ b1 ++ b2). split; [|now rewrite <- app_assoc].
    apply count_wrote in W as [S W]. eapply cs_slice; eassumption.
  - intros t t' n l H Hl IH L out e full R. rewrite (Encode_array _ _ _ _ _ H) in R.
    apply IH in R as (xs & y & ys & b1 & b2 & -> & A & C & ->). exists (b1 ++ b2). split; [eapply cs_array; eassumption|reflexivity].
  - intros t kt vt H out e full R. exfalso. revert R. rewrite (Encode_map _ _ _ _ _ H). apply quiet_etry; [apply quiet_varuint|apply quiet_ret].
  - intros t kt vt m H CK Hm IH ND out e full R. rewrite (Encode_map _ _ _ _ _ H) in R. cbn [elems] in R.
    apply etry_cut in R as [R|(pre & W & R)]; [elim (quiet_varuint _ _ _ _ R)|].
    apply IH in R as (m1 & k & x & m2 & b1 & b2 & -> & A & C & ->). exists (pre ++ b1 ++ b2). split; [|now rewrite <- app_assoc].
    apply count_wrote in W as [S W].
    destruct C as [C|(b & b' & -> & Wk & C)]; [eapply cs_key; eassumption|eapply cs_value; eassumption].
  - intros t fs l H Hl IH out e full R. rewrite (Encode_struct _ _ _ _ H) in R.
    apply IH in R as (fs1 & tg & t' & fs2 & xs & y & ys & b1 & b2 & -> & -> & A & W & C & ->).
    exists (b1 ++ flag tg ++ b2). split; [eapply cs_field; eassumption|reflexivity].
  - intros t i u v H Hv IH out e full R. rewrite (Encode_user _ _ _ _ _ H) in R. apply failed_adds in R as (bs & -> & R).
    exists bs. split; [eapply cs_user; eassumption|reflexivity].
  - intros t out e full R. discriminate R.
  - intros t v l Hv IH1 Hl IH2 out e full R. cbn [put_list] in R. apply etry_cut in R as [R|(b & W & R)].
    + apply IH1 in R as (b2 & C & ->). exists [], v, l, [], b2. repeat split; [constructor|exact C].
    + apply IH2 in R as (xs & y & ys & b1 & b2 & -> & A & C & ->). exists (v :: xs), y, ys, (b ++ b1), b2.
      repeat split; [now constructor|exact C|now rewrite <- !app_assoc].
  - intros kt vt out e full R. discriminate R.
  - intros kt vt k v m Hk IHk Hv IHv Hm IHm out e full R. cbn [put_pairs] in R. apply etry_cut in R as [R|(b & W & R)].
    + apply IHk in R as (b2 & C & ->). exists [], k, v, m, [], b2. repeat split; [constructor|now left].
    + apply etry_cut in R as [R|(b' & W' & R)].
      * apply IHv in R as (b2 & C & ->). exists [], k, v, m, [], (b ++ b2). repeat split; [constructor|right; eauto|now rewrite <- !app_assoc].
      * apply IHm in R as (m1 & k' & x' & m2 & b1 & b2 & -> & A & C & ->). exists ((k, v) :: m1), k', x', m2, (b ++ b' ++ b1), b2.
        repeat split; [now constructor|exact C|now rewrite <- !app_assoc].
  - intros out e full R. discriminate R.
  - intros tg vis t fs v l Hv IH1 Hl IH2 out e full R. rewrite put_cons in R. cbv zeta in R.
    set (fld := match vis with Exported => encode E chain_encoder t v | _ => EPanic _ end) in R.
    assert (P : forall out, written tg v -> runw (etry fld (put_fields E chain_encoder fs l)) out = WDone (Some e) full ->
      vis = Exported /\ ((exists b2, cut_short E t v b2 e /\ full = out ++ b2)
        \/ exists b fs1 tg' t' fs2 xs y ys b1 b2, writes (Encode E t v) b /\ fs = fs1 ++ (tg', Exported, t') :: fs2 /\ l = xs ++ y :: ys /\ fields_written E fs1 xs b1
          /\ written tg' y /\ cut_short E t' y b2 e /\ full = out ++ b ++ b1 ++ flag tg' ++ b2)).
    { clear out R. intros out Wr R. apply etry_cut in R as [R|(b & W & R)]; subst fld; destruct vis; try discriminate R; try (specialize (W []); discriminate W); split; try reflexivity.
      - left. apply IH1 in R as (b2 & C & ->). eauto.
      - right. apply IH2 in R as (fs1 & tg' & t' & fs2 & xs & y & ys & b1 & b2 & -> & -> & A & Wy & C & ->).
        exists b, fs1, tg', t', fs2, xs, y, ys, b1, b2. repeat split; try assumption. now rewrite <- !app_assoc. }
    assert (Q : tg <> Optional -> runw (etry fld (put_fields E chain_encoder fs l)) out = WDone (Some e) full ->
      exists fs1 tg0 t0 fs2 xs y ys b1 b2, (tg, vis, t) :: fs = fs1 ++ (tg0, Exported, t0) :: fs2 /\ v :: l = xs ++ y :: ys /\ fields_written E fs1 xs b1
       /\ written tg0 y /\ cut_short E t0 y b2 e /\ full = out ++ b1 ++ flag tg0 ++ b2).
    { intros NO R'. destruct (P out) as [-> [(b2 & C & ->)|(b & fs1 & tg' & t' & fs2 & xs & y & ys & b1 & b2 & W & -> & -> & A & Wy & C & ->)]];
        [intros X; contradiction|exact R'|..].
      - exists [], tg, t, fs, [], v, l, [], b2. repeat split; [constructor|intros X; contradiction|exact C|].
        assert (FL : flag tg = []) by (destruct tg; reflexivity || (elim NO; reflexivity)). now rewrite FL.
      - exists ((tg, Exported, t) :: fs1), tg', t', fs2, (v :: xs), y, ys, (b ++ b1), b2. repeat split; try assumption; [now constructor|now rewrite <- !app_assoc]. }
    destruct tg; try (apply Q; [discriminate|exact R]). clear Q. rewrite runw_ebind in R.
    assert (EW : forall x, runw (WriteBool x) out = WDone None (out ++ [if x then x01 else x00])) by (now intros []). rewrite EW in R.
    destruct (is_zero v) eqn:Z; cbn [negb] in R.
    + apply IH2 in R as (fs1 & tg' & t' & fs2 & xs & y & ys & b1 & b2 & -> & -> & A & Wy & C & ->).
      exists ((Optional, vis, t) :: fs1), tg', t', fs2, (v :: xs), y, ys, (x00 :: b1), b2. repeat split; try assumption; [now constructor|now rewrite <- !app_assoc].
    + destruct (P (out ++ [x01])) as [-> [(b2 & C & ->)|(b & fs1 & tg' & t' & fs2 & xs & y & ys & b1 & b2 & W & -> & -> & A & Wy & C & ->)]];
        [intros _; exact Z|exact R|..].
      * exists [], Optional, t, fs, [], v, l, [], b2. repeat split; [constructor|intros _; exact Z|exact C|now rewrite <- !app_assoc].
      * exists ((Optional, Exported, t) :: fs1), tg', t', fs2, (v :: xs), y, ys, (x01 :: b ++ b1), b2. repeat split; try assumption; [now constructor|].
        rewrite <- !app_assoc. cbn [app]. now rewrite <- !app_assoc.
Qed.
(** What was written before the error, and which error it is. *)
Theorem C88_written E t v out e full : has_type E any_leaf t v -> runw (Encode E t v) out = WDone (Some e) full ->
  exists bs, cut_short E t v bs e /\ full = out ++ bs.
Proof. intros T. apply (proj1 (encode_cut E) t v T). Qed.
Print Assumptions C88_written.

(** ** The other way round *)
Definition fails (p : wr) (bs : list byte) (e : gerr) : Prop := forall out, runw p out = WDone (Some e) (out ++ bs).
Lemma fails_first p q bs e : fails p bs e -> fails (etry p q) bs e.
Proof. intros F out. unfold etry. now rewrite runw_ebind, F. Qed.
Lemma fails_next p (f : option gerr -> wr) b bs e : writes p b -> fails (f None) bs e -> fails (ebind p f) (b ++ bs) e.
Proof. intros W F out. now rewrite runw_ebind, W, F, app_assoc. Qed.
Lemma fails_then p q b bs e : writes p b -> fails q bs e -> fails (etry p q) (b ++ bs) e.
Proof. intros W F. unfold etry. now apply fails_next. Qed.
Lemma fails_count {A} (l : list A) q pre bs e : short l -> varu (zlen l) pre -> fails q bs e -> fails (etry (WriteVaruint (zlen l)) q) (pre ++ bs) e.
Proof.
  intros S V F. apply fails_then; [|exact F]. unfold short in S. pose proof (zlen_nonneg l).
  destruct (varu_writes (zlen l) pre) as [Wr _]; [lia|exact V|exact Wr].
Qed.
Lemma fails_elements E t xs bs : elements_written E t xs bs -> forall y ys bs' e, fails (Encode E t y) bs' e -> fails (put_list (Encode E t) (xs ++ y :: ys)) (bs ++ bs') e.
Proof.
  induction 1 as [|x l b bs W A IH]; intros y ys bs' e F; cbn [app put_list]; [now apply fails_first|].
  rewrite <- app_assoc. apply fails_then; [exact W|now apply IH].
Qed.
Lemma fails_entries E kt vt m bs : entries_written E kt vt m bs -> forall k x m' bs' e, fails (etry (Encode E kt k) (etry (Encode E vt x) (put_pairs (Encode E kt) (Encode E vt) m'))) bs' e ->
  fails (put_pairs (Encode E kt) (Encode E vt) (m ++ (k, x) :: m')) (bs ++ bs') e.
Proof.
  induction 1 as [|k0 x0 m b b' bs W W' A IH]; intros k x m' bs' e F; cbn [app put_pairs]; [exact F|].
  rewrite <- !app_assoc. apply fails_then; [exact W|]. apply fails_then; [exact W'|now apply IH].
Qed.
Lemma fails_fields E fs xs bs : fields_written E fs xs bs -> forall tg t gs y ys bs' e, written tg y -> fails (Encode E t y) bs' e ->
  fails (put_fields E chain_encoder (fs ++ (tg, Exported, t) :: gs) (xs ++ y :: ys)) (bs ++ flag tg ++ bs') e.
Proof.
  induction 1 as [|tg0 t0 x b fs l bs N W A IH|vis t0 x fs l bs Z A IH|t0 x b fs l bs Z W A IH];
    intros tg t gs y ys bs' e Wr F; cbn [app]; rewrite put_cons; cbv zeta.
  - destruct tg; try (now apply fails_first). specialize (Wr eq_refl). rewrite Wr. cbn [negb flag].
    apply fails_next; [now intros out|]. now apply fails_first.
  - rewrite <- app_assoc. destruct tg0; try (elim N; reflexivity); (apply fails_then; [exact W|now apply IH]).
  - rewrite Z. cbn [negb]. apply (fails_next _ _ [x00]); [now intros out|now apply IH].
  - rewrite Z. cbn [negb]. rewrite <- app_assoc. apply (fails_next _ _ [x01]); [now intros out|]. apply fails_then; [exact W|now apply IH].
Qed.
Lemma have_mid E ok t xs y ys : have_type E ok t (xs ++ y :: ys) -> has_type E ok t y.
Proof. induction xs as [|x xs IH]; cbn [app]; intros H; inversion H; subst; auto. Qed.
Lemma have_pair_mid E ok kt vt m k x m' : have_pair_type E ok kt vt (m ++ (k, x) :: m') -> has_type E ok kt k /\ has_type E ok vt x.
Proof. induction m as [|[k0 x0] m IH]; cbn [app]; intros H; inversion H; subst; auto. Qed.
Lemma have_field_mid E ok fs xs bs : fields_written E fs xs bs -> forall f t gs y ys, have_field_types E ok (fs ++ (f, t) :: gs) (xs ++ y :: ys) -> has_type E ok t y.
Proof. induction 1; cbn [app]; intros f0 t1 gs y ys T; inversion T; subst; eauto. Qed.
Lemma cut_fails E t v bs e : cut_short E t v bs e -> has_type E any_leaf t v -> fails (Encode E t v) bs e.
Proof.
  induction 1 as [t z H|t t' H C|t i u x e bs H R|t t' v bs e H C IH|t t' xs y ys pre bs bs' e H S V A C IH|t n t' xs y ys bs bs' e H A C IH
    |t kt vt m k x m' pre bs bs' e H S V A C IH|t kt vt m k x m' pre bs b bs' e H S V A W C IH|t fs tg t' gs xs y ys bs bs' e H A Wr C IH]; intros T.
  - intros out. open_encode H. cbn [runw]. now rewrite app_nil_r.
  - unfold error_cause in C. rewrite H in C. destruct C as [C1 C2]. intros out. rewrite app_nil_r. open_encode H.
    destruct (head E t') eqn:H'; try reflexivity; [now rewrite (C1 _ eq_refl)|elim (C2 _ _ eq_refl)].
  - intros out. rewrite (Encode_user _ _ _ _ _ H). apply R.
  - assert (T' : has_type E any_leaf t' v) by (inversion T; subst; congruence).
    intros out. rewrite (Encode_ptr _ _ _ _ H); [apply (IH T')|]. eapply has_type_leaf_shaped; eassumption.
  - rewrite (Encode_slice _ _ _ _ H). cbn [elems]. apply fails_count; [exact S|exact V|]. apply fails_elements; [exact A|]. apply IH.
    eapply have_mid. inversion T; subst. replace t' with t'0 by congruence. eassumption.
  - rewrite (Encode_array _ _ _ _ _ H). apply fails_elements; [exact A|]. apply IH.
    eapply have_mid. inversion T; subst. replace t' with t'0 by congruence. eassumption.
  - rewrite (Encode_map _ _ _ _ _ H). cbn [elems]. apply fails_count; [exact S|exact V|]. apply fails_entries; [exact A|]. apply fails_first, IH.
    inversion T as [| | | | | | | | |? kt0 vt0 ? H0 _ Hm _| |]; subst. apply have_pair_mid in Hm. replace kt with kt0 by congruence. tauto.
  - rewrite (Encode_map _ _ _ _ _ H). cbn [elems]. apply fails_count; [exact S|exact V|]. apply fails_entries; [exact A|].
    apply fails_then; [exact W|]. apply fails_first, IH.
    inversion T as [| | | | | | | | |? kt0 vt0 ? H0 _ Hm _| |]; subst. apply have_pair_mid in Hm. replace vt with vt0 by congruence. tauto.
  - rewrite (Encode_struct _ _ _ _ H). apply fails_fields; [exact A|exact Wr|]. apply IH.
    inversion T as [| | | | | | | | | |? fs0 ? H0 Hf|]; subst. eapply have_field_mid; [exact A|]. rewrite H in H0. 
    assert (fs0 = fs ++ (tg, Exported, t') :: gs) by congruence. subst fs0. exact Hf.
Qed.
(** And every such value is refused at that place. *)
Theorem C88_refused E t v bs e : has_type E any_leaf t v -> cut_short E t v bs e ->
  forall out, runw (Encode E t v) out = WDone (Some e) (out ++ bs).
Proof. intros T C. now apply cut_fails. Qed.
Print Assumptions C88_refused.

(** A slice of two pointers, the second nil, after an optional flag and a field: the count
    and the first element are written. *)
Definition cut_t : gtype :=
  TStruct [(Optional, Exported, TLeaf KU8); (NoTag, Exported, TLeaf KU8); (Optional, Exported, TSlice (TPtr (TLeaf KU8)))].
Definition cut_v : rval :=
  RStruct [RLeaf (PU8 0) true; RLeaf (PU8 7) false; RSlice (Some [RPtr (Some (RLeaf (PU8 5) false)); RPtr None])].
Example C88_ex : has_type ex_types any_leaf cut_t cut_v /\ cut_short ex_types cut_t cut_v [x00; x07; x01; x02; x05] nil_pointer_err
  /\ runw (Encode ex_types cut_t cut_v) [] = WDone (Some nil_pointer_err) [x00; x07; x01; x02; x05].
Proof.
  assert (T : has_type ex_types any_leaf cut_t cut_v).
  { eapply ht_struct; [reflexivity|].
    constructor; [eapply ht_leaf; [reflexivity|reflexivity|split; reflexivity|split; lia]|].
    constructor; [eapply ht_leaf; [reflexivity|reflexivity|split; [discriminate|reflexivity]|split; lia]|].
    constructor; [|constructor]. eapply ht_slice; [reflexivity| |reflexivity].
    constructor; [|constructor; [eapply ht_nil; reflexivity|constructor]].
    eapply ht_ptr; [reflexivity|]. eapply ht_leaf; [reflexivity|reflexivity|split; [discriminate|reflexivity]|split; lia]. }
  assert (R : runw (Encode ex_types cut_t cut_v) [] = WDone (Some nil_pointer_err) [x00; x07; x01; x02; x05]) by (vm_compute; reflexivity).
  split; [exact T|]. split; [|exact R].
  destruct (C88_written _ _ _ _ _ _ T R) as (bs & C & ->). exact C.
Qed.
