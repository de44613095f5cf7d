(** Optional, extension and variant fields. *)
From Verif Require Import Base Prog AbiPrim BaseProofs SpecWire ProgProofs AbiPrimProofs Chain SpecChain ChainProofs
  Values Leaf SpecLeaf LeafProofs Reflect SpecReflect ReflectProofs ReflectOverwrite SpecTags.

(** ** Encoding *)
Lemma runw_etry p q out : runw (etry p q) out = match runw p out with WDone None o => runw q o | r => r end.
Proof. unfold etry. rewrite runw_ebind. destruct (runw p out) as [[e|] o|m o|]; reflexivity. Qed.
Lemma put_cons E h tg vis t fs x l : put_fields E h ((tg, vis, t) :: fs) (x :: l) =
  let field := match vis with Exported => encode E h t x | _ => EPanic "cannot return value obtained from unexported field" end in
  match tg with
  | Optional => _ <~~ WriteBool (negb (is_zero x)) ;; if is_zero x then put_fields E h fs l else etry field (put_fields E h fs l)
  | _ => etry field (put_fields E h fs l)
  end.
Proof. reflexivity. Qed.
Lemma put_fields_app E h : forall fs1 l1 fs2 l2, length fs1 = length l1 -> forall out,
  runw (put_fields E h (fs1 ++ fs2) (l1 ++ l2)) out = runw (etry (put_fields E h fs1 l1) (put_fields E h fs2 l2)) out.
Proof.
  induction fs1 as [|[[tg vis] t] fs1 IH]; intros [|x l1] fs2 l2 L out; try discriminate L; cbn [app].
  - rewrite runw_etry. destruct l2; reflexivity.
  - injection L as L. rewrite runw_etry, !put_cons. cbv zeta.
    set (field := match vis with Exported => encode E h t x | _ => EPanic _ end). clearbody field.
    assert (P : forall out, runw (etry field (put_fields E h (fs1 ++ fs2) (l1 ++ l2))) out
      = match runw (etry field (put_fields E h fs1 l1)) out with WDone None o => runw (put_fields E h fs2 l2) o | r => r end).
    { intros o. rewrite !runw_etry. destruct (runw field o) as [[e|] o'|m o'|]; try reflexivity. now rewrite IH, runw_etry. }
    destruct tg; try apply P. rewrite !runw_ebind.
    destruct (runw (WriteBool (negb (is_zero x))) out) as [e o|m o|]; try reflexivity.
    destruct (is_zero x); [|apply P]. now rewrite IH, runw_etry.
Qed.
Lemma runw_grows {A} (p : enc A) out a full : runw p out = WDone a full -> exists w, full = out ++ w.
Proof. intros H. pose proof (runw_extends p out) as X. rewrite H in X. destruct X as [w X]. eauto. Qed.

Lemma optional_wire E t before t' after lb v la out full :
  head E t = TStruct (before ++ (Optional, Exported, t') :: after) -> length before = length lb ->
  runw (Encode E t (RStruct (lb ++ v :: la))) out = WDone None full ->
  exists b field, runw (Encode E (TStruct before) (RStruct lb)) out = WDone None (out ++ b)
    /\ (if is_zero v then field = [x00]
        else exists w, field = x01 :: w /\ runw (Encode E t' v) (out ++ b ++ [x01]) = WDone None (out ++ b ++ x01 :: w))
    /\ runw (Encode E (TStruct after) (RStruct la)) (out ++ b ++ field) = WDone None full.
Proof.
  intros H L R. rewrite (Encode_struct _ _ _ _ H), put_fields_app in R by assumption. apply runw_etry_done in R as (m1 & R1 & R2).
  destruct (runw_grows _ _ _ _ R1) as [b ->]. exists b. rewrite (Encode_struct _ (TStruct before) _ _ eq_refl).
  rewrite (Encode_struct _ (TStruct after) _ _ eq_refl). destruct (is_zero v) eqn:Z.
  - rewrite put_absent in R2 by assumption. exists [x00]. rewrite runw_ebind in R2.
    split; [exact R1|]. split; [reflexivity|]. rewrite app_assoc. exact R2.
  - rewrite put_present in R2 by assumption. rewrite runw_ebind in R2. cbn [WriteBool WriteByte runw] in R2.
    assert (R3 : runw (etry (Encode E t' v) (put_fields E chain_encoder after la)) ((out ++ b) ++ [x01]) = WDone None full) by exact R2.
    apply runw_etry_done in R3 as (m2 & R3 & R4). destruct (runw_grows _ _ _ _ R3) as [w ->].
    exists (x01 :: w). split; [exact R1|]. split.
    + exists w. split; [reflexivity|]. rewrite <- !app_assoc in R3. exact R3.
    + rewrite <- !app_assoc in R4. exact R4.
Qed.

Lemma nil_field_fails E t before tg vis t' pt after lb la out full :
  head E t = TStruct (before ++ (tg, vis, t') :: after) -> tg <> Optional -> head E t' = TPtr pt -> length before = length lb ->
  runw (Encode E t (RStruct (lb ++ RPtr None :: la))) out <> WDone None full.
Proof.
  intros H T P L R. rewrite (Encode_struct _ _ _ _ H), put_fields_app in R by assumption. apply runw_etry_done in R as (m1 & R1 & R2).
  assert (R3 : exists p, (forall o f, runw p o <> WDone None f) /\ runw (etry p (put_fields E chain_encoder after la)) m1 = WDone None full).
  { rewrite put_cons in R2. cbv zeta in R2. eexists. split; [|destruct tg; try congruence; exact R2].
    destruct vis; try discriminate. intros o f. apply (Encode_nil _ _ _ P). }
  destruct R3 as (p & N & R3). apply runw_etry_done in R3 as (m2 & R3 & _). exact (N _ _ R3).
Qed.
Lemma variant_fails E t alts l out full : head E t = TStruct alts -> alternatives E alts -> (2 <= length alts)%nat ->
  length alts = length l ->
  (forall j v, nth_error l j = Some v -> exists o, v = RPtr o) -> at_most_one_set l ->
  runw (Encode E t (RStruct l)) out <> WDone None full.
Proof.
  intros H A TWO L P ONE.
  assert (exists j, (j < 2)%nat /\ nth_error l j = Some (RPtr None)) as (j & J & NJ).
  { destruct l as [|x [|y l]]; cbn in L; try lia. destruct (P 0%nat x eq_refl) as [[a|] ->]; [|now exists 0%nat; split; [lia|]].
    destruct (P 1%nat y eq_refl) as [[b|] ->]; [|now exists 1%nat; split; [lia|]].
    discriminate (ONE 0%nat 1%nat a b eq_refl eq_refl). }
  apply nth_error_split in NJ as (lb & la & -> & LB).
  assert (exists fd, nth_error alts j = Some fd) as [[[tg vis] t'] NF].
  { destruct (nth_error alts j) eqn:N; [eauto|]. apply nth_error_None in N. lia. }
  pose proof (nth_error_In _ _ NF) as IN. apply nth_error_split in NF as (before & after & -> & LF).
  unfold alternatives in A. rewrite Forall_forall in A. destruct (A _ IN) as (T & _ & pt & HP).
  eapply nil_field_fails; try eassumption. congruence.
Qed.

(** ** Decoding *)
Lemma get_fields_app E f g : forall fs1 l1 fs2 l2 env inp l1' rest, length fs1 = length l1 ->
  run env (get_fields E f g fs1 l1) inp = Done (l1', None) rest ->
  run env (get_fields E f g (fs1 ++ fs2) (l1 ++ l2)) inp =
  match run env (get_fields E f g fs2 l2) rest with
  | Done (l2', e) r => Done (l1' ++ l2', e) r
  | Crash m => Crash m
  | Diverged => Diverged
  end.
Proof.
  induction fs1 as [|fd fs1 IH]; intros [|x l1] fs2 l2 env inp l1' rest L R; try discriminate L; cbn [app].
  - cbn [get_fields run] in R. injection R as <- <-. destruct (run env (get_fields E f g fs2 l2) inp) as [[l e] r|m|]; reflexivity.
  - injection L as L. cbn [get_fields] in R |- *. rewrite run_dbind in R |- *.
    destruct (run env (get_field E f g fd x) inp) as [[y [e|]] r|m|]; try discriminate R.
    cbn [run] in R |- *. rewrite run_dbind in R |- *.
    destruct (run env (get_fields E f g fs1 l1) r) as [[l1'' [e|]] r'|m|] eqn:R1; try discriminate R.
    injection R as <- <-. rewrite (IH l1 fs2 l2 env r l1'' r' L R1).
    destruct (run env (get_fields E f g fs2 l2) r') as [[l2' e] r''|m|]; reflexivity.
Qed.
Lemma Decode_struct fuel E t fs l env inp : head E t = TStruct fs ->
  run env (Decode (S (S fuel)) E t (RStruct l)) inp =
  match run env (get_fields E (decode fuel E chain_decoder Whole) (get_variant fuel E) fs l) inp with
  | Done (l, e) r => Done (RStruct l, e) r
  | Crash m => Crash m
  | Diverged => Diverged
  end.
Proof.
  intros H. unfold Decode. rewrite decode_whole by (intros; congruence). cbn [decode]. rewrite H, run_dbind.
  fold (get_variant fuel E). unfold get_variant.
  match goal with |- match ?a with _ => _ end = match ?b with _ => _ end => change b with a; destruct a as [[? ?] ?|?|]; reflexivity end.
Qed.
Lemma struct_prefix E t before lb bs lb' : encoded_fields E before lb bs lb' ->
  exists F, forall fuel, (F <= fuel)%nat -> forall fs l env inp, head E t = TStruct (before ++ fs) ->
  run env (Decode (S (S fuel)) E t (RStruct (zeros_of before ++ l))) (bs ++ inp) =
  match run env (get_fields E (decode fuel E chain_decoder Whole) (get_variant fuel E) fs l) inp with
  | Done (l, e) r => Done (RStruct (lb' ++ l), e) r
  | Crash m => Crash m
  | Diverged => Diverged
  end.
Proof.
  intros W. destruct (proj2 (proj2 (proj2 (encoded_reads E))) _ _ _ _ W) as [F D]. exists F. intros fuel L fs l env inp H.
  rewrite (Decode_struct _ _ _ _ _ _ _ H).
  rewrite (get_fields_app E _ _ before (zeros_of before) fs l env (bs ++ inp) lb' inp).
  - destruct (run env (get_fields E _ _ fs l) inp) as [[l2 e] r|m|]; reflexivity.
  - unfold zeros_of. now rewrite map_length.
  - apply (D fuel L).
Qed.

(** Reading a present or absent optional field. *)
Lemma optional_reads E t before lb bs lb' t' : encoded_fields E before lb bs lb' ->
  head E t = TStruct (before ++ [(Optional, Exported, t')]) ->
  exists F, forall fuel, (F <= fuel)%nat -> forall env old rest,
    run env (Decode fuel E t (RStruct (zeros_of before ++ [old]))) (bs ++ x00 :: rest) = Done (RStruct (lb' ++ [zero E t']), None) rest.
Proof.
  intros W H. destruct (struct_prefix E t before lb bs lb' W) as [F P]. exists (S (S F)).
  intros [|[|fuel]] L env old rest; try lia. rewrite (P fuel ltac:(lia) _ _ env (x00 :: rest) H).
  cbn [get_fields get_field]. rewrite !run_dbind. rewrite (bool_ok false env rest : run env ReadBool (x00 :: rest) = _). reflexivity.
Qed.

(** At the end of the input *)
Definition at_end {A} (p : io A) : Prop := forall strict, exists v, run {| r_end := EOF; r_strict := strict |} p [] = Done (v, Some EOF) [].
Lemma at_end_bind {A B} (p : io A) (f : A * option gerr -> io B) : at_end p -> (forall a, exists b, f (a, Some EOF) = DRet (b, Some EOF)) ->
  at_end (dbind p f).
Proof. intros H K s. rewrite run_dbind. destruct (H s) as [a ->]. destruct (K a) as [b ->]. now exists b. Qed.
Lemma leaf_at_end p : at_end (leaf_read p).
Proof. apply at_end_bind; [|intros a; eexists; reflexivity]. intros s. destruct s, p; eexists; cbn; reflexivity. Qed.

Lemma varuint_at_end : at_end ReadVaruint.
Proof. intros s. destruct s; eexists; cbn; reflexivity. Qed.
Definition anything (p : prim) : Prop := True.
Lemma zero_typed_supported E : forall t t0 pl, head E t0 = t -> supported_at E pl t0 -> has_type E anything t0 (zero_of t).
Proof.
  fix IH 1. intros t t0 pl H S. pose proof (supported_self _ _ _ S) as S0. unfold supported_here in S0.
  rewrite H in S0. destruct t as [k|k| |t|t|n t|kt vt|fs|i u|i]; cbn [zero_of].
  - eapply ht_leaf; [exact H|apply zero_kind|apply zero_flags|exact I].
  - eapply ht_int; [exact H|]. clear. destruct k; cbn; unfold in_u, in_i; lia.
  - now apply ht_other.
  - now apply (ht_nil _ _ _ t).
  - now apply (ht_nil_slice _ _ _ t).
  - apply (ht_array _ _ _ t n); [exact H| |now rewrite repeat_length]. apply repeat_typed. apply (IH _ _ Slot).
    + destruct t; try reflexivity. discriminate S0.
    + eapply supported_part; [exact S|]. eapply pt_array; exact H.
  - now apply (ht_nil_map _ _ _ kt vt).
  - apply (ht_struct _ _ _ fs); [exact H|]. apply (supported_fields _ _ _ _ H) in S. clear H S0 t0.
    induction fs as [|[[tg vis] t] fs IHfs]; [constructor|]. apply fields_supported_cons in S as (A & B & D & C & S'). constructor.
    + apply (IH _ _ Slot); [|exact C]. destruct t; try reflexivity. discriminate D.
    + exact (IHfs S').
  - eapply ht_user; [exact H|]. apply zero_by_value_typed; [exact (fun _ => I)|apply S0].
  - elim S0.
Qed.
Lemma at_end_get E t : needs_input E t -> forall pl, supported_at E pl t ->
  exists F, forall fuel, (F <= fuel)%nat -> forall old, has_type E anything t old -> at_end (get fuel E pl t old).
Proof.
  assert (COMP : forall t pl F, composite E t ->
    (forall fuel, (F <= fuel)%nat -> forall old, has_type E anything t old -> at_end (decode (S fuel) E chain_decoder Deref t old)) ->
    exists F, forall fuel, (F <= fuel)%nat -> forall old, has_type E anything t old -> at_end (get fuel E pl t old)).
  { intros u pl F C H. exists (S (S F)). intros [|[|fuel]] L old O; try lia.
    assert (W : at_end (decode (S (S fuel)) E chain_decoder Whole u old)).
    { rewrite decode_whole; [apply H; [lia|exact O]|]. intros k p z HL. unfold composite in C. now rewrite HL in C. }
    destruct pl; cbn [get]; [|exact W|apply H; [lia|exact O]].
    unfold through. unfold composite in C. destruct (head E u) eqn:HT; try exact W; contradiction. }
  induction 1 as [t k H|t k H|t t' H|t kt vt H|t t' H N IH|t n t' H N IH|t t' fs H N IH|t t' fs H]; intros pl S;
    pose proof (supported_self _ _ _ S) as S0; unfold supported_here in S0; rewrite H in S0;
    try (assert (CO : composite E t) by (unfold composite; now rewrite H)).
  - exists 2%nat. intros [|[|fuel]] L old T; try lia. inversion T as [? k' p z HK KP ZF _| | | | | | | | | | |]; subst; try congruence.
    rewrite H in HK. injection HK as ->. clear IH || idtac.
    assert (W : at_end (decode (Datatypes.S (Datatypes.S fuel)) E chain_decoder Whole t (RLeaf p z))).
    { destruct (table_kind (kind_of p)) eqn:TK.
      - intros s. rewrite (whole_table _ _ _ _ _ _ H TK). apply leaf_at_end.
      - rewrite (whole_other _ _ _ _ _ _ H TK). destruct (go_kind (kind_of p)) eqn:GK; [apply leaf_at_end|].
        cbn [decode]. rewrite H, GK. apply leaf_at_end. }
    destruct pl; cbn [get]; [|exact W|].
    + unfold through. rewrite H. exact W.
    + cbn [decode]. rewrite H. destruct (go_kind (kind_of p)) eqn:GK; [|apply leaf_at_end].
      destruct p; cbn in S0; try discriminate S0; try discriminate GK; try (apply at_end_bind; [apply leaf_at_end|intros; eexists; reflexivity]).
      apply at_end_bind; [|intros; eexists; reflexivity].
      apply at_end_bind; [apply varuint_at_end|intros; eexists; reflexivity].
  - apply (COMP t pl O CO). intros fuel _ old T. inversion T; subst; try congruence. cbn [decode]. rewrite H.
    apply at_end_bind; [|intros; eexists; reflexivity]. intros s. destruct k; eexists; cbn; reflexivity.
  - apply (COMP t pl O CO). intros fuel _ old T. assert (exists o, old = RSlice o) as [o ->] by (inversion T; subst; try congruence; eauto).
    cbn [decode]. rewrite H. apply at_end_bind; [|intros; eexists; reflexivity].
    apply at_end_bind; [apply varuint_at_end|intros; eexists; reflexivity].
  - apply (COMP t pl O CO). intros fuel _ old T. assert (exists o, old = RMap o) as [o ->] by (inversion T; subst; try congruence; eauto).
    cbn [decode]. rewrite H. apply at_end_bind; [|intros; eexists; reflexivity].
    apply at_end_bind; [apply varuint_at_end|intros; eexists; reflexivity].
  - assert (SP : supported_at E (beneath pl) t') by (eapply supported_part; [exact S|]; eapply pt_ptr; exact H).
    destruct (IH _ SP) as [F G].
    assert (TH : forall fuel f, (F <= fuel)%nat -> f = get fuel E (beneath pl) -> forall old, has_type E anything t old -> at_end (through E f t old)).
    { intros fuel f L -> old T. unfold through. rewrite H.
      assert (exists o, old = RPtr o /\ has_type E anything t' match o with Some x => x | None => zero E t' end) as (o & -> & TO).
      { inversion T as [| | |? t1 H1|? t1 x H1 HX| | | | | | |]; subst; try congruence; rewrite H in H1; injection H1 as <-.
        - exists None. split; [reflexivity|]. unfold zero. eapply zero_typed_supported; [reflexivity|exact SP].
        - exists (Some x). now split. }
      apply at_end_bind; [now apply G|intros; eexists; reflexivity]. }
    exists (Datatypes.S (Datatypes.S F)). intros [|[|fuel]] L old T; try lia. destruct pl; cbn [get beneath] in *.
    + eapply (TH (Datatypes.S (Datatypes.S fuel))); [lia|reflexivity|exact T].
    + rewrite decode_whole by (intros; congruence). cbn [decode]. rewrite H.
      assert (exists o, old = RPtr o) as [o ->] by (inversion T; subst; try congruence; eauto).
      eapply (TH fuel); [lia|reflexivity|exact T].
    + cbn [decode]. rewrite H. assert (exists o, old = RPtr o) as [o ->] by (inversion T; subst; try congruence; eauto).
      eapply (TH (Datatypes.S fuel)); [lia|reflexivity|exact T].
  - assert (SP : supported_at E Slot t') by (eapply supported_part; [exact S|]; eapply pt_array; exact H).
    destruct (IH _ SP) as [F G]. apply (COMP t pl F CO). intros fuel L old T.
    inversion T as [| | | | | | |? t1 n1 l H1 TL LL| | | |]; subst; try congruence. rewrite H in H1. injection H1 as E1 ->.
    destruct l as [|x l]; [discriminate E1|]. inversion TL; subst. cbn [decode]. rewrite H.
    apply at_end_bind; [|intros; eexists; reflexivity]. cbn [get_elems]. apply at_end_bind; [now apply (G fuel)|intros; eexists; reflexivity].
  - assert (SP : supported_at E Slot t') by (eapply supported_part; [exact S|]; eapply pt_field; [exact H|now left]).
    destruct (IH _ SP) as [F G]. apply (COMP t pl F CO). intros fuel L old T.
    inversion T as [| | | | | | | | | |? fs1 l H1 TL|]; subst; try congruence. rewrite H in H1. injection H1 as <-.
    inversion TL; subst. cbn [decode]. rewrite H.
    apply at_end_bind; [|intros; eexists; reflexivity]. cbn [get_fields]. apply at_end_bind; [now apply (G fuel)|intros; eexists; reflexivity].
  - apply (COMP t pl O CO). intros fuel _ old T.
    inversion T as [| | | | | | | | | |? fs1 l H1 TL|]; subst; try congruence. rewrite H in H1. injection H1 as <-.
    inversion TL; subst. cbn [decode]. rewrite H.
    apply at_end_bind; [|intros; eexists; reflexivity]. cbn [get_fields get_field].
    apply at_end_bind; [|intros; eexists; reflexivity]. apply at_end_bind; [|intros; eexists; reflexivity].
    intros s. eexists. cbn. reflexivity.
Qed.

Lemma extensions_at_end E ts : Forall (fun t => needs_input E t /\ supported_field E t) ts ->
  exists F, forall fuel, (F <= fuel)%nat -> forall olds strict g, have_field_types E anything (map extension ts) olds ->
    run {| r_end := EOF; r_strict := strict |} (get_fields E (decode fuel E chain_decoder Whole) g (map extension ts) olds) []
    = Done (map (zero E) ts, None) [].
Proof.
  induction 1 as [|t ts [N S] _ [F2 IH]].
  - exists O. intros fuel _ olds strict g T. inversion T; subst. reflexivity.
  - destruct (at_end_get E t N Slot S) as [F1 G]. exists (Nat.max F1 F2). intros fuel L olds strict g T. cbn [map] in T.
    inversion T as [|? ? ? ? old l TO TL]; subst. cbn [map get_fields extension get_field]. rewrite !run_dbind.
    destruct (G fuel ltac:(lia) old TO strict) as [v R]. cbn [get] in R. rewrite R. cbn [run].
    rewrite run_dbind, IH; [reflexivity|lia|exact TL].
Qed.
Lemma extensions_absent E t before lb bs lb' ts : encoded_fields E before lb bs lb' ->
  head E t = TStruct (before ++ map extension ts) -> Forall (fun t => needs_input E t /\ supported_field E t) ts ->
  exists F, forall fuel, (F <= fuel)%nat -> forall olds strict, have_field_types E anything (map extension ts) olds ->
    run {| r_end := EOF; r_strict := strict |} (Decode fuel E t (RStruct (zeros_of before ++ olds))) bs
    = Done (RStruct (lb' ++ map (zero E) ts), None) [].
Proof.
  intros W H N. destruct (struct_prefix E t before lb bs lb' W) as [F1 P]. destruct (extensions_at_end E ts N) as [F2 Q].
  exists (S (S (Nat.max F1 F2))). intros [|[|fuel]] L olds strict T; try lia.
  rewrite <- (app_nil_r bs), (P fuel ltac:(lia) _ _ _ _ H), Q; [reflexivity|lia|exact T].
Qed.

(** Variants *)
Lemma clear_others_spec E ok : forall alts l i, alternatives E alts -> have_field_types E ok alts l ->
  exists l', clear_others E i alts l = Some l' /\ length l' = length alts
    /\ forall j, (j < length alts)%nat -> Z.of_nat j <> i -> nth_error l' j = Some (RPtr None).
Proof.
  induction alts as [|[[tg vis] t] alts IH]; intros l i A T; inversion T as [|? ? ? ? v l0 TV TL]; subst; cbn [clear_others].
  - exists []. split; [reflexivity|]. split; [reflexivity|]. intros j J. cbn in J. lia.
  - inversion A as [|? ? A1 A2]; subst. cbv beta iota in A1. destruct A1 as (_ & V & t' & H).
    destruct (IH l0 (i - 1) A2 TL) as (l' & C & L & K). rewrite C.
    assert (PV : exists o, v = RPtr o) by (inversion TV; subst; try congruence; eauto). destruct PV as [o ->].
    destruct (Z.eqb_spec i 0) as [->|NZ].
    + eexists. split; [reflexivity|]. split; [cbn; lia|]. intros [|j] J NJ; [lia|]. cbn [nth_error]. apply K; cbn in J; lia.
    + rewrite H, V. unfold zero. rewrite H. cbn [zero_of].
      exists (RPtr None :: l'). split; [destruct o; reflexivity|]. split; [cbn; lia|].
      intros [|j] J NJ; [reflexivity|]. cbn [nth_error]. apply K; cbn in J; lia.
Qed.
Lemma nth_replace {A} (x : A) : forall n l, (n < length l)%nat -> nth_error (replace_nth n x l) n = Some x
  /\ (forall j, j <> n -> nth_error (replace_nth n x l) j = nth_error l j) /\ length (replace_nth n x l) = length l.
Proof.
  induction n as [|n IH]; intros [|y l] L; cbn in L; try lia; cbn [replace_nth nth_error].
  - split; [reflexivity|]. split; [|reflexivity]. intros [|j] J; [lia|reflexivity].
  - destruct (IH l ltac:(lia)) as (A1 & A2 & A3). split; [exact A1|]. split; [|cbn; lia].
    intros [|j] J; [reflexivity|]. cbn [nth_error]. apply A2. lia.
Qed.
Lemma ReadByte_run env c rest : run env ReadByte (c :: rest) = Done (zb c, None) rest.
Proof.
  unfold ReadByte, ReadBytes. change (make_ok 1 1) with true. cbn [Z.ltb Z.eqb Z.compare dbind run].
  replace (1 <=? zlen (c :: rest)) with true by (unfold zlen; cbn [length]; lia). reflexivity.
Qed.
Lemma variant_reads E t before lb bs lb' alts ok olds i tg ta b x :
  encoded_fields E before lb bs lb' -> head E t = TStruct (before ++ [(Variant, Exported, TStruct alts)]) ->
  alternatives E alts -> have_field_types E ok alts olds ->
  (i < 256)%nat -> nth_error alts i = Some (tg, Exported, TPtr ta) -> decodes_whatever_follows E ta b x ->
  exists F l, length l = length alts
    /\ (forall j, (j < length alts)%nat -> nth_error l j = Some (if Nat.eqb j i then RPtr (Some x) else RPtr None))
    /\ forall fuel, (F <= fuel)%nat -> forall env rest,
      run env (Decode fuel E t (RStruct (zeros_of before ++ [RStruct olds]))) (bs ++ bz (Z.of_nat i) :: b ++ rest)
      = Done (RStruct (lb' ++ [RStruct l]), None) rest.
Proof.
  intros W H A T I N [F2 D]. destruct (struct_prefix E t before lb bs lb' W) as [F1 P].
  destruct (clear_others_spec E ok alts olds (Z.of_nat i) A T) as (l' & C & L & K).
  assert (IL : (i < length alts)%nat) by (apply nth_error_Some; congruence).
  destruct (nth_replace (RPtr (Some x)) i l' ltac:(lia)) as (R1 & R2 & R3).
  exists (S (S (S (Nat.max F1 F2)))), (replace_nth i (RPtr (Some x)) l'). split; [congruence|]. split.
  - intros j J. destruct (Nat.eqb_spec j i) as [->|NJ]; [exact R1|]. rewrite R2 by assumption. apply K; lia.
  - intros [|[|[|fuel]]] LF env rest; try lia. rewrite (P (S fuel) ltac:(lia) _ _ env _ H).
    cbn [get_fields get_field through head]. rewrite run_dbind. unfold get_variant. rewrite run_dbind, ReadByte_run.
    replace (zb (bz (Z.of_nat i))) with (Z.of_nat i) by (rewrite zb_bz; lia).
    cbn [decode head]. rewrite run_dbind. unfold get_alternative.
    replace (zlen alts <=? Z.of_nat i) with false by (unfold zlen; lia). rewrite C, Nat2Z.id, N. cbn [head].
    unfold reads, Decode in D. rewrite run_dbind. rewrite (D fuel ltac:(lia) env rest). reflexivity.
Qed.
Lemma variant_out_of_range E t before lb bs lb' alts olds c :
  encoded_fields E before lb bs lb' -> head E t = TStruct (before ++ [(Variant, Exported, TStruct alts)]) ->
  zlen alts <= zb c ->
  exists F, forall fuel, (F <= fuel)%nat -> forall env rest,
      run env (Decode fuel E t (RStruct (zeros_of before ++ [RStruct olds]))) (bs ++ c :: rest)
      = Done (RStruct (lb' ++ [RStruct olds]), Some (ErrMsg "abi: variant index out of bounds")) rest.
Proof.
  intros W H I. destruct (struct_prefix E t before lb bs lb' W) as [F1 P].
  exists (S (S (S F1))). intros [|[|[|fuel]]] LF env rest; try lia. rewrite (P (S fuel) ltac:(lia) _ _ env _ H).
  cbn [get_fields get_field through head]. rewrite run_dbind. unfold get_variant. rewrite run_dbind, ReadByte_run.
  cbn [decode head]. rewrite run_dbind. unfold get_alternative.
  replace (zlen alts <=? zb c) with true by lia. reflexivity.
Qed.
Lemma field_types_length E ok fs l : have_field_types E ok fs l -> length fs = length l.
Proof. induction 1; cbn; congruence. Qed.
Lemma alternatives_pointers E ok alts l : alternatives E alts -> have_field_types E ok alts l ->
  forall j v, nth_error l j = Some v -> exists o, v = RPtr o.
Proof.
  intros A T. induction T as [|tg vis t fs v l TV TL IH]; intros [|j] x N; try discriminate N.
  - injection N as <-. inversion A as [|? ? A1 A2]; subst. destruct A1 as (_ & _ & t' & H). inversion TV; subst; try congruence; eauto.
  - inversion A; subst. now apply (IH H2 j).
Qed.
Lemma variant_never E t alts ok l out full : head E t = TStruct alts -> alternatives E alts ->
  (2 <= length alts)%nat -> have_field_types E ok alts l -> at_most_one_set l ->
  runw (Encode E t (RStruct l)) out <> WDone None full.
Proof.
  intros H A TWO T ONE. eapply variant_fails; try eassumption; [eapply field_types_length; eassumption|eapply alternatives_pointers; eassumption].
Qed.
Lemma variant_field_never E t before lb alts after la tg ok l out full :
  head E t = TStruct (before ++ (tg, Exported, TStruct alts) :: after) -> tg <> Optional -> length before = length lb ->
  alternatives E alts -> (2 <= length alts)%nat -> have_field_types E ok alts l -> at_most_one_set l ->
  runw (Encode E t (RStruct (lb ++ RStruct l :: la))) out <> WDone None full.
Proof.
  intros H NO L A TWO T ONE R. rewrite (Encode_struct _ _ _ _ H), put_fields_app in R by assumption.
  apply runw_etry_done in R as (m1 & R1 & R2). rewrite put_plain in R2 by assumption. apply runw_etry_done in R2 as (m2 & R2 & _).
  eapply (variant_never E (TStruct alts)); try eassumption. reflexivity.
Qed.
