(** C67: exactly when encoding panics, fails or succeeds. *)
From Verif Require Import Base Prog AbiPrim BaseProofs SpecWire ProgProofs Chain SpecChain Values Leaf SpecLeaf Reflect SpecReflect AbiDyn SpecAbi
  AbiTermProofs AbiSample SpecPanics PanicProofs.

(** Without a cause of panic there is none, whatever the writer does. *)
Theorem C67_no_panic : forall E t v, predictable E -> has_type E any_leaf t v -> ~ holds E (panic_cause E) t v -> never_panics_w (Encode E t v).
Proof. intros E t v P T N. apply (np_never true). exact (proj1 (encode_np E true eq_refl P) t v T N). Qed.
Print Assumptions C67_no_panic.
(** The value is encoded completely exactly when there is neither a cause of panic
    nor one of error. *)
Theorem C67_succeeds : forall E t v, predictable E -> has_type E any_leaf t v ->
  ((exists bs, forall out, runw (Encode E t v) out = WDone None (out ++ bs)) <-> ~ holds E (cause E) t v).
Proof.
  intros E t v PR T. split.
  - intros (bs & R). exact (proj1 (encode_exact E) t v T _ _ (R [])).
  - intros N.
    assert (N1 : ~ holds E (panic_cause E) t v) by (intros X; apply N; clear - X; induction X; [apply ho_here; now left|eauto using holds..]).
    assert (N2 : ~ holds E (error_cause E) t v) by (intros X; apply N; clear - X; induction X; [apply ho_here; now right|eauto using holds..]).
    pose proof (np_runw _ _ (proj1 (encode_np E true eq_refl PR) t v T N1) []) as P.
    pose proof (proj1 (encode_ends E any_leaf PR) t v T []) as D.
    pose proof (proj1 (encode_quiet E) t v T N2 []) as Q.
    destruct (runw (Encode E t v) []) as [[e|] full|m full|] eqn:R; [now elim (Q e full)| |contradiction|congruence].
    exists full. intros out. pose proof (runw_shift (Encode E t v) [] out) as S. rewrite R in S. now apply S.
Qed.
Print Assumptions C67_succeeds.
(** With only causes of error it returns an error, with only causes of panic it panics. *)
Theorem C67_fails : forall E t v out, predictable E -> has_type E any_leaf t v -> holds E (error_cause E) t v -> ~ holds E (panic_cause E) t v ->
  exists e full, runw (Encode E t v) out = WDone (Some e) full.
Proof.
  intros E t v out PR T H N. pose proof (np_runw _ _ (proj1 (encode_np E true eq_refl PR) t v T N) out) as P.
  pose proof (proj1 (encode_ends E any_leaf PR) t v T out) as D.
  destruct (runw (Encode E t v) out) as [[e|] full|m full|] eqn:R; [eauto| |contradiction|congruence].
  elim (proj1 (encode_exact E) t v T _ _ R). clear - H. induction H; [apply ho_here; now right|eauto using holds..].
Qed.
Print Assumptions C67_fails.
Theorem C67_panics : forall E t v out, predictable E -> has_type E any_leaf t v -> holds E (panic_cause E) t v -> ~ holds E (error_cause E) t v ->
  exists m full, runw (Encode E t v) out = WCrash m full.
Proof.
  intros E t v out PR T H N. pose proof (proj1 (encode_quiet E) t v T N out) as Q.
  pose proof (proj1 (encode_ends E any_leaf PR) t v T out) as D.
  destruct (runw (Encode E t v) out) as [[e|] full|m full|] eqn:R; [now elim (Q e full)| |eauto|congruence].
  elim (proj1 (encode_exact E) t v T _ _ R). clear - H. induction H; [apply ho_here; now left|eauto using holds..].
Qed.
Print Assumptions C67_panics.
(** Abi.Encode and Abi.EncodeAction, whatever the value: it need not fit the schema. *)
Theorem C67_dynamic : forall a fuel v, small_gval v ->
  (forall n, well_named a n -> short_variants a n -> never_panics_w (Abi_Encode fuel a n v))
  /\ (forall x, (forall act, GetAction (AbiActions a) x = Some act -> well_named a (ActType act) /\ short_variants a (ActType act)) ->
        never_panics_w (Abi_EncodeAction fuel a x v)).
Proof.
  intros a fuel v S.
  assert (H : forall n, well_named a n -> short_variants a n -> never_panics_w (Abi_Encode fuel a n v)).
  { intros n W V. apply (np_never true). now apply Abi_Encode_np. }
  split; [exact H|]. intros x HA. unfold Abi_EncodeAction. destruct (GetAction (AbiActions a) x) as [act|] eqn:EA.
  - destruct (HA act eq_refl). now apply H.
  - intros o i out m out' R. discriminate R.
Qed.
Print Assumptions C67_dynamic.

(** A struct of a pointer and a slice of names; the pointer is nil. *)
Definition ex_types : types := {| declared := fun _ => TOther; size_of := fun _ => 8;
  marshals := no_marshal; unmarshals := no_unmarshal |}.
Lemma ex_predictable : predictable ex_types.
Proof. intros i x. split; [left; intros out; now exists "no method"%string, out|discriminate]. Qed.
Definition ex_t (tg : tag) (k : kind) : gtype := TStruct [(tg, Exported, TPtr (TLeaf k)); (NoTag, Exported, TSlice (TLeaf KName))].
Definition ex_v : rval := RStruct [RPtr None; RSlice (Some [RLeaf (PName 5) false; RLeaf (PName 0) true])].
Lemma ex_typed tg k : has_type ex_types any_leaf (ex_t tg k) ex_v.
Proof.
  eapply ht_struct; [reflexivity|]. constructor; [eapply ht_nil; reflexivity|]. constructor; [|constructor].
  eapply ht_slice; [reflexivity| |reflexivity].
  constructor; [|constructor; [|constructor]]; (eapply ht_leaf; [reflexivity|reflexivity|split; [|reflexivity]|split; lia]).
  - discriminate.
  - reflexivity.
Qed.
(** What is wrong with a part of it can only be wrong with the pointer. *)
Lemma ex_only (Q : gtype -> rval -> Prop) tg k :
  holds ex_types Q (ex_t tg k) ex_v ->
  ~ Q (ex_t tg k) ex_v -> (forall l, zlen l < 5 -> ~ Q (TSlice (TLeaf KName)) (RSlice (Some l))) ->
  (forall v z, ~ Q (TLeaf KName) (RLeaf (PName v) z)) ->
  written tg (RPtr None) /\ Q (TPtr (TLeaf k)) (RPtr None).
Proof.
  intros H A B C.
  inversion H as [? ? X| | | | | |? fs l i tg' vis t' v H2 F V W X]; subst; [contradiction|].
  cbn in H2. injection H2 as <-. destruct i as [|[|[|i]]]; cbn [nth_error] in F, V; try discriminate F.
  - injection F as <- <- <-. injection V as <-. split; [exact W|].
    inversion X; subst; assumption.
  - injection F as <- <- <-. injection V as <-. exfalso. inversion X as [? ? Y| |? t2 l2 x H3 I Y| | | | ]; subst.
    + refine (B _ _ Y). reflexivity.
    + cbn in H3. injection H3 as <-. destruct I as [<-|[<-|[]]]; inversion Y; subst; eapply C; eassumption.
Qed.
(** Tagged optional it is fine, a nil pointer to chain.Name panics, one to uint8 is
    an error. *)
Example C67_ex : predictable ex_types
  /\ (has_type ex_types any_leaf (ex_t Optional KName) ex_v /\ ~ holds ex_types (cause ex_types) (ex_t Optional KName) ex_v)
  /\ (has_type ex_types any_leaf (ex_t NoTag KName) ex_v /\ holds ex_types (panic_cause ex_types) (ex_t NoTag KName) ex_v
      /\ ~ holds ex_types (error_cause ex_types) (ex_t NoTag KName) ex_v)
  /\ (has_type ex_types any_leaf (ex_t NoTag KU8) ex_v /\ holds ex_types (error_cause ex_types) (ex_t NoTag KU8) ex_v
      /\ ~ holds ex_types (panic_cause ex_types) (ex_t NoTag KU8) ex_v).
Proof.
  split; [exact ex_predictable|].
  repeat match goal with |- _ /\ _ => split end; try apply ex_typed.
  - apply (C67_succeeds _ _ _ ex_predictable (ex_typed _ _)).
    exists [x00; x02; x05; x00; x00; x00; x00; x00; x00; x00; x00; x00; x00; x00; x00; x00; x00; x00].
    intros out. exact (runw_shift (Encode ex_types (ex_t Optional KName) ex_v) [] out _ eq_refl).
  - eapply ho_field with (i := 0%nat); try reflexivity; [discriminate|]. apply ho_here. left. now exists KName.
  - intros H. apply ex_only in H.
    + destruct H as [_ [H _]]. specialize (H KName eq_refl). discriminate.
    + intros [].
    + intros l _ [].
    + intros v z [].
  - eapply ho_field with (i := 0%nat); try reflexivity; [discriminate|]. apply ho_here. split; [|discriminate]. intros k K. injection K as <-. reflexivity.
  - intros H. apply ex_only in H.
    + destruct H as [_ [(k & K & G)|(i & u & K)]]; [injection K as <-|]; discriminate.
    + intros (i & tg & vis & t & v & F & _ & _ & X). destruct i as [|[|[|i]]]; cbn [nth_error] in F; try discriminate F; injection F as <- <- <-; now apply X.
    + intros l L. unfold panic_cause. cbn [head]. intros C. apply C. unfold short. lia.
    + intros v z. unfold panic_cause. cbn [head bounded_prim]. intros C. now apply C.
Qed.
(** The schema and the value of the examples of C45. *)
Example C67_dynamic_ex : small_gval sample_value /\ well_named sample (str "transfer") /\ short_variants sample (str "transfer").
Proof.
  split; [|split].
  - repeat (constructor; cbn [snd]); try exact I; try (vm_compute; split; congruence). all: try lia; try reflexivity.
  - eapply well_named_ok. vm_compute. reflexivity.
  - intros m b arr opt ext l _ _ D. inversion D as [|v _ (pre & post & E & _)| | ]; subst.
    assert (I : In v (Variants sample)) by (rewrite E; apply in_elt). destruct I as [<-|[]]. reflexivity.
Qed.
