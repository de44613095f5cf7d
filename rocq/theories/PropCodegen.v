(** C56: the code generator.  [MarshalABI] and [UnmarshalABI] run the code it emits for a
    struct type; [fuel] bounds the nesting of structs in the value. *)
From Verif Require Import Base Prog SpecWire AbiPrim Chain SpecChain Values Leaf SpecLeaf Reflect SpecReflect SpecStrict SpecCodegen Codegen.
From Verif Require Import ProgProofs ReflectOrder ReflectProofs ReflectStrict CodegenText CodegenWrite CodegenRead PropReflect.

(** A struct to exhibit: most forms of fields, and a slice of another struct. *)
Definition pair_struct : gtype := TStruct [(NoTag, Exported, TLeaf KString); (Optional, Exported, TPtr (TLeaf KU32))].
Definition record_fields : list (tag * visibility * gtype) :=
  [(NoTag, Exported, TLeaf KU64); (NoTag, Exported, TLeaf KGoBytes); (NoTag, Exported, TSlice pair_struct);
   (NoTag, Exported, TLeaf KName); (Optional, Exported, TPtr (TLeaf KU8)); (NoTag, Exported, TArray 2 (TLeaf KU16))].
Definition record_struct : gtype := TStruct record_fields.
Definition record_types : types := {| declared := fun _ => TOther; size_of := fun _ => 8;
  marshals := no_marshal; unmarshals := no_unmarshal |}.
Definition record_parts : list (place * gtype) :=
  [(Target, record_struct); (Slot, TLeaf KU64); (Slot, TLeaf KGoBytes); (Slot, TSlice pair_struct); (Slot, TLeaf KName);
   (Slot, TPtr (TLeaf KU8)); (Slot, TArray 2 (TLeaf KU16)); (Slot, pair_struct); (Target, TLeaf KU8); (Slot, TLeaf KU16);
   (Slot, TLeaf KString); (Slot, TPtr (TLeaf KU32)); (Target, TLeaf KU32)].
Lemma record_closed : forall a b, within record_types a b -> In a record_parts -> In b record_parts.
Proof.
  induction 1 as [a|a b c P W IH]; [auto|]. intros I. apply IH. clear c W IH. unfold record_parts in I. cbn [In] in I.
  repeat (destruct I as [<-|I]); try contradiction; apply part_inv in P; cbn in P;
    try contradiction; try (subst b; cbn; tauto);
    destruct P as (tg & vis & u & J & ->);
    repeat match goal with
    | H : _ \/ _ |- _ => destruct H as [H|H]; [injection H as; subst; cbn; tauto|]
    | H : False |- _ => destruct H
    end.
Qed.
Ltac scalars := match goal with |- scalar (TLeaf ?k) => exists k; repeat split; discriminate end.
Lemma record_ready : codec_ready record_types record_struct.
Proof.
  assert (R : forall pl t, within record_types (Target, record_struct) (pl, t) -> In (pl, t) record_parts).
  { intros pl t W. exact (record_closed _ _ W (or_introl eq_refl)). }
  split; [split; [now exists record_fields|]|split].
  - intros pl t W. apply R in W. unfold record_parts in W. cbn [In] in W.
    repeat (destruct W as [W|W]; [injection W as <- <-|]); try contradiction; try exact I; try (split; reflexivity).
    + split; [|repeat constructor].
      apply compiles_iff. vm_compute. reflexivity.
    + split; [|repeat constructor].
      apply compiles_iff. vm_compute. reflexivity.
  - intros pl t u W H. apply R in W. unfold record_parts in W. cbn [In] in W.
    repeat (destruct W as [W|W]; [injection W as <- <-|]); try contradiction; try discriminate H; cbn [head] in H; injection H as <-; scalars.
  - intros pl t fs tg vis u W H J. apply R in W. unfold record_parts in W. cbn [In] in W.
    repeat (destruct W as [W|W]; [injection W as <- <-|]); try contradiction; try discriminate H; cbn [head] in H; injection H as <-; cbn [In record_fields] in J;
    repeat (destruct J as [J|J]; [injection J as <- <- <-; auto|]); contradiction.
Qed.
Definition record_value : rval :=
  RStruct [leaf (PU64 7); leaf (PGoBytes [x61; x62]);
           RSlice (Some [RStruct [leaf (PString [x78]); RPtr None]; RStruct [leaf (PString []); RPtr (Some (leaf (PU32 9)))]]);
           leaf (PName 1); RPtr (Some (leaf (PU8 3))); RArray [leaf (PU16 1); leaf (PU16 0)]].
Lemma record_typed : has_type record_types sound_leaf record_struct record_value.
Proof.
  eapply ht_struct; [reflexivity|]. repeat first [apply htf_nil|apply htf_cons].
  - leaf_ok. repeat split; discriminate.
  - leaf_ok. repeat split; discriminate.
  - eapply ht_slice; [reflexivity| |reflexivity]. repeat first [apply hts_nil|apply hts_cons].
    + eapply ht_struct; [reflexivity|]. repeat first [apply htf_nil|apply htf_cons].
      * leaf_ok. repeat split; discriminate.
      * eapply ht_nil; reflexivity.
    + eapply ht_struct; [reflexivity|]. repeat first [apply htf_nil|apply htf_cons].
      * leaf_ok. repeat split; discriminate.
      * eapply ht_ptr; [reflexivity|]. leaf_ok. repeat split; discriminate.
  - leaf_ok. repeat split; discriminate.
  - eapply ht_ptr; [reflexivity|]. leaf_ok. repeat split; discriminate.
  - eapply ht_array; [reflexivity| |reflexivity]. repeat first [apply hts_nil|apply hts_cons]; leaf_ok; repeat split; discriminate.
Qed.

(** GenUnmarshalFn panics exactly for a struct with an "optional" that is not a pointer. *)
Theorem C56_generator_panics fs :
  (exists m, GenUnmarshalFn fs = Panic m) <-> exists vis t, In (Optional, vis, t) fs /\ forall u, t <> TPtr u.
Proof. exact (generator_panics fs). Qed.
Print Assumptions C56_generator_panics.
Example C56_panics : (exists m, GenUnmarshalFn [(NoTag, Exported, TLeaf KU8); (Optional, Exported, TLeaf KU8)] = Panic m)
  /\ exists c, GenUnmarshalFn record_fields = Ok c.
Proof. split; eexists; vm_compute; reflexivity. Qed.

(** The code it emits compiles exactly for the structs described by [compilable]. *)
Theorem C56_compiles E fs : compiles E fs = true <-> compilable E fs.
Proof. exact (compiles_iff E fs). Qed.
Print Assumptions C56_compiles.
(** An array and no slice; two required pointers to scalars; a slice of byte slices;
    a map; and a struct with none of these. *)
Example C56_compiles_not :
  compiles record_types [(NoTag, Exported, TArray 2 (TLeaf KU8))] = false
  /\ compiles record_types [(NoTag, Exported, TPtr (TLeaf KU8)); (NoTag, Exported, TPtr (TLeaf KU16))] = false
  /\ compiles record_types [(NoTag, Exported, TSlice (TLeaf KGoBytes))] = false
  /\ compiles record_types [(NoTag, Exported, TMap (TLeaf KU8) (TLeaf KU8))] = false
  /\ compiles record_types record_fields = true.
Proof. repeat split. Qed.

(** The generated MarshalABI succeeds on the values the reflective encoder succeeds on
    and writes the same bytes. *)
Theorem C56_writes E t v : generable E t -> has_type E any_leaf t v ->
  exists F, forall fuel, (F <= fuel)%nat -> forall out full,
    runw (MarshalABI fuel E t v) out = WDone None full <-> runw (Encode E t v) out = WDone None full.
Proof.
  intros [(fs & H) G] T. destruct (proj1 (proj1 (writes_agree E) t v T)) with (pl := Target) as (F & A).
  - unfold with_methods. now rewrite H.
  - exact G.
  - exists F. exact A.
Qed.
Print Assumptions C56_writes.
Example C56_written : exists bs, runw (MarshalABI 3 record_types record_struct record_value) [] = WDone None bs /\ length bs = 35%nat.
Proof. eexists. split; vm_compute; reflexivity. Qed.

(** Reading into a new struct, on every input on which the reflective decoder comes to
    an end: both accept the same inputs, take the same bytes off them and give the same
    value (a list of length 0 may be nil for one and empty for the other). *)
Theorem C56_reads E t fuel n env inp : generable E t -> only_scalar_pointers E t -> only_optional_tags E t ->
  (fuel <= n)%nat -> run env (Decode fuel E t (zero E t)) inp <> Diverged ->
  (forall v rest, run env (Decode fuel E t (zero E t)) inp = Done (v, None) rest ->
     exists v', run env (UnmarshalABI n E t (zero E t)) inp = Done (v', None) rest /\ same v v')
  /\ (forall v' rest, run env (UnmarshalABI n E t (zero E t)) inp = Done (v', None) rest ->
     exists v, run env (Decode fuel E t (zero E t)) inp = Done (v, None) rest /\ same v v').
Proof.
  intros G SP OT L ND. assert (R : codec_ready E t) by (repeat split; try assumption; apply G).
  assert (W : with_methods E t) by (destruct G as [(fs & H) _]; unfold with_methods; now rewrite H).
  pose proof (methods_agree_all E fuel n L fuel t (le_n _) W (ready_good E t R) env inp) as A. unfold Decode in *.
  destruct (run env (decode fuel E chain_decoder Whole t (zero E t)) inp) as [[v [e|]] rest|m|] eqn:D; cbn [rel] in A.
  - split; [discriminate|]. intros v' rest' U. rewrite U in A. destruct A.
  - destruct A as (v' & U & S). apply near_same in S. split.
    + intros ? ? [= <- <-]. eauto.
    + intros v1 rest1 U1. rewrite U1 in U. injection U as -> ->. eauto.
  - split; [discriminate|]. intros v' rest' U. rewrite U in A. destruct A.
  - now elim ND.
Qed.
Print Assumptions C56_reads.
Example C56_read : exists bs, runw (MarshalABI 3 record_types record_struct record_value) [] = WDone None bs
  /\ run {| r_end := EOF; r_strict := false |} (UnmarshalABI 3 record_types record_struct (zero record_types record_struct)) (bs ++ [x2a]) = Done (record_value, None) [x2a]
  /\ exists v, run {| r_end := EOF; r_strict := false |} (Decode 10 record_types record_struct (zero record_types record_struct)) (bs ++ [x2a]) = Done (v, None) [x2a].
Proof. eexists. split; [vm_compute; reflexivity|]. split; [vm_compute; reflexivity|]. eexists. vm_compute. reflexivity. Qed.

(** What the generated MarshalABI writes, the generated UnmarshalABI reads back into a new
    struct. *)
Theorem C56_roundtrip E t v : generable E t -> only_scalar_pointers E t -> only_optional_tags E t -> faithful_methods E t -> has_type E sound_leaf t v ->
  exists F, forall fuel, (F <= fuel)%nat -> forall out full, runw (MarshalABI fuel E t v) out = WDone None full ->
    exists bs, full = out ++ bs /\
      exists N, forall n, (N <= n)%nat -> forall env rest, exists v',
        run env (UnmarshalABI n E t (zero E t)) (bs ++ rest) = Done (v', None) rest /\ same v v' /\ (comparable t = true -> v' = v).
Proof.
  intros G SP OT FM T. assert (R : codec_ready E t) by (repeat split; try assumption; apply G).
  assert (T' : has_type E any_leaf t v) by (revert T; apply has_type_weaken; intros p [A _]; exact A).
  destruct (C56_writes E t v G T') as (F & A). exists F. intros fuel L out full W. apply (A fuel L) in W.
  destruct (C40_roundtrip E t v out full (ready_supported E t R FM) T W) as (bs & v' & -> & [S C] & N & D).
  exists bs. split; [reflexivity|]. exists N. intros n LN env rest. specialize (D N (le_n _) env rest).
  assert (WM : with_methods E t) by (destruct G as [(fs & H) _]; unfold with_methods; now rewrite H).
  pose proof (methods_agree_all E N n LN N t (le_n _) WM (ready_good E t R) env (bs ++ rest)) as X. unfold Decode in D. rewrite D in X.
  destruct X as (v2 & U & S2). exists v2. split; [exact U|]. split; [exact (same_trans _ _ S _ (near_same _ _ S2))|].
  intros CT. rewrite (C CT) in S2. exact (near_comparable E any_leaf t v v2 S2 T' CT).
Qed.
Print Assumptions C56_roundtrip.
Example C56_record : generable record_types record_struct /\ only_scalar_pointers record_types record_struct
  /\ only_optional_tags record_types record_struct /\ faithful_methods record_types record_struct
  /\ has_type record_types sound_leaf record_struct record_value.
Proof.
  destruct record_ready as (A & B & C). split; [exact A|]. split; [exact B|]. split; [exact C|].
  split; [now apply no_methods_within, plain_no_methods|exact record_typed].
Qed.

(** The restriction on pointers is needed.  A required pointer to a chain type or struct
    compiles and is written, but nothing can be read into a new struct that has one. *)
Theorem C56_pointer_refuted E t fs tg vis u fuel env inp v rest : head E t = TStruct fs -> compilable E fs ->
  In (tg, vis, TPtr u) fs -> tg <> Optional -> with_methods E u ->
  run env (UnmarshalABI fuel E t (zero E t)) inp <> Done (v, None) rest.
Proof. apply pointer_unread. Qed.
Print Assumptions C56_pointer_refuted.
Example C56_pointer : let t := TStruct [(NoTag, Exported, TPtr (TLeaf KName))] in
  compiles record_types [(NoTag, Exported, TPtr (TLeaf KName))] = true
  /\ (exists bs, runw (MarshalABI 2 record_types t (RStruct [RPtr (Some (leaf (PName 5)))])) [] = WDone None bs
      /\ exists m, run {| r_end := EOF; r_strict := false |} (UnmarshalABI 2 record_types t (zero record_types t)) bs = Crash m).
Proof. cbn zeta. split; [reflexivity|]. eexists. split; [vm_compute; reflexivity|]. eexists. vm_compute. reflexivity. Qed.

(** Reading into a struct used before: an optional that is absent from the input keeps
    the value it had, whereas the reflective decoder sets it to nil. *)
Theorem C56_stale_refuted E t fs u old l fuel env inp v rest : head E t = TStruct ((Optional, Exported, TPtr u) :: fs) ->
  compilable E ((Optional, Exported, TPtr u) :: fs) ->
  (run env (UnmarshalABI fuel E t (RStruct (old :: l))) (x00 :: inp) = Done (v, None) rest -> exists l', v = RStruct (old :: l'))
  /\ (run env (Decode fuel E t (RStruct (old :: l))) (x00 :: inp) = Done (v, None) rest -> exists l', v = RStruct (RPtr None :: l')).
Proof.
  intros H C. split.
  - destruct fuel as [|fuel]; [discriminate|]. cbn [UnmarshalABI]. rewrite H. unfold GenUnmarshalFn.
    destruct (classify_all _) as [lf|e|m] eqn:CA; try discriminate. cbn [rbind].
    pose proof (classify_all_described _ _ CA) as D. inversion D as [|? f ? lf' D1 D']; subst. destruct D1 as (_ & text & ->). cbn [map unmarshal_body].
    assert (Q : exists b, gen_read (field_of (TPtr u) (is_optional Optional) text) = SReadOptional b).
    { unfold gen_read, field_of. cbn [shape_of]. destruct (body_of u) as [[[s a] n] m]. eexists. reflexivity. }
    destruct Q as (b & ->). cbn [exec_read]. rewrite !run_dbind. rewrite read_false. cbn [run].
    rewrite run_dbind. destruct (run env (unmarshal_body _ _ _ _ _) inp) as [[l' [e|]] r|m|]; cbn [run]; try discriminate.
    intros [= <- <-]. eauto.
  - unfold Decode. destruct fuel as [|[|fuel]]; [discriminate| |].
    { rewrite decode_whole by congruence. discriminate. }
    rewrite decode_whole by congruence. cbn [decode]. rewrite H. cbn [get_fields get_field]. rewrite !run_dbind. rewrite read_false. cbn [run].
    rewrite run_dbind. destruct (run env (get_fields _ _ _ _ _) inp) as [[l' [e|]] r|m|]; cbn [run]; try discriminate.
    intros [= <- <-]. unfold zero. cbn [head zero_of]. eauto.
Qed.
Print Assumptions C56_stale_refuted.
Example C56_stale : let t := TStruct [(Optional, Exported, TPtr (TLeaf KU8))] in
  let old := RStruct [RPtr (Some (leaf (PU8 3)))] in
  run {| r_end := EOF; r_strict := false |} (UnmarshalABI 2 record_types t old) [x00] = Done (old, None) []
  /\ run {| r_end := EOF; r_strict := false |} (Decode 5 record_types t old) [x00] = Done (RStruct [RPtr None], None) [].
Proof. split; vm_compute; reflexivity. Qed.
