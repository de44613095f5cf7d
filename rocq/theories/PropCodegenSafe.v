(** C70: generated methods report every failure of the reader and of the writer, and
    panic only on a long length prefix.  [MarshalABI] and [UnmarshalABI] run the code the
    generator emits for a struct type; [n] bounds the nesting of structs. *)
From Verif Require Import Base Prog SpecWire AbiPrim Chain SpecChain Values Leaf SpecLeaf Reflect SpecReflect SpecStrict SpecCodegen SpecLengths Codegen.
From Verif Require Import ProgProofs ReflectStrict CodegenRead CodegenSafe PropReflect PropCodegen PropLengths.

(** Without [k] neighbouring bytes of 128 or more UnmarshalABI does not panic, whatever
    the struct already holds.  Only the element sizes of slices and the methods the user
    wrote matter. *)
Theorem C70_panics : forall k E t v n, (k <= 6)%nat -> generable E t -> only_scalar_pointers E t -> roomy E k t -> has_type E any_leaf t v ->
  panic_free k (UnmarshalABI n E t v).
Proof. intros k E t v n K G S R V. exact (generated_panics k E t any_leaf v n K G S R V). Qed.
Print Assumptions C70_panics.

(** A success depends on the bytes read only, and every proper prefix of those gives an
    error, again whatever the struct already holds. *)
Theorem C70_truncation : forall E t v n, generable E t -> only_scalar_pointers E t -> reads_checked E t -> has_type E any_leaf t v ->
  truncation_safe (UnmarshalABI n E t v).
Proof. intros E t v n. exact (generated_truncation E t any_leaf v n). Qed.
Print Assumptions C70_truncation.

(** If any write fails, MarshalABI says so, for all types and values; the reflective
    encoder loses the error of a presence flag (C61_optional_refuted). *)
Theorem C70_faults : forall E t v n, writes_checked E t -> write_faults_reported (MarshalABI n E t v).
Proof. intros E t v n. exact (generated_faults E t v n). Qed.
Print Assumptions C70_faults.

Lemma record_plain E t : (forall i u t', within E (Target, t) t' -> head E (snd t') <> TUser i u) -> reads_checked E t /\ writes_checked E t.
Proof. intros H. split; intros pl t' i u W HD; now apply (H i u (pl, t')) in W. Qed.
Example C70_record : generable record_types record_struct /\ only_scalar_pointers record_types record_struct /\ roomy record_types 6 record_struct
  /\ reads_checked record_types record_struct /\ writes_checked record_types record_struct /\ has_type record_types any_leaf record_struct record_value
  /\ no_run 6 [x01; xff; xff; xff; xff; xff; x7f; x80; x02].
Proof.
  destruct record_ready as (A & B & _). split; [exact A|]. split; [exact B|].
  assert (R : forall pl t, within record_types (Target, record_struct) (pl, t) -> In (pl, t) record_parts).
  { intros pl t W. exact (record_closed _ _ W (or_introl eq_refl)). }
  split; [|split; [|split; [|split]]].
  - intros pl t W. apply R in W. unfold record_parts in W. cbn [In] in W.
    repeat (destruct W as [W|W]; [injection W as <- <-|]); try contradiction; try exact I. unfold roomy_here. cbn. discriminate.
  - apply record_plain. intros i u [pl t] W. apply R in W. unfold record_parts in W. cbn [In] in W.
    repeat (destruct W as [W|W]; [injection W as <- <-; discriminate|]); contradiction.
  - apply record_plain. intros i u [pl t] W. apply R in W. unfold record_parts in W. cbn [In] in W.
    repeat (destruct W as [W|W]; [injection W as <- <-; discriminate|]); contradiction.
  - pose proof record_typed as T. revert T. apply has_type_weaken. intros p [X _]. exact X.
  - apply longest_no_run. vm_compute. lia.
Qed.
(** An absent optional field alone: of the two codecs only the reflective one hides that
    its presence flag was not written. *)
Example C70_flag : forall o, (forall i, o i = Some (O, ErrIO 1)) ->
  let t := TStruct [(Optional, Exported, TPtr (TLeaf KU8))] in let v := RStruct [RPtr None] in
  runf o 0 (MarshalABI 1 record_types t v) [] = WDone (Some (ErrIO 1)) [] /\ runf o 0 (Encode record_types t v) [] = WDone None [].
Proof. intros o H. cbn. rewrite (H O). split; reflexivity. Qed.
