(** C74: encoding values with interface variables inside. *)
From Verif Require Import Base Prog SpecWire AbiPrim Chain SpecChain Values Leaf SpecLeaf Reflect SpecReflect
  Interfaces SpecInterfaces.
From Verif Require Import BaseProofs ProgProofs AbiPrimProofs ChainProofs LeafProofs ReflectProofs InterfacesProofs PropReflect.

(** Holding parts of a value in interface variables changes neither the bytes written
    nor the error or panic. *)
Theorem C74_same_bytes E ok t v a out : boxed E t v a -> has_type E ok t v ->
  runw (encode_any E a) out = runw (Encode E t v) out.
Proof. intros B T. exact (proj1 (boxed_alike E ok) t v a B T out). Qed.
Print Assumptions C74_same_bytes.

(** So they are read back into a target of the type without interfaces. *)
Theorem C74_roundtrip E t v a out full : boxed E t v a -> supported E t -> has_type E sound_leaf t v ->
  runw (encode_any E a) out = WDone None full ->
  exists bs v', full = out ++ bs /\ same v v' /\
    exists F, forall fuel, (F <= fuel)%nat -> forall env rest,
      run env (Decode fuel E t (zero E t)) (bs ++ rest) = Done (v', None) rest.
Proof.
  intros B S T R. rewrite (C74_same_bytes _ _ _ _ _ _ B T) in R.
  destruct (round_trip _ _ _ _ _ S T R) as (bs & v' & A & M & _ & F & D). exists bs, v'. split; [exact A|]. split; [exact M|]. exists F. exact D.
Qed.
Print Assumptions C74_roundtrip.

(** Values of any mixture of types: encoding succeeds exactly for those with a wire
    form, and writes it. *)
Theorem C74_wire_form E a out full : plain_parts (sound_part E) a ->
  (runw (encode_any E a) out = WDone None full <-> exists bs, any_encoded E a bs /\ full = out ++ bs).
Proof.
  intros P. split.
  - intros R. destruct (any_complete E a P out full R) as (bs & A & W). eauto.
  - intros (bs & W & ->). exact (proj1 (any_encoded_writes E) a bs W out).
Qed.
Print Assumptions C74_wire_form.

(** A nil interface is never taken for a value. *)
Theorem C74_nil E a out full : nil_inside a -> runw (encode_any E a) out <> WDone None full.
Proof. intros N. exact (nil_never E a N out full). Qed.
Print Assumptions C74_nil.

(** It panics, after what stands before it was written. *)
Theorem C74_nil_panics E l rest out full : runw (encode_any E (AArray l)) out = WDone None full ->
  exists m, runw (encode_any E (AArray (l ++ AIface None :: rest))) out = WCrash m full.
Proof.
  rewrite !any_array. revert out. induction l as [|a l IH]; intros out R.
  - cbn in R. injection R as ->. eexists. reflexivity.
  - cbn [put_anys app] in R |- *. apply runw_etry_done in R as (mid & R1 & R2). destruct (IH _ R2) as [m H].
    exists m. unfold etry. rewrite runw_ebind, R1. exact H.
Qed.
Print Assumptions C74_nil_panics.

(** [[]interface{}{uint64(7), Name(1), "hi", []interface{}{uint8(255)}}] and a struct
    with a nil optional interface. *)
Definition no_types : types := {| declared := fun _ => TOther; size_of := fun _ => 16;
  marshals := no_marshal; unmarshals := no_unmarshal |}.
Definition held (k : kind) (p : prim) : any := AIface (Some (APlain (TLeaf k) (leaf p))).
Definition mixture : any := ASlice (Some [held KU64 (PU64 7); held KName (PName 1); held KString (PString [x68; x69]);
  AIface (Some (ASlice (Some [held KU8 (PU8 255)])));
  AIface (Some (AStruct [(Optional, Exported, AIface None); (Optional, Exported, held KU8 (PU8 0))]))]).
Example C74_mixture : runw (encode_any no_types mixture) [] = WDone None
  ([x05] ++ [x07; x00; x00; x00; x00; x00; x00; x00] ++ [x01; x00; x00; x00; x00; x00; x00; x00] ++ [x02; x68; x69]
   ++ [x01; xff] ++ [x00; x01; x00]).
Proof. reflexivity. Qed.
Example C74_mixture_sound : plain_parts (sound_part no_types) mixture.
Proof.
  assert (L : forall k p, kind_of p = k -> zero_flag_ok p (leaf_zero p) -> sound_leaf p -> plain_parts (sound_part no_types) (held k p)).
  { intros k p K Z S. constructor. constructor. split; [now apply plain_supported|]. eapply ht_leaf; eauto. reflexivity. }
  constructor. cbn [elems In]. intros a I.
  repeat match goal with H : _ \/ _ |- _ => destruct H as [<-|I] end; try contradiction.
  - apply L; [reflexivity|split; [discriminate|reflexivity]|split; [split; [discriminate|reflexivity]|exact Logic.I]].
  - apply L; [reflexivity|split; [discriminate|reflexivity]|split; [split; [discriminate|reflexivity]|exact Logic.I]].
  - apply L; [reflexivity|split; [discriminate|reflexivity]|split; exact Logic.I].
  - constructor. constructor. cbn [elems In]. intros a [<-|[]].
    apply L; [reflexivity|split; [discriminate|reflexivity]|split; [split; [discriminate|reflexivity]|exact Logic.I]].
  - constructor. constructor. intros tg vis a [E|[E|[]]]; injection E as <- <- <-; [constructor|].
    apply L; [reflexivity|split; reflexivity|split; [split; [discriminate|reflexivity]|exact Logic.I]].
Qed.
(** [[]interface{}] as [[]uint64]. *)
Example C74_numbers : boxed no_types (TSlice (TLeaf KU64)) (RSlice (Some [leaf (PU64 7); leaf (PU64 0)]))
    (ASlice (Some [held KU64 (PU64 7); held KU64 (PU64 0)]))
  /\ has_type no_types sound_leaf (TSlice (TLeaf KU64)) (RSlice (Some [leaf (PU64 7); leaf (PU64 0)])).
Proof.
  split.
  - eapply bx_slice; [reflexivity|]. repeat constructor.
  - eapply ht_slice; [reflexivity| |reflexivity].
    constructor; [leaf_ok; split; [split; [discriminate|reflexivity]|exact I]|].
    constructor; [eapply ht_leaf; [reflexivity|reflexivity|split; reflexivity|split; [split; [discriminate|reflexivity]|exact I]]|constructor].
Qed.
Example C74_nil_somewhere : nil_inside (ASlice (Some [held KU64 (PU64 7); AIface None])).
Proof. eapply ni_slice; [right; left; reflexivity|constructor]. Qed.
