(** C62: what the reflective decoder produces, and whether it can be encoded again. *)
From Verif Require Import Base Prog SpecWire AbiPrim Chain SpecChain Values Leaf SpecLeaf Reflect SpecReflect SpecStrict SpecDecoded.
From Verif Require Import ReflectProofs ReflectStrict DecodedProofs PropStrict.

(** Whatever bytes come in, a decoding that reports no error fills the target. *)
Theorem C62_decoded E t old fuel env inp v rest : supported E t -> methods_within (regular E) E t ->
  has_type E any_leaf t old -> zlen inp < 2 ^ 28 ->
  run env (Decode fuel E t old) inp = Done (v, None) rest -> filled E t v.
Proof.
  intros S M T L R. exact (decode_fills E fuel Whole (or_introl eq_refl) t old (supported_shape _ _ _ S M) T env inp v rest L R).
Qed.
Print Assumptions C62_decoded.

(** Without extensions, and if no number is too large for the encoder, what was decoded
    encodes without error, and its encoding decodes to the same value. *)
Theorem C62_reencodes E t old fuel env inp v rest : supported E t -> no_extensions E t ->
  methods_within (regular E) E t -> has_type E any_leaf t old -> zlen inp < 2 ^ 28 ->
  run env (Decode fuel E t old) inp = Done (v, None) rest -> small v ->
  exists bs v', writes (Encode E t v) bs /\ same v v' /\ decodes_whatever_follows E t bs v'.
Proof.
  intros S NE M T L R SM. pose proof (C62_decoded _ _ _ _ _ _ _ _ S M T L R) as F.
  destruct (proj1 (small_encoded E) _ _ F Target S (conj NE M) SM) as (bs & v' & C & SA & _).
  exists bs, v'. split; [now apply (proj1 (encoded_writes E)) in C|]. split; [exact SA|].
  now apply (proj1 (encoded_reads E)) in C.
Qed.
Print Assumptions C62_reencodes.

(** If a number is too large, the encoder panics. *)
Theorem C62_large E t old fuel env inp v rest : supported E t -> no_extensions E t ->
  methods_within (regular E) E t -> has_type E any_leaf t old -> zlen inp < 2 ^ 28 ->
  run env (Decode fuel E t old) inp = Done (v, None) rest -> ~ small v -> wpanics (Encode E t v).
Proof.
  intros S NE M T L R SM. pose proof (C62_decoded _ _ _ _ _ _ _ _ S M T L R) as F.
  destruct (proj1 (large_panics E) _ _ F Target S (conj NE M)) as [P D].
  intros out. destruct (P out) as [W|[full W]]; [exact W|]. exfalso. apply SM, D. now exists out, full.
Qed.
Print Assumptions C62_large.
(** The hypotheses are met: a list of two nodes, and a varuint the encoder cannot write. *)
Example C62_ex : let E := chain_types in let t := TName 0 in
  let inp := [x05; x00; x01; x01; x00; x00; x00; x00; x00; x00; x00; x02; x06; x00; x80; x00; x00; xff] in
  supported E t /\ no_extensions E t /\ methods_within (regular E) E t /\ has_type E any_leaf t (zero E t) /\ zlen inp < 2 ^ 28
  /\ exists v, run {| r_end := EOF; r_strict := true |} (Decode 20 E t (zero E t)) inp = Done (v, None) [xff] /\ small v
     /\ runw (Encode E t v) [] = WDone None [x05; x00; x01; x01; x00; x00; x00; x00; x00; x00; x00; x01; x06; x00; x00; x00].
Proof.
  cbv zeta. split; [apply chain_supported|]. split; [apply chain_no_extensions|].
  assert (M : methods_within (regular chain_types) chain_types (TName 0)) by apply no_methods_within, chain_no_methods.
  split; [exact M|]. split; [apply zero_typed_any; exact (supported_shape _ _ _ chain_supported M)|]. split; [reflexivity|].
  eexists. split; [vm_compute; reflexivity|]. split; [|vm_compute; reflexivity]. cbn [small bounded_prim]. unfold short. cbn. lia.
Qed.
Example C62_large_ex : let E := chain_types in let t := TLeaf KUint in let inp := [x80; x80; x80; x80; x01] in
  supported E t /\ no_extensions E t /\ methods_within (regular E) E t /\ has_type E any_leaf t (zero E t) /\ zlen inp < 2 ^ 28
  /\ exists v, run {| r_end := EOF; r_strict := true |} (Decode 20 E t (zero E t)) inp = Done (v, None) [] /\ ~ small v.
Proof.
  cbv zeta. assert (S : supported chain_types (TLeaf KUint)) by now apply plain_supported.
  split; [exact S|]. split.
  - intros pl t fs tg vis u W. inversion W as [|? ? ? P]; subst; [discriminate|]. inversion P; subst; discriminate.
  - assert (M : methods_within (regular chain_types) chain_types (TLeaf KUint)) by now apply no_methods_within, plain_no_methods.
    split; [exact M|]. split; [apply zero_typed_any; exact (supported_shape _ _ _ S M)|]. split; [reflexivity|].
    eexists. split; [vm_compute; reflexivity|]. cbn. lia.
Qed.

(** Not the same bytes: any other byte than 0 is read as true, and a length may be padded
    with zero digits. *)
Theorem C62_same_bytes_refuted E : let env := {| r_end := EOF; r_strict := true |} in
  (exists v, run env (Decode 3 E (TLeaf KBool) (zero E (TLeaf KBool))) [x02] = Done (v, None) []
     /\ writes (Encode E (TLeaf KBool) v) [x01])
  /\ (exists v, run env (Decode 3 E (TLeaf KString) (zero E (TLeaf KString))) [x81; x00; x61] = Done (v, None) []
     /\ writes (Encode E (TLeaf KString) v) [x01; x61]).
Proof.
  split; (eexists; split; [reflexivity|intros out]).
  - reflexivity.
  - unfold WriteString. change (out ++ [x01; x61]) with (out ++ [x01] ++ [x61]). rewrite app_assoc. reflexivity.
Qed.
Print Assumptions C62_same_bytes_refuted.

(** With an extension the claim fails: an absent extension of pointer type is left nil, and
    the encoder then reports an error. *)
Theorem C62_extension_refuted E : let t := TStruct [(NoTag, Exported, TLeaf KU8); (Extension, Exported, TPtr (TLeaf KU8))] in
  supported E t /\ has_type E any_leaf t (zero E t) /\
  exists v, run {| r_end := EOF; r_strict := true |} (Decode 5 E t (zero E t)) [x05] = Done (v, None) [] /\ small v
    /\ forall out, exists e, runw (Encode E t v) out = WDone (Some e) (out ++ [x05]).
Proof.
  cbv zeta. assert (S : supported E (TStruct [(NoTag, Exported, TLeaf KU8); (Extension, Exported, TPtr (TLeaf KU8))]))
    by now apply plain_supported.
  split; [exact S|]. split.
  { apply zero_typed_any; refine (supported_shape _ _ _ S _). now apply no_methods_within, plain_no_methods. }
  eexists. split; [reflexivity|]. split; [now cbn|]. intros out. eexists. reflexivity.
Qed.
Print Assumptions C62_extension_refuted.
