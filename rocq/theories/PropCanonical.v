(** C77: re-encoding what was decoded. *)
From Verif Require Import Base Prog SpecWire AbiPrim Chain SpecChain Values Leaf SpecLeaf Reflect SpecReflect SpecStrict SpecDecoded SpecCanonical.
From Verif Require CodegenRead.
From Verif Require Import ProgProofs AbiPrimProofs ReflectProofs ReflectStrict DecodedProofs CanonicalProofs PropStrict PropDecoded PropUser.

(** Whatever bytes a value was decoded from, its encoding is not longer. *)
Theorem C77_no_longer E t old fuel env inp v rest : supported E t -> no_extensions E t ->
  methods_within (method_reencodes no_longer E) E t -> has_type E unused_leaf t old ->
  run env (Decode fuel E t old) inp = Done (v, None) rest ->
  exists c, inp = c ++ rest /\ forall bs, writes (Encode E t v) bs -> no_longer c bs.
Proof.
  intros S X M T R. apply (methods_reencode _ (canon false)) in M; [|intros; symmetry; apply canon_no_longer].
  destruct (decode_reencodes false E fuel Whole (or_introl eq_refl) t old (supported_tidy _ _ _ S X M ltac:(discriminate)) T env inp v rest R)
    as (c & EQ & _ & C).
  exists c. split; [exact EQ|]. intros bs W. apply canon_no_longer, C, W.
Qed.
Print Assumptions C77_no_longer.

(** Without bools, optional fields and maps no other bytes of that length decode to it. *)
Theorem C77_shortest E t old fuel env inp v rest : supported E t -> no_extensions E t -> rigid E t ->
  methods_within (method_reencodes shortest E) E t -> has_type E unused_leaf t old ->
  run env (Decode fuel E t old) inp = Done (v, None) rest ->
  exists c, inp = c ++ rest /\ forall bs, writes (Encode E t v) bs -> shortest c bs.
Proof.
  intros S X RG M T R. apply (methods_reencode _ (canon true)) in M; [|intros; symmetry; apply canon_shortest].
  destruct (decode_reencodes true E fuel Whole (or_introl eq_refl) t old (supported_tidy _ _ _ S X M (fun _ => RG)) T env inp v rest R)
    as (c & EQ & _ & C).
  exists c. split; [exact EQ|]. intros bs W. apply canon_shortest, C, W.
Qed.
Print Assumptions C77_shortest.

(** Together with C62: the encoding exists, decodes to the same value again, and is
    the shortest byte string read as it. *)
Theorem C77_normal_form E t old fuel env inp v rest : supported E t -> no_extensions E t -> rigid E t ->
  methods_within (regular E) E t -> methods_within (method_reencodes shortest E) E t ->
  has_type E unused_leaf t old -> has_type E any_leaf t old -> zlen inp < 2 ^ 28 ->
  run env (Decode fuel E t old) inp = Done (v, None) rest -> small v ->
  exists c bs v', inp = c ++ rest /\ writes (Encode E t v) bs /\ shortest c bs /\ same v v' /\ decodes_whatever_follows E t bs v'.
Proof.
  intros S X RG M1 M2 T T' L R SM.
  destruct (C62_reencodes E t old fuel env inp v rest S X M1 T' L R SM)
    as (bs & v' & W & SA & D).
  destruct (C77_shortest E t old fuel env inp v rest S X RG M2 T R) as (c & EQ & C). exists c, bs, v'. auto.
Qed.
Print Assumptions C77_normal_form.

(** The methods of Transaction and Action by themselves, whose own encodings are what
    is hashed and signed. *)
Theorem C77_transaction old env inp t rest : run env (Transaction_UnmarshalABI old) inp = Done (t, None) rest ->
  exists c, inp = c ++ rest /\ forall bs, writes (Transaction_MarshalABI t) bs -> shortest c bs.
Proof.
  intros R. destruct (WTransaction_takes true old env inp t rest R) as (c & EQ & C). exists c. split; [exact EQ|].
  intros bs W. apply canon_shortest, C, W.
Qed.
Print Assumptions C77_transaction.
Theorem C77_action old env inp a rest : Authorization old = [] -> run env (Action_UnmarshalABI old) inp = Done (a, None) rest ->
  exists c, inp = c ++ rest /\ forall bs, writes (Action_MarshalABI a) bs -> shortest c bs.
Proof.
  intros F R. destruct (WAction_takes true old F env inp a rest R) as (c & EQ & C). exists c. split; [exact EQ|].
  intros bs W. apply canon_shortest, C, W.
Qed.
Print Assumptions C77_action.

(** Two transactions read from different bytes of the shortest length are different:
    of all the byte strings a transaction can be read from, one at most is its encoding. *)
Theorem C77_one_encoding old old' env env' c c' t bs :
  run env (Transaction_UnmarshalABI old) c = Done (t, None) [] -> run env' (Transaction_UnmarshalABI old') c' = Done (t, None) [] ->
  writes (Transaction_MarshalABI t) bs -> zlen c = zlen bs -> zlen c' = zlen bs -> c = c'.
Proof.
  intros R R' W L L'. apply C77_transaction in R as (d & -> & D). apply C77_transaction in R' as (d' & -> & D').
  rewrite !app_nil_r in *. rewrite <- (proj2 (D _ W)), <- (proj2 (D' _ W)); auto.
Qed.
Print Assumptions C77_one_encoding.

(** A transaction with one action, three of its numbers padded: 40 bytes in, 36 out. *)
Definition padded : list byte :=
  [x01; x00; x00; x00; x02; x00; x03; x00; x00; x00; x84; x80; x00; x05; x00]
  ++ [x00]
  ++ [x81; x00]
    ++ [x07; x00; x00; x00; x00; x00; x00; x00; x08; x00; x00; x00; x00; x00; x00; x00; x00; x82; x00; xaa; xbb]
  ++ [x00].
Example C77_padded_ex : let env := {| r_end := EOF; r_strict := true |} in
  forall old, exists t bs, run env (Transaction_UnmarshalABI old) (padded ++ [xff]) = Done (t, None) [xff]
    /\ writes (Transaction_MarshalABI t) bs /\ zlen padded = zlen bs + 4.
Proof.
  intros env old. eexists _, _. split; [vm_compute; reflexivity|]. split.
  - apply (writes_once _ []). vm_compute. reflexivity.
  - reflexivity.
Qed.

(** A slice of the hand-written numbers of C68: a type with methods of its own. *)
Lemma number_reencodes : method_reencodes shortest number_types 0 (TLeaf KU32).
Proof.
  intros old env inp v rest T R.
  assert (H : takes (fun c v => covers true c (marshals number_types 0 v)) (unmarshals number_types 0 old)).
  { eapply takes_bind; [apply (WVaruint_takes true)| |intros; apply takes_error]. intros c n C. apply takes_ret. now rewrite app_nil_r. }
  destruct (H _ _ _ _ R) as (c & EQ & C). exists c. split; [exact EQ|]. intros bs W. apply canon_shortest, C, W.
Qed.
Lemma numbers_parts pl t : within number_types (Target, TSlice number) (pl, t) -> t = TSlice number \/ t = number.
Proof.
  intros W. inversion W as [a|a b c P W']; subst; [now left|]. right. apply CodegenRead.part_inv in P. cbn in P. subst b.
  inversion W' as [a|a b c P W2]; subst; [reflexivity|]. apply CodegenRead.part_inv in P. destruct P.
Qed.
Example C77_numbers_ex : let E := number_types in let t := TSlice number in
  supported E t /\ no_extensions E t /\ rigid E t /\ methods_within (method_reencodes shortest E) E t /\ has_type E unused_leaf t (zero E t)
  /\ exists v, run {| r_end := EOF; r_strict := true |} (Decode 5 E t (zero E t)) [x82; x00; x81; x80; x00; x05; xff] = Done (v, None) [xff]
     /\ writes (Encode E t v) [x02; x01; x05].
Proof.
  cbv zeta. split; [|split; [|split; [|split; [|split]]]].
  - intros pl t W. apply numbers_parts in W as [-> | ->]; cbn; [exact I|]. split; [reflexivity|exact number_faithful].
  - intros pl t fs tg vis u W H. apply numbers_parts in W as [-> | ->]; discriminate.
  - intros pl t W. apply numbers_parts in W as [-> | ->]; exact I.
  - intros pl t i u W H. apply numbers_parts in W as [-> | ->]; [discriminate|]. injection H as <- <-. exact number_reencodes.
  - now apply (ht_nil_slice _ _ _ number).
  - eexists. split; [vm_compute; reflexivity|]. apply (writes_once _ []). vm_compute. reflexivity.
Qed.

(** The conditions are needed.  A bool of the same length need not be the one written;
    an Action with authorizations in it gets more of them, and the encoding is longer
    than what was read; and an optional field present but zero is left out. *)
Theorem C77_conditions_refuted E : let env := {| r_end := EOF; r_strict := true |} in
  (exists v, run env (Decode 3 E (TLeaf KBool) (zero E (TLeaf KBool))) [x02] = Done (v, None) []
     /\ writes (Encode E (TLeaf KBool) v) [x01])
  /\ (exists old inp a bs, Authorization old <> [] /\ run env (Action_UnmarshalABI old) inp = Done (a, None) []
     /\ writes (Action_MarshalABI a) bs /\ zlen inp < zlen bs)
  /\ (let t := TStruct [(Optional, Exported, TLeaf KU8)] in
     exists v, run env (Decode 5 E t (zero E t)) [x01; x00] = Done (v, None) [] /\ writes (Encode E t v) [x00]).
Proof.
  split; [|split].
  - eexists. split; [reflexivity|]. apply (writes_once _ []). reflexivity.
  - exists {| Account := 1; AName := 2; Authorization := [{| Actor := 3; Permission := 4 |}]; AData := [] |}, (repeat x00 18).
    eexists _, _. split; [discriminate|]. split; [vm_compute; reflexivity|]. split; [apply (writes_once _ []); vm_compute; reflexivity|reflexivity].
  - eexists. split; [reflexivity|]. apply (writes_once _ []). reflexivity.
Qed.
Print Assumptions C77_conditions_refuted.
