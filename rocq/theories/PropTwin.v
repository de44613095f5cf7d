(** C52: the dynamic and the static codec agree. *)
From Verif Require Import Base Prog SpecWire SpecChain Values Leaf SpecLeaf AbiDyn SpecAbi Reflect SpecReflect SpecTags SpecMirror SpecAbiDef SpecTwin.
From Verif Require Import AbiResolveProofs AbiCodecProofs AbiApiProofs AbiSample ReflectProofs TwinProofs.

(** A schema value and the corresponding Go value are encoded to the same bytes, and
    each decoder makes its own value of them. *)
Theorem C52_same_bytes a E n t g v : small_types E -> well_named a n -> wf_gval g -> twins a E n t g v ->
  exists bs g' v', keeps g g' /\ same v v'
    /\ (forall out, encodes a n g out (WDone None (out ++ bs)))
    /\ (forall out, runw (Encode E t v) out = WDone None (out ++ bs))
    /\ (forall env rest, decodes env a n (bs ++ rest) (Done (g', None) rest))
    /\ exists F, forall fuel, (F <= fuel)%nat -> forall env rest,
         run env (Decode fuel E t (zero E t)) (bs ++ rest) = Done (v', None) rest.
Proof.
  intros M WN W (b & arr & ext & D & N & T).
  destruct (proj1 (proj2 (twin_encoded a E M)) _ _ _ _ _ _ _ T) as (bs & g' & v' & A & R & S).
  assert (X : abi_enc a n g bs g') by (eapply enc_req; eauto). exists bs, g', v'.
  destruct (api_layout a n g bs g' WN W X) as [X1 X2].
  split; [exact (proj1 (enc_keeps a) n g bs g' X)|]. split; [exact S|]. split; [exact X1|].
  split; [exact (proj1 (encoded_writes E) _ _ _ _ _ R)|]. split; [exact X2|].
  exact (proj1 (encoded_reads E) _ _ _ _ _ R).
Qed.
Print Assumptions C52_same_bytes.

Theorem C52_outcomes_agree a E n t g v out r : small_types E -> well_named a n -> wf_gval g -> twins a E n t g v ->
  encodes a n g out r -> r = runw (Encode E t v) out.
Proof.
  intros M WN W T [_ [F1 H]]. destruct (C52_same_bytes a E n t g v M WN W T) as (bs & _ & _ & _ & _ & X & Y & _).
  rewrite Y. destruct (X out) as [_ [F2 G]]. rewrite <- (H (Nat.max F1 F2)) by lia. apply G. lia.
Qed.
Print Assumptions C52_outcomes_agree.

(** type Pay struct { Base; Amount *uint64 (optional); Tags []string; Blob []byte;
    Next []Pay; Note uint8 (extension) } with type Base struct { From Name } *)
Definition Pay : types := {| size_of := fun _ => 96; declared := fun _ =>
  TStruct [SpecMirror.field (TStruct [SpecMirror.field (TLeaf KName)]); (Optional, Exported, TPtr (TLeaf KU64));
           SpecMirror.field (TSlice (TLeaf KString)); SpecMirror.field (TLeaf KGoBytes); SpecMirror.field (TSlice (Reflect.TName 0));
           extension (TLeaf KU8)]; marshals := no_marshal; unmarshals := no_unmarshal |}.
Definition pay_abi : Abi := (abi_of [("account", "name")]
  [("base", "", [AbiSample.field "from" "account"]);
   ("pay", "base", [AbiSample.field "amount" "uint64?"; AbiSample.field "tags" "string[]"; AbiSample.field "blob" "uint8[]";
                    AbiSample.field "next" "pay[]"; AbiSample.field "note" "uint8$"])] [])%string.
Definition pay_map (from : Z) (amount : gval) (next : list gval) : gval :=
  VMap [(str "note", VPrim (PU8 3)); (str "amount", amount); (str "from", VPrim (PName from)); (str "next", VSlice next);
        (str "tags", VSlice [VPrim (PString (str "x"))]); (str "blob", VSlice (map (fun c => VPrim (PU8 (zb c))) [x07; xff]))].
Definition pay_struct (from : Z) (amount : option Z) (next : list rval) : rval :=
  RStruct [RStruct [go (PName from)]; RPtr (match amount with Some z => Some (go (PU64 z)) | None => None end);
           RSlice (Some [go (PString (str "x"))]); go (PGoBytes [x07; xff]); RSlice (Some next); go (PU8 3)].
Ltac named := apply parse_sound; vm_compute; reflexivity.
Ltac no_such := repeat constructor; vm_compute; discriminate.
Lemma pay_builtin n b : In b (map str ["name"; "uint64"; "string"; "uint8"]%string) -> falls_through pay_abi n b.
Proof. intros I. left. cbn in I. repeat destruct I as [<-|I]; try (destruct I); apply def_none; no_such. Qed.
Lemma pay_fields n arr opt ext : decomposes n (str "pay") arr opt ext -> inherits pay_abi n (map (fun '(f, t) => (str f, str t))
  [("from", "account"); ("amount", "uint64?"); ("tags", "string[]"); ("blob", "uint8[]"); ("next", "pay[]"); ("note", "uint8$")]%string).
Proof.
  intros D. apply (inh_base pay_abi n (str "pay") arr opt ext (str "base")
    (map (fun '(f, t) => (str f, str t)) [("amount", "uint64?"); ("tags", "string[]"); ("blob", "uint8[]"); ("next", "pay[]"); ("note", "uint8$")]%string)
    [(str "from", str "account")]); [exact D|..].
  - apply (def_struct pay_abi (str "pay") (nth 1 (Structs pay_abi) {| SName := []; SBase := []; SFields := [] |})).
    exists (firstn 1 (Structs pay_abi)), []. split; [reflexivity|]. split; [reflexivity|no_such].
  - apply (inh_root pay_abi (str "base") (str "base") false false false); [named|].
    apply (def_struct pay_abi (str "base") (nth 0 (Structs pay_abi) {| SName := []; SBase := []; SFields := [] |})).
    exists [], (skipn 1 (Structs pay_abi)). split; [reflexivity|]. split; [reflexivity|no_such].
Qed.
Lemma pay_twins n arr opt ext from amount next gs : decomposes n (str "pay") arr opt ext -> in_u 64 from ->
  match amount with Some z => in_u 64 z | None => True end -> short gs -> twin_list pay_abi Pay (str "pay[]") (str "pay") (Reflect.TName 0) gs next ->
  forall pl, twin_inner pay_abi Pay pl n (str "pay") (Reflect.TName 0)
    (pay_map from (match amount with Some z => VPrim (PUint64 z) | None => VNil end) gs) (pay_struct from amount next).
Proof.
  intros D F A L NX pl. eapply ti_struct; [reflexivity|eapply pay_fields; exact D|discriminate|]. cbn [map].
  apply (tfs_embedded pay_abi Pay [(str "from", str "account")]).
  { apply tfs_field; [|constructor]. apply (tf_required _ _ (str "account") (str "account") false false); [named|discriminate|reflexivity|].
    apply tb_single. apply (ti_alias _ _ _ _ _ (str "name") (str "name") false false); [|named|discriminate|].
    - apply (def_alias pay_abi (str "account") (nth 0 (Types pay_abi) {| NewTypeName := []; AType := [] |})); [no_such|no_such|].
      exists [], []. repeat split. constructor.
    - apply tb_single, ti_leaf; [reflexivity|reflexivity|apply pay_builtin; cbn; tauto|reflexivity|split; [exact F|split; exact I]|constructor]. }
  apply tfs_field.
  { destruct amount as [z|].
    - apply (tf_present _ _ (str "uint64?") (str "uint64") false false); [named|discriminate|reflexivity|reflexivity|].
      eapply tb_pointer; [reflexivity|]. apply tb_single, ti_leaf; [reflexivity|reflexivity|apply pay_builtin; cbn; tauto|reflexivity|split; [exact A|split; exact I]|constructor].
    - apply (tf_absent _ _ (str "uint64?") (str "uint64") false false); [named|reflexivity|reflexivity|constructor]. }
  apply tfs_field.
  { apply (tf_required _ _ (str "string[]") (str "string") true false); [named|discriminate|reflexivity|].
    eapply tb_slice; [reflexivity|vm_compute; reflexivity|]. apply tl_cons; [|constructor].
    apply ti_leaf; [reflexivity|reflexivity|apply pay_builtin; cbn; tauto|reflexivity|split; [exact I|split; [vm_compute; reflexivity|exact I]]|constructor]. }
  apply tfs_field.
  { apply (tf_required _ _ (str "uint8[]") (str "uint8") true false); [named|discriminate|reflexivity|].
    apply (tb_bytes pay_abi Pay Slot (str "uint8[]") (str "uint8") (TLeaf KGoBytes) [x07; xff]); [reflexivity|apply pay_builtin; cbn; tauto|reflexivity|vm_compute; reflexivity]. }
  apply tfs_field.
  { apply (tf_required _ _ (str "pay[]") (str "pay") true false); [named|discriminate|reflexivity|].
    eapply tb_slice; [reflexivity|exact L|exact NX]. }
  apply tfs_field; [|constructor].
  apply (tf_required _ _ (str "uint8$") (str "uint8") false true (TLeaf KU8)); [named|discriminate|reflexivity|].
  apply tb_single, ti_leaf; [reflexivity|reflexivity|apply pay_builtin; cbn; tauto|reflexivity| |constructor].
  split; [split; [discriminate|reflexivity]|split; exact I].
Qed.
Example C52_example : small_types Pay /\ well_named pay_abi (str "pay")
  /\ wf_gval (pay_map 5 (VPrim (PUint64 9)) [pay_map 6 VNil []])
  /\ twins pay_abi Pay (str "pay") (Reflect.TName 0) (pay_map 5 (VPrim (PUint64 9)) [pay_map 6 VNil []]) (pay_struct 5 (Some 9) [pay_struct 6 None []]).
Proof.
  split; [intros t; split; [discriminate|reflexivity]|]. split; [eapply well_named_ok; vm_compute; reflexivity|]. split.
  - repeat (constructor; cbn [snd]); try exact I; try (vm_compute; split; congruence). all: first [lia|vm_compute; discriminate].
  - exists (str "pay"), false, false. split; [named|]. split; [discriminate|]. apply tb_single.
    apply (pay_twins (str "pay") false false false 5 (Some 9)); [named|split; [discriminate|reflexivity]|split; [discriminate|reflexivity]|vm_compute; reflexivity|].
    apply tl_cons; [|constructor].
    apply (pay_twins (str "pay[]") true false false 6 None); [named|split; [discriminate|reflexivity]|exact I|vm_compute; reflexivity|constructor].
Qed.
