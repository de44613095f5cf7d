(** C44-C51, C58, C59: the dynamic, schema-driven codec of chain.Abi. *)
From Verif Require Import Base Prog AbiPrim BaseProofs SpecWire ProgProofs AbiPrimProofs Chain SpecChain ChainProofs
  Values Leaf SpecLeaf LeafProofs AbiDyn SpecAbi AbiResolveProofs AbiCodecProofs AbiTermProofs AbiStrictProofs AbiApiProofs AbiSample.

(** * C44: resolution terminates (the budget [resolve_fuel] is always enough) and is faithful *)
Theorem C44_resolution : forall a n, well_named a n ->
  exists tbl, (forall fuel, (resolve_fuel a <= fuel)%nat -> exists tbl', resolve fuel a n [] = Some (Ok tbl'))
    /\ resolve (resolve_fuel a) a n [] = Some (Ok tbl)
    /\ (forall m, (exists t, lookup tbl m = Some t) <-> reach a n m)
    /\ (forall m t, lookup tbl m = Some t -> describes a t m).
Proof.
  intros a n W. destruct (resolve_outcome a n) as [(tbl & P & E & [T1 T2] & _)|(_ & m & R & M)]; [|elim (W m R M)].
  exists tbl. split; [|auto]. intros fuel L. destruct (P fuel L) as (t & Q & _). eauto.
Qed.
Print Assumptions C44_resolution.
Theorem C44_panics : forall a n m, reach a n m -> malformed m ->
  (forall fuel, (resolve_fuel a <= fuel)%nat -> exists s, resolve fuel a n [] = Some (Panic s))
  /\ (forall env inp, exists s, decodes env a n inp (Crash s))
  /\ (forall v out, exists s, encodes a n v out (WCrash s out)).
Proof.
  intros a n m R M. destruct (unresolved a n m R M) as (s & _ & ED & EE). split; [|split].
  - destruct (resolve_outcome a n) as [(tbl & _ & _ & _ & W)|(P & _)]; [elim (W m R M)|exact P].
  - intros. exists s. apply (decodes_at _ _ _ _ _ 0); [rewrite ED; reflexivity|discriminate].
  - intros. exists s. apply (encodes_at _ _ _ _ _ 0); [rewrite EE; reflexivity|discriminate].
Qed.
Print Assumptions C44_panics.
Theorem C44_malformed : forall n, malformed n <->
  exists core, (length core <= 1)%nat /\ (n = core \/ n = core ++ str "?" \/ n = core ++ str "$" \/ n = core ++ str "$?").
Proof. exact malformed_iff. Qed.
Print Assumptions C44_malformed.
Theorem C44_name_unambiguous : forall n b arr opt ext b' arr' opt' ext',
  decomposes n b arr opt ext -> decomposes n b' arr' opt' ext' -> b = b' /\ arr = arr' /\ opt = opt' /\ ext = ext'.
Proof. exact decomposes_fun. Qed.
Print Assumptions C44_name_unambiguous.

Example C44_ex : well_named sample (str "transfer") /\ reach sample (str "transfer") (str "transfer[]")
  /\ decomposes (str "uint8[]$?") (str "uint8") true true true.
Proof.
  split; [|split].
  - eapply well_named_ok. vm_compute. reflexivity.
  - eapply (reach_step _ _ (str "transfer") (str "transfer")); [apply reach_refl|apply parse_sound; reflexivity| |].
    + eapply (def_struct _ _ {| SName := str "transfer"; SBase := str "base"; SFields := _ |}).
      exists [{| SName := str "base"; SBase := []; SFields := [field "from" "account"] |}], [].
      split; [reflexivity|]. split; [reflexivity|]. repeat constructor. vm_compute. discriminate.
    + vm_compute. tauto.
  - apply parse_sound. reflexivity.
Qed.
Example C44_ex_cyclic : exists tbl, resolve (resolve_fuel sample) sample (str "transfer[]") [] = Some (Ok tbl) /\ length tbl = 9%nat.
Proof. eexists. split; vm_compute; reflexivity. Qed.
Example C44_ex_bad : let a := (abi_of [] [("s", "", [field "x" "?"])] [])%string in reach a (str "s") (str "s") /\ malformed (str "s").
Proof. split; [apply reach_refl|]. apply C44_malformed. exists (str "s"). split; [cbn; lia|auto]. Qed.

(** * C45 *)
(** The bytes the schema prescribes ([abi_enc]) are what Encode writes and what Decode reads. *)
Theorem C45_layout : forall a n v bs v', well_named a n -> wf_gval v -> abi_enc a n v bs v' ->
  (forall out, encodes a n v out (WDone None (out ++ bs)))
  /\ (forall env rest, decodes env a n (bs ++ rest) (Done (v', None) rest)).
Proof. exact api_layout. Qed.
Print Assumptions C45_layout.
(** Whatever Encode accepts is decoded again, and it is the value up to undeclared map entries. *)
Theorem C45_roundtrip : forall a n v out full, plain_schema a n -> wf_gval v ->
  encodes a n v out (WDone None full) ->
  exists bs v', full = out ++ bs /\ abi_enc a n v bs v' /\ keeps v v'
    /\ forall env rest, decodes env a n (bs ++ rest) (Done (v', None) rest).
Proof.
  intros a n v out full P W E. destruct (api_roundtrip a n v out full P W E) as (bs & v' & F & A & D).
  exists bs, v'. split; [exact F|]. split; [exact A|]. split; [|exact D]. apply (proj1 (enc_keeps a) n v bs v' A).
Qed.
Print Assumptions C45_roundtrip.
(** With distinct field names the decoded value encodes to the same bytes and is its own image. *)
Theorem C45_fixed_point : forall a n v bs v', distinct_fields a n -> abi_enc a n v bs v' -> abi_enc a n v' bs v'.
Proof. exact api_fixed. Qed.
Print Assumptions C45_fixed_point.
(** The decoded map of a struct has exactly the declared fields. *)
Theorem C45_declared_fields : forall a n b arr opt ext fs m bs v', decomposes n b arr opt ext -> inherits a n fs -> fs <> [] ->
  abi_inner a n b (VMap m) bs v' ->
  exists m', v' = VMap m' /\ forall k, (exists x, lookup m' k = Some x) <-> In k (map fst fs).
Proof. exact declared_fields. Qed.
Print Assumptions C45_declared_fields.

Example C45_ex : encodes sample (str "transfer") sample_value [] (WDone None sample_bytes)
  /\ decodes {| r_end := EOF; r_strict := true |} sample (str "transfer") sample_bytes (Done (sample_back, None) [])
  /\ wf_gval sample_value /\ plain_schema sample (str "transfer").
Proof.
  split; [exact sample_encodes|]. split; [exact sample_decodes|]. split; [exact sample_wf|].
  split; intros (m & arr & opt & ext & R & D & _); apply sample_names in R; apply parse_complete in D;
    cbn [map In] in R; repeat (destruct R as [<-|R]; [vm_compute in D; discriminate D|]); destruct R.
Qed.

(** * C46 *)
Theorem C46_order : forall a n fs b ext m bs out0, well_named a n -> wf_gval (VMap m) -> inherits a n fs -> fs <> [] ->
  decomposes n b false false ext -> abi_fields a fs m bs out0 ->
  (forall out, encodes a n (VMap m) out (WDone None (out ++ bs)))
  /\ (forall env rest, decodes env a n (bs ++ rest) (Done (VMap (to_map out0), None) rest)).
Proof. exact struct_layout. Qed.
Print Assumptions C46_order.
Theorem C46_fields_unique : forall a n fs fs', inherits a n fs -> inherits a n fs' -> fs = fs'.
Proof. intros a n fs fs' H. apply (inherits_fun a n fs H). Qed.
Print Assumptions C46_fields_unique.
(** A circular base chain, or one reaching something else than a struct, has no fields at all ... *)
Theorem C46_no_fields : forall a n fs,
  (exists p, (p = n \/ path (base_of a) n p) /\
     (path (base_of a) p p \/ exists q b arr opt ext d, base_of a p q /\ decomposes q b arr opt ext /\ defines a b d
                              /\ forall r own, d <> DStruct r own)) ->
  ~ inherits a n fs.
Proof. exact no_fields. Qed.
Print Assumptions C46_no_fields.
(** ... and such a struct, one without fields, and an undefined type are rejected. *)
Theorem C46_rejected : forall a n b ext, well_named a n -> decomposes n b false false ext ->
  (defines a b DNone \/ exists p own, defines a b (DStruct p own) /\ forall fs, inherits a n fs -> fs = []) ->
  ~ In b builtin_list -> (forall v, encode_rejects a n v) /\ decode_rejects a n.
Proof. exact unknown_rejected. Qed.
Print Assumptions C46_rejected.

Definition chain_abi : Abi := (abi_of [] [("aa", "bb", [field "x" "uint8"]); ("bb", "cc", [field "y" "uint8"]); ("cc", "", [field "z" "uint8"]);
   ("dd", "ee", [field "x" "uint8"]); ("ee", "dd", []); ("ff", "uint8", [field "x" "uint8"]); ("gg", "", [])] [])%string.
Ltac def_ok := match goal with |- defines ?a ?b _ =>
   let r := eval vm_compute in (GetStruct (Structs a) b) in match r with Some ?s =>
     let HS := fresh in pose proof (GetStruct_spec (Structs a) b) as HS; change (GetStruct (Structs a) b) with (Some s) in HS;
     exact (def_struct a b s HS) end end.
Example C46_ex : inherits chain_abi (str "aa") [(str "z", str "uint8"); (str "y", str "uint8"); (str "x", str "uint8")]
  /\ path (base_of chain_abi) (str "dd") (str "dd") /\ base_of chain_abi (str "ff") (str "uint8")
  /\ encode_rejects chain_abi (str "dd") (VMap [(str "x", VPrim (PU8 1))]) /\ decode_rejects chain_abi (str "gg").
Proof.
  assert (DE : base_of chain_abi (str "dd") (str "ee")).
  { exists (str "dd"), false, false, false. eexists. split; [apply parse_sound; reflexivity|def_ok]. }
  assert (ED : base_of chain_abi (str "ee") (str "dd")).
  { exists (str "ee"), false, false, false. eexists. split; [apply parse_sound; reflexivity|def_ok]. }
  split; [|split; [|split; [|split]]].
  - apply (inh_base _ _ (str "aa") false false false (str "bb") [(str "x", str "uint8")] [(str "z", str "uint8"); (str "y", str "uint8")]);
      [apply parse_sound; reflexivity|def_ok|].
    apply (inh_base _ _ (str "bb") false false false (str "cc") [(str "y", str "uint8")] [(str "z", str "uint8")]);
      [apply parse_sound; reflexivity|def_ok|].
    apply (inh_root _ _ (str "cc") false false false); [apply parse_sound; reflexivity|def_ok].
  - apply (path_more _ _ (str "ee")); [exact DE|now constructor].
  - exists (str "ff"), false, false, false. eexists. split; [apply parse_sound; reflexivity|def_ok].
  - intros out. eexists. apply (encodes_at _ _ _ _ _ 5); [vm_compute; reflexivity|discriminate].
  - intros env inp. eexists. apply (decodes_at _ _ _ _ _ 5); [vm_compute; reflexivity|discriminate].
Qed.

(** * C47 *)
Theorem C47_decode_terminates : forall a n, acyclic a n -> forall env inp, exists r, decodes env a n inp r.
Proof. exact api_decode_ends. Qed.
Print Assumptions C47_decode_terminates.
Theorem C47_decode_diverges : forall a n env inp, well_named a n -> leads_to_cycle (direct_first a) n ->
  decode_never_returns env a n inp.
Proof. exact api_decode_cycle. Qed.
Print Assumptions C47_decode_diverges.
Theorem C47_encode_terminates : forall a n, alias_acyclic a n -> forall v out, exists r, encodes a n v out r.
Proof. exact api_encode_ends. Qed.
Print Assumptions C47_encode_terminates.
Theorem C47_encode_diverges : forall a n v out, well_named a n -> v <> VNil -> leads_to_cycle (plain_alias a) n ->
  encode_never_returns a n v out.
Proof. exact api_encode_cycle. Qed.
Print Assumptions C47_encode_diverges.
(** Results do not depend on the step budget of the model. *)
Theorem C47_budget_irrelevant : forall a n fuel fuel', (fuel <= fuel')%nat ->
  (forall env inp, run env (Abi_Decode fuel a n) inp <> Diverged ->
     run env (Abi_Decode fuel' a n) inp = run env (Abi_Decode fuel a n) inp)
  /\ (forall v out, runw (Abi_Encode fuel a n v) out <> WDiverged ->
     runw (Abi_Encode fuel' a n v) out = runw (Abi_Encode fuel a n v) out).
Proof. intros a n f f' L. split; intros; [now apply Decode_stable|now apply Encode_stable]. Qed.
Print Assumptions C47_budget_irrelevant.

(** The sample is recursive (transfer contains transfer[]) and acyclic in this sense. *)
Example C47_ex : acyclic sample (str "transfer") /\ alias_acyclic sample (str "transfer").
Proof. exact sample_acyclic. Qed.
Definition loop_abi : Abi := (abi_of [("aa", "bb"); ("bb", "aa")] [("node", "", [field "next" "node"])] [])%string.
Example C47_ex_cycle : well_named loop_abi (str "node") /\ leads_to_cycle (direct_first loop_abi) (str "node")
  /\ well_named loop_abi (str "aa") /\ leads_to_cycle (plain_alias loop_abi) (str "aa").
Proof.
  split; [eapply well_named_ok; vm_compute; reflexivity|]. split.
  { exists (str "node"). split; [now left|]. constructor. exists (str "node"), false.
    split; [apply parse_sound; reflexivity|]. right. exists [], (str "next").
    apply (inh_root _ _ (str "node") false false false); [apply parse_sound; reflexivity|def_ok]. }
  split; [eapply well_named_ok; vm_compute; reflexivity|].
  exists (str "aa"). split; [now left|]. apply (path_more _ _ (str "bb")); [|constructor].
  - exists (str "aa"), false, false. split; [apply parse_sound; reflexivity|].
    apply (def_alias _ _ {| NewTypeName := str "aa"; AType := str "bb" |}); try (repeat constructor; vm_compute; discriminate).
    exists [], [{| NewTypeName := str "bb"; AType := str "aa" |}]. split; [reflexivity|]. split; [reflexivity|constructor].
  - exists (str "bb"), false, false. split; [apply parse_sound; reflexivity|].
    apply (def_alias _ _ {| NewTypeName := str "bb"; AType := str "aa" |}); try (repeat constructor; vm_compute; discriminate).
    exists [{| NewTypeName := str "aa"; AType := str "bb" |}], []. split; [reflexivity|]. split; [reflexivity|].
    repeat constructor. vm_compute. discriminate.
Qed.

(** * C48 *)
Theorem C48_layout : forall a n b ext l i vn x pre bs x', well_named a n -> wf_gval x ->
  decomposes n b false false ext -> defines a b (DVariant l) -> first_at l i vn -> Z.of_nat i < 2 ^ 28 ->
  varu (Z.of_nat i) pre -> abi_enc a vn x bs x' ->
  (forall out, encodes a n (VSlice [VPrim (PString vn); x]) out (WDone None (out ++ pre ++ bs)))
  /\ (forall env rest, decodes env a n ((pre ++ bs) ++ rest) (Done (VSlice [VPrim (PString vn); x'], None) rest)).
Proof.
  intros. apply api_layout; [assumption| |eapply enc_req; [eassumption|discriminate|apply body_single; eapply in_variant; eauto]].
  constructor. constructor; [constructor; split; exact I|]. now repeat constructor.
Qed.
Print Assumptions C48_layout.
Theorem C48_encode_rejects : forall a n b ext l v, well_named a n -> decomposes n b false false ext ->
  defines a b (DVariant l) -> (forall vn x, v = VSlice [VPrim (PString vn); x] -> ~ In vn l) -> encode_rejects a n v.
Proof. exact variant_rejects. Qed.
Print Assumptions C48_encode_rejects.
Theorem C48_index_out_of_range : forall a n b ext l pre rest env, well_named a n -> decomposes n b false false ext ->
  defines a b (DVariant l) -> leb_wf pre -> (length pre <= 10)%nat -> leb_value pre < 2 ^ 64 -> zlen l < 2 ^ 63 ->
  (zlen l <= leb_value pre < 2 ^ 63 -> exists e, decodes env a n (pre ++ rest) (Done (VNil, Some e) rest))
  /\ (2 ^ 63 <= leb_value pre -> exists m, decodes env a n (pre ++ rest) (Crash m)).
Proof. exact variant_index. Qed.
Print Assumptions C48_index_out_of_range.
(** Every index in range selects its alternative, also a repeated one, also with redundant varuint bytes. *)
Theorem C48_index_in_range : forall a n b ext l i vn x bs x' pre, well_named a n -> decomposes n b false false ext ->
  defines a b (DVariant l) -> nth_error l i = Some vn -> leb_wf pre -> (length pre <= 10)%nat ->
  leb_value pre = Z.of_nat i -> zlen l < 2 ^ 63 -> wf_gval x -> abi_enc a vn x bs x' ->
  forall env rest, decodes env a n (pre ++ bs ++ rest) (Done (VSlice [VPrim (PString vn); x'], None) rest).
Proof. exact variant_any_index. Qed.
Print Assumptions C48_index_in_range.

Example C48_ex : well_named sample (str "choice") /\ decomposes (str "choice") (str "choice") false false false
  /\ defines sample (str "choice") (DVariant [str "uint8"; str "account"])
  /\ first_at [str "uint8"; str "account"] 1 (str "account") /\ varu 1 [x01].
Proof.
  split; [eapply well_named_ok; vm_compute; reflexivity|]. split; [apply parse_sound; reflexivity|]. split; [|split].
  - apply (def_variant _ _ {| VName := str "choice"; VTypes := [str "uint8"; str "account"] |}).
    + repeat constructor; vm_compute; discriminate.
    + exists [], []. repeat split. constructor.
  - split; [reflexivity|]. intros [|j] L; [vm_compute; discriminate|lia].
  - split; [split; [repeat split; vm_compute; congruence|left; reflexivity]|reflexivity].
Qed.

(** * C49 *)
Theorem C49_nil_optional : forall a n b arr ext, well_named a n -> decomposes n b arr true ext ->
  (forall out, encodes a n VNil out (WDone None (out ++ [x00])))
  /\ (forall env rest, decodes env a n (x00 :: rest) (Done (VNil, None) rest)).
Proof. exact nil_optional. Qed.
Print Assumptions C49_nil_optional.
Theorem C49_nil_required : forall a n b arr ext, well_named a n -> decomposes n b arr false ext -> encode_rejects a n VNil.
Proof. exact nil_required. Qed.
Print Assumptions C49_nil_required.
Theorem C49_present_optional : forall a n b arr ext v bs v', well_named a n -> wf_gval v -> decomposes n b arr true ext ->
  v <> VNil -> abi_body a n b arr v bs v' ->
  (forall out, encodes a n v out (WDone None (out ++ x01 :: bs)))
  /\ (forall env rest, decodes env a n ((x01 :: bs) ++ rest) (Done (v', None) rest)).
Proof. intros. apply api_layout; [assumption|assumption|]. eapply enc_opt; eauto. Qed.
Print Assumptions C49_present_optional.
(** '$' at the end of the input *)
Theorem C49_extension_absent : forall a n b arr env, r_end env = EOF -> well_named a n -> decomposes n b arr false true ->
  acyclic a n -> all_known a n -> exists v, decodes env a n [] (Done (v, None) []).
Proof. exact ext_at_end. Qed.
Print Assumptions C49_extension_absent.
Theorem C49_extension_builtin : forall a n b env, r_end env = EOF -> well_named a n -> decomposes n b false false true ->
  falls_through a n b -> In b builtin_list -> b <> str "eosio::name" ->
  exists z, decoded_type z = Some b /\ z = zero_prim (kind_of z) /\ decodes env a n [] (Done (VPrim z, None) []).
Proof. exact ext_builtin. Qed.
Print Assumptions C49_extension_builtin.
Theorem C49_extension_array : forall a n b env, r_end env = EOF -> well_named a n -> decomposes n b true false true ->
  decodes env a n [] (Done (VNil, None) []).
Proof. exact ext_array. Qed.
Print Assumptions C49_extension_array.
(** "$?": the presence flag is required, its absence is an error *)
Theorem C49_extension_optional : forall a n b arr env, r_end env = EOF -> well_named a n -> decomposes n b arr true true ->
  decodes env a n [] (Done (VNil, Some EOF) []).
Proof. exact ext_optional. Qed.
Print Assumptions C49_extension_optional.

Example C49_ex : well_named sample (str "uint64?") /\ decomposes (str "uint64?") (str "uint64") false true false
  /\ well_named sample (str "choice$") /\ decomposes (str "choice$") (str "choice") false false true
  /\ decodes {| r_end := EOF; r_strict := false |} sample (str "choice$") [] (Done (VNil, None) []).
Proof.
  split; [eapply well_named_ok; vm_compute; reflexivity|]. split; [apply parse_sound; reflexivity|].
  split; [eapply well_named_ok; vm_compute; reflexivity|]. split; [apply parse_sound; reflexivity|].
  apply (decodes_at _ _ _ _ _ 5); [vm_compute; reflexivity|discriminate].
Qed.

(** * C50 *)
Theorem C50_bytes : forall a ext n, well_named a n -> decomposes n (str "bytes") false false ext -> falls_through a n (str "bytes") ->
  (forall d out, encodes a n (VPrim (PGoBytes d)) out (WDone None (out ++ d)))
  /\ (forall d, encode_rejects a n (VPrim (PBytes d)))
  /\ (forall d pre env rest, zlen d <= 2 ^ 48 -> leb_wf pre -> (length pre <= 10)%nat -> leb_value pre = zlen d ->
        decodes env a n (pre ++ d ++ rest) (Done (VPrim (PBytes d), None) rest)).
Proof. exact bytes_asymmetric. Qed.
Print Assumptions C50_bytes.
(** So the output is not readable back: the first byte is taken for the length. *)
Theorem C50_bytes_not_inverse : forall a n ext, well_named a n -> decomposes n (str "bytes") false false ext ->
  falls_through a n (str "bytes") ->
  encodes a n (VPrim (PGoBytes [x01; x02])) [] (WDone None [x01; x02])
  /\ forall env, decodes env a n [x01; x02] (Done (VPrim (PBytes [x02]), None) []).
Proof.
  intros a n ext W D F. destruct (bytes_asymmetric a ext n W D F) as (E & _ & R). split; [apply (E [x01; x02] [])|].
  intros env. apply (R [x02] [x01] env []); [vm_compute; discriminate|repeat split; vm_compute; congruence|cbn; lia|reflexivity].
Qed.
Print Assumptions C50_bytes_not_inverse.
Theorem C50_eosio_name : forall a n ext, well_named a n -> decomposes n (str "eosio::name") false false ext ->
  falls_through a n (str "eosio::name") ->
  (forall v out, in_u 64 v -> exists bs, fixed_le 8 v bs /\ encodes a n (VPrim (PName v)) out (WDone None (out ++ bs)))
  /\ decode_rejects a n.
Proof. exact eosio_name_asymmetric. Qed.
Print Assumptions C50_eosio_name.

Example C50_ex : well_named sample (str "bytes") /\ decomposes (str "bytes") (str "bytes") false false false
  /\ falls_through sample (str "bytes") (str "bytes").
Proof.
  split; [eapply well_named_ok; vm_compute; reflexivity|]. split; [apply parse_sound; reflexivity|].
  left. constructor; repeat constructor; vm_compute; discriminate.
Qed.

(** * C51 *)
Theorem C51_lookup_struct : forall l n,
  match GetStruct l n with Some s => first_named SName n l s | None => none_named SName n l end.
Proof. exact GetStruct_spec. Qed.
Print Assumptions C51_lookup_struct.
Theorem C51_lookup_variant : forall l n,
  match GetVariant l n with Some s => first_named VName n l s | None => none_named VName n l end.
Proof. exact GetVariant_spec. Qed.
Print Assumptions C51_lookup_variant.
Theorem C51_lookup_type : forall l n,
  match GetType l n with Some s => first_named NewTypeName n l s | None => none_named NewTypeName n l end.
Proof. exact GetType_spec. Qed.
Print Assumptions C51_lookup_type.
Theorem C51_lookup_action : forall l (n : Z),
  match GetAction l n with
  | Some s => exists pre post, l = pre ++ s :: post /\ ActName s = n /\ Forall (fun y => ActName y <> n) pre
  | None => Forall (fun y => ActName y <> n) l end.
Proof. exact GetAction_spec. Qed.
Print Assumptions C51_lookup_action.
Theorem C51_lookup_table : forall l (n : Z),
  match GetTable l n with
  | Some s => exists pre post, l = pre ++ s :: post /\ TName s = n /\ Forall (fun y => TName y <> n) pre
  | None => Forall (fun y => TName y <> n) l end.
Proof. exact GetTable_spec. Qed.
Print Assumptions C51_lookup_table.
Theorem C51_undeclared_action : forall a (n : Z) fuel, Forall (fun y => ActName y <> n) (AbiActions a) ->
  (forall env inp, exists e, run env (Abi_DecodeAction fuel a n) inp = Done (VNil, Some e) inp)
  /\ (forall v out, exists e, runw (Abi_EncodeAction fuel a n v) out = WDone (Some e) out).
Proof.
  intros a n fuel H. unfold Abi_DecodeAction, Abi_EncodeAction. pose proof (GetAction_spec (AbiActions a) n) as G.
  destruct (GetAction (AbiActions a) n) as [s|].
  - destruct G as (pre & post & E & N & _). rewrite E in H. apply Forall_app in H as [_ H]. inversion H; subst. contradiction.
  - split; intros; eexists; reflexivity.
Qed.
Print Assumptions C51_undeclared_action.
Theorem C51_declared_action : forall a act pre post fuel, AbiActions a = pre ++ act :: post ->
  Forall (fun y => ActName y <> ActName act) pre ->
  Abi_DecodeAction fuel a (ActName act) = Abi_Decode fuel a (ActType act)
  /\ forall v, Abi_EncodeAction fuel a (ActName act) v = Abi_Encode fuel a (ActType act) v.
Proof.
  intros a act pre post fuel E F. unfold Abi_DecodeAction, Abi_EncodeAction. rewrite E.
  assert (G : GetAction (pre ++ act :: post) (ActName act) = Some act).
  { clear E. induction pre as [|x pre IH]; cbn; [now rewrite Z.eqb_refl|]. inversion F; subst.
    replace (ActName x =? ActName act) with false by (symmetry; now apply Z.eqb_neq). auto. }
  rewrite G. auto.
Qed.
Print Assumptions C51_declared_action.

Example C51_ex : GetAction (AbiActions sample) 1 <> None /\ Forall (fun y => ActName y <> 2) (AbiActions sample).
Proof. split; [vm_compute; discriminate|]. repeat constructor. vm_compute. discriminate. Qed.

(** * C39, dynamic arrays: a length above 2^44 panics *)
Theorem C39_dynamic_array : forall a n b ext pre rest env, well_named a n -> decomposes n b true false ext ->
  leb_wf pre -> (length pre <= 10)%nat -> 2 ^ 44 < leb_value pre < 2 ^ 64 ->
  exists m, decodes env a n (pre ++ rest) (Crash m).
Proof. exact dynamic_array_hostile. Qed.
Print Assumptions C39_dynamic_array.

(** * C58: truncated input *)
Theorem C58_truncation : forall a n fuel, no_extension a n -> truncation_safe (Abi_Decode fuel a n).
Proof. exact api_truncation. Qed.
Print Assumptions C58_truncation.
(** With a '$' type the prefix without it decodes too. *)
Theorem C58_extension_refuted : exists a n v bs, encodes a n v [] (WDone None bs) /\ plain_schema a n /\ well_named a n /\
  exists q s v', bs = q ++ s /\ s <> [] /\ decodes {| r_end := EOF; r_strict := true |} a n q (Done (v', None) []).
Proof.
  exists sample, (str "transfer"), sample_value, sample_bytes. split; [exact sample_encodes|]. split; [apply C45_ex|].
  split; [apply C44_ex|]. exists (removelast sample_bytes), [x09]. eexists. split; [reflexivity|]. split; [discriminate|].
  apply (decodes_at _ _ _ _ _ 10); [vm_compute; reflexivity|discriminate].
Qed.
Print Assumptions C58_extension_refuted.
Example C58_ex : no_extension chain_abi (str "aa").
Proof.
  intros m b arr opt ext R D.
  destruct (resolve (resolve_fuel chain_abi) chain_abi (str "aa") []) as [[tbl| |]|] eqn:E; try (vm_compute in E; discriminate).
  apply (reach_in _ _ _ E) in R. vm_compute in E. injection E as <-. apply parse_complete in D. cbn [map fst In] in R.
  repeat (destruct R as [<-|R]; [vm_compute in D; injection D; auto|]). destruct R.
Qed.

(** * C59: failing writers *)
Theorem C59_write_faults : forall a n v fuel, no_optional a n -> write_faults_reported (Abi_Encode fuel a n v).
Proof. exact api_write_faults. Qed.
Print Assumptions C59_write_faults.
(** A failed write of the presence flag of an optional value is reported as success. *)
Theorem C59_optional_refuted : forall a n b arr ext v fuel o k e, well_named a n -> decomposes n b arr true ext ->
  o O = Some (k, e) -> runf o 0 (Abi_Encode (S fuel) a n v) [] = WDone None (firstn k [if is_nil v then x00 else x01]).
Proof. exact optional_fault_lost. Qed.
Print Assumptions C59_optional_refuted.
