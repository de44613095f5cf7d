(** C86: what Abi.Decode returns beside an error. *)
From Coq Require Import String.
From Verif Require Import Base Prog AbiPrim BaseProofs SpecWire ProgProofs AbiPrimProofs Chain SpecChain ChainProofs
  Values Leaf SpecLeaf LeafProofs Reflect SpecReflect AbiDyn SpecAbi AbiResolveProofs AbiCodecProofs AbiTermProofs AbiStrictProofs AbiApiProofs AbiSample.
From Verif Require Import SpecAbiFailed ReencodeProofs PropFailed PropFailedTypes.
Import ListNotations.
Local Open Scope Z_scope.

Lemma zero_runs E k env inp :
  run env (Decode 2 E (TLeaf k) (zero E (TLeaf k))) inp
  = match run env (read_prim (zero_prim k)) inp with Done (q, o) r => Done (held q, o) r | Crash m => Crash m | Diverged => Diverged end.
Proof.
  assert (K : kind_of (zero_prim k) = k) by (now destruct k).
  change (zero E (TLeaf k)) with (RLeaf (zero_prim k) true).
  assert (X : k = KExtendedAsset \/ k <> KExtendedAsset) by (destruct k; first [now left|now right]).
  destruct X as [->|X].
  - unfold Decode. cbn [decode head chain_decoder table_kind go_kind dbind]. unfold leaf_read, held. rewrite run_dbind. now destruct (run env _ inp) as [[q o] r|m|].
  - unfold Decode. rewrite leaf_runs by assumption.
    unfold leaf_read, held. rewrite run_dbind. now destruct (run env (read_prim (zero_prim k)) inp) as [[q o] r|m|].
Qed.

Lemma into_done {A} env (c : A -> prim) (p : io A) inp v e rest : run env (into c p) inp = Done (v, e) rest ->
  exists x, run env p inp = Done (x, e) rest /\ v = VPrim (c x).
Proof. apply (map_done env p (fun x => VPrim (c x))). Qed.
Lemma builtin_left env a n b opt ext inp body v e rest : decomposes n b false opt ext -> falls_through a n b -> with_flag opt inp body ->
  run env (decodeBuiltin b) body = Done (v, Some e) rest -> left_beside env a n inp e rest v.
Proof.
  intros D F W R.
  assert (P : forall p, v = VPrim p -> decoded_type p = Some b -> run env (read_prim (zero_prim (kind_of p))) body = Done (p, Some e) rest ->
    left_beside env a n inp e rest v).
  { intros p -> T Q. eapply lb_builtin; try eassumption. intros E. exists (leaf_zero p). rewrite zero_runs, Q. reflexivity. }
  unfold decodeBuiltin in R. destruct (builtin_of b) as [B|] eqn:EB.
  2:{ cbn [run] in R. assert (v = VNil) as -> by congruence. eapply lb_unknown; try eassumption. intros p T.
      destruct p; cbn [decoded_type builtin_type] in T; try discriminate T; assert (b = _) by (symmetry; injection T; intros X; exact X); subst b; discriminate EB. }
  apply builtin_of_name in EB. subst b.
  destruct B;
    try (apply into_done in R as (x & R & ->); eapply P; [reflexivity|reflexivity|]; cbn [kind_of zero_prim read_prim]; rewrite wrap_runs, R; reflexivity).
  { apply into_done in R as (x & R & ->). assert (x = 0) as -> by (revert R; apply zoe_le). eapply P; [reflexivity|reflexivity|].
    cbn [kind_of zero_prim read_prim]. rewrite wrap_runs. unfold Uint64_UnmarshalABI, keep. rewrite run_dbind, R. reflexivity. }
  all: cbn [run] in R; assert (v = VNil) as -> by congruence; eapply lb_unknown; try eassumption; intros p T;
    destruct p; discriminate T.
Qed.

Lemma eof_left env t v0 e0 inp v e rest : run env (ext_eof t (v0, e0)) inp = Done (v, Some e) rest -> v = v0 /\ e0 = Some e /\ inp = rest.
Proof.
  unfold ext_eof. destruct e0 as [e0|]; [|discriminate]. destruct e0; [destruct (t_isExtension t); [discriminate|]|..]; cbn [run]; intros R; repeat split; congruence.
Qed.
Lemma fields_nil rec : forall fs vs env inp v e rest, run env (decode_fields rec fs vs) inp = Done (v, Some e) rest -> v = VNil.
Proof.
  induction fs as [|[f t] fs IH]; intros vs env inp v e rest; cbn [decode_fields]; [discriminate|].
  rewrite run_dbind. destruct (run env (rec t) inp) as [[x [e'|]] r|m|]; try discriminate; [cbn [run]; congruence|apply IH].
Qed.
Lemma type_left env a n0 tbl : table_for a n0 tbl -> forall fuel n inp v e rest, reach a n0 n ->
  run env (decodeType fuel tbl n) inp = Done (v, Some e) rest -> left_beside env a n inp e rest v.
Proof.
  intros T. induction fuel as [|fuel IH]; intros n inp v e rest RE R; [discriminate R|].
  destruct (table_lookup _ _ _ _ T RE) as (t & L & Ds). pose proof Ds as (N & D & _).
  rewrite (decodeType_S _ _ _ _ L) in R.
  assert (B : exists body, (with_flag (t_isOptional t) inp body /\ run env (dec_body fuel tbl t) body = Done (v, Some e) rest)
    \/ (t_isOptional t = true /\ v = VNil /\ inp = [] /\ e = r_end env /\ rest = [])).
  { destruct (t_isOptional t); [|exists inp; left; split; [reflexivity|exact R]].
    rewrite run_dbind in R. unfold ReadBool in R. rewrite run_dbind in R. destruct inp as [|c inp].
    - rewrite run_ReadByte_nil in R. cbn [run] in R. exists []. right. repeat split; congruence.
    - rewrite run_ReadByte_cons in R. cbn [run] in R. exists inp. left. destruct (zb c =? 0) eqn:Z; [discriminate R|]. cbn [negb] in R.
      split; [|exact R]. exists c. split; [intros ->; discriminate Z|reflexivity]. }
  clear R. destruct B as (body & [[W R]|(O & -> & -> & -> & ->)]); [|rewrite O in D; eapply lb_flag; exact D].
  unfold dec_body in R. destruct (t_isArray t) eqn:A.
  - assert (v = VNil) as ->; [|eapply lb_array; exact D]. rewrite run_dbind in R.
    destruct (run env ReadVaruint body) as [[l [e'|]] r|m|]; try discriminate R.
    + apply eof_left in R. apply R.
    + destruct (make_ok 16 l); [|discriminate R]. rewrite run_dbind in R.
      destruct (run env (decode_elems _ _ _) r) as [[va [e'|]] r'|m|]; try discriminate R. cbn [run] in R. congruence.
  - rewrite run_dbind in R. destruct (run env (decodeInner (decodeType fuel tbl) tbl t) body) as [[v0 e0] r|m|] eqn:I; try discriminate R.
    apply eof_left in R as (-> & -> & ->). unfold decodeInner in I.
    destruct (t_ref t) as [ref|] eqn:ER.
    + apply (describes_alias _ _ _ _ _ _ _ ref Ds D) in ER. eapply lb_alias; [exact D|exact ER|exact W|]. apply (IH ref); [|exact I].
      eapply reach_step; [exact RE|exact D|exact ER|now left].
    + destruct (allFields tbl (t_name t)) as [fs|] eqn:EF.
      * apply fields_nil in I. subst v0. rewrite N in EF. apply (allFields_spec _ _ _ _ T) in EF as [EF NE]; [|now exists t]. eapply lb_struct; eassumption.
      * destruct (t_variant t) as [l|] eqn:EV.
        -- assert (v0 = VNil) as ->.
           { rewrite run_dbind in I. destruct (run env ReadVaruint body) as [[idx [e'|]] r'|m|]; try discriminate I; [cbn [run] in I; congruence|].
             destruct (zlen l <=? i64 idx); [cbn [run] in I; congruence|]. destruct (at_ l idx) as [tv|]; [|discriminate I]. rewrite run_dbind in I.
             destruct (run env (decodeType fuel tbl tv) r') as [[x [e'|]] r''|m|]; try discriminate I. cbn [run] in I. congruence. }
           apply (describes_variant _ _ _ _ _ _ _ l Ds D) in EV. eapply lb_variant; eassumption.
        -- eapply builtin_left; [exact D| |exact W|exact I]. apply (inner_builtin _ _ _ _ _ _ _ _ _ T L Ds D). auto.
Qed.

(** What Abi.Decode returns beside an error. *)
Theorem C86_left env a n inp v e rest : decodes env a n inp (Done (v, Some e) rest) -> left_beside env a n inp e rest v.
Proof.
  intros [_ (F & H)]. specialize (H F (Nat.le_refl _)). unfold Abi_Decode, with_types in H.
  destruct (resolve_outcome a n) as [(tbl & _ & E & T & _)|(P & _)].
  - rewrite E in H. exact (type_left env a n tbl T F n inp v e rest (reach_refl _ _) H).
  - destruct (P _ (Nat.le_refl _)) as (s & Q). rewrite Q in H. discriminate H.
Qed.
Print Assumptions C86_left.

(** No part of a struct, of a list or of a variant that was read is returned. *)
Theorem C86_composite env a n b arr opt ext inp v e rest : decomposes n b arr opt ext ->
  arr = true \/ (exists fs, inherits a n fs /\ fs <> []) \/ (exists l, defines a b (DVariant l)) ->
  decodes env a n inp (Done (v, Some e) rest) -> v = VNil.
Proof.
  intros D C R. apply C86_left in R.
  destruct R as [| | | |? b' opt' ext' t ? ? ? ? ? D' AL W LB| |? b' opt' ext' ? ? ? ? p D' FT T W LB]; try reflexivity; exfalso;
    destruct (decomposes_fun _ _ _ _ _ _ _ _ _ D D') as (<- & -> & _ & _); (destruct C as [C|[(fs & I & NE)|(l & V)]]; [discriminate C|..]).
  - destruct (inherits_defines _ _ _ _ _ _ _ _ I D AL) as (q & own & Q). discriminate Q.
  - pose proof (defines_fun _ _ _ _ AL V). discriminate.
  - destruct FT as [FT|(q & own & _ & FT)]; [|exact (NE (FT _ I))].
    destruct (inherits_defines _ _ _ _ _ _ _ _ I D FT) as (q & own & Q). discriminate Q.
  - destruct FT as [FT|(q & own & FT & _)]; pose proof (defines_fun _ _ _ _ FT V); discriminate.
Qed.
Print Assumptions C86_composite.

(** What is returned is nil or a value of a builtin type, never a list or a map. *)
Theorem C86_simple env a n inp v e rest : decodes env a n inp (Done (v, Some e) rest) ->
  v = VNil \/ exists p b, v = VPrim p /\ decoded_type p = Some b.
Proof.
  intros R. apply C86_left in R. induction R; eauto.
Qed.
Print Assumptions C86_simple.

(** The hypotheses can be met, and each kind of result occurs: a transfer that ends early
    gives nil; so do a list and a variant; an account, which is another name for name, gives
    the name zero; and an asset whose symbol is missing keeps its amount. *)
Definition assets : Abi := (abi_of [("money", "asset?"); ("account", "name")] [("pair", "", [AbiSample.field "a" "name"; AbiSample.field "b" "uint8"])] [("choice", ["uint8"; "account"])])%string.
Example C86_ex : let env := {| r_end := EOF; r_strict := true |} in let eight := [x05; x00; x00; x00; x00; x00; x00; x00] in
  decodes env assets (str "pair") eight (Done (VNil, Some EOF) [])
  /\ decodes env assets (str "account[]") (x02 :: eight) (Done (VNil, Some EOF) [])
  /\ decodes env assets (str "choice") (x01 :: [x05]) (Done (VNil, Some ErrUnexpectedEOF) [])
  /\ decodes env assets (str "account") [] (Done (VPrim (PName 0), Some EOF) [])
  /\ decodes env assets (str "money") (x01 :: eight) (Done (VPrim (PAsset {| Value := 5; Sym := 0 |}), Some EOF) [])
  /\ decodes env assets (str "money") [] (Done (VNil, Some EOF) [])
  /\ inherits assets (str "pair") [(str "a", str "name"); (str "b", str "uint8")].
Proof.
  cbv zeta. repeat match goal with |- _ /\ _ => split end.
  1-6: apply (decodes_at _ _ _ _ _ 10); [vm_compute; reflexivity|discriminate].
  eapply inh_root with (b := str "pair") (arr := false) (opt := false) (ext := false).
  - exists (str "pair"), (str "pair"). repeat split; try (intros (p & Q); apply (f_equal (fun l => rev l)) in Q; rewrite rev_app_distr in Q; discriminate Q). cbn. lia.
  - apply (def_struct assets (str "pair") {| SName := str "pair"; SBase := str ""; SFields := [AbiSample.field "a" "name"; AbiSample.field "b" "uint8"] |}).
    exists [], []. repeat split. constructor.
Qed.
