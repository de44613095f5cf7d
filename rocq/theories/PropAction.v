(** C57: decoding the data of an action, through an ABI and into a Go value. *)
From Verif Require Import Base Prog AbiPrim BaseProofs SpecWire ProgProofs Chain SpecChain Values Leaf SpecLeaf
  AbiDyn SpecAbi AbiApiProofs AbiSample AbiCodecProofs PropAbi Reflect SpecReflect SpecStrict ReflectProofs ReflectOverwrite
  SpecMirror SpecAbiDef SpecTwin PropReflect PropStrict PropTwin ActionData.

(** The first action called [n] in the ABI has the type [ty]. *)
Definition action_type (abi : Abi) (n : Z) (ty : name) : Prop :=
  exists pre act post, AbiActions abi = pre ++ act :: post /\ ActName act = n /\ ActType act = ty
    /\ Forall (fun y => ActName y <> n) pre.
(** What Decode comes back with, whatever the Go release, once it has room to run. *)
Definition decodes_to (abi : Abi) (a : Action) (r : option (list (name * gval)) * option gerr) : Prop :=
  exists F, forall fuel strict, (F <= fuel)%nat -> Action_Decode fuel strict abi a = Returns r.
Definition decode_fails (abi : Abi) (a : Action) : Prop :=
  exists F, forall fuel strict, (F <= fuel)%nat -> exists e, Action_Decode fuel strict abi a = Returns (None, Some e).
Definition decodes_into (E : types) (t : gtype) (old : rval) (a : Action) (v : rval) : Prop :=
  exists F, forall fuel strict, (F <= fuel)%nat ->
  exists v', Action_DecodeInto fuel strict E t old a = Returns (v', None) /\ same v v'.
(** abi.EncodeAction writes [bs]. *)
Definition action_encodes (abi : Abi) (n : Z) (v : gval) (bs : list byte) : Prop :=
  exists F, forall fuel, (F <= fuel)%nat -> runw (Abi_EncodeAction fuel abi n v) [] = WDone None bs.

Lemma action_step abi n ty : action_type abi n ty -> forall fuel,
  Abi_DecodeAction fuel abi n = Abi_Decode fuel abi ty
  /\ forall v, Abi_EncodeAction fuel abi n v = Abi_Encode fuel abi ty v.
Proof. intros (pre & act & post & E & <- & <- & F) fuel. exact (C51_declared_action abi act pre post fuel E F). Qed.
Lemma action_decode_done abi a ty v rest : action_type abi (AName a) ty ->
  (forall env, decodes env abi ty (AData a) (Done (v, None) rest)) ->
  decodes_to abi a match v with
                   | VMap m => (Some m, None)
                   | _ => (None, Some (ErrMsg "action data is not a map[string]interface{}"))
                   end.
Proof.
  intros T H.
  destruct (H {| r_end := EOF; r_strict := true |}) as (_ & F1 & H1).
  destruct (H {| r_end := EOF; r_strict := false |}) as (_ & F2 & H2).
  exists (F1 + F2)%nat. intros fuel strict L. unfold Action_Decode, on_bytes.
  rewrite run_dbind, (proj1 (action_step _ _ _ T fuel)).
  replace (run _ (Abi_Decode fuel abi ty) (AData a)) with (Done (v, None : option gerr) rest)
    by (destruct strict; symmetry; [apply H1|apply H2]; lia).
  destruct v; reflexivity.
Qed.

(** Data written by EncodeAction for a map decodes to that map, up to entries the type
    does not declare, whatever follows the data and whatever the rest of the action. *)
Theorem C57_roundtrip abi ty a m bs more : action_type abi (AName a) ty -> plain_schema abi ty -> wf_gval (VMap m) ->
  action_encodes abi (AName a) (VMap m) bs -> AData a = bs ++ more ->
  exists m', decodes_to abi a (Some m', None) /\ keeps (VMap m) (VMap m').
Proof.
  intros T P W (F & E) D.
  assert (EN : encodes abi ty (VMap m) [] (WDone None bs)).
  { split; [discriminate|]. exists F. intros fuel L. rewrite <- (proj2 (action_step _ _ _ T fuel)). auto. }
  destruct (C45_roundtrip _ _ _ _ _ P W EN) as (bs' & v' & Eq & _ & K & R). cbn [app] in Eq. subst bs'.
  inversion K as [| | |m0 m' HK]; subst. exists m'. split; [|exact K].
  apply (action_decode_done abi a ty (VMap m') more T). intros env. rewrite D. apply R.
Qed.
Print Assumptions C57_roundtrip.

Lemma enc_single abi ty b ext v bs v' : decomposes ty b false false ext -> abi_enc abi ty v bs v' -> abi_inner abi ty b v bs v'.
Proof.
  intros D A. destruct A as [n b0 arr0 ext0 D0|n b0 arr0 ext0 v bs v' D0 NN B|n b0 arr0 ext0 v bs v' D0 NN B];
    destruct (C44_name_unambiguous _ _ _ _ _ _ _ _ _ D D0) as (E1 & E2 & E3 & _); try discriminate.
  subst. inversion B; subst; try discriminate; assumption.
Qed.
(** For a struct type the decoded map has exactly the declared fields. *)
Theorem C57_fields abi ty b ext fs a m bs more : action_type abi (AName a) ty -> plain_schema abi ty -> wf_gval (VMap m) ->
  decomposes ty b false false ext -> inherits abi ty fs -> fs <> [] ->
  action_encodes abi (AName a) (VMap m) bs -> AData a = bs ++ more ->
  exists m', decodes_to abi a (Some m', None) /\ forall k, (exists x, lookup m' k = Some x) <-> In k (map fst fs).
Proof.
  intros T P W DC IH NF (F & E) D.
  assert (EN : encodes abi ty (VMap m) [] (WDone None bs)).
  { split; [discriminate|]. exists F. intros fuel L. rewrite <- (proj2 (action_step _ _ _ T fuel)). auto. }
  destruct (C45_roundtrip _ _ _ _ _ P W EN) as (bs' & v' & Eq & A & K & R). cbn [app] in Eq. subst bs'.
  inversion K as [| | |m0 m' HK]; subst. exists m'. split.
  - apply (action_decode_done abi a ty (VMap m') more T). intros env. rewrite D. apply R.
  - pose proof (enc_single _ _ _ _ _ _ _ DC A) as I.
    destruct (C45_declared_fields _ _ _ _ _ _ _ _ _ _ DC IH NF I) as (m2 & Eq & H). injection Eq as ->. exact H.
Qed.
Print Assumptions C57_fields.

(** Data that encodes anything but a map is an error. *)
Theorem C57_not_a_map abi ty a v bs more : action_type abi (AName a) ty -> plain_schema abi ty -> wf_gval v ->
  (forall m, v <> VMap m) -> action_encodes abi (AName a) v bs -> AData a = bs ++ more -> decode_fails abi a.
Proof.
  intros T P W NM (F & E) D.
  assert (EN : encodes abi ty v [] (WDone None bs)).
  { split; [discriminate|]. exists F. intros fuel L. rewrite <- (proj2 (action_step _ _ _ T fuel)). auto. }
  destruct (C45_roundtrip _ _ _ _ _ P W EN) as (bs' & v' & Eq & _ & K & R). cbn [app] in Eq. subst bs'.
  assert (DT : forall env, decodes env abi ty (AData a) (Done (v', None) more)) by (intros env; rewrite D; apply R).
  apply (action_decode_done abi a ty v' more T) in DT as (G & DT). exists G. intros fuel strict L. rewrite DT by exact L.
  inversion K; subst; eauto. now elim (NM m).
Qed.
Print Assumptions C57_not_a_map.

(** So is an action the ABI does not declare. *)
Theorem C57_undeclared abi a : Forall (fun y => ActName y <> AName a) (AbiActions abi) -> decode_fails abi a.
Proof.
  intros H. exists 0%nat. intros fuel strict _.
  destruct (proj1 (C51_undeclared_action abi (AName a) fuel H) {| r_end := EOF; r_strict := strict |} (AData a)) as (e & R).
  exists e. unfold Action_Decode, on_bytes. now rewrite run_dbind, R.
Qed.
Print Assumptions C57_undeclared.

(** Bytes behind what Decode reads are ignored and data cut short is an error, unless
    the type needs a '$' extension type. *)
Theorem C57_truncated abi ty a m fuel strict : action_type abi (AName a) ty -> no_extension abi ty ->
  Action_Decode fuel strict abi a = Returns (Some m, None) ->
  exists used rest, AData a = used ++ rest
    /\ (forall a' more, AName a' = AName a -> AData a' = used ++ more -> Action_Decode fuel strict abi a' = Returns (Some m, None))
    /\ (forall a' q s, AName a' = AName a -> used = q ++ s -> s <> [] -> AData a' = q ->
          exists e, Action_Decode fuel strict abi a' = Returns (None, Some e)).
Proof.
  intros T N R. set (env := {| r_end := EOF; r_strict := strict |}).
  assert (X : forall a', AName a' = AName a -> Action_Decode fuel strict abi a' =
    match run env (Abi_Decode fuel abi ty) (AData a') with
    | Done (VMap rv, None) _ => Returns (Some rv, None)
    | Done (_, None) _ => Returns (None, Some (ErrMsg "action data is not a map[string]interface{}"))
    | Done (_, Some e) _ => Returns (None, Some e)
    | Crash p => Panics p
    | Diverged => Hangs
    end).
  { intros a' En. unfold Action_Decode, on_bytes. fold env. rewrite run_dbind, En, (proj1 (action_step _ _ _ T fuel)).
    destruct (run env (Abi_Decode fuel abi ty) (AData a')) as [[v [e|]] rest|p|]; try reflexivity; destruct v; reflexivity. }
  rewrite X in R by reflexivity.
  destruct (run env (Abi_Decode fuel abi ty) (AData a)) as [[v e] rest|p|] eqn:RN; try discriminate R.
  destruct v; destruct e as [e|]; try discriminate R. injection R as ->.
  destruct (C58_truncation abi ty fuel N env env _ _ _ RN) as (used & Eq & P1 & P2).
  exists used, rest. split; [exact Eq|]. split.
  - intros a' more En D. now rewrite X, D, P1.
  - intros a' q s En U S D. destruct (P2 q s U S) as (v' & e & Q). exists e. rewrite X, D, Q by exact En. now destruct v'.
Qed.
Print Assumptions C57_truncated.

(** DecodeInto recovers a Go value from its encoding, whatever the target held and
    whatever follows. *)
Theorem C57_into E t v old bs a more : supported E t -> overwritten E t -> has_type E sound_leaf t v ->
  has_type E storable t old -> runw (Encode E t v) [] = WDone None bs -> AData a = bs ++ more ->
  decodes_into E t old a v.
Proof.
  intros S O V Old R D. destruct (C41_roundtrip_any_target E t v old [] bs S O V Old R) as (bs' & Eq & F & H).
  cbn [app] in Eq. subst bs'. exists F. intros fuel strict L. unfold Action_DecodeInto, on_bytes. rewrite D.
  destruct (H fuel L {| r_end := EOF; r_strict := strict |} more) as (v' & Q & M). rewrite Q. eauto.
Qed.
Print Assumptions C57_into.

(** The two agree: data encoded from a Go value decodes through the ABI to the
    corresponding map, and data encoded through the ABI decodes into the Go value. *)
Theorem C57_agree abi ty E t m v a : action_type abi (AName a) ty -> small_types E -> well_named abi ty -> wf_gval (VMap m) ->
  twins abi E ty t (VMap m) v ->
  exists bs, runw (Encode E t v) [] = WDone None bs /\ action_encodes abi (AName a) (VMap m) bs
    /\ forall more, AData a = bs ++ more ->
         (exists m', decodes_to abi a (Some m', None) /\ keeps (VMap m) (VMap m'))
         /\ decodes_into E t (zero E t) a v.
Proof.
  intros T M WN W TW. destruct (C52_same_bytes abi E ty t (VMap m) v M WN W TW) as (bs & g' & v' & K & S & X1 & X2 & X3 & F & X4).
  exists bs. split; [exact (X2 [])|]. split.
  { destruct (X1 []) as (_ & G & H). exists G. intros fuel L. rewrite (proj2 (action_step _ _ _ T fuel)). now apply H. }
  intros more D. split.
  - inversion K as [| | |m0 m' HK]; subst. exists m'. split; [|exact K].
    apply (action_decode_done abi a ty (VMap m') more T). intros env. rewrite D. apply X3.
  - exists F. intros fuel strict L. exists v'. split; [|exact S]. unfold Action_DecodeInto, on_bytes. rewrite D. now rewrite X4.
Qed.
Print Assumptions C57_agree.

Definition sample_action (data : list byte) : Action := {| Account := 9; AName := 1; Authorization := []; AData := data |}.
Example C57_ex : action_type sample (AName (sample_action sample_bytes)) (str "transfer")
  /\ action_encodes sample (AName (sample_action sample_bytes)) sample_value sample_bytes
  /\ Action_Decode 10 true sample (sample_action (sample_bytes ++ [xff]))
     = Returns (match sample_back with VMap m => Some m | _ => None end, None)
  /\ Action_DecodeInto 10 true chain_types (Reflect.TName 0) (zero chain_types (Reflect.TName 0))
       (sample_action [x05; x00; x00; x00; x07])
     = Returns (RStruct [RLeaf (PU16 5) false; RSlice None; RPtr None], None).
Proof.
  split; [|split; [|split; vm_compute; reflexivity]].
  - exists [], (nth 0 (AbiActions sample) {| ActName := 0; ActType := []; RicardianContract := [] |}), []. repeat split. constructor.
  - destruct sample_encodes as (_ & F & H). exists F. intros fuel L.
    change (Abi_EncodeAction fuel sample 1 sample_value) with (Abi_Encode fuel sample (str "transfer") sample_value). now apply H.
Qed.
