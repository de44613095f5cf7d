(** C81: failing writers and readers when interface variables are inside. *)
From Verif Require Import Base Prog SpecWire AbiPrim Chain SpecChain Values Leaf SpecLeaf Reflect SpecReflect SpecStrict
  Interfaces SpecInterfaces Targets SpecTargets SpecLengths SpecParts.
From Verif Require Import BaseProofs ProgProofs ChainProofs ReflectProofs ReflectStrict TargetsProofs PartsProofs LengthProofs PropReflect PropStrict PropLengths PropArguments.

(** A value whose encoding succeeds, sent to a writer that starts to fail: no panic, what
    arrives is a prefix, and with a nil error only presence flags at the end are lost. *)
Theorem C81_faults E a : parts (fun t v => has_type E any_leaf t v /\ writes_checked E t) (fun _ => True) a ->
  only_flags_lost (encode_any E a).
Proof.
  intros P o full So R. eapply lossy_runf; eauto; [|intros j Hj; lia]. apply any_lossy; [exact P|]. now exists [], full.
Qed.
Print Assumptions C81_faults.

(** Without optional fields every error of the writer is reported. *)
Theorem C81_no_optionals E a :
  parts (fun t v => has_type E any_leaf t v /\ no_optionals E t /\ writes_checked E t) (fun tg => tg <> Optional) a ->
  write_faults_reported (encode_any E a).
Proof. intros P. apply wstrict_faults_if. intros full R. apply any_wstrict; [exact P|]. now exists [], full. Qed.
Print Assumptions C81_no_optionals.

(** Whatever the interface variables of the target hold, without extension fields a
    proper prefix of what was consumed is refused. *)
Theorem C81_truncation E g fuel :
  target_parts (fun t => no_extensions E t /\ reads_checked E t) (fun tg => tg <> Extension) g ->
  truncation_safe (decode_target fuel E Whole g).
Proof. intros P. apply strict_truncation. now apply target_strict. Qed.
Print Assumptions C81_truncation.

(** Nor does an input without long length prefixes make Decode panic. *)
Theorem C81_no_panic E k fuel g t v : (k <= 6)%nat -> looks false g t v -> sturdy E k t ->
  panic_free k (decode_target fuel E Whole g).
Proof.
  intros K L S env inp m I N R.
  pose proof (C75_like_static E fuel g t v env inp L) as M. rewrite R in M.
  destruct (run env (Decode fuel E t v) inp) as [[v' e] r|m'|] eqn:D; try contradiction. cbn [matching] in M. subst m'.
  assert (F : panic_free k (Decode fuel E t v)).
  { eapply safe_panic_free. apply decode_safe; [exact K| |now apply sturdy_stout|exact Logic.I]. intros. now apply chain_quiet. }
  exact (F env inp m I N D).
Qed.
Print Assumptions C81_no_panic.

(** A nil error although the flag of an optional interface variable was not written. *)
Theorem C81_flag_refuted E : let a := AStruct [(NoTag, Exported, AIface (Some (APlain (TLeaf KU8) (RLeaf (PU8 7) false)))); (Optional, Exported, AIface None)] in
  parts (fun t v => has_type E any_leaf t v /\ writes_checked E t) (fun _ => True) a /\ ~ write_faults_reported (encode_any E a).
Proof.
  intros a. split.
  - constructor; [auto|]. intros tg vis b [Q|[Q|[]]]; injection Q as <- <- <-; repeat constructor.
    + eapply ht_leaf; [reflexivity|reflexivity|split; [discriminate|reflexivity]|]. split; [discriminate|reflexivity].
    + apply methods_leaf.
  - intros H. destruct (H (fun i => match i with O => None | S _ => Some (O, ErrIO 0) end) [x07; x00]) as (r & out' & R & _ & P).
    + intros i j L N. destruct i as [|i]; [now elim N|]. destruct j as [|j]; [lia|eauto].
    + reflexivity.
    + cbn in R. injection R as <- <-. now specialize (P eq_refl).
Qed.
Print Assumptions C81_flag_refuted.

(** [[]interface{}{node, uint8(7)}], where a node is a number, names, and perhaps
    another node. *)
Definition node_value : rval := RStruct [RLeaf (PU16 5) false; RSlice (Some [RLeaf (PName 1) false]);
    RPtr (Some (RStruct [RLeaf (PU16 6) false; RSlice None; RPtr None]))].
Definition two_things : Interfaces.any := ASlice (Some [AIface (Some (APlain (TName 0) node_value)); AIface (Some (APlain (TLeaf KU8) (RLeaf (PU8 7) false)))]).
Example C81_faults_ex : parts (fun t v => has_type chain_types any_leaf t v /\ writes_checked chain_types t) (fun _ => True) two_things
  /\ runw (encode_any chain_types two_things) []
     = WDone None ([x02] ++ [x05; x00; x01; x01; x00; x00; x00; x00; x00; x00; x00; x01; x06; x00; x00; x00] ++ [x07]).
Proof.
  split; [|reflexivity]. constructor. intros a [<-|[<-|[]]]; constructor; constructor.
  - split; [exact (proj1 C61_ex)|exact (proj1 (proj2 C61_ex))].
  - split; [|apply methods_leaf]. eapply ht_leaf; [reflexivity|reflexivity|split; [discriminate|reflexivity]|]. split; [discriminate|reflexivity].
Qed.
Example C81_no_optionals_ex : parts (fun t v => has_type chain_types any_leaf t v /\ no_optionals chain_types t /\ writes_checked chain_types t)
    (fun tg => tg <> Optional) (AArray [AIface (Some (APlain (TLeaf KU8) (RLeaf (PU8 7) false)))]).
Proof.
  constructor. intros a [<-|[]]. constructor. constructor. split; [|split; [apply tags_leaf|apply methods_leaf]].
  eapply ht_leaf; [reflexivity|reflexivity|split; [discriminate|reflexivity]|]. split; [discriminate|reflexivity].
Qed.
(** A struct with a node, an optional interface variable holding a pointer to a number,
    and one that is nil. *)
Example C81_truncation_ex : target_parts (fun t => no_extensions chain_types t /\ reads_checked chain_types t) (fun tg => tg <> Extension)
  (GStruct [inl (NoTag, Exported, TName 0, node_value); inr (Some Optional, Exported, GIface (Some (GPlain (TLeaf KU8) (RLeaf (PU8 7) false))));
            inr (None, Exported, GIface None)]).
Proof.
  constructor.
  - intros tg vis t v [Q|[Q|[Q|[]]]]; try discriminate Q. injection Q as <- <- <- <-. split; [discriminate|].
    split; [exact chain_no_extensions|]. apply no_methods_within, chain_no_methods.
  - intros o vis g [Q|[Q|[Q|[]]]]; try discriminate Q; injection Q as <- <- <-.
    + split; [intros tg Q; now injection Q as <-|]. constructor. constructor. split; [apply tags_leaf|apply methods_leaf].
    + split; [discriminate|constructor].
Qed.
Example C81_no_panic_ex : looks false (message (GIface (Some (GPlain transfer (transfer_of 0 0))))) static_message
    (RStruct [leaf (PName 0); RPtr (Some (RPtr (Some (transfer_of 0 0))))]) /\ sturdy node_types 6 static_message.
Proof.
  split; [exact (proj1 C75_message)|].
  assert (G : forall a b, within node_types a b ->
    In (snd a) [static_message; TLeaf KName; TLeaf KAsset; TPtr (TPtr transfer); TPtr transfer; transfer] -> sturdy_here node_types 6 (snd b)).
  { intros a b W. induction W as [[pl t]|[pl t] [pl' t'] c P W IH].
    - intros IN. cbn [snd] in *. unfold sturdy_here. cbn [In] in IN.
      repeat (destruct IN as [<-|IN]; [cbn|]); try (elim IN); try exact I; repeat constructor; discriminate.
    - intros IN. apply IH. clear IH W. cbn [snd In] in *.
      repeat (destruct IN as [<-|IN]; [inversion P; subst; cbn in *; try discriminate;
        match goal with H : _ = _ |- _ => injection H; intros; subst; cbn in *; intuition congruence end|]). elim IN. }
  intros pl t' W. apply (G _ _ W). cbn. auto.
Qed.
