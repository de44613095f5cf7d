(** C53: the binary form of ABI definitions. *)
From Verif Require Import Base Prog SpecWire SpecChain Values Leaf Reflect SpecReflect SpecMirror SpecAbiDef.
From Verif Require Import ReflectProofs AbiDefProofs.
From Verif Require AbiDyn.

(** A definition has a binary form, the encoder writes it, and it decodes to the
    definition whatever follows. *)
Theorem C53_roundtrip E a : small_types E -> wf_abi_def a ->
  (exists bs, abi_def_layout a bs) /\ forall bs, abi_def_layout a bs ->
    (forall out, runw (Encode E Abi_struct (Abi_value a)) out = WDone None (out ++ bs))
    /\ exists v, same (Abi_value a) v /\ exists F, forall fuel, (F <= fuel)%nat -> forall env rest,
         run env (Decode fuel E Abi_struct (zero E Abi_struct)) (bs ++ rest) = Done (v, None) rest.
Proof. exact (abi_def_round_trip E a). Qed.
Print Assumptions C53_roundtrip.

(** Input ending before the variants section decodes to the same definition without
    variants. *)
Theorem C53_without_variants E a bs : small_types E -> wf_abi_def a -> abi_early_layout a bs ->
  exists v, same (Abi_value (without_variants a)) v /\
    exists F, forall fuel, (F <= fuel)%nat -> forall strict,
      run {| r_end := EOF; r_strict := strict |} (Decode fuel E Abi_struct (zero E Abi_struct)) bs = Done (v, None) [].
Proof. exact (abi_def_early E a bs). Qed.
Print Assumptions C53_without_variants.

(** What was decoded stands for one definition only. *)
Theorem C53_determined a b v : same (Abi_value a) v -> same (Abi_value b) v -> a = b.
Proof. exact (apart_abi a b v). Qed.
Print Assumptions C53_determined.

(** A nil entry among the extensions cannot be encoded. *)
Theorem C53_nil_extension E a out full : In None (AbiDyn.AbiExtensions a) ->
  has_type E sound_leaf Abi_struct (Abi_value a) -> runw (Encode E Abi_struct (Abi_value a)) out <> WDone None full.
Proof. exact (nil_extension E a out full). Qed.
Print Assumptions C53_nil_extension.

Definition small_abi (x : option AbiDyn.AbiExtension) : AbiDyn.Abi :=
  {| AbiDyn.Version := [x65; x3a; x3a]; AbiDyn.Types := [{| AbiDyn.NewTypeName := [x61]; AbiDyn.AType := [x62; x63] |}];
     AbiDyn.Structs := [{| AbiDyn.SName := [x73]; AbiDyn.SBase := []; AbiDyn.SFields := [{| AbiDyn.FName := [x66]; AbiDyn.FType := [x61] |}] |}];
     AbiDyn.AbiActions := [{| AbiDyn.ActName := 300; AbiDyn.ActType := [x73]; AbiDyn.RicardianContract := [] |}];
     AbiDyn.Tables := [{| AbiDyn.TName := 7; AbiDyn.IndexType := [x69]; AbiDyn.KeyNames := [[x6b]; []]; AbiDyn.KeyTypes := []; AbiDyn.TType := [x73] |}];
     AbiDyn.Clauses := [{| AbiDyn.ClId := [x31]; AbiDyn.ClBody := [x32] |}];
     AbiDyn.ErrorMessages := [{| AbiDyn.ErrCode := 5; AbiDyn.ErrText := [x21] |}]; AbiDyn.AbiExtensions := [x];
     AbiDyn.Variants := [{| AbiDyn.VName := [x76]; AbiDyn.VTypes := [[x61]; [x73]] |}] |}.
Definition sized : types := {| declared := fun _ => TOther; size_of := fun _ => 128;
  marshals := no_marshal; unmarshals := no_unmarshal |}.
Example C53_example : small_types sized /\ wf_abi_def (small_abi (Some {| AbiDyn.XType := 9; AbiDyn.XData := [x00; xff] |}))
  /\ exists bs, runw (Encode sized Abi_struct (Abi_value (small_abi (Some {| AbiDyn.XType := 9; AbiDyn.XData := [x00; xff] |})))) [] = WDone None bs
     /\ length bs = 79%nat.
Proof.
  split; [intros t; split; [discriminate|reflexivity]|]. split.
  - repeat split; repeat constructor; try discriminate; try reflexivity.
    eexists. repeat split; try discriminate.
  - eexists. split; vm_compute; reflexivity.
Qed.
Example C53_nil_example : In None (AbiDyn.AbiExtensions (small_abi None)) /\ has_type sized sound_leaf Abi_struct (Abi_value (small_abi None)).
Proof.
  split; [now left|].
  repeat (first [apply htf_nil | apply htf_cons | apply hts_nil | apply hts_cons
    | eapply ht_leaf; [reflexivity|reflexivity|split; [first [discriminate|reflexivity]|reflexivity]|split; [first [exact I|split; [discriminate|reflexivity]]|exact I]]
    | eapply ht_struct; [reflexivity|] | eapply ht_slice; [reflexivity| |reflexivity] | eapply ht_nil; reflexivity]).
Qed.
