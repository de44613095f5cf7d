(** Only a long length prefix makes decoding panic: C66. *)
From Verif Require Import Base Prog AbiPrim BaseProofs Chain Values Leaf Reflect SpecReflect AbiDyn SpecAbi AbiSample
  SpecWire SpecChain SpecLengths LengthProofs.

(** ** C66: without six neighbouring bytes of 128 or more, decoding does not panic *)
(** The Read methods of abi.Decoder and the UnmarshalABI methods of pkg/chain. *)
Theorem C66_leaf : forall k old, (k <= 6)%nat -> panic_free k (read_prim old).
Proof. intros k old K. eapply safe_panic_free. now apply prim_safe. Qed.
Print Assumptions C66_leaf.
(** Decode, into any target of a type without a programming error, also with a custom
    function that does not panic itself. *)
Theorem C66_decode : forall E k fuel fn t old, (k <= 6)%nat -> sturdy E k t -> (forall t v, panic_free k (fn t v)) ->
  panic_free k (decode fuel E (custom_decoder fn) Whole t old) /\ panic_free k (Decode fuel E t old).
Proof.
  intros E k fuel fn t old K S F. split; eapply safe_panic_free.
  - apply decode_safe; [exact K| |now apply sturdy_stout|exact I]. intros. apply custom_quiet; [exact K|]. now apply free_quiet.
  - apply decode_safe; [exact K| |now apply sturdy_stout|exact I]. intros. now apply chain_quiet.
Qed.
Print Assumptions C66_decode.
(** Abi.Decode and Abi.DecodeAction, for schemas whose names are well formed. *)
Theorem C66_dynamic : forall a k fuel, (k <= 6)%nat ->
  (forall n, well_named a n -> panic_free k (Abi_Decode fuel a n))
  /\ (forall x, (forall act, GetAction (AbiActions a) x = Some act -> well_named a (ActType act)) ->
        panic_free k (Abi_DecodeAction fuel a x)).
Proof.
  intros a k fuel K. assert (H : forall n, well_named a n -> panic_free k (Abi_Decode fuel a n)).
  { intros n W. eapply safe_panic_free. now apply Abi_Decode_safe. }
  split; [exact H|]. intros x HA. unfold Abi_DecodeAction. destruct (GetAction (AbiActions a) x) as [act|] eqn:EA.
  - apply H. now apply HA.
  - intros env inp m _ _ R. discriminate R.
Qed.
Print Assumptions C66_dynamic.

Fixpoint leading (l : list byte) : nat := match l with [] => O | c :: l => if 128 <=? zb c then S (leading l) else O end.
Fixpoint longest (l : list byte) : nat := match l with [] => O | c :: l' => Nat.max (leading l) (longest l') end.
Lemma longest_no_run k inp : (longest inp < k)%nat -> no_run k inp.
Proof.
  intros L before mid after -> F. eapply Nat.le_lt_trans; [|exact L]. clear L k.
  assert (A : (length mid <= leading (mid ++ after))%nat).
  { induction F as [|c mid C F IH]; [apply Nat.le_0_l|]. cbn [app leading length]. apply Z.leb_le in C. rewrite C. now apply le_n_S. }
  assert (B : (leading (mid ++ after) <= longest (mid ++ after))%nat).
  { destruct (mid ++ after) as [|c l]; [apply le_n|]. apply Nat.le_max_l. }
  assert (D : (longest (mid ++ after) <= longest (before ++ mid ++ after))%nat).
  { clear. induction before as [|c b IH]; [apply le_n|]. cbn [app longest]. eapply Nat.le_trans; [exact IH|apply Nat.le_max_r]. }
  eapply Nat.le_trans; [exact A|]. eapply Nat.le_trans; [exact B|exact D].
Qed.
(** Six is the largest such number: here are six in a row, and no seven. *)
Theorem C66_seven_refuted : exists env inp m, no_run 7 inp /\ zlen inp < 2 ^ 35
  /\ run env (Transaction_UnmarshalABI
        {| Header := {| Expiration := 0; RefBlockNum := 0; RefBlockPrefix := 0; MaxNetUsageWords := 0; MaxCpuUsageMs := 0; DelaySec := 0 |};
           ContextFreeActions := []; Actions := []; Extensions := [] |}) inp = Crash m.
Proof.
  exists {| r_end := EOF; r_strict := true |}, (zeros 13 ++ [xff; xff; xff; xff; xff; xff; x01]). eexists.
  split; [apply longest_no_run; vm_compute; lia|]. split; [reflexivity|]. vm_compute. reflexivity.
Qed.
Print Assumptions C66_seven_refuted.

(** A linked list of transactions with a variant: no panic below five in a row. *)
Definition linked : types :=
  {| declared := fun _ => TStruct [(NoTag, Exported, TSlice (TPtr (Reflect.TName 0))); (Variant, Exported, TPtr (TStruct
        [(NoTag, Exported, TPtr (TLeaf KTransaction)); (NoTag, Exported, TPtr (TLeaf KString))])); (NoTag, Blank, TOther)];
     size_of := fun _ => 100;
  marshals := no_marshal; unmarshals := no_unmarshal |}.
Example C66_ex : sturdy linked 5 (Reflect.TName 0) /\ no_run 5 [x01; xff; xff; xff; xff; x7f; x00; x80; x02].
Proof.
  split; [|apply longest_no_run; vm_compute; lia].
  assert (G : forall a b, within linked a b ->
    In (snd a) [Reflect.TName 0; TSlice (TPtr (Reflect.TName 0)); TPtr (Reflect.TName 0); TOther; TPtr (TLeaf KTransaction); TLeaf KTransaction;
      TPtr (TLeaf KString); TLeaf KString; TPtr (TStruct [(NoTag, Exported, TPtr (TLeaf KTransaction)); (NoTag, Exported, TPtr (TLeaf KString))]);
      TStruct [(NoTag, Exported, TPtr (TLeaf KTransaction)); (NoTag, Exported, TPtr (TLeaf KString))]] -> sturdy_here linked 5 (snd b)).
  { intros a b W. induction W as [[pl t]|[pl t] [pl' t'] c P W IH].
    - intros IN. cbn [snd] in *. unfold sturdy_here. cbn [In] in IN.
      repeat (destruct IN as [<-|IN]; [cbn|]); try (elim IN); try exact I; try (clear; lia).
      + repeat constructor; try discriminate. intros _ alts PT.
        inversion PT as [? ? H|? ? ? H PT']; subst; [discriminate H|]. injection H as <-.
        inversion PT' as [? ? H|? ? ? H ?]; subst; [|discriminate H]. injection H as <-.
        repeat constructor; cbn; eauto.
      + repeat constructor; discriminate.
    - intros IN. apply IH. clear IH W. cbn [snd In] in *.
      repeat (destruct IN as [<-|IN]; [inversion P; subst; cbn in *; try discriminate;
        match goal with H : _ = _ |- _ => injection H; intros; subst; cbn in *; intuition congruence end|]). elim IN. }
  intros pl t' W. apply (G _ _ W). cbn. auto.
Qed.
