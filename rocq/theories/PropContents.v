(** C80: what is decoded into a fresh target holds no more than was read. *)
From Verif Require Import Base Prog SpecWire AbiPrim BaseProofs Chain SpecChain Values Leaf SpecLeaf Reflect SpecReflect SpecStrict SpecContents.
From Verif Require CodegenRead.
From Verif Require Import ProgProofs AbiPrimProofs ReflectProofs CanonicalProofs BulkProofs ContentsProofs.
Import Reflect SpecReflect ContentsProofs.

(** Whatever the type, if its slices and maps have elements that are never read from
    nothing: elements, entries and bytes together are at most the bytes read. *)
Theorem C80_bounded : forall E t fuel env inp v rest, elements_cost E t -> methods_within (method_frugal E) E t ->
  run env (Decode fuel E t (zero E t)) inp = Done (v, None) rest ->
  exists c, inp = c ++ rest /\ contents v <= zlen c.
Proof.
  intros E t fuel env inp v rest C M R.
  destruct (proj1 (decode_bounded E fuel) t _ (paid_of E t C M) (fresh_zero E t) env inp v rest R) as (c & EQ & L & _). eauto.
Qed.
Print Assumptions C80_bounded.
(** UnmarshalABI of Transaction, whatever its target held, and of an Action without
    authorizations. *)
Theorem C80_transaction : forall old env inp t rest, run env (Transaction_UnmarshalABI old) inp = Done (t, None) rest ->
  exists c, inp = c ++ rest /\ contents_of action_contents (ContextFreeActions t) + contents_of action_contents (Actions t)
    + contents_of extension_contents (Extensions t) < zlen c.
Proof. exact transaction_frugal. Qed.
Print Assumptions C80_transaction.
Theorem C80_action : forall old env inp a rest, Authorization old = [] -> run env (Action_UnmarshalABI old) inp = Done (a, None) rest ->
  exists c, inp = c ++ rest /\ zlen (Authorization a) + zlen (AData a) < zlen c.
Proof. intros old env inp a rest F. exact (action_frugal old F env inp a rest). Qed.
Print Assumptions C80_action.

(** type node struct { name string; kids []*node; tags map[string]asset; seen [2]uint32; next *node (optional) } *)
Definition node : gtype := TStruct
  [(NoTag, Exported, TLeaf KString); (NoTag, Exported, TSlice (TPtr (TName 0))); (NoTag, Exported, TMap (TLeaf KString) (TLeaf KAsset));
   (NoTag, Exported, TArray 2 (TLeaf KU32)); (Optional, Exported, TPtr (TName 0))].
Definition node_types : types := {| declared := fun _ => node; size_of := fun _ => 8; marshals := no_marshal; unmarshals := no_unmarshal |}.
Definition node_parts : list gtype :=
  [TName 0; TLeaf KString; TSlice (TPtr (TName 0)); TMap (TLeaf KString) (TLeaf KAsset); TArray 2 (TLeaf KU32); TPtr (TName 0); TLeaf KAsset; TLeaf KU32].
Lemma node_within a b : within node_types a b -> In (snd a) node_parts -> In (snd b) node_parts.
Proof.
  induction 1 as [a|[pl t] b c P W IH]; intros I; [exact I|]. apply IH. apply CodegenRead.part_inv in P. cbn [snd] in I. clear - I P.
  repeat (destruct I as [<-|I]; [cbn [head node_types declared node] in P; try contradiction;
    try (destruct P as (tg & vis & u & J & ->); repeat (destruct J as [J|J]; [injection J as <- <- <-; cbn; tauto|]); destruct J);
    try (destruct P as [-> | ->]); subst; cbn; tauto|]). destruct I.
Qed.
Lemma node_costs : costs node_types (TName 0).
Proof. eapply co_field; [reflexivity|left; reflexivity|]. eapply co_leaf. reflexivity. Qed.
Example C80_node_ex : let E := node_types in let t := TName 0 in
  elements_cost E t /\ methods_within (method_frugal E) E t
  /\ exists v, run {| r_end := EOF; r_strict := true |} (Decode 12 E t (zero E t))
       ([x01; x61] ++ [x02] ++ [x00; x00; x00; x00;x00;x00;x00; x00;x00;x00;x00; x00] ++ [x00; x00; x00; x00;x00;x00;x00; x00;x00;x00;x00; x00]
        ++ [x01; x01; x62] ++ repeat x00 16 ++ [x00;x00;x00;x00; x00;x00;x00;x00; x00] ++ [xff]) = Done (v, None) [xff]
     /\ contents v = 5.
Proof.
  cbv zeta. split; [|split].
  - intros pl t W. apply node_within in W; [|now left]. cbn [snd] in W.
    repeat (destruct W as [<-|W]; [cbn; try exact I|]); [| |destruct W].
    + eapply co_ptr; [reflexivity|exact node_costs].
    + left. eapply co_leaf. reflexivity.
  - intros pl t i u W H. apply node_within in W; [|now left]. cbn [snd] in W.
    repeat (destruct W as [<-|W]; [discriminate H|]). destruct W.
  - eexists. split; [vm_compute; reflexivity|]. vm_compute. reflexivity.
Qed.

(** Empty structs cost nothing: four bytes make a slice of any number of them below 2^28. *)
Definition unit_slice : gtype := TSlice (TStruct []).
Theorem C80_empty_refuted : forall k env, 0 <= k < 2 ^ 28 ->
  exists inp v, zlen inp <= 4 /\ run env (Decode 4 node_types unit_slice (zero node_types unit_slice)) inp = Done (v, None) [] /\ contents v = k.
Proof.
  intros k env HK. exists (varuint k).
  assert (X : forall n, run env (get_elems (through node_types (decode 2 node_types chain_decoder Whole) (TStruct [])) (repeat (RStruct []) n)) []
    = Done (repeat (RStruct []) n, None) []).
  { intros n. induction n as [|n IH]; [reflexivity|]. cbn [repeat get_elems]. rewrite run_dbind.
    change (run env (through node_types (decode 2 node_types chain_decoder Whole) (TStruct []) (RStruct [])) []) with (@Done (rval * option gerr) (RStruct [], None) []).
    cbv iota beta. rewrite run_dbind, IH. reflexivity. }
  assert (S : forall n, sum1 (repeat (RStruct []) n) = Z.of_nat n).
  { intros n. induction n as [|n IH]; [reflexivity|]. cbn [repeat]. change (sum1 (RStruct [] :: repeat (RStruct []) n)) with (1 + 0 + sum1 (repeat (RStruct []) n)). lia. }
  exists (RSlice (if k =? 0 then None else Some (repeat (RStruct []) (Z.to_nat k)))). split; [|split].
  - destruct (varuint_spec k ltac:(lia)) as [_ [_ [_ L]]]. unfold zlen. lia.
  - cbn [Decode decode head unit_slice zero zero_of chain_decoder dbind]. rewrite run_dbind. unfold get_slice. rewrite run_dbind.
    pose proof (ReadVaruint_reads k ltac:(lia) env []) as R. rewrite app_nil_r in R. rewrite R. cbv iota beta. rewrite i64_small by lia.
    change (zlen []) with 0. rewrite (Z.eqb_sym 0 k). destruct (k =? 0); [reflexivity|].
    assert (M : make_ok (size_of node_types (TStruct [])) k = true) by (unfold make_ok, max_alloc; cbn [size_of node_types]; lia).
    rewrite M, run_dbind. change (zero node_types (TStruct [])) with (RStruct []). rewrite X. reflexivity.
  - destruct (Z.eqb_spec k 0); [subst; reflexivity|]. rewrite contents_slice, S. lia.
Qed.
Print Assumptions C80_empty_refuted.
