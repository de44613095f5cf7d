(** C40-C42: the reflective codec. *)
From Verif Require Import Base Prog SpecWire AbiPrim Chain SpecChain Values Leaf SpecLeaf Reflect SpecReflect.
From Verif Require Import BaseProofs ReflectProofs ReflectOrder ReflectOverwrite ReflectRepeat.

(** A recursive type to exhibit: a node with an optional next node, a map and a list
    that may be missing at the end. *)
Definition node : gtype :=
  TStruct [(NoTag, Exported, TLeaf KU64); (Optional, Exported, TPtr (TName 0));
           (NoTag, Exported, TMap (TLeaf KU8) (TLeaf KString));
           (Extension, Exported, TSlice (TLeaf KName))].
Definition node_types : types := {| declared := fun _ => node; size_of := fun _ => 8;
  marshals := no_marshal; unmarshals := no_unmarshal |}.
Definition node_parts : list (place * gtype) :=
  [(Target, TName 0); (Slot, TLeaf KU64); (Slot, TPtr (TName 0)); (Slot, TMap (TLeaf KU8) (TLeaf KString));
   (Slot, TSlice (TLeaf KName)); (Target, TLeaf KU8); (Target, TLeaf KString); (Slot, TLeaf KName)].
Lemma node_closed : forall a b, within node_types a b -> In a node_parts -> In b node_parts.
Proof.
  induction 1 as [a|a b c P W IH]; [auto|]. intros I. apply IH. clear c W IH. unfold node_parts in I. cbn [In] in I.
  repeat (destruct I as [<-|I]); try contradiction; inversion P; subst; try discriminate;
    repeat match goal with
    | H : head _ _ = _ |- _ => cbn in H; injection H as; subst
    | H : In _ [] |- _ => destruct H
    | H : In _ (_ :: _) |- _ => destruct H as [H|H]; [injection H as; subst|]
    end; cbn; tauto.
Qed.
Lemma node_overwritten : overwritten node_types (TName 0).
Proof.
  intros pl t W. apply node_closed in W; [|now left]. unfold node_parts in W. cbn [In] in W.
  repeat (destruct W as [W|W]; [injection W as <- <-; try exact I; try discriminate|]); try contradiction.
  cbn. repeat constructor.
Qed.
Definition leaf (p : prim) : rval := RLeaf p (leaf_zero p).
Definition two_nodes (m : list (rval * rval)) : rval :=
  RStruct [leaf (PU64 7);
           RPtr (Some (RStruct [leaf (PU64 9); RPtr None; RMap None; RSlice (Some [leaf (PName 1)])]));
           RMap (Some m); RSlice None].
Definition entry (k : Z) (s : list byte) : rval * rval := (leaf (PU8 k), leaf (PString s)).
Ltac leaf_ok := eapply ht_leaf; [reflexivity|reflexivity|split; [first [discriminate|reflexivity]|reflexivity]|].
Lemma two_nodes_typed (ok : prim -> Prop) m : (forall v, in_u 64 v -> ok (PU64 v)) -> ok (PName 1) ->
  have_pair_type node_types ok (TLeaf KU8) (TLeaf KString) m -> NoDup (map fst m) ->
  has_type node_types ok (TName 0) (two_nodes m).
Proof.
  intros H1 H2 H3 H4. eapply ht_struct; [reflexivity|]. constructor; [leaf_ok; apply H1; split; [discriminate|reflexivity]|].
  constructor.
  { eapply ht_ptr; [reflexivity|]. eapply ht_struct; [reflexivity|].
    constructor; [leaf_ok; apply H1; split; [discriminate|reflexivity]|].
    constructor; [eapply ht_nil; reflexivity|]. constructor; [eapply ht_nil_map; reflexivity|].
    constructor; [|constructor]. eapply ht_slice; [reflexivity| |reflexivity]. constructor; [leaf_ok; exact H2|constructor]. }
  constructor; [eapply ht_map; [reflexivity|reflexivity|exact H3|exact H4]|].
  constructor; [eapply ht_nil_slice; reflexivity|constructor].
Qed.
Lemma entries_typed (ok : prim -> Prop) : (forall v, in_u 8 v -> ok (PU8 v)) -> (forall s, ok (PString s)) ->
  have_pair_type node_types ok (TLeaf KU8) (TLeaf KString) [entry 1 [x61]; entry 2 [x62; x63]]
  /\ have_pair_type node_types ok (TLeaf KU8) (TLeaf KString) [entry 2 [x62; x63]; entry 1 [x61]].
Proof.
  intros H1 H2.
  assert (K : forall k, in_u 8 k -> k <> 0 -> has_type node_types ok (TLeaf KU8) (leaf (PU8 k))).
  { intros k R N. eapply ht_leaf; [reflexivity|reflexivity|split; [|reflexivity]|now apply H1]. cbn. intros; lia. }
  assert (S : forall c s, has_type node_types ok (TLeaf KString) (leaf (PString (c :: s)))).
  { intros c s. eapply ht_leaf; [reflexivity|reflexivity|split; [discriminate|reflexivity]|apply H2]. }
  split; (constructor; [apply K; unfold in_u; lia|apply S|]; constructor; [apply K; unfold in_u; lia|apply S|constructor]).
Qed.

(** ** C40 *)

(** A value that encodes without error is read back from its encoding, whatever
    follows it, and what follows is left unread. *)
Theorem C40_roundtrip E t v out full : supported E t -> has_type E sound_leaf t v ->
  runw (Encode E t v) out = WDone None full ->
  exists bs v', full = out ++ bs /\ (same v v' /\ (comparable t = true -> v' = v)) /\
    exists F, forall fuel, (F <= fuel)%nat -> forall env rest,
      run env (Decode fuel E t (zero E t)) (bs ++ rest) = Done (v', None) rest.
Proof.
  intros S T R. destruct (proj1 (encode_complete E) t v T Target out full S R) as (bs & v' & A & W & M & C).
  exists bs, v'. split; [exact A|]. split; [split; assumption|]. exact (proj1 (encoded_reads E) _ _ _ _ _ W).
Qed.
Print Assumptions C40_roundtrip.

(** Encoding succeeds exactly for the values with a wire form, and writes it. *)
Theorem C40_wire_form E t v out full : supported E t -> has_type E sound_leaf t v ->
  (runw (Encode E t v) out = WDone None full <-> exists bs v', encoded E Target t v bs v' /\ full = out ++ bs).
Proof.
  intros S T. split.
  - intros R. destruct (round_trip _ _ _ _ _ S T R) as (bs & v' & A & _ & W & _). eauto.
  - intros (bs & v' & W & ->). exact (proj1 (encoded_writes E) _ _ _ _ _ W out).
Qed.
Print Assumptions C40_wire_form.

Example C40_node : exists bs, runw (Encode node_types (TName 0) (two_nodes [entry 1 [x61]; entry 2 [x62; x63]])) [] = WDone None bs
  /\ length bs = 37%nat /\ has_type node_types sound_leaf (TName 0) (two_nodes [entry 1 [x61]; entry 2 [x62; x63]]).
Proof.
  eexists. split; [vm_compute; reflexivity|]. split; [reflexivity|].
  apply two_nodes_typed.
  - intros v R. split; [exact R|exact I].
  - repeat split; discriminate.
  - apply entries_typed; [intros v R; split; [exact R|exact I]|intros; split; exact I].
  - repeat constructor; cbn; intuition discriminate.
Qed.

(** Types without back references can be checked by computation. *)
Example C40_plain_types E : supported E (TStruct [(NoTag, Exported, TArray 4 (TMap (TLeaf KName) (TSlice (TPtr (TLeaf KString)))));
  (Optional, Exported, TLeaf KAsset); (Extension, Exported, TPtr (TPtr (TLeaf KGoBytes)))]).
Proof. now apply plain_supported. Qed.

(** ** C41 *)

(** Errors, panics and the bytes consumed are the same whatever the target held, and
    on success so is the value. *)
Theorem C41_overwrites E t old old' fuel env inp :
  overwritten E t -> has_type E storable t old -> has_type E storable t old' ->
  match run env (Decode fuel E t old) inp, run env (Decode fuel E t old') inp with
  | Done (v, e) rest, Done (v', e') rest' => e = e' /\ rest = rest' /\ (e = None -> same v v')
  | Crash m, Crash m' => m = m'
  | Diverged, Diverged => True
  | _, _ => False
  end.
Proof. exact (overwrite E t old old' fuel env inp). Qed.
Print Assumptions C41_overwrites.

(** With C40: whatever the target held, it ends up holding the encoded value. *)
Theorem C41_roundtrip_any_target E t v old out full :
  supported E t -> overwritten E t -> has_type E sound_leaf t v -> has_type E storable t old ->
  runw (Encode E t v) out = WDone None full ->
  exists bs, full = out ++ bs /\
    exists F, forall fuel, (F <= fuel)%nat -> forall env rest,
      exists v', run env (Decode fuel E t old) (bs ++ rest) = Done (v', None) rest /\ same v v'.
Proof.
  intros S O T Told R. destruct (round_trip _ _ _ _ _ S T R) as (bs & v' & -> & M & _ & F & D).
  exists bs. split; [reflexivity|]. exists F. intros fuel L env rest.
  pose proof (overwrite E t old (zero E t) fuel env (bs ++ rest) O Told
    (zero_typed E storable t zero_storable (overwritten_ow _ _ O))) as Q.
  rewrite (D fuel L env rest) in Q. unfold same_result in Q.
  destruct (run env (Decode fuel E t old) (bs ++ rest)) as [[w e] r|m|]; try contradiction.
  destruct Q as (-> & -> & Q). exists w. split; [reflexivity|]. eapply same_trans; [exact M|]. apply same_sym. now apply Q.
Qed.
Print Assumptions C41_roundtrip_any_target.

(** Without the restriction it fails: an Action keeps the authorizations it held. *)
Theorem C41_action_appends :
  exists old inp env fuel v rest w, run env (Decode fuel node_types (TLeaf KAction) (zero_of (TLeaf KAction))) inp = Done (v, None) rest
    /\ run env (Decode fuel node_types (TLeaf KAction) old) inp = Done (w, None) rest /\ ~ same v w
    /\ has_type node_types storable (TLeaf KAction) old.
Proof.
  exists (RLeaf (PAction {| Account := 1; AName := 2; Authorization := [{| Actor := 3; Permission := 4 |}]; AData := [] |}) false).
  exists (repeat x00 18), {| r_end := EOF; r_strict := false |}, 3%nat.
  do 3 eexists. split; [vm_compute; reflexivity|]. split; [vm_compute; reflexivity|]. split; [intros S; inversion S|].
  eapply ht_leaf; [reflexivity|reflexivity|split; discriminate|exact I].
Qed.
Print Assumptions C41_action_appends.

Example C41_node : overwritten node_types (TName 0)
  /\ has_type node_types storable (TName 0) (two_nodes [entry 1 [x61]; entry 2 [x62; x63]])
  /\ has_type node_types storable (TName 0) (zero node_types (TName 0)).
Proof.
  split; [exact node_overwritten|]. split.
  - apply two_nodes_typed; try (intros; exact I); [apply entries_typed; intros; exact I|].
    repeat constructor; cbn; intuition discriminate.
  - apply zero_typed; [exact zero_storable|apply overwritten_ow, node_overwritten].
Qed.

(** ** C42 *)

(** Whatever the order in which the maps of a value are enumerated, it encodes, to as
    many bytes, and each encoding decodes to the value. *)
Theorem C42_any_order E t v w out full : supported E t -> has_type E sound_leaf t v -> reordered v w ->
  runw (Encode E t v) out = WDone None full ->
  exists bs v' bs2 w', full = out ++ bs /\ runw (Encode E t w) out = WDone None (out ++ bs2)
    /\ length bs2 = length bs /\ same v v' /\ same v w' /\
    exists F, forall fuel, (F <= fuel)%nat -> forall env rest,
      run env (Decode fuel E t (zero E t)) (bs ++ rest) = Done (v', None) rest
      /\ run env (Decode fuel E t (zero E t)) (bs2 ++ rest) = Done (w', None) rest.
Proof.
  intros S T R W. destruct (order_irrelevant _ _ _ _ _ _ S T R W) as (bs & v' & bs2 & w' & A & B & C & D & G & [F1 H1] & [F2 H2]).
  exists bs, v', bs2, w'. repeat split; try assumption; [eapply same_trans; eassumption|].
  exists (Nat.max F1 F2). intros fuel L env rest. split; [apply H1|apply H2]; lia.
Qed.
Print Assumptions C42_any_order.

(** The encoding is not determined by the map: enumerations whose keys come in a
    different order give different bytes. *)
Theorem C42_not_determined E t kt vt m m2 out full full2 : supported E t -> head E t = TMap kt vt ->
  has_type E sound_leaf t (RMap (Some m)) -> has_type E sound_leaf t (RMap (Some m2)) -> map fst m <> map fst m2 ->
  runw (Encode E t (RMap (Some m))) out = WDone None full -> runw (Encode E t (RMap (Some m2))) out = WDone None full2 ->
  full <> full2.
Proof. exact (order_visible E t kt vt m m2 out full full2). Qed.
Print Assumptions C42_not_determined.
(** Bytes that list a key more than once are accepted: the decoded map has each key once,
    with the value listed last. *)
Theorem C42_last_wins E t kt vt es pre : head E t = TMap kt vt -> zlen es < 2 ^ 28 -> varu (zlen es) pre ->
  Forall (listed_in E kt vt) es ->
  exists m, decodes_whatever_follows E t (pre ++ listing es) (RMap (Some m)) /\ NoDup (map fst m)
    /\ forall k x, In (k, x) m <-> last_listed es k x.
Proof. exact (repeated_keys E t kt vt es pre). Qed.
Print Assumptions C42_last_wins.
Example C42_last_wins_ex : let E := node_types in let t := TMap (TLeaf KU8) (TLeaf KBool) in
  let leaf p := RLeaf p (leaf_zero p) in
  let e k b := {| key_bytes := [bz k]; key := leaf (PU8 k); value_bytes := [if b : bool then x01 else x00];
                  value := leaf (PBool b) |} in
  let es := [e 1 true; e 2 true; e 1 false] in
  varu (zlen es) [x03] /\ Forall (listed_in E (TLeaf KU8) (TLeaf KBool)) es.
Proof.
  cbv zeta. split; [split; [unfold leb_minimal; cbn; repeat split; try discriminate; try lia|reflexivity]|].
  assert (L : forall p bs, typed_prim p -> bounded_prim p -> wf_keys p -> prim_layout p bs -> readable Target (kind_of p) = true ->
    decodes_whatever_follows node_types (TLeaf (kind_of p)) bs (RLeaf p (leaf_zero p))).
  { intros p bs T B W PL RD. apply (proj1 (encoded_reads node_types) Target _ (RLeaf p false)).
    eapply w_leaf; try eassumption; reflexivity. }
  assert (U : forall k, 0 <= k < 256 -> decodes_whatever_follows node_types (TLeaf KU8) [bz k] (RLeaf (PU8 k) (leaf_zero (PU8 k)))).
  { intros k K. assert (C : k mod 256 = k) by now apply Z.mod_small.
    apply (L (PU8 k)); [exact K|exact I|exact I| |reflexivity]. split; [reflexivity|].
    cbn [le_value]. rewrite zb_bz, Z.mul_0_r, Z.add_0_r. now change (256 ^ Z.of_nat 1) with 256. }
  repeat (apply Forall_cons; [split; cbn [key_bytes key value_bytes value];
    [apply U; lia|now apply (L (PBool _))]|]).
  constructor.
Qed.

Example C42_two_entries : let t := TMap (TLeaf KU8) (TLeaf KString) in
  let m := [entry 1 [x61]; entry 2 [x62; x63]] in let m2 := [entry 2 [x62; x63]; entry 1 [x61]] in
  supported node_types t /\ has_type node_types sound_leaf t (RMap (Some m)) /\ has_type node_types sound_leaf t (RMap (Some m2))
  /\ map fst m <> map fst m2.
Proof.
  cbv zeta. split; [now apply plain_supported|].
  destruct (entries_typed sound_leaf) as [A B]; [intros v R; split; [exact R|exact I]|intros; split; exact I|].
  split; [|split; [|discriminate]]; (eapply ht_map; [reflexivity|reflexivity|eassumption|]; repeat constructor; cbn; intuition discriminate).
Qed.

Example C42_node : exists bs bs', bs <> bs' /\
  runw (Encode node_types (TName 0) (two_nodes [entry 1 [x61]; entry 2 [x62; x63]])) [] = WDone None bs /\
  runw (Encode node_types (TName 0) (two_nodes [entry 2 [x62; x63]; entry 1 [x61]])) [] = WDone None bs' /\
  reordered (two_nodes [entry 1 [x61]; entry 2 [x62; x63]]) (two_nodes [entry 2 [x62; x63]; entry 1 [x61]]).
Proof.
  do 2 eexists. split; [|split; [vm_compute; reflexivity|split; [vm_compute; reflexivity|]]]; [discriminate|].
  repeat econstructor.
Qed.
