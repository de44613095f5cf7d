(** C60, C61: the reflective codec on truncated input and on failing writers. *)
From Verif Require Import Base Prog SpecWire ProgProofs AbiPrim Chain SpecChain Values Leaf SpecLeaf Reflect SpecReflect SpecStrict.
From Verif Require Import ReflectProofs ReflectStrict.

(** ** C60 *)

(** A successful Decode depends on what it consumed alone, and consumed no more than
    it needs: any proper prefix of that is rejected. *)
Theorem C60_truncation E t old fuel : no_extensions E t -> reads_checked E t -> truncation_safe (Decode fuel E t old).
Proof. intros H M. apply strict_truncation. now apply Decode_strict. Qed.
Print Assumptions C60_truncation.

(** With the round trip of C40 the encodings of a type are prefix-free: no encoding
    is a proper prefix of another. *)
Theorem C60_prefix_free E t v w out full out' full' :
  supported E t -> no_extensions E t -> reads_checked E t -> has_type E sound_leaf t v -> has_type E sound_leaf t w ->
  runw (Encode E t v) out = WDone None full -> runw (Encode E t w) out' = WDone None full' ->
  exists bs bs', full = out ++ bs /\ full' = out' ++ bs' /\ (forall more, bs' = bs ++ more -> more = []).
Proof.
  intros S N M V W R R'. destruct (round_trip _ _ _ _ _ S V R) as (bs & v' & -> & _ & _ & F & D).
  destruct (round_trip _ _ _ _ _ S W R') as (bs' & w' & -> & _ & _ & F' & D').
  exists bs, bs'. split; [reflexivity|]. split; [reflexivity|]. intros more ->.
  set (fuel := (F + F')%nat). set (env := {| r_end := EOF; r_strict := true |}).
  pose proof (D fuel ltac:(lia) env []) as D1. rewrite app_nil_r in D1.
  pose proof (D' fuel ltac:(lia) env []) as D2. rewrite app_nil_r in D2.
  destruct (C60_truncation E t (zero E t) fuel N M env env _ _ _ D2) as (used & Eq & _ & P).
  rewrite app_nil_r in Eq. subst used. destruct more as [|b more]; [reflexivity|].
  destruct (P bs (b :: more) eq_refl ltac:(discriminate)) as (x & e & Px). congruence.
Qed.
Print Assumptions C60_prefix_free.

(** A node of a list: a number, some names, and perhaps the next node. *)
Definition chain_node : gtype :=
  TStruct [(NoTag, Exported, TLeaf KU16); (NoTag, Exported, TSlice (TLeaf KName)); (Optional, Exported, TPtr (TName 0))].
Definition chain_types : types := {| declared := fun _ => chain_node; size_of := fun _ => 8;
  marshals := no_marshal; unmarshals := no_unmarshal |}.
Definition chain_parts : list (place * gtype) :=
  [(Target, TName 0); (Slot, TLeaf KU16); (Slot, TSlice (TLeaf KName)); (Slot, TLeaf KName); (Slot, TPtr (TName 0))].
Lemma chain_closed : forall a b, within chain_types a b -> In a chain_parts -> In b chain_parts.
Proof.
  induction 1 as [a|a b c P W IH]; [auto|]. intros I. apply IH. clear c W IH. unfold chain_parts in I. cbn [In] in I.
  repeat (destruct I as [<-|I]); try contradiction; inversion P; subst; try discriminate;
    repeat match goal with
    | H : head _ _ = _ |- _ => cbn in H; injection H as; subst
    | H : In _ [] |- _ => destruct H
    | H : In _ (_ :: _) |- _ => destruct H as [H|H]; [injection H as; subst|]
    end; cbn; tauto.
Qed.
Lemma chain_no_extensions : no_extensions chain_types (TName 0).
Proof.
  intros pl t fs tg vis u W H I. apply chain_closed in W; [|now left]. unfold chain_parts in W. cbn [In] in W.
  repeat (destruct W as [W|W]; [injection W as <- <-; try discriminate H|]); try contradiction.
  injection H as <-. cbn [In] in I. repeat (destruct I as [I|I]; [injection I as; subst; discriminate|]). contradiction.
Qed.
Lemma chain_no_methods : no_methods chain_types (TName 0).
Proof.
  intros pl t i u W H. apply chain_closed in W; [|now left]. unfold chain_parts in W. cbn [In] in W.
  repeat (destruct W as [W|W]; [injection W as <- <-; discriminate H|]); contradiction.
Qed.
Lemma chain_supported : supported chain_types (TName 0).
Proof.
  intros pl t W. apply chain_closed in W; [|now left]. unfold chain_parts in W. cbn [In] in W.
  repeat (destruct W as [W|W]; [injection W as <- <-; try exact I; try reflexivity|]); try contradiction.
  cbn. repeat constructor; discriminate.
Qed.
Lemma chain_checked : reads_checked chain_types (TName 0) /\ writes_checked chain_types (TName 0).
Proof. split; intros pl t i u W H; now elim (chain_no_methods pl t i u W H). Qed.
Example C60_ex : supported chain_types (TName 0) /\ no_extensions chain_types (TName 0) /\ reads_checked chain_types (TName 0)
  /\ exists v rest, run {| r_end := EOF; r_strict := true |} (Decode 20 chain_types (TName 0) (zero chain_types (TName 0)))
       [x05; x00; x01; x01; x00; x00; x00; x00; x00; x00; x00; x01; x06; x00; x00; x00; xff] = Done (v, None) rest
     /\ rest = [xff].
Proof.
  split; [apply chain_supported|]. split; [apply chain_no_extensions|].
  split; [apply chain_checked|]. eexists _, _. now vm_compute.
Qed.

(** With an extension field a proper prefix of the encoding decodes without error to
    something else. *)
Theorem C60_extension_refuted E : let t := TStruct [(NoTag, Exported, TLeaf KU8); (Extension, Exported, TLeaf KU8)] in
  supported E t /\ ~ truncation_safe (Decode 5 E t (zero E t)).
Proof.
  intros t. split; [now apply plain_supported|]. intros H.
  destruct (H {| r_end := EOF; r_strict := true |} {| r_end := EOF; r_strict := true |} [x07; x09]
    (RStruct [RLeaf (PU8 7) false; RLeaf (PU8 9) false]) [] eq_refl) as (used & Eq & _ & P).
  rewrite app_nil_r in Eq. subst used.
  destruct (P [x07] [x09] eq_refl ltac:(discriminate)) as (v & e & R). discriminate R.
Qed.
Print Assumptions C60_extension_refuted.

(** ** C61 *)

(** Whatever the type: an error of the writer is lost only if presence flags of
    optional fields were all that remained to be written. *)
Theorem C61_faults E t v : has_type E any_leaf t v -> writes_checked E t -> only_flags_lost (Encode E t v).
Proof.
  intros V M o full So R. eapply lossy_runf; eauto; [|intros j Hj; lia]. apply Encode_lossy; [exact V|exact M|].
  now exists [], full.
Qed.
Print Assumptions C61_faults.

(** Without optional fields every error of the writer is reported. *)
Theorem C61_no_optionals E t v : has_type E any_leaf t v -> no_optionals E t -> writes_checked E t ->
  write_faults_reported (Encode E t v).
Proof.
  intros V N M. apply ChainProofs.wstrict_faults_if. intros full R. apply Encode_wstrict; auto. now exists [], full.
Qed.
Print Assumptions C61_no_optionals.

(** A struct ending in an absent optional field is "written" to a writer that takes
    nothing but its first byte. *)
Theorem C61_optional_refuted E :
  let t := TStruct [(NoTag, Exported, TLeaf KU8); (Optional, Exported, TPtr (TLeaf KU8))] in
  let v := RStruct [RLeaf (PU8 7) false; RPtr None] in
  has_type E any_leaf t v /\ ~ write_faults_reported (Encode E t v).
Proof.
  intros t v. split.
  - eapply ht_struct; [reflexivity|]. constructor.
    + eapply ht_leaf; [reflexivity|reflexivity|split; [discriminate|reflexivity]|]. split; [discriminate|reflexivity].
    + constructor; [eapply ht_nil; reflexivity|constructor].
  - intros H. destruct (H (fun i => match i with O => None | S _ => Some (O, ErrIO 0) end) [x07; x00]) as (r & out' & R & _ & P).
    + intros i j L N. destruct i as [|i]; [now elim N|]. destruct j as [|j]; [lia|eauto].
    + reflexivity.
    + cbn in R. injection R as <- <-. now specialize (P eq_refl).
Qed.
Print Assumptions C61_optional_refuted.

Example C61_ex : let v := RStruct [RLeaf (PU16 5) false; RSlice (Some [RLeaf (PName 1) false]);
    RPtr (Some (RStruct [RLeaf (PU16 6) false; RSlice None; RPtr None]))] in
  has_type chain_types any_leaf (TName 0) v /\ writes_checked chain_types (TName 0)
  /\ runw (Encode chain_types (TName 0) v) []
     = WDone None [x05; x00; x01; x01; x00; x00; x00; x00; x00; x00; x00; x01; x06; x00; x00; x00].
Proof.
  split; [|split; [apply chain_checked|reflexivity]]. eapply ht_struct; [reflexivity|]. constructor.
  { eapply ht_leaf; [reflexivity|reflexivity|split; [discriminate|reflexivity]|]. split; [discriminate|reflexivity]. }
  constructor.
  { eapply ht_slice; [reflexivity| |reflexivity]. constructor; [|constructor].
    eapply ht_leaf; [reflexivity|reflexivity|split; [discriminate|reflexivity]|]. split; [discriminate|reflexivity]. }
  constructor; [|constructor]. eapply ht_ptr; [reflexivity|]. eapply ht_struct; [reflexivity|]. constructor.
  { eapply ht_leaf; [reflexivity|reflexivity|split; [discriminate|reflexivity]|]. split; [discriminate|reflexivity]. }
  constructor; [eapply ht_nil_slice; reflexivity|]. constructor; [eapply ht_nil; reflexivity|constructor].
Qed.
