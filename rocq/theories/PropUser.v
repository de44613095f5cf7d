(** C68: user-defined types with MarshalABI and UnmarshalABI methods of their own. *)
From Verif Require Import Base Prog SpecWire AbiPrim AbiPrimProofs Chain SpecChain Values Leaf SpecLeaf Reflect SpecReflect SpecStrict SpecCodegen Codegen.
From Verif Require Import BaseProofs ProgProofs ChainProofs ReflectOrder ReflectProofs ReflectStrict CodegenText CodegenWrite CodegenRead PropReflect PropCodegen.
From Verif Require Import AbiTermProofs SpecPanics SpecTerm TermProofs PropTerm SpecUser UserProofs.

(** Encode calls MarshalABI and nothing else, on a value and behind a pointer, whatever
    the writer. *)
Theorem C68_encode E t i u v : head E t = TUser i u -> forall o k out,
  runf o k (Encode E t (RUser v)) out = runf o k (marshals E i v) out
  /\ forall t', head E t' = TPtr t -> runf o k (Encode E t' (RPtr (Some (RUser v)))) out = runf o k (marshals E i v) out.
Proof.
  intros H o k out. split.
  - now rewrite (Encode_user _ _ _ _ _ H).
  - intros t' H'. unfold Encode. cbn [encode]. rewrite H'. unfold hooked. cbn [chain_encoder ebind]. now rewrite H.
Qed.
Print Assumptions C68_encode.
(** Decode calls UnmarshalABI on what the target holds; a nil pointer is first set to a
    new zero value. *)
Definition wrapped (c : rval -> rval) (r : outcome (rval * option gerr)) : outcome (rval * option gerr) :=
  match r with
  | Done (v, e) rest => Done (c v, e) rest
  | Crash m => Crash m
  | Diverged => Diverged
  end.
Theorem C68_decode E t i u fuel env inp : head E t = TUser i u -> (3 <= fuel)%nat ->
  (forall old, run env (Decode fuel E t (RUser old)) inp = wrapped RUser (run env (unmarshals E i old) inp))
  /\ forall t', head E t' = TPtr t ->
     (forall old, run env (Decode fuel E t' (RPtr (Some (RUser old)))) inp = wrapped (fun v => RPtr (Some (RUser v))) (run env (unmarshals E i old) inp))
     /\ run env (Decode fuel E t' (RPtr None)) inp = wrapped (fun v => RPtr (Some (RUser v))) (run env (unmarshals E i (zero_of u)) inp).
Proof.
  intros H L. destruct fuel as [|[|[|fuel]]]; try lia. split.
  - intros old. unfold Decode. rewrite decode_whole by (intros; congruence). cbn [decode]. rewrite H. rewrite run_dbind.
    now destruct (run env (unmarshals E i old) inp) as [[v e] r|m|].
  - intros t' H'. assert (Z : zero E t = RUser (zero_of u)) by (unfold zero; now rewrite H).
    split; [intros old|]; unfold Decode; rewrite decode_whole by (intros; congruence); cbn [decode]; rewrite H'; unfold through; rewrite H'; cbv zeta;
      rewrite ?Z, H, !run_dbind;
      [destruct (run env (unmarshals E i old) inp) as [[v e] r|m|]|destruct (run env (unmarshals E i (zero_of u)) inp) as [[v e] r|m|]]; reflexivity.
Qed.
Print Assumptions C68_decode.

(** Encode makes up two errors itself.  Every other error it returns comes from the
    writer or from a MarshalABI method of a part of the value, unchanged. *)
Theorem C68_errors E t v o k out e full : has_type E any_leaf t v -> runf o k (Encode E t v) out = WDone (Some e) full ->
  writer_error o e \/ (e = nil_pointer_err \/ e = unexpected_type_err) \/ holds E (method_error E o e) t v.
Proof. intros T R. exact (proj1 (encode_emits E o) t v T k out e full R). Qed.
Print Assumptions C68_errors.

(** Methods generated for a struct: a value with the methods is encoded like one without
    them, and they agree with each other, so that C40 holds for every type built on it. *)
Theorem C68_generated E E' i t : generable E t -> only_scalar_pointers E t -> only_optional_tags E t -> faithful_methods E t -> methods_determined E ->
  direct t = true ->
  (forall n, declared E' n = declared E n) -> (forall u, size_of E' u = size_of E u) -> generated_methods E E' i t ->
  (forall v out full, has_type E any_leaf t v ->
     (runw (Encode E' (TUser i t) (RUser v)) out = WDone None full <-> runw (Encode E t v) out = WDone None full))
  /\ faithful E' i t.
Proof.
  intros G SP OT FM MD DT HD HS [GM GU]. split.
  - intros v out full T. rewrite (Encode_user E' (TUser i t) i t v eq_refl). rewrite (GM v out full T).
    destruct (C56_writes E t v G T) as (F & A). split.
    + intros (fuel & R). apply (A (Nat.max F fuel) (Nat.le_max_l _ _)). rewrite (MarshalABI_stable E t v out fuel) by (try apply Nat.le_max_r; rewrite R; discriminate). exact R.
    + intros R. exists F. now apply (A F (le_n _)).
  - intros v out full T R.
    assert (T0 : has_type E sound_leaf t v) by (revert T; apply has_type_methods; auto).
    assert (T' : has_type E any_leaf t v) by (revert T0; apply has_type_weaken; intros p [X _]; exact X).
    destruct (proj1 (GM v out full T') R) as (fuel & W). destruct (C56_roundtrip E t v G SP OT FM T0) as (F & A).
    assert (W' : runw (MarshalABI (Nat.max F fuel) E t v) out = WDone None full).
    { rewrite (MarshalABI_stable E t v out fuel) by (try apply Nat.le_max_r; rewrite W; discriminate). exact W. }
    destruct (A _ (Nat.le_max_l _ _) out full W') as (bs & -> & N & D).
    set (e0 := {| r_end := EOF; r_strict := false |}). specialize (D N (le_n _)).
    destruct (D e0 []) as (v0 & R0 & S0 & C0). exists bs, v0. split; [reflexivity|]. split; [|now split].
    rewrite <- (zero_direct E t DT). intros env rest. apply GU. exists N.
    destruct (UnmarshalABI_determined E MD N t (zero E t) _ _ _ _ R0) as (used & Q & U). rewrite !app_nil_r in Q. subst used. apply U.
Qed.
Print Assumptions C68_generated.
(** There are such programs: on a struct type that is not recursive some depth is
    enough, and the new methods in turn end and are determined by the bytes they take
    (so that methods can be generated for structs that use this one). *)
Theorem C68_finite E i t : generable E t -> only_scalar_pointers E t -> only_optional_tags E t -> nonrecursive E t ->
  methods_end E -> marshals_end E ->
  exists N, forall n, (N <= n)%nat -> generated_methods E (with_generated E i t n) i t
    /\ methods_end (with_generated E i t n) /\ marshals_end (with_generated E i t n)
    /\ (methods_determined E -> methods_determined (with_generated E i t n)).
Proof.
  intros G SP OT NR ME WE. destruct (UnmarshalABI_finite E ME t NR) as (F3 & ME'). destruct (C69_uniform E t ME NR) as (F & D).
  destruct (MarshalABI_finite E (fun i x => end_eff _ (WE i x)) t NR) as (F' & W).
  exists (Nat.max F (Nat.max F' F3)). intros n L. split; [|split; [|split]].
  2: { intros j old env inp. cbn [with_generated unmarshals]. destruct (Nat.eqb j i); [apply ME'; lia|apply ME]. }
  2: { intros j x o k out. cbn [with_generated marshals]. destruct (Nat.eqb j i); [apply eff_end, W; lia|apply WE]. }
  2: { intros MD j old. cbn [with_generated unmarshals]. destruct (Nat.eqb j i); [now apply UnmarshalABI_determined|apply MD]. }
  unfold generated_methods, with_generated. cbn [marshals unmarshals]. rewrite Nat.eqb_refl. split.
  - intros v out full T. split; [now exists n|]. intros (fuel & R).
    assert (NW : runw (MarshalABI n E t v) out <> WDiverged) by (apply eff_runw, W; lia).
    rewrite <- (MarshalABI_stable E t v out n (Nat.max n fuel) (Nat.le_max_l _ _) NW).
    rewrite (MarshalABI_stable E t v out fuel) by (try apply Nat.le_max_r; rewrite R; discriminate). exact R.
  - intros env inp v rest. split; [now exists n|]. intros (fuel & R).
    set (M := Nat.max n fuel).
    assert (RM : run env (UnmarshalABI M E t (zero E t)) inp = Done (v, None) rest).
    { rewrite (UnmarshalABI_stable env E t _ inp fuel) by (try apply Nat.le_max_r; rewrite R; discriminate). exact R. }
    assert (ND : run env (Decode F E t (zero E t)) inp <> Diverged) by (apply D; lia).
    destruct (C56_reads E t F M env inp G SP OT ltac:(subst M; lia) ND) as [_ B]. destruct (B _ _ RM) as (v1 & R1 & _).
    destruct (C56_reads E t F n env inp G SP OT ltac:(lia) ND) as [A _]. destruct (A _ _ R1) as (v2 & R2 & _).
    rewrite <- (UnmarshalABI_stable env E t _ inp n M) by (subst M; try lia; rewrite R2; discriminate). exact RM.
Qed.
Print Assumptions C68_finite.

(** A hand-written type, number 0: an unsigned number written with a variable length. *)
Definition number_types : types := {| declared := fun _ => TOther; size_of := fun _ => 24;
  marshals := fun _ v => match v with RLeaf (PU32 n) _ => WriteVaruint n | _ => EPanic "no method" end;
  unmarshals := fun _ old => '(n, err) <-- ReadVaruint ;;
    match err with Some e => DRet (old, Some e) | None => DRet (leaf (PU32 n), None) end |}.
Definition number : gtype := TUser 0 (TLeaf KU32).
(** A struct with it, for which methods are generated as type 1. *)
Definition item_fields : list (tag * visibility * gtype) :=
  [(NoTag, Exported, number); (NoTag, Exported, TSlice number); (Optional, Exported, TPtr (TLeaf KU8))].
Definition item_struct : gtype := TStruct item_fields.
Definition item_parts : list (place * gtype) :=
  [(Target, item_struct); (Slot, number); (Slot, TSlice number); (Slot, TPtr (TLeaf KU8)); (Target, TLeaf KU8)].
Lemma number_faithful : faithful number_types 0 (TLeaf KU32).
Proof.
  intros v out full T R. inversion T as [t k p z H K Z O| | | | | | | | | | |]; subst; try discriminate.
  injection H as H. cbn in R. destruct p; try discriminate H. destruct O as [O _]. cbn in O. unfold in_u in O.
  pose proof (Varuint_done _ _ _ R) as L. assert (B : 0 <= v < 268435456) by lia.
  exists (varuint v), (leaf (PU32 v)). rewrite (WriteVaruint_writes v B) in R. injection R as <-. split; [reflexivity|]. split.
  - intros env rest. cbn [number_types unmarshals]. now rewrite run_dbind, (ReadVaruint_reads v B).
  - destruct Z as [_ Z]. rewrite (Z eq_refl). split; [constructor|reflexivity].
Qed.
Lemma item_closed : forall a b, within number_types a b -> In a item_parts -> In b item_parts.
Proof.
  induction 1 as [a|a b c P W IH]; [auto|]. intros I. apply IH. clear c W IH. unfold item_parts in I. cbn [In] in I.
  repeat (destruct I as [<-|I]); try contradiction; apply part_inv in P; cbn in P;
    try contradiction; try (subst b; cbn; tauto);
    destruct P as (tg & vis & u & J & ->);
    repeat match goal with
    | H : _ \/ _ |- _ => destruct H as [H|H]; [injection H as; subst; cbn; tauto|]
    | H : False |- _ => destruct H
    end.
Qed.
Lemma item_ready : generable number_types item_struct /\ only_scalar_pointers number_types item_struct
  /\ only_optional_tags number_types item_struct /\ faithful_methods number_types item_struct.
Proof.
  assert (R : forall pl t, within number_types (Target, item_struct) (pl, t) -> In (pl, t) item_parts).
  { intros pl t W. exact (item_closed _ _ W (or_introl eq_refl)). }
  split; [split; [now exists item_fields|]|split; [|split]].
  - intros pl t W. apply R in W. unfold item_parts in W. cbn [In] in W.
    repeat (destruct W as [W|W]; [injection W as <- <-|]); try contradiction; try exact I.
    split; [|repeat constructor]. apply compiles_iff. vm_compute. reflexivity.
  - intros pl t u W H. apply R in W. unfold item_parts in W. cbn [In] in W.
    repeat (destruct W as [W|W]; [injection W as <- <-|]); try contradiction; try discriminate H; cbn [head] in H; injection H as <-; scalars.
  - intros pl t fs tg vis u W H J. apply R in W. unfold item_parts in W. cbn [In] in W.
    repeat (destruct W as [W|W]; [injection W as <- <-|]); try contradiction; try discriminate H; cbn [head] in H; injection H as <-; cbn [In item_fields] in J;
    repeat (destruct J as [J|J]; [injection J as <- <- <-; auto|]); contradiction.
  - intros pl t i u W H. apply R in W. unfold item_parts in W. cbn [In] in W.
    repeat (destruct W as [W|W]; [injection W as <- <-|]); try contradiction; try discriminate H.
    injection H as <- <-. split; [reflexivity|exact number_faithful].
Qed.
Lemma number_methods : methods_end number_types /\ marshals_end number_types /\ methods_determined number_types.
Proof.
  split; [|split].
  - intros i old env inp. cbn [number_types unmarshals]. apply (ends_bind env); [apply fuel_free_ends, ff_ReadVaruint|].
    intros [n [e|]] rest _ _; apply le_n.
  - intros i x. apply eff_end. destruct x; try constructor. destruct p; try constructor. apply eff_varuint.
  - intros i old. apply det_bind; [apply strict_determined, ReadVaruint_strict|intros; apply det_ret|intros; apply sour_ret].
Qed.
(** All hypotheses hold of it, and C40 applies to a slice of such structs. *)
Example C68_item : exists n, generated_methods number_types (with_generated number_types 1 item_struct n) 1 item_struct
  /\ supported (with_generated number_types 1 item_struct n) (TSlice (TUser 1 item_struct)).
Proof.
  destruct item_ready as (G & SP & OT & FM). destruct number_methods as (ME & WE & MD).
  destruct (C68_finite number_types 1 item_struct G SP OT (nameless_finite _ item_struct eq_refl) ME WE) as (n & H).
  destruct (H n (le_n _)) as (GM & _). exists n. split; [exact GM|].
  destruct (C68_generated _ (with_generated number_types 1 item_struct n) 1 item_struct G SP OT FM MD eq_refl (fun _ => eq_refl) (fun _ => eq_refl) GM) as [_ F].
  intros pl t W.
  assert (R : (pl, t) = (Target, TSlice (TUser 1 item_struct)) \/ t = TUser 1 item_struct).
  { inversion W as [a|a b c P W']; subst; [now left|]. right. apply part_inv in P. cbn in P. subst b.
    inversion W' as [a|a b c P W2]; subst; [reflexivity|]. apply part_inv in P. destruct P. }
  destruct R as [[= -> ->] | ->]; cbn; auto.
Qed.
(** What it writes: the struct with the numbers 300 and [1; 128], and the optional 7. *)
Example C68_written :
  runw (Encode (with_generated number_types 1 item_struct 3) (TSlice (TUser 1 item_struct))
    (RSlice (Some [RUser (RStruct [RUser (leaf (PU32 300)); RSlice (Some [RUser (leaf (PU32 1)); RUser (leaf (PU32 128))]); RPtr (Some (leaf (PU8 7)))])]))) []
  = WDone None [x01; xac; x02; x02; x01; x80; x01; x01; x07].
Proof. vm_compute. reflexivity. Qed.
