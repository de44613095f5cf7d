(** Only a long length prefix makes a decoder panic. *)
From Verif Require Import Base Prog GoVarint AbiPrim BaseProofs SpecWire ProgProofs AbiPrimProofs Chain SpecChain ChainProofs
  Values Leaf SpecLeaf LeafProofs Reflect SpecReflect ReflectProofs SpecStrict ReflectOverwrite ReflectStrict DecodedProofs SpecLengths.
From Verif Require Import AbiDyn SpecAbi AbiResolveProofs AbiCodecProofs AbiTermProofs AbiApiProofs.

(** ** Remaining input *)
Lemma run_suffix {A} env (p : dec A) : forall inp a rest, run env p inp = Done a rest -> exists pre, inp = pre ++ rest.
Proof.
  induction p as [a|m| |n k IH|k IH]; intros inp b rest R; cbn [run] in R; try discriminate.
  - injection R as <- <-. now exists [].
  - destruct (n <=? zlen inp).
    + apply IH in R as [pre E]. exists (firstn (Z.to_nat n) inp ++ pre). now rewrite <- app_assoc, <- E, firstn_skipn.
    + apply IH in R as [pre E]. symmetry in E. apply app_eq_nil in E as [_ ->]. exists inp. now rewrite app_nil_r.
  - eapply IH, R.
Qed.
Definition plain_input (k : nat) (inp : list byte) : Prop := zlen inp < 2 ^ 35 /\ no_run k inp.
Lemma plain_suffix k pre rest : plain_input k (pre ++ rest) -> plain_input k rest.
Proof.
  intros [L N]. split; [rewrite zlen_app in L; pose proof (zlen_nonneg pre); lia|].
  intros a b c -> F. apply (N (pre ++ a) b c); [now rewrite <- app_assoc|exact F].
Qed.

(** ** No panic, and what is known of the result of a success *)
Definition safe {A} (k : nat) (Q : A -> Prop) (p : io A) : Prop :=
  forall env inp, plain_input k inp ->
  match run env p inp with Done (v, None) _ => Q v | Done (_, Some _) _ => True | Crash _ => False | Diverged => True end.
Definition any {A} (a : A) : Prop := True.
Lemma safe_ret {A} k (Q : A -> Prop) a e : (e = None -> Q a) -> safe k Q (DRet (a, e)).
Proof. intros H env inp _. cbn [run]. destruct e; auto. Qed.
Lemma safe_error {A} k (Q : A -> Prop) a e : safe k Q (DRet (a, Some e)).
Proof. now apply safe_ret. Qed.
Lemma safe_fuel {A} k (Q : A -> Prop) : safe k Q DFuel.
Proof. intros env inp _. exact I. Qed.
Lemma safe_bind {A B} k (P : A -> Prop) (Q : B -> Prop) (p : io A) (f : A * option gerr -> io B) :
  safe k P p -> (forall a, P a -> safe k Q (f (a, None))) -> (forall a e, safe k Q (f (a, Some e))) ->
  safe k Q (dbind p f).
Proof.
  intros Hp H1 H2 env inp L. rewrite run_dbind. specialize (Hp env inp L).
  destruct (run env p inp) as [[a [e|]] r|m|] eqn:E; try exact Hp.
  - apply H2. apply run_suffix in E as [pre ->]. eapply plain_suffix, L.
  - apply H1; [exact Hp|]. apply run_suffix in E as [pre ->]. eapply plain_suffix, L.
Qed.
Lemma safe_dtry {A B} k (P : A -> Prop) (Q : B -> Prop) d (p : io A) (f : A -> io B) :
  safe k P p -> (forall a, P a -> safe k Q (f a)) -> safe k Q (dtry d p f).
Proof. intros Hp H. eapply safe_bind; [exact Hp|exact H|]. intros a e. apply safe_error. Qed.
Lemma safe_weaken {A} k (P Q : A -> Prop) p : safe k P p -> (forall a, P a -> Q a) -> safe k Q p.
Proof. intros H I env inp L. specialize (H env inp L). destruct (run env p inp) as [[a [e|]] r|m|]; auto. Qed.
Lemma safe_wrap {A B} k (c : A -> B) p : safe k any p -> safe k any (wrap c p).
Proof. intros H. eapply safe_bind; [exact H| |]; intros; apply safe_ret; now intros. Qed.
Lemma safe_never {A} k (p : io A) : never_panics p -> safe k any p.
Proof. intros H env inp _. destruct (H env inp) as ([a [e|]] & rest & ->); exact I. Qed.
Lemma safe_then {A B} k (p : io A) (f : A * option gerr -> io B) :
  safe k any p -> (forall a e, safe k any (f (a, e))) -> safe k any (dbind p f).
Proof. intros Hp H. eapply safe_bind; [exact Hp| |]; intros; apply H. Qed.
Lemma safe_panic_free {A} k (Q : A -> Prop) p : safe k Q p -> panic_free k p.
Proof. intros H env inp m L N R. specialize (H env inp (conj L N)). now rewrite R in H. Qed.
Lemma panic_free_safe {A} k (p : io A) : panic_free k p -> safe k any p.
Proof.
  intros H env inp [L N]. destruct (run env p inp) as [[a [e|]] r|m|] eqn:R; try exact I. now apply H in R.
Qed.

(** ** Reading methods *)
Lemma Bytes_safe k n : n <= max_alloc -> safe k (fun r : Z * list byte => zlen (snd r) = n /\ n < 2 ^ 35) (ReadBytes n).
Proof.
  intros N env inp [L _]. destruct (run env (ReadBytes n) inp) as [[[an b] [e|]] r|m|] eqn:R; try exact I.
  - apply ReadBytes_exact in R as [<- ->]. cbn [snd]. rewrite zlen_app in L. pose proof (zlen_nonneg r). lia.
  - rewrite ReadBytes_run in R. destruct (n <? 0) eqn:?; [discriminate|]. destruct (n =? 0) eqn:?; [discriminate|].
    assert (M : make_ok 1 n = true) by (unfold make_ok; lia). rewrite M in R. destruct (n <=? zlen inp); discriminate.
Qed.
Lemma leb_split bs : leb_wf bs -> exists a b, bs = a ++ [b] /\ Forall (fun c => 128 <= zb c) a.
Proof.
  induction bs as [|c bs IH]; intros W; [destruct W|]. destruct bs as [|d bs].
  - exists [], c. split; [reflexivity|constructor].
  - destruct W as [C W]. destruct (IH W) as (a & b & E & F). exists (c :: a), b. rewrite E. split; [reflexivity|now constructor].
Qed.
Lemma Varuint_safe k : safe k (fun l => 0 <= l < 128 ^ Z.of_nat k) ReadVaruint.
Proof.
  intros env inp [L N]. destruct (run env ReadVaruint inp) as [[v [e|]] r|m|] eqn:R; try exact I.
  - apply ReadVaruint_exact in R as (pre & W & <- & _ & ->). split; [apply leb_value_nonneg|].
    pose proof (leb_value_bound pre) as B. destruct (leb_split _ W) as (a & b & -> & F).
    specialize (N [] a ([b] ++ r)). cbn [app] in N. rewrite <- app_assoc in N. specialize (N eq_refl F).
    eapply Z.lt_le_trans; [exact B|]. apply Z.pow_le_mono_r; [lia|]. unfold zlen. rewrite app_length. cbn [length]. lia.
  - destruct length_free_calm as (_ & _ & _ & _ & _ & _ & _ & _ & _ & _ & _ & V & _).
    destruct (V env inp) as (x & y & E). congruence.
Qed.
Lemma i64_small_len k l : (k <= 6)%nat -> 0 <= l < 128 ^ Z.of_nat k -> i64 l = l /\ l < 2 ^ 42.
Proof.
  intros K L. assert (128 ^ Z.of_nat k <= 128 ^ 6) by (apply Z.pow_le_mono_r; lia).
  change (128 ^ 6) with (2 ^ 42) in *. split; [|lia]. unfold i64. rewrite Z.mod_small; lia.
Qed.
Ltac len K L := let E := fresh "E" in let B := fresh "B" in destruct (i64_small_len _ _ K L) as [E B]; rewrite E.

Lemma GoString_safe k : (k <= 6)%nat -> safe k any ReadString.
Proof.
  intros K. eapply safe_dtry; [apply Varuint_safe|]. intros l L. len K L.
  eapply safe_bind; [apply Bytes_safe; unfold max_alloc; lia| |intros [n b] e; apply safe_error].
  intros [n b] _. now apply safe_ret.
Qed.
Lemma Blob_safe k old : (k <= 6)%nat -> safe k any (Bytes_UnmarshalABI old).
Proof.
  intros K. eapply safe_dtry; [apply Varuint_safe|]. intros l L. len K L.
  eapply safe_bind; [apply Bytes_safe; unfold max_alloc; lia| |intros [n b] e; apply safe_error].
  intros [n b] _. now apply safe_ret.
Qed.
Lemma GoBytes_safe k old : (k <= 6)%nat -> safe k any (DecodeByteSlice old).
Proof.
  intros K. eapply safe_bind; [apply Varuint_safe| |intros; apply safe_error]. intros l L. len K L.
  eapply safe_bind; [apply Bytes_safe; unfold max_alloc; lia| |intros [n b] e; apply safe_error].
  intros [n b] _. now apply safe_ret.
Qed.
Lemma auths_safe k n : forall acc, safe k any (read_auths n acc).
Proof.
  induction n as [|n IH]; intros acc; cbn [read_auths]; [now apply safe_ret|].
  eapply safe_bind; [apply safe_never, calm_never, PL_calm| |intros; apply safe_error].
  intros p _. apply IH.
Qed.
Lemma Action_safe k old : (k <= 6)%nat -> safe k any (Action_UnmarshalABI old).
Proof.
  intros K. apply safe_then; [apply safe_never, calm_never, Name_calm|]. intros a ea.
  apply safe_then; [apply safe_never, calm_never, Name_calm|]. intros b eb.
  eapply safe_bind; [apply Varuint_safe| |intros; apply safe_error]. intros l _.
  eapply safe_bind; [apply auths_safe| |intros; apply safe_error]. intros au _.
  eapply safe_bind; [now apply Blob_safe| |intros; apply safe_error]. intros d _. now apply safe_ret.
Qed.
Lemma Ext_safe k old : (k <= 6)%nat -> safe k any (TransactionExtension_UnmarshalABI old).
Proof.
  intros K. eapply safe_bind; [apply safe_never, calm_never, ReadUint16_calm| |intros; apply safe_error]. intros a _. cbv beta iota.
  eapply safe_bind; [now apply Blob_safe| |intros; apply safe_error]. intros b _. now apply safe_ret.
Qed.
Lemma all_safe {A} k zero (f : A -> io A) : (forall x, safe k any (f x)) -> forall n, safe k any (read_all zero f n).
Proof.
  intros F n. induction n as [|n IH]; cbn [read_all]; [now apply safe_ret|].
  eapply safe_bind; [apply F| |intros; apply safe_error]. intros x _.
  eapply safe_bind; [apply IH| |intros; apply safe_error]. intros xs _. now apply safe_ret.
Qed.
Lemma make_small size l : 0 <= l -> l * size <= 2 ^ 48 -> make_ok size l = true.
Proof. intros A B. unfold make_ok. apply andb_true_intro. split; apply Z.leb_le; [exact A|exact B]. Qed.
Lemma slice_safe {A} k size zero (f : A -> io A) old : (k <= 6)%nat -> 0 <= size <= 64 -> (forall x, safe k any (f x)) ->
  safe k any (read_slice size zero f old).
Proof.
  intros K S F. eapply safe_bind; [apply Varuint_safe| |intros; apply safe_error]. intros l L. cbv beta iota.
  len K L. assert (M : make_ok size l = true).
  { assert (l * size <= 2 ^ 48) by nia. apply make_small; [apply L|assumption]. }
  rewrite M. now apply all_safe.
Qed.
Lemma Transaction_safe k old : (k <= 6)%nat -> safe k any (Transaction_UnmarshalABI old).
Proof.
  intros K. eapply safe_bind; [apply safe_never, calm_never, Header_calm| |intros; apply safe_error]. intros h _. cbv beta iota zeta.
  eapply safe_bind; [apply slice_safe; [exact K|lia|intros; now apply Action_safe]| |intros; apply safe_error]. intros a _. cbv beta iota zeta.
  eapply safe_bind; [apply slice_safe; [exact K|lia|intros; now apply Action_safe]| |intros; apply safe_error]. intros b _. cbv beta iota zeta.
  eapply safe_bind; [apply slice_safe; [exact K|lia|intros; now apply Ext_safe]| |intros; apply safe_error]. intros c _. now apply safe_ret.
Qed.
Lemma put_len_safe {A} k l (f : list byte -> io A) : 0 <= l < 2 ^ 35 -> (forall b, safe k any (f b)) -> safe k any (put_len l f).
Proof.
  intros L H. unfold put_len. destruct (PutUvarint_some 5 l) as (b & -> & _); [exact L|congruence|]. apply H.
Qed.
Lemma sized_safe {B} k (d : B) (f : Z -> list byte -> io B) : (k <= 6)%nat ->
  (forall b l, 0 <= l < 2 ^ 35 -> safe k any (f l b)) ->
  safe k any (dtry d ReadVaruint (fun l => dtry d (ReadBytes (i64 l)) (fun '(_, b) => f l b))).
Proof.
  intros K H. eapply safe_dtry; [apply Varuint_safe|]. intros l L. len K L.
  eapply safe_dtry; [apply Bytes_safe; unfold max_alloc; lia|]. intros [n b] [_ B1]. apply H. split; [apply L|exact B1].
Qed.
Lemma PublicKey_safe k old : (k <= 6)%nat -> safe k any (PublicKey_UnmarshalABI old).
Proof.
  intros K. eapply safe_dtry; [apply safe_never, calm_never, ReadByte_calm|]. intros t _.
  destruct ((t =? K1) || (t =? P1)).
  { eapply safe_bind; [apply Bytes_safe; unfold max_alloc; lia| |intros [? ?] ?; apply safe_error]. intros [n b] _. now apply safe_ret. }
  destruct (t =? WA); [|apply safe_error]. cbv zeta.
  eapply safe_dtry; [apply Bytes_safe; unfold max_alloc; lia|]. intros [n d] _.
  apply (sized_safe k _ (fun l b => put_len l _) K). intros b l L. apply put_len_safe; [exact L|]. intros. now apply safe_ret.
Qed.
Lemma Signature_safe k old : (k <= 6)%nat -> safe k any (Signature_UnmarshalABI old).
Proof.
  intros K. eapply safe_dtry; [apply safe_never, calm_never, ReadByte_calm|]. intros t _.
  destruct ((t =? K1) || (t =? P1)).
  { eapply safe_bind; [apply Bytes_safe; unfold max_alloc; lia| |intros [? ?] ?; apply safe_error]. intros [n b] _. now apply safe_ret. }
  destruct (t =? WA); [|apply safe_error]. cbv zeta.
  eapply safe_dtry; [apply Bytes_safe; unfold max_alloc; lia|]. intros [n d] _.
  apply (sized_safe k _ (fun l b => dtry _ ReadVaruint _) K). intros b l L.
  apply (sized_safe k _ (fun l' b' => put_len l _) K). intros b' l' L'.
  apply put_len_safe; [exact L|]. intros. apply put_len_safe; [exact L'|]. intros. now apply safe_ret.
Qed.
Lemma prim_safe k old : (k <= 6)%nat -> safe k any (read_prim old).
Proof.
  intros K. pose proof length_free_calm as (c1 & c2 & c3 & c4 & c5 & c6 & c7 & c8 & c9 & c10 & c11 & c12 & c13 & c14 & c15
    & c16 & c17 & c18 & c19 & c20 & c21 & c22 & c23 & c24 & c25 & c26 & c27).
  destruct old; cbn [read_prim]; apply safe_wrap;
    lazymatch goal with
    | |- safe _ _ ReadString => now apply GoString_safe
    | |- safe _ _ (DecodeByteSlice _) => now apply GoBytes_safe
    | |- safe _ _ (Bytes_UnmarshalABI _) => now apply Blob_safe
    | |- safe _ _ (Action_UnmarshalABI _) => now apply Action_safe
    | |- safe _ _ (Transaction_UnmarshalABI _) => now apply Transaction_safe
    | |- safe _ _ (TransactionExtension_UnmarshalABI _) => now apply Ext_safe
    | |- safe _ _ (PublicKey_UnmarshalABI _) => now apply PublicKey_safe
    | |- safe _ _ (Signature_UnmarshalABI _) => now apply Signature_safe
    | |- safe _ _ (Checksum_UnmarshalABI _ _) => apply safe_never, c25; lia
    | _ => apply safe_never; auto
    end.
Qed.

(** ** The reflective decoder *)
Definition quiet {A} (k : nat) (p : dec A) : Prop :=
  forall env inp, plain_input k inp -> match run env p inp with Crash _ => False | _ => True end.
Lemma quiet_bind {A B} k (Q : B -> Prop) (p : dec A) (f : A -> io B) : quiet k p -> (forall a, safe k Q (f a)) -> safe k Q (dbind p f).
Proof.
  intros Hp H env inp L. rewrite run_dbind. specialize (Hp env inp L). destruct (run env p inp) as [a r|m|] eqn:R; try exact Hp.
  apply H. apply run_suffix in R as [pre ->]. eapply plain_suffix, L.
Qed.
Lemma safe_quiet {A} k (Q : A -> Prop) p : safe k Q p -> quiet k p.
Proof. intros H env inp L. specialize (H env inp L). destruct (run env p inp) as [[a [e|]] r|m|]; auto. Qed.
Lemma free_quiet {A} k (p : dec A) : panic_free k p -> quiet k p.
Proof. intros H env inp [L N]. destruct (run env p inp) eqn:R; try exact I. exact (H env inp _ L N R). Qed.
Lemma quiet_then {A B} k (p : dec A) (f : A -> dec B) : quiet k p -> (forall a, quiet k (f a)) -> quiet k (dbind p f).
Proof.
  intros Hp H env inp L. rewrite run_dbind. specialize (Hp env inp L). destruct (run env p inp) as [a r|m|] eqn:R; try exact Hp.
  apply H. apply run_suffix in R as [pre ->]. eapply plain_suffix, L.
Qed.
Lemma quiet_ret {A} k (a : A) : quiet k (DRet a).
Proof. intros env inp _. exact I. Qed.
Lemma leaf_read_safe k p : (k <= 6)%nat -> safe k any (leaf_read p).
Proof. intros K. apply safe_then; [now apply prim_safe|]. intros. now apply safe_ret. Qed.
Lemma chain_quiet k t v : (k <= 6)%nat -> quiet k (chain_decoder t v).
Proof.
  intros K. unfold chain_decoder. destruct t; try apply quiet_ret. destruct v; try apply quiet_ret.
  destruct (table_kind k0); [|apply quiet_ret]. apply quiet_then; [eapply safe_quiet; now apply leaf_read_safe|].
  intros [a e]. apply quiet_ret.
Qed.
Lemma custom_quiet k fn t v : (k <= 6)%nat -> quiet k (fn t v) -> quiet k (custom_decoder fn t v).
Proof.
  intros K H. apply quiet_then; [exact H|]. intros [a [[|] [e|]]]; try apply quiet_ret. now apply chain_quiet.
Qed.

Definition stout (E : types) (k : nat) (t : gtype) : Prop := forall pl pl' t', within E (pl, t) (pl', t') -> sturdy_here E k t'.
Lemma sturdy_stout E k t : sturdy E k t -> stout E k t.
Proof. intros H pl pl' t' W. destruct (within_place _ _ _ W Target) as [pl0 W0]. eapply H, W0. Qed.
Lemma stout_part E k pl t pl' t' : stout E k t -> part E (pl, t) (pl', t') -> stout E k t'.
Proof.
  intros H P pl0 pl1 t1 W. destruct (within_place _ _ _ W pl') as [pl2 W2]. apply (H pl pl2). eapply wi_part; eassumption.
Qed.
Lemma stout_self E k t : stout E k t -> sturdy_here E k t.
Proof. intros H. apply (H Slot Slot). constructor. Qed.
Definition is_safe (E : types) (k : nat) (P : gtype -> Prop) (f : gtype -> rval -> io rval) : Prop :=
  forall t v, stout E k t -> P t -> safe k any (f t v).
Definition all_types (t : gtype) : Prop := True.
Definition pointers (E : types) (fs : list (tag * visibility * gtype)) : Prop :=
  Forall (fun '(_, vis, t) => vis = Exported /\ exists t', head E t = TPtr t') fs.
Definition variant_type (E : types) (t : gtype) : Prop := forall alts, points_to E t alts -> pointers E alts.
Lemma through_safe E k (P : gtype -> Prop) f : (forall t t', P t -> head E t = TPtr t' -> P t') -> is_safe E k P f -> is_safe E k P (through E f).
Proof.
  intros HP Hf t v S V. unfold through. destruct (head E t) as [| | |t'| | | | | |] eqn:H; try (now apply Hf).
  destruct v; try (now apply Hf). apply safe_then; [|intros; now apply safe_ret].
  apply Hf; [|eapply HP; eassumption]. eapply (stout_part _ _ Slot); [exact S|]. eapply pt_ptr; exact H.
Qed.
Lemma elems_safe k f : (forall v, safe k any (f v)) -> forall l, safe k any (get_elems f l).
Proof.
  intros Hf l. induction l as [|v l IH]; cbn [get_elems]; [now apply safe_ret|].
  eapply safe_bind; [apply Hf| |intros; apply safe_error]. intros a _.
  apply safe_then; [apply IH|]. intros. now apply safe_ret.
Qed.
Lemma get_slice_safe k size z f o : (k <= 6)%nat -> size * 128 ^ Z.of_nat k <= 2 ^ 48 -> (forall v, safe k any (f v)) ->
  safe k any (get_slice size z f o).
Proof.
  intros K S Hf. eapply safe_bind; [apply Varuint_safe| |intros; apply safe_error]. intros l L. cbv beta iota.
  len K L. destruct (_ =? l).
  - destruct o; [|now apply safe_ret]. apply safe_then; [now apply elems_safe|]. intros. now apply safe_ret.
  - assert (M : make_ok size l = true).
    { assert (l * size <= 2 ^ 48) by (destruct L as [L0 L1]; remember (128 ^ Z.of_nat k) as w; clear - L0 L1 S; destruct (Z.le_gt_cases size 0); nia). apply make_small; [apply L|assumption]. }
    rewrite M. apply safe_then; [now apply elems_safe|]. intros. now apply safe_ret.
Qed.
Lemma get_pairs_safe k fk fv : safe k any fk -> safe k any fv -> forall n m, safe k any (get_pairs fk fv n m).
Proof.
  intros Hk Hv. induction n as [|n IH]; intros m; cbn [get_pairs]; [now apply safe_ret|].
  eapply safe_bind; [exact Hk| |intros; apply safe_error]. intros a _.
  eapply safe_bind; [exact Hv| |intros; apply safe_error]. intros x _. apply IH.
Qed.
Lemma fields_safe E k f g : is_safe E k all_types f -> is_safe E k (variant_type E) g ->
  forall fs l, Forall (fun '(tg, vis, t) => vis <> Hidden /\ (tg = Variant -> variant_type E t) /\ stout E k t) fs ->
  safe k any (get_fields E f g fs l).
Proof.
  intros Hf Hg fs. induction fs as [|[[tg vis] t] fs IH]; intros l F; cbn [get_fields]; [now apply safe_ret|].
  destruct l as [|v l]; [now apply safe_ret|]. inversion F as [|x y X F']; subst. cbv beta iota in X. destruct X as (V & T & S).
  assert (TF : forall v, safe k any (through E f t v)).
  { intros w. apply (through_safe E k all_types); [now intros|exact Hf|exact S|exact I]. }
  eapply (safe_bind k any); [|intros a _; apply safe_then; [now apply IH|intros; now apply safe_ret]|intros; apply safe_error].
  cbn [get_field]. destruct vis; [|now apply safe_ret|congruence]. destruct tg.
  - apply TF.
  - eapply safe_bind; [apply safe_never, calm_never, ReadBool_calm| |intros; apply safe_error].
    intros [|] _; [apply TF|now apply safe_ret].
  - apply safe_then; [apply TF|]. intros a [[]|]; now apply safe_ret.
  - apply (through_safe E k (variant_type E)); [|exact Hg|exact S|now apply T].
    intros t0 t' HV H0 alts PT. apply HV. eapply pto_ptr; eassumption.
Qed.
Lemma clear_some E fs : pointers E fs -> forall i l, exists l', clear_others E i fs l = Some l'.
Proof.
  induction fs as [|[[tg vis] t] fs IH]; intros P i l; cbn [clear_others]; [now exists l|].
  destruct l as [|v l]; [now exists []|]. inversion P as [|x y X P']; subst. cbv beta iota in X. destruct X as [-> [t' H]].
  destruct (IH P' (i - 1) l) as [l' ->]. destruct (i =? 0); [eauto|]. rewrite H. destruct (is_zero v); eauto.
Qed.
Lemma alternative_safe E k f i fs l : is_safe E k all_types f -> pointers E fs -> 0 <= i ->
  (forall tg vis t t', In (tg, vis, t) fs -> head E t = TPtr t' -> stout E k t') ->
  safe k any (get_alternative E f i fs l).
Proof.
  intros Hf P I S. unfold get_alternative. destruct (zlen fs <=? i) eqn:B; [apply safe_error|].
  destruct (clear_some E fs P i l) as [l' ->].
  destruct (nth_error fs (Z.to_nat i)) as [[[tg vis] t]|] eqn:N.
  - apply nth_error_In in N. unfold pointers in P. rewrite Forall_forall in P. destruct (P _ N) as [-> [t' H]].
    rewrite H. eapply safe_bind; [apply Hf; [eapply S; eassumption|exact Logic.I]| |intros; apply safe_error].
    intros a _. now apply safe_ret.
  - apply nth_error_None in N. unfold zlen in B. lia.
Qed.
Definition mode_type (E : types) (m : mode) (t : gtype) : Prop :=
  match m with Alt i => 0 <= i /\ variant_type E t | _ => True end.
Lemma decode_safe E k h : (k <= 6)%nat -> (forall t v, quiet k (h t v)) ->
  forall fuel m, is_safe E k (mode_type E m) (decode fuel E h m).
Proof.
  intros K Hh. induction fuel as [|fuel IH]; intros m t v S MT; [apply safe_fuel|].
  assert (IW : is_safe E k all_types (decode fuel E h Whole)) by (intros t0 v0 S0 _; now apply IH).
  assert (ID : is_safe E k all_types (decode fuel E h Deref)) by (intros t0 v0 S0 _; now apply IH).
  assert (TW : forall t' v', stout E k t' -> safe k any (through E (decode fuel E h Whole) t' v')).
  { intros t' v' S'. apply (through_safe E k all_types); [now intros|exact IW|exact S'|exact I]. }
  assert (LR : forall p, safe k any (leaf_read p)) by (intros; now apply leaf_read_safe).
  destruct m as [| |i]; cbn [decode].
  - apply quiet_bind; [apply Hh|]. intros [w [[|] e]]; [now apply safe_ret|]. destruct e; [apply safe_error|].
    assert (D : safe k any (decode fuel E h Deref t w)) by (now apply ID).
    destruct (head E t); try exact D. destruct w; try exact D. destruct (go_kind _); [apply LR|exact D].
  - pose proof (stout_self _ _ _ S) as S0. unfold sturdy_here in S0.
    destruct (head E t) as [kd|ik| |t'|t'|n t'|kt vt|fs|j u|] eqn:H; destruct v as [p z| | | |o|l|o|l|x]; try apply safe_error.
    + destruct (go_kind kd); [|apply LR].
      assert (NR : safe k any ('(v0, err) <-- leaf_read p ;; DRet (match err with Some _ => RLeaf p z | None => v0 end, err))).
      { apply safe_then; [apply LR|]. intros. now apply safe_ret. }
      destruct p; try exact NR; try apply safe_error.
      apply safe_then; [|intros; now apply safe_ret]. apply get_slice_safe; [exact K| |].
      { assert (128 ^ Z.of_nat k <= 128 ^ 6) by (apply Z.pow_le_mono_r; lia). change (128 ^ 6) with (2 ^ 42) in *. lia. }
      intros w. apply IW; [|exact I]. intros pl pl' t' W. inversion W as [|? ? ? PT]; subst; [exact I|].
      inversion PT; subst; discriminate.
    + destruct length_free_calm as (_ & _ & c3 & c4 & _ & _ & c7 & c8 & _).
      apply safe_then; [|intros; now apply safe_ret]. apply safe_then; [|intros ? [e|]; now apply safe_ret].
      destruct ik; apply safe_never; assumption.
    + apply (through_safe E k all_types); [now intros|exact ID|exact S|exact I].
    + apply safe_then; [|intros; now apply safe_ret]. apply get_slice_safe; [exact K|exact S0|].
      intros w. apply TW. eapply (stout_part _ _ Slot); [exact S|]. eapply pt_slice; exact H.
    + apply safe_then; [|intros; now apply safe_ret]. apply elems_safe.
      intros w. apply TW. eapply (stout_part _ _ Slot); [exact S|]. eapply pt_array; exact H.
    + apply safe_then; [|intros; now apply safe_ret].
      eapply safe_bind; [apply Varuint_safe| |intros; apply safe_error]. intros a _.
      apply safe_then; [|intros; now apply safe_ret]. apply get_pairs_safe; apply IW; try exact I.
      * eapply (stout_part _ _ Slot); [exact S|]. eapply pt_key; exact H.
      * eapply (stout_part _ _ Slot); [exact S|]. eapply pt_value; exact H.
    + apply safe_then; [|intros; now apply safe_ret]. apply fields_safe; [exact IW| |].
      * intros t0 v0 SV VT. eapply (safe_bind _ (fun i => 0 <= i)).
        { intros env inp L. destruct (run env ReadByte inp) as [[b [e|]] r|m0|] eqn:R; try exact I.
          - destruct inp as [|c inp]; [discriminate R|]. rewrite run_ReadByte_cons in R. injection R as <- <-. pose proof (zb_range c). lia.
          - destruct (calm_never _ ReadByte_calm env inp) as (x & y & E1). congruence. }
        { intros b B. apply IH; [exact SV|]. now split. }
        intros; apply safe_error.
      * rewrite Forall_forall in *. intros [[tg vis] t'] IN. destruct (S0 _ IN) as [V T]. split; [exact V|]. split; [exact T|].
        eapply (stout_part _ _ Slot); [exact S|]. eapply pt_field; eassumption.
    + apply safe_then; [|intros; now apply safe_ret]. apply panic_free_safe, S0.
  - destruct MT as [I0 VT]. pose proof (stout_self _ _ _ S) as S0. unfold sturdy_here in S0.
    destruct (head E t) as [kd|ik| |t'|t'|n t'|kt vt|fs|j u|] eqn:H; destruct v as [p z| | | |o|l|o|l|x]; try apply safe_error.
    + destruct (go_kind kd); [apply safe_error|apply LR].
    + apply (through_safe E k (mode_type E (Alt i))); [|apply IH|exact S|now split].
      intros t0 t1 [_ V0] H0. split; [exact I0|]. intros alts PT. apply V0. eapply pto_ptr; eassumption.
    + apply safe_then; [|intros; now apply safe_ret]. apply alternative_safe; [exact IW| |exact I0|].
      * apply VT. now constructor.
      * intros tg vis t1 t2 IN H2. eapply (stout_part _ _ Slot); [|eapply pt_ptr; exact H2].
        eapply (stout_part _ _ Slot); [exact S|]. eapply pt_field; eassumption.
    + apply safe_then; [|intros; now apply safe_ret]. apply panic_free_safe, S0.
Qed.

(** ** The dynamic decoder *)
Lemma into_safe {A} k (c : A -> prim) p : safe k any p -> safe k any (into c p).
Proof. intros H. apply safe_then; [exact H|]. intros. now apply safe_ret. Qed.
Lemma builtin_safe k b : (k <= 6)%nat -> safe k any (decodeBuiltin b).
Proof.
  intros K. pose proof length_free_calm as (c1 & c2 & c3 & c4 & c5 & c6 & c7 & c8 & c9 & c10 & c11 & c12 & c13 & c14 & c15
    & c16 & c17 & c18 & c19 & c20 & c21 & c22 & c23 & c24 & c25 & c26 & c27).
  unfold decodeBuiltin. destruct (builtin_of b) as [B|]; [|apply safe_error].
  destruct B; cbv iota; try apply safe_error; apply into_safe;
    lazymatch goal with
    | |- safe _ _ ReadString => now apply GoString_safe
    | |- safe _ _ (Bytes_UnmarshalABI _) => now apply Blob_safe
    | |- safe _ _ (PublicKey_UnmarshalABI _) => now apply PublicKey_safe
    | |- safe _ _ (Signature_UnmarshalABI _) => now apply Signature_safe
    | |- safe _ _ (Checksum_UnmarshalABI _ _) => apply safe_never, c25; lia
    | _ => apply safe_never; auto
    end.
Qed.
Lemma decode_elems_safe k f : safe k any f -> forall n acc, safe k any (decode_elems f n acc).
Proof.
  intros H n. induction n as [|n IH]; intros acc; cbn [decode_elems]; [now apply safe_ret|].
  eapply safe_bind; [exact H| |intros; apply safe_error]. intros x _. apply IH.
Qed.
Lemma decode_fields_safe k rec fs : (forall f t, In (f, t) fs -> safe k any (rec t)) -> forall acc, safe k any (decode_fields rec fs acc).
Proof.
  induction fs as [|[f t] fs IH]; intros H acc; cbn [decode_fields]; [now apply safe_ret|].
  eapply safe_bind; [apply (H f); now left| |intros; apply safe_error].
  intros x _. apply IH. intros f' t' I. apply (H f'). now right.
Qed.
Lemma ext_eof_safe k t r : safe k any (ext_eof t r).
Proof. destruct r as [v [[]|]]; cbn [ext_eof]; try destruct (t_isExtension t); now apply safe_ret. Qed.
Lemma inner_safe a n0 tbl k rec n t : (k <= 6)%nat -> table_for a n0 tbl -> reach a n0 n -> lookup tbl n = Some t ->
  (forall m, reach a n0 m -> safe k any (rec m)) -> safe k any (decodeInner rec tbl t).
Proof.
  intros K TB R LK HR. destruct (table_lookup _ _ _ _ TB R) as (t' & L' & Ds). rewrite LK in L'. injection L' as <-.
  pose proof Ds as (N & D & _). unfold decodeInner. destruct (t_ref t) as [r|] eqn:E1.
  { apply (describes_alias _ _ _ _ _ _ _ r Ds D) in E1. apply HR.
    eapply reach_step; [exact R|exact D|exact E1|cbn; auto]. }
  destruct (allFields tbl (t_name t)) as [fs|] eqn:E2.
  { rewrite N in E2. apply (allFields_spec _ _ _ _ TB) in E2; [|now exists t]. destruct E2 as [I _].
    apply decode_fields_safe. intros f m Hm. apply HR. eapply inherits_reach; eauto. }
  destruct (t_variant t) as [l|] eqn:E3; [|now apply builtin_safe].
  apply (describes_variant _ _ _ _ _ _ _ l Ds D) in E3.
  eapply safe_bind; [apply Varuint_safe| |intros; apply safe_error]. intros i L. cbv beta iota.
  len K L. destruct (zlen l <=? i) eqn:G; [apply safe_error|].
  destruct (at_ l i) as [tv|] eqn:EA.
  - eapply safe_bind; [apply HR| |intros; apply safe_error].
    + eapply reach_step; [exact R|exact D|exact E3|].
      unfold at_ in EA. destruct (i <? 0); [discriminate|]. now apply nth_error_In in EA.
    + intros x _. now apply safe_ret.
  - exfalso. destruct L as [L0 _]. unfold at_ in EA. destruct (Z.ltb_spec i 0); [lia|].
    apply nth_error_None in EA. apply Z.leb_gt in G. unfold zlen in G. lia.
Qed.
Lemma decodeType_safe a n0 tbl k : (k <= 6)%nat -> table_for a n0 tbl ->
  forall fuel n, reach a n0 n -> safe k any (decodeType fuel tbl n).
Proof.
  intros K TB. induction fuel as [|fuel IH]; intros n R; [apply safe_fuel|].
  destruct (table_lookup _ _ _ _ TB R) as (t & LK & Ds). rewrite (decodeType_S _ _ _ _ LK).
  pose proof (inner_safe _ _ _ k (decodeType fuel tbl) _ _ K TB R LK IH) as SI.
  assert (B : safe k any (dec_body fuel tbl t)).
  { unfold dec_body. destruct (t_isArray t).
    - eapply safe_bind; [apply Varuint_safe| |intros; apply ext_eof_safe]. intros l L. cbv beta iota.
      len K L. rewrite make_small; [|apply L|clear - B; lia].
      eapply safe_bind; [now apply decode_elems_safe| |intros; apply safe_error]. intros; now apply safe_ret.
    - apply safe_then; [exact SI|]. intros. apply ext_eof_safe. }
  destruct (t_isOptional t); [|exact B].
  eapply safe_bind; [apply safe_never, calm_never, ReadBool_calm| |intros; apply safe_error].
  intros [|] _; [exact B|now apply safe_ret].
Qed.
Lemma Abi_Decode_safe a n k fuel : (k <= 6)%nat -> well_named a n -> safe k any (Abi_Decode fuel a n).
Proof.
  intros K W. destruct (resolved a n W) as (tbl & E & TB & _). unfold Abi_Decode, with_types. rewrite E.
  apply (decodeType_safe a n tbl k K TB). constructor.
Qed.
