(** The binary form of ABI definitions. *)
From Verif Require Import Base Prog AbiPrim BaseProofs SpecWire ProgProofs AbiPrimProofs Chain SpecChain ChainProofs
  Values Leaf SpecLeaf LeafProofs Reflect SpecReflect ReflectProofs SpecTags ReflectTags SpecMirror SpecAbiDef.
From Verif Require AbiDyn.
Import AbiDyn(Abi, AbiType, AbiVariant, AbiField, AbiStruct, AbiAction, AbiTable, AbiClause, AbiExtension, AbiErrorMessage).

(** A value whose wire forms are those of a layout, each read back as the value. *)
Definition carries (E : types) (pl : place) (t : gtype) (v : rval) (P : layout) : Prop :=
  (exists bs, P bs) /\ forall bs, P bs -> exists v', same v v' /\ encoded E pl t v bs v'.
Definition carries_fields (E : types) (fs : list (tag * visibility * gtype)) (l : list rval) (P : layout) : Prop :=
  (exists bs, P bs) /\ forall bs, P bs -> exists l', same_list l l' /\ encoded_fields E fs l bs l'.

Lemma carries_leaf E p : typed_prim p -> bounded_prim p -> wf_keys p -> carries E Slot (TLeaf (kind_of p)) (go p) (prim_layout p).
Proof.
  intros T B K. split; [destruct (leaf_round p T B) as (bs & _ & L & _); eauto|].
  intros bs L. exists (go p). split; [constructor|]. now apply (w_leaf E Slot _ (kind_of p)).
Qed.
Lemma cat_exists P Q : (exists a, P a) -> (exists b, Q b) -> exists bs, (P +++ Q) bs.
Proof. intros [a A] [b B]. exists (a ++ b). exists a, b. auto. Qed.
Lemma carries_one E tg t v P : tg = NoTag \/ tg = Extension -> direct t = true -> carries E Slot t v P -> carries_fields E [(tg, Exported, t)] [v] P.
Proof.
  intros G D [X C]. split; [exact X|]. intros bs H. destruct (C bs H) as (v' & S & W). exists [v'].
  split; [repeat constructor; exact S|]. rewrite <- (app_nil_r bs). constructor; auto. constructor.
Qed.
Lemma carries_cons E t v P fs l Q : direct t = true -> carries E Slot t v P -> carries_fields E fs l Q ->
  carries_fields E (field t :: fs) (v :: l) (P +++ Q).
Proof.
  intros D [X C] [Y F]. split; [now apply cat_exists|]. intros bs (a & b & -> & A & B).
  destruct (C a A) as (v' & S & W). destruct (F b B) as (l' & S' & W'). exists (v' :: l').
  split; [now constructor|]. apply wf_field; auto.
Qed.
Lemma carries_struct E pl fs l P : carries_fields E fs l P -> carries E pl (TStruct fs) (RStruct l) P.
Proof.
  intros [X F]. split; [exact X|]. intros bs H. destruct (F bs H) as (l' & S & W). exists (RStruct l').
  split; [now constructor|]. eapply w_struct; [reflexivity|exact W].
Qed.
Lemma carries_ptr E t v P : carries E Target t v P -> carries E Slot (TPtr t) (RPtr (Some v)) P.
Proof.
  intros [X F]. split; [exact X|]. intros bs H. destruct (F bs H) as (v' & S & W). exists (RPtr (Some v')).
  split; [now constructor|]. eapply w_ptr; [reflexivity|exact W].
Qed.
Lemma zlen_map {A B} (f : A -> B) l : zlen (map f l) = zlen l.
Proof. unfold zlen. now rewrite map_length. Qed.
Lemma varu_exists n : 0 <= n < 2 ^ 28 -> exists bs, varu n bs.
Proof. intros H. destruct (varuint_wire n H) as (bs & _ & A & B & _). exists bs. now split. Qed.
Lemma small_make_ok E t n : small_types E -> 0 <= n < 2 ^ 28 -> make_ok (size_of E t) n = true.
Proof.
  intros M N. specialize (M t). unfold make_ok. apply andb_true_intro. split; [lia|].
  apply Z.leb_le. apply Z.le_trans with (2 ^ 28 * 2 ^ 20); [|apply Z.leb_le; reflexivity].
  apply Z.mul_le_mono_nonneg; lia.
Qed.
Lemma carries_list {A} E t (f : A -> rval) (g : A -> layout) (ok : A -> Prop) l : small_types E -> short_all ok l ->
  (forall x, ok x -> carries E Slot t (f x) (g x)) -> carries E Slot (TSlice t) (list_v f l) (vec_of g l).
Proof.
  intros M [L F] C.
  assert (N : 0 <= zlen l < 2 ^ 28) by (unfold short in L; unfold zlen in *; lia).
  assert (G : (exists bs, seq_of g l bs) /\ forall bs, seq_of g l bs -> exists l', same_list (map f l) l' /\ encoded_list E t (map f l) bs l').
  { clear L N. induction F as [|x l X F [IH1 IH2]]; cbn [seq_of map].
    - split; [now exists []|]. intros bs ->. exists []. split; constructor.
    - destruct (C x X) as [E1 E2]. split; [now apply cat_exists|]. intros bs (a & b & -> & A1 & A2).
      destruct (E2 a A1) as (v' & S & W). destruct (IH2 b A2) as (l' & S' & W'). exists (v' :: l').
      split; constructor; assumption. }
  destruct G as [G1 G2]. split; [apply cat_exists; [now apply varu_exists|exact G1]|].
  intros bs (a & b & -> & A1 & A2). destruct (G2 b A2) as (l' & S & W).
  eexists. split; [|eapply (w_slice E Slot (TSlice t) t); cbn [elems]; rewrite ?zlen_map; [reflexivity|lia|now apply small_make_ok|exact A1|exact W]].
  apply sm_slice. cbn [elems]. destruct l'; exact S.
Qed.

Ltac one := apply carries_one; [now left|reflexivity|].
Ltac next := apply carries_cons; [reflexivity| |].
Lemma carries_string E s : short s -> carries E Slot (TLeaf KString) (str_v s) (bytes_layout s).
Proof. intros H. apply (carries_leaf E (PString s)); [exact I|exact H|exact I]. Qed.
Lemma carries_strings E l : small_types E -> short_all short_string l ->
  carries E Slot (TSlice (TLeaf KString)) (list_v str_v l) (vec_of bytes_layout l).
Proof. intros M H. eapply carries_list; eauto. intros x X. now apply carries_string. Qed.

Lemma early_carries E a : small_types E -> wf_abi_def a -> carries_fields E Abi_early (Abi_early_values a) (abi_early_layout a).
Proof.
  intros M (V & T & S & A & B & C & R & X & _). unfold Abi_early, Abi_early_values, abi_early_layout.
  next; [now apply carries_string|].
  next; [eapply carries_list; eauto; intros x (H1 & H2); apply carries_struct; next; [|one]; now apply carries_string|].
  next.
  { eapply carries_list; eauto. intros x (H1 & H2 & H3). apply carries_struct. next; [now apply carries_string|].
    next; [now apply carries_string|]. one. eapply carries_list; eauto. intros y (Y1 & Y2).
    apply carries_struct. next; [|one]; now apply carries_string. }
  next.
  { eapply carries_list; eauto. intros x (H1 & H2 & H3). apply carries_struct.
    next; [apply (carries_leaf E (PName (AbiDyn.ActName x))); [exact H1|exact I|exact I]|]. next; [|one]; now apply carries_string. }
  next.
  { eapply carries_list; eauto. intros x (H1 & H2 & H3 & H4 & H5). apply carries_struct.
    next; [apply (carries_leaf E (PName (AbiDyn.TName x))); [exact H1|exact I|exact I]|]. next; [now apply carries_string|].
    next; [now apply carries_strings|]. next; [now apply carries_strings|]. one. now apply carries_string. }
  next; [eapply carries_list; eauto; intros x (H1 & H2); apply carries_struct; next; [|one]; now apply carries_string|].
  next.
  { eapply carries_list; eauto. intros x (H1 & H2). apply carries_struct.
    next; [apply (carries_leaf E (PUint64 (AbiDyn.ErrCode x))); [exact H1|exact I|exact I]|]. one. now apply carries_string. }
  one. eapply carries_list; eauto. intros o (x & -> & H1 & H2). apply carries_ptr, carries_struct.
  next; [apply (carries_leaf E (PU16 (AbiDyn.XType x))); [exact H1|exact I|exact I]|]. one.
  apply (carries_leaf E (PBytes (AbiDyn.XData x))); [exact I|exact H2|exact I].
Qed.
Lemma variants_carry E a : small_types E -> wf_abi_def a ->
  carries E Slot (TSlice AbiVariant_struct) (list_v AbiVariant_value (AbiDyn.Variants a)) (vec_of abivariant_layout (AbiDyn.Variants a)).
Proof.
  intros M W. do 8 destruct W as [_ W]. eapply carries_list; eauto. intros x (H1 & H2). apply carries_struct.
  next; [now apply carries_string|]. one. now apply carries_strings.
Qed.
Lemma encoded_fields_app E fs l bs l' : encoded_fields E fs l bs l' -> forall fs2 l2 bs2 l2', encoded_fields E fs2 l2 bs2 l2' ->
  encoded_fields E (fs ++ fs2) (l ++ l2) (bs ++ bs2) (l' ++ l2').
Proof.
  induction 1; intros fs2 l2 bs2 l2' W2; cbn [app]; rewrite <- ?app_assoc; [exact W2|..];
    constructor; auto.
Qed.
Lemma same_list_app l1 l1' l2 l2' : same_list l1 l1' -> same_list l2 l2' -> same_list (l1 ++ l2) (l1' ++ l2').
Proof. induction 1; intros; cbn [app]; [assumption|constructor; auto]. Qed.
Lemma abi_def_carries E a : small_types E -> wf_abi_def a -> carries E Target Abi_struct (Abi_value a) (abi_def_layout a).
Proof.
  intros M W. destruct (early_carries E a M W) as [X F], (variants_carry E a M W) as [Y G].
  apply carries_struct. split; [now apply cat_exists|]. intros bs (b1 & b2 & -> & A1 & A2).
  destruct (F b1 A1) as (l' & S & R). destruct (G b2 A2) as (v' & S' & R'). exists (l' ++ [v']). split.
  - apply same_list_app; [exact S|repeat constructor; exact S'].
  - apply encoded_fields_app; [exact R|]. rewrite <- (app_nil_r b2). apply wf_field; [now right|reflexivity|exact R'|constructor].
Qed.
Lemma abi_def_round_trip E a : small_types E -> wf_abi_def a ->
  (exists bs, abi_def_layout a bs) /\ forall bs, abi_def_layout a bs ->
    writes (Encode E Abi_struct (Abi_value a)) bs
    /\ exists v, same (Abi_value a) v /\ decodes_whatever_follows E Abi_struct bs v.
Proof.
  intros M W. destruct (abi_def_carries E a M W) as [X C]. split; [exact X|]. intros bs L.
  destruct (C bs L) as (v & S & R). split; [exact (proj1 (encoded_writes E) _ _ _ _ _ R)|].
  exists v. split; [exact S|]. destruct (proj1 (encoded_reads E) _ _ _ _ _ R) as [F H]. exists F. exact H.
Qed.
Lemma abi_def_early E a bs : small_types E -> wf_abi_def a -> abi_early_layout a bs ->
  exists v, same (Abi_value (without_variants a)) v /\
    exists F, forall fuel, (F <= fuel)%nat -> forall strict,
      run {| r_end := EOF; r_strict := strict |} (Decode fuel E Abi_struct (zero E Abi_struct)) bs = Done (v, None) [].
Proof.
  intros M W L. destruct (early_carries E a M W) as [_ C]. destruct (C bs L) as (l' & S & R).
  exists (RStruct (l' ++ [RSlice None])). split.
  - constructor. apply same_list_app; [exact S|]. constructor; [|constructor]. apply sm_slice. constructor.
  - destruct (extensions_absent E Abi_struct Abi_early _ bs l' [TSlice AbiVariant_struct] R eq_refl) as [F H].
    + constructor; [|constructor]. split; [eapply ni_slice; reflexivity|]. now apply plain_supported_at.
    + exists F. intros fuel LE strict. specialize (H fuel LE [RSlice None] strict). apply H.
      constructor; [|constructor]. eapply ht_nil_slice. reflexivity.
Qed.

(** ** The Go value determines the definition *)
Definition told_apart {A} (f : A -> rval) : Prop := forall x y v, same (f x) v -> same (f y) v -> x = y.
Lemma apart_list {A} (f : A -> rval) : told_apart f -> told_apart (list_v f).
Proof.
  intros T x y v H1 H2. inversion H1; subst. inversion H2; subst. cbn [elems] in *.
  match goal with A : same_list (map f x) ?L, B : same_list (map f y) ?L |- _ => revert A B; generalize L end.
  clear - T. revert y. induction x as [|a x IH]; intros [|b y] L H1 H2; inversion H1; subst; inversion H2; subst; [reflexivity|].
  f_equal; [eapply T; eassumption|eapply IH; eassumption].
Qed.
Lemma apart_str : told_apart str_v.
Proof. intros x y v A B. inversion A; subst. inversion B; subst. reflexivity. Qed.
Lemma apart_go {A} (c : A -> prim) : (forall x y, c x = c y -> x = y) -> told_apart (fun x => go (c x)).
Proof. intros I x y v H1 H2. inversion H1; subst. inversion H2; subst. apply I. congruence. Qed.
Ltac fields_of H := inversion H; clear H; subst.
Ltac peel := repeat match goal with H : same (RStruct _) _ |- _ => fields_of H | H : same_list (_ :: _) _ |- _ => fields_of H | H : same_list [] _ |- _ => fields_of H end.
Lemma apart_abi : told_apart Abi_value.
Proof.
  pose proof (apart_list _ apart_str) as STRS.
  assert (NM : told_apart (fun x => go (PName x))) by (apply apart_go; congruence).
  assert (UN : told_apart (fun x => go (PUint64 x))) by (apply apart_go; congruence).
  assert (T1 : told_apart AbiType_value).
  { intros [x1 x2] [y1 y2] v A B. unfold AbiType_value in A, B. peel. cbn in *. f_equal; eapply apart_str; eassumption. }
  assert (T2 : told_apart AbiVariant_value).
  { intros [x1 x2] [y1 y2] v A B. unfold AbiVariant_value in A, B. peel. cbn in *. f_equal; [eapply apart_str|eapply STRS]; eassumption. }
  assert (T3 : told_apart AbiField_value).
  { intros [x1 x2] [y1 y2] v A B. unfold AbiField_value in A, B. peel. cbn in *. f_equal; eapply apart_str; eassumption. }
  assert (T4 : told_apart AbiStruct_value).
  { intros [x1 x2 x3] [y1 y2 y3] v A B. unfold AbiStruct_value in A, B. peel. cbn in *. f_equal; [eapply apart_str|eapply apart_str|eapply (apart_list _ T3)]; eassumption. }
  assert (T5 : told_apart AbiAction_value).
  { intros [x1 x2 x3] [y1 y2 y3] v A B. unfold AbiAction_value in A, B. peel. cbn in *. f_equal; [eapply NM|eapply apart_str|eapply apart_str]; eassumption. }
  assert (T6 : told_apart AbiTable_value).
  { intros [x1 x2 x3 x4 x5] [y1 y2 y3 y4 y5] v A B. unfold AbiTable_value in A, B. peel. cbn in *.
    f_equal; [eapply NM|eapply apart_str|eapply STRS|eapply STRS|eapply apart_str]; eassumption. }
  assert (T7 : told_apart AbiClause_value).
  { intros [x1 x2] [y1 y2] v A B. unfold AbiClause_value in A, B. peel. cbn in *. f_equal; eapply apart_str; eassumption. }
  assert (T8 : told_apart AbiErrorMessage_value).
  { intros [x1 x2] [y1 y2] v A B. unfold AbiErrorMessage_value in A, B. peel. cbn in *. f_equal; [eapply UN|eapply apart_str]; eassumption. }
  assert (T9 : told_apart AbiExtension_value).
  { intros [[x1 x2]|] [[y1 y2]|] v A B; inversion A; subst; inversion B; subst; try reflexivity. peel. cbn in *.
    repeat f_equal; [eapply (apart_go PU16)|eapply (apart_go PBytes)]; try eassumption; congruence. }
  intros [x1 x2 x3 x4 x5 x6 x7 x8 x9] [y1 y2 y3 y4 y5 y6 y7 y8 y9] v A B. unfold Abi_value, Abi_early_values in *. cbn [app] in *. peel. cbn [AbiDyn.Version AbiDyn.Types AbiDyn.Structs AbiDyn.AbiActions AbiDyn.Tables AbiDyn.Clauses AbiDyn.ErrorMessages AbiDyn.AbiExtensions AbiDyn.Variants] in *.
  f_equal; [eapply apart_str|eapply (apart_list _ T1)|eapply (apart_list _ T4)|eapply (apart_list _ T5)|eapply (apart_list _ T6)
    |eapply (apart_list _ T7)|eapply (apart_list _ T8)|eapply (apart_list _ T9)|eapply (apart_list _ T2)]; eassumption.
Qed.

(** ** A nil extension cannot be written *)
Lemma encoded_no_nil E t l bs l' : encoded_list E t l bs l' -> ~ In (RPtr None) l.
Proof. induction 1 as [|t v l b bs v' l' W L IH]; [intros []|]. intros [H|H]; [subst v; inversion W|auto]. Qed.
Lemma nil_extension E a out full : In None (AbiDyn.AbiExtensions a) ->
  has_type E sound_leaf Abi_struct (Abi_value a) -> runw (Encode E Abi_struct (Abi_value a)) out <> WDone None full.
Proof.
  intros H T R. destruct (round_trip E Abi_struct (Abi_value a) out full) as (bs & v' & _ & _ & W & _);
    [now apply plain_supported|exact T|exact R|].
  assert (G : forall fs l bs l', encoded_fields E fs l bs l' -> forall i t v, nth_error fs i = Some (field t) ->
            nth_error l i = Some v -> exists b w, encoded E Slot t v b w).
  { clear. induction 1; intros [|i] s x A B; cbn [nth_error] in A, B; try discriminate A; try (eapply IHencoded_fields; eassumption);
      injection A as A; injection B as B; try discriminate A; subst; try congruence; eauto.
    all: injection A as -> ->; eauto. }
  inversion W; subst. match goal with H : head E _ = _ |- _ => injection H as <- end.
  match goal with H : encoded_fields _ _ _ _ _ |- _ =>
    destruct (G _ _ _ _ H 7%nat (TSlice (TPtr AbiExtension_struct)) (list_v AbiExtension_value (AbiDyn.AbiExtensions a)) eq_refl eq_refl) as (b & w & X) end.
  inversion X; subst. match goal with H : encoded_list _ _ _ _ _ |- _ => apply encoded_no_nil in H; apply H end.
  cbn [elems]. apply in_map_iff. exists None. split; [reflexivity|exact H].
Qed.
