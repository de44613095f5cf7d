(** When encoding panics. *)
From Verif Require Import Base Prog AbiPrim BaseProofs SpecWire ProgProofs AbiPrimProofs Chain SpecChain ChainProofs
  Values Leaf SpecLeaf LeafProofs Reflect SpecReflect ReflectProofs ReflectTags SpecPanics.
From Verif Require Import AbiDyn SpecAbi AbiResolveProofs AbiCodecProofs AbiTermProofs AbiApiProofs.

(** ** Programs that do not panic *)
Inductive np {A} (fuel : bool) : enc A -> Prop :=
| np_ret a : np fuel (ERet a)
| np_fuel : fuel = true -> np fuel EFuel
| np_write bs k : (forall e, np fuel (k e)) -> np fuel (EWrite bs k).
Lemma np_bind {A B} b (p : enc A) (f : A -> enc B) : np b p -> (forall a, np b (f a)) -> np b (ebind p f).
Proof. intros H F. induction H as [a|E|bs k H IH]; cbn [ebind]; [apply F|now constructor|constructor; exact IH]. Qed.
Lemma np_etry b p q : np b p -> np b q -> np b (etry p q).
Proof. intros H F. apply np_bind; [exact H|]. intros [e|]; [constructor|exact F]. Qed.
Lemma np_never {A} b (p : enc A) : np b p -> never_panics_w p.
Proof.
  intros H o. induction H as [a|E|bs k H IH]; intros i out m out'; cbn [runf]; try discriminate.
  destruct (o i) as [[n e]|]; apply IH.
Qed.
Lemma runf_later {A} (p : enc A) : forall o o' i out, (forall j, (i <= j)%nat -> o j = o' j) -> runf o i p out = runf o' i p out.
Proof.
  induction p as [a|m| |bs k IH]; intros o o' i out H; cbn [runf]; try reflexivity.
  rewrite <- (H i) by lia. destruct (o i) as [[n e]|]; apply IH; intros j J; apply H; lia.
Qed.
Lemma never_np {A} (p : enc A) : never_panics_w p -> np true p.
Proof.
  induction p as [a|m| |bs k IH]; intros H.
  - constructor.
  - now elim (H (fun _ => None) 0%nat [] m []).
  - now constructor.
  - constructor. intros e. apply IH. intros o i out m out' R.
    assert (C : forall o i out j out2, runf o i (k e) out = WCrash m out' -> exists out'', runf (fun n => o (n - j + i)%nat) j (k e) out2 = WCrash m out'').
    { clear. intros o i out j out2. generalize (k e) as q. clear. intros q. revert o i out j out2 out'.
      induction q as [a|m0| |bs k IH]; intros o i out j out2 out' R; cbn [runf] in *; try discriminate.
      - injection R as -> _. eauto.
      - replace (j - j + i)%nat with i by lia. destruct (o i) as [[n e]|].
        + destruct (IH _ _ _ _ (S j) (out2 ++ firstn n bs) _ R) as (w & W). exists w. rewrite <- W. apply runf_later. intros x X. f_equal. lia.
        + destruct (IH _ _ _ _ (S j) (out2 ++ bs) _ R) as (w & W). exists w. rewrite <- W. apply runf_later. intros x X. f_equal. lia. }
    pose (q := fun n => match n with O => match e with None => None | Some e => Some (O, e) end | S n => o (S n - 1 + i)%nat end).
    destruct e as [e|].
    + destruct (C o i out 1%nat ([] ++ firstn 0 bs) R) as (w & W). apply (H q 0%nat [] m w). cbn [runf q]. rewrite <- W.
      apply runf_later. intros j J. destruct j; [lia|reflexivity].
    + destruct (C o i out 1%nat ([] ++ bs) R) as (w & W). apply (H q 0%nat [] m w). cbn [runf q]. rewrite <- W.
      apply runf_later. intros j J. destruct j; [lia|reflexivity].
Qed.
Lemma np_runw {A} b (p : enc A) : np b p -> forall out, match runw p out with WCrash _ _ => False | WDiverged => b = true | _ => True end.
Proof. intros H. induction H as [a|E|bs k H IH]; intros out; cbn [runw]; auto. apply IH. Qed.

Lemma np_bytes b bs : np b (WriteBytes bs).
Proof. constructor. intros. constructor. Qed.
Lemma np_byte b v : np b (WriteByte v).
Proof. constructor. intros. constructor. Qed.
Lemma np_bool b v : np b (WriteBool v).
Proof. destruct v; apply np_byte. Qed.
Lemma np_varuint b v : 0 <= v < 2 ^ 28 -> np b (WriteVaruint v).
Proof.
  intros H. unfold WriteVaruint. destruct (PutUvarint_some 4 v) as (bs & -> & _); [exact H|congruence|]. apply np_bytes.
Qed.
Lemma np_varint b v : - 2 ^ 27 <= v < 2 ^ 27 -> np b (WriteVarint v).
Proof.
  intros H. destruct (varint_panics_iff v ltac:(lia)) as [P _]. unfold WriteVarint in *. destruct (GoVarint.PutVarint 4 v); [apply np_bytes|].
  exfalso. apply P; [|exact H]. intros out. now exists "index out of range"%string, out.
Qed.
Lemma np_sized b s : short s -> np b (WriteString s).
Proof. intros H. apply np_etry; [apply np_varuint; unfold short in H; pose proof (zlen_nonneg s); lia|apply np_bytes]. Qed.
Lemma np_name b v : np b (Name_MarshalABI v).
Proof. apply np_bytes. Qed.
Lemma np_permission b p : np b (PermissionLevel_MarshalABI p).
Proof. apply np_bind; [apply np_name|intros; apply np_name]. Qed.
Lemma np_auths b k : np b k -> forall l, np b (write_auths l k).
Proof. intros K. induction l as [|p l IH]; cbn [write_auths]; [exact K|]. apply np_etry; [apply np_permission|exact IH]. Qed.
Lemma np_action b a : wf_action a -> np b (Action_MarshalABI a).
Proof.
  intros (_ & _ & L & _ & D). unfold Action_MarshalABI. apply np_bind; [apply np_name|]. intros _. apply np_bind; [apply np_name|]. intros _.
  apply np_etry; [apply np_varuint; unfold short in L; pose proof (zlen_nonneg (Authorization a)); lia|].
  apply np_auths. now apply np_sized.
Qed.
Lemma np_header b h : wf_header h -> np b (TransactionHeader_MarshalABI h).
Proof.
  intros (_ & _ & _ & M & _ & D). unfold TransactionHeader_MarshalABI, in_u in *.
  repeat (apply np_etry; [first [apply np_bytes | apply np_byte | now apply np_varuint]|]). now apply np_varuint.
Qed.
Lemma np_extension b e : wf_extension e -> np b (TransactionExtension_MarshalABI e).
Proof. intros (_ & D). apply np_etry; [apply np_bytes|now apply np_sized]. Qed.
Lemma np_all {A} b (P : A -> Prop) f k : (forall x, P x -> np b (f x)) -> np b k -> forall l, Forall P l -> np b (write_all f l k).
Proof. intros F K l H. induction H as [|x l Hx H IH]; cbn [write_all]; [exact K|]. apply np_etry; [now apply F|exact IH]. Qed.
Lemma np_count {A} b (l : list A) : short l -> np b (WriteVaruint (zlen l)).
Proof. intros H. apply np_varuint. unfold short in H. pose proof (zlen_nonneg l). lia. Qed.
Lemma np_transaction b t : wf_transaction t -> np b (Transaction_MarshalABI t).
Proof.
  intros (H & C & FC & A & FA & X & FX). unfold Transaction_MarshalABI. apply np_etry; [now apply np_header|].
  apply np_etry; [now apply np_count|]. eapply np_all; [apply np_action| |exact FC].
  apply np_etry; [now apply np_count|]. eapply np_all; [apply np_action| |exact FA].
  apply np_etry; [now apply np_count|]. eapply np_all; [apply np_extension|constructor|exact FX].
Qed.
Lemma np_prim b p : typed_prim p -> bounded_prim p -> np b (write_prim p).
Proof.
  intros T B. destruct p; cbn [write_prim typed_prim bounded_prim] in *;
    lazymatch goal with
    | |- np _ (WriteBool _) => apply np_bool
    | |- np _ (WriteString _) => now apply np_sized
    | |- np _ (EncodeByteSlice _) => now apply np_sized
    | |- np _ (Bytes_MarshalABI _) => now apply np_sized
    | |- np _ (WriteVarint _) => now apply np_varint
    | |- np _ (WriteVaruint _) => apply np_varuint; unfold in_u in T; lia
    | |- np _ (Action_MarshalABI _) => now apply np_action
    | |- np _ (Transaction_MarshalABI _) => now apply np_transaction
    | |- np _ (TransactionExtension_MarshalABI _) => now apply np_extension
    | |- np _ (TransactionHeader_MarshalABI _) => now apply np_header
    | |- np _ (PermissionLevel_MarshalABI _) => apply np_permission
    | |- _ => idtac
    end.
  all: try (apply np_bytes). all: try (apply np_byte).
  all: repeat (apply np_etry; [first [apply np_bytes|apply np_byte|idtac]|]). all: try (apply np_bytes).
Qed.

(** ** Encode *)
Lemma np_marshal b p : typed_prim p -> bounded_prim p -> np b (marshal p).
Proof.
  intros T B. destruct p; cbn [marshal]; try (now apply np_prim).
  apply np_etry; [|apply np_name]. apply np_etry; apply np_bytes.
Qed.
Lemma np_hooked b k p z rest : typed_prim p -> bounded_prim p -> np b rest -> np b (hooked chain_encoder (TLeaf k) (RLeaf p z) rest).
Proof.
  intros T B R. unfold hooked. apply np_bind with (f := fun r => match r with (true, err) => ERet err | (false, Some e) => ERet (Some e) | (false, None) => rest end).
  - cbn [chain_encoder]. destruct (table_kind k); [|constructor]. apply np_bind; [now apply np_prim|]. intros. constructor.
  - intros [[|] [e|]]; try constructor. exact R.
Qed.
Lemma np_leaf b p : typed_prim p -> bounded_prim p -> np b (encode_leaf chain_encoder p).
Proof.
  intros T B. destruct p; cbn [encode_leaf]; try (now apply np_prim). destruct T as [T1 T2].
  apply np_etry; apply np_hooked; try exact I; try assumption; apply np_prim; try exact I; assumption.
Qed.
Lemma bounded_dec p : bounded_prim p \/ ~ bounded_prim p.
Proof.
  assert (S : forall A (l : list A), short l \/ ~ short l) by (intros; unfold short; lia).
  assert (U : forall n v, in_u n v \/ ~ in_u n v) by (intros; unfold in_u; lia).
  assert (AND : forall P Q : Prop, P \/ ~ P -> Q \/ ~ Q -> (P /\ Q) \/ ~ (P /\ Q)) by tauto.
  assert (FA : forall A (P : A -> Prop) l, (forall x, P x \/ ~ P x) -> Forall P l \/ ~ Forall P l).
  { intros A P l D. induction l as [|x l IH]; [left; constructor|]. destruct (D x) as [X|X]; [|right; intros F; now inversion F].
    destruct IH as [F|F]; [left; now constructor|right; intros G; inversion G; contradiction]. }
  assert (AC : forall a, wf_action a \/ ~ wf_action a).
  { intros a. unfold wf_action. repeat (apply AND; auto). apply FA. intros x. unfold wf_permission. auto. }
  assert (HD : forall a, wf_header a \/ ~ wf_header a) by (intros a; unfold wf_header; repeat (apply AND; auto)).
  assert (EX : forall a, wf_extension a \/ ~ wf_extension a) by (intros a; unfold wf_extension; auto).
  destruct p; cbn [bounded_prim]; auto; try lia. unfold wf_transaction. repeat (apply AND; auto).
Qed.
Lemma not_holds_here E P t v : ~ holds E P t v -> ~ P t v.
Proof. intros H X. apply H. now constructor. Qed.
Lemma encode_np E b : b = true -> predictable E ->
  (forall t v, has_type E any_leaf t v -> ~ holds E (panic_cause E) t v -> np b (Encode E t v))
  /\ (forall t l, have_type E any_leaf t l -> (forall v, In v l -> ~ holds E (panic_cause E) t v) -> np b (put_list (Encode E t) l))
  /\ (forall kt vt m, have_pair_type E any_leaf kt vt m ->
     (forall k v, In (k, v) m -> ~ holds E (panic_cause E) kt k /\ ~ holds E (panic_cause E) vt v) ->
     np b (put_pairs (Encode E kt) (Encode E vt) m))
  /\ (forall fs l, have_field_types E any_leaf fs l ->
     (forall i tg vis t v, nth_error fs i = Some (tg, vis, t) -> nth_error l i = Some v -> written tg v ->
        vis = Exported /\ ~ holds E (panic_cause E) t v) ->
     np b (put_fields E chain_encoder fs l)).
Proof.
  intros BT PR. apply has_type_all.
  - intros t k p z H K _ T N. apply not_holds_here in N. unfold panic_cause in N. rewrite H in N.
    unfold Encode. cbn [encode]. rewrite H. destruct (bounded_dec p) as [B|B]; [|contradiction].
    apply np_hooked; [assumption..|]. now apply np_leaf.
  - intros t k v H R N. rewrite (Encode_int _ _ _ _ H). destruct k; apply np_bytes.
  - intros t z H N. open_encode H. constructor.
  - intros t t' H N. apply not_holds_here in N. unfold panic_cause in N. rewrite H in N. open_encode H.
    destruct (head E t') eqn:H'; try constructor; [|exfalso; apply N; right; now eauto].
    destruct (go_kind k) eqn:G; [constructor|]. exfalso. apply N. left. exists k. auto.
  - intros t t' v H Hv IH N. assert (N' : ~ holds E (panic_cause E) t' v) by (intros X; apply N; eapply ho_ptr; eassumption).
    specialize (IH N'). unfold Encode in *. cbn [encode]. rewrite H. unfold hooked. cbn [chain_encoder ebind].
    destruct (head E t') as [k|k| |u|u|n u|ku vu|fs|i u|i] eqn:H'; try exact IH.
    2: { inversion Hv; subst; try congruence. cbn [encode] in IH. rewrite H' in IH. exact IH. }
    destruct (go_kind k); [exact IH|]. inversion Hv as [? k' p z H2 K ZF T| | | | | | | | | | |]; subst; try congruence.
    apply np_marshal; [exact T|]. apply not_holds_here in N'. unfold panic_cause in N'. rewrite H' in N'.
    destruct (bounded_dec p); [assumption|contradiction].
  - intros t t' H N. rewrite (Encode_slice _ _ _ _ H). apply np_etry; [apply (np_count b (@nil rval)); reflexivity|constructor].
  - intros t t' l H Hl IH M N. rewrite (Encode_slice _ _ _ _ H). apply np_etry.
    + apply np_count. apply not_holds_here in N. unfold panic_cause in N. rewrite H in N. cbn [elems]. unfold short in *. lia.
    + apply IH. intros v V X. apply N. eapply ho_slice; eassumption.
  - intros t t' n l H Hl IH L N. rewrite (Encode_array _ _ _ _ _ H). apply IH. intros v V X. apply N. eapply ho_array; eassumption.
  - intros t kt vt H N. rewrite (Encode_map _ _ _ _ _ H). apply np_etry; [apply (np_count b (@nil rval)); reflexivity|constructor].
  - intros t kt vt m H C Hm IH ND N. rewrite (Encode_map _ _ _ _ _ H). apply np_etry.
    + apply np_count. apply not_holds_here in N. unfold panic_cause in N. rewrite H in N. cbn [elems]. unfold short in *. lia.
    + apply IH. intros k v V. split; intros X; apply N; [eapply ho_key|eapply ho_value]; eassumption.
  - intros t fs l H Hl IH N. rewrite (Encode_struct _ _ _ _ H). apply IH. intros i tg vis t' v F V W. split.
    + apply not_holds_here in N. unfold panic_cause in N. rewrite H in N. destruct vis; [reflexivity|..]; exfalso; apply N; repeat eexists; try eassumption; discriminate.
    + intros X. apply N. eapply ho_field; eassumption.
  - intros t i u v H Hv IH N. rewrite (Encode_user _ _ _ _ _ H). apply not_holds_here in N. unfold panic_cause in N. rewrite H in N.
    subst b. apply never_np. destruct (PR i v) as [[W|W] _]; [contradiction|exact W].
  - intros. constructor.
  - intros t v l Hv IH1 Hl IH2 N. cbn [put_list]. apply np_etry; [apply IH1, N; now left|]. apply IH2. intros x X. apply N. now right.
  - intros. constructor.
  - intros kt vt k v m Hk IHk Hv IHv Hm IHm N. cbn [put_pairs]. destruct (N k v ltac:(now left)) as [N1 N2].
    apply np_etry; [now apply IHk|]. apply np_etry; [now apply IHv|]. apply IHm. intros k' v' I. apply N. now right.
  - intros. constructor.
  - intros tg vis t fs v l Hv IH1 Hl IH2 N. rewrite put_cons. cbv zeta.
    assert (R : np b (put_fields E chain_encoder fs l)) by (apply IH2; intros i; apply (N (S i))).
    assert (F : written tg v -> np b (etry match vis with Exported => encode E chain_encoder t v
        | _ => EPanic "cannot return value obtained from unexported field" end (put_fields E chain_encoder fs l))).
    { intros W. destruct (N O tg vis t v eq_refl eq_refl W) as [-> N1]. apply np_etry; [now apply IH1|exact R]. }
    destruct tg; try (apply F; intros C; discriminate C).
    apply np_bind; [apply np_bool|]. intros _. destruct (is_zero v) eqn:Z; [exact R|]. apply F. intros _. exact Z.
Qed.

(** ** Errors with a working writer *)
Definition quiet (p : wr) : Prop := forall out e full, runw p out <> WDone (Some e) full.
Lemma quiet_etry p q : quiet p -> quiet q -> quiet (etry p q).
Proof.
  intros P Q out e full. rewrite runw_etry. destruct (runw p out) as [[e'|] o|m o|] eqn:R; try discriminate.
  - now apply P in R.
  - apply Q.
Qed.
Lemma quiet_bind (p : wr) f : (forall e, quiet (f e)) -> quiet (ebind p f).
Proof. intros F out e full. rewrite runw_ebind. destruct (runw p out); try discriminate. apply F. Qed.
Lemma quiet_eq p q : (forall out, runw p out = runw q out) -> quiet q -> quiet p.
Proof. intros E Q out e full. rewrite E. apply Q. Qed.
Lemma quiet_ret : quiet (ERet None).
Proof. discriminate. Qed.
Lemma quiet_bytes bs : quiet (WriteBytes bs).
Proof. discriminate. Qed.
Lemma quiet_varuint v : quiet (WriteVaruint v).
Proof. intros out e full. unfold WriteVaruint. destruct (GoVarint.PutUvarint 4 v); discriminate. Qed.
Lemma quiet_varint v : quiet (WriteVarint v).
Proof. intros out e full. unfold WriteVarint. destruct (GoVarint.PutVarint 4 v); discriminate. Qed.
Lemma quiet_sized b : quiet (Bytes_MarshalABI b).
Proof. apply quiet_etry; [apply quiet_varuint|apply quiet_bytes]. Qed.
Lemma quiet_permission p : quiet (PermissionLevel_MarshalABI p).
Proof. apply quiet_bind. intros. apply quiet_bytes. Qed.
Lemma quiet_action a : quiet (Action_MarshalABI a).
Proof.
  apply quiet_bind. intros _. apply quiet_bind. intros _. apply quiet_etry; [apply quiet_varuint|].
  induction (Authorization a) as [|p l IH]; cbn [write_auths]; [apply quiet_sized|]. apply quiet_etry; [apply quiet_permission|exact IH].
Qed.
Lemma quiet_header h : quiet (TransactionHeader_MarshalABI h).
Proof. repeat apply quiet_etry; first [apply quiet_varuint|apply quiet_bytes]. Qed.
Lemma quiet_extension x : quiet (TransactionExtension_MarshalABI x).
Proof. apply quiet_etry; [apply quiet_bytes|apply quiet_sized]. Qed.
Lemma quiet_all {A} (f : A -> wr) k : (forall x, quiet (f x)) -> quiet k -> forall l, quiet (write_all f l k).
Proof. intros F K. induction l; cbn [write_all]; [exact K|]. now apply quiet_etry. Qed.
Lemma quiet_transaction t : quiet (Transaction_MarshalABI t).
Proof.
  unfold Transaction_MarshalABI. apply quiet_etry; [apply quiet_header|].
  apply quiet_etry; [apply quiet_varuint|]. apply quiet_all; [apply quiet_action|].
  apply quiet_etry; [apply quiet_varuint|]. apply quiet_all; [apply quiet_action|].
  apply quiet_etry; [apply quiet_varuint|]. apply quiet_all; [apply quiet_extension|apply quiet_ret].
Qed.
Lemma quiet_prim p : quiet (write_prim p).
Proof.
  destruct p; cbn [write_prim];
    lazymatch goal with
    | |- quiet (WriteString _) => apply quiet_sized
    | |- quiet (EncodeByteSlice _) => apply quiet_sized
    | |- quiet (Bytes_MarshalABI _) => apply quiet_sized
    | |- quiet (WriteVarint _) => apply quiet_varint
    | |- quiet (WriteVaruint _) => apply quiet_varuint
    | |- quiet (Action_MarshalABI _) => apply quiet_action
    | |- quiet (Transaction_MarshalABI _) => apply quiet_transaction
    | |- quiet (TransactionExtension_MarshalABI _) => apply quiet_extension
    | |- quiet (TransactionHeader_MarshalABI _) => apply quiet_header
    | |- quiet (PermissionLevel_MarshalABI _) => apply quiet_permission
    | |- quiet (etry _ _) => apply quiet_etry
    | |- _ => idtac
    end; try (intros out er full; discriminate).
  all: intros out er full; rewrite ?runw_etry; try discriminate. destruct b; discriminate.
Qed.
Lemma encode_quiet E :
  (forall t v, has_type E any_leaf t v -> ~ holds E (error_cause E) t v -> quiet (Encode E t v))
  /\ (forall t l, have_type E any_leaf t l -> (forall v, In v l -> ~ holds E (error_cause E) t v) -> quiet (put_list (Encode E t) l))
  /\ (forall kt vt m, have_pair_type E any_leaf kt vt m ->
     (forall k v, In (k, v) m -> ~ holds E (error_cause E) kt k /\ ~ holds E (error_cause E) vt v) ->
     quiet (put_pairs (Encode E kt) (Encode E vt) m))
  /\ (forall fs l, have_field_types E any_leaf fs l ->
     (forall i tg vis t v, nth_error fs i = Some (tg, vis, t) -> nth_error l i = Some v -> written tg v ->
        ~ holds E (error_cause E) t v) ->
     quiet (put_fields E chain_encoder fs l)).
Proof.
  apply has_type_all.
  - intros t k p z H K _ T N. eapply quiet_eq; [apply (Encode_leaf _ _ _ _ _ H K)|apply quiet_prim].
  - intros t k v H R N. rewrite (Encode_int _ _ _ _ H). destruct k; apply quiet_bytes.
  - intros t z H N. apply not_holds_here in N. unfold error_cause in N. rewrite H in N. now destruct N.
  - intros t t' H N. apply not_holds_here in N. unfold error_cause in N. rewrite H in N. open_encode H.
    destruct (head E t') eqn:H'; try (exfalso; apply N; split; discriminate); [|discriminate]. destruct (go_kind k) eqn:G; [|discriminate].
    exfalso. apply N. split; [intros k' Q|intros i u Q]; congruence.
  - intros t t' v H Hv IH N. eapply quiet_eq; [apply (Encode_ptr _ _ _ _ H); eapply has_type_leaf_shaped; eassumption|].
    apply IH. intros X. apply N. eapply ho_ptr; eassumption.
  - intros t t' H N. rewrite (Encode_slice _ _ _ _ H). apply quiet_etry; [apply quiet_varuint|apply quiet_ret].
  - intros t t' l H Hl IH M N. rewrite (Encode_slice _ _ _ _ H). apply quiet_etry; [apply quiet_varuint|].
    apply IH. intros v V X. apply N. eapply ho_slice; eassumption.
  - intros t t' n l H Hl IH L N. rewrite (Encode_array _ _ _ _ _ H). apply IH. intros v V X. apply N. eapply ho_array; eassumption.
  - intros t kt vt H N. rewrite (Encode_map _ _ _ _ _ H). apply quiet_etry; [apply quiet_varuint|apply quiet_ret].
  - intros t kt vt m H C Hm IH ND N. rewrite (Encode_map _ _ _ _ _ H). apply quiet_etry; [apply quiet_varuint|].
    apply IH. intros k v V. split; intros X; apply N; [eapply ho_key|eapply ho_value]; eassumption.
  - intros t fs l H Hl IH N. rewrite (Encode_struct _ _ _ _ H). apply IH. intros i tg vis t' v F V W X.
    apply N. eapply ho_field; eassumption.
  - intros t i u v H Hv IH N. rewrite (Encode_user _ _ _ _ _ H). apply not_holds_here in N. unfold error_cause in N. rewrite H in N.
    intros out e full R. apply N. eauto.
  - intros. apply quiet_ret.
  - intros t v l Hv IH1 Hl IH2 N. cbn [put_list]. apply quiet_etry; [apply IH1, N; now left|]. apply IH2. intros x X. apply N. now right.
  - intros. apply quiet_ret.
  - intros kt vt k v m Hk IHk Hv IHv Hm IHm N. cbn [put_pairs]. destruct (N k v ltac:(now left)) as [N1 N2].
    apply quiet_etry; [now apply IHk|]. apply quiet_etry; [now apply IHv|]. apply IHm. intros k' v' I. apply N. now right.
  - intros. apply quiet_ret.
  - intros tg vis t fs v l Hv IH1 Hl IH2 N. rewrite put_cons. cbv zeta.
    assert (R : quiet (put_fields E chain_encoder fs l)) by (apply IH2; intros i; apply (N (S i))).
    assert (F : written tg v -> quiet (etry match vis with Exported => encode E chain_encoder t v
        | _ => EPanic "cannot return value obtained from unexported field" end (put_fields E chain_encoder fs l))).
    { intros W. pose proof (N O tg vis t v eq_refl eq_refl W) as N1. apply quiet_etry; [|exact R].
      destruct vis; [now apply IH1|intros ? ? ?; discriminate..]. }
    destruct tg; try (apply F; intros C; discriminate C).
    apply quiet_bind. intros _. destruct (is_zero v) eqn:Z; [exact R|]. apply F. intros _. exact Z.
Qed.

(** ** Success leaves no cause *)
Lemma count_done {A} (l : list A) out full : runw (WriteVaruint (zlen l)) out = WDone None full -> short l.
Proof. intros H. apply Varuint_done in H. unfold short. lia. Qed.
Lemma encode_exact E :
  (forall t v, has_type E any_leaf t v -> forall out full, runw (Encode E t v) out = WDone None full -> ~ holds E (cause E) t v)
  /\ (forall t l, have_type E any_leaf t l -> forall out full, runw (put_list (Encode E t) l) out = WDone None full ->
     forall v, In v l -> ~ holds E (cause E) t v)
  /\ (forall kt vt m, have_pair_type E any_leaf kt vt m -> forall out full, runw (put_pairs (Encode E kt) (Encode E vt) m) out = WDone None full ->
     forall k v, In (k, v) m -> ~ holds E (cause E) kt k /\ ~ holds E (cause E) vt v)
  /\ (forall fs l, have_field_types E any_leaf fs l -> forall out full, runw (put_fields E chain_encoder fs l) out = WDone None full ->
     forall i tg vis t v, nth_error fs i = Some (tg, vis, t) -> nth_error l i = Some v -> written tg v ->
        vis = Exported /\ ~ holds E (cause E) t v).
Proof.
  apply has_type_all.
  - intros t k p z H K _ T out full R X. rewrite (Encode_leaf _ _ _ _ _ H K) in R. apply leaf_done in R; [|exact T].
    inversion X as [? ? [C|C]| | | | | | ]; subst; unfold panic_cause, error_cause in C; rewrite H in C; contradiction.
  - intros t k v H R out full D X. inversion X as [? ? [C|C]| | | | | | ]; subst; unfold panic_cause, error_cause in C; now rewrite H in C.
  - intros t z H out full D. exfalso. revert D. open_encode H. discriminate.
  - intros t t' H out full D. exfalso. exact (Encode_nil _ _ _ H _ _ D).
  - intros t t' v H Hv IH out full D X. rewrite (Encode_ptr _ _ _ _ H) in D by (eapply has_type_leaf_shaped; eassumption).
    inversion X as [? ? [C|C]|? t2 v2 H2 X2| | | | | ]; subst; try (unfold panic_cause, error_cause in C; now rewrite H in C).
    assert (t2 = t') by congruence. subst. exact (IH _ _ D X2).
  - intros t t' H out full D X. inversion X as [? ? [C|C]| | | | | | ]; subst; unfold panic_cause, error_cause in C; now rewrite H in C.
  - intros t t' l H Hl IH M out full D X. rewrite (Encode_slice _ _ _ _ H) in D. apply runw_etry_done in D as (mid & D1 & D2).
    cbn [elems] in *. apply count_done in D1.
    inversion X as [? ? [C|C]| |? t2 l2 v H2 I X2| | | | ]; subst; try (unfold panic_cause, error_cause in C; rewrite H in C; contradiction).
    assert (t2 = t') by congruence. subst. exact (IH _ _ D2 _ I X2).
  - intros t t' n l H Hl IH L out full D X. rewrite (Encode_array _ _ _ _ _ H) in D.
    inversion X as [? ? [C|C]| | |? n2 t2 l2 v H2 I X2| | | ]; subst; try (unfold panic_cause, error_cause in C; rewrite H in C; contradiction).
    assert (t2 = t') by congruence. subst. exact (IH _ _ D _ I X2).
  - intros t kt vt H out full D X. inversion X as [? ? [C|C]| | | | | | ]; subst; unfold panic_cause, error_cause in C; now rewrite H in C.
  - intros t kt vt m H CK Hm IH ND out full D X. rewrite (Encode_map _ _ _ _ _ H) in D. apply runw_etry_done in D as (mid & D1 & D2).
    cbn [elems] in *. apply count_done in D1.
    inversion X as [? ? [C|C]| | | |? k2 v2 m2 k v H2 I X2|? k2 v2 m2 k v H2 I X2| ]; subst;
      try (unfold panic_cause, error_cause in C; rewrite H in C; contradiction).
    all: assert (k2 = kt) by congruence; assert (v2 = vt) by congruence; subst; destruct (IH _ _ D2 _ _ I); contradiction.
  - intros t fs l H Hl IH out full D X. rewrite (Encode_struct _ _ _ _ H) in D.
    inversion X as [? ? [C|C]| | | | | |? fs2 l2 i tg vis t' v H2 F V W X2]; subst.
    + unfold panic_cause in C. rewrite H in C. destruct C as (i & tg & vis & t' & v & F & V & W & NE).
      destruct (IH _ _ D _ _ _ _ _ F V W). contradiction.
    + unfold error_cause in C. now rewrite H in C.
    + assert (fs2 = fs) by congruence. subst. destruct (IH _ _ D _ _ _ _ _ F V W). contradiction.
  - intros t i u v H Hv IH out full D X. rewrite (Encode_user _ _ _ _ _ H) in D.
    inversion X as [? ? [C|C]| | | | | | ]; subst; try congruence; unfold panic_cause, error_cause in C; rewrite H in C.
    + destruct (C out) as (m & o & R). congruence.
    + destruct C as (e & o & f & R). pose proof (runw_shift (marshals E i v) o out) as S1.
      pose proof (runw_extends (marshals E i v) o) as S2. rewrite R in S1, S2. destruct S2 as [bs S2]. rewrite (S1 bs S2) in D. discriminate D.
  - intros t out full D v [].
  - intros t v l Hv IH1 Hl IH2 out full D x I. cbn [put_list] in D. apply runw_etry_done in D as (mid & D1 & D2).
    destruct I as [<-|I]; eauto.
  - intros kt vt out full D k v [].
  - intros kt vt k v m Hk IHk Hv IHv Hm IHm out full D k' v' I. cbn [put_pairs] in D. apply runw_etry_done in D as (mid & D1 & D2).
    apply runw_etry_done in D2 as (mid2 & D2 & D3). destruct I as [Q|I]; [injection Q as <- <-; eauto|eauto].
  - intros out full D [|i] tg vis t v F; discriminate F.
  - intros tg vis t fs v l Hv IH1 Hl IH2 out full D i tg' vis' t' v' F V W. rewrite put_cons in D. cbv zeta in D.
    set (fld := match vis with Exported => encode E chain_encoder t v | _ => EPanic _ end) in D.
    assert (P : forall out full, runw (etry fld (put_fields E chain_encoder fs l)) out = WDone None full ->
      vis' = Exported /\ ~ holds E (cause E) t' v').
    { intros o f R. apply runw_etry_done in R as (mid & R1 & R2). destruct i as [|i]; [|exact (IH2 _ _ R2 _ _ _ _ _ F V W)].
      cbn [nth_error] in F, V. injection F as -> -> ->. injection V as ->. subst fld. destruct vis'; try discriminate R1.
      split; [reflexivity|]. exact (IH1 _ _ R1). }
    destruct tg; try exact (P _ _ D). rewrite runw_ebind in D.
    destruct (runw (WriteBool (negb (is_zero v))) out) as [e o|m o|]; try discriminate.
    destruct (is_zero v) eqn:Z; [|exact (P _ _ D)]. destruct i as [|i]; [|exact (IH2 _ _ D _ _ _ _ _ F V W)].
    cbn [nth_error] in F, V. injection F as <- -> ->. injection V as ->. specialize (W eq_refl). congruence.
Qed.


(** ** Encode always comes to an end *)
Lemma ends_bind {A} (p : enc A) (f : A -> wr) : (forall out, runw p out <> WDiverged) -> (forall a, eends (f a)) -> eends (ebind p f).
Proof.
  intros P F out. rewrite runw_ebind. specialize (P out). destruct (runw p out); [apply F|discriminate|congruence].
Qed.
Lemma ends_etry p q : eends p -> eends q -> eends (etry p q).
Proof. intros P Q. apply ends_bind; [exact P|]. intros [e|]; [discriminate|exact Q]. Qed.
Lemma ends_bytes bs : eends (WriteBytes bs).
Proof. discriminate. Qed.
Lemma ends_varuint v : eends (WriteVaruint v).
Proof. intros out. unfold WriteVaruint. destruct (GoVarint.PutUvarint 4 v); discriminate. Qed.
Lemma ends_sized b : eends (Bytes_MarshalABI b).
Proof. apply ends_etry; [apply ends_varuint|apply ends_bytes]. Qed.
Lemma ends_permission p : eends (PermissionLevel_MarshalABI p).
Proof. apply ends_bind; [discriminate|]. intros. apply ends_bytes. Qed.
Lemma ends_action a : eends (Action_MarshalABI a).
Proof.
  apply ends_bind; [discriminate|]. intros _. apply ends_bind; [discriminate|]. intros _. apply ends_etry; [apply ends_varuint|].
  induction (Authorization a) as [|p l IH]; cbn [write_auths]; [apply ends_sized|]. apply ends_etry; [apply ends_permission|exact IH].
Qed.
Lemma ends_header h : eends (TransactionHeader_MarshalABI h).
Proof. repeat apply ends_etry; first [apply ends_varuint|apply ends_bytes]. Qed.
Lemma ends_extension x : eends (TransactionExtension_MarshalABI x).
Proof. apply ends_etry; [apply ends_bytes|apply ends_sized]. Qed.
Lemma ends_all {A} (f : A -> wr) k : (forall x, eends (f x)) -> eends k -> forall l, eends (write_all f l k).
Proof. intros F K. induction l; cbn [write_all]; [exact K|]. now apply ends_etry. Qed.
Lemma ends_transaction t : eends (Transaction_MarshalABI t).
Proof.
  unfold Transaction_MarshalABI. apply ends_etry; [apply ends_header|].
  apply ends_etry; [apply ends_varuint|]. apply ends_all; [apply ends_action|].
  apply ends_etry; [apply ends_varuint|]. apply ends_all; [apply ends_action|].
  apply ends_etry; [apply ends_varuint|]. apply ends_all; [apply ends_extension|discriminate].
Qed.
Lemma ends_prim p : eends (write_prim p).
Proof.
  destruct p; cbn [write_prim];
    lazymatch goal with
    | |- eends (WriteString _) => apply ends_sized
    | |- eends (EncodeByteSlice _) => apply ends_sized
    | |- eends (Bytes_MarshalABI _) => apply ends_sized
    | |- eends (WriteVarint ?v) => unfold WriteVarint; destruct (GoVarint.PutVarint 4 v); intros out; discriminate
    | |- eends (WriteVaruint _) => apply ends_varuint
    | |- eends (Action_MarshalABI _) => apply ends_action
    | |- eends (Transaction_MarshalABI _) => apply ends_transaction
    | |- eends (TransactionExtension_MarshalABI _) => apply ends_extension
    | |- eends (TransactionHeader_MarshalABI _) => apply ends_header
    | |- eends (PermissionLevel_MarshalABI _) => apply ends_permission
    | |- _ => idtac
    end; try (intros out; discriminate).
  destruct b; intros out; discriminate.
Qed.
Lemma encode_ends E ok : predictable E ->
  (forall t v, has_type E ok t v -> eends (Encode E t v))
  /\ (forall t l, have_type E ok t l -> eends (put_list (Encode E t) l))
  /\ (forall kt vt m, have_pair_type E ok kt vt m -> eends (put_pairs (Encode E kt) (Encode E vt) m))
  /\ (forall fs l, have_field_types E ok fs l -> eends (put_fields E chain_encoder fs l)).
Proof.
  intros PR. apply has_type_all; try (intros; discriminate).
  - intros t k p z H K _ _ out. rewrite (Encode_leaf _ _ _ _ _ H K). apply ends_prim.
  - intros t k v H R. rewrite (Encode_int _ _ _ _ H). destruct k; apply ends_bytes.
  - intros t z H out. open_encode H. discriminate.
  - intros t t' H out. open_encode H. destruct (head E t'); try discriminate. destruct (go_kind k); discriminate.
  - intros t t' v H Hv IH out. rewrite (Encode_ptr _ _ _ _ H) by (eapply has_type_leaf_shaped; eassumption). apply IH.
  - intros t t' H. rewrite (Encode_slice _ _ _ _ H). apply ends_etry; [apply ends_varuint|discriminate].
  - intros t t' l H Hl IH M. rewrite (Encode_slice _ _ _ _ H). apply ends_etry; [apply ends_varuint|exact IH].
  - intros t t' n l H Hl IH L. rewrite (Encode_array _ _ _ _ _ H). exact IH.
  - intros t kt vt H. rewrite (Encode_map _ _ _ _ _ H). apply ends_etry; [apply ends_varuint|discriminate].
  - intros t kt vt m H C Hm IH ND. rewrite (Encode_map _ _ _ _ _ H). apply ends_etry; [apply ends_varuint|exact IH].
  - intros t fs l H Hl IH. rewrite (Encode_struct _ _ _ _ H). exact IH.
  - intros t i u v H Hv IH. rewrite (Encode_user _ _ _ _ _ H). exact (proj2 (PR i v)).
  - intros t v l Hv IH1 Hl IH2. cbn [put_list]. now apply ends_etry.
  - intros kt vt k v m Hk IHk Hv IHv Hm IHm. cbn [put_pairs]. apply ends_etry; [exact IHk|]. now apply ends_etry.
  - intros tg vis t fs v l Hv IH1 Hl IH2. rewrite put_cons. cbv zeta.
    set (fld := match vis with Exported => encode E chain_encoder t v | _ => EPanic _ end).
    assert (F : eends (etry fld (put_fields E chain_encoder fs l))).
    { apply ends_etry; [|exact IH2]. subst fld. destruct vis; [exact IH1|discriminate..]. }
    destruct tg; try exact F. apply ends_bind; [intros out; destruct (negb (is_zero v)); discriminate|].
    intros _. destruct (is_zero v); assumption.
Qed.

(** ** The dynamic encoder *)
Lemma small_entry m f : Forall (fun kv => small_gval (snd kv)) m ->
  small_gval (match lookup m f with Some v => v | None => VNil end).
Proof.
  intros F. induction F as [|[k v] m S F IH]; cbn [lookup]; [constructor|].
  destruct (bytes_eqb k f); [exact S|exact IH].
Qed.
Lemma np_builtin b n v : small_gval v -> np b (encodeBuiltin n v).
Proof.
  intros S. unfold encodeBuiltin. destruct (builtin_of n) as [B|]; [|constructor].
  destruct B, v as [|p| | | ]; try apply np_ret; inversion S as [|q T Q| | | ]; subst; destruct p; try apply np_ret;
    cbn [typed_prim bounded_prim] in *.
  all: lazymatch goal with
    | |- np _ (WriteBool _) => apply np_bool
    | |- np _ (WriteString _) => now apply np_sized
    | |- np _ (WriteVarint _) => now apply np_varint
    | |- np _ (WriteVaruint _) => apply np_varuint; unfold in_u in T; lia
    | |- np _ (Asset_MarshalABI _) => apply np_etry; apply np_bytes
    | |- np _ (Key_MarshalABI _) => apply np_etry; [apply np_byte|apply np_bytes]
    | |- np _ (ExtendedAsset_MarshalABI _) => apply np_etry; [apply np_etry|]; apply np_bytes
    | |- np _ (WriteUint8 _) => apply np_byte
    | |- np _ (WriteInt8 _) => apply np_byte
    | |- _ => apply np_bytes
    end.
Qed.
Lemma np_elems b f l : (forall v, In v l -> np b (f v)) -> np b (encode_elems f l).
Proof.
  induction l as [|v l IH]; intros H; cbn [encode_elems]; [constructor|]. apply np_etry; [apply H; now left|].
  apply IH. intros x X. apply H. now right.
Qed.
Lemma np_fields b rec fs m : (forall f t, In (f, t) fs -> forall v, small_gval v -> np b (rec t v)) ->
  Forall (fun kv => small_gval (snd kv)) m -> np b (encode_fields rec fs m).
Proof.
  intros H M. induction fs as [|[f t] fs IH]; cbn [encode_fields]; [constructor|]. apply np_etry.
  - apply (H f); [now left|]. now apply small_entry.
  - apply IH. intros f' t' I. apply (H f'). now right.
Qed.
Lemma np_inner a n0 tbl b rec n t : table_for a n0 tbl -> short_variants a n0 -> reach a n0 n -> lookup tbl n = Some t ->
  (forall m v, reach a n0 m -> small_gval v -> np b (rec m v)) -> forall v, small_gval v -> np b (encodeInner rec tbl t v).
Proof.
  intros TB SV R LK HR v S. destruct (table_lookup _ _ _ _ TB R) as (t' & L' & Ds). rewrite LK in L'. injection L' as <-.
  pose proof Ds as (N & D & _). unfold encodeInner. destruct (t_ref t) as [r|] eqn:E1.
  { apply (describes_alias _ _ _ _ _ _ _ r Ds D) in E1. apply HR; [|exact S].
    eapply reach_step; [exact R|exact D|exact E1|cbn; auto]. }
  destruct (allFields tbl (t_name t)) as [fs|] eqn:E2.
  { rewrite N in E2. apply (allFields_spec _ _ _ _ TB) in E2; [|now exists t]. destruct E2 as [I _].
    inversion S as [| | |m M| ]; subst; try constructor. apply np_fields; [|exact M]. intros f m' Hm x X. apply HR; [|exact X]. eapply inherits_reach; eauto. }
  destruct (t_variant t) as [l|] eqn:E3; [|now apply np_builtin].
  apply (describes_variant _ _ _ _ _ _ _ l Ds D) in E3. pose proof (SV _ _ _ _ _ _ R D E3) as SL.
  inversion S as [| |vs V F| | ]; subst; try constructor.
  destruct vs as [|x0 [|x1 [|x2 vs]]]; try (destruct x0 as [|[]| | | ]; constructor); try constructor.
  destruct x0 as [|[]| | | ]; try constructor. pose proof (find_variant_spec s l 0) as FV.
  destruct (find_variant 0 s l) as [ti|]; [|constructor]. destruct FV as (j & -> & [FA _]).
  apply Forall_inv_tail, Forall_inv in F. apply np_etry.
  - apply np_varuint. assert (J : (j < length l)%nat) by (apply nth_error_Some; congruence). unfold short, zlen in SL. lia.
  - apply HR; [|exact F]. eapply reach_step; [exact R|exact D|exact E3|]. now apply nth_error_In in FA.
Qed.
Lemma np_type a n0 tbl : table_for a n0 tbl -> short_variants a n0 ->
  forall fuel n v, reach a n0 n -> small_gval v -> np true (encodeType fuel tbl n v).
Proof.
  intros TB SV. induction fuel as [|fuel IH]; intros n v R S; [now constructor|].
  destruct (table_lookup _ _ _ _ TB R) as (t & LK & Ds). rewrite (encodeType_S _ _ _ _ _ LK).
  pose proof (np_inner _ _ _ true (encodeType fuel tbl) _ _ TB SV R LK IH) as SI.
  assert (B : np true (enc_body fuel tbl t v)).
  { unfold enc_body. destruct (t_isArray t); [|now apply SI]. inversion S as [| |vs V F| | ]; subst; try constructor.
    apply np_etry; [now apply np_count|]. apply np_elems. intros x X. apply SI. rewrite Forall_forall in F. now apply F. }
  destruct (t_isOptional t).
  - apply np_bind; [apply np_bool|]. intros e. destruct (negb (negb (is_nil v)) || _); [constructor|exact B].
  - destruct (negb (negb (is_nil v))); [constructor|exact B].
Qed.
Lemma Abi_Encode_np a n fuel v : well_named a n -> short_variants a n -> small_gval v -> np true (Abi_Encode fuel a n v).
Proof.
  intros W SV S. destruct (resolved a n W) as (tbl & E & TB & _). unfold Abi_Encode, with_types. rewrite E.
  apply (np_type a n tbl TB SV); [constructor|exact S].
Qed.
