(** Proofs about user-defined types: errors, and generated methods. *)
From Verif Require Import Base Prog AbiPrim BaseProofs SpecWire ProgProofs AbiPrimProofs Chain SpecChain ChainProofs
  Values Leaf SpecLeaf LeafProofs Reflect SpecReflect ReflectProofs ReflectTags SpecPanics PanicProofs SpecUser AbiTermProofs
  ReflectStrict Codegen CodegenText SpecTerm TermProofs.

(** ** Errors *)
Definition emits (o : woracle) (S : gerr -> Prop) (p : wr) : Prop :=
  forall i out e full, runf o i p out = WDone (Some e) full -> S e.
Lemma runf_ebind {A B} (o : woracle) (p : enc A) (f : A -> enc B) : forall i out, exists i',
  runf o i (ebind p f) out = match runf o i p out with
                             | WDone a out' => runf o i' (f a) out'
                             | WCrash m out' => WCrash m out'
                             | WDiverged => WDiverged
                             end.
Proof.
  induction p as [a|m| |bs k IH]; intros i out; cbn [ebind runf]; try (exists i; reflexivity).
  destruct (o i) as [[n e]|]; apply IH.
Qed.
Lemma emits_bind {A} o S (p : enc A) f : (forall a, emits o S (f a)) -> emits o S (ebind p f).
Proof.
  intros F i out e full R. destruct (runf_ebind o p f i out) as (i' & Q). rewrite Q in R.
  destruct (runf o i p out); try discriminate R. eapply F; exact R.
Qed.
Lemma emits_etry o S p q : emits o S p -> emits o S q -> emits o S (etry p q).
Proof.
  intros P Q i out e full R. unfold etry in R. destruct (runf_ebind o p (fun r => match r with Some e => ERet (Some e) | None => q end) i out) as (i' & X).
  rewrite X in R. destruct (runf o i p out) as [[e'|] out'|m out'|] eqn:RP; try discriminate R.
  - cbn [runf] in R. injection R as <- _. eapply P; exact RP.
  - eapply Q; exact R.
Qed.
Lemma emits_none o S : emits o S (ERet None).
Proof. discriminate. Qed.
Lemma emits_panic o S m : emits o S (EPanic m).
Proof. discriminate. Qed.
Lemma emits_some o (S : gerr -> Prop) e : S e -> emits o S (ERet (Some e)).
Proof. intros H i out e' full [= <- _]. exact H. Qed.
Lemma emits_weaken o (S S' : gerr -> Prop) p : (forall e, S e -> S' e) -> emits o S p -> emits o S' p.
Proof. intros H P i out e full R. apply H. eapply P; exact R. Qed.
Lemma emits_bytes o bs : emits o (writer_error o) (WriteBytes bs).
Proof.
  intros i out e full R. cbn [WriteBytes runf] in R. destruct (o i) as [[n x]|] eqn:O; [|discriminate R].
  injection R as <- _. now exists i, n.
Qed.
Lemma emits_varuint o v : emits o (writer_error o) (WriteVaruint v).
Proof. unfold WriteVaruint. destruct (GoVarint.PutUvarint 4 v); [apply emits_bytes|apply emits_panic]. Qed.
Lemma emits_varint o v : emits o (writer_error o) (WriteVarint v).
Proof. unfold WriteVarint. destruct (GoVarint.PutVarint 4 v); [apply emits_bytes|apply emits_panic]. Qed.
Ltac emit := repeat match goal with
  | |- emits _ _ (WriteBytes _) => apply emits_bytes
  | |- emits _ _ (WriteVaruint _) => apply emits_varuint
  | |- emits _ _ (WriteVarint _) => apply emits_varint
  | |- emits _ _ (ERet None) => apply emits_none
  | |- emits _ _ (EPanic _) => apply emits_panic
  | |- emits _ _ (etry _ _) => apply emits_etry
  | |- emits _ _ (ebind _ _) => apply emits_bind; intros ?
  | |- emits _ _ (if ?b then _ else _) => destruct b
  | |- emits _ _ (match ?x with _ => _ end) => destruct x
  end.
Lemma emits_sized o s : emits o (writer_error o) (WriteString s).
Proof. unfold WriteString. emit. Qed.
Lemma emits_permission o p : emits o (writer_error o) (PermissionLevel_MarshalABI p).
Proof. unfold PermissionLevel_MarshalABI, Name_MarshalABI, WriteUint64. emit. Qed.
Lemma emits_action o a : emits o (writer_error o) (Action_MarshalABI a).
Proof.
  unfold Action_MarshalABI. emit. induction (Authorization a) as [|p l IH]; cbn [write_auths].
  - unfold Bytes_MarshalABI. emit.
  - apply emits_etry; [apply emits_permission|exact IH].
Qed.
Lemma emits_all {A} o (f : A -> wr) k : (forall x, emits o (writer_error o) (f x)) -> emits o (writer_error o) k -> forall l, emits o (writer_error o) (write_all f l k).
Proof. intros F K. induction l as [|x l IH]; cbn [write_all]; [exact K|]. now apply emits_etry. Qed.
Lemma emits_header o h : emits o (writer_error o) (TransactionHeader_MarshalABI h).
Proof. unfold TransactionHeader_MarshalABI, TimePointSec_MarshalABI, WriteUint8, WriteByte, WriteUint16, WriteUint32. emit; apply emits_bytes. Qed.
Lemma emits_extension o h : emits o (writer_error o) (TransactionExtension_MarshalABI h).
Proof. unfold TransactionExtension_MarshalABI, Bytes_MarshalABI, WriteUint16. emit. Qed.
Lemma emits_transaction o t : emits o (writer_error o) (Transaction_MarshalABI t).
Proof.
  unfold Transaction_MarshalABI. apply emits_etry; [apply emits_header|].
  repeat (apply emits_etry; [apply emits_varuint|]; apply emits_all; [first [apply emits_action|apply emits_extension]|]). apply emits_none.
Qed.
Lemma emits_prim o p : emits o (writer_error o) (write_prim p).
Proof.
  destruct p; cbn [write_prim];
    lazymatch goal with
    | |- emits _ _ (WriteString _) => apply emits_sized
    | |- emits _ _ (EncodeByteSlice _) => apply emits_sized
    | |- emits _ _ (Bytes_MarshalABI _) => apply emits_sized
    | |- emits _ _ (WriteVarint _) => apply emits_varint
    | |- emits _ _ (WriteVaruint _) => apply emits_varuint
    | |- emits _ _ (Action_MarshalABI _) => apply emits_action
    | |- emits _ _ (Transaction_MarshalABI _) => apply emits_transaction
    | |- emits _ _ (TransactionExtension_MarshalABI _) => apply emits_extension
    | |- emits _ _ (TransactionHeader_MarshalABI _) => apply emits_header
    | |- emits _ _ (PermissionLevel_MarshalABI _) => apply emits_permission
    | |- _ => idtac
    end; emit.
  all: try apply emits_bytes.
  all: unfold WriteBool, WriteByte, Asset_MarshalABI, ExtendedAsset_MarshalABI, Key_MarshalABI, WriteUint8; emit; try apply emits_bytes.
Qed.
Lemma emits_marshal o p : emits o (writer_error o) (marshal p).
Proof. destruct p; cbn [marshal]; try apply emits_prim. unfold ExtendedAsset_MarshalABI, Asset_MarshalABI, Name_MarshalABI. emit; apply emits_bytes. Qed.
Lemma emits_hooked o (S : gerr -> Prop) k p z rest : (forall e, writer_error o e -> S e) -> emits o S rest -> emits o S (hooked chain_encoder (TLeaf k) (RLeaf p z) rest).
Proof.
  intros W R. unfold hooked, chain_encoder. destruct (table_kind k); cbn [ebind]; [|exact R].
  intros i out e full Q. assert (QQ : emits o (writer_error o) (write_prim p)) by apply emits_prim.
  destruct (runf_ebind o (err <~~ write_prim p ;; ERet (true, err))
    (fun r => match r with (true, err) => ERet err | (false, Some e) => ERet (Some e) | (false, None) => rest end) i out) as (i' & X).
  rewrite X in Q. destruct (runf_ebind o (write_prim p) (fun err => ERet (true, err)) i out) as (i2 & Y). rewrite Y in Q.
  destruct (runf o i (write_prim p) out) as [e1 out'|m out'|] eqn:RP; try discriminate Q. cbn [runf] in Q. injection Q as -> _.
  apply W. eapply QQ; exact RP.
Qed.
Lemma emits_leaf o p : emits o (writer_error o) (encode_leaf chain_encoder p).
Proof.
  destruct p; cbn [encode_leaf]; try apply emits_prim. cbv zeta. apply emits_etry; (apply emits_hooked; [auto|]; apply emits_prim).
Qed.

Definition own_error (e : gerr) : Prop := e = nil_pointer_err \/ e = unexpected_type_err.
Definition allowed (E : types) (o : woracle) (t : gtype) (v : rval) (e : gerr) : Prop :=
  writer_error o e \/ own_error e \/ holds E (method_error E o e) t v.
Lemma encode_emits E o :
  (forall t v, has_type E any_leaf t v -> emits o (allowed E o t v) (Encode E t v))
  /\ (forall t l, have_type E any_leaf t l -> forall S : gerr -> Prop, (forall v e, In v l -> allowed E o t v e -> S e) -> emits o S (put_list (Encode E t) l))
  /\ (forall kt vt m, have_pair_type E any_leaf kt vt m -> forall S : gerr -> Prop,
     (forall k v e, In (k, v) m -> allowed E o kt k e \/ allowed E o vt v e -> S e) ->
     emits o S (put_pairs (Encode E kt) (Encode E vt) m))
  /\ (forall fs l, have_field_types E any_leaf fs l -> forall S : gerr -> Prop, 
     (forall i tg vis t v e, nth_error fs i = Some (tg, vis, t) -> nth_error l i = Some v -> written tg v -> allowed E o t v e -> S e) ->
     emits o S (put_fields E chain_encoder fs l)).
Proof.
  assert (WE : forall t v e, writer_error o e -> allowed E o t v e) by (intros; now left).
  assert (LIFT : forall t v t' v' e, (forall e, holds E (method_error E o e) t v -> holds E (method_error E o e) t' v') -> allowed E o t v e -> allowed E o t' v' e).
  { intros t v t' v' e H [A|[A|A]]; [now left|right; now left|right; right; now apply H]. }
  apply has_type_all.
  - intros t k p z H K _ T. unfold Encode. cbn [encode]. rewrite H. apply emits_hooked; [auto|].
    eapply emits_weaken; [|apply emits_leaf]. auto.
  - intros t k v H R. rewrite (Encode_int _ _ _ _ H). eapply emits_weaken; [apply WE|]. destruct k; apply emits_bytes.
  - intros t z H. open_encode H. apply emits_some. right. left. now right.
  - intros t t' H. open_encode H. destruct (head E t') as [k|k| |u|u|n u|ku vu|fs|i u|i]; try (apply emits_some; right; left; now left).
    + destruct (go_kind k); [apply emits_some; right; left; now left|apply emits_panic].
    + apply emits_panic.
  - intros t t' v H Hv IH.
    assert (L : forall e, allowed E o t' v e -> allowed E o t (RPtr (Some v)) e).
    { intros e. apply LIFT. intros e'. eapply ho_ptr. exact H. }
    apply (emits_weaken _ _ _ _ L) in IH. unfold Encode in *. cbn [encode]. rewrite H. unfold hooked. cbn [chain_encoder ebind].
    destruct (head E t') as [k|k| |u|u|n u|ku vu|fs|i u|i] eqn:H'; try exact IH.
    2: { inversion Hv; subst; try congruence. cbn [encode] in IH. rewrite H' in IH. exact IH. }
    destruct (go_kind k); [exact IH|]. inversion Hv as [? k' p z H2 K ZF T| | | | | | | | | | |]; subst; try congruence.
    eapply emits_weaken; [apply WE|apply emits_marshal].
  - intros t t' H. rewrite (Encode_slice _ _ _ _ H). apply emits_etry; [eapply emits_weaken; [apply WE|apply emits_varuint]|apply emits_none].
  - intros t t' l H Hl IH M. rewrite (Encode_slice _ _ _ _ H). apply emits_etry; [eapply emits_weaken; [apply WE|apply emits_varuint]|].
    apply IH. intros v e V. apply LIFT. intros e'. intros Q; eapply ho_slice; [exact H|exact V|exact Q].
  - intros t t' n l H Hl IH L. rewrite (Encode_array _ _ _ _ _ H). apply IH. intros v e V. apply LIFT. intros e'. intros Q; eapply ho_array; [exact H|exact V|exact Q].
  - intros t kt vt H. rewrite (Encode_map _ _ _ _ _ H). apply emits_etry; [eapply emits_weaken; [apply WE|apply emits_varuint]|apply emits_none].
  - intros t kt vt m H C Hm IH ND. rewrite (Encode_map _ _ _ _ _ H). apply emits_etry; [eapply emits_weaken; [apply WE|apply emits_varuint]|].
    apply IH. intros k v e V [A|A]; revert A; apply LIFT; intros e'; [intros Q; eapply ho_key; [exact H|exact V|exact Q]|intros Q; eapply ho_value; [exact H|exact V|exact Q]].
  - intros t fs l H Hl IH. rewrite (Encode_struct _ _ _ _ H). apply IH. intros i tg vis t' v e F V W. apply LIFT. intros e'.
    now eapply ho_field; eassumption.
  - intros t i u v H Hv IH. rewrite (Encode_user _ _ _ _ _ H). intros k out e full R. right. right. apply ho_here.
    unfold method_error. rewrite H. eauto.
  - intros. apply emits_none.
  - intros t v l Hv IH1 Hl IH2 S N. cbn [put_list]. apply emits_etry.
    + eapply emits_weaken; [|exact IH1]. intros e. apply N. now left.
    + apply IH2. intros x e X. apply N. now right.
  - intros. apply emits_none.
  - intros kt vt k v m Hk IHk Hv IHv Hm IHm S N. cbn [put_pairs]. apply emits_etry; [|apply emits_etry].
    + eapply emits_weaken; [|exact IHk]. intros e A. eapply N; [now left|now left].
    + eapply emits_weaken; [|exact IHv]. intros e A. eapply N; [now left|now right].
    + apply IHm. intros k' v' e I. apply N. now right.
  - intros. apply emits_none.
  - intros tg vis t fs v l Hv IH1 Hl IH2 S N. rewrite put_cons. cbv zeta.
    assert (R : emits o S (put_fields E chain_encoder fs l)) by (apply IH2; intros i; apply (N (Datatypes.S i))).
    assert (F : written tg v -> emits o S (etry match vis with Exported => encode E chain_encoder t v
        | _ => EPanic "cannot return value obtained from unexported field" end (put_fields E chain_encoder fs l))).
    { intros W. apply emits_etry; [|exact R]. destruct vis; try apply emits_panic.
      eapply emits_weaken; [|exact IH1]. intros e. now apply (N O tg Exported t v). }
    destruct tg; try (apply F; intros C; discriminate C).
    apply emits_bind. intros _. destruct (is_zero v) eqn:Z; [exact R|]. apply F. intros _. exact Z.
Qed.

(** ** Generated methods: more fuel writes the same *)
Lemma ewith_mono {A} (r : res A) (f g : A -> wr) : (forall a, ele (f a) (g a)) -> ele (ewith r f) (ewith r g).
Proof. intros H. destruct r; cbn [ewith]; [apply H|apply ele_refl..]. Qed.
Lemma for_write_mono f g : (forall i, ele (f i) (g i)) -> forall n i, ele (for_write f n i) (for_write g n i).
Proof. intros H. induction n as [|n IH]; intros i; cbn [for_write]; [apply ele_refl|]. now apply ele_etry. Qed.
Lemma exec_write_mono mar mar' E t v : (forall t v, ele (mar t v) (mar' t v)) -> forall s i, ele (exec_write mar E t v i s) (exec_write mar' E t v i s).
Proof.
  intros H. induction s; intros i; cbn [exec_write]; try apply ele_refl.
  - apply ewith_mono. intros x. destruct (place_type _ _ _) as [[]|]; try apply H; try apply ele_refl.
    destruct x; try apply H. destruct o; [apply H|apply ele_refl].
  - apply ewith_mono. intros x. apply ewith_mono. intros l. apply ele_etry; [apply ele_refl|]. now apply for_write_mono.
  - now apply for_write_mono.
  - cbv zeta. apply ele_etry; [apply ele_refl|]. destruct (negb (is_zero v)); [apply IHs|apply ele_refl].
Qed.
Lemma marshal_body_mono mar mar' E : (forall t v, ele (mar t v) (mar' t v)) -> forall fs code l, ele (marshal_body mar E fs code l) (marshal_body mar' E fs code l).
Proof.
  intros H. induction fs as [|[tv t] fs IH]; intros code l; cbn [marshal_body]; [apply ele_refl|].
  destruct code; [apply ele_refl|]. destruct l; [apply ele_refl|]. apply ele_etry; [now apply exec_write_mono|apply IH].
Qed.
Lemma MarshalABI_mono E : forall fuel t v, ele (MarshalABI fuel E t v) (MarshalABI (S fuel) E t v).
Proof.
  induction fuel as [|fuel IH]; intros t v; [constructor|]. remember (S fuel) as f1 eqn:F. rewrite F at 1. cbn [MarshalABI].
  destruct (head E t); try apply ele_refl. destruct v; try apply ele_refl. destruct (GenUnmarshalFn fs) as [[c d]|e|m]; try apply ele_refl.
  apply marshal_body_mono. subst. exact IH.
Qed.
Lemma MarshalABI_stable E t v out fuel fuel' : (fuel <= fuel')%nat -> runw (MarshalABI fuel E t v) out <> WDiverged ->
  runw (MarshalABI fuel' E t v) out = runw (MarshalABI fuel E t v) out.
Proof.
  intros L. induction L as [|fuel' L IH]; intros H; [reflexivity|].
  destruct (ele_run _ _ (MarshalABI_mono E fuel' t v) out) as [D|Q]; [|rewrite Q; auto].
  rewrite IH in D by exact H. contradiction.
Qed.
(** Typing does not look at the methods. *)
Lemma has_type_methods E E' ok : (forall i, declared E i = declared E' i) -> (forall t, size_of E t = size_of E' t) -> forall t v, has_type E ok t v -> has_type E' ok t v.
Proof.
  intros D SZ. assert (HD : forall t, head E t = head E' t) by (intros t; destruct t; try reflexivity; apply D).
  assert (X : (forall t v, has_type E ok t v -> has_type E' ok t v) /\ (forall t l, have_type E ok t l -> have_type E' ok t l)
    /\ (forall kt vt m, have_pair_type E ok kt vt m -> have_pair_type E' ok kt vt m)
    /\ (forall fs l, have_field_types E ok fs l -> have_field_types E' ok fs l)).
  { apply has_type_all; intros; try (match goal with H : head E _ = _ |- _ => rewrite HD in H end);
      try (match goal with H : make_ok _ _ = true |- _ => rewrite SZ in H end);
      try (eapply ht_leaf; eassumption); try (eapply ht_int; eassumption); econstructor; eauto. }
  apply X.
Qed.
(** On a finite type the generated MarshalABI needs no more than a fixed amount. *)
Inductive eff : wr -> Prop :=
| eff_ret a : eff (ERet a)
| eff_panic m : eff (EPanic m)
| eff_write bs k : (forall e, eff (k e)) -> eff (EWrite bs k).
Lemma eff_runw p : eff p -> forall out, runw p out <> WDiverged.
Proof. induction 1; intros out; cbn [runw]; try discriminate. apply H0. Qed.
Lemma eff_etry p q : eff p -> eff q -> eff (etry p q).
Proof. intros H F. unfold etry. induction H as [[e|]|m|bs k H IH]; cbn [ebind]; try constructor; auto. Qed.
Lemma eff_bytes bs : eff (WriteBytes bs).
Proof. constructor. intros. constructor. Qed.
Lemma eff_varuint v : eff (WriteVaruint v).
Proof. unfold WriteVaruint. destruct (GoVarint.PutUvarint 4 v); [apply eff_bytes|constructor]. Qed.
Lemma eff_varint v : eff (WriteVarint v).
Proof. unfold WriteVarint. destruct (GoVarint.PutVarint 4 v); [apply eff_bytes|constructor]. Qed.
Lemma eff_ebind (p : wr) f : eff p -> (forall e, eff (f e)) -> eff (ebind p f).
Proof. intros H F. induction H as [a|m|bs k H IH]; cbn [ebind]; [apply F|constructor|constructor; exact IH]. Qed.
Lemma eff_sized s : eff (WriteString s).
Proof. apply eff_etry; [apply eff_varuint|apply eff_bytes]. Qed.
Lemma eff_permission p : eff (PermissionLevel_MarshalABI p).
Proof. apply eff_ebind; intros; apply eff_bytes. Qed.
Lemma eff_action a : eff (Action_MarshalABI a).
Proof.
  unfold Action_MarshalABI. apply eff_ebind; [apply eff_bytes|]. intros _. apply eff_ebind; [apply eff_bytes|]. intros _.
  apply eff_etry; [apply eff_varuint|]. induction (Authorization a) as [|p l IH]; cbn [write_auths].
  - apply eff_sized.
  - apply eff_etry; [apply eff_permission|exact IH].
Qed.
Lemma eff_all {A} (f : A -> wr) k : (forall x, eff (f x)) -> eff k -> forall l, eff (write_all f l k).
Proof. intros F K. induction l as [|x l IH]; cbn [write_all]; [exact K|]. now apply eff_etry. Qed.
Ltac effs := repeat match goal with
  | |- eff (etry _ _) => apply eff_etry
  | |- eff (WriteVaruint _) => apply eff_varuint
  | |- eff (WriteVarint _) => apply eff_varint
  | |- eff (WriteString _) => apply eff_sized
  | |- eff (EncodeByteSlice _) => apply eff_sized
  | |- eff (Bytes_MarshalABI _) => apply eff_sized
  | |- eff (ERet _) => constructor
  | |- eff (EPanic _) => constructor
  | |- eff (if ?b then _ else _) => destruct b
  end; try apply eff_bytes.
Lemma eff_header h : eff (TransactionHeader_MarshalABI h).
Proof. unfold TransactionHeader_MarshalABI. effs. Qed.
Lemma eff_extension h : eff (TransactionExtension_MarshalABI h).
Proof. unfold TransactionExtension_MarshalABI. effs. Qed.
Lemma eff_transaction t : eff (Transaction_MarshalABI t).
Proof.
  unfold Transaction_MarshalABI. apply eff_etry; [apply eff_header|].
  repeat (apply eff_etry; [apply eff_varuint|]; apply eff_all; [first [apply eff_action|apply eff_extension]|]). constructor.
Qed.
Lemma eff_prim p : eff (write_prim p).
Proof.
  destruct p; cbn [write_prim];
    lazymatch goal with
    | |- eff (Action_MarshalABI _) => apply eff_action
    | |- eff (Transaction_MarshalABI _) => apply eff_transaction
    | |- eff (TransactionExtension_MarshalABI _) => apply eff_extension
    | |- eff (TransactionHeader_MarshalABI _) => apply eff_header
    | |- eff (PermissionLevel_MarshalABI _) => apply eff_permission
    | |- eff (WriteBool ?b) => destruct b; apply eff_bytes
    | |- _ => effs
    end.
  all: unfold Asset_MarshalABI, Key_MarshalABI, Name_MarshalABI, WriteUint8; effs.
Qed.
Lemma eff_marshal p : eff (marshal p).
Proof. destruct p; cbn [marshal]; try apply eff_prim. unfold ExtendedAsset_MarshalABI, Asset_MarshalABI. effs. Qed.
Lemma eff_ewith {A} (r : res A) f : (forall a, eff (f a)) -> eff (ewith r f).
Proof. intros H. destruct r; cbn [ewith]; [apply H|constructor..]. Qed.
Lemma eff_for f : (forall i, eff (f i)) -> forall n i, eff (for_write f n i).
Proof. intros H. induction n as [|n IH]; intros i; cbn [for_write]; [constructor|]. now apply eff_etry. Qed.
Lemma eff_builtin q : eff (write_builtin q).
Proof. destruct q; cbn [write_builtin]; try apply eff_prim. apply eff_bytes. Qed.
Lemma eff_exec mar E t v : (forall p t', place_type E p t = Some t' -> (forall x, eff (mar t' x)) /\ forall t'', t' = TPtr t'' -> forall x, eff (mar t'' x)) ->
  forall s i, eff (exec_write mar E t v i s).
Proof.
  intros H. induction s; intros i; cbn [exec_write]; try constructor.
  - apply eff_ewith. intros x. destruct x; try constructor. apply eff_builtin.
  - apply eff_ewith. intros x. destruct (place_type E p t) as [t'|] eqn:P; [|constructor]. destruct (H p t' P) as [H1 H2].
    destruct t'; try apply H1. destruct x; try apply H1. destruct o; [now apply H2|constructor].
  - apply eff_ewith. intros x. apply eff_ewith. intros l. apply eff_etry; [apply eff_varuint|]. now apply eff_for.
  - now apply eff_for.
  - cbv zeta. apply eff_etry; [|destruct (negb (is_zero v)); [apply IHs|destruct optional; constructor]].
    destruct optional; [|constructor]. destruct (negb (is_zero v)); apply eff_bytes.
Qed.
Lemma eff_body mar E code : forall fs l, (forall f, In f fs -> forall v s i, eff (exec_write mar E (snd f) v i s)) -> eff (marshal_body mar E fs code l).
Proof.
  induction code as [|s code IH]; intros fs l H; destruct fs as [|[tv t] fs]; cbn [marshal_body]; try constructor.
  destruct l; [constructor|]. apply eff_etry; [apply (H _ (or_introl eq_refl))|]. apply IH. intros f Hf. apply H. now right.
Qed.
Lemma place_reaches E p t t' : place_type E p t = Some t' -> reaches E t t' \/ t' = TLeaf KU8.
Proof.
  unfold place_type.
  assert (X : forall t, element_type E t = Some t' -> reaches E t t' \/ t' = TLeaf KU8).
  { intros u. unfold element_type. destruct (head E u) as [k|k| |u1|u1|n u1|ku vu|fs|i u1|i] eqn:H; try discriminate.
    - destruct k; try discriminate. intros [= <-]. now right.
    - destruct (head E u1) eqn:H1; try discriminate. intros [= <-]. left.
      eapply re_step; [exists Slot, Target; eapply (pt_ptr E Slot); exact H|].
      eapply re_step; [exists Slot, Slot; eapply pt_array; exact H1|]. constructor.
    - intros [= <-]. left. eapply re_step; [exists Slot, Slot; eapply pt_slice; exact H|]. constructor.
    - intros [= <-]. left. eapply re_step; [exists Slot, Slot; eapply pt_array; exact H|]. constructor. }
  destruct (star p).
  - destruct (head E t) eqn:H; try discriminate.
    assert (C : component E g t) by (exists Slot, Target; now apply (pt_ptr E Slot)).
    destruct (index p).
    + intros Q. destruct (X g Q) as [R|R]; [left; eapply re_step; eassumption|now right].
    + intros [= <-]. left. eapply re_step; [exact C|constructor].
  - destruct (index p); [apply X|]. intros [= <-]. left. constructor.
Qed.
Lemma by_structs E (P : nat -> gtype -> Prop) :
  (forall t, (forall fs, head E t <> TStruct fs) -> forall fuel, (1 <= fuel)%nat -> P fuel t) ->
  (forall t fs fuel, head E t = TStruct fs ->
     (forall f p t', In f fs -> place_type E p (snd f) = Some t' -> P fuel t' /\ forall t'', t' = TPtr t'' -> P fuel t'') -> P (S fuel) t) ->
  forall t, nonrecursive E t -> exists F, forall fuel, (F <= fuel)%nat -> P fuel t.
Proof.
  intros HO HS t A.
  enough (H : forall t', reaches E t t' -> exists F, forall fuel, (F <= fuel)%nat -> P fuel t') by (apply H; constructor).
  induction A as [t _ IH].
  assert (X : exists F, forall fuel, (F <= fuel)%nat -> P fuel t).
  { destruct (head E t) as [k|k| |u|u|n u|ku vu|fs|i u|i] eqn:H; try (exists 1%nat; apply HO; congruence).
    assert (Y : forall gs, (forall f, In f gs -> In f fs) -> exists F, forall fuel, (F <= fuel)%nat -> forall f p t', In f gs ->
        place_type E p (snd f) = Some t' -> P fuel t' /\ forall t'', t' = TPtr t'' -> P fuel t'').
    { induction gs as [|[[tg vis] u] gs IHg]; intros S.
      - exists O. intros fuel _ f p t' [].
      - destruct IHg as (F & HF); [intros f Hf; apply S; now right|].
        assert (C : component E u t) by (exists Slot, Slot; eapply pt_field; [exact H|apply S; now left]).
        assert (PT : forall p, exists F, forall fuel, (F <= fuel)%nat -> forall t', place_type E p u = Some t' ->
          P fuel t' /\ forall t'', t' = TPtr t'' -> P fuel t'').
        { intros p. destruct (place_type E p u) as [t'|] eqn:Q; [|exists O; discriminate]. apply place_reaches in Q. destruct Q as [R| ->].
          - destruct (IH u C t' R) as (F1 & H1).
            assert (Q : exists F2, forall t'', t' = TPtr t'' -> forall fuel, (F2 <= fuel)%nat -> P fuel t'').
            { destruct t' as [k|k| |u1|u1|n u1|ku vu|fs1|j u1|j]; try (exists O; discriminate).
              destruct (IH u C u1) as (F2 & H2).
              - eapply reaches_step; [exact R|]. exists Slot, Target. now apply (pt_ptr E Slot).
              - exists F2. intros t'' [= <-]. exact H2. }
            destruct Q as (F2 & H2). exists (Nat.max F1 F2). intros fuel L t2 [= <-]. split; [apply H1; lia|].
            intros t'' Q. apply (H2 t'' Q). lia.
          - exists 1%nat. intros fuel L t2 [= <-]. split; [now apply HO|discriminate]. }
        destruct (PT {| star := true; index := true |}) as (Fa & Ha). destruct (PT {| star := true; index := false |}) as (Fb & Hb).
        destruct (PT {| star := false; index := true |}) as (Fc & Hc). destruct (PT {| star := false; index := false |}) as (Fd & Hd).
        exists (Nat.max F (Nat.max Fa (Nat.max Fb (Nat.max Fc Fd)))). intros fuel L f p t' [<-|I1] Q.
        + cbn [snd] in Q. destruct p as [[|] [|]].
          * apply Ha; [lia|exact Q].
          * apply Hb; [lia|exact Q].
          * apply Hc; [lia|exact Q].
          * apply Hd; [lia|exact Q].
        + apply (HF fuel ltac:(lia) f p t' I1 Q). }
    destruct (Y fs (fun f H => H)) as (F & HF). exists (S F). intros fuel L. destruct fuel as [|fuel]; [lia|].
    apply (HS t fs fuel H). apply HF. lia. }
  intros t' R. destruct R as [t|t u t' C R]; [exact X|]. exact (IH u C t' R).
Qed.
Lemma MarshalABI_finite E : (forall i x, eff (marshals E i x)) -> forall t, nonrecursive E t ->
  exists F, forall fuel, (F <= fuel)%nat -> forall v, eff (MarshalABI fuel E t v).
Proof.
  intros ME. apply (by_structs E (fun fuel t => forall v, eff (MarshalABI fuel E t v))).
  - intros t H fuel L v. destruct fuel as [|fuel]; [lia|]. cbn [MarshalABI].
    destruct (head E t) as [k|k| |u|u|n u|ku vu|fs|i u|i] eqn:Hd; try constructor; [|now destruct (H fs)|]; destruct v; try constructor; [|apply ME].
    destruct (go_kind k); [constructor|apply eff_marshal].
  - intros t fs fuel H HP v. cbn [MarshalABI]. rewrite H. destruct v; try constructor.
    destruct (GenUnmarshalFn fs) as [[c d]|e|m]; try constructor. apply eff_body. intros f Hf w s i. apply eff_exec.
    intros p t' Q. exact (HP f p t' Hf Q).
Qed.

(** ** Reading depends on the bytes taken only *)
Definition sour {A} (p : io A) : Prop := forall env inp v rest, run env p inp <> Done (v, None) rest.
Lemma sour_ret {A} (a : A) e : sour (DRet (a, Some e)).
Proof. intros env inp v rest. discriminate. Qed.
Lemma strict_determined {A} (p : io A) : IoStrict p -> determined p.
Proof.
  intros S env inp v rest R. pose proof (strict_truncation p S) as T. destruct (T env env inp v rest R) as (used & -> & _ & _).
  exists used. split; [reflexivity|]. intros env' rest'. destruct (T env env' _ v rest R) as (used' & Q & H & _).
  apply app_inv_tail in Q. subst used'. apply H.
Qed.
Lemma det_bind {A B} (p : io A) (f : A * option gerr -> io B) : determined p -> (forall a, determined (f (a, None))) ->
  (forall a e, sour (f (a, Some e))) -> determined (dbind p f).
Proof.
  intros P F S env inp v rest R. rewrite run_dbind in R. destruct (run env p inp) as [[a [e|]] r|m|] eqn:RP; try discriminate R.
  - now apply S in R.
  - destruct (P _ _ _ _ RP) as (u1 & -> & H1). destruct (F _ _ _ _ _ R) as (u2 & -> & H2). exists (u1 ++ u2).
    split; [now rewrite app_assoc|]. intros env' rest'. rewrite <- app_assoc, run_dbind, H1. apply H2.
Qed.
Lemma det_ret {A} (a : A) e : determined (DRet (a, e)).
Proof. intros env inp v rest [= <- <- <-]. now exists []. Qed.
Lemma det_panic {A} m : determined (@DPanic (A * option gerr) m).
Proof. intros env inp v rest R. discriminate R. Qed.
Lemma det_dwith {A} (r : res A) (f : A -> io rval) : (forall a, determined (f a)) -> determined (dwith r f).
Proof. intros H. destruct r; cbn [dwith]; [apply H|apply det_panic..]. Qed.
Lemma det_for f : (forall i v, determined (f i v)) -> forall n i v, determined (for_read f n i v).
Proof.
  intros H. induction n as [|n IH]; intros i v; cbn [for_read]; [apply det_ret|].
  apply det_bind; [apply H|intros a; apply IH|intros; apply sour_ret].
Qed.
Lemma det_exec unm E t : (forall t v, determined (unm t v)) -> forall s i v, determined (exec_read unm E t i s v).
Proof.
  intros H. assert (W : forall (r : res rval) e, determined (dwith r (fun v => DRet (v, e)))) by (intros; apply det_dwith; intros; apply det_ret).
  assert (X : forall (r : res rval) e, sour (dwith r (fun v => DRet (v, Some e)))) by (intros r e env inp v rest; destruct r; discriminate).
  induction s; intros i v; cbn [exec_read]; try apply det_panic.
  - apply det_bind; [apply strict_determined, read_prim_strict|intros a; apply W|intros a e; apply X].
  - apply det_bind; [apply strict_determined, read_prim_strict|intros a; apply W|intros; apply sour_ret].
  - apply det_dwith. intros x. cbv zeta. destruct (place_type E p t) as [t'|]; [|apply det_panic].
    assert (Y : forall t' x, determined ('(x, err) <-- unm t' x ;; dwith (assign_star p i v x) (fun v => DRet (v, err)))).
    { intros. apply det_bind; [apply H|intros a; apply W|intros a e; apply X]. }
    destruct t'; try apply Y. destruct x; try apply Y. destruct o; [|apply det_panic].
    apply det_bind; [apply H|intros a; apply W|intros a e; apply X].
  - apply det_bind; [apply strict_determined, ReadVaruint_strict| |intros; apply sour_ret]. intros l.
    cbv zeta. destruct (make_ok _ _); [|apply det_panic]. now apply det_for.
  - now apply det_for.
  - apply det_bind; [apply strict_determined, ReadBool_strict| |intros; apply sour_ret]. intros [|]; [apply IHs|apply det_ret].
Qed.
Lemma det_body unm E : (forall t v, determined (unm t v)) -> forall fs code l, determined (unmarshal_body unm E fs code l).
Proof.
  intros H. induction fs as [|[tv t] fs IH]; intros code l; cbn [unmarshal_body]; [apply det_ret|].
  destruct code; [apply det_ret|]. destruct l; [apply det_ret|].
  apply det_bind; [now apply det_exec| |intros; apply sour_ret]. intros a.
  apply det_bind; [apply IH|intros; apply det_ret|intros; apply sour_ret].
Qed.
Lemma UnmarshalABI_determined E : methods_determined E -> forall fuel t v, determined (UnmarshalABI fuel E t v).
Proof.
  intros M. induction fuel as [|fuel IH]; intros t v; cbn [UnmarshalABI]; [intros env inp x rest R; discriminate R|].
  destruct (head E t); try apply det_panic.
  - destruct v; try apply det_panic. destruct (go_kind k); [apply det_panic|]. apply strict_determined, leaf_read_strict.
  - destruct v; try apply det_panic. destruct (GenUnmarshalFn fs) as [[c d]|e|m]; try apply det_panic.
    apply det_bind; [now apply det_body|intros; apply det_ret|intros; apply sour_ret].
  - destruct v; try apply det_panic. apply det_bind; [apply M|intros; apply det_ret|intros; apply sour_ret].
Qed.

(** ** UnmarshalABI: more fuel gives the same result *)
Lemma dle_with {A} (r : res A) (f g : A -> io rval) : (forall a, dle (f a) (g a)) -> dle (dwith r f) (dwith r g).
Proof. intros H. destruct r; cbn [dwith]; [apply H|apply dle_refl..]. Qed.
Lemma for_read_mono f g : (forall i v, dle (f i v) (g i v)) -> forall n i v, dle (for_read f n i v) (for_read g n i v).
Proof.
  intros H. induction n as [|n IH]; intros i v; cbn [for_read]; [apply dle_refl|].
  apply dle_bind; [apply H|]. intros [a [e|]]; [apply dle_refl|apply IH].
Qed.
Lemma exec_read_mono f g E t : (forall t v, dle (f t v) (g t v)) -> forall s i v, dle (exec_read f E t i s v) (exec_read g E t i s v).
Proof.
  intros H. induction s; intros i v; cbn [exec_read]; try apply dle_refl.
  - apply dle_with. intros x. cbv zeta. destruct (place_type E p t) as [t'|]; [|apply dle_refl].
    assert (Y : forall t' x, dle ('(x, err) <-- f t' x ;; dwith (assign_star p i v x) (fun v => DRet (v, err)))
                                 ('(x, err) <-- g t' x ;; dwith (assign_star p i v x) (fun v => DRet (v, err)))).
    { intros. apply dle_bind; [apply H|]. intros; apply dle_refl. }
    destruct t'; try apply Y. destruct x; try apply Y. destruct o; [|apply dle_refl].
    apply dle_bind; [apply H|]. intros; apply dle_refl.
  - apply dle_bind; [apply dle_refl|]. intros [l [e|]]; [apply dle_refl|]. cbv zeta.
    destruct (make_ok _ _); [|apply dle_refl]. now apply for_read_mono.
  - now apply for_read_mono.
  - apply dle_bind; [apply dle_refl|]. intros [b [e|]]; [apply dle_refl|]. destruct b; [apply IHs|apply dle_refl].
Qed.
Lemma unmarshal_body_mono f g E : (forall t v, dle (f t v) (g t v)) -> forall fs code l, dle (unmarshal_body f E fs code l) (unmarshal_body g E fs code l).
Proof.
  intros H. induction fs as [|[tv t] fs IH]; intros code l; cbn [unmarshal_body]; [apply dle_refl|].
  destruct code; [apply dle_refl|]. destruct l; [apply dle_refl|].
  apply dle_bind; [now apply exec_read_mono|]. intros [a [e|]]; [apply dle_refl|].
  apply dle_bind; [apply IH|]. intros; apply dle_refl.
Qed.
Lemma UnmarshalABI_mono E : forall fuel t v, dle (UnmarshalABI fuel E t v) (UnmarshalABI (S fuel) E t v).
Proof.
  induction fuel as [|fuel IH]; intros t v; [constructor|]. remember (S fuel) as f1 eqn:F. rewrite F at 1. cbn [UnmarshalABI].
  destruct (head E t); try apply dle_refl. destruct v; try apply dle_refl. destruct (GenUnmarshalFn fs) as [[c d]|e|m]; try apply dle_refl.
  apply dle_bind; [|intros; apply dle_refl]. apply unmarshal_body_mono. subst. exact IH.
Qed.
Lemma UnmarshalABI_stable env E t v inp fuel fuel' : (fuel <= fuel')%nat -> run env (UnmarshalABI fuel E t v) inp <> Diverged ->
  run env (UnmarshalABI fuel' E t v) inp = run env (UnmarshalABI fuel E t v) inp.
Proof.
  intros L. induction L as [|fuel' L IH]; intros H; [reflexivity|].
  destruct (dle_run env _ _ (UnmarshalABI_mono E fuel' t v) inp) as [D|Q]; [|rewrite Q; auto].
  rewrite IH in D by exact H. contradiction.
Qed.
(** Methods that end, in terms of runs. *)
Lemma runf_shift {A} (p : enc A) o o' : forall i i' out, (forall j, o (i + j)%nat = o' (i' + j)%nat) -> runf o i p out = runf o' i' p out.
Proof.
  induction p as [a|m| |bs k IH]; intros i i' out H; cbn [runf]; try reflexivity.
  pose proof (H 0%nat) as H0. rewrite !Nat.add_0_r in H0. rewrite H0.
  assert (X : forall j, o (S i + j)%nat = o' (S i' + j)%nat) by (intros j; specialize (H (S j)); now rewrite !Nat.add_succ_r in H).
  destruct (o' i') as [[n e]|]; now apply IH.
Qed.
Lemma end_eff p : (forall o k out, runf o k p out <> WDiverged) -> eff p.
Proof.
  induction p as [a|m| |bs k IH]; intros H; try constructor.
  - now destruct (H (fun _ => None) 0%nat []).
  - intros e. apply IH. intros o k0 out D.
    set (o' := fun j => match j with
                        | O => match e with Some e => Some (length bs, e) | None => None end
                        | S j => o (k0 + j)%nat
                        end).
    destruct e as [e|].
    + apply (H o' 0%nat []). cbn [runf o']. unfold o' at 1. rewrite (runf_shift _ _ o 1 k0) by reflexivity. 
      clear -D. revert D. generalize ([] ++ firstn (length bs) bs). intros out'. generalize (k (Some e)). intros p. revert k0 out out'.
      induction p as [a|m| |bs' k' IH]; intros k0 out out'; cbn [runf]; try discriminate; [reflexivity|].
      destruct (o k0) as [[n e']|]; apply IH.
    + apply (H o' 0%nat []). cbn [runf o']. unfold o' at 1. rewrite (runf_shift _ _ o 1 k0) by reflexivity.
      clear -D. revert D. generalize ([] ++ bs). intros out'. generalize (k None). intros p. revert k0 out out'.
      induction p as [a|m| |bs' k' IH]; intros k0 out out'; cbn [runf]; try discriminate; [reflexivity|].
      destruct (o k0) as [[n e']|]; apply IH.
Qed.
Lemma eff_end p : eff p -> forall o k out, runf o k p out <> WDiverged.
Proof. induction 1; intros o k0 out; cbn [runf]; try discriminate. destruct (o k0) as [[n e]|]; apply H0. Qed.
(** On a finite type the generated UnmarshalABI needs no more than a fixed amount. *)
Lemma ends_dwith {A} env inp (r : res A) (f : A -> io rval) : (forall a, ends env (f a) inp) -> ends env (dwith r f) inp.
Proof. intros H. destruct r; cbn [dwith]; [apply H|exact I..]. Qed.
Lemma ends_for env f : (forall i v inp, ends env (f i v) inp) -> forall n i v inp, ends env (for_read f n i v) inp.
Proof.
  intros H. induction n as [|n IH]; intros i v inp; cbn [for_read]; [apply le_n|].
  apply ends_bind; [apply H|]. intros [a [e|]] rest _ L; [apply le_n|apply IH].
Qed.
Lemma ends_exec unm E t env : (forall p t', place_type E p t = Some t' -> (forall x inp, ends env (unm t' x) inp) /\ forall t'', t' = TPtr t'' -> forall x inp, ends env (unm t'' x) inp) ->
  forall s i v inp, ends env (exec_read unm E t i s v) inp.
Proof.
  intros H. assert (W : forall (r : res rval) e inp, ends env (dwith r (fun v => DRet (v, e))) inp).
  { intros. apply ends_dwith. intros. apply le_n. }
  induction s; intros i v inp; cbn [exec_read]; try exact I.
  - apply ends_bind; [apply fuel_free_ends, ff_read|]. intros [q e] rest _ _. apply W.
  - apply ends_bind; [apply fuel_free_ends, ff_read|]. intros [q [e|]] rest _ _; [apply le_n|apply W].
  - apply ends_dwith. intros x. cbv zeta. destruct (place_type E p t) as [t'|] eqn:P; [|exact I]. destruct (H p t' P) as [H1 H2].
    assert (Y : forall x, ends env ('(x, err) <-- unm t' x ;; dwith (assign_star p i v x) (fun v => DRet (v, err))) inp).
    { intros y. apply ends_bind; [apply H1|]. intros [q e] rest _ _. apply W. }
    destruct t'; try apply Y. destruct x; try apply Y. destruct o; [|exact I].
    apply ends_bind; [now apply H2|]. intros [q e] rest _ _. apply W.
  - apply ends_bind; [apply fuel_free_ends, ff_ReadVaruint|]. intros [l [e|]] rest _ _; [apply le_n|]. cbv zeta.
    destruct (make_ok _ _); [|exact I]. now apply ends_for.
  - now apply ends_for.
  - apply ends_bind; [apply fuel_free_ends; unfold ReadBool; apply ff_bind; [apply ff_ReadByte|intros [? ?]; exact I]|].
    intros [b [e|]] rest _ _; [apply le_n|]. destruct b; [apply IHs|apply le_n].
Qed.
Lemma ends_body unm E env code : forall fs l inp, (forall f, In f fs -> forall v s i inp, ends env (exec_read unm E (snd f) i s v) inp) ->
  ends env (unmarshal_body unm E fs code l) inp.
Proof.
  induction code as [|s code IH]; intros fs l inp H; destruct fs as [|[tv t] fs]; cbn [unmarshal_body]; try apply le_n.
  destruct l; [apply le_n|]. apply ends_bind; [apply (H _ (or_introl eq_refl))|]. intros [v [e|]] rest _ _; [apply le_n|].
  apply ends_bind; [|intros [? ?] ? _ _; apply le_n]. apply IH. intros f Hf. apply H. now right.
Qed.
Lemma UnmarshalABI_finite E : methods_end E -> forall t, nonrecursive E t ->
  exists F, forall fuel, (F <= fuel)%nat -> forall v env inp, ends env (UnmarshalABI fuel E t v) inp.
Proof.
  intros ME. apply (by_structs E (fun fuel t => forall v env inp, ends env (UnmarshalABI fuel E t v) inp)).
  - intros t H fuel L v env inp. destruct fuel as [|fuel]; [lia|]. cbn [UnmarshalABI].
    destruct (head E t) as [k|k| |u|u|n u|ku vu|fs|i u|i] eqn:Hd; try exact I; [|now destruct (H fs)|]; destruct v; try exact I.
    + destruct (go_kind k); [exact I|]. apply fuel_free_ends, ff_leaf.
    + apply ends_bind; [apply ME|]. intros [? ?] ? _ _. apply le_n.
  - intros t fs fuel H HP v env inp. cbn [UnmarshalABI]. rewrite H. destruct v; try exact I.
    destruct (GenUnmarshalFn fs) as [[c d]|e|m]; try exact I. apply ends_bind; [|intros [? ?] ? _ _; apply le_n].
    apply ends_body. intros f Hf w s i inp'. apply ends_exec.
    intros p t' Q. destruct (HP f p t' Hf Q) as [P1 P2]. split; [intros; apply P1|]. intros t'' Q' x inp2. now apply P2.
Qed.
