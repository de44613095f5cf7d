(** The hand-written codecs write what the reflective encoder writes for plain
    structs with the same fields. *)
From Verif Require Import Base Prog AbiPrim BaseProofs SpecWire ProgProofs AbiPrimProofs Chain SpecChain ChainProofs
  Values Leaf SpecLeaf LeafProofs Reflect SpecReflect ReflectProofs ReflectTags ReflectCustom SpecMirror.

Lemma weq_trans {A} (p q r : enc A) : weq p q -> weq q r -> weq p r.
Proof. intros H1 H2 out. now rewrite H1. Qed.
Lemma weq_sym {A} (p q : enc A) : weq p q -> weq q p.
Proof. intros H out. now rewrite H. Qed.
Lemma leaf_weq E k p z : kind_of p = k -> weq (Encode E (TLeaf k) (RLeaf p z)) (write_prim p).
Proof. intros K out. now apply (Encode_leaf E (TLeaf k) k). Qed.
Lemma etry_end p : weq (etry p (ERet None)) p.
Proof. intros out. rewrite runw_etry. destruct (runw p out) as [[e|] o|m o|]; reflexivity. Qed.
Lemma etry_assoc p q r : weq (etry (etry p q) r) (etry p (etry q r)).
Proof. intros out. rewrite !runw_etry. destruct (runw p out) as [[e|] o|m o|]; try reflexivity. now rewrite runw_etry. Qed.
Lemma struct_weq E fs l : weq (Encode E (TStruct fs) (RStruct l)) (put_fields E chain_encoder fs l).
Proof. intros out. now rewrite (Encode_struct E (TStruct fs) fs l eq_refl). Qed.
Lemma field_weq E t v fs l p q : weq (Encode E t v) p -> weq (put_fields E chain_encoder fs l) q ->
  weq (put_fields E chain_encoder (field t :: fs) (v :: l)) (etry p q).
Proof. intros H1 H2. unfold field. rewrite put_plain by discriminate. now apply weq_etry. Qed.
Lemma last_weq E t v p : weq (Encode E t v) p -> weq (put_fields E chain_encoder [field t] [v]) p.
Proof. intros H. eapply weq_trans; [apply field_weq; [exact H|apply weq_refl]|]. apply etry_end. Qed.
Lemma put_list_map {A} (f : A -> rval) g h l k : (forall x, weq (g (f x)) (h x)) ->
  weq (etry (put_list g (map f l)) k) (write_all h l k).
Proof.
  intros H. induction l as [|x l IH]; cbn [map put_list write_all].
  - intros out. now rewrite runw_etry.
  - eapply weq_trans; [apply etry_assoc|]. apply weq_etry; [apply H|exact IH].
Qed.
Lemma slice_weq {A} E t (f : A -> rval) h l k : (forall x, weq (Encode E t (f x)) (h x)) ->
  weq (etry (Encode E (TSlice t) (RSlice (Some (map f l)))) k) (etry (WriteVaruint (zlen l)) (write_all h l k)).
Proof.
  intros H. rewrite (Encode_slice E (TSlice t) t _ eq_refl). cbn [elems]. unfold zlen. rewrite map_length.
  eapply weq_trans; [apply etry_assoc|]. apply weq_etry; [apply weq_refl|now apply put_list_map].
Qed.
Lemma ignored p q : (forall out, exists o, runw p out = WDone None o) -> weq (ebind p (fun _ => q)) (etry p q).
Proof. intros H out. rewrite runw_etry, runw_ebind. destruct (H out) as [o ->]. reflexivity. Qed.
Lemma u64_done v out : exists o, runw (WriteUint64 v) out = WDone None o.
Proof. eexists. reflexivity. Qed.

Lemma Permission_weq E p : weq (Encode E PermissionLevel_struct (PermissionLevel_fields p)) (PermissionLevel_MarshalABI p).
Proof.
  eapply weq_trans; [apply struct_weq|]. eapply weq_trans; [|apply weq_sym, ignored, u64_done].
  apply field_weq; [now apply leaf_weq|]. apply last_weq. now apply leaf_weq.
Qed.
Lemma write_auths_all l k : write_auths l k = write_all PermissionLevel_MarshalABI l k.
Proof. induction l as [|p l IH]; cbn; [reflexivity|now rewrite IH]. Qed.
Lemma Action_weq E a : weq (Encode E Action_struct (Action_fields a)) (Action_MarshalABI a).
Proof.
  eapply weq_trans; [apply struct_weq|]. unfold Action_MarshalABI. eapply weq_trans; [|apply weq_sym, ignored, u64_done].
  apply field_weq; [now apply leaf_weq|]. eapply weq_trans; [|apply weq_sym, ignored, u64_done].
  apply field_weq; [now apply leaf_weq|]. rewrite write_auths_all.
  unfold field. rewrite put_plain by discriminate. eapply weq_trans; [apply slice_weq; intros; apply Permission_weq|].
  apply weq_etry; [apply weq_refl|]. clear. induction (Authorization a) as [|p l IH]; cbn [write_all].
  - apply last_weq. now apply leaf_weq.
  - apply weq_etry; [apply weq_refl|exact IH].
Qed.
Lemma Header_weq E h : weq (Encode E TransactionHeader_struct (TransactionHeader_fields h)) (TransactionHeader_MarshalABI h).
Proof.
  eapply weq_trans; [apply struct_weq|]. repeat (apply field_weq; [now apply leaf_weq|]). apply last_weq. now apply leaf_weq.
Qed.
Lemma Extension_weq E e : weq (Encode E TransactionExtension_struct (TransactionExtension_fields e)) (TransactionExtension_MarshalABI e).
Proof. eapply weq_trans; [apply struct_weq|]. apply field_weq; [now apply leaf_weq|]. apply last_weq. now apply leaf_weq. Qed.
Lemma Asset_weq E a : weq (Encode E Asset_struct (Asset_fields a)) (Asset_MarshalABI a).
Proof. eapply weq_trans; [apply struct_weq|]. apply field_weq; [now apply leaf_weq|]. apply last_weq. now apply leaf_weq. Qed.
Lemma write_all_weq {A} (h : A -> wr) l k k' : weq k k' -> weq (write_all h l k) (write_all h l k').
Proof. intros H. induction l as [|x l IH]; cbn [write_all]; [exact H|]. apply weq_etry; [apply weq_refl|exact IH]. Qed.
Lemma Transaction_weq E t : weq (Encode E Transaction_struct (Transaction_fields t)) (Transaction_MarshalABI t).
Proof.
  eapply weq_trans; [apply struct_weq|]. apply field_weq; [apply Header_weq|].
  unfold field. rewrite put_plain by discriminate. eapply weq_trans; [apply slice_weq; intros; apply Action_weq|].
  apply weq_etry; [apply weq_refl|]. apply write_all_weq.
  rewrite put_plain by discriminate. eapply weq_trans; [apply slice_weq; intros; apply Action_weq|].
  apply weq_etry; [apply weq_refl|]. apply write_all_weq.
  rewrite put_plain by discriminate. eapply weq_trans; [apply slice_weq; intros; apply Extension_weq|].
  apply weq_etry; [apply weq_refl|]. apply write_all_weq. apply weq_refl.
Qed.

(** By value, by pointer, as a field. *)
Lemma by_pointer E k p z : kind_of p = k -> weq (Encode E (TPtr (TLeaf k)) (RPtr (Some (RLeaf p z)))) (write_prim p).
Proof.
  intros K out. rewrite (Encode_ptr E (TPtr (TLeaf k)) (TLeaf k) _ eq_refl).
  - now apply leaf_weq.
  - split; [|discriminate]. intros k' Q. cbn in Q. injection Q as <-. eauto.
Qed.
Lemma as_field E k p z : kind_of p = k -> weq (Encode E (TStruct [field (TLeaf k)]) (RStruct [RLeaf p z])) (write_prim p).
Proof. intros K. eapply weq_trans; [apply struct_weq|]. apply last_weq. now apply leaf_weq. Qed.
