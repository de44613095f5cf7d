(** Proofs about the binary form of the fixed chain types. *)
From Verif Require Import Base BaseProofs Prog ProgProofs SpecWire GoVarint AbiPrim AbiPrimProofs
  Chain SpecChain.
Ltac Zify.zify_post_hook ::= Z.div_mod_to_equations.

Lemma errs_some {A} (a : A) e : errs (a, Some e).
Proof. unfold errs; cbn; congruence. Qed.
Lemma failing_ret_err {A} (a : A) e : IoFailing (DRet (a, Some e)).
Proof. constructor. apply errs_some. Qed.
#[global] Hint Resolve errs_some failing_ret_err : core.

(** ** Composition lemmas for the [(v, err)] style *)
Lemma strict_bind_err {A B} (p : io A) (f : A * option gerr -> io B) :
  IoStrict p -> (forall a, IoStrict (f (a, None))) -> (forall a e, IoStrict (f (a, Some e))) ->
  (forall a e, IoFailing (f (a, Some e))) -> IoStrict (dbind p f).
Proof.
  intros Hp H1 H2 H3. eapply strict_bind; [exact Hp| |].
  - intros [a [e|]]; [apply H2|apply H1].
  - intros [a [e|]] He; [apply H3|now elim He].
Qed.
Lemma failing_bind_err {A B} (p : io A) (f : A * option gerr -> io B) :
  IoFailing p -> (forall a e, IoFailing (f (a, Some e))) -> IoFailing (dbind p f).
Proof.
  intros Hp H. eapply failing_bind; [exact Hp|].
  intros [a [e|]] He; [apply H|now elim He].
Qed.
(** The error of [p] is ignored, but everything that follows fails. *)
Lemma strict_bind_ignore {A B} (p : io A) (f : A * option gerr -> io B) :
  IoStrict p -> (forall r, IoStrict (f r)) -> (forall r, IoFailing (f r)) -> IoStrict (dbind p f).
Proof. intros Hp H1 H2. eapply strict_bind; [exact Hp|exact H1|intros r _; apply H2]. Qed.
Lemma failing_bind_ignore {A B} (p : io A) (f : A * option gerr -> io B) :
  IoFailing p -> (forall r, IoFailing (f r)) -> IoFailing (dbind p f).
Proof. intros Hp H2. eapply failing_bind; [exact Hp|intros r _; apply H2]. Qed.

Lemma strict_keep {A} (old : A) p : IoStrict p -> IoStrict (keep old p).
Proof. intros H. apply strict_bind_err; [exact H|constructor|constructor|auto]. Qed.
Lemma failing_keep {A} (old : A) p : IoFailing p -> IoFailing (keep old p).
Proof. intros H. apply failing_bind_err; [exact H|auto]. Qed.
Lemma calm_keep {A} (old : A) p : Calm p -> Calm (keep old p).
Proof. intros H. apply calm_bind; auto. intros [a e]. constructor. Qed.
Lemma reads_keep {A} (old : A) p bs v : reads p bs v -> reads (keep old p) bs v.
Proof.
  intros H. rewrite <- (app_nil_r bs). eapply reads_dbind; [exact H|]. apply reads_ret.
Qed.
Lemma reads_map {A B} (p : io A) (f : A * option gerr -> io B) bs v w :
  reads p bs v -> f (v, None) = DRet (w, None) -> reads (dbind p f) bs w.
Proof.
  intros H E. rewrite <- (app_nil_r bs). eapply reads_dbind; [exact H|].
  rewrite E. apply reads_ret.
Qed.

(** ** Layout lemmas *)
Lemma lay_le n v : fixed_le n v (le_put n v).
Proof. apply is_le_put. Qed.
Lemma lay_varu v : 0 <= v < 268435456 -> varu v (varuint v).
Proof. intros H. destruct (varuint_spec v H) as [_ [M [V _]]]. split; assumption. Qed.
Lemma lay_cat (P Q : layout) a b : P a -> Q b -> (P +++ Q) (a ++ b).
Proof. intros. exists a, b. auto. Qed.
Lemma lay_bytes d : zlen d < 268435456 -> bytes_layout d (sized d).
Proof. intros H. apply lay_cat; [apply lay_varu; pose proof (zlen_nonneg d); lia|reflexivity]. Qed.

(** ** Scalars *)
Lemma Name_strict old : IoStrict (Name_UnmarshalABI old).
Proof. apply strict_keep, ReadUint64_strict. Qed.
Lemma Name_failing old : IoFailing (Name_UnmarshalABI old).
Proof. apply failing_keep, ReadUint64_failing. Qed.
Lemma Name_calm old : Calm (Name_UnmarshalABI old).
Proof. apply calm_keep, ReadUint64_calm. Qed.
Lemma Name_reads old v : 0 <= v < two64 -> reads (Name_UnmarshalABI old) (le_put 8 v) v.
Proof. intros H. apply reads_keep. now apply ReadUint64_reads. Qed.

(** ** Bytes *)
Lemma Bytes_writes d : zlen d < 268435456 -> writes (Bytes_MarshalABI d) (sized d).
Proof. apply WriteString_writes. Qed.
Lemma Bytes_reads old d : zlen d < 268435456 -> reads (Bytes_UnmarshalABI old) (sized d) d.
Proof.
  intros H. pose proof (zlen_nonneg d).
  eapply reads_dtry; [apply ReadVaruint_reads; lia|]. rewrite i64_small by lia.
  eapply reads_map; [apply ReadBytes_reads; unfold max_alloc; lia|reflexivity].
Qed.
Lemma Bytes_strict old : IoStrict (Bytes_UnmarshalABI old).
Proof.
  apply strict_dtry; [apply ReadVaruint_strict|]. intros l.
  apply strict_bind_err; [apply ReadBytes_strict| | |]; intros [an b]; intros; try constructor; auto.
Qed.
Lemma Bytes_wstrict d : WStrict (Bytes_MarshalABI d).
Proof. apply wstrict_string. Qed.

(** ** Permission levels and actions *)
Definition b_pl (p : PermissionLevel) : list byte := le_put 8 (Actor p) ++ le_put 8 (Permission p).
Definition b_pls (l : list PermissionLevel) : list byte := concat (map b_pl l).
Definition b_action (a : Action) : list byte :=
  le_put 8 (Account a) ++ le_put 8 (AName a) ++ varuint (zlen (Authorization a))
  ++ b_pls (Authorization a) ++ sized (AData a).

Lemma PL_writes p : writes (PermissionLevel_MarshalABI p) (b_pl p).
Proof. apply writes_ebind; apply writes_bytes. Qed.
Lemma PL_reads old p : wf_permission p -> reads (PermissionLevel_UnmarshalABI old) (b_pl p) p.
Proof.
  intros [H1 H2]. unfold in_u in *. eapply reads_dbind; [now apply Name_reads|].
  eapply reads_map; [now apply Name_reads|]. destruct p; reflexivity.
Qed.
Lemma PL_strict old : IoStrict (PermissionLevel_UnmarshalABI old).
Proof.
  apply strict_bind_ignore; [apply Name_strict| |].
  - intros [a _]. apply strict_bind_err; [apply Name_strict| | |]; intros; try constructor; auto.
  - intros [a _]. apply failing_bind_err; [apply Name_failing|auto].
Qed.
Lemma PL_calm old : Calm (PermissionLevel_UnmarshalABI old).
Proof.
  apply calm_bind; [apply Name_calm|]. intros [a _].
  apply calm_bind; [apply Name_calm|]. intros [b e]. constructor.
Qed.

Lemma read_auths_reads l : forall acc, Forall wf_permission l ->
  reads (read_auths (length l) acc) (b_pls l) (acc ++ l).
Proof.
  induction l as [|p l IH]; intros acc H; cbn [length read_auths b_pls map concat].
  - rewrite app_nil_r. apply reads_ret.
  - inversion H; subst. eapply reads_dbind; [now apply PL_reads|]. cbn.
    replace (acc ++ p :: l) with ((acc ++ [p]) ++ l) by now rewrite <- app_assoc.
    now apply IH.
Qed.
Lemma read_auths_strict n : forall acc, IoStrict (read_auths n acc).
Proof.
  induction n as [|n IH]; intros acc; cbn [read_auths]; [constructor|].
  apply strict_bind_err; [apply PL_strict|intros; apply IH|intros; constructor|auto].
Qed.

Lemma write_auths_writes l k bs : writes k bs -> writes (write_auths l k) (b_pls l ++ bs).
Proof.
  intros H. induction l as [|p l IH]; [exact H|].
  cbn [write_auths b_pls map concat]. rewrite <- app_assoc. apply writes_etry; [apply PL_writes|exact IH].
Qed.

Lemma Action_writes a : wf_action a -> writes (Action_MarshalABI a) (b_action a).
Proof.
  intros (H1 & H2 & H3 & H4 & H5). unfold short in *. pose proof (zlen_nonneg (Authorization a)).
  apply writes_ebind; [apply writes_bytes|]. apply writes_ebind; [apply writes_bytes|].
  apply writes_etry; [apply WriteVaruint_writes; lia|].
  apply write_auths_writes. apply Bytes_writes. lia.
Qed.

Definition append_auth (old a : Action) : Action :=
  {| Account := Account a; AName := AName a;
     Authorization := Authorization old ++ Authorization a; AData := AData a |}.

Lemma Action_reads_into old a : wf_action a ->
  reads (Action_UnmarshalABI old) (b_action a) (append_auth old a).
Proof.
  intros (H1 & H2 & H3 & H4 & H5). unfold short, in_u in *. pose proof (zlen_nonneg (Authorization a)).
  eapply reads_dbind; [now apply Name_reads|]. eapply reads_dbind; [now apply Name_reads|].
  eapply reads_dbind; [apply ReadVaruint_reads; lia|]. cbv beta iota.
  rewrite i64_small by lia. unfold zlen. rewrite Nat2Z.id.
  eapply reads_dbind; [now apply read_auths_reads|]. cbv beta iota.
  eapply reads_map; [apply Bytes_reads; lia|]. reflexivity.
Qed.

Lemma append_auth_fresh old a : Authorization old = [] -> append_auth old a = a.
Proof. intros E. unfold append_auth. rewrite E. destruct a; reflexivity. Qed.

Lemma Action_reads a : wf_action a -> reads (Action_UnmarshalABI zero_action) (b_action a) a.
Proof.
  intros H. rewrite <- (append_auth_fresh zero_action a) at 2 by reflexivity.
  now apply Action_reads_into.
Qed.

Lemma Action_strict old : IoStrict (Action_UnmarshalABI old).
Proof.
  apply strict_bind_ignore; [apply Name_strict| |].
  - intros [acc _]. apply strict_bind_ignore; [apply Name_strict| |].
    + intros [nm _]. apply strict_bind_err; [apply ReadVaruint_strict| |constructor|auto].
      intros l. apply strict_bind_err; [apply read_auths_strict| |constructor|auto].
      intros au. apply strict_bind_err; [apply Bytes_strict|constructor|constructor|auto].
    + intros [nm _]. apply failing_bind_err; [apply ReadVaruint_failing|auto].
  - intros [acc _]. apply failing_bind_ignore; [apply Name_failing|].
    intros [nm _]. apply failing_bind_err; [apply ReadVaruint_failing|auto].
Qed.

Lemma seq_layout {A} (f : A -> layout) (b : A -> list byte) l :
  Forall (fun x => f x (b x)) l -> seq_of f l (concat (map b l)).
Proof.
  intros H. induction H; cbn [seq_of map concat]; [reflexivity|]. now apply lay_cat.
Qed.
Lemma vec_layout {A} (f : A -> layout) (b : A -> list byte) l : short l ->
  Forall (fun x => f x (b x)) l -> vec_of f l (varuint (zlen l) ++ concat (map b l)).
Proof.
  intros S H. apply lay_cat; [apply lay_varu; unfold short in S; pose proof (zlen_nonneg l); lia|].
  now apply seq_layout.
Qed.
Lemma pl_layout p : permission_layout p (b_pl p).
Proof. apply lay_cat; apply lay_le. Qed.
Lemma action_lay a : wf_action a -> action_layout a (b_action a).
Proof.
  intros (H1 & H2 & H3 & H4 & H5).
  apply lay_cat; [apply lay_le|]. apply lay_cat; [apply lay_le|].
  rewrite app_assoc. apply lay_cat.
  - apply (vec_layout permission_layout b_pl); [exact H3|].
    apply Forall_forall. intros p _. apply pl_layout.
  - apply lay_bytes. unfold short in H5. lia.
Qed.

(** *** Faults while writing an action *)
Lemma wstrict_bind_ignore (p : wr) (f : option gerr -> wr) :
  WStrict p -> (forall e, WStrict (f e)) -> (forall e, WFailing (f e)) -> WStrict (ebind p f).
Proof. intros Hp H1 H2. eapply estrict_bind; [exact Hp|exact H1|intros r _; apply H2]. Qed.
Lemma wfailing_bind_ignore (p : wr) (f : option gerr -> wr) :
  WFailing p -> (forall e, WFailing (f e)) -> WFailing (ebind p f).
Proof. intros Hp H2. eapply efailing_bind; [exact Hp|intros r _; apply H2]. Qed.
Lemma wfailing_varuint v : 0 <= v < 268435456 -> WFailing (WriteVaruint v).
Proof.
  intros H. destruct (varuint_spec v H) as [E _]. unfold WriteVaruint. rewrite E. apply wfailing_bytes.
Qed.
Lemma PL_wstrict p : WStrict (PermissionLevel_MarshalABI p).
Proof.
  apply wstrict_bind_ignore; [apply wstrict_bytes|intros; apply wstrict_bytes|intros; apply wfailing_bytes].
Qed.
Lemma write_auths_wstrict l k : WStrict k -> WStrict (write_auths l k).
Proof.
  intros H. induction l as [|p l IH]; [exact H|]. apply wstrict_etry; [apply PL_wstrict|exact IH].
Qed.
Lemma Action_wstrict a : short (Authorization a) -> WStrict (Action_MarshalABI a).
Proof.
  intros H. unfold short in H. pose proof (zlen_nonneg (Authorization a)).
  apply wstrict_bind_ignore; [apply wstrict_bytes| |].
  - intros _. apply wstrict_bind_ignore; [apply wstrict_bytes| |].
    + intros _. apply wstrict_etry; [apply wstrict_varuint|].
      apply write_auths_wstrict, Bytes_wstrict.
    + intros _. apply wfailing_etry, wfailing_varuint. lia.
  - intros _. apply wfailing_bind_ignore; [apply wfailing_bytes|].
    intros _. apply wfailing_etry, wfailing_varuint. lia.
Qed.

(** A successful run of an action without faults implies a writable length. *)
Lemma Action_runw_short a out r full :
  runw (Action_MarshalABI a) out = WDone r full -> short (Authorization a).
Proof.
  unfold Action_MarshalABI. rewrite runw_ebind. cbn [Name_MarshalABI WriteUint64 WriteBytes runw].
  rewrite runw_ebind. cbn [Name_MarshalABI WriteUint64 WriteBytes runw].
  unfold etry. rewrite runw_ebind. intros H. unfold short.
  destruct (Z.lt_ge_cases (zlen (Authorization a)) (2 ^ 28)) as [|G]; [assumption|].
  rewrite WriteVaruint_panics in H by lia. discriminate.
Qed.

(** ** Transactions *)
Definition b_header (h : TransactionHeader) : list byte :=
  le_put 4 (Expiration h) ++ le_put 2 (RefBlockNum h) ++ le_put 4 (RefBlockPrefix h)
  ++ varuint (MaxNetUsageWords h) ++ le_put 1 (MaxCpuUsageMs h) ++ varuint (DelaySec h).
Definition b_ext (e : TransactionExtension) : list byte := le_put 2 (EType e) ++ sized (EData e).
Definition b_vec {A} (b : A -> list byte) (l : list A) : list byte :=
  varuint (zlen l) ++ concat (map b l).
Definition b_tx (t : Transaction) : list byte :=
  b_header (Header t) ++ b_vec b_action (ContextFreeActions t) ++ b_vec b_action (Actions t)
  ++ b_vec b_ext (Extensions t).

Lemma ReadUint8_reads v : 0 <= v < 256 -> reads ReadUint8 (le_put 1 v) v.
Proof.
  intros H env rest. unfold ReadUint8. rewrite run_dtry. cbn [le_put app].
  rewrite run_ReadByte_cons, zb_bz. cbn [run]. rewrite Z.mod_small by lia. reflexivity.
Qed.

Lemma Header_writes h : wf_header h -> writes (TransactionHeader_MarshalABI h) (b_header h).
Proof.
  intros (H1 & H2 & H3 & H4 & H5 & H6). unfold in_u in *.
  apply writes_etry; [apply writes_bytes|]. apply writes_etry; [apply writes_bytes|].
  apply writes_etry; [apply writes_bytes|]. apply writes_etry; [apply WriteVaruint_writes; lia|].
  apply writes_etry; [apply writes_byte|]. apply WriteVaruint_writes; lia.
Qed.
Lemma Header_reads old h : wf_header h -> reads (TransactionHeader_UnmarshalABI old) (b_header h) h.
Proof.
  intros (H1 & H2 & H3 & H4 & H5 & H6). unfold in_u in *.
  eapply reads_dbind; [apply reads_keep; apply ReadUint32_reads; lia|]. cbv beta iota zeta.
  eapply reads_dbind; [apply ReadUint16_reads; lia|]. cbv beta iota zeta.
  eapply reads_dbind; [apply ReadUint32_reads; lia|]. cbv beta iota zeta.
  eapply reads_dbind; [apply ReadVaruint_reads; lia|]. cbv beta iota zeta.
  eapply reads_dbind; [apply ReadUint8_reads; lia|]. cbv beta iota zeta.
  eapply reads_map; [apply ReadVaruint_reads; lia|]. destruct h; reflexivity.
Qed.
Lemma Header_strict old : IoStrict (TransactionHeader_UnmarshalABI old).
Proof.
  apply strict_bind_err; [apply strict_keep, ReadUint32_strict| |constructor|auto]. intros.
  apply strict_bind_err; [apply ReadUint16_strict| |constructor|auto]. intros.
  apply strict_bind_err; [apply ReadUint32_strict| |constructor|auto]. intros.
  apply strict_bind_err; [apply ReadVaruint_strict| |constructor|auto]. intros.
  apply strict_bind_err; [apply ReadUint8_strict| |constructor|auto]. intros.
  apply strict_bind_err; [apply ReadVaruint_strict|constructor|constructor|auto].
Qed.
Lemma Header_calm old : Calm (TransactionHeader_UnmarshalABI old).
Proof.
  apply calm_bind; [apply calm_keep, ReadUint32_calm|]. intros [? [?|]]; [constructor|].
  apply calm_bind; [apply ReadUint16_calm|]. intros [? [?|]]; [constructor|].
  apply calm_bind; [apply ReadUint32_calm|]. intros [? [?|]]; [constructor|].
  apply calm_bind; [apply ReadVaruint_calm|]. intros [? [?|]]; [constructor|].
  apply calm_bind; [apply ReadUint8_calm|]. intros [? [?|]]; [constructor|].
  apply calm_bind; [apply ReadVaruint_calm|]. intros [? ?]; constructor.
Qed.
Lemma Header_wstrict h : WStrict (TransactionHeader_MarshalABI h).
Proof.
  repeat (apply wstrict_etry; [first [apply wstrict_bytes|apply wstrict_byte|apply wstrict_varuint]|]).
  apply wstrict_varuint.
Qed.

Lemma Ext_writes e : wf_extension e -> writes (TransactionExtension_MarshalABI e) (b_ext e).
Proof.
  intros [H1 H2]. unfold short in *. apply writes_etry; [apply writes_bytes|apply Bytes_writes; lia].
Qed.
Lemma Ext_reads old e : wf_extension e -> reads (TransactionExtension_UnmarshalABI old) (b_ext e) e.
Proof.
  intros [H1 H2]. unfold short, in_u in *. eapply reads_dbind; [apply ReadUint16_reads; lia|]. cbv beta iota zeta.
  eapply reads_map; [apply Bytes_reads; lia|]. destruct e; reflexivity.
Qed.
Lemma Ext_strict old : IoStrict (TransactionExtension_UnmarshalABI old).
Proof.
  apply strict_bind_err; [apply ReadUint16_strict| |constructor|auto]. intros.
  apply strict_bind_err; [apply Bytes_strict|constructor|constructor|auto].
Qed.
Lemma Ext_wstrict e : WStrict (TransactionExtension_MarshalABI e).
Proof. apply wstrict_etry; [apply wstrict_bytes|apply Bytes_wstrict]. Qed.

Lemma read_all_reads {A} (zero : A) f (b : A -> list byte) l :
  Forall (fun x => reads (f zero) (b x) x) l ->
  reads (read_all zero f (length l)) (concat (map b l)) l.
Proof.
  intros H. induction H as [|x l Hx Hl IH]; cbn [length read_all map concat]; [apply reads_ret|].
  eapply reads_dbind; [exact Hx|]. cbv beta iota. eapply reads_map; [exact IH|]. reflexivity.
Qed.
Lemma read_all_strict {A} (zero : A) f n : IoStrict (f zero) -> IoStrict (read_all zero f n).
Proof.
  intros H. induction n as [|n IH]; cbn [read_all]; [constructor|].
  apply strict_bind_err; [exact H| |constructor|auto].
  intros. apply strict_bind_err; [exact IH|constructor|constructor|auto].
Qed.
Lemma read_slice_reads {A} size (zero : A) f (b : A -> list byte) old l :
  0 < size <= 1048576 -> short l -> Forall (fun x => reads (f zero) (b x) x) l ->
  reads (read_slice size zero f old) (b_vec b l) l.
Proof.
  intros Hs Hl H. unfold short in Hl. pose proof (zlen_nonneg l).
  eapply reads_dbind; [apply ReadVaruint_reads; lia|]. cbv beta iota zeta.
  assert (E : make_ok size (zlen l) = true).
  { unfold make_ok, max_alloc. apply andb_true_intro. split; [lia|].
    apply Z.leb_le. change (2 ^ 28) with 268435456 in Hl.
    assert (zlen l * size <= 268435456 * 1048576) by (apply Z.mul_le_mono_nonneg; lia). lia. }
  rewrite E. rewrite i64_small by lia. unfold zlen. rewrite Nat2Z.id. now apply read_all_reads.
Qed.
Lemma read_slice_strict {A} size (zero : A) f old :
  IoStrict (f zero) -> IoStrict (read_slice size zero f old).
Proof.
  intros H. apply strict_bind_err; [apply ReadVaruint_strict| |constructor|auto].
  intros l. destruct (make_ok size l); [now apply read_all_strict|constructor].
Qed.

Lemma write_all_writes {A} (f : A -> wr) (b : A -> list byte) l k bs :
  Forall (fun x => writes (f x) (b x)) l -> writes k bs ->
  writes (write_all f l k) (concat (map b l) ++ bs).
Proof.
  intros H K. induction H as [|x l Hx Hl IH]; [exact K|].
  cbn [write_all map concat]. rewrite <- app_assoc. now apply writes_etry.
Qed.
Lemma write_all_wstrict {A} (f : A -> wr) l k :
  Forall (fun x => WStrict (f x)) l -> WStrict k -> WStrict (write_all f l k).
Proof.
  intros H K. induction H; [exact K|]. now apply wstrict_etry.
Qed.

Lemma Transaction_writes t : wf_transaction t -> writes (Transaction_MarshalABI t) (b_tx t).
Proof.
  intros (H1 & H2 & H3 & H4 & H5 & H6 & H7). unfold short in *.
  pose proof (zlen_nonneg (ContextFreeActions t)). pose proof (zlen_nonneg (Actions t)).
  pose proof (zlen_nonneg (Extensions t)).
  unfold b_tx, b_vec. rewrite <- !app_assoc.
  apply writes_etry; [now apply Header_writes|].
  apply writes_etry; [apply WriteVaruint_writes; lia|].
  apply write_all_writes.
  { eapply Forall_impl; [|exact H3]. intros; now apply Action_writes. }
  apply writes_etry; [apply WriteVaruint_writes; lia|].
  apply write_all_writes.
  { eapply Forall_impl; [|exact H5]. intros; now apply Action_writes. }
  apply writes_etry; [apply WriteVaruint_writes; lia|].
  rewrite <- (app_nil_r (concat (map b_ext _))).
  apply write_all_writes; [|apply writes_ret].
  eapply Forall_impl; [|exact H7]. intros; now apply Ext_writes.
Qed.

Lemma Transaction_reads old t : wf_transaction t ->
  reads (Transaction_UnmarshalABI old) (b_tx t) t.
Proof.
  intros (H1 & H2 & H3 & H4 & H5 & H6 & H7).
  eapply reads_dbind; [now apply Header_reads|]. cbv beta iota zeta.
  eapply reads_dbind.
  { apply read_slice_reads with (b := b_action); [lia|exact H2|].
    eapply Forall_impl; [|exact H3]. intros; now apply Action_reads. }
  cbv beta iota zeta. eapply reads_dbind.
  { apply read_slice_reads with (b := b_action); [lia|exact H4|].
    eapply Forall_impl; [|exact H5]. intros; now apply Action_reads. }
  cbv beta iota zeta. eapply reads_map.
  { apply read_slice_reads with (b := b_ext); [lia|exact H6|].
    eapply Forall_impl; [|exact H7]. intros; now apply Ext_reads. }
  destruct t; reflexivity.
Qed.

Lemma Transaction_strict old : IoStrict (Transaction_UnmarshalABI old).
Proof.
  apply strict_bind_err; [apply Header_strict| |constructor|auto]. intros.
  apply strict_bind_err; [apply read_slice_strict, Action_strict| |constructor|auto]. intros.
  apply strict_bind_err; [apply read_slice_strict, Action_strict| |constructor|auto]. intros.
  apply strict_bind_err; [apply read_slice_strict, Ext_strict|constructor|constructor|auto].
Qed.

Lemma header_lay h : wf_header h -> header_layout h (b_header h).
Proof.
  intros (H1 & H2 & H3 & H4 & H5 & H6). unfold in_u in *.
  repeat (apply lay_cat; [first [apply lay_le|apply lay_varu; lia]|]). apply lay_varu; lia.
Qed.
Lemma ext_lay e : wf_extension e -> extension_layout e (b_ext e).
Proof. intros [_ H]. unfold short in H. apply lay_cat; [apply lay_le|apply lay_bytes; lia]. Qed.
Lemma transaction_lay t : wf_transaction t -> transaction_layout t (b_tx t).
Proof.
  intros (H1 & H2 & H3 & H4 & H5 & H6 & H7).
  apply lay_cat; [now apply header_lay|].
  apply lay_cat; [apply vec_layout; [exact H2|]; eapply Forall_impl; [|exact H3]; intros; now apply action_lay|].
  apply lay_cat; [apply vec_layout; [exact H4|]; eapply Forall_impl; [|exact H5]; intros; now apply action_lay|].
  apply vec_layout; [exact H6|]; eapply Forall_impl; [|exact H7]; intros; now apply ext_lay.
Qed.

(** ** Layouts determine the bytes *)
Definition functional (P : layout) : Prop := forall a b, P a -> P b -> a = b.
Lemma func_le n v : functional (fixed_le n v).
Proof. intros a b. apply is_le_unique. Qed.
Lemma func_varu v : functional (varu v).
Proof. intros a b [Ma Va] [Mb Vb]. apply leb_minimal_unique; congruence. Qed.
Lemma func_cat P Q : functional P -> functional Q -> functional (P +++ Q).
Proof.
  intros HP HQ a b (a1 & a2 & -> & Pa & Qa) (b1 & b2 & -> & Pb & Qb).
  f_equal; auto.
Qed.
Lemma func_raw d : functional (raw d).
Proof. intros a b -> ->. reflexivity. Qed.
Lemma func_seq {A} (f : A -> layout) l : (forall x, functional (f x)) -> functional (seq_of f l).
Proof.
  intros H. induction l; cbn [seq_of]; [apply func_raw|now apply func_cat].
Qed.
Lemma func_vec {A} (f : A -> layout) l : (forall x, functional (f x)) -> functional (vec_of f l).
Proof. intros H. apply func_cat; [apply func_varu|now apply func_seq]. Qed.
Lemma func_bytes d : functional (bytes_layout d).
Proof. apply func_cat; [apply func_varu|apply func_raw]. Qed.
Lemma func_action a : functional (action_layout a).
Proof.
  repeat (apply func_cat; [first [apply func_le|apply func_vec]|]); [|apply func_bytes].
  intros p. apply func_cat; apply func_le.
Qed.
Lemma func_transaction t : functional (transaction_layout t).
Proof.
  apply func_cat.
  { repeat (apply func_cat; [first [apply func_le|apply func_varu]|]). apply func_varu. }
  repeat (apply func_cat; [apply func_vec, func_action|]).
  apply func_vec. intros e. apply func_cat; [apply func_le|apply func_bytes].
Qed.

(** ** The other types *)
Lemma keep_wire (w : Z -> wr) (r : io Z) n v old :
  wire w r n (fun v => v) v -> wire w (keep old r) n (fun v => v) v.
Proof.
  intros [bs [W [L R]]]. exists bs. split; [exact W|]. split; [exact L|]. now apply reads_keep.
Qed.

Lemma Asset_round old a : wf_asset a ->
  exists bs, writes (Asset_MarshalABI a) bs /\ asset_layout a bs /\ reads (Asset_UnmarshalABI old) bs a.
Proof.
  intros [H1 H2]. unfold in_u in H2.
  destruct (int64_wire (Value a) H1) as [b1 [W1 [L1 R1]]].
  exists (b1 ++ le_put 8 (Sym a)). split; [apply writes_etry; [exact W1|apply writes_bytes]|].
  split; [apply lay_cat; [exact L1|apply lay_le]|].
  eapply reads_dtry; [exact R1|]. eapply reads_map; [apply Name_reads; lia|]. destruct a; reflexivity.
Qed.
Lemma ExtendedAsset_round old e : wf_asset (Quantity e) -> in_u 64 (Contract e) ->
  exists bs, writes (ExtendedAsset_MarshalABI e) bs /\ extended_asset_layout e bs
    /\ reads (ExtendedAsset_UnmarshalABI old) bs e.
Proof.
  intros H1 H2. unfold in_u in H2. destruct (Asset_round (Quantity old) _ H1) as [b1 [W1 [L1 R1]]].
  exists (b1 ++ le_put 8 (Contract e)). split; [apply writes_etry; [exact W1|apply writes_bytes]|].
  split; [apply lay_cat; [exact L1|apply lay_le]|].
  eapply reads_dbind; [exact R1|]. cbv beta iota zeta.
  eapply reads_map; [apply Name_reads; lia|]. destruct e; reflexivity.
Qed.
Lemma Asset_strict old : IoStrict (Asset_UnmarshalABI old).
Proof.
  apply strict_dtry; [apply ReadInt64_strict|]. intros.
  apply strict_bind_err; [apply Name_strict|constructor|constructor|auto].
Qed.
Lemma Asset_calm old : Calm (Asset_UnmarshalABI old).
Proof.
  apply calm_dtry; [apply ReadInt64_calm|]. intros.
  apply calm_bind; [apply Name_calm|]. intros [? ?]. constructor.
Qed.
Lemma ExtendedAsset_strict old : IoStrict (ExtendedAsset_UnmarshalABI old).
Proof.
  apply strict_bind_err; [apply Asset_strict| |constructor|auto]. intros.
  apply strict_bind_err; [apply Name_strict|constructor|constructor|auto].
Qed.
Lemma ExtendedAsset_calm old : Calm (ExtendedAsset_UnmarshalABI old).
Proof.
  apply calm_bind; [apply Asset_calm|]. intros [? [?|]]; [constructor|].
  apply calm_bind; [apply Name_calm|]. intros [? ?]. constructor.
Qed.
Lemma Asset_wstrict a : WStrict (Asset_MarshalABI a).
Proof. apply wstrict_etry; apply wstrict_bytes. Qed.
Lemma ExtendedAsset_wstrict a : WStrict (ExtendedAsset_MarshalABI a).
Proof. apply wstrict_etry; [apply Asset_wstrict|apply wstrict_bytes]. Qed.

Lemma le16 u : wf_u128 u -> is_le 16 (Hi u * 2 ^ 64 + Lo u) (U128_BytesLE u).
Proof.
  intros [H1 H2]. unfold in_u in *. unfold U128_BytesLE.
  split; [rewrite app_length, !le_put_length; reflexivity|].
  rewrite le_value_get, le_get_app, !le_get_put by (change (256 ^ Z.of_nat 8) with two64; lia).
  unfold zlen. rewrite le_put_length. change (256 ^ Z.of_nat 8) with two64.
  change (256 ^ Z.of_nat 16) with 340282366920938463463374607431768211456.
  change (2 ^ 64) with two64 in *. rewrite Z.mod_small; lia.
Qed.
Lemma Uint128_round old u : wf_u128 u ->
  exists bs, writes (Uint128_MarshalABI u) bs /\ u128_layout u bs /\ reads (Uint128_UnmarshalABI old) bs u.
Proof.
  intros H. exists (U128_BytesLE u). split; [apply writes_bytes|]. split; [now apply le16|].
  destruct H as [H1 H2]. unfold in_u in *.
  eapply reads_dtry; [apply ReadUint64_reads; lia|].
  eapply reads_map; [apply ReadUint64_reads; lia|]. destruct u; reflexivity.
Qed.
Lemma Uint128_strict old : IoStrict (Uint128_UnmarshalABI old).
Proof.
  apply strict_dtry; [apply ReadUint64_strict|]. intros.
  apply strict_bind_err; [apply ReadUint64_strict|constructor|constructor|auto].
Qed.
Lemma Uint128_calm old : Calm (Uint128_UnmarshalABI old).
Proof.
  apply calm_dtry; [apply ReadUint64_calm|]. intros.
  apply calm_bind; [apply ReadUint64_calm|]. intros [? ?]. constructor.
Qed.

Lemma Checksum_strict n old : IoStrict (Checksum_UnmarshalABI n old).
Proof.
  apply strict_bind_err; [apply ReadBytes_strict| | |]; intros [an b]; intros; try constructor; auto.
Qed.
Lemma Checksum_calm n old : n <= max_alloc -> Calm (Checksum_UnmarshalABI n old).
Proof.
  intros H. apply calm_bind; [now apply ReadBytes_calm|]. intros [[an b] e]. constructor.
Qed.
Lemma Checksum_round n old c : zlen c = n -> n <= max_alloc ->
  writes (Checksum_MarshalABI c) c /\ reads (Checksum_UnmarshalABI n old) c c.
Proof.
  intros <- H. split; [apply writes_bytes|].
  eapply reads_map; [now apply ReadBytes_reads|reflexivity].
Qed.

(** ** Keys *)
Lemma put_len_strict {A} l (f : list byte -> io A) : (forall b, IoStrict (f b)) -> IoStrict (put_len l f).
Proof. intros H. unfold put_len. destruct (PutUvarint 5 l); [apply H|constructor]. Qed.
Lemma strict_dtry_pair {A C B} (d : B) (p : io (A * C)) (f : A * C -> io B) :
  IoStrict p -> (forall a c, IoStrict (f (a, c))) -> IoStrict (dtry d p f).
Proof. intros Hp Hf. apply strict_dtry; [exact Hp|]. intros [a c]. apply Hf. Qed.
Lemma ReadBytes_map_strict {A} n (g : list byte -> A) :
  IoStrict ('(_, b, err) <-- ReadBytes n ;; DRet (g b, err)).
Proof.
  apply strict_bind_err; [apply ReadBytes_strict| | |]; intros [an b]; intros; try constructor; auto.
Qed.
Lemma PublicKey_strict old : IoStrict (PublicKey_UnmarshalABI old).
Proof.
  apply strict_dtry; [apply ReadByte_strict|]. intros t.
  destruct ((t =? K1) || (t =? P1)).
  { apply (ReadBytes_map_strict 33 (fun b => {| KType := t; KData := b |})). }
  destruct (t =? WA); [|constructor].
  apply strict_dtry_pair; [apply ReadBytes_strict|]. intros.
  apply strict_dtry; [apply ReadVaruint_strict|]. intros.
  apply strict_dtry_pair; [apply ReadBytes_strict|]. intros.
  apply put_len_strict. constructor.
Qed.
Lemma Signature_strict old : IoStrict (Signature_UnmarshalABI old).
Proof.
  apply strict_dtry; [apply ReadByte_strict|]. intros t.
  destruct ((t =? K1) || (t =? P1)).
  { apply (ReadBytes_map_strict 65 (fun b => {| KType := t; KData := b |})). }
  destruct (t =? WA); [|constructor].
  apply strict_dtry_pair; [apply ReadBytes_strict|]. intros.
  apply strict_dtry; [apply ReadVaruint_strict|]. intros.
  apply strict_dtry_pair; [apply ReadBytes_strict|]. intros.
  apply strict_dtry; [apply ReadVaruint_strict|]. intros.
  apply strict_dtry_pair; [apply ReadBytes_strict|]. intros.
  apply put_len_strict. intros. apply put_len_strict. constructor.
Qed.
Lemma Key_wstrict k : WStrict (Key_MarshalABI k).
Proof. apply wstrict_etry; [apply wstrict_byte|apply wstrict_bytes]. Qed.

Lemma varuint5 v : 0 <= v < 268435456 -> PutUvarint 5 v = Some (varuint v).
Proof.
  intros H.
  destruct (PutUvarint_some 5 v) as [bs [E [M [V _]]]];
    [change (128 ^ Z.of_nat 5) with 34359738368; lia|congruence|].
  destruct (varuint_spec v H) as [_ [M' [V' _]]].
  rewrite E. f_equal. apply leb_minimal_unique; congruence.
Qed.

Lemma lay_bytes_inv d bs : short d -> bytes_layout d bs -> bs = sized d.
Proof.
  intros H L. apply (func_bytes d); [exact L|]. apply lay_bytes. unfold short in H. lia.
Qed.

Lemma put_len_reads {A} l (f : list byte -> io A) bs v : 0 <= l < 268435456 ->
  reads (f (varuint l)) bs v -> reads (put_len l f) bs v.
Proof. intros H R. unfold put_len. now rewrite varuint5. Qed.

Lemma Key_writes k : writes (Key_MarshalABI k) (bz (KType k) :: KData k).
Proof. apply (writes_etry _ _ [_]); [apply writes_byte|apply writes_bytes]. Qed.

Lemma key_lay k : 0 <= KType k < 256 -> key_layout k (bz (KType k) :: KData k).
Proof.
  intros H. apply (lay_cat _ _ [_]); [|reflexivity].
  split; [reflexivity|]. cbn [le_value]. rewrite zb_bz. change (256 ^ Z.of_nat 1) with 256. lia.
Qed.

Lemma ReadBytes_reads' n bs : zlen bs = n -> n <= max_alloc -> reads (ReadBytes n) bs (n, bs).
Proof. intros <- H. now apply ReadBytes_reads. Qed.

Lemma PublicKey_reads old k : wf_public_key k ->
  reads (PublicKey_UnmarshalABI old) (bz (KType k) :: KData k) k.
Proof.
  intros H. unfold PublicKey_UnmarshalABI.
  apply (reads_dtry old ReadByte _ (KType k) [bz (KType k)]).
  { intros env rest. cbn [app]. rewrite run_ReadByte_cons, zb_bz, Z.mod_small; [reflexivity|].
    destruct H as [[[->| ->] _]|[-> _]]; lia. }
  destruct H as [[T L]|[T D]].
  - assert (E : ((KType k =? K1) || (KType k =? P1)) = true) by (unfold K1, P1; lia).
    rewrite E. eapply reads_map; [apply ReadBytes_reads'; [unfold zlen; lia|unfold max_alloc; lia]|].
    destruct k; reflexivity.
  - rewrite T. change ((2 =? K1) || (2 =? P1)) with false. change (2 =? WA) with true. cbv iota.
    destruct D as (head & rp & Lh & Sh & b1 & b2 & E & -> & L2).
    apply (lay_bytes_inv _ _ Sh) in L2. subst b2. rewrite E. unfold sized.
    unfold short in Sh. pose proof (zlen_nonneg rp).
    eapply reads_dtry; [apply ReadBytes_reads'; [unfold zlen; lia|unfold max_alloc; lia]|].
    cbv beta iota. eapply reads_dtry; [apply ReadVaruint_reads; lia|].
    rewrite <- (app_nil_r rp) at 2.
    eapply reads_dtry; [apply ReadBytes_reads'; [rewrite i64_small by lia; reflexivity|rewrite i64_small by lia; unfold max_alloc; lia]|].
    cbv beta iota. apply put_len_reads; [lia|].
    replace k with {| KType := 2; KData := head ++ varuint (zlen rp) ++ rp |}; [apply reads_ret|].
    destruct k; cbn in *. subst. reflexivity.
Qed.

Lemma Signature_reads old k : wf_signature k ->
  reads (Signature_UnmarshalABI old) (bz (KType k) :: KData k) k.
Proof.
  intros H. unfold Signature_UnmarshalABI.
  apply (reads_dtry old ReadByte _ (KType k) [bz (KType k)]).
  { intros env rest. cbn [app]. rewrite run_ReadByte_cons, zb_bz, Z.mod_small; [reflexivity|].
    destruct H as [[[->| ->] _]|[-> _]]; lia. }
  destruct H as [[T L]|[T D]].
  - assert (E : ((KType k =? K1) || (KType k =? P1)) = true) by (unfold K1, P1; lia).
    rewrite E. eapply reads_map; [apply ReadBytes_reads'; [unfold zlen; lia|unfold max_alloc; lia]|].
    destruct k; reflexivity.
  - rewrite T. change ((2 =? K1) || (2 =? P1)) with false. change (2 =? WA) with true. cbv iota.
    destruct D as (head & au & cl & Lh & Sa & Sc & b1 & b2 & E & -> & b3 & b4 & E2 & L3 & L4).
    apply (lay_bytes_inv _ _ Sa) in L3. apply (lay_bytes_inv _ _ Sc) in L4. subst.
    rewrite E. unfold sized. rewrite <- !app_assoc.
    unfold short in *. pose proof (zlen_nonneg au). pose proof (zlen_nonneg cl).
    eapply reads_dtry; [apply ReadBytes_reads'; [unfold zlen; lia|unfold max_alloc; lia]|].
    cbv beta iota. eapply reads_dtry; [apply ReadVaruint_reads; lia|].
    eapply reads_dtry; [apply ReadBytes_reads'; [rewrite i64_small by lia; reflexivity|rewrite i64_small by lia; unfold max_alloc; lia]|].
    cbv beta iota. eapply reads_dtry; [apply ReadVaruint_reads; lia|].
    rewrite <- (app_nil_r cl) at 2.
    eapply reads_dtry; [apply ReadBytes_reads'; [rewrite i64_small by lia; reflexivity|rewrite i64_small by lia; unfold max_alloc; lia]|].
    cbv beta iota. apply put_len_reads; [lia|]. apply put_len_reads; [lia|].
    replace k with {| KType := 2; KData := head ++ varuint (zlen au) ++ au ++ varuint (zlen cl) ++ cl |}; [apply reads_ret|].
    destruct k; cbn in *. subst. unfold sized. now rewrite <- !app_assoc.
Qed.

(** Whatever decodes is a well-formed key (with its length a varuint of any
    length and value below 2^48). *)
Lemma PublicKey_type env old inp k rest :
  run env (PublicKey_UnmarshalABI old) inp = Done (k, None) rest ->
  exists b inp', inp = b :: inp' /\ KType k = zb b /\ zb b <= 2.
Proof.
  unfold PublicKey_UnmarshalABI. rewrite run_dtry.
  destruct inp as [|b inp]; [rewrite run_ReadByte_nil; discriminate|].
  rewrite run_ReadByte_cons. intros R. exists b, inp. split; [reflexivity|].
  pose proof (zb_range b).
  destruct ((zb b =? K1) || (zb b =? P1)) eqn:E.
  { rewrite run_dbind in R. destruct (run env (ReadBytes 33) inp) as [[[an d] e] r|m|]; try discriminate.
    cbn in R. inversion R; subst. cbn. unfold K1, P1 in E. lia. }
  destruct (zb b =? WA) eqn:E2; [|discriminate]. unfold WA in E2.
  rewrite run_dtry in R. destruct (run env (ReadBytes 34) inp) as [[[an d] [e|]] r|m|]; try discriminate.
  rewrite run_dtry in R. destruct (run env ReadVaruint r) as [[l [e|]] r'|m|]; try discriminate.
  rewrite run_dtry in R. destruct (run env (ReadBytes (i64 l)) r') as [[[an' d'] [e|]] r''|m|]; try discriminate.
  unfold put_len in R. destruct (PutUvarint 5 l); [|discriminate]. cbn in R. inversion R; subst. cbn. lia.
Qed.
Lemma Signature_type env old inp k rest :
  run env (Signature_UnmarshalABI old) inp = Done (k, None) rest ->
  exists b inp', inp = b :: inp' /\ KType k = zb b /\ zb b <= 2.
Proof.
  unfold Signature_UnmarshalABI. rewrite run_dtry.
  destruct inp as [|b inp]; [rewrite run_ReadByte_nil; discriminate|].
  rewrite run_ReadByte_cons. intros R. exists b, inp. split; [reflexivity|].
  pose proof (zb_range b).
  destruct ((zb b =? K1) || (zb b =? P1)) eqn:E.
  { rewrite run_dbind in R. destruct (run env (ReadBytes 65) inp) as [[[an d] e] r|m|]; try discriminate.
    cbn in R. inversion R; subst. cbn. unfold K1, P1 in E. lia. }
  destruct (zb b =? WA) eqn:E2; [|discriminate]. unfold WA in E2.
  rewrite run_dtry in R. destruct (run env (ReadBytes 65) inp) as [[[an d] [e|]] r|m|]; try discriminate.
  rewrite run_dtry in R. destruct (run env ReadVaruint r) as [[l [e|]] r'|m|]; try discriminate.
  rewrite run_dtry in R. destruct (run env (ReadBytes (i64 l)) r') as [[[an' d'] [e|]] r''|m|]; try discriminate.
  rewrite run_dtry in R. destruct (run env ReadVaruint r'') as [[l2 [e|]] r3|m|]; try discriminate.
  rewrite run_dtry in R. destruct (run env (ReadBytes (i64 l2)) r3) as [[[an2 d2] [e|]] r4|m|]; try discriminate.
  unfold put_len in R. destruct (PutUvarint 5 l); [|discriminate].
  destruct (PutUvarint 5 l2); [|discriminate]. cbn in R. inversion R; subst. cbn. lia.
Qed.
Lemma PublicKey_bad_type env old b inp : 3 <= zb b ->
  run env (PublicKey_UnmarshalABI old) (b :: inp)
    = Done ({| KType := zb b; KData := KData old |}, Some (ErrMsg "unknown key type")) inp.
Proof.
  intros H. unfold PublicKey_UnmarshalABI. rewrite run_dtry, run_ReadByte_cons.
  replace ((zb b =? K1) || (zb b =? P1)) with false by (unfold K1, P1; lia).
  replace (zb b =? WA) with false by (unfold WA; lia). reflexivity.
Qed.
Lemma Signature_bad_type env old b inp : 3 <= zb b ->
  run env (Signature_UnmarshalABI old) (b :: inp)
    = Done ({| KType := zb b; KData := KData old |}, Some (ErrMsg "unknown key type")) inp.
Proof.
  intros H. unfold Signature_UnmarshalABI. rewrite run_dtry, run_ReadByte_cons.
  replace ((zb b =? K1) || (zb b =? P1)) with false by (unfold K1, P1; lia).
  replace (zb b =? WA) with false by (unfold WA; lia). reflexivity.
Qed.

(** ** What is encodable *)
Lemma runw_etry_done p q out full : runw (etry p q) out = WDone None full ->
  exists mid, runw p out = WDone None mid /\ runw q mid = WDone None full.
Proof.
  unfold etry. rewrite runw_ebind. destruct (runw p out) as [[e|] mid|m mid|]; try discriminate.
  eauto.
Qed.
Lemma Varuint_done v out full : runw (WriteVaruint v) out = WDone None full -> v < 268435456.
Proof.
  intros H. destruct (Z.lt_ge_cases v 268435456) as [|G]; [assumption|].
  rewrite WriteVaruint_panics in H by assumption. discriminate.
Qed.
Lemma Bytes_done d out full : runw (Bytes_MarshalABI d) out = WDone None full -> short d.
Proof.
  intros H. apply runw_etry_done in H as [mid [H _]]. apply Varuint_done in H. unfold short. lia.
Qed.
Lemma write_auths_done l k : forall out full, runw (write_auths l k) out = WDone None full ->
  exists mid, runw k mid = WDone None full.
Proof.
  induction l as [|p l IH]; intros out full H; [eauto|].
  cbn [write_auths] in H. apply runw_etry_done in H as [mid [_ H]]. eauto.
Qed.
Lemma Action_done a out full : typed_action a -> runw (Action_MarshalABI a) out = WDone None full ->
  wf_action a.
Proof.
  intros (T1 & T2 & T3) H. pose proof (Action_runw_short _ _ _ _ H) as S.
  unfold Action_MarshalABI in H. rewrite runw_ebind in H. cbn [Name_MarshalABI WriteUint64 WriteBytes runw] in H.
  rewrite runw_ebind in H. cbn [Name_MarshalABI WriteUint64 WriteBytes runw] in H.
  apply runw_etry_done in H as [mid [_ H]]. apply write_auths_done in H as [mid2 H].
  apply Bytes_done in H. repeat split; try apply T1; try apply T2; assumption.
Qed.
Lemma write_all_done {A} (f : A -> wr) (P : A -> Prop) l k :
  (forall x out full, In x l -> runw (f x) out = WDone None full -> P x) ->
  forall out full, runw (write_all f l k) out = WDone None full ->
  Forall P l /\ exists mid, runw k mid = WDone None full.
Proof.
  induction l as [|x l IH]; intros HP out full H; [split; [constructor|eauto]|].
  cbn [write_all] in H. apply runw_etry_done in H as [mid [H1 H2]].
  destruct (IH (fun y o fu I => HP y o fu (or_intror I)) _ _ H2) as [F E].
  split; [constructor; [eapply HP; [now left|exact H1]|exact F]|exact E].
Qed.
Lemma Transaction_done t out full : typed_transaction t ->
  runw (Transaction_MarshalABI t) out = WDone None full -> wf_transaction t.
Proof.
  intros (T1 & T2 & T3 & T4) H.
  apply runw_etry_done in H as [m1 [H0 H]].
  apply runw_etry_done in H as [m2 [H1 H]].
  apply (write_all_done _ wf_action) in H as [F1 [m3 H]].
  2:{ intros x o f I R. eapply Action_done; [|exact R]. rewrite Forall_forall in T2. now apply T2. }
  apply runw_etry_done in H as [m4 [H2 H]].
  apply (write_all_done _ wf_action) in H as [F2 [m5 H]].
  2:{ intros x o f I R. eapply Action_done; [|exact R]. rewrite Forall_forall in T3. now apply T3. }
  apply runw_etry_done in H as [m6 [H3 H]].
  apply (write_all_done _ wf_extension) in H as [F3 [m7 H]].
  2:{ intros x o f I R. apply runw_etry_done in R as [mm [_ R]]. apply Bytes_done in R.
      rewrite Forall_forall in T4. split; [now apply T4|exact R]. }
  apply Varuint_done in H1. apply Varuint_done in H2. apply Varuint_done in H3.
  assert (Hh : wf_header (Header t)).
  { destruct T1 as (A1 & A2 & A3 & A4 & A5 & A6). unfold in_u in *.
    apply runw_etry_done in H0 as [? [_ H0]]. apply runw_etry_done in H0 as [? [_ H0]].
    apply runw_etry_done in H0 as [? [_ H0]]. apply runw_etry_done in H0 as [? [B1 H0]].
    apply runw_etry_done in H0 as [? [_ H0]]. apply Varuint_done in B1. apply Varuint_done in H0.
    unfold wf_header, in_u. lia. }
  unfold wf_transaction, short. repeat split; try apply Hh; auto; lia.
Qed.

(** ** Injectivity *)
Lemma reads_inj {A} (p : io A) a b x y ra rb :
  reads p a x -> reads p b y -> a ++ ra = b ++ rb -> x = y /\ ra = rb.
Proof.
  intros Ha Hb E. specialize (Ha {| r_end := EOF; r_strict := true |} ra).
  specialize (Hb {| r_end := EOF; r_strict := true |} rb). rewrite E, Hb in Ha.
  inversion Ha. auto.
Qed.
Lemma action_injective a b ba bb ra rb : typed_action a -> typed_action b ->
  writes (Action_MarshalABI a) ba -> writes (Action_MarshalABI b) bb ->
  ba ++ ra = bb ++ rb -> a = b /\ ra = rb.
Proof.
  intros Ta Tb Wa Wb E. pose proof (Action_done a [] _ Ta (Wa [])) as Fa.
  pose proof (Action_done b [] _ Tb (Wb [])) as Fb.
  rewrite (writes_det _ _ _ Wa (Action_writes _ Fa)) in E.
  rewrite (writes_det _ _ _ Wb (Action_writes _ Fb)) in E.
  eapply reads_inj; [apply Action_reads, Fa|apply Action_reads, Fb|exact E].
Qed.
Lemma transaction_injective a b ba bb ra rb : typed_transaction a -> typed_transaction b ->
  writes (Transaction_MarshalABI a) ba -> writes (Transaction_MarshalABI b) bb ->
  ba ++ ra = bb ++ rb -> a = b /\ ra = rb.
Proof.
  intros Ta Tb Wa Wb E. pose proof (Transaction_done a [] _ Ta (Wa [])) as Fa.
  pose proof (Transaction_done b [] _ Tb (Wb [])) as Fb.
  rewrite (writes_det _ _ _ Wa (Transaction_writes _ Fa)) in E.
  rewrite (writes_det _ _ _ Wb (Transaction_writes _ Fb)) in E.
  eapply reads_inj; [apply (Transaction_reads a), Fa|apply (Transaction_reads a), Fb|exact E].
Qed.
Lemma action_encodable_iff a : typed_action a ->
  ((exists bs, writes (Action_MarshalABI a) bs) <-> short (Authorization a) /\ short (AData a)).
Proof.
  intros T. split.
  - intros [bs W]. pose proof (Action_done a [] _ T (W [])) as (_ & _ & H3 & _ & H5). auto.
  - intros [S1 S2]. exists (b_action a). apply Action_writes.
    destruct T as (T1 & T2 & T3). unfold wf_action. auto.
Qed.
Lemma action_round a : wf_action a ->
  exists bs, writes (Action_MarshalABI a) bs /\ action_layout a bs
    /\ reads (Action_UnmarshalABI zero_action) bs a.
Proof.
  intros H. exists (b_action a). split; [now apply Action_writes|].
  split; [now apply action_lay|now apply Action_reads].
Qed.
Lemma transaction_round old t : wf_transaction t ->
  exists bs, writes (Transaction_MarshalABI t) bs /\ transaction_layout t bs
    /\ reads (Transaction_UnmarshalABI old) bs t.
Proof.
  intros H. exists (b_tx t). split; [now apply Transaction_writes|].
  split; [now apply transaction_lay|now apply Transaction_reads].
Qed.
Lemma digest_copy_all n d : length d = n -> digest_copy n d = Ok d.
Proof. intros <-. unfold digest_copy. rewrite Nat.ltb_irrefl, firstn_all. reflexivity. Qed.
Lemma action_digest sha a bs : (forall m, length (sha m) = 32%nat) -> writes (Action_MarshalABI a) bs -> Action_Digest sha a = Ok (sha bs).
Proof. intros L W. unfold Action_Digest. rewrite (W []). now apply digest_copy_all. Qed.
Lemma action_digest_collision sha a b d : (forall m, length (sha m) = 32%nat) -> typed_action a -> typed_action b ->
  Action_Digest sha a = Ok d -> Action_Digest sha b = Ok d -> a <> b ->
  exists x y, x <> y /\ sha x = sha y.
Proof.
  intros L Ta Tb Da Db N. unfold Action_Digest, Checksum256Digest in *.
  destruct (runw (Action_MarshalABI a) []) as [[e|] x|m x|] eqn:Ea; try discriminate.
  destruct (runw (Action_MarshalABI b) []) as [[e|] y|m y|] eqn:Eb; try discriminate.
  rewrite digest_copy_all in Da, Db by apply L. exists x, y. split; [|congruence]. intros ->. apply N.
  pose proof (Action_writes _ (Action_done _ _ _ Ta Ea)) as Wa.
  pose proof (Action_writes _ (Action_done _ _ _ Tb Eb)) as Wb.
  pose proof (Wa []) as Xa. pose proof (Wb []) as Xb.
  cbn [app] in Xa, Xb.
  eapply (action_injective a b _ _ [] [] Ta Tb Wa Wb). rewrite !app_nil_r. congruence.
Qed.

(** ** Decoding into a used target *)
Lemma read_auths_acc env n : forall acc inp,
  run env (read_auths n acc) inp =
  match run env (read_auths n []) inp with
  | Done (l, e) rest => Done (acc ++ l, e) rest
  | Crash m => Crash m
  | Diverged => Diverged
  end.
Proof.
  induction n as [|n IH]; intros acc inp; cbn [read_auths].
  - cbn. now rewrite app_nil_r.
  - rewrite !run_dbind.
    destruct (run env (PermissionLevel_UnmarshalABI _) inp) as [[p [e|]] r|m|]; [|  | reflexivity | reflexivity].
    + cbn. now rewrite app_nil_r.
    + rewrite IH, (IH ([] ++ [p])). cbn [app].
      destruct (run env (read_auths n []) r) as [[l e] r'|m|]; try reflexivity.
      now rewrite <- app_assoc.
Qed.
Lemma Bytes_target env old old' inp :
  run env (Bytes_UnmarshalABI old) inp =
  match run env (Bytes_UnmarshalABI old') inp with
  | Done (d, None) rest => Done (d, None) rest
  | Done (_, Some e) rest => Done (old, Some e) rest
  | Crash m => Crash m
  | Diverged => Diverged
  end.
Proof.
  unfold Bytes_UnmarshalABI. rewrite !run_dtry.
  destruct (run env ReadVaruint inp) as [[l [e|]] r|m|]; try reflexivity.
  rewrite !run_dbind. destruct (run env (ReadBytes (i64 l)) r) as [[[an d] [e|]] r'|m|]; reflexivity.
Qed.
Lemma varuint_empty env : exists v e, run env ReadVaruint [] = Done (v, Some e) [].
Proof.
  destruct (ReadVaruint_cases env []) as [[bs [r [E [W _]]]]|[[bs [b [r [E _]]]]|[_ [_ R]]]].
  - destruct bs; [destruct W|discriminate].
  - destruct bs; discriminate.
  - eauto.
Qed.

Lemma ReadUint64_run env inp :
  (exists v rest, run env ReadUint64 inp = Done (v, None) rest)
  \/ (exists e, run env ReadUint64 inp = Done (0, Some e) []).
Proof.
  unfold ReadUint64. rewrite !run_dbind, ReadBytes_run.
  change (8 <? 0) with false. change (8 =? 0) with false. change (make_ok 1 8) with true. cbv iota.
  destruct (8 <=? zlen inp); [left|right]; cbn [run]; eauto.
Qed.
Lemma ReadUint64_empty env : run env ReadUint64 [] = Done (0, Some (r_end env)) [].
Proof. unfold ReadUint64. rewrite !run_dbind, ReadBytes_run. cbn. now destruct (r_end env). Qed.

Definition action_parts env inp rest acc nm au d : Prop :=
  exists r1 r2 l r3 r4, run env ReadUint64 inp = Done (acc, None) r1
  /\ run env ReadUint64 r1 = Done (nm, None) r2 /\ run env ReadVaruint r2 = Done (l, None) r3
  /\ run env (read_auths (Z.to_nat (i64 l)) []) r3 = Done (au, None) r4
  /\ run env (Bytes_UnmarshalABI []) r4 = Done (d, None) rest.

Lemma Action_success env old inp a rest :
  run env (Action_UnmarshalABI old) inp = Done (a, None) rest <->
  exists acc nm au d, action_parts env inp rest acc nm au d
    /\ a = {| Account := acc; AName := nm; Authorization := Authorization old ++ au; AData := d |}.
Proof.
  unfold Action_UnmarshalABI. rewrite !run_dbind. split.
  - intros R. unfold Name_UnmarshalABI at 1 in R. unfold keep at 1 in R. rewrite run_dbind in R.
    destruct (ReadUint64_run env inp) as [[acc [r1 E1]]|[e E1]]; rewrite E1 in R; cbn [run] in R;
      rewrite run_dbind in R; unfold Name_UnmarshalABI at 1 in R; unfold keep at 1 in R; rewrite run_dbind in R.
    2:{ rewrite ReadUint64_empty in R. cbn [run] in R. rewrite run_dbind in R.
        destruct (varuint_empty env) as [v [e' X]]. rewrite X in R. discriminate. }
    destruct (ReadUint64_run env r1) as [[nm [r2 E2]]|[e E2]]; rewrite E2 in R; cbn [run] in R;
      rewrite run_dbind in R.
    2:{ destruct (varuint_empty env) as [v [e' X]]. rewrite X in R. discriminate. }
    destruct (run env ReadVaruint r2) as [[l [e|]] r3|m|] eqn:E3; try discriminate.
    rewrite run_dbind, read_auths_acc in R.
    destruct (run env (read_auths (Z.to_nat (i64 l)) []) r3) as [[au [e|]] r4|m|] eqn:E4; try discriminate.
    rewrite run_dbind, (Bytes_target env (AData old) []) in R.
    destruct (run env (Bytes_UnmarshalABI []) r4) as [[d [e|]] r5|m|] eqn:E5; try discriminate.
    cbn [run] in R. inversion R; subst.
    exists acc, nm, au, d. split; [|reflexivity]. exists r1, r2, l, r3, r4. auto.
  - intros (acc & nm & au & d & (r1 & r2 & l & r3 & r4 & E1 & E2 & E3 & E4 & E5) & ->).
    unfold Name_UnmarshalABI at 1. unfold keep at 1. rewrite run_dbind, E1. cbn [run].
    rewrite run_dbind. unfold Name_UnmarshalABI at 1. unfold keep at 1. rewrite run_dbind, E2. cbn [run].
    rewrite run_dbind, E3. rewrite run_dbind, read_auths_acc, E4.
    rewrite run_dbind, (Bytes_target env (AData old) []), E5. reflexivity.
Qed.

(** Decoding into a target already holding authorizations. *)
Lemma Action_target env old inp a rest :
  run env (Action_UnmarshalABI old) inp = Done (a, None) rest <->
  exists f, run env (Action_UnmarshalABI zero_action) inp = Done (f, None) rest
    /\ a = {| Account := Account f; AName := AName f;
              Authorization := Authorization old ++ Authorization f; AData := AData f |}.
Proof.
  rewrite Action_success. split.
  - intros (acc & nm & au & d & P & ->).
    exists {| Account := acc; AName := nm; Authorization := au; AData := d |}. split; [|reflexivity].
    apply Action_success. exists acc, nm, au, d. auto.
  - intros (f & R & ->). apply Action_success in R as (acc & nm & au & d & P & ->).
    exists acc, nm, au, d. auto.
Qed.
Lemma Action_target_fresh env old inp f rest :
  run env (Action_UnmarshalABI zero_action) inp = Done (f, None) rest ->
  (run env (Action_UnmarshalABI old) inp = Done (f, None) rest <-> Authorization old = []).
Proof.
  intros R. rewrite Action_target. split.
  - intros (f' & R' & E). rewrite R in R'. inversion R'; subst f'. 
    apply (f_equal Authorization) in E. cbn in E.
    apply (f_equal (@length _)) in E. rewrite app_length in E. destruct (Authorization old); [reflexivity|cbn in E; lia].
  - intros E. exists f. split; [exact R|]. rewrite E. destruct f; reflexivity.
Qed.

(** Transactions overwrite their target. *)
Lemma read_slice_target {A} env size (zero : A) f old old' inp :
  run env (read_slice size zero f old) inp =
  match run env ReadVaruint inp with
  | Done (_, Some e) rest => Done (old, Some e) rest
  | _ => run env (read_slice size zero f old') inp
  end.
Proof.
  unfold read_slice. rewrite !run_dbind.
  destruct (run env ReadVaruint inp) as [[l [e|]] r|m|]; reflexivity.
Qed.
Lemma Header_target env old old' inp h rest :
  run env (TransactionHeader_UnmarshalABI old) inp = Done (h, None) rest ->
  run env (TransactionHeader_UnmarshalABI old') inp = Done (h, None) rest.
Proof.
  unfold TransactionHeader_UnmarshalABI. rewrite !run_dbind. unfold TimePointSec_UnmarshalABI, keep.
  rewrite !run_dbind. destruct (run env ReadUint32 inp) as [[v [e|]] r|m|]; try discriminate.
  cbn [run]. rewrite !run_dbind. destruct (run env ReadUint16 r) as [[v2 [e|]] r2|m|]; try discriminate.
  rewrite !run_dbind. destruct (run env ReadUint32 r2) as [[v3 [e|]] r3|m|]; try discriminate.
  rewrite !run_dbind. destruct (run env ReadVaruint r3) as [[v4 [e|]] r4|m|]; try discriminate.
  rewrite !run_dbind. destruct (run env ReadUint8 r4) as [[v5 [e|]] r5|m|]; try discriminate.
  rewrite !run_dbind. destruct (run env ReadVaruint r5) as [[v6 [e|]] r6|m|]; try discriminate.
  cbn [run]. auto.
Qed.
Lemma Transaction_target env old old' inp t rest :
  run env (Transaction_UnmarshalABI old) inp = Done (t, None) rest ->
  run env (Transaction_UnmarshalABI old') inp = Done (t, None) rest.
Proof.
  unfold Transaction_UnmarshalABI. rewrite !run_dbind.
  destruct (run env (TransactionHeader_UnmarshalABI (Header old)) inp) as [[h [e|]] r|m|] eqn:E1; try discriminate.
  rewrite (Header_target _ _ (Header old') _ _ _ E1). rewrite !run_dbind.
  rewrite (read_slice_target env 64 _ _ (ContextFreeActions old') (ContextFreeActions old)).
  destruct (run env ReadVaruint r) as [[l [e|]] r2|m|] eqn:E2.
  { unfold read_slice at 1. rewrite run_dbind, E2. discriminate. }
  2:{ unfold read_slice at 1. rewrite run_dbind, E2. discriminate. }
  2:{ unfold read_slice at 1. rewrite run_dbind, E2. discriminate. }
  destruct (run env (read_slice 64 _ _ (ContextFreeActions old)) r) as [[cfa [e|]] r3|m|]; try discriminate.
  rewrite !run_dbind. rewrite (read_slice_target env 64 _ _ (Actions old') (Actions old)).
  destruct (run env ReadVaruint r3) as [[l2 [e|]] r4|m|] eqn:E3.
  { unfold read_slice at 1. rewrite run_dbind, E3. discriminate. }
  2:{ unfold read_slice at 1. rewrite run_dbind, E3. discriminate. }
  2:{ unfold read_slice at 1. rewrite run_dbind, E3. discriminate. }
  destruct (run env (read_slice 64 _ _ (Actions old)) r3) as [[acs [e|]] r5|m|]; try discriminate.
  rewrite !run_dbind. rewrite (read_slice_target env 32 _ _ (Extensions old') (Extensions old)).
  destruct (run env ReadVaruint r5) as [[l3 [e|]] r6|m|] eqn:E4.
  { unfold read_slice at 1. rewrite run_dbind, E4. discriminate. }
  2:{ unfold read_slice at 1. rewrite run_dbind, E4. discriminate. }
  2:{ unfold read_slice at 1. rewrite run_dbind, E4. discriminate. }
  auto.
Qed.

(** ** Hostile lengths *)
Lemma run_varuint_pre env pre rest : leb_wf pre -> (length pre <= 10)%nat -> leb_value pre < two64 ->
  run env ReadVaruint (pre ++ rest) = Done (leb_value pre, None) rest.
Proof. intros. now apply ReadVaruint_reads_leb. Qed.

Definition hostile {A} (p : io A) (old : A) (mk : list byte -> A) : Prop :=
  forall env pre rest, leb_wf pre -> (length pre <= 10)%nat -> leb_value pre < two64 ->
  let l := leb_value pre in
  (two63 <= l -> exists e, run env p (pre ++ rest) = Done (old, Some e) rest)
  /\ (max_alloc < l < two63 -> exists m, run env p (pre ++ rest) = Crash m)
  /\ (l <= max_alloc -> zlen rest < l -> exists v e, run env p (pre ++ rest) = Done (v, Some e) [])
  /\ (l <= max_alloc -> forall d rest', rest = d ++ rest' -> zlen d = l ->
        run env p (pre ++ rest) = Done (mk d, None) rest').

Lemma i64_big l : two63 <= l < two64 -> i64 l < 0.
Proof. intros. unfold i64. lia. Qed.

Lemma readbytes_big env l rest : two63 <= l < two64 ->
  run env (ReadBytes (i64 l)) rest = Done ((0, []), Some (ErrMsg "abi: read with negative count")) rest.
Proof.
  intros H. rewrite ReadBytes_run. pose proof (i64_big l H).
  destruct (Z.ltb_spec (i64 l) 0); [reflexivity|lia].
Qed.
Lemma readbytes_mid env l rest : max_alloc < l < two63 ->
  run env (ReadBytes (i64 l)) rest = Crash "makeslice: len out of range".
Proof.
  unfold max_alloc. intros H. rewrite i64_small by lia. rewrite ReadBytes_run.
  destruct (Z.ltb_spec l 0); [lia|]. destruct (Z.eqb_spec l 0); [lia|].
  unfold make_ok, max_alloc. destruct (Z.leb_spec (l * 1) 281474976710656); [lia|].
  now rewrite andb_false_r.
Qed.
Lemma readbytes_short env l rest : 0 <= l <= max_alloc -> zlen rest < l ->
  exists an v e, run env (ReadBytes (i64 l)) rest = Done ((an, v), Some e) [].
Proof.
  unfold max_alloc. intros H Hl. pose proof (zlen_nonneg rest).
  rewrite i64_small by lia. rewrite ReadBytes_run.
  destruct (Z.ltb_spec l 0); [lia|]. destruct (Z.eqb_spec l 0); [lia|].
  unfold make_ok, max_alloc. destruct (Z.leb_spec (l * 1) 281474976710656); [|lia].
  destruct (Z.leb_spec 0 l); [|lia]. cbv [andb]. destruct (Z.leb_spec l (zlen rest)); [lia|].
  eauto.
Qed.
Lemma readbytes_ok env d rest' : zlen d <= max_alloc ->
  run env (ReadBytes (i64 (zlen d))) (d ++ rest') = Done ((zlen d, d), None) rest'.
Proof.
  intros H. pose proof (zlen_nonneg d). unfold max_alloc in *. rewrite i64_small by lia.
  apply (ReadBytes_reads d). exact H.
Qed.

Lemma Bytes_hostile old : hostile (Bytes_UnmarshalABI old) old (fun d => d).
Proof.
  intros env pre rest W L V l. unfold Bytes_UnmarshalABI. rewrite run_dtry.
  rewrite (run_varuint_pre env pre rest W L V). fold l. rewrite run_dbind.
  pose proof (leb_value_nonneg pre). repeat split.
  - intros H0. rewrite readbytes_big by (unfold l in *; lia). cbn. eauto.
  - intros H0. rewrite readbytes_mid by lia. eauto.
  - intros H0 H1. destruct (readbytes_short env l rest) as [an [v [e ->]]]; [unfold l; lia|lia|]. cbn. eauto.
  - intros H0 d rest' -> E. rewrite <- E, readbytes_ok by lia. reflexivity.
Qed.
Lemma String_hostile : hostile ReadString [] (fun d => d).
Proof.
  intros env pre rest W L V l. unfold ReadString. rewrite run_dtry.
  rewrite (run_varuint_pre env pre rest W L V). fold l. rewrite run_dbind.
  pose proof (leb_value_nonneg pre). repeat split.
  - intros H0. rewrite readbytes_big by (unfold l in *; lia). cbn. eauto.
  - intros H0. rewrite readbytes_mid by lia. eauto.
  - intros H0 H1. destruct (readbytes_short env l rest) as [an [v [e ->]]]; [unfold l; lia|lia|]. cbn. eauto.
  - intros H0 d rest' -> E. rewrite <- E, readbytes_ok by lia. reflexivity.
Qed.

Lemma Action_hostile env old h1 h2 pre rest :
  length h1 = 8%nat -> length h2 = 8%nat ->
  leb_wf pre -> (length pre <= 10)%nat -> two63 <= leb_value pre < two64 ->
  forall d rest', run env (Bytes_UnmarshalABI []) rest = Done (d, None) rest' ->
  run env (Action_UnmarshalABI old) (h1 ++ h2 ++ pre ++ rest) =
  Done ({| Account := le_value h1; AName := le_value h2;
           Authorization := Authorization old; AData := d |}, None) rest'.
Proof.
  intros L1 L2 W L V d rest' R. apply Action_success.
  exists (le_value h1), (le_value h2), [], d. split; [|now rewrite app_nil_r].
  exists (h2 ++ pre ++ rest), (pre ++ rest), (leb_value pre), rest, rest.
  assert (U : forall h r, length h = 8%nat -> run env ReadUint64 (h ++ r) = Done (le_value h, None) r).
  { intros h r Lh. rewrite le_value_get.
    pose proof (fixed_reads 0 8 le_get h ltac:(unfold zlen; lia) ltac:(unfold max_alloc; lia)) as X.
    exact (X env r). }
  rewrite !U by assumption. split; [reflexivity|]. split; [reflexivity|].
  rewrite run_varuint_pre by (try assumption; lia). split; [reflexivity|].
  pose proof (i64_big (leb_value pre) V). replace (Z.to_nat (i64 (leb_value pre))) with 0%nat by lia.
  split; [reflexivity|exact R].
Qed.

Lemma read_slice_hostile {A} env size (zero : A) f old pre rest : 0 < size ->
  leb_wf pre -> (length pre <= 10)%nat -> max_alloc / size < leb_value pre < two64 ->
  run env (read_slice size zero f old) (pre ++ rest) = Crash "makeslice: len out of range".
Proof.
  intros Hs W L [V1 V2]. unfold read_slice. rewrite run_dbind, run_varuint_pre by assumption.
  assert (E : make_ok size (leb_value pre) = false); [|now rewrite E].
  unfold make_ok. apply andb_false_intro2. apply Z.leb_gt.
  pose proof (Z.mul_succ_div_gt max_alloc size Hs). nia.
Qed.

Lemma Transaction_hostile env old h pre rest : wf_header h ->
  leb_wf pre -> (length pre <= 10)%nat -> max_alloc / 64 < leb_value pre < two64 ->
  exists hb, header_layout h hb
    /\ run env (Transaction_UnmarshalABI old) (hb ++ pre ++ rest) = Crash "makeslice: len out of range".
Proof.
  intros H W L V. exists (b_header h). split; [now apply header_lay|].
  unfold Transaction_UnmarshalABI. rewrite run_dbind, (Header_reads (Header old) h H env).
  rewrite run_dbind, read_slice_hostile by (try assumption; lia). reflexivity.
Qed.

(** ** Statements used by PropChain *)
Lemma wstrict_faults_if p : (forall full, runw p [] = WDone None full -> WStrict p) -> write_faults_reported p.
Proof. intros H o full So R. exact (wstrict_faults p (H full R) o full So R). Qed.
Lemma action_faults a : write_faults_reported (Action_MarshalABI a).
Proof.
  apply wstrict_faults_if. intros full R. apply Action_wstrict. eapply Action_runw_short, R.
Qed.
Lemma write_all_in {A} (f : A -> wr) l k : forall out full,
  runw (write_all f l k) out = WDone None full ->
  forall x, In x l -> exists o o', runw (f x) o = WDone None o'.
Proof.
  induction l as [|y l IH]; intros out full H x; [intros []|].
  cbn [write_all] in H. apply runw_etry_done in H as [mid [H1 H2]].
  intros [<-|I]; eauto.
Qed.
Lemma transaction_faults t : write_faults_reported (Transaction_MarshalABI t).
Proof.
  apply wstrict_faults_if. intros full H.
  apply runw_etry_done in H as [m1 [H0 H]].
  apply runw_etry_done in H as [m2 [H1 H]].
  pose proof (write_all_in _ _ _ _ _ H) as A1.
  apply (write_all_done _ (fun _ => True)) in H as [_ [m3 H]]; [|auto].
  apply runw_etry_done in H as [m4 [H2 H]].
  pose proof (write_all_in _ _ _ _ _ H) as A2.
  assert (G : forall l, (forall x, In x l -> exists o o', runw (Action_MarshalABI x) o = WDone None o') ->
    Forall (fun x => WStrict (Action_MarshalABI x)) l).
  { intros l Hl. apply Forall_forall. intros x I. destruct (Hl x I) as [o [o' R]].
    apply Action_wstrict. eapply Action_runw_short, R. }
  apply wstrict_etry; [apply Header_wstrict|].
  apply wstrict_etry; [apply wstrict_varuint|].
  apply write_all_wstrict; [apply G, A1|].
  apply wstrict_etry; [apply wstrict_varuint|].
  apply write_all_wstrict; [apply G, A2|].
  apply wstrict_etry; [apply wstrict_varuint|].
  apply write_all_wstrict; [|constructor].
  apply Forall_forall. intros e _. apply Ext_wstrict.
Qed.

Lemma runf_quiet {A} (o : woracle) (p : enc A) : forall i out,
  (forall j, (i <= j)%nat -> o j = None) -> runf o i p out = runw p out.
Proof.
  induction p as [a|m| |bs k IH]; intros i out H; cbn [runf runw]; try reflexivity.
  rewrite (H i) by lia. apply IH. intros j Hj. apply H. lia.
Qed.
Lemma action_lost_write a k e : wf_action a -> (k < 2)%nat ->
  exists full out,
    runw (Action_MarshalABI a) [] = WDone None full
    /\ runf (fun i => if Nat.eqb i k then Some (O, e) else None) 0 (Action_MarshalABI a) [] = WDone None out
    /\ length full = (8 + length out)%nat.
Proof.
  intros W K. exists (b_action a).
  set (tl := varuint (zlen (Authorization a)) ++ b_pls (Authorization a) ++ sized (AData a)).
  assert (T : writes (etry (WriteVaruint (zlen (Authorization a)))
    (write_auths (Authorization a) (Bytes_MarshalABI (AData a)))) tl).
  { destruct W as (H1 & H2 & H3 & H4 & H5). unfold short in *. pose proof (zlen_nonneg (Authorization a)).
    apply writes_etry; [apply WriteVaruint_writes; lia|]. apply write_auths_writes, Bytes_writes. lia. }
  destruct k as [|[|k]]; [| |lia].
  - exists (le_put 8 (AName a) ++ tl). split; [apply (Action_writes a W [])|]. split.
    + unfold Action_MarshalABI, Name_MarshalABI, WriteUint64, WriteBytes. cbn [ebind runf Nat.eqb firstn app].
      rewrite runf_quiet; [apply T|]. intros j Hj. destruct j as [|j]; [lia|reflexivity].
    + unfold b_action. fold tl. rewrite !app_length, !le_put_length. lia.
  - exists (le_put 8 (Account a) ++ tl). split; [apply (Action_writes a W [])|]. split.
    + unfold Action_MarshalABI, Name_MarshalABI, WriteUint64, WriteBytes. cbn [ebind runf Nat.eqb firstn].
      rewrite app_nil_r, app_nil_l. rewrite runf_quiet; [apply T|].
      intros j Hj. destruct j as [|[|j]]; [lia|lia|reflexivity].
    + unfold b_action. fold tl. rewrite !app_length, !le_put_length. lia.
Qed.
Lemma action_transient :
  exists (o : woracle) a full out, wf_action a
    /\ runw (Action_MarshalABI a) [] = WDone None full
    /\ runf o 0 (Action_MarshalABI a) [] = WDone None out /\ (length out < length full)%nat.
Proof.
  assert (W : wf_action zero_action) by (unfold wf_action, in_u, short, zlen; cbn; repeat split; try lia; constructor).
  destruct (action_lost_write zero_action 0 (ErrIO 1) W ltac:(lia)) as [full [out [H1 [H2 H3]]]].
  do 4 eexists. split; [exact W|]. split; [exact H1|]. split; [exact H2|]. lia.
Qed.

Lemma public_key_round old k : wf_public_key k ->
  exists bs, writes (Key_MarshalABI k) bs /\ key_layout k bs /\ reads (PublicKey_UnmarshalABI old) bs k.
Proof.
  intros H. exists (bz (KType k) :: KData k). split; [apply Key_writes|].
  split; [apply key_lay; destruct H as [[[->| ->] _]|[-> _]]; lia|now apply PublicKey_reads].
Qed.
Lemma signature_round old k : wf_signature k ->
  exists bs, writes (Key_MarshalABI k) bs /\ key_layout k bs /\ reads (Signature_UnmarshalABI old) bs k.
Proof.
  intros H. exists (bz (KType k) :: KData k). split; [apply Key_writes|].
  split; [apply key_lay; destruct H as [[[->| ->] _]|[-> _]]; lia|now apply Signature_reads].
Qed.
Lemma key_unknown_type env old b inp : 3 <= zb b ->
  (exists k, run env (PublicKey_UnmarshalABI old) (b :: inp) = Done (k, Some (ErrMsg "unknown key type")) inp)
  /\ (exists k, run env (Signature_UnmarshalABI old) (b :: inp) = Done (k, Some (ErrMsg "unknown key type")) inp).
Proof.
  intros H. split; eexists; [now apply PublicKey_bad_type|now apply Signature_bad_type].
Qed.

Lemma wire_round (w : Z -> wr) (r : io Z) n v old :
  wire w r n (fun v => v) v ->
  exists bs, writes (w v) bs /\ fixed_le n v bs /\ reads (keep old r) bs v.
Proof. intros H. now apply (keep_wire w r n v old). Qed.

Lemma chain_scalars_round :
  (forall old a, wf_asset a -> exists bs, writes (Asset_MarshalABI a) bs /\ asset_layout a bs
     /\ reads (Asset_UnmarshalABI old) bs a)
  /\ (forall old e, wf_asset (Quantity e) -> in_u 64 (Contract e) ->
     exists bs, writes (ExtendedAsset_MarshalABI e) bs /\ extended_asset_layout e bs
     /\ reads (ExtendedAsset_UnmarshalABI old) bs e)
  /\ (forall old u, wf_u128 u -> exists bs, writes (Uint128_MarshalABI u) bs /\ u128_layout u bs
     /\ reads (Uint128_UnmarshalABI old) bs u)
  /\ (forall old n, in_u 64 n -> exists bs, writes (Name_MarshalABI n) bs /\ fixed_le 8 n bs
     /\ reads (Name_UnmarshalABI old) bs n)
  /\ (forall old n, in_u 64 n -> exists bs, writes (Symbol_MarshalABI n) bs /\ fixed_le 8 n bs
     /\ reads (Symbol_UnmarshalABI old) bs n)
  /\ (forall old n, in_u 64 n -> exists bs, writes (Uint64_MarshalABI n) bs /\ fixed_le 8 n bs
     /\ reads (Uint64_UnmarshalABI old) bs n)
  /\ (forall old n, in_u 32 n -> exists bs, writes (BlockNum_MarshalABI n) bs /\ fixed_le 4 n bs
     /\ reads (BlockNum_UnmarshalABI old) bs n)
  /\ (forall old n, - 2 ^ 63 <= n < 2 ^ 63 -> exists bs, writes (TimePoint_MarshalABI n) bs /\ fixed_le 8 n bs
     /\ reads (TimePoint_UnmarshalABI old) bs n)
  /\ (forall old n, in_u 32 n -> exists bs, writes (TimePointSec_MarshalABI n) bs /\ fixed_le 4 n bs
     /\ reads (TimePointSec_UnmarshalABI old) bs n)
  /\ (forall old n, in_u 32 n -> exists bs, writes (BlockTimestamp_MarshalABI n) bs /\ fixed_le 4 n bs
     /\ reads (BlockTimestamp_UnmarshalABI old) bs n)
  /\ (forall n old c, zlen c = n -> n <= 64 ->
     writes (Checksum_MarshalABI c) c /\ reads (Checksum_UnmarshalABI n old) c c)
  /\ (forall old d, length d = 16%nat ->
     writes (Float128_MarshalABI d) d /\ reads (Float128_UnmarshalABI old) d d)
  /\ (forall old d, short d -> exists bs, writes (Bytes_MarshalABI d) bs /\ bytes_layout d bs
     /\ reads (Bytes_UnmarshalABI old) bs d).
Proof.
  split; [exact Asset_round|]. split; [exact ExtendedAsset_round|]. split; [exact Uint128_round|].
  split; [intros old n H; apply (wire_round WriteUint64), uint64_wire, H|].
  split; [intros old n H; apply (wire_round WriteUint64), uint64_wire, H|].
  split; [intros old n H; apply (wire_round WriteUint64), uint64_wire, H|].
  split; [intros old n H; apply (wire_round WriteUint32), uint32_wire, H|].
  split; [intros old n H; apply (wire_round WriteInt64), int64_wire, H|].
  split; [intros old n H; apply (wire_round WriteUint32), uint32_wire, H|].
  split; [intros old n H; apply (wire_round WriteUint32), uint32_wire, H|].
  split; [intros n old c H1 H2; apply Checksum_round; [exact H1|unfold max_alloc; lia]|].
  split.
  - intros old d H. apply (Checksum_round 16 old d); [unfold zlen; lia|unfold max_alloc; lia].
  - intros old d H. unfold short in H. exists (sized d). split; [apply Bytes_writes; lia|].
    split; [apply lay_bytes; lia|apply Bytes_reads; lia].
Qed.

Lemma calm_never {A} (p : io A) : Calm p -> never_panics p.
Proof. intros H env inp. exact (calm_run env p H inp). Qed.
Lemma length_free_calm :
  never_panics ReadUint8 /\ never_panics ReadUint16 /\ never_panics ReadUint32 /\ never_panics ReadUint64
  /\ never_panics ReadInt8 /\ never_panics ReadInt16 /\ never_panics ReadInt32 /\ never_panics ReadInt64
  /\ never_panics ReadBool /\ never_panics ReadFloat32 /\ never_panics ReadFloat64
  /\ never_panics ReadVaruint /\ never_panics ReadVarint
  /\ (forall old, never_panics (Name_UnmarshalABI old))
  /\ (forall old, never_panics (Symbol_UnmarshalABI old))
  /\ (forall old, never_panics (Uint64_UnmarshalABI old))
  /\ (forall old, never_panics (BlockNum_UnmarshalABI old))
  /\ (forall old, never_panics (TimePoint_UnmarshalABI old))
  /\ (forall old, never_panics (TimePointSec_UnmarshalABI old))
  /\ (forall old, never_panics (BlockTimestamp_UnmarshalABI old))
  /\ (forall old, never_panics (Asset_UnmarshalABI old))
  /\ (forall old, never_panics (ExtendedAsset_UnmarshalABI old))
  /\ (forall old, never_panics (Uint128_UnmarshalABI old))
  /\ (forall old, never_panics (Float128_UnmarshalABI old))
  /\ (forall n old, n <= 64 -> never_panics (Checksum_UnmarshalABI n old))
  /\ (forall old, never_panics (PermissionLevel_UnmarshalABI old))
  /\ (forall old, never_panics (TransactionHeader_UnmarshalABI old)).
Proof.
  split; [apply calm_never, ReadUint8_calm|]. split; [apply calm_never, ReadUint16_calm|].
  split; [apply calm_never, ReadUint32_calm|]. split; [apply calm_never, ReadUint64_calm|].
  split; [apply calm_never, ReadInt8_calm|]. split; [apply calm_never, ReadInt16_calm|].
  split; [apply calm_never, ReadInt32_calm|]. split; [apply calm_never, ReadInt64_calm|].
  split; [apply calm_never, ReadBool_calm|]. split; [apply calm_never, ReadFloat32_calm|].
  split; [apply calm_never, ReadFloat64_calm|]. split; [apply calm_never, ReadVaruint_calm|].
  split; [apply calm_never, ReadVarint_calm|].
  split; [intros; apply calm_never, calm_keep, ReadUint64_calm|].
  split; [intros; apply calm_never, calm_keep, ReadUint64_calm|].
  split; [intros; apply calm_never, calm_keep, ReadUint64_calm|].
  split; [intros; apply calm_never, calm_keep, ReadUint32_calm|].
  split; [intros; apply calm_never, calm_keep, ReadInt64_calm|].
  split; [intros; apply calm_never, calm_keep, ReadUint32_calm|].
  split; [intros; apply calm_never, calm_keep, ReadUint32_calm|].
  split; [intros; apply calm_never, Asset_calm|].
  split; [intros; apply calm_never, ExtendedAsset_calm|].
  split; [intros; apply calm_never, Uint128_calm|].
  split; [intros; apply calm_never, (Checksum_calm 16); unfold max_alloc; lia|].
  split; [intros; apply calm_never, Checksum_calm; unfold max_alloc; lia|].
  split; [intros; apply calm_never, PL_calm|intros; apply calm_never, Header_calm].
Qed.
