(** C85, the types of package chain that are made of others. *)
From Coq Require Import String.
From Verif Require Import Base Prog SpecWire AbiPrim Chain SpecChain Values Leaf SpecLeaf Reflect SpecReflect SpecFailed.
From Verif Require Import BaseProofs ProgProofs ReflectProofs PropReflect PropFailed.
Import ListNotations.
Local Open Scope Z_scope.

(** The value of a field of one of package chain's types, or of Go's. *)
Definition held (p : prim) : rval := RLeaf p (leaf_zero p).
Definition field (k : kind) : tag * visibility * gtype := (NoTag, Exported, TLeaf k).
(** Three structs of package chain as structs without methods would be. *)
Definition header_struct : gtype := TStruct [field KTimePointSec; field KU16; field KU32; field KUint; field KU8; field KUint].
Definition header_fields (h : TransactionHeader) : rval :=
  RStruct [held (PTimePointSec (Expiration h)); held (PU16 (RefBlockNum h)); held (PU32 (RefBlockPrefix h));
           held (PUint (MaxNetUsageWords h)); held (PU8 (MaxCpuUsageMs h)); held (PUint (DelaySec h))].
Definition extension_struct : gtype := TStruct [field KU16; field KBytes].
Definition extension_fields (x : TransactionExtension) : rval := RStruct [held (PU16 (EType x)); held (PBytes (EData x))].
Definition extended_struct : gtype := TStruct [field KAsset; field KName].
Definition extended_fields (x : ExtendedAsset) : rval := RStruct [held (PAsset (Quantity x)); held (PName (Contract x))].

(** Decode of a leaf, at enough fuel. *)
Lemma leaf_runs E k p z fuel env inp : kind_of p = k -> k <> KExtendedAsset ->
  run env (decode (S fuel) E chain_decoder Whole (TLeaf k) (RLeaf p z)) inp = run env (leaf_read p) inp.
Proof.
  intros K N. cbn [decode head chain_decoder]. destruct (table_kind k) eqn:T.
  - rewrite !run_dbind. destruct (run env (leaf_read p) inp) as [[q [e|]] r|m|]; reflexivity.
  - cbn [dbind]. destruct (go_kind k) eqn:G; [reflexivity|]. destruct k; try discriminate; congruence.
Qed.
Lemma field_runs E g k p fuel env inp : kind_of p = k -> k <> KExtendedAsset ->
  run env (get_field E (decode (S fuel) E chain_decoder Whole) g (field k) (held p)) inp
  = match run env (read_prim p) inp with Done (q, o) r => Done (held q, o) r | Crash m => Crash m | Diverged => Diverged end.
Proof.
  intros K N. unfold field. cbn [get_field]. unfold through. cbn [head held]. unfold held. rewrite leaf_runs by assumption. unfold leaf_read. rewrite run_dbind.
  now destruct (run env (read_prim p) inp) as [[q o] r|m|].
Qed.
Lemma wrap_runs {A} (c : A -> prim) p env inp : run env (wrap c p) inp = match run env p inp with Done (a, o) r => Done (c a, o) r | Crash m => Crash m | Diverged => Diverged end.
Proof. unfold wrap. rewrite run_dbind. now destruct (run env p inp) as [[a o] r|m|]. Qed.

Ltac settle R := cbn [run] in R |- *; lazymatch type of R with Done (?a, ?b) ?c = Done (?a', ?b') ?c' =>
  assert (a' = a) by congruence; assert (b' = b) by congruence; assert (c' = c) by congruence; subst a' b' c'; reflexivity end.
Ltac next R := rewrite run_dbind, field_runs by (reflexivity || discriminate); cbn [read_prim]; rewrite wrap_runs; rewrite run_dbind in R;
  lazymatch type of R with match run ?env ?p ?inp with _ => _ end = _ => destruct (run env p inp) as [[? [?|]] ?|?|]; try discriminate R; [now settle R|] end;
  try rewrite run_dbind.
Ltac last R := rewrite run_dbind, field_runs by (reflexivity || discriminate); cbn [read_prim]; rewrite wrap_runs; rewrite run_dbind in R;
  lazymatch type of R with match run ?env ?p ?inp with _ => _ end = _ => destruct (run env p inp) as [[? [?|]] ?|?|]; try discriminate R; now settle R end.
(** A TransactionHeader is left as the struct of its fields would be. *)
Theorem C85_header E h z env inp v o rest fuel :
  run env (Decode fuel E (TLeaf KTransactionHeader) (RLeaf (PTransactionHeader h) z)) inp = Done (v, o) rest ->
  exists h' z', v = RLeaf (PTransactionHeader h') z'
    /\ run env (Decode 3 E header_struct (header_fields h)) inp = Done (header_fields h', o) rest.
Proof.
  intros R. destruct fuel as [|fuel]; [discriminate R|]. unfold Decode in R. rewrite leaf_runs in R by (reflexivity || discriminate).
  unfold leaf_read in R. apply (map_done env _ (fun q => RLeaf q (leaf_zero q))) in R as (q & R & ->). cbn [read_prim] in R. apply map_done in R as (h' & R & ->).
  exists h', (leaf_zero (PTransactionHeader h')). split; [reflexivity|].
  unfold Decode, header_struct, header_fields. remember 1%nat as one. replace 3%nat with (S (S one)) by (subst; reflexivity). cbn [decode head chain_decoder dbind]. cbv zeta. subst one. rewrite run_dbind.
  cbn [get_fields]. unfold TransactionHeader_UnmarshalABI in R. cbv zeta in R.
  do 5 next R. last R.
Qed.
Print Assumptions C85_header.
(** So is a TransactionExtension. *)
Theorem C85_extension E x z env inp v o rest fuel :
  run env (Decode fuel E (TLeaf KTransactionExtension) (RLeaf (PTransactionExtension x) z)) inp = Done (v, o) rest ->
  exists x' z', v = RLeaf (PTransactionExtension x') z'
    /\ run env (Decode 3 E extension_struct (extension_fields x)) inp = Done (extension_fields x', o) rest.
Proof.
  intros R. destruct fuel as [|fuel]; [discriminate R|]. unfold Decode in R. rewrite leaf_runs in R by (reflexivity || discriminate).
  unfold leaf_read in R. apply (map_done env _ (fun q => RLeaf q (leaf_zero q))) in R as (q & R & ->). cbn [read_prim] in R. apply map_done in R as (x' & R & ->).
  exists x', (leaf_zero (PTransactionExtension x')). split; [reflexivity|].
  unfold Decode, extension_struct, extension_fields. remember 1%nat as one. replace 3%nat with (S (S one)) by (subst; reflexivity). cbn [decode head chain_decoder dbind]. cbv zeta. subst one. rewrite run_dbind.
  cbn [get_fields]. unfold TransactionExtension_UnmarshalABI in R. next R. last R.
Qed.
Print Assumptions C85_extension.
(** And an ExtendedAsset. *)
Theorem C85_extended_asset E x z env inp v o rest fuel :
  run env (Decode fuel E (TLeaf KExtendedAsset) (RLeaf (PExtendedAsset x) z)) inp = Done (v, o) rest ->
  exists x' z', v = RLeaf (PExtendedAsset x') z'
    /\ run env (Decode 3 E extended_struct (extended_fields x)) inp = Done (extended_fields x', o) rest.
Proof.
  intros R. destruct fuel as [|[|fuel]]; try discriminate R. unfold Decode in R. cbn [decode head chain_decoder table_kind go_kind dbind] in R.
  unfold leaf_read in R. apply (map_done env _ (fun q => RLeaf q (leaf_zero q))) in R as (q & R & ->). cbn [read_prim] in R. apply map_done in R as (x' & R & ->).
  exists x', (leaf_zero (PExtendedAsset x')). split; [reflexivity|].
  unfold Decode, extended_struct, extended_fields. remember 1%nat as one. replace 3%nat with (S (S one)) by (subst; reflexivity). cbn [decode head chain_decoder dbind]. cbv zeta. subst one. rewrite run_dbind.
  cbn [get_fields]. unfold ExtendedAsset_UnmarshalABI in R. next R. last R.
Qed.
Print Assumptions C85_extended_asset.

(** Values of one of package chain's types one after the other, each read into a new variable. *)
Inductive in_turn (env : renv) (E : types) (k : kind) : list byte -> list prim -> list byte -> Prop :=
| it_nil inp : in_turn env E k inp [] inp
| it_cons inp p z r ps rest : run env (Decode 1 E (TLeaf k) (zero E (TLeaf k))) inp = Done (RLeaf p z, None) r ->
    in_turn env E k r ps rest -> in_turn env E k inp (p :: ps) rest.
(** A list of them with its length in front, read whole. *)
Definition list_read (env : renv) (E : types) (k : kind) (inp : list byte) (ps : list prim) (rest : list byte) : Prop :=
  exists n r, run env ReadVaruint inp = Done (n, None) r /\ length ps = Z.to_nat (i64 n) /\ in_turn env E k r ps rest.
(** Such a list where reading failed: what was held if the length could not be read, else
    those read, the one that failed as it was left, and zero values. *)
Definition list_left (env : renv) (E : types) (k : kind) (inp : list byte) (old ps : list prim) (e : gerr) (rest : list byte) : Prop :=
  (exists n, run env ReadVaruint inp = Done (n, Some e) rest /\ ps = old)
  \/ exists n r whole q p z more, run env ReadVaruint inp = Done (n, None) r /\ in_turn env E k r whole q
       /\ run env (Decode 1 E (TLeaf k) (zero E (TLeaf k))) q = Done (RLeaf p z, Some e) rest
       /\ ps = whole ++ p :: repeat (zero_prim k) more /\ length ps = Z.to_nat (i64 n).

Lemma element_runs E k {A} (c : A -> prim) (f : A -> io A) (old : A) env inp a o r : kind_of (c old) = k -> k <> KExtendedAsset -> c old = zero_prim k ->
  read_prim (c old) = wrap c (f old) -> run env (f old) inp = Done (a, o) r ->
  exists z, run env (Decode 1 E (TLeaf k) (zero E (TLeaf k))) inp = Done (RLeaf (c a) z, o) r.
Proof.
  intros K N Z W R. exists (leaf_zero (c a)). unfold Decode, zero. cbn [head zero_of]. rewrite <- Z, leaf_runs by assumption.
  unfold leaf_read. rewrite run_dbind, W, wrap_runs, R. reflexivity.
Qed.
Lemma all_read E k {A} (c : A -> prim) (f : A -> io A) (old : A) env : kind_of (c old) = k -> k <> KExtendedAsset -> c old = zero_prim k ->
  read_prim (c old) = wrap c (f old) -> forall n inp l o rest, run env (read_all old f n) inp = Done (l, o) rest ->
  length l = n /\ match o with
  | None => in_turn env E k inp (map c l) rest
  | Some e => exists whole q p z more, in_turn env E k inp whole q /\ run env (Decode 1 E (TLeaf k) (zero E (TLeaf k))) q = Done (RLeaf p z, Some e) rest
                /\ map c l = whole ++ p :: repeat (zero_prim k) more
  end.
Proof.
  intros K N Z W. induction n as [|n IH]; intros inp l o rest R; cbn [read_all] in R.
  { cbn [run] in R. assert (l = []) as -> by congruence. assert (o = None) as -> by congruence. assert (rest = inp) as -> by congruence. split; [reflexivity|constructor]. }
  rewrite run_dbind in R. destruct (run env (f old) inp) as [[x [e|]] r|m|] eqn:X; try discriminate R; apply (element_runs E k c f) in X as (z & X); try assumption.
  - cbn [run] in R. assert (l = x :: repeat old n) as -> by congruence. assert (o = Some e) as -> by congruence. assert (rest = r) as -> by congruence.
    split; [cbn; now rewrite repeat_length|]. exists [], inp, (c x), z, n. split; [constructor|]. split; [exact X|]. cbn [map app]. f_equal. rewrite <- Z. clear. induction n; cbn; congruence.
  - rewrite run_dbind in R. destruct (run env (read_all old f n) r) as [[xs o'] r'|m|] eqn:Y; try discriminate R. cbn [run] in R.
    assert (l = x :: xs) as -> by congruence. assert (o = o') as -> by congruence. assert (rest = r') as -> by congruence. apply IH in Y as [L Y]. split; [cbn; congruence|].
    destruct o' as [e|]; [|econstructor; eassumption]. destruct Y as (whole & q & p & z' & more & A1 & A2 & A3).
    exists (c x :: whole), q, p, z', more. split; [econstructor; eassumption|]. split; [exact A2|]. cbn [map app]. congruence.
Qed.
Lemma slice_read E k size {A} (c : A -> prim) (f : A -> io A) (old : A) env : kind_of (c old) = k -> k <> KExtendedAsset -> c old = zero_prim k ->
  read_prim (c old) = wrap c (f old) -> forall held inp l o rest, run env (read_slice size old f held) inp = Done (l, o) rest ->
  match o with None => list_read env E k inp (map c l) rest | Some e => list_left env E k inp (map c held) (map c l) e rest end.
Proof.
  intros K N Z W held0 inp l o rest R. unfold read_slice in R. rewrite run_dbind in R.
  destruct (run env ReadVaruint inp) as [[n [e|]] r|m|] eqn:V; try discriminate R.
  - cbn [run] in R. assert (l = held0) as -> by congruence. assert (o = Some e) as -> by congruence. assert (rest = r) as -> by congruence. left. now exists n.
  - destruct (make_ok size n); [|discriminate R]. apply (all_read E k c f) in R as [L R]; try assumption. destruct o as [e|].
    + destruct R as (whole & q & p & z & more & A1 & A2 & A3). right. exists n, r, whole, q, p, z, more. repeat (split; [assumption|]). now rewrite map_length.
    + exists n, r. split; [exact V|]. split; [now rewrite map_length|exact R].
Qed.

(** A Transaction: its parts in turn, the one that failed as a header or list that failed
    is left, the others behind it as they were. *)
Theorem C85_transaction E t z env inp v e rest fuel :
  run env (Decode fuel E (TLeaf KTransaction) (RLeaf (PTransaction t) z)) inp = Done (v, Some e) rest ->
  exists t' z' o r1, v = RLeaf (PTransaction t') z'
    /\ run env (Decode 1 E (TLeaf KTransactionHeader) (held (PTransactionHeader (Header t)))) inp = Done (held (PTransactionHeader (Header t')), o) r1
    /\ (let free := map PAction (ContextFreeActions t') in
        let acts := map PAction (Actions t') in
        let exts := map PTransactionExtension (Extensions t') in
        (o = Some e /\ r1 = rest /\ ContextFreeActions t' = ContextFreeActions t /\ Actions t' = Actions t /\ Extensions t' = Extensions t)
        \/ o = None /\ (list_left env E KAction r1 (map PAction (ContextFreeActions t)) free e rest /\ Actions t' = Actions t /\ Extensions t' = Extensions t
           \/ exists r2, list_read env E KAction r1 free r2
             /\ (list_left env E KAction r2 (map PAction (Actions t)) acts e rest /\ Extensions t' = Extensions t
                 \/ exists r3, list_read env E KAction r2 acts r3
                      /\ list_left env E KTransactionExtension r3 (map PTransactionExtension (Extensions t)) exts e rest))).
Proof.
  intros R. destruct fuel as [|fuel]; [discriminate R|]. unfold Decode in R. rewrite leaf_runs in R by (reflexivity || discriminate).
  unfold leaf_read in R. apply (map_done env _ (fun q => RLeaf q (leaf_zero q))) in R as (q & R & ->). cbn [read_prim] in R. apply map_done in R as (t' & R & ->).
  exists t', (leaf_zero (PTransaction t')). cbv zeta. unfold Decode, held. rewrite leaf_runs by (reflexivity || discriminate). unfold leaf_read. rewrite run_dbind. cbn [read_prim]. rewrite wrap_runs.
  unfold Transaction_UnmarshalABI in R. cbv zeta in R. rewrite run_dbind in R.
  destruct (run env (TransactionHeader_UnmarshalABI (Header t)) inp) as [[h [e1|]] r1|m|]; try discriminate R.
  { cbn [run] in R |- *. exists (Some e1), r1. assert (W : t' = {| Header := h; ContextFreeActions := ContextFreeActions t; Actions := Actions t; Extensions := Extensions t |}) by congruence.
    rewrite W. cbn [Header ContextFreeActions Actions Extensions]. split; [reflexivity|]. split; [reflexivity|]. left. repeat split; congruence. }
  cbn [run]. exists None, r1. split; [reflexivity|]. rewrite run_dbind in R.
  destruct (run env (read_slice 64 _ _ (ContextFreeActions t)) r1) as [[l1 [e1|]] r2|m|] eqn:X1; try discriminate R;
    apply (slice_read E KAction 64 PAction) in X1; try reflexivity; try discriminate.
  { cbn [run] in R. assert (W : t' = {| Header := h; ContextFreeActions := l1; Actions := Actions t; Extensions := Extensions t |}) by congruence.
    rewrite W. cbn [Header ContextFreeActions Actions Extensions]. split; [reflexivity|]. right. split; [reflexivity|]. left.
    assert (e1 = e) as -> by congruence. assert (r2 = rest) as -> by congruence. repeat split. exact X1. }
  rewrite run_dbind in R. destruct (run env (read_slice 64 _ _ (Actions t)) r2) as [[l2 [e1|]] r3|m|] eqn:X2; try discriminate R;
    apply (slice_read E KAction 64 PAction) in X2; try reflexivity; try discriminate.
  { cbn [run] in R. assert (W : t' = {| Header := h; ContextFreeActions := l1; Actions := l2; Extensions := Extensions t |}) by congruence.
    rewrite W. cbn [Header ContextFreeActions Actions Extensions]. split; [reflexivity|]. right. split; [reflexivity|]. right. exists r2. split; [exact X1|]. left.
    assert (e1 = e) as -> by congruence. assert (r3 = rest) as -> by congruence. split; [exact X2|reflexivity]. }
  rewrite run_dbind in R. destruct (run env (read_slice 32 _ _ (Extensions t)) r3) as [[l3 [e1|]] r4|m|] eqn:X3; try discriminate R;
    apply (slice_read E KTransactionExtension 32 PTransactionExtension) in X3; try reflexivity; try discriminate.
  cbn [run] in R. assert (W : t' = {| Header := h; ContextFreeActions := l1; Actions := l2; Extensions := l3 |}) by congruence.
  rewrite W. cbn [Header ContextFreeActions Actions Extensions]. split; [reflexivity|]. right. split; [reflexivity|]. right. exists r2. split; [exact X1|]. right. exists r3. split; [exact X2|].
  assert (e1 = e) as -> by congruence. assert (r4 = rest) as -> by congruence. exact X3.
Qed.
Print Assumptions C85_transaction.

Lemma name_runs E n env inp n' o r : run env (Name_UnmarshalABI n) inp = Done (n', o) r ->
  run env (Decode 1 E (TLeaf KName) (held (PName n))) inp = Done (held (PName n'), o) r.
Proof.
  intros R. unfold Decode, held. rewrite leaf_runs by (reflexivity || discriminate). unfold leaf_read. rewrite run_dbind. cbn [read_prim]. rewrite wrap_runs, R. reflexivity.
Qed.
Lemma name_kept n env inp n' e r : run env (Name_UnmarshalABI n) inp = Done (n', Some e) r -> n' = n.
Proof.
  unfold Name_UnmarshalABI, keep. rewrite run_dbind. destruct (run env ReadUint64 inp) as [[x [e'|]] r'|m|]; try discriminate. cbn [run]. congruence.
Qed.
Lemma bytes_kept b env inp b' e r : run env (Bytes_UnmarshalABI b) inp = Done (b', Some e) r -> b' = b.
Proof.
  unfold Bytes_UnmarshalABI, dtry. rewrite run_dbind. destruct (run env ReadVaruint inp) as [[x [e'|]] r'|m|]; try discriminate; [cbn [run]; congruence|].
  rewrite run_dbind. destruct (run env (ReadBytes (i64 x)) r') as [[[c y] [e'|]] r2|m|]; try discriminate. cbn [run]. congruence.
Qed.
(** A PermissionLevel: whatever came of the actor, also if it could not be read, the
    permission is read next; it is as it was. *)
Theorem C85_permission_level E l z env inp v e rest fuel :
  run env (Decode fuel E (TLeaf KPermissionLevel) (RLeaf (PPermissionLevel l) z)) inp = Done (v, Some e) rest ->
  exists l' z' o r, v = RLeaf (PPermissionLevel l') z' /\ Permission l' = Permission l
    /\ run env (Decode 1 E (TLeaf KName) (held (PName (Actor l)))) inp = Done (held (PName (Actor l')), o) r
    /\ run env (Decode 1 E (TLeaf KName) (held (PName (Permission l)))) r = Done (held (PName (Permission l)), Some e) rest.
Proof.
  intros R. destruct fuel as [|fuel]; [discriminate R|]. unfold Decode in R. rewrite leaf_runs in R by (reflexivity || discriminate).
  unfold leaf_read in R. apply (map_done env _ (fun q => RLeaf q (leaf_zero q))) in R as (q & R & ->). cbn [read_prim] in R. apply map_done in R as (l' & R & ->).
  unfold PermissionLevel_UnmarshalABI in R. rewrite run_dbind in R. destruct (run env (Name_UnmarshalABI (Actor l)) inp) as [[a o] r|m|] eqn:A; try discriminate R.
  rewrite run_dbind in R. destruct (run env (Name_UnmarshalABI (Permission l)) r) as [[p o'] r'|m|] eqn:P; try discriminate R. cbn [run] in R.
  assert (W : l' = {| Actor := a; Permission := p |}) by congruence. assert (o' = Some e) as -> by congruence. assert (r' = rest) as -> by congruence.
  assert (p = Permission l) as -> by (eapply name_kept; exact P).
  exists l', (leaf_zero (PPermissionLevel l')), o, r. rewrite W. cbn [Actor Permission]. split; [reflexivity|]. split; [reflexivity|]. split; [now apply name_runs|now apply name_runs].
Qed.
Print Assumptions C85_permission_level.
Lemma auths_read E env : forall n acc inp l o rest, run env (read_auths n acc) inp = Done (l, o) rest ->
  exists new q, l = acc ++ new /\ in_turn env E KPermissionLevel inp (map PPermissionLevel new) q
    /\ match o with
       | None => length new = n /\ q = rest
       | Some e => (length new < n)%nat /\ exists v, run env (Decode 1 E (TLeaf KPermissionLevel) (zero E (TLeaf KPermissionLevel))) q = Done (v, Some e) rest
       end.
Proof.
  induction n as [|n IH]; intros acc inp l o rest R; cbn [read_auths] in R.
  { cbn [run] in R. exists [], inp. assert (l = acc) as -> by congruence. assert (o = None) as -> by congruence. assert (rest = inp) as -> by congruence.
    rewrite app_nil_r. split; [reflexivity|]. split; [constructor|]. now split. }
  rewrite run_dbind in R. destruct (run env (PermissionLevel_UnmarshalABI _) inp) as [[p [e|]] r|m|] eqn:P; try discriminate R;
    apply (element_runs E KPermissionLevel PPermissionLevel PermissionLevel_UnmarshalABI) in P as (z & P); try reflexivity; try discriminate.
  - cbn [run] in R. exists [], inp. assert (l = acc) as -> by congruence. assert (o = Some e) as -> by congruence. assert (rest = r) as -> by congruence.
    rewrite app_nil_r. split; [reflexivity|]. split; [constructor|]. split; [cbn; lia|]. eexists. exact P.
  - apply IH in R as (new & q & -> & T & O). exists (p :: new), q. rewrite <- app_assoc. split; [reflexivity|]. split; [cbn [map]; econstructor; eassumption|].
    destruct o as [e|]; cbn [length]; [destruct O as [L O]; split; [lia|exact O]|destruct O as [L O]; split; [lia|exact O]].
Qed.
(** An Action: whatever came of the account and the name, also if they could not be read,
    the permission levels are read next; those read whole are put behind those held.  The
    data is as it was. *)
Theorem C85_action E a z env inp v e rest fuel :
  run env (Decode fuel E (TLeaf KAction) (RLeaf (PAction a) z)) inp = Done (v, Some e) rest ->
  exists a' z' o1 r1 o2 r2 new, v = RLeaf (PAction a') z' /\ AData a' = AData a /\ Authorization a' = Authorization a ++ new
    /\ run env (Decode 1 E (TLeaf KName) (held (PName (Account a)))) inp = Done (held (PName (Account a')), o1) r1
    /\ run env (Decode 1 E (TLeaf KName) (held (PName (AName a)))) r1 = Done (held (PName (AName a')), o2) r2
    /\ ((exists n, run env ReadVaruint r2 = Done (n, Some e) rest /\ new = [])
        \/ exists n r3 q, run env ReadVaruint r2 = Done (n, None) r3 /\ in_turn env E KPermissionLevel r3 (map PPermissionLevel new) q
             /\ ((length new < Z.to_nat (i64 n))%nat
                 /\ (exists v, run env (Decode 1 E (TLeaf KPermissionLevel) (zero E (TLeaf KPermissionLevel))) q = Done (v, Some e) rest)
                 \/ length new = Z.to_nat (i64 n)
                 /\ exists v, run env (Decode 1 E (TLeaf KBytes) (zero E (TLeaf KBytes))) q = Done (v, Some e) rest)).
Proof.
  intros R. destruct fuel as [|fuel]; [discriminate R|]. unfold Decode in R. rewrite leaf_runs in R by (reflexivity || discriminate).
  unfold leaf_read in R. apply (map_done env _ (fun q => RLeaf q (leaf_zero q))) in R as (q & R & ->). cbn [read_prim] in R. apply map_done in R as (a' & R & ->).
  unfold Action_UnmarshalABI in R. rewrite run_dbind in R. destruct (run env (Name_UnmarshalABI (Account a)) inp) as [[x1 o1] r1|m|] eqn:A; try discriminate R.
  rewrite run_dbind in R. destruct (run env (Name_UnmarshalABI (AName a)) r1) as [[x2 o2] r2|m|] eqn:B; try discriminate R.
  apply (name_runs E) in A, B. exists a', (leaf_zero (PAction a')), o1, r1, o2, r2.
  rewrite run_dbind in R. destruct (run env ReadVaruint r2) as [[n [e'|]] r3|m|] eqn:V; try discriminate R.
  { cbn [run] in R. assert (W : a' = {| Account := x1; AName := x2; Authorization := Authorization a; AData := AData a |}) by congruence. exists []. rewrite W, app_nil_r.
    cbn [Account AName Authorization AData]. repeat (split; [first [reflexivity|assumption]|]). left. exists n. split; [congruence|reflexivity]. }
  rewrite run_dbind in R. destruct (run env (read_auths _ _) r3) as [[au [e'|]] r4|m|] eqn:U; try discriminate R; apply (auths_read E) in U as (new & q & -> & T & O).
  { cbn [run] in R. assert (W : a' = {| Account := x1; AName := x2; Authorization := Authorization a ++ new; AData := AData a |}) by congruence. exists new. rewrite W.
    cbn [Account AName Authorization AData]. repeat (split; [first [reflexivity|assumption]|]). right. exists n, r3, q. split; [reflexivity|]. split; [exact T|]. left.
    assert (e' = e) as -> by congruence. assert (r4 = rest) as -> by congruence. exact O. }
  destruct O as [L ->]. rewrite run_dbind in R. destruct (run env (Bytes_UnmarshalABI (AData a)) r4) as [[d o] r5|m|] eqn:D; try discriminate R. cbn [run] in R.
  assert (W : a' = {| Account := x1; AName := x2; Authorization := Authorization a ++ new; AData := d |}) by congruence.
  assert (o = Some e) as -> by congruence. assert (r5 = rest) as -> by congruence. assert (d = AData a) as -> by (eapply bytes_kept; exact D). exists new. rewrite W.
  cbn [Account AName Authorization AData]. repeat (split; [first [reflexivity|assumption]|]). right. exists n, r3, r4. split; [reflexivity|]. split; [exact T|]. right. split; [exact L|].
  unfold Decode, zero. cbn [head zero_of]. rewrite leaf_runs by (reflexivity || discriminate). unfold leaf_read. rewrite run_dbind. cbn [zero_prim read_prim]. rewrite wrap_runs.
  revert D. unfold Bytes_UnmarshalABI, dtry. rewrite !run_dbind. destruct (run env ReadVaruint r4) as [[y [e'|]] r6|m|]; try discriminate.
  - cbn [run]. intros D. assert (e' = e) as -> by congruence. assert (r6 = rest) as -> by congruence. eexists. reflexivity.
  - rewrite !run_dbind. destruct (run env (ReadBytes (i64 y)) r6) as [[[c b] [e'|]] r7|m|]; try discriminate. cbn [run]. intros D.
    assert (e' = e) as -> by congruence. assert (r7 = rest) as -> by congruence. eexists. reflexivity.
Qed.
Print Assumptions C85_action.

(** A transaction cut off in its second action, over one that had an action before; an
    action cut off in its data, over one with a level; a header, an extension, an extended
    asset and a permission level cut off. *)
Example C85_types_ex :
  let env := {| r_end := EOF; r_strict := true |} in
  let E := node_types in
  let fails p inp q := exists e rest z, run env (Decode 9 E (TLeaf (kind_of p)) (held p)) inp = Done (RLeaf q z, Some e) rest in
  let act n l d := {| Account := n; AName := n; Authorization := l; AData := d |} in
  let lvl n := {| Actor := n; Permission := n |} in
  let name n := n :: repeat x00 7 in
  let hd n := {| Expiration := n; RefBlockNum := n; RefBlockPrefix := n; MaxNetUsageWords := n; MaxCpuUsageMs := n; DelaySec := n |} in
  let hd1 := [x01; x00; x00; x00; x01; x00; x01; x00; x00; x00; x01; x01; x01] in
  let ext n := {| EType := n; EData := [x09] |} in
  fails (PTransaction {| Header := hd 7; ContextFreeActions := [act 7 [] []]; Actions := [act 7 [] []]; Extensions := [ext 7] |})
    (hd1 ++ [x00; x03] ++ name x02 ++ name x02 ++ [x00; x00] ++ name x03)
    (PTransaction {| Header := hd 1; ContextFreeActions := []; Actions := [act 2 [] []; {| Account := 3; AName := 0; Authorization := []; AData := [] |}; act 0 [] []]; Extensions := [ext 7] |})
  /\ fails (PAction (act 7 [lvl 7] [x07])) (name x01 ++ name x01 ++ [x01] ++ name x02 ++ name x02 ++ [x02; x05]) (PAction (act 1 [lvl 7; lvl 2] [x07]))
  /\ fails (PTransactionHeader (hd 7)) [x01; x00; x00; x00; x01; x00; x01; x00]
       (PTransactionHeader {| Expiration := 1; RefBlockNum := 1; RefBlockPrefix := 0; MaxNetUsageWords := 7; MaxCpuUsageMs := 7; DelaySec := 7 |})
  /\ fails (PTransactionExtension (ext 7)) [x05; x00; x02; x01] (PTransactionExtension (ext 5))
  /\ fails (PExtendedAsset {| Quantity := {| Value := 7; Sym := 7 |}; Contract := 7 |}) (name x01 ++ [x01]) (PExtendedAsset {| Quantity := {| Value := 1; Sym := 0 |}; Contract := 7 |})
  /\ fails (PPermissionLevel (lvl 7)) (name x01 ++ [x01]) (PPermissionLevel {| Actor := 1; Permission := 7 |}).
Proof. cbv zeta. repeat split; do 3 eexists; vm_compute; reflexivity. Qed.
