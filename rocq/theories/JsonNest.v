(** How deep the JSON forms of pkg/chain's types are nested. *)
From Verif Require Import Base GoStd BaseProofs GoStdProofs SpecText SpecJson SpecChain Chain AbiDyn Name Symbol Hex Numbers Time Keys Json SpecJsonText JsonProofs JsonCodecs.

Lemma nest_least j : 0 <= nest j.
Proof. destruct j as [| | | |l|l]; cbn [nest]; try lia; induction l; cbn [fold_right]; lia. Qed.
Lemma nest_list l n : fold_right (fun j n => Z.max (nest j) n) 0 l <= n <-> 0 <= n /\ Forall (fun j => nest j <= n) l.
Proof.
  induction l as [|j l IH]; cbn [fold_right]; [split; [now split|tauto]|]. rewrite Forall_cons_iff, Z.max_lub_iff, IH. tauto.
Qed.
Lemma nest_pairs {K} (l : list (K * json)) n : fold_right (fun kj n => Z.max (nest (snd kj)) n) 0 l <= n <-> 0 <= n /\ Forall (fun kj => nest (snd kj) <= n) l.
Proof.
  induction l as [|j l IH]; cbn [fold_right]; [split; [now split|tauto]|]. rewrite Forall_cons_iff, Z.max_lub_iff, IH. tauto.
Qed.
Lemma nested_nest : forall j n, nested n j <-> nest j <= n.
Proof.
  fix IH 1. intros j n. destruct j as [| | | |l|l];
    try (cbn [nest]; split; [now inversion 1|intros H; now constructor]).
  - assert (E : Forall (nested (n - 1)) l <-> Forall (fun j => nest j <= n - 1) l).
    { induction l as [|j l IHl]; [split; constructor|]. rewrite !Forall_cons_iff, IHl, (IH j). tauto. }
    cbn [nest]. split.
    + inversion 1 as [? ? ? X|? ? P F|]; subst; [elim X|]. apply E in F. assert (L : 0 <= n - 1) by lia. pose proof (proj2 (nest_list l (n - 1)) (conj L F)). lia.
    + intros H. assert (L : fold_right (fun j n => Z.max (nest j) n) 0 l <= n - 1) by lia. apply nest_list in L as [P F]. constructor; [lia|now apply E].
  - assert (E : Forall (fun kj => nested (n - 1) (snd kj)) l <-> Forall (fun kj => nest (snd kj) <= n - 1) l).
    { induction l as [|[k j] l IHl]; [split; constructor|]. rewrite !Forall_cons_iff, IHl. cbn [snd]. rewrite (IH j). tauto. }
    cbn [nest]. split.
    + inversion 1 as [? ? ? X| |? ? P F]; subst; [elim X|]. apply E in F. assert (L : 0 <= n - 1) by lia. pose proof (proj2 (nest_pairs l (n - 1)) (conj L F)). lia.
    + intros H. assert (L : fold_right (fun kj n => Z.max (nest (snd kj)) n) 0 l <= n - 1) by lia. apply nest_pairs in L as [P F]. constructor; [lia|now apply E].
Qed.

(** [v] is printed with at most [n] levels. *)
Definition shallow {T} (n : Z) (c : codec T) (v : T) : Prop := forall j, enc c v j -> nest j <= n.
Definition shallow_field {T} (n : Z) (f : jfield T) (v : T) : Prop := forall j, f_enc f v (Some j) -> nest j <= n.
Lemma shallow_string n s v : 0 <= n -> shallow n (j_string s) v.
Proof. intros H j ->. exact H. Qed.
Lemma shallow_uint n bits v : 0 <= n -> shallow n (j_uint bits) v.
Proof. intros H j ->. exact H. Qed.
Lemma shallow_text {T} n s marshal unmarshal nil (v : T) : 0 <= n -> shallow n (j_text s marshal unmarshal nil) v.
Proof. intros H j (t & _ & ->). exact H. Qed.
Lemma shallow_slice {T} n zero (c : codec T) l : 0 < n -> (forall x, In x l -> shallow (n - 1) c x) -> shallow n (j_slice zero c) l.
Proof.
  intros P H j [(js & F & ->)|(_ & ->)]; cbn [nest]; [|lia].
  enough (fold_right (fun j n => Z.max (nest j) n) 0 js <= n - 1) by lia. apply nest_list. split; [lia|].
  induction F as [|x y l js E F IH]; constructor; [apply (H x); [now left|exact E]|apply IH; intros z I; apply H; now right].
Qed.
Lemma shallow_ptr {T} n zero (c : codec T) o : 0 <= n -> (forall x, o = Some x -> shallow n c x) -> shallow n (j_ptr zero c) o.
Proof. intros P H j. destruct o as [x|]; cbn [j_ptr enc]; [now apply H|now intros ->]. Qed.
Lemma shallow_fld {T A} n name (c : codec A) (get : T -> A) set v : shallow n c (get v) -> shallow_field n (fld name c get set) v.
Proof. intros H j (k & E & [= ->]). now apply H. Qed.
Lemma shallow_omit {T A} n name (c : codec (list A)) (get : T -> list A) set v : shallow n c (get v) -> shallow_field n (fld_omit name c get set) v.
Proof. intros H j. cbn [fld_omit f_enc]. destruct (get v) eqn:G; [discriminate|]. intros (k & E & [= ->]). now apply H. Qed.
Lemma shallow_struct {T} n f (fs : list (jfield T)) v : 0 < n -> Forall (fun f => shallow_field (n - 1) f v) fs -> shallow n (j_struct f fs) v.
Proof.
  intros P H j (os & F & ->). cbn [nest]. enough (fold_right (fun kj n => Z.max (nest (snd kj)) n) 0 (members fs os) <= n - 1) by lia.
  apply nest_pairs. split; [lia|]. induction F as [|x o fs os E F IH]; [constructor|]. apply Forall_cons_iff in H as [H1 H2].
  destruct o as [j|]; cbn [members]; [|now apply IH]. constructor; [now apply H1|now apply IH].
Qed.
Ltac levels := repeat first
  [apply shallow_string; lia|apply shallow_uint; lia|apply shallow_text; lia|apply shallow_slice; [lia|]; intros ? ?
  |apply shallow_ptr; [lia|]; intros ? ?|apply shallow_fld|apply shallow_omit|apply shallow_struct; [lia|]|apply Forall_cons|apply Forall_nil].
Lemma shallow_raw {T} marshal unmarshal (v : T) : shallow 10000 (j_raw marshal unmarshal) v.
Proof.
  intros j. cbn [j_raw enc]. unfold parse. destruct (parse_value _ _) as [[k r]|]; [|discriminate]. destruct (skip_space r); [|discriminate].
  destruct (nest k <=? 10000) eqn:E; [|discriminate]. intros [= ->]. now apply Z.leb_le.
Qed.
Lemma shallow_uint64 n v : 0 <= n -> 0 <= v -> shallow n j_Uint64 v.
Proof.
  intros P V j. pose proof (FormatUint_numeral v V) as N. cbn [j_Uint64 j_raw enc]. unfold Uint64_MarshalJSON, writeUintJSON. destruct (4294967295 <? v).
  - change ([x22] ++ FormatUint v ++ [x22]) with (print (JStr (FormatUint v))). intros E. apply parse_printed in E; [now rewrite E|].
    destruct N as (_ & D & _). constructor. apply quiet_raw. now apply digits_quiet.
  - change (FormatUint v) with (print (JNum (FormatUint v))). intros E. apply parse_printed in E; [now rewrite E|]. now apply number_good in N.
Qed.
Lemma shallow_action n e v : 3 <= n -> shallow n (j_Action e) v.
Proof. intros H. unfold j_Action, Action_fields, j_PermissionLevel, PermissionLevel_fields. levels. Qed.
Lemma shallow_extension n e v : 1 <= n -> shallow n (j_TransactionExtension e) v.
Proof. intros H. unfold j_TransactionExtension, TransactionExtension_fields. levels. Qed.
Lemma shallow_permission n e v : 1 <= n -> shallow n (j_PermissionLevel e) v.
Proof. intros H. unfold j_PermissionLevel, PermissionLevel_fields. levels. Qed.
Lemma shallow_header n e v : 1 <= n -> shallow n (j_TransactionHeader e) v.
Proof. intros H. unfold j_TransactionHeader, TransactionHeader_fields. levels. Qed.
Lemma shallow_asset n e v : 1 <= n -> shallow n (j_ExtendedAsset e) v.
Proof. intros H. unfold j_ExtendedAsset, ExtendedAsset_fields. levels. Qed.
Lemma shallow_transaction n e v : 5 <= n -> shallow n (j_Transaction e) v.
Proof.
  intros H. apply shallow_struct; [lia|]. unfold Transaction_fields. apply Forall_app. split.
  - assert (F : Forall (fun f => shallow_field (n - 1) f (Header v)) (TransactionHeader_fields e)) by (unfold TransactionHeader_fields; levels).
    apply Forall_map. eapply Forall_impl; [|exact F]. intros f S j. apply S.
  - repeat apply Forall_cons; try apply Forall_nil; apply shallow_fld; (apply shallow_slice; [lia|]); intros x _;
      first [apply shallow_action; lia|apply shallow_extension; lia].
Qed.
Lemma shallow_abi n e v : 5 <= n -> Forall (fun x => 0 <= ErrCode x) (ErrorMessages v) -> shallow n (j_Abi e) v.
Proof.
  intros H F. unfold j_Abi, Abi_fields, j_AbiType, AbiType_fields, j_AbiStruct, AbiStruct_fields, j_AbiField, AbiField_fields, j_AbiAction, AbiAction_fields,
    j_AbiTable, AbiTable_fields, j_AbiClause, AbiClause_fields, j_AbiErrorMessage, AbiErrorMessage_fields, j_AbiExtension, AbiExtension_fields, j_AbiVariant, AbiVariant_fields.
  levels. apply shallow_uint64; [lia|]. rewrite Forall_forall in F. now apply F.
Qed.
