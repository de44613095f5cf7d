(** C78: re-encoding what the dynamic, schema-driven codec decoded. *)
From Verif Require Import Base Prog AbiPrim BaseProofs SpecWire ProgProofs Chain SpecChain Values Leaf SpecLeaf SpecCanonical
  AbiDyn SpecAbi AbiResolveProofs AbiCodecProofs AbiApiProofs AbiSample SpecReencode CanonicalProofs ReencodeProofs PropAbi ActionData PropAction.

(** Whatever bytes a value was decoded from, its encoding is not longer. *)
Theorem C78_no_longer : forall env a n inp v rest, no_extension a n -> distinct_fields a n ->
  decodes env a n inp (Done (v, None) rest) ->
  exists c, inp = c ++ rest /\ c <> [] /\ forall out bs, encodes a n v out (WDone None (out ++ bs)) -> no_longer c bs.
Proof.
  intros env a n inp v rest NX DF D. destruct (api_covers false env a n inp v rest) as (c & EQ & NE & C); [|exact D|].
  - split; [exact NX|]. split; [exact DF|discriminate].
  - exists c. split; [exact EQ|]. split; [exact NE|]. intros out bs E. eapply canon_no_longer, C, E.
Qed.
Print Assumptions C78_no_longer.
(** Without bools, optional types and repeated alternatives no other bytes of that
    length decode to it. *)
Theorem C78_shortest : forall env a n inp v rest, no_extension a n -> distinct_fields a n -> rigid_schema a n ->
  decodes env a n inp (Done (v, None) rest) ->
  exists c, inp = c ++ rest /\ c <> [] /\ forall out bs, encodes a n v out (WDone None (out ++ bs)) -> shortest c bs.
Proof.
  intros env a n inp v rest NX DF RG D. destruct (api_covers true env a n inp v rest) as (c & EQ & NE & C); [|exact D|].
  - split; [exact NX|]. split; [exact DF|auto].
  - exists c. split; [exact EQ|]. split; [exact NE|]. intros out bs E. eapply canon_shortest, C, E.
Qed.
Print Assumptions C78_shortest.
(** What was decoded can be encoded, and decodes to the very same value again. *)
Theorem C78_accepted : forall env a n inp v rest, no_extension a n -> distinct_fields a n -> few_alternatives a n ->
  no_hidden_optional a n -> ~ uses_builtin a n (str "bytes") -> zlen inp < 2 ^ 28 ->
  decodes env a n inp (Done (v, None) rest) -> small_numbers v ->
  exists c bs, inp = c ++ rest /\ no_longer c bs
    /\ (forall out, encodes a n v out (WDone None (out ++ bs)))
    /\ (forall env' more, decodes env' a n (bs ++ more) (Done (v, None) more)).
Proof.
  intros env a n inp v rest NX DF FA NH NB L D SN.
  destruct (C78_no_longer _ _ _ _ _ _ NX DF D) as (c & EQ & _ & C).
  destruct (api_again env a n inp v rest (conj NX (conj DF (conj FA (conj NH NB)))) L D SN) as (bs & E & D').
  exists c, bs. split; [exact EQ|]. split; [exact (C [] bs (E []))|]. auto.
Qed.
Print Assumptions C78_accepted.
(** The data of an action: what Action.Decode returns can be given to EncodeAction, and
    an action with the new data decodes to the same map. *)
Theorem C78_action : forall abi ty act m, action_type abi (AName act) ty -> no_extension abi ty -> distinct_fields abi ty ->
  few_alternatives abi ty -> no_hidden_optional abi ty -> ~ uses_builtin abi ty (str "bytes") -> zlen (AData act) < 2 ^ 28 ->
  decodes_to abi act (Some m, None) -> small_numbers (VMap m) ->
  exists bs, action_encodes abi (AName act) (VMap m) bs /\ no_longer (AData act) bs
    /\ forall act', AName act' = AName act -> AData act' = bs -> decodes_to abi act' (Some m, None).
Proof.
  intros abi ty act m T NX DF FA NH NB L (F & HF) SN. specialize (HF F true ltac:(lia)). unfold Action_Decode, on_bytes in HF.
  set (env := {| r_end := EOF; r_strict := true |}) in *. rewrite run_dbind, (proj1 (action_step _ _ _ T F)) in HF.
  destruct (run env (Abi_Decode F abi ty) (AData act)) as [[v [e|]] r|s|] eqn:R; try discriminate HF.
  destruct v as [| | |m'|]; try discriminate HF. injection HF as ->.
  assert (D : decodes env abi ty (AData act) (Done (VMap m, None) r)) by (apply (decodes_at _ _ _ _ _ F); [exact R|discriminate]).
  destruct (C78_accepted _ _ _ _ _ _ NX DF FA NH NB L D SN) as (c & bs & EQ & NL & E & D').
  exists bs. split; [|split].
  - destruct (E []) as (_ & F' & HE). exists F'. intros fuel LE. rewrite (proj2 (action_step _ _ _ T fuel)). now apply HE.
  - unfold no_longer in *. rewrite EQ, zlen_app. pose proof (zlen_nonneg r). lia.
  - intros act' N' <-. rewrite <- N' in T. apply (action_decode_done abi act' ty (VMap m) [] T). intros env'.
    specialize (D' env' []). now rewrite app_nil_r in D'.
Qed.
Print Assumptions C78_action.

(** ** Examples *)
Fixpoint no_dup (l : list name) : bool :=
  match l with [] => true | x :: l => negb (existsb (bytes_eqb x) l) && no_dup l end.
Lemma no_dup_ok l : no_dup l = true -> NoDup l.
Proof.
  induction l as [|x l IH]; intros H; [constructor|]. cbn [no_dup] in H. apply andb_prop in H as [H1 H2].
  constructor; [|auto]. intros I. apply negb_true_iff in H1. assert (X : existsb (bytes_eqb x) l = true); [|congruence].
  apply existsb_exists. exists x. split; [exact I|apply eqb_name_refl].
Qed.
(** The conditions, computed on the resolved types. *)
Definition good_entry (s : bool) (tbl : rtable) (m : name) (t : rtype) : bool :=
  negb (t_isExtension t) && match allFields tbl m with Some fs => no_dup (map fst fs) | None => true end
  && match t_variant t with Some l => no_dup l && (zlen l <? 2 ^ 28) | None => true end
  && (t_isArray t || t_isOptional t || match t_ref t with Some r => match lookup tbl r with Some tr => negb (t_isOptional tr) | None => false end | None => true end)
  && negb (bytes_eqb (t_baseName t) (str "bytes"))
  && (negb s || negb (t_isOptional t) && negb (bytes_eqb (t_baseName t) (str "bool"))).
Definition good (s : bool) (tbl : rtable) : bool := forallb (fun '(m, t) => good_entry s tbl m t) tbl.
Lemma good_ok s a n tbl : resolve (resolve_fuel a) a n [] = Some (Ok tbl) -> good s tbl = true ->
  no_extension a n /\ distinct_fields a n /\ few_alternatives a n /\ no_hidden_optional a n /\ ~ uses_builtin a n (str "bytes")
  /\ (s = true -> rigid_schema a n).
Proof.
  intros E G. pose proof (resolve_table _ _ _ _ E) as T.
  assert (X : forall m, reach a n m -> exists t, lookup tbl m = Some t /\ describes a t m /\ good_entry s tbl m t = true).
  { intros m R. destruct (table_lookup _ _ _ _ T R) as (t & L & D). exists t. split; [exact L|]. split; [exact D|].
    unfold good in G. rewrite forallb_forall in G. apply lookup_In in L. exact (G _ L). }
  assert (Y : forall m b arr opt ext, reach a n m -> decomposes m b arr opt ext -> exists t, lookup tbl m = Some t /\ describes a t m
    /\ good_entry s tbl m t = true /\ t_baseName t = b /\ t_isArray t = arr /\ t_isOptional t = opt /\ t_isExtension t = ext).
  { intros m b arr opt ext R D. destruct (X m R) as (t & L & Ds & GE). exists t. destruct (describes_flags _ _ _ _ _ _ _ Ds D) as (_ & ? & ? & ? & ?). auto 8. }
  unfold good_entry in Y. split; [|split; [|split; [|split; [|split]]]].
  - intros m b arr opt ext R D. destruct (Y _ _ _ _ _ R D) as (t & _ & _ & GE & _ & _ & _ & <-). destruct (t_isExtension t); [discriminate|reflexivity].
  - intros m fs R I. destruct fs as [|f fs]; [constructor|]. destruct (X m R) as (t & L & Ds & GE). unfold good_entry in GE.
    rewrite (proj2 (allFields_spec _ _ _ m T (ex_intro _ t L) (f :: fs))) in GE by (split; [exact I|discriminate]).
    repeat rewrite andb_true_iff in GE. apply no_dup_ok. tauto.
  - intros m b arr opt ext l R D H. destruct (Y _ _ _ _ _ R D) as (t & L & Ds & GE & _). apply (describes_variant _ _ _ _ _ _ _ l Ds D) in H.
    rewrite H in GE. repeat rewrite andb_true_iff in GE. destruct GE as ((((_ & [_ GE]) & _) & _) & _). lia.
  - intros m b ext r b' arr' ext' R D H D'. destruct (Y _ _ _ _ _ R D) as (t & L & Ds & GE & _ & EA & EO & _).
    assert (Rr : reach a n r) by (eapply reach_step; [exact R|exact D|exact H|cbn; auto]).
    destruct (Y _ _ _ _ _ Rr D') as (tr & Lr & _ & _ & _ & _ & EO' & _). apply (describes_alias _ _ _ _ _ _ _ r Ds D) in H.
    rewrite H, Lr, EA, EO, EO' in GE. cbn in GE. repeat rewrite andb_false_r in GE. discriminate GE.
  - intros (m & arr & opt & ext & R & D & _). destruct (Y _ _ _ _ _ R D) as (t & _ & _ & GE & EB & _). rewrite EB, eqb_name_refl in GE. cbn [negb] in GE.
    rewrite andb_false_r in GE. discriminate GE.
  - intros ->. split; [|split].
    + intros m b arr opt ext R D. destruct (Y _ _ _ _ _ R D) as (t & _ & _ & GE & _ & _ & <- & _). destruct (t_isOptional t); [|reflexivity].
      cbn [negb orb andb] in GE. rewrite andb_false_r in GE. discriminate GE.
    + intros (m & arr & opt & ext & R & D & _). destruct (Y _ _ _ _ _ R D) as (t & _ & _ & GE & EB & _). rewrite EB, eqb_name_refl in GE. cbn [negb orb] in GE.
      rewrite !andb_false_r in GE. discriminate GE.
    + intros m b arr opt ext l R D H. destruct (Y _ _ _ _ _ R D) as (t & L & Ds & GE & _). apply (describes_variant _ _ _ _ _ _ _ l Ds D) in H.
      rewrite H in GE. repeat rewrite andb_true_iff in GE. apply no_dup_ok. tauto.
Qed.
(** struct order : header { tags : string[], kind : choice, sub : order[] }, read from
    bytes with three numbers in longer than minimal form. *)
Definition order_abi : Abi := (abi_of [("account", "name")]
  [("header", "", [field "from" "account"; field "seq" "varuint32"]);
   ("order", "header", [field "tags" "string[]"; field "kind" "choice"; field "sub" "order[]"])]
  [("choice", ["uint8"; "account"])])%string.
Definition order_bytes : list byte :=
  [x05; x00; x00; x00; x00; x00; x00; x00; x87; x00; x81; x80; x00; x81; x00; x61; x01; x07; x00; x00; x00; x00; x00; x00; x00; x00].
Example C78_order_ex : let env := {| r_end := EOF; r_strict := true |} in let n := str "order" in
  no_extension order_abi n /\ distinct_fields order_abi n /\ few_alternatives order_abi n /\ no_hidden_optional order_abi n
  /\ ~ uses_builtin order_abi n (str "bytes") /\ rigid_schema order_abi n
  /\ exists v bs, decodes env order_abi n (order_bytes ++ [xff]) (Done (v, None) [xff]) /\ small_numbers v
     /\ encodes order_abi n v [] (WDone None bs) /\ zlen order_bytes = zlen bs + 4.
Proof.
  cbv zeta. destruct (resolve (resolve_fuel order_abi) order_abi (str "order") []) as [[tbl| |]|] eqn:E; try (vm_compute in E; discriminate).
  assert (G : good true tbl = true) by (vm_compute in E; injection E as <-; vm_compute; reflexivity).
  destruct (good_ok _ _ _ _ E G) as (H1 & H2 & H3 & H4 & H5 & H6). specialize (H6 eq_refl).
  split; [exact H1|]. split; [exact H2|]. split; [exact H3|]. split; [exact H4|]. split; [exact H5|]. split; [exact H6|].
  eexists _, _. split; [apply (decodes_at _ _ _ _ _ 10); [vm_compute; reflexivity|discriminate]|]. split.
  { repeat (constructor; cbn [snd]); try exact I; lia. }
  split; [apply (encodes_at _ _ _ _ _ 10); [vm_compute; reflexivity|discriminate]|]. reflexivity.
Qed.

(** The conditions are needed.  Another name of an optional type can decode to nil,
    which the encoder takes for nothing but an optional type itself; of two fields of
    the same name the last wins, and is written twice; a '$' type at the end of the
    input is read from nothing. *)
Definition odd_abi : Abi := (abi_of [("maybe", "uint8?")]
  [("wrap", "", [field "x" "maybe"]); ("twice", "", [field "x" "varuint32"; field "x" "varuint32"])]
  [("same", ["uint8"; "uint8"])])%string.
Theorem C78_conditions_refuted : let env := {| r_end := EOF; r_strict := true |} in
  (exists v, decodes env odd_abi (str "wrap") [x00] (Done (v, None) []) /\ encode_rejects odd_abi (str "wrap") v)
  /\ (exists v bs, decodes env odd_abi (str "twice") [x05; xac; x02] (Done (v, None) []) /\ encodes odd_abi (str "twice") v [] (WDone None bs) /\ zlen bs = 4)
  /\ (exists v, decodes env odd_abi (str "uint8$") [] (Done (v, None) []) /\ encodes odd_abi (str "uint8$") v [] (WDone None [x00]))
  /\ (exists v, decodes env odd_abi (str "bool") [x02] (Done (v, None) []) /\ encodes odd_abi (str "bool") v [] (WDone None [x01]))
  /\ (exists v, decodes env odd_abi (str "uint8?") [x02; x07] (Done (v, None) []) /\ encodes odd_abi (str "uint8?") v [] (WDone None [x01; x07]))
  /\ (exists v, decodes env odd_abi (str "same") [x01; x07] (Done (v, None) []) /\ encodes odd_abi (str "same") v [] (WDone None [x00; x07])).
Proof.
  Local Ltac dec := apply (decodes_at _ _ _ _ _ 10); [vm_compute; reflexivity|discriminate].
  Local Ltac enc := apply (encodes_at _ _ _ _ _ 10); [vm_compute; reflexivity|discriminate].
  split; [|split; [|split; [|split; [|split]]]].
  - eexists. split; [dec|]. intros out. eexists. apply (encodes_at _ _ _ _ _ 10); [reflexivity|discriminate].
  - eexists _, _. split; [dec|]. split; [enc|reflexivity].
  - eexists. split; [dec|enc].
  - eexists. split; [dec|enc].
  - eexists. split; [dec|enc].
  - eexists. split; [dec|enc].
Qed.
Print Assumptions C78_conditions_refuted.
