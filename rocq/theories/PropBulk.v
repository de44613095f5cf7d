(** C79: what the dynamic, schema-driven codec decodes is not bigger than what it reads. *)
From Verif Require Import Base Prog AbiPrim BaseProofs SpecWire ProgProofs AbiPrimProofs Chain SpecChain Values Leaf SpecLeaf
  AbiDyn SpecAbi AbiResolveProofs AbiCodecProofs AbiApiProofs AbiSample SpecReencode CanonicalProofs SpecBulk BulkProofs PropAbi ActionData PropAction PropReencode.

(** Every value decoded is at most [2 + L] times the bytes it was read from, where [L] is
    the length of the longest name of an alternative. *)
Theorem C79_bounded : forall env a n inp v rest L, no_extension a n -> names_within a n L -> 0 <= L ->
  decodes env a n inp (Done (v, None) rest) ->
  exists c, inp = c ++ rest /\ bulk v <= (2 + L) * zlen c.
Proof. exact api_bulk. Qed.
Print Assumptions C79_bounded.
(** So for the data of an action. *)
Theorem C79_action : forall abi ty act m L, action_type abi (AName act) ty -> no_extension abi ty -> names_within abi ty L -> 0 <= L ->
  decodes_to abi act (Some m, None) -> bulk (VMap m) <= (2 + L) * zlen (AData act).
Proof.
  intros abi ty act m L T NX NW PL (F & HF). specialize (HF F true ltac:(lia)). unfold Action_Decode, on_bytes in HF.
  set (env := {| r_end := EOF; r_strict := true |}) in *. rewrite run_dbind, (proj1 (action_step _ _ _ T F)) in HF.
  destruct (run env (Abi_Decode F abi ty) (AData act)) as [[v [e|]] r|s|] eqn:R; try discriminate HF.
  destruct v as [| | |m'|]; try discriminate HF. injection HF as ->.
  assert (D : decodes env abi ty (AData act) (Done (VMap m, None) r)) by (apply (decodes_at _ _ _ _ _ F); [exact R|discriminate]).
  destruct (C79_bounded _ _ _ _ _ _ _ NX NW PL D) as (c & -> & B). rewrite zlen_app. pose proof (zlen_nonneg r). nia.
Qed.
Print Assumptions C79_action.

(** ** Examples *)
(** The bound on names, computed on the resolved types. *)
Definition named_within (L : Z) (tbl : rtable) : bool :=
  forallb (fun '(_, t) => match t_variant t with Some l => forallb (fun k => zlen k <=? L) l | None => true end) tbl.
Lemma named_ok L a n tbl : resolve (resolve_fuel a) a n [] = Some (Ok tbl) -> named_within L tbl = true -> names_within a n L.
Proof.
  intros E G m b arr opt ext l k R D V K. pose proof (resolve_table _ _ _ _ E) as T.
  destruct (table_lookup _ _ _ _ T R) as (t & LK & Ds). apply (describes_variant _ _ _ _ _ _ _ l Ds D) in V.
  unfold named_within in G. rewrite forallb_forall in G. apply lookup_In in LK. specialize (G _ LK). cbv beta iota in G. rewrite V in G.
  rewrite forallb_forall in G. specialize (G _ K). lia.
Qed.
Example C79_order_ex : let env := {| r_end := EOF; r_strict := true |} in let n := str "order" in
  no_extension order_abi n /\ names_within order_abi n 7
  /\ exists v, decodes env order_abi n (order_bytes ++ [xff]) (Done (v, None) [xff]) /\ bulk v = 16.
Proof.
  cbv zeta. destruct (resolve (resolve_fuel order_abi) order_abi (str "order") []) as [[tbl| |]|] eqn:E; try (vm_compute in E; discriminate).
  assert (G : good true tbl = true) by (vm_compute in E; injection E as <-; vm_compute; reflexivity).
  assert (NW : named_within 7 tbl = true) by (vm_compute in E; injection E as <-; vm_compute; reflexivity).
  split; [exact (proj1 (good_ok _ _ _ _ E G))|]. split; [exact (named_ok _ _ _ _ E NW)|].
  eexists. split; [apply (decodes_at _ _ _ _ _ 10); [vm_compute; reflexivity|discriminate]|]. vm_compute. reflexivity.
Qed.
(** The values of a '$' type are read from nothing at the end of the input: at most
    four bytes hold any number of them below 2^28. *)
Definition free_abi : Abi := (abi_of [("e", "uint8$")] [] [])%string.
Lemma elems_free env f x : run env f [] = Done (x, None) [] -> forall n acc,
  run env (decode_elems f n acc) [] = Done (acc ++ repeat x n, None) [].
Proof.
  intros H n. induction n as [|n IH]; intros acc; cbn [decode_elems repeat].
  - now rewrite app_nil_r.
  - rewrite run_dbind, H. cbv iota beta. rewrite IH, <- app_assoc. reflexivity.
Qed.
Theorem C79_extension_refuted : forall k, 0 <= k < 2 ^ 28 -> let env := {| r_end := EOF; r_strict := true |} in
  names_within free_abi (str "e[]") 0
  /\ exists inp v, zlen inp <= 4 /\ decodes env free_abi (str "e[]") inp (Done (v, None) []) /\ k <= bulk v.
Proof.
  intros k HK env. destruct (resolve (resolve_fuel free_abi) free_abi (str "e[]") []) as [[tbl| |]|] eqn:E; try (vm_compute in E; discriminate).
  assert (NW : named_within 0 tbl = true) by (vm_compute in E; injection E as <-; vm_compute; reflexivity).
  split; [exact (named_ok _ _ _ _ E NW)|].
  destruct (lookup tbl (str "e[]")) as [t|] eqn:LK; [|vm_compute in E; injection E as <-; vm_compute in LK; discriminate].
  assert (X : t_isOptional t = false /\ t_isArray t = true
    /\ exists x, run env (decodeInner (decodeType 5 tbl) tbl t) [] = Done (x, None) []).
  { vm_compute in E. injection E as <-. vm_compute in LK. injection LK as <-. split; [reflexivity|]. split; [reflexivity|].
    eexists. vm_compute. reflexivity. }
  destruct X as (O & A & x & RX).
  exists (varuint k), (VSlice (repeat x (Z.to_nat k))). split; [|split].
  - destruct (varuint_spec k ltac:(lia)) as [_ [_ [_ L]]]. unfold zlen. lia.
  - apply (decodes_at _ _ _ _ _ 6); [|discriminate]. unfold Abi_Decode, with_types. rewrite E, (decodeType_S _ _ _ _ LK), O.
    unfold dec_body. rewrite A, run_dbind. pose proof (ReadVaruint_reads k ltac:(lia) env []) as R. rewrite app_nil_r in R. rewrite R. cbv iota beta.
    assert (M : make_ok 16 k = true) by (unfold make_ok, max_alloc; lia). rewrite M, run_dbind, (elems_free _ _ _ RX), i64_small by lia. reflexivity.
  - rewrite bulk_slice. assert (T : forall n, Z.of_nat n <= total (repeat x n)); [|specialize (T (Z.to_nat k)); lia].
    intros n. induction n as [|n IH]; [reflexivity|]. cbn [repeat]. change (total (x :: repeat x n)) with (bulk x + total (repeat x n)).
    pose proof (bulk_pos x). lia.
Qed.
Print Assumptions C79_extension_refuted.
