(** C75: what Decode is given: targets with interface variables inside, nil, values
    that are not pointers. *)
From Verif Require Import Base Prog SpecWire AbiPrim Chain SpecChain Values Leaf SpecLeaf Reflect SpecReflect
  Targets SpecTargets.
From Verif Require Import BaseProofs ProgProofs ReflectProofs TargetsProofs PropReflect.

(** Decoding into a target with interface variables that hold pointers is decoding
    into the target without interfaces that it looks like: on every input the same
    error or panic, the same bytes consumed, and results that look alike. *)
Theorem C75_like_static E fuel g t v env inp : looks false g t v ->
  matching (fun g' v' => looks true g' t v')
    (run env (decode_target fuel E Whole g) inp) (run env (Decode fuel E t v) inp).
Proof.
  intros L. eapply matching_weaken; [|exact (simulation E fuel Whole g t v L I env inp)]. cbn. tauto.
Qed.
Print Assumptions C75_like_static.

(** So what was encoded from the type without interfaces is read back. *)
Theorem C75_roundtrip E g t v old out full : looks false g t old ->
  supported E t -> overwritten E t -> has_type E sound_leaf t v -> has_type E storable t old ->
  runw (Encode E t v) out = WDone None full ->
  exists bs, full = out ++ bs /\
    exists F, forall fuel, (F <= fuel)%nat -> forall env rest,
      exists g' v', run env (decode_target fuel E Whole g) (bs ++ rest) = Done (g', None) rest
        /\ looks true g' t v' /\ same v v'.
Proof.
  intros L S O T To R. destruct (C41_roundtrip_any_target E t v old out full S O T To R) as (bs & A & F & D).
  exists bs. split; [exact A|]. exists F. intros fuel Le env rest. destruct (D fuel Le env rest) as (v' & H & M).
  pose proof (C75_like_static E fuel g t old env (bs ++ rest) L) as X. rewrite H in X.
  destruct (run env (decode_target fuel E Whole g) (bs ++ rest)) as [[g' e] r|m|]; cbn [matching] in X; try contradiction.
  destruct X as (-> & -> & X). exists g', v'. auto.
Qed.
Print Assumptions C75_roundtrip.

(** Where an interface variable is nil or holds something other than a non-nil
    pointer, decoding does not succeed on any input. *)
Theorem C75_no_pointer_inside E fuel g env inp g' rest : blocked g ->
  run env (decode_target fuel E Whole g) inp <> Done (g', None) rest.
Proof. intros B. apply blocked_never; auto. Qed.
Print Assumptions C75_no_pointer_inside.

(** Such a variable itself is refused before anything is read, and keeps what it holds. *)
Theorem C75_refused E fuel g env inp : g = GIface None \/ g = GHeld -> (2 <= fuel)%nat ->
  exists e, run env (decode_target fuel E Whole g) inp = Done (g, Some e) inp.
Proof. intros [-> | ->] L; destruct fuel as [|[|fuel]]; try lia; eexists; reflexivity. Qed.
Print Assumptions C75_refused.

(** A slice with interfaces inside, such as one of interface variables, decoded from an
    input with as many elements as it holds, is decoded like the slice without interfaces
    that it looks like. *)
Theorem C75_slice_held E fuel size z t l l' env inp n r : direct t = true -> slots false l t l' ->
  run env ReadVaruint inp = Done (n, None) r -> i64 n = zlen l ->
  matching (fun g v => exists l1 l2, g = GSlice size z (Some l1) /\ v = RSlice (Some l2) /\ slots true l1 t l2)
    (run env (decode_target fuel E Whole (GSlice size z (Some l))) inp) (run env (Decode fuel E (TSlice t) (RSlice (Some l'))) inp).
Proof.
  intros D S R N. destruct fuel as [|[|fuel]]; try exact I. unfold Decode. cbn [decode_target decode head chain_decoder dbind].
  unfold get_target_slice, get_slice. rewrite !run_dbind, R. cbn [run]. 
  assert (Z : zlen l' = zlen l) by (unfold zlen; now rewrite (slots_length _ _ _ _ S)). rewrite Z, N, Z.eqb_refl. rewrite !run_dbind.
  pose proof (simulates_elems E fuel (simulation E fuel) l t l' S env r) as M.
  destruct (run env (get_targets _ l) r) as [[l1 e] q|m|], (run env (get_elems _ l') r) as [[l2 e'] q'|m'|]; cbn [matching run] in M |- *; try contradiction; auto.
  destruct M as (-> & -> & M & _). repeat split. eauto.
Qed.
Print Assumptions C75_slice_held.

(** With any other number of elements but none it is not decoded; there must be a pointer
    in every interface variable, and new elements have none.  A map with interfaces inside
    is always decoded into a new one. *)
Theorem C75_slice_new E fuel size z o env inp g rest : blocked z ->
  run env (decode_target fuel E Whole (GSlice size z o)) inp = Done (g, None) rest ->
  exists n r, run env ReadVaruint inp = Done (n, None) r
    /\ ((n = 0 /\ rest = r /\ exists o', g = GSlice size z o' /\ match o' with Some l => l = [] | None => o = None end)
        \/ exists l, o = Some l /\ i64 n = zlen l).
Proof.
  intros B R. destruct fuel as [|[|fuel]]; try discriminate R. cbn [decode_target] in R. unfold get_target_slice in R.
  rewrite !run_dbind in R. destruct (run env ReadVaruint inp) as [[n [e|]] r|m|] eqn:V; try discriminate R. exists n, r. split; [reflexivity|].
  pose proof (ReadVaruint_range env inp n r V) as U.
  destruct (Z.eqb_spec (zlen match o with Some cur => cur | None => [] end) (i64 n)) as [Q|Q].
  { destruct o as [l|]; [right; exists l; split; [reflexivity|now symmetry]|]. left. cbn in R. injection R as <- <-.
    split; [now apply i64_zero|]. split; [reflexivity|]. exists None. now split. }
  destruct (make_ok size (i64 n)) eqn:K; [|discriminate R]. destruct (Z.to_nat (i64 n)) as [|k] eqn:T.
  { left. cbn in R. injection R as <- <-. split; [apply i64_zero; [exact U|]; apply make_ok_least in K; lia|]. split; [reflexivity|]. exists (Some []). now split. }
  exfalso. rewrite run_dbind in R. assert (NV : never (get_targets (through_target E (decode fuel E chain_decoder Whole) (decode_target fuel E Whole)) (repeat z (S k)))).
  { eapply never_targets; [now left| |exact B]. intros g' _ B'. pose proof (blocked_never E fuel Whole g' B' (or_introl eq_refl)) as N0.
    destruct B'; cbn [through_target]; try exact N0; apply never_map; apply blocked_never; auto. }
  destruct (run env (get_targets _ _) r) as [[a [e|]] q|m|] eqn:X; try discriminate R. now elim (NV _ _ _ _ X).
Qed.
Print Assumptions C75_slice_new.
Theorem C75_map E fuel kt z o env inp g rest :
  run env (decode_target fuel E Whole (GMap kt z o)) inp = Done (g, None) rest ->
  exists fuel' n r ps m, run env ReadVaruint inp = Done (n, None) r
    /\ pairs_read env (Decode fuel' E kt (zero E kt)) (decode_target fuel' E Whole z) r ps rest /\ length ps = Z.to_nat (i64 n)
    /\ g = GMap kt z (Some m) /\ NoDup (map fst m) /\ (forall k x, In (k, x) m <-> last_pair k x ps)
    /\ (blocked z -> i64 n <= 0 /\ m = [] /\ rest = r).
Proof.
  intros R. destruct fuel as [|[|fuel]]; try discriminate R. cbn [decode_target] in R |- *. unfold get_target_map in R |- *.
  rewrite !run_dbind in R. destruct (run env ReadVaruint inp) as [[n [e|]] r|m|] eqn:V; try discriminate R. exists fuel, n, r.
  rewrite run_dbind in R.
  destruct (run env (get_target_pairs _ _ _ _) r) as [[m [e|]] q|m|] eqn:X; try discriminate R. cbn [run] in R.
  assert (G : g = GMap kt z (Some m)) by congruence. assert (Q : rest = q) by congruence. subst g rest.
  apply pairs_read_all in X as (ps & P & L & D & I); [|constructor]. exists ps, m.
  split; [reflexivity|]. split; [exact P|]. split; [exact L|]. split; [reflexivity|]. split; [exact D|]. split.
  { intros k x. rewrite I. cbn [In]. tauto. }
  intros B. destruct P as [r|r k r1 x r2 ps q K Y P].
  - split; [cbn in L; lia|]. split; [|reflexivity]. destruct m as [|[k x] m]; [reflexivity|].
    destruct (proj1 (I k x) (or_introl eq_refl)) as [(a & b & Q & _)|[_ []]]. now destruct a.
  - now elim (blocked_never E fuel Whole z B (or_introl eq_refl) env r1 x r2).
Qed.
Print Assumptions C75_map.

(** Decode succeeds only if it is given a non-nil pointer, to a target.  An argument that is not
    a pointer, or is a nil pointer to a type decoded by reflection, is refused before
    anything is read. *)
Theorem C75_argument E fuel a env inp :
  (forall a' rest, run env (decode_argument fuel E a) inp = Done (a', None) rest ->
     exists g g', a = ArgPtr g /\ a' = ArgPtr g' /\ run env (decode_target fuel E Whole g) inp = Done (g', None) rest)
  /\ (forall t, a = ArgValue t \/ a = ArgNilPtr t -> exists e, run env (decode_argument fuel E a) inp = Done (a, Some e) inp).
Proof.
  split.
  - intros a' rest R. destruct a as [|t|t|p|k|g]; try discriminate.
    + exfalso. cbn [decode_argument] in R.
      assert (N : forall (q : io prim) m, run env ('(_, _) <-- q ;; (DPanic m : io argument)) inp <> Done (a', None) rest).
      { intros q m. rewrite run_dbind. destruct (run env q inp) as [[? ?] ?| |]; discriminate. }
      destruct p; try (now apply N in R). rewrite run_dbind in R.
      destruct (run env ReadVaruint inp) as [[l [e|]] r|m|]; try discriminate R. rewrite run_dbind in R.
      destruct (run env (ReadBytes (i64 l)) r) as [[? ?] ?| |]; discriminate R.
    + exfalso. cbn [decode_argument] in R. revert R. unfold decode_nil_chain. cbv zeta.
      assert (N : forall A (q : io A), run env ('(_, err) <-- q ;; match err with Some e => DRet (ArgNilChain k, Some e) | None => nil_panic end) inp <> Done (a', None) rest).
      { intros A q. rewrite run_dbind. destruct (run env q inp) as [[? [?|]] ?| |]; discriminate. }
      destruct k; try (exact (N _ _)); try discriminate.
      rewrite run_dbind. destruct (run env ReadUint16 inp) as [[? ?] ?| |]; discriminate.
    + cbn [decode_argument] in R. rewrite run_dbind in R.
      destruct (run env (decode_target fuel E Whole g) inp) as [[g' e] r|m|] eqn:D; try discriminate R. cbn in R. injection R as <- -> ->.
      exists g, g'. auto.
  - intros t [-> | ->]; eexists; reflexivity.
Qed.
Print Assumptions C75_argument.

(** Through a nil pointer to a type with a fast path nothing is stored: where decoding into
    a new variable would succeed, Decode panics. *)
Theorem C75_nil_pointer E fuel k env inp v rest : run env (Decode fuel E (TLeaf k) (zero_of (TLeaf k))) inp = Done (v, None) rest ->
  (go_kind k = true -> exists m, forall fuel', run env (decode_argument fuel' E (ArgNilGo (zero_prim k))) inp = Crash m)
  /\ (table_kind k = true -> exists m, forall fuel', run env (decode_argument fuel' E (ArgNilChain k)) inp = Crash m).
Proof.
  intros R. assert (L : go_kind k = true \/ table_kind k = true -> exists p, run env (read_prim (zero_prim k)) inp = Done (p, None) rest).
  { destruct fuel as [|fuel]; [discriminate R|]. unfold Decode in R. cbn [decode head chain_decoder zero_of] in R. rewrite run_dbind in R.
    assert (X : run env (leaf_read (zero_prim k)) inp = Done (v, None) rest -> exists p, run env (read_prim (zero_prim k)) inp = Done (p, None) rest).
    { unfold leaf_read. rewrite run_dbind. destruct (run env (read_prim (zero_prim k)) inp) as [[p [e|]] r|m|]; try discriminate.
      intros Q. cbn [run] in Q. exists p. assert (r = rest) by congruence. now subst r. }
    destruct (table_kind k) eqn:T.
    - intros _. apply X. rewrite run_dbind in R. destruct (run env (leaf_read (zero_prim k)) inp) as [[w [e|]] r|m|]; try discriminate R. exact R.
    - intros [G|G]; [|discriminate]. apply X. cbn [run] in R. rewrite G in R. exact R. }
  split; intros K; destruct (L ltac:(auto)) as [p P]; clear L R.
  - assert (G : exists m, run env ('(_, _) <-- read_prim (zero_prim k) ;; (nil_panic : io argument)) inp = Crash m).
    { rewrite run_dbind, P. eexists. reflexivity. }
    destruct G as [m G]. destruct k; try discriminate K; try (exists m; intros fuel'; exact G).
    eexists. intros fuel'. clear G. cbn [decode_argument zero_prim read_prim] in P |- *. unfold wrap, DecodeByteSlice in P. rewrite !run_dbind in P. rewrite run_dbind.
    destruct (run env ReadVaruint inp) as [[l [e|]] r|c|]; try discriminate P. rewrite run_dbind in P. rewrite run_dbind.
    destruct (run env (ReadBytes (i64 l)) r) as [[[? ?] ?] r'|c|]; try discriminate P. reflexivity.
  - assert (G : forall A (q : io A), (exists a r, run env q inp = Done (a, None) r) ->
      exists m, run env ('(_, err) <-- q ;; match err with Some e => DRet (ArgNilChain k, Some e) | None => nil_panic end) inp = Crash m).
    { intros A q (a & r & Q). rewrite run_dbind, Q. eexists. reflexivity. }
    assert (F : exists a r, run env (leaf_read (zero_prim k)) inp = Done (a, None) r).
    { unfold leaf_read. rewrite run_dbind, P. do 2 eexists. reflexivity. }
    assert (D : forall A B C (q : io A) (o : B) f (c : B -> C) r b, run env (wrap c (dtry o q f)) inp = Done (b, None) r -> exists a r, run env q inp = Done (a, None) r).
    { intros A B C q o f c r b. unfold wrap, dtry. rewrite !run_dbind. destruct (run env q inp) as [[a [e|]] r'|x|]; try discriminate. eauto. }
    destruct k; try discriminate K; cbn [decode_argument]; unfold decode_nil_chain; cbv zeta;
      try (eexists; intros fuel'; reflexivity); try (destruct (G _ _ F) as [m M]; exists m; intros fuel'; exact M).
    + destruct (G _ ReadInt64) as [m M]; [eapply D; exact P|]. exists m. intros fuel'. exact M.
    + destruct (G _ ReadByte) as [m M]; [eapply D; exact P|]. exists m. intros fuel'. exact M.
    + destruct (G _ ReadByte) as [m M]; [eapply D; exact P|]. exists m. intros fuel'. exact M.
    + cbn [zero_prim read_prim] in P. unfold wrap, TransactionExtension_UnmarshalABI in P. rewrite !run_dbind in P. rewrite run_dbind.
      destruct (run env ReadUint16 inp) as [[t [e|]] r|c|]; try discriminate P. eexists. intros fuel'. reflexivity.
Qed.
Print Assumptions C75_nil_pointer.

(** DecodeVariant likewise. *)
Theorem C75_variant_argument E fuel a env inp :
  (forall a' rest, run env (decode_variant_argument fuel E a) inp = Done (a', None) rest ->
     exists g g' c bs, a = VarPtr g /\ a' = VarPtr g' /\ inp = c :: bs
       /\ run env (decode_target fuel E (Alt (zb c)) g) bs = Done (g', None) rest)
  /\ (forall t, a = VarInvalid t -> exists e, run env (decode_variant_argument fuel E a) inp = Done (a, Some e) inp).
Proof.
  split.
  - intros a' rest R. destruct a as [|t|g]; try discriminate. cbn [decode_variant_argument] in R. unfold by_index in R. rewrite !run_dbind in R.
    destruct inp as [|c bs]; [discriminate R|].
    replace (run env ReadByte (c :: bs)) with (Done (zb c, @None gerr) bs) in R.
    + destruct (run env (decode_target fuel E (Alt (zb c)) g) bs) as [[g' e] r|m|] eqn:D; try discriminate R.
      cbn [run] in R. assert (a' = VarPtr g') by congruence. assert (e = None) by congruence. assert (r = rest) by congruence. subst a' e r. exists g, g', c, bs. auto.
    + symmetry. unfold ReadByte, ReadBytes. cbn [dbind Z.ltb Z.eqb Z.compare make_ok run]. change (zlen (c :: bs)) with (Z.of_nat (S (length bs))).
      rewrite run_dbind. cbn. destruct (1 <=? _) eqn:L; [reflexivity|]. apply Z.leb_gt in L. lia.
  - intros t ->. eexists. reflexivity.
Qed.
Print Assumptions C75_variant_argument.

(** DecodeVariant goes through interface variables like Decode ... *)
Theorem C75_variant_like_static E fuel g t v i env inp : looks false g t v -> settled g ->
  matching (fun g' v' => looks true g' t v') (run env (decode_target fuel E (Alt i) g) inp)
    (run env (decode fuel E chain_decoder (Alt i) t v) inp).
Proof.
  intros L S. eapply matching_weaken; [|apply (simulation E fuel (Alt i)); assumption]. cbn beta. now intros a b [M _].
Qed.
Print Assumptions C75_variant_like_static.

(** ... and of a struct with interfaces inside sets the field with the index read to a
    pointer to a new value, and every other field to nil.  The field must be a pointer,
    and the new value must not need an interface variable to be set. *)
Theorem C75_alternatives E fuel i fs env inp g rest : 0 <= i ->
  run env (decode_target fuel E (Alt i) (GStruct fs)) inp = Done (g, None) rest ->
  exists fs' fuel' fd, g = GStruct fs' /\ nth_error fs (Z.to_nat i) = Some fd /\ length fs' = length fs
    /\ (forall j fd, j <> Z.to_nat i -> nth_error fs j = Some fd -> exists fd', nth_error fs' j = Some fd' /\ held_nil (content fd')
          /\ (fd' = fd \/ content fd' = zero_target E (content fd)))
    /\ ((exists t v t' x, content fd = GPlain t v /\ head E t = TPtr t'
            /\ run env (Decode fuel' E t' (zero E t')) inp = Done (x, None) rest
            /\ option_map content (nth_error fs' (Z.to_nat i)) = Some (GPlain t (RPtr (Some x))))
        \/ (exists z o x, content fd = GPtr z o /\ ~ blocked z
            /\ run env (decode_target fuel' E Whole z) inp = Done (x, None) rest
            /\ option_map content (nth_error fs' (Z.to_nat i)) = Some (GPtr z (Some x)))).
Proof.
  intros I R. destruct fuel as [|fuel]; [discriminate R|]. cbn [decode_target] in R. rewrite run_dbind in R.
  destruct (run env (get_target_alternative _ _ _ _ _) inp) as [[fs' e] r|m|] eqn:A; try discriminate R. cbn [run] in R.
  assert (g = GStruct fs') by congruence. assert (e = None) by congruence. assert (r = rest) by congruence. subst g e r.
  apply alternative_read in A as (fd & N & L & O & F); [|exact I]. exists fs', fuel, fd. split; [reflexivity|]. split; [exact N|]. split; [exact L|]. split; [exact O|].
  destruct F as [F|(z & o & x & C & X & F)]; [left; exact F|right]. exists z, o, x. split; [exact C|]. split; [|now split].
  intros B. now elim (blocked_never E fuel Whole z B (or_introl eq_refl) env inp x rest).
Qed.
Print Assumptions C75_alternatives.

(** What a struct's type says of a field. *)
Definition declared (fd : (tag * visibility * gtype * rval) + (option tag * visibility * target)) : (option tag * visibility) * option gtype :=
  match fd with inl (tg, vis, t, _) => (Some tg, vis, Some t) | inr (tg, vis, _) => (tg, vis, None) end.
Lemma declared_refilled fd g : declared (refilled fd g) = declared fd.
Proof. destruct fd as [[[[tg vis] t] v]|[[o vis] g']]; destruct g; reflexivity. Qed.
Lemma declared_fields E fuel f fv : forall fs env inp fs' e rest, run env (get_target_fields E fuel f fv fs) inp = Done (fs', e) rest ->
  map declared fs' = map declared fs.
Proof.
  induction fs as [|fd fs IH]; intros env inp fs' e rest R; cbn [get_target_fields] in R; [cbn [run] in R; now assert (fs' = []) as -> by congruence|].
  rewrite run_dbind in R.
  destruct (run env match fd with inl _ => _ | inr _ => _ end inp) as [[fd' o] r|m|] eqn:F; try discriminate R.
  assert (D : declared fd' = declared fd).
  { destruct fd as [[[[tg vis] t] v]|[[tg vis] g]]; rewrite run_dbind in F;
      [destruct (run env (get_plain_field _ _ _ _) inp) as [[v' o'] r'|m|]|destruct (run env (get_target_field _ _ _ _ _ _) inp) as [[v' o'] r'|m|]];
      try discriminate F; cbn [run] in F.
    - now assert (fd' = inl (tg, vis, t, v')) as -> by congruence.
    - now assert (fd' = inr (tg, vis, v')) as -> by congruence. }
  destruct o as [e'|].
  - cbn [run] in R. assert (fs' = fd' :: fs) as -> by congruence. cbn [map]. now rewrite D.
  - rewrite run_dbind in R. destruct (run env (get_target_fields _ _ _ _ _) r) as [[l o] r'|m|] eqn:G; try discriminate R. cbn [run] in R.
    assert (fs' = fd' :: l) as -> by congruence. cbn [map]. rewrite D. f_equal. eapply IH. exact G.
Qed.
Lemma declared_cleared E : forall fs i fs', clear_targets E i fs = Some fs' -> map declared fs' = map declared fs.
Proof.
  induction fs as [|fd fs IH]; intros i fs' C; cbn [clear_targets] in C; [now assert (fs' = []) as -> by congruence|].
  destruct (clear_targets E (i - 1) fs) as [l|] eqn:R; [|discriminate]. apply IH in R.
  destruct (i =? 0); [assert (fs' = fd :: l) as -> by congruence; cbn [map]; congruence|].
  destruct (is_nil E (content fd)) as [[|]|]; [assert (fs' = fd :: l) as -> by congruence; cbn [map]; congruence| |discriminate].
  destruct (exported fd); [|discriminate]. assert (fs' = refilled fd (zero_target E (content fd)) :: l) as -> by congruence. cbn [map]. now rewrite declared_refilled, R.
Qed.
Lemma declared_replaced fd g : forall n l, option_map declared (nth_error l n) = Some (declared fd) -> map declared (replace_nth n (refilled fd g) l) = map declared l.
Proof.
  induction n as [|n IH]; intros [|x l] N; cbn [replace_nth map nth_error option_map] in *; try reflexivity.
  - rewrite declared_refilled. congruence.
  - now rewrite IH.
Qed.
Lemma declared_alternative E p f i : forall fs env inp fs' e rest, run env (get_target_alternative E p f i fs) inp = Done (fs', e) rest ->
  map declared fs' = map declared fs.
Proof.
  intros fs env inp fs' e rest R. unfold get_target_alternative in R. destruct (zlen fs <=? i); [cbn [run] in R; congruence|].
  destruct (clear_targets E i fs) as [l|] eqn:C; [|discriminate R]. apply declared_cleared in C.
  destruct (nth_error fs (Z.to_nat i)) as [fd|] eqn:D; [|discriminate R]. cbv zeta in R.
  assert (N : option_map declared (nth_error l (Z.to_nat i)) = Some (declared fd)).
  { rewrite <- nth_error_map, C, nth_error_map, D. reflexivity. }
  assert (ST : forall (q : io target),
    run env ('(x, err) <-- q ;;
             match err with
             | Some e => DRet (l, Some e)
             | None => if exported fd then DRet (replace_nth (Z.to_nat i) (refilled fd x) l, None)
                       else DPanic "value obtained using unexported field"
             end) inp = Done (fs', e) rest -> map declared fs' = map declared fs).
  { intros q Q. rewrite run_dbind in Q. destruct (run env q inp) as [[x [e'|]] r|c|]; try discriminate Q; [cbn [run] in Q; congruence|].
    destruct (exported fd); [|discriminate Q]. cbn [run] in Q. assert (fs' = replace_nth (Z.to_nat i) (refilled fd x) l) as -> by congruence. now rewrite declared_replaced. }
  destruct (content fd) as [t v|o| |z o|l0|size z o|kt z o|l0]; try (cbn [run] in R; congruence).
  - destruct (head E t); try (cbn [run] in R; congruence). exact (ST _ R).
  - exact (ST _ R).
Qed.
(** Whether Decode or DecodeVariant succeeds or fails, a struct stays one of its type. *)
Theorem C75_same_type E fuel m fs env inp g e rest : run env (decode_target fuel E m (GStruct fs)) inp = Done (g, e) rest ->
  exists fs', g = GStruct fs' /\ map declared fs' = map declared fs.
Proof.
  revert m. induction fuel as [|fuel IH]; intros m R; [discriminate R|]. cbn [decode_target] in R. destruct m as [| |i].
  - exact (IH _ R).
  - rewrite run_dbind in R. destruct (run env (get_target_fields _ _ _ _ _) inp) as [[fs' o] r|c|] eqn:F; try discriminate R. cbn [run] in R.
    exists fs'. split; [congruence|]. eapply declared_fields. exact F.
  - rewrite run_dbind in R. destruct (run env (get_target_alternative _ _ _ _ _) inp) as [[fs' o] r|c|] eqn:F; try discriminate R. cbn [run] in R.
    exists fs'. split; [congruence|]. eapply declared_alternative. exact F.
Qed.
Print Assumptions C75_same_type.

(** A message: its kind, and a body held as a pointer to a transfer. *)
Definition transfer : gtype := TStruct [(NoTag, Exported, TLeaf KName); (NoTag, Exported, TLeaf KAsset)].
Definition message (body : target) : target :=
  GStruct [inl (NoTag, Exported, TLeaf KName, leaf (PName 0)); inr (None, Exported, body)].
Definition transfer_of (n v : Z) : rval := RStruct [leaf (PName n); leaf (PAsset {| Value := v; Sym := 4 |})].
Definition static_message : gtype := TStruct [(NoTag, Exported, TLeaf KName); (NoTag, Exported, TPtr (TPtr transfer))].
Example C75_message : looks false (message (GIface (Some (GPlain transfer (transfer_of 0 0))))) static_message
    (RStruct [leaf (PName 0); RPtr (Some (RPtr (Some (transfer_of 0 0))))])
  /\ supported node_types static_message
  /\ run {| r_end := EOF; r_strict := true |} (decode_target 9 node_types Whole (message (GIface (Some (GPlain transfer (transfer_of 0 0))))))
       ([x01; x00; x00; x00; x00; x00; x00; x00] ++ [x02; x00; x00; x00; x00; x00; x00; x00]
        ++ [x03; x00; x00; x00; x00; x00; x00; x00] ++ [x04; x00; x00; x00; x00; x00; x00; x00] ++ [xff])
     = Done (GStruct [inl (NoTag, Exported, TLeaf KName, leaf (PName 1));
               inr (None, Exported, GIface (Some (GPlain transfer (transfer_of 2 3))))], None) [xff].
Proof.
  split; [|split; [now apply plain_supported|vm_compute; reflexivity]].
  constructor. constructor; [reflexivity|]. apply (fsl_target false None); [discriminate| |constructor].
  constructor. now constructor.
Qed.
Example C75_no_body : blocked (message (GIface None)).
Proof. eapply bl_struct; [right; left; reflexivity|constructor]. Qed.
(** Two interface variables holding pointers to names, and nil ones. *)
Definition eight (b : byte) : list byte := b :: repeat x00 7.
Definition two_names (a b : Z) : list target := [GIface (Some (GPlain (TLeaf KName) (leaf (PName a)))); GIface (Some (GPlain (TLeaf KName) (leaf (PName b))))].
Example C75_slice_ex : slots false (two_names 0 0) (TPtr (TPtr (TLeaf KName))) [RPtr (Some (RPtr (Some (leaf (PName 0))))); RPtr (Some (RPtr (Some (leaf (PName 0)))))]
  /\ blocked (GIface None)
  /\ let env := {| r_end := EOF; r_strict := true |} in
     let decoded o := run env (decode_target 9 node_types Whole (GSlice 16 (GIface None) o)) in
     decoded (Some (two_names 0 0)) (x02 :: eight x05 ++ eight x07 ++ [xff]) = Done (GSlice 16 (GIface None) (Some (two_names 5 7)), None) [xff]
     /\ (exists o e r, decoded (Some (two_names 0 0)) (x03 :: eight x05 ++ eight x07 ++ [xff]) = Done (o, Some e) r)
     /\ decoded (Some (two_names 0 0)) [x00; xff] = Done (GSlice 16 (GIface None) (Some []), None) [xff]
     /\ run env (decode_target 9 node_types Whole (GMap (TLeaf KString) (GIface None) None)) [x00; xff] = Done (GMap (TLeaf KString) (GIface None) (Some []), None) [xff]
     /\ (exists o e r, run env (decode_target 9 node_types Whole (GMap (TLeaf KString) (GIface None) None)) [x01; x00; xff] = Done (o, Some e) r)
     /\ run env (decode_target 9 node_types Whole (GMap (TLeaf KU8) (GStruct [inr (Some Optional, Exported, GIface None)]) None)) [x01; x05; x00; xff]
        = Done (GMap (TLeaf KU8) (GStruct [inr (Some Optional, Exported, GIface None)]) (Some [(leaf (PU8 5), GStruct [inr (Some Optional, Exported, GIface None)])]), None) [xff].
Proof.
  split; [repeat constructor|]. split; [constructor|]. cbv zeta.
  split; [vm_compute; reflexivity|]. split; [do 3 eexists; vm_compute; reflexivity|]. split; [vm_compute; reflexivity|]. split; [vm_compute; reflexivity|].
  split; [do 3 eexists; vm_compute; reflexivity|]. vm_compute. reflexivity.
Qed.

(** A variant-tagged interface variable holding a pointer to a variant, and a variant with
    an alternative that has an interface variable inside. *)
Definition either : gtype := TStruct [(NoTag, Exported, TPtr (TLeaf KName)); (NoTag, Exported, TPtr (TLeaf KU8))].
Definition either_of (o p : option rval) : rval := RStruct [RPtr o; RPtr p].
Definition tagged_either (o p : option rval) : target := GStruct [inr (Some Variant, Exported, GIface (Some (GPlain either (either_of o p))))].
Definition perhaps : target := GStruct [inr (Some Optional, Exported, GIface None)].
Definition choice (o : option rval) (p : option target) : target :=
  GStruct [inl (NoTag, Exported, TPtr (TLeaf KU8), RPtr o); inr (None, Exported, GPtr perhaps p); inr (None, Exported, GIface None)].
Example C75_variant_ex :
  looks false (tagged_either None None) (TStruct [(Variant, Exported, TPtr (TPtr either))]) (RStruct [RPtr (Some (RPtr (Some (either_of None None))))])
  /\ blocked (GStruct [inr (Some Variant, Exported, GIface None)]) /\ settled (GIface (Some (GPlain either (either_of None None))))
  /\ let env := {| r_end := EOF; r_strict := true |} in
     run env (decode_target 9 node_types Whole (tagged_either (Some (leaf (PName 3))) None)) [x01; x07; xff]
       = Done (tagged_either None (Some (leaf (PU8 7))), None) [xff]
     /\ run env (decode_variant_argument 9 node_types (VarPtr (choice (Some (leaf (PU8 3))) None))) [x01; x00; xff] = Done (VarPtr (choice None (Some perhaps)), None) [xff]
     /\ run env (decode_variant_argument 9 node_types (VarPtr (choice None (Some perhaps)))) [x00; x05; xff] = Done (VarPtr (choice (Some (leaf (PU8 5))) None), None) [xff]
     /\ (exists a e r, run env (decode_variant_argument 9 node_types (VarPtr (choice None (Some perhaps)))) [x02; x05; xff] = Done (a, Some e) r)
     /\ (exists a e r, run env (decode_variant_argument 9 node_types (VarPtr (choice None (Some perhaps)))) [x03; x05; xff] = Done (a, Some e) r).
Proof.
  split.
  { constructor. apply (fsl_target false (Some Variant)); [|now do 2 constructor|constructor]. intros _. constructor. constructor. }
  split; [eapply bl_variant; [now left|constructor]|]. split; [constructor; constructor|]. cbv zeta.
  split; [vm_compute; reflexivity|]. split; [vm_compute; reflexivity|]. split; [vm_compute; reflexivity|].
  split; do 3 eexists; vm_compute; reflexivity.
Qed.
(** A nil pointer to a name: a panic, or an error if the input is too short. *)
Example C75_nil_ex : let env := {| r_end := EOF; r_strict := true |} in
  (exists v, run env (Decode 9 node_types (TLeaf KName) (zero_of (TLeaf KName))) (eight x05) = Done (v, None) [])
  /\ (exists m, run env (decode_argument 9 node_types (ArgNilChain KName)) (eight x05) = Crash m)
  /\ (exists e, run env (decode_argument 9 node_types (ArgNilChain KName)) [] = Done (ArgNilChain KName, Some e) []).
Proof. cbv zeta. repeat split; eexists; vm_compute; reflexivity. Qed.
