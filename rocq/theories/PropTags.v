(** C43: struct tags; C54: custom functions; C55: agreement of the codecs. *)
From Verif Require Import Base Prog SpecWire AbiPrim Chain SpecChain Values Leaf SpecLeaf Reflect SpecReflect SpecTags SpecCustom SpecMirror.
From Verif Require Import ReflectProofs ReflectTags ReflectCustom ReflectMirror.

(** ** C43 *)

(** The bytes of a struct are those of the fields before an optional field, then 0 or
    1 and the bytes of the field, then those of the fields after it. *)
Theorem C43_optional_encoding E t before t' after lb v la out full :
  head E t = TStruct (before ++ (Optional, Exported, t') :: after) -> length before = length lb ->
  runw (Encode E t (RStruct (lb ++ v :: la))) out = WDone None full ->
  exists b field, runw (Encode E (TStruct before) (RStruct lb)) out = WDone None (out ++ b)
    /\ (if is_zero v then field = [x00]
        else exists w, field = x01 :: w /\ runw (Encode E t' v) (out ++ b ++ [x01]) = WDone None (out ++ b ++ x01 :: w))
    /\ runw (Encode E (TStruct after) (RStruct la)) (out ++ b ++ field) = WDone None full.
Proof. exact (optional_wire E t before t' after lb v la out full). Qed.
Print Assumptions C43_optional_encoding.

(** An absent optional field becomes the zero value, whatever it held. *)
Theorem C43_optional_absent E t before lb bs lb' t' : encoded_fields E before lb bs lb' ->
  head E t = TStruct (before ++ [(Optional, Exported, t')]) ->
  exists F, forall fuel, (F <= fuel)%nat -> forall env old rest,
    run env (Decode fuel E t (RStruct (zeros_of before ++ [old]))) (bs ++ x00 :: rest)
    = Done (RStruct (lb' ++ [zero E t']), None) rest.
Proof. exact (optional_reads E t before lb bs lb' t'). Qed.
Print Assumptions C43_optional_absent.

(** Input ending before extension fields leaves them zero, whatever they held, without
    error. *)
Theorem C43_extensions_absent E t before lb bs lb' ts : encoded_fields E before lb bs lb' ->
  head E t = TStruct (before ++ map extension ts) -> Forall (fun t => needs_input E t /\ supported_field E t) ts ->
  exists F, forall fuel, (F <= fuel)%nat -> forall olds strict, have_field_types E (fun _ => True) (map extension ts) olds ->
    run {| r_end := EOF; r_strict := strict |} (Decode fuel E t (RStruct (zeros_of before ++ olds))) bs
    = Done (RStruct (lb' ++ map (zero E) ts), None) [].
Proof. exact (extensions_absent E t before lb bs lb' ts). Qed.
Print Assumptions C43_extensions_absent.

(** But input that ends inside an extension field, between two reads, is taken for an
    absent field as well: the bytes that were there are lost without an error. *)
Theorem C43_extension_truncated E c strict fuel : let pair := TStruct [field (TLeaf KU8); field (TLeaf KU8)] in
  run {| r_end := EOF; r_strict := strict |}
    (Decode (S (S (S (S (S fuel))))) E (TStruct [extension pair]) (zero E (TStruct [extension pair]))) [c]
  = Done (RStruct [RStruct [go (PU8 0); go (PU8 0)]], None) [].
Proof. reflexivity. Qed.
Print Assumptions C43_extension_truncated.

(** Index i selects field i; the other alternatives become nil, whatever they held. *)
Theorem C43_variant_decoding E t before lb bs lb' alts ok olds i tg ta b x :
  encoded_fields E before lb bs lb' -> head E t = TStruct (before ++ [(Variant, Exported, TStruct alts)]) ->
  alternatives E alts -> have_field_types E ok alts olds ->
  (i < 256)%nat -> nth_error alts i = Some (tg, Exported, TPtr ta) -> decodes_whatever_follows E ta b x ->
  exists F l, length l = length alts
    /\ (forall j, (j < length alts)%nat -> nth_error l j = Some (if Nat.eqb j i then RPtr (Some x) else RPtr None))
    /\ forall fuel, (F <= fuel)%nat -> forall env rest,
      run env (Decode fuel E t (RStruct (zeros_of before ++ [RStruct olds]))) (bs ++ bz (Z.of_nat i) :: b ++ rest)
      = Done (RStruct (lb' ++ [RStruct l]), None) rest.
Proof. exact (variant_reads E t before lb bs lb' alts ok olds i tg ta b x). Qed.
Print Assumptions C43_variant_decoding.

Theorem C43_variant_out_of_range E t before lb bs lb' alts olds c :
  encoded_fields E before lb bs lb' -> head E t = TStruct (before ++ [(Variant, Exported, TStruct alts)]) ->
  zlen alts <= zb c ->
  exists F, forall fuel, (F <= fuel)%nat -> forall env rest,
    run env (Decode fuel E t (RStruct (zeros_of before ++ [RStruct olds]))) (bs ++ c :: rest)
    = Done (RStruct (lb' ++ [RStruct olds]), Some (ErrMsg "abi: variant index out of bounds")) rest.
Proof. exact (variant_out_of_range E t before lb bs lb' alts olds c). Qed.
Print Assumptions C43_variant_out_of_range.

(** The encoder has no inverse: with two or more alternatives of which at most one is
    set, encoding never succeeds. *)
Theorem C43_variant_never_encodes E t alts ok l out full : head E t = TStruct alts -> alternatives E alts ->
  (2 <= length alts)%nat -> have_field_types E ok alts l -> at_most_one_set l ->
  runw (Encode E t (RStruct l)) out <> WDone None full.
Proof. exact (variant_never E t alts ok l out full). Qed.
Print Assumptions C43_variant_never_encodes.

(** Nor does any struct holding such a variant in a field. *)
Theorem C43_variant_field_never_encodes E t before lb alts after la tg ok l out full :
  head E t = TStruct (before ++ (tg, Exported, TStruct alts) :: after) -> tg <> Optional -> length before = length lb ->
  alternatives E alts -> (2 <= length alts)%nat -> have_field_types E ok alts l -> at_most_one_set l ->
  runw (Encode E t (RStruct (lb ++ RStruct l :: la))) out <> WDone None full.
Proof. exact (variant_field_never E t before lb alts after la tg ok l out full). Qed.
Print Assumptions C43_variant_field_never_encodes.

Definition tags_alts := [field (TPtr (TLeaf KU8)); field (TPtr (TLeaf KString))].
Example C43_variant_example E : alternatives E tags_alts
  /\ have_field_types E (fun _ => True) tags_alts [RPtr (Some (go (PU8 3))); RPtr None]
  /\ at_most_one_set [RPtr None; RPtr (Some (go (PString [x61])))]
  /\ decodes_whatever_follows E (TLeaf KString) [x01; x61] (go (PString [x61])).
Proof.
  split; [repeat constructor; try discriminate; eexists; reflexivity|]. split.
  - constructor; [|constructor; [|constructor]].
    + eapply ht_ptr; [reflexivity|]. eapply ht_leaf; [reflexivity|reflexivity|split; [discriminate|reflexivity]|exact I].
    + eapply ht_nil; reflexivity.
  - split.
    + intros [|[|[|j]]] [|[|[|k]]] x y A B; cbn in A, B; try discriminate; try reflexivity; destruct j; discriminate.
    + destruct (proj1 (encoded_reads E) Target (TLeaf KString) (go (PString [x61])) [x01; x61] (go (PString [x61]))) as [F H];
        [|exists F; exact H].
      apply (w_leaf E Target (TLeaf KString) KString); try reflexivity; try exact I.
      exists [x01], [x61]. split; [reflexivity|]. split; [|reflexivity].
      split; [split; [repeat split; vm_compute; congruence|left; reflexivity]|reflexivity].
Qed.
Example C43_extension_example E : Forall (fun t => needs_input E t /\ supported_field E t) [TSlice (TLeaf KName); TPtr (TLeaf KAsset)]
  /\ encoded_fields E [field (TLeaf KU8)] [go (PU8 7)] [x07] [go (PU8 7)].
Proof.
  split.
  - constructor; [|constructor; [|constructor]]; (split; [|apply plain_supported_at; reflexivity]).
    + eapply ni_slice; reflexivity.
    + eapply ni_ptr; [reflexivity|]. eapply ni_leaf; reflexivity.
  - change [x07] with ([x07] ++ []). apply wf_field; [now left|reflexivity| |constructor].
    apply (w_leaf E Slot (TLeaf KU8) KU8); try reflexivity; try exact I; try (split; [discriminate|reflexivity]). now split.
Qed.

(** ** C54 *)

(** The custom function is asked first and, done or failed, has the last word. *)
Theorem C54_encoder_first E fn t v out done err o :
  runw (fn (head E t) v) out = WDone (done, err) o -> done = true \/ err <> None ->
  runw (encode E (custom_encoder fn) t v) out = WDone err o.
Proof. exact (encoder_final E fn t v out done err o). Qed.
Print Assumptions C54_encoder_first.
Theorem C54_decoder_first E fn t old fuel env inp v done err rest :
  run env (fn (head E t) old) inp = Done (v, (done, err)) rest -> done = true \/ err <> None ->
  run env (decode (S fuel) E (custom_decoder fn) Whole t old) inp = Done (v, err) rest.
Proof. exact (decoder_final E fn t old fuel env inp v done err rest). Qed.
Print Assumptions C54_decoder_first.

(** If it declines every value it is shown, the encoder is the ordinary one. *)
Theorem C54_encoder_otherwise E fn t v out : (forall a b, consulted E t v a b -> declines fn a b) ->
  runw (encode E (custom_encoder fn) t v) out = runw (Encode E t v) out.
Proof. intros H. exact (encoder_declines E fn v t H out). Qed.
Print Assumptions C54_encoder_otherwise.
Theorem C54_decoder_otherwise E fn t old fuel env inp : (forall t v, declines_target fn t v) ->
  run env (decode fuel E (custom_decoder fn) Whole t old) inp = run env (Decode fuel E t old) inp.
Proof. intros H. exact (decoder_declines E fn H fuel Whole t old env inp). Qed.
Print Assumptions C54_decoder_otherwise.

(** It is asked for the elements of a slice it declines. *)
Theorem C54_encoder_elements E fn t (b : rval -> list byte) l pre :
  declines fn (TSlice t) (RSlice (Some l)) ->
  (forall x, In x l -> forall out, runw (fn (head E t) x) out = WDone (true, None) (out ++ b x)) ->
  zlen l < 2 ^ 28 -> varu (zlen l) pre ->
  forall out, runw (encode E (custom_encoder fn) (TSlice t) (RSlice (Some l))) out = WDone None (out ++ pre ++ concat (map b l)).
Proof. exact (nested_encode E fn t b l pre). Qed.
Print Assumptions C54_encoder_elements.
Theorem C54_decoder_elements E fn t (l : list (list byte * rval)) pre : (forall t', head E t <> TPtr t') ->
  declines_target fn (TSlice t) (RSlice None) ->
  (forall b x, In (b, x) l -> forall old env rest, run env (fn (head E t) old) (b ++ rest) = Done (x, (true, None)) rest) ->
  zlen l < 2 ^ 28 -> make_ok (size_of E t) (zlen l) = true -> varu (zlen l) pre ->
  forall fuel env rest,
    run env (decode (S (S (S fuel))) E (custom_decoder fn) Whole (TSlice t) (RSlice None)) ((pre ++ concat (map fst l)) ++ rest)
    = Done (RSlice match l with [] => None | _ => Some (map snd l) end, None) rest.
Proof. exact (nested_decode E fn t l pre). Qed.
Print Assumptions C54_decoder_elements.

(** A function that writes bytes in reverse order of significance, and nothing else. *)
Definition complement : ehook := fun t v =>
  match t, v with
  | TLeaf KU8, RLeaf (PU8 x) _ => e <~~ WriteByte (255 - x) ;; ERet (true, e)
  | _, _ => ERet (false, None)
  end.
Example C54_complement E : declines complement (TSlice (TLeaf KU8)) (RSlice (Some [go (PU8 1); go (PU8 2)]))
  /\ runw (encode E (custom_encoder complement) (TSlice (TLeaf KU8)) (RSlice (Some [go (PU8 1); go (PU8 2)]))) [] = WDone None [x02; xfe; xfd]
  /\ (forall a b, consulted E (TLeaf KString) (go (PString [x61])) a b -> declines complement a b).
Proof.
  split; [intros out; reflexivity|]. split; [reflexivity|].
  intros a b C. inversion C; subst; cbn; try discriminate. intros out; reflexivity.
Qed.

(** ** C55 *)

(** A chain type is encoded by its MarshalABI, whether it is passed by value, by
    pointer or stands in a struct: the same bytes, errors and panics. *)
Theorem C55_same_however_passed E k p z out : kind_of p = k ->
  runw (Encode E (TLeaf k) (RLeaf p z)) out = runw (write_prim p) out
  /\ runw (Encode E (TPtr (TLeaf k)) (RPtr (Some (RLeaf p z)))) out = runw (write_prim p) out
  /\ runw (Encode E (TStruct [field (TLeaf k)]) (RStruct [RLeaf p z])) out = runw (write_prim p) out.
Proof. intros K. split; [now apply leaf_weq|]. split; [now apply by_pointer|now apply as_field]. Qed.
Print Assumptions C55_same_however_passed.

(** The hand-written codecs produce exactly what the reflective encoder produces for
    plain structs with the same fields. *)
Theorem C55_transaction E t out :
  runw (Encode E Transaction_struct (Transaction_fields t)) out = runw (Transaction_MarshalABI t) out.
Proof. exact (Transaction_weq E t out). Qed.
Print Assumptions C55_transaction.
Theorem C55_composites E a h x p q out :
  runw (Encode E Action_struct (Action_fields a)) out = runw (Action_MarshalABI a) out
  /\ runw (Encode E TransactionHeader_struct (TransactionHeader_fields h)) out = runw (TransactionHeader_MarshalABI h) out
  /\ runw (Encode E TransactionExtension_struct (TransactionExtension_fields x)) out = runw (TransactionExtension_MarshalABI x) out
  /\ runw (Encode E PermissionLevel_struct (PermissionLevel_fields p)) out = runw (PermissionLevel_MarshalABI p) out
  /\ runw (Encode E Asset_struct (Asset_fields q)) out = runw (Asset_MarshalABI q) out.
Proof.
  split; [exact (Action_weq E a out)|]. split; [exact (Header_weq E h out)|]. split; [exact (Extension_weq E x out)|].
  split; [exact (Permission_weq E p out)|exact (Asset_weq E q out)].
Qed.
Print Assumptions C55_composites.
Example C55_example E : exists bs, runw (Encode E Transaction_struct (Transaction_fields
  {| Header := {| Expiration := 1; RefBlockNum := 2; RefBlockPrefix := 3; MaxNetUsageWords := 300; MaxCpuUsageMs := 5; DelaySec := 6 |};
     ContextFreeActions := []; Actions := [{| Account := 7; AName := 8; Authorization := [{| Actor := 9; Permission := 10 |}]; AData := [xff] |}];
     Extensions := [{| EType := 11; EData := [] |}] |})) [] = WDone None bs /\ length bs = 55%nat.
Proof. eexists. split; vm_compute; reflexivity. Qed.
