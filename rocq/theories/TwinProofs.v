(** Schema values and Go values that correspond have the same binary form. *)
From Verif Require Import Base Prog AbiPrim BaseProofs SpecWire ProgProofs AbiPrimProofs Chain SpecChain ChainProofs
  Values Leaf SpecLeaf LeafProofs AbiDyn SpecAbi Reflect SpecReflect ReflectProofs SpecTags SpecMirror SpecAbiDef AbiDefProofs SpecTwin.

Lemma builtin_same p q bs : same_builtin p q -> prim_layout p bs -> usable p -> prim_layout q bs /\ usable q.
Proof. intros [] L U; auto. Qed.
Lemma usable_layout p : usable p -> exists bs, prim_layout p bs.
Proof. intros (T & B & _). destruct (leaf_round p T B) as (bs & _ & L & _). eauto. Qed.
Lemma abi_fields_app a fs1 m bs1 o1 : abi_fields a fs1 m bs1 o1 -> forall fs2 bs2 o2, abi_fields a fs2 m bs2 o2 ->
  abi_fields a (fs1 ++ fs2) m (bs1 ++ bs2) (o1 ++ o2).
Proof.
  induction 1; intros fs2 bs2 o2 H2; cbn [app]; [exact H2|]. rewrite <- app_assoc. constructor; auto.
Qed.
Lemma u8_elems a n d : falls_through a n (str "uint8") ->
  exists vs', abi_elems a n (str "uint8") (map (fun c => VPrim (PU8 (zb c))) d) d vs'.
Proof.
  intros F. induction d as [|c d [vs' IH]]; [eexists; constructor|].
  exists (VPrim (PU8 (zb c)) :: vs'). change (c :: d) with ([c] ++ d) at 2. constructor; [|exact IH].
  apply in_builtin; [exact F|]. split; [reflexivity|]. split; [exact I|]. split; [|reflexivity].
  split; [reflexivity|]. pose proof (zb_range c). cbn [le_value]. change (256 ^ Z.of_nat 1) with 256.
  rewrite Z.mod_small by lia. lia.
Qed.
Lemma twin_encoded a E : small_types E ->
  (forall n fd g v, twin_field a E n fd g v -> exists bs g' v', abi_enc a n g bs g' /\ encoded_fields E [fd] [v] bs [v'] /\ same v v')
  /\ (forall pl n b arr t g v, twin_body a E pl n b arr t g v ->
        exists bs g' v', abi_body a n b arr g bs g' /\ encoded E pl t v bs v' /\ same v v')
  /\ (forall pl n b t g v, twin_inner a E pl n b t g v ->
        exists bs g' v', abi_inner a n b g bs g' /\ encoded E pl t v bs v' /\ same v v')
  /\ (forall n b t gs vs, twin_list a E n b t gs vs ->
        exists bs gs' vs', abi_elems a n b gs bs gs' /\ encoded_list E t vs bs vs' /\ same_list vs vs' /\ length gs = length vs)
  /\ (forall fs gofs m l, twin_fields a E fs gofs m l ->
        exists bs o l', abi_fields a fs m bs o /\ encoded_fields E gofs l bs l' /\ same_list l l').
Proof.
  intros M. apply twin_all.
  - intros n b arr ext t g v D N DT _ (bs & g' & v' & A & W & S). exists bs, g', v'. split; [eapply enc_req; eauto|].
    split; [|exact S]. rewrite <- (app_nil_r bs). destruct ext; (apply wf_field; [auto|exact DT|exact W|constructor]).
  - intros n b arr ext t v D Z DT S. exists [x00], VNil, (zero_of t). split; [eapply enc_nil; eauto|]. split; [|exact S].
    change [x00] with ([x00] ++ []). apply wf_absent; auto. constructor.
  - intros n b arr ext t g v D N Z DT _ (bs & g' & v' & A & W & S). exists (x01 :: bs), g', v'. split; [eapply enc_opt; eauto|].
    split; [|exact S]. change (x01 :: bs) with ([x01] ++ bs). rewrite <- (app_nil_r bs). apply wf_present; auto. constructor.
  - intros pl n b arr t t' g v H _ (bs & g' & v' & A & W & S). exists bs, g', (RPtr (Some v')). split; [exact A|].
    split; [eapply w_ptr; eauto|now constructor].
  - intros pl n b t t' gs o H L _ (bs & gs' & vs' & A & W & S & LE).
    assert (Z : zlen (elems o) = zlen gs) by (unfold zlen; now rewrite LE).
    assert (N : 0 <= zlen gs < 2 ^ 28) by (unfold short in L; unfold zlen in *; lia).
    destruct (varu_exists (zlen gs) N) as [pre V].
    exists (pre ++ bs), (VSlice gs'), (RSlice match vs' with [] => None | _ => Some vs' end). split; [now constructor|]. split.
    + apply (w_slice E pl t t'); rewrite ?Z; [exact H|lia|now apply small_make_ok|exact V|exact W].
    + apply sm_slice. destruct vs'; exact S.
  - intros pl n b t d z H F -> L. destruct (u8_elems a n d F) as [vs' X].
    assert (N : 0 <= zlen d < 2 ^ 28) by (unfold short in L; unfold zlen in *; lia).
    destruct (varu_exists (zlen d) N) as [pre V].
    exists (pre ++ d), (VSlice vs'), (RLeaf (PGoBytes d) (read_zero pl (PGoBytes d))). split.
    + constructor; [unfold short; rewrite zlen_map; exact L|rewrite zlen_map; exact V|exact X].
    + split; [|constructor]. apply (w_leaf E pl t KGoBytes (PGoBytes d)); try exact I; try reflexivity; try assumption.
      * destruct pl; reflexivity.
      * exists pre, d. repeat split; try reflexivity; apply V.
  - intros pl n b t g v _ (bs & g' & v' & A & W & S). exists bs, g', v'. split; [now constructor|auto].
  - intros pl n b t t' g v H _ (bs & g' & v' & A & W & S). exists bs, g', (RPtr (Some v')). split; [exact A|].
    split; [eapply w_ptr; eauto|now constructor].
  - intros pl n b m b' arr ext t g v D DC N _ (bs & g' & v' & A & W & S). exists bs, g', v'. split; [|auto].
    eapply in_alias; eauto. eapply enc_req; eauto.
  - intros pl n b t fs gofs m l H I F _ (bs & o & l' & A & W & S). exists bs, (VMap (to_map o)), (RStruct l').
    split; [eapply in_struct; eauto|]. split; [eapply w_struct; eauto|now constructor].
  - intros pl n b t p q z H R F B U SB. destruct (usable_layout p U) as [bs L]. destruct (builtin_same p q bs SB L U) as [L' (T & BD & K)].
    exists bs, (VPrim (read_back p)), (RLeaf q (read_zero pl q)). split.
    + apply in_builtin; [exact F|]. destruct U as (_ & UB & _). repeat split; auto.
    + split; [eapply w_leaf; eauto|constructor].
  - intros pl n b t k p v H F B U SI. destruct (usable_layout p U) as [bs L].
    exists bs, (VPrim (read_back p)), (RInt v). destruct U as (T & UB & _). split; [apply in_builtin; [exact F|repeat split; auto]|].
    split; [|constructor]. apply (w_int E pl t k); [exact H|..]; destruct k; cbn [same_int] in SI; try destruct SI as [SI|SI]; subst p;
      first [exact T|exact L].
  - intros n b t. exists [], [], []. repeat split; constructor.
  - intros n b t g gs v vs _ (b1 & g' & v' & A & W & S) _ (b2 & gs' & vs' & A2 & W2 & S2 & LE).
    exists (b1 ++ b2), (g' :: gs'), (v' :: vs'). repeat split; try (constructor; assumption). cbn [length]. now rewrite LE.
  - intros m. exists [], [], []. repeat split; constructor.
  - intros f n fs fd gofs m v l _ (b1 & g' & v' & A & W & S) _ (b2 & o & l' & A2 & W2 & S2).
    exists (b1 ++ b2), ((f, g') :: o), (v' :: l'). split; [now constructor|]. split; [|now constructor].
    exact (encoded_fields_app E [fd] [v] b1 [v'] W gofs l b2 l' W2).
  - intros fs1 fs2 gofs1 gofs2 m l1 l2 _ (b1 & o1 & l1' & A1 & W1 & S1) _ (b2 & o2 & l2' & A2 & W2 & S2).
    exists (b1 ++ b2), (o1 ++ o2), (RStruct l1' :: l2'). split; [now apply abi_fields_app|]. split; [|constructor; [now constructor|exact S2]].
    apply wf_field; [auto|reflexivity|eapply w_struct; [reflexivity|exact W1]|exact W2].
Qed.
