(** Values with interface variables inside: proofs. *)
From Verif Require Import Base Prog AbiPrim BaseProofs SpecWire ProgProofs AbiPrimProofs Chain SpecChain ChainProofs
  Values Leaf SpecLeaf LeafProofs Reflect SpecReflect ReflectProofs Interfaces SpecInterfaces.

(** The loops of [encode_any]. *)
Definition put_anys (f : any -> wr) : list any -> wr :=
  fix go l := match l with [] => ERet None | a :: l => etry (f a) (go l) end.
Definition put_any_pairs (f : any -> wr) : list (any * any) -> wr :=
  fix go m := match m with [] => ERet None | (k, a) :: m => etry (f k) (etry (f a) (go m)) end.
Definition put_any_fields (f : any -> wr) : list (tag * visibility * any) -> wr :=
  fix go fs := match fs with
               | [] => ERet None
               | (tg, vis, a) :: fs =>
                   let field := match vis with
                                | Exported => f a
                                | _ => EPanic "cannot return value obtained from unexported field"
                                end in
                   match tg with
                   | Optional =>
                       _ <~~ WriteBool (negb (any_zero a)) ;;
                       if any_zero a then go fs else etry field (go fs)
                   | _ => etry field (go fs)
                   end
               end.
Lemma any_zero_blank : forall a, any_zero a = true <-> blank a.
Proof.
  fix IH 1. intros [t v|[a|]|[a|]|[l|]|l|[m|]|fs]; cbn [any_zero];
    try (split; [discriminate|intros B; inversion B]); try (split; [intros _; constructor|reflexivity]).
  - split; [now constructor|intros B; now inversion B].
  - assert (G : (fix all l := match l with [] => true | a :: l => any_zero a && all l end) l = true <-> forall a, In a l -> blank a).
    { revert l. fix IHl 1. intros [|a l]; [split; [intros _ a []|reflexivity]|]. rewrite Bool.andb_true_iff, (IH a), (IHl l). split.
      - intros [A L] b [<-|I]; auto.
      - intros H. split; [apply H; now left|]. intros b I. apply H. now right. }
    rewrite G. split; [now constructor|intros B; now inversion B].
  - assert (G : (fix all (fs : list (tag * visibility * any)) := match fs with [] => true | (_, a) :: fs => any_zero a && all fs end) fs = true
      <-> forall tg vis a, In (tg, vis, a) fs -> blank a).
    { revert fs. fix IHf 1. intros [|[[tg vis] a] fs]; [split; [intros _ tg vis a []|reflexivity]|]. rewrite Bool.andb_true_iff, (IH a), (IHf fs). split.
      - intros [A L] tg' vis' b [[= <- <- <-]|I]; [exact A|eauto].
      - intros H. split; [apply (H tg vis); now left|]. intros tg' vis' b I. apply (H tg' vis'). now right. }
    rewrite G. split; [now constructor|intros B; inversion B; eauto].
Qed.
Lemma any_zero_not a : any_zero a = false <-> ~ blank a.
Proof. rewrite <- any_zero_blank. destruct (any_zero a); split; congruence. Qed.
Lemma any_slice E o : encode_any E (ASlice o) = etry (WriteVaruint (zlen (elems o))) (put_anys (encode_any E) (elems o)).
Proof. now destruct o. Qed.
Lemma any_array E l : encode_any E (AArray l) = put_anys (encode_any E) l.
Proof. reflexivity. Qed.
Lemma any_map E o : encode_any E (AMap o) = etry (WriteVaruint (zlen (elems o))) (put_any_pairs (encode_any E) (elems o)).
Proof. now destruct o. Qed.
Lemma any_struct E fs : encode_any E (AStruct fs) = put_any_fields (encode_any E) fs.
Proof. reflexivity. Qed.

(** ** Boxed values *)
Definition alike (p q : wr) : Prop := forall out, runw p out = runw q out.
Lemma alike_etry p p' q q' : alike p p' -> alike q q' -> alike (etry p q) (etry p' q').
Proof.
  intros P Q out. unfold etry. rewrite !runw_ebind, P. destruct (runw p' out) as [[e|] o|m o|]; auto.
Qed.
Lemma alike_ebind {A} (p : enc A) (f g : A -> wr) : (forall a, alike (f a) (g a)) -> alike (ebind p f) (ebind p g).
Proof. intros H out. rewrite !runw_ebind. destruct (runw p out); try reflexivity. apply H. Qed.

Lemma boxed_alike E ok :
  (forall t v a, boxed E t v a -> has_type E ok t v -> alike (encode_any E a) (Encode E t v))
  /\ (forall t l l', boxed_list E t l l' -> have_type E ok t l -> zlen l' = zlen l /\ alike (put_anys (encode_any E) l') (put_list (Encode E t) l))
  /\ (forall kt vt m m', boxed_pairs E kt vt m m' -> have_pair_type E ok kt vt m ->
        zlen m' = zlen m /\ alike (put_any_pairs (encode_any E) m') (put_pairs (Encode E kt) (Encode E vt) m))
  /\ (forall fs l l', boxed_fields E fs l l' -> have_field_types E ok fs l ->
        alike (put_any_fields (encode_any E) l') (put_fields E chain_encoder fs l)).
Proof.
  apply boxed_all.
  - intros t v _ out. reflexivity.
  - intros t v a _ IH T. exact (IH T).
  - intros t t' v a H _ IH T out. cbn [encode_any].
    assert (T' : has_type E ok t' v) by (inversion T; congruence).
    rewrite (Encode_ptr _ _ _ _ H) by (eapply has_type_leaf_shaped; eassumption). now apply IH.
  - intros t t' H T out. now rewrite (Encode_slice _ _ _ _ H).
  - intros t t' l l' H _ IH T. assert (T' : have_type E ok t' l) by (inversion T; congruence).
    destruct (IH T') as [L A]. rewrite any_slice, (Encode_slice _ _ _ _ H). cbn [elems]. rewrite L.
    apply alike_etry; [intros out; reflexivity|exact A].
  - intros t n t' l l' H _ IH T. assert (T' : have_type E ok t' l) by (inversion T; congruence).
    destruct (IH T') as [L A]. rewrite any_array, (Encode_array _ _ _ _ _ H). exact A.
  - intros t kt vt H T out. now rewrite (Encode_map _ _ _ _ _ H).
  - intros t kt vt m m' H _ IH T.
    assert (T' : have_pair_type E ok kt vt m) by (inversion T; congruence).
    destruct (IH T') as [L A]. rewrite any_map, (Encode_map _ _ _ _ _ H). cbn [elems]. rewrite L.
    apply alike_etry; [intros out; reflexivity|exact A].
  - intros t fs l l' H _ IH T. assert (T' : have_field_types E ok fs l) by (inversion T; congruence).
    rewrite any_struct, (Encode_struct _ _ _ _ H). now apply IH.
  - intros t _. split; [reflexivity|]. intros out. reflexivity.
  - intros t v l a l' _ IHv _ IHl T. inversion T; subst. destruct (IHl H3) as [L A]. split.
    + rewrite !zlen_cons. now rewrite L.
    + cbn [put_anys put_list]. apply alike_etry; [now apply IHv|exact A].
  - intros kt vt _. split; [reflexivity|]. intros out. reflexivity.
  - intros kt vt k v m a b m' _ IHk _ IHv _ IHm T. inversion T; subst. destruct (IHm ltac:(assumption)) as [L A]. split.
    + rewrite !zlen_cons. now rewrite L.
    + cbn [put_any_pairs put_pairs]. apply alike_etry; [now apply IHk|]. apply alike_etry; [now apply IHv|exact A].
  - intros _ out. reflexivity.
  - intros tg vis t fs v l a l' _ IHv Z _ IHl T. inversion T; subst. cbn [put_any_fields put_fields].
    assert (F : alike match vis with Exported => encode_any E a | _ => EPanic "cannot return value obtained from unexported field" end
                      match vis with Exported => Encode E t v | _ => EPanic "cannot return value obtained from unexported field" end)
      by (destruct vis; [now apply IHv|intros out; reflexivity|intros out; reflexivity]).
    specialize (IHl ltac:(assumption)).
    destruct tg; try (apply alike_etry; [exact F|exact IHl]).
    replace (any_zero a) with (is_zero v) by (apply eq_true_iff_eq; rewrite any_zero_blank; symmetry; exact (Z eq_refl)).
    apply alike_ebind. intros _. destruct (is_zero v); [exact IHl|]. apply alike_etry; [exact F|exact IHl].
Qed.

(** ** Wire form *)
Lemma any_encoded_writes E :
  (forall a bs, any_encoded E a bs -> writes (encode_any E a) bs)
  /\ (forall l bs, any_encoded_list E l bs -> writes (put_anys (encode_any E) l) bs)
  /\ (forall m bs, any_encoded_pairs E m bs -> writes (put_any_pairs (encode_any E) m) bs)
  /\ (forall fs bs, any_encoded_fields E fs bs -> writes (put_any_fields (encode_any E) fs) bs).
Proof.
  apply any_encoded_all.
  - intros t v bs v' W. exact (proj1 (encoded_writes E) _ _ _ _ _ W).
  - intros a bs _ IH. exact IH.
  - intros a bs _ IH. exact IH.
  - intros o pre bs L V _ IH. rewrite any_slice. pose proof (zlen_nonneg (elems o)).
    apply writes_etry; [apply varu_ok; [lia|assumption]|exact IH].
  - intros l bs _ IH. exact IH.
  - intros o pre bs L V _ IH. rewrite any_map. pose proof (zlen_nonneg (elems o)).
    apply writes_etry; [apply varu_ok; [lia|assumption]|exact IH].
  - intros fs bs _ IH. exact IH.
  - apply writes_ret.
  - intros a l b bs _ IHa _ IHl. now apply writes_etry.
  - apply writes_ret.
  - intros k a m b1 b2 bs _ IHk _ IHa _ IHm. cbn [put_any_pairs]. apply writes_etry; [assumption|]. now apply writes_etry.
  - apply writes_ret.
  - intros tg a fs b bs T _ IHa _ IHf. cbn [put_any_fields]. destruct tg; try congruence; now apply writes_etry.
  - intros vis a fs bs Z _ IHf. apply any_zero_blank in Z. cbn [put_any_fields]. rewrite Z. intros out. rewrite runw_ebind. cbn [negb WriteBool WriteByte WriteBytes runw].
    rewrite app_assoc. apply IHf.
  - intros a fs b bs Z _ IHa _ IHf. apply any_zero_not in Z. cbn [put_any_fields]. rewrite Z. intros out. rewrite runw_ebind. cbn [negb WriteBool WriteByte WriteBytes runw].
    rewrite app_assoc. apply (writes_etry _ _ _ _ IHa IHf).
Qed.

(** Induction over the parts. *)
Fixpoint any_size (a : any) : nat :=
  match a with
  | APlain _ _ | AIface None | APtr None | ASlice None | AMap None => 1
  | AIface (Some a) | APtr (Some a) => S (any_size a)
  | ASlice (Some l) | AArray l => S ((fix sum l := match l with [] => 0 | a :: l => any_size a + sum l end) l)
  | AMap (Some m) => S ((fix sum m := match m with [] => 0 | (k, a) :: m => any_size k + any_size a + sum m end) m)
  | AStruct fs => S ((fix sum (fs : list (tag * visibility * any)) := match fs with [] => 0 | (_, a) :: fs => any_size a + sum fs end) fs)
  end%nat.
Lemma list_part l a : In a l ->
  (any_size a <= (fix sum l := match l with [] => 0 | a :: l => any_size a + sum l end) l)%nat.
Proof. induction l as [|b l IH]; intros []; [subst; lia|]. specialize (IH H). lia. Qed.
Lemma pair_part m k a : In (k, a) m ->
  (any_size k + any_size a <= (fix sum m := match m with [] => 0 | (k, a) :: m => any_size k + any_size a + sum m end) m)%nat.
Proof.
  induction m as [|[k' a'] m IH]; intros []; [injection H as -> ->; lia|]. specialize (IH H). lia.
Qed.
Lemma field_part fs tg vis a : In (tg, vis, a) fs ->
  (any_size a <= (fix sum (fs : list (tag * visibility * any)) := match fs with [] => 0 | (_, a) :: fs => any_size a + sum fs end) fs)%nat.
Proof. induction fs as [|[[tg' vis'] a'] fs IH]; intros []; [injection H as -> -> ->; lia|]. specialize (IH H). lia. Qed.
Lemma any_ind' (P : any -> Prop) :
  (forall t v, P (APlain t v)) -> (forall o, (forall a, o = Some a -> P a) -> P (AIface o)) ->
  (forall o, (forall a, o = Some a -> P a) -> P (APtr o)) ->
  (forall o, (forall a, In a (elems o) -> P a) -> P (ASlice o)) ->
  (forall l, (forall a, In a l -> P a) -> P (AArray l)) ->
  (forall o, (forall k a, In (k, a) (elems o) -> P k /\ P a) -> P (AMap o)) ->
  (forall fs, (forall tg vis a, In (tg, vis, a) fs -> P a) -> P (AStruct fs)) ->
  forall a, P a.
Proof.
  intros H1 H2 H3 H4 H5 H6 H7 a. remember (any_size a) as n eqn:N. assert (L : (any_size a <= n)%nat) by lia. clear N.
  revert a L. induction n as [|n IH]; intros a L.
  { destruct a as [t v|[a|]|[a|]|[l|]|l|[m|]|fs]; cbn [any_size] in L; lia. }
  destruct a as [t v|o|o|o|l|o|fs]; cbn [any_size] in L.
  - apply H1.
  - apply H2. intros a ->. apply IH. cbn [any_size] in L. lia.
  - apply H3. intros a ->. apply IH. cbn [any_size] in L. lia.
  - apply H4. intros a I. apply IH. destruct o as [l|]; [|contradiction]. cbn [elems] in I. apply list_part in I. cbn [any_size] in L. lia.
  - apply H5. intros a I. apply IH. apply list_part in I. lia.
  - apply H6. intros k a I. destruct o as [m|]; [|contradiction]. cbn [elems] in I. apply pair_part in I. cbn [any_size] in L. split; apply IH; lia.
  - apply H7. intros tg vis a I. apply field_part in I. apply IH. lia.
Qed.

Definition completes (E : types) (a : any) : Prop := plain_parts (sound_part E) a -> forall out full,
  runw (encode_any E a) out = WDone None full -> exists bs, full = out ++ bs /\ any_encoded E a bs.
Lemma anys_complete E l : (forall a, In a l -> completes E a) -> (forall a, In a l -> plain_parts (sound_part E) a) ->
  forall out full, runw (put_anys (encode_any E) l) out = WDone None full -> exists bs, full = out ++ bs /\ any_encoded_list E l bs.
Proof.
  induction l as [|a l IH]; intros C P out full R.
  - cbn in R. injection R as <-. exists []. rewrite app_nil_r. split; [reflexivity|constructor].
  - cbn [put_anys] in R. apply runw_etry_done in R as (mid & R1 & R2).
    destruct (C a (or_introl eq_refl) (P a (or_introl eq_refl)) _ _ R1) as (b & -> & W).
    destruct (IH (fun x I => C x (or_intror I)) (fun x I => P x (or_intror I)) _ _ R2) as (bs & -> & W').
    exists (b ++ bs). rewrite app_assoc. split; [reflexivity|now constructor].
Qed.
Lemma any_pairs_complete E m : (forall k a, In (k, a) m -> completes E k /\ completes E a) ->
  (forall k a, In (k, a) m -> plain_parts (sound_part E) k /\ plain_parts (sound_part E) a) ->
  forall out full, runw (put_any_pairs (encode_any E) m) out = WDone None full -> exists bs, full = out ++ bs /\ any_encoded_pairs E m bs.
Proof.
  induction m as [|[k a] m IH]; intros C P out full R.
  - cbn in R. injection R as <-. exists []. rewrite app_nil_r. split; [reflexivity|constructor].
  - cbn [put_any_pairs] in R. apply runw_etry_done in R as (mid & R1 & R2). apply runw_etry_done in R2 as (mid2 & R2 & R3).
    destruct (C k a (or_introl eq_refl)) as [Ck Ca]. destruct (P k a (or_introl eq_refl)) as [Pk Pa].
    destruct (Ck Pk _ _ R1) as (b1 & -> & W1). destruct (Ca Pa _ _ R2) as (b2 & -> & W2).
    destruct (IH (fun x y I => C x y (or_intror I)) (fun x y I => P x y (or_intror I)) _ _ R3) as (bs & -> & W').
    exists (b1 ++ b2 ++ bs). rewrite !app_assoc. split; [reflexivity|]. rewrite <- app_assoc. now constructor.
Qed.
Lemma any_fields_complete E fs : (forall tg vis a, In (tg, vis, a) fs -> completes E a) ->
  (forall tg vis a, In (tg, vis, a) fs -> plain_parts (sound_part E) a) ->
  forall out full, runw (put_any_fields (encode_any E) fs) out = WDone None full -> exists bs, full = out ++ bs /\ any_encoded_fields E fs bs.
Proof.
  induction fs as [|[[tg vis] a] fs IH]; intros C P out full R.
  - cbn in R. injection R as <-. exists []. rewrite app_nil_r. split; [reflexivity|constructor].
  - pose proof (C tg vis a (or_introl eq_refl) (P tg vis a (or_introl eq_refl))) as Ca.
    specialize (IH (fun x y z I => C x y z (or_intror I)) (fun x y z I => P x y z (or_intror I))).
    assert (F : forall out full,
      runw (etry match vis with Exported => encode_any E a | _ => EPanic "cannot return value obtained from unexported field" end
              (put_any_fields (encode_any E) fs)) out = WDone None full ->
      vis = Exported /\ exists b bs, full = (out ++ b) ++ bs /\ any_encoded E a b /\ any_encoded_fields E fs bs).
    { intros out' full' R'. apply runw_etry_done in R' as (mid & R1 & R2). destruct vis; [|discriminate R1|discriminate R1].
      destruct (Ca _ _ R1) as (b & -> & W). destruct (IH _ _ R2) as (bs & -> & W'). split; [reflexivity|]. exists b, bs. auto. }
    cbn [put_any_fields] in R. destruct (match tg with Optional => true | _ => false end) eqn:T.
    + assert (tg = Optional) by (destruct tg; congruence). subst tg. rewrite runw_ebind in R.
      destruct (any_zero a) eqn:Z; cbn [negb WriteBool WriteByte WriteBytes runw] in R.
      * destruct (IH _ _ R) as (bs & -> & W). exists ([x00] ++ bs). rewrite app_assoc. split; [reflexivity|]. apply any_zero_blank in Z. now apply aef_absent.
      * destruct (F _ _ R) as (-> & b & bs & -> & W & W'). exists ([x01] ++ b ++ bs). rewrite !app_assoc. split; [reflexivity|].
        rewrite <- app_assoc. apply any_zero_not in Z. now apply aef_present.
    + assert (R' : runw (etry match vis with Exported => encode_any E a | _ => EPanic "cannot return value obtained from unexported field" end
              (put_any_fields (encode_any E) fs)) out = WDone None full) by (destruct tg; try discriminate T; exact R).
      destruct (F _ _ R') as (-> & b & bs & -> & W & W'). exists (b ++ bs). rewrite app_assoc. split; [reflexivity|].
      apply aef_field; [destruct tg; discriminate|assumption|assumption].
Qed.
Lemma any_complete E : forall a, completes E a.
Proof.
  apply any_ind'; unfold completes at 1.
  - intros t v P out full R. inversion P as [t' v' [S T]| | | | | | | |]; subst.
    destruct (proj1 (encode_complete E) t v T Target out full S R) as (bs & v' & A & W & _). exists bs. split; [exact A|]. econstructor; exact W.
  - intros [a|] H P out full R; [|discriminate R]. inversion P; subst. destruct (H a eq_refl H1 _ _ R) as (bs & A & W).
    exists bs. split; [exact A|now constructor].
  - intros [a|] H P out full R; [|discriminate R]. inversion P; subst. destruct (H a eq_refl H1 _ _ R) as (bs & A & W).
    exists bs. split; [exact A|now constructor].
  - intros o H P out full R. inversion P; subst. rewrite any_slice in R. apply runw_etry_done in R as (mid & R1 & R2).
    destruct (varu_done _ out mid (zlen_nonneg (elems o)) R1) as (SH & pre & V & ->).
    destruct (anys_complete E _ H ltac:(assumption) _ _ R2) as (bs & -> & W).
    exists (pre ++ bs). rewrite app_assoc. split; [reflexivity|now constructor].
  - intros l H P out full R. inversion P; subst.
    destruct (anys_complete E _ H ltac:(assumption) _ _ R) as (bs & -> & W). exists bs. split; [reflexivity|now constructor].
  - intros o H P out full R. inversion P; subst. rewrite any_map in R. apply runw_etry_done in R as (mid & R1 & R2).
    destruct (varu_done _ out mid (zlen_nonneg (elems o)) R1) as (SH & pre & V & ->).
    destruct (any_pairs_complete E _ H ltac:(assumption) _ _ R2) as (bs & -> & W).
    exists (pre ++ bs). rewrite app_assoc. split; [reflexivity|now constructor].
  - intros fs H P out full R. inversion P; subst.
    destruct (any_fields_complete E _ H ltac:(assumption) _ _ R) as (bs & -> & W). exists bs. split; [reflexivity|now constructor].
Qed.

(** ** Nil interfaces *)
Lemma anys_done E l : forall out full, runw (put_anys (encode_any E) l) out = WDone None full ->
  forall a, In a l -> exists out' full', runw (encode_any E a) out' = WDone None full'.
Proof.
  induction l as [|b l IH]; intros out full R a []; cbn [put_anys] in R; apply runw_etry_done in R as (mid & R1 & R2).
  - subst b. eauto.
  - eapply IH; eassumption.
Qed.
Lemma any_pairs_done E m : forall out full, runw (put_any_pairs (encode_any E) m) out = WDone None full ->
  forall k a, In (k, a) m -> (exists out' full', runw (encode_any E k) out' = WDone None full')
    /\ (exists out' full', runw (encode_any E a) out' = WDone None full').
Proof.
  induction m as [|[k' b] m IH]; intros out full R k a []; cbn [put_any_pairs] in R;
    apply runw_etry_done in R as (mid & R1 & R2); apply runw_etry_done in R2 as (mid2 & R2 & R3).
  - injection H as -> ->. split; eauto.
  - eapply IH; eassumption.
Qed.
Lemma any_fields_done E fs : forall out full, runw (put_any_fields (encode_any E) fs) out = WDone None full ->
  forall tg vis a, In (tg, vis, a) fs -> (tg = Optional -> ~ blank a) ->
  exists out' full', runw (encode_any E a) out' = WDone None full'.
Proof.
  induction fs as [|[[tg' vis'] b] fs IH]; intros out full R tg vis a I Z; [contradiction|].
  assert (F : forall out full,
    runw (etry match vis' with Exported => encode_any E b | _ => EPanic "cannot return value obtained from unexported field" end
            (put_any_fields (encode_any E) fs)) out = WDone None full ->
    (exists out' full', runw (encode_any E b) out' = WDone None full')
    /\ exists mid, runw (put_any_fields (encode_any E) fs) mid = WDone None full).
  { intros out' full' R'. apply runw_etry_done in R' as (mid & R1 & R2). destruct vis'; [|discriminate R1|discriminate R1]. eauto. }
  cbn [put_any_fields] in R. destruct (match tg' with Optional => true | _ => false end) eqn:T.
  - assert (tg' = Optional) by (destruct tg'; congruence). subst tg'. rewrite runw_ebind in R.
    destruct (any_zero b) eqn:Zb; cbn [negb WriteBool WriteByte WriteBytes runw] in R.
    + destruct I as [I|I]; [|eapply IH; eassumption]. injection I as <- <- <-. apply any_zero_blank in Zb. now elim (Z eq_refl).
    + apply F in R as [D (mid & R)]. destruct I as [I|I]; [|eapply IH; eassumption]. injection I as <- <- <-. exact D.
  - assert (R' : runw (etry match vis' with Exported => encode_any E b | _ => EPanic "cannot return value obtained from unexported field" end
            (put_any_fields (encode_any E) fs)) out = WDone None full) by (destruct tg'; try discriminate T; exact R).
    apply F in R' as [D (mid & R')]. destruct I as [I|I]; [|eapply IH; eassumption]. injection I as <- <- <-. exact D.
Qed.
Lemma nil_never E a : nil_inside a -> forall out full, runw (encode_any E a) out <> WDone None full.
Proof.
  induction 1 as [|a _ IH|a _ IH|l a I _ IH|l a I _ IH|m k a I _ IH|m k a I _ IH|fs tg vis a I Z _ IH]; intros out full R.
  - discriminate R.
  - exact (IH _ _ R).
  - exact (IH _ _ R).
  - rewrite any_slice in R. apply runw_etry_done in R as (mid & _ & R). destruct (anys_done _ _ _ _ R _ I) as (o & f & D). exact (IH _ _ D).
  - destruct (anys_done _ _ _ _ R _ I) as (o & f & D). exact (IH _ _ D).
  - rewrite any_map in R. apply runw_etry_done in R as (mid & _ & R). destruct (any_pairs_done _ _ _ _ R _ _ I) as [(o & f & D) _]. exact (IH _ _ D).
  - rewrite any_map in R. apply runw_etry_done in R as (mid & _ & R). destruct (any_pairs_done _ _ _ _ R _ _ I) as [_ (o & f & D)]. exact (IH _ _ D).
  - destruct (any_fields_done _ _ _ _ R _ _ _ I Z) as (o & f & D). exact (IH _ _ D).
Qed.
