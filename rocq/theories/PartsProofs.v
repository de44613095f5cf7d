(** Failing readers and writers with interface variables inside: proofs. *)
From Verif Require Import Base Prog AbiPrim BaseProofs SpecWire ProgProofs AbiPrimProofs Chain SpecChain ChainProofs
  Values Leaf SpecLeaf LeafProofs Reflect SpecReflect ReflectProofs SpecStrict ReflectStrict
  Interfaces SpecInterfaces InterfacesProofs Targets SpecTargets TargetsProofs SpecParts.

Lemma any_class (K : wr -> Prop) (P : gtype -> rval -> Prop) (G : tag -> Prop) E :
  (forall p, WStrict p -> K p) ->
  (forall p q, K p -> K q -> done q -> K (etry p q)) ->
  (forall b q, G Optional -> K q -> done q -> K (ebind (WriteBool b) (fun _ => q))) ->
  (forall t v, P t v -> done (Encode E t v) -> K (Encode E t v)) ->
  forall a, parts P G a -> done (encode_any E a) -> K (encode_any E a).
Proof.
  intros HS HT HF HP.
  assert (N : forall e, K (ERet e)) by (intros; apply HS; constructor).
  assert (L : forall l, (forall a, In a l -> done (encode_any E a) -> K (encode_any E a)) ->
    done (put_anys (encode_any E) l) -> K (put_anys (encode_any E) l)).
  { induction l as [|a l IH]; intros H D; [apply N|]. cbn [put_anys] in *. apply done_etry in D as [D1 D2].
    apply HT; [apply H; [now left|exact D1]| |exact D2]. apply IH; [|exact D2]. intros b I. apply H. now right. }
  induction 1 as [t v H| |a _ IH| |a _ IH| |l _ IH|l _ IH| |m _ IHk _ IH|fs HG _ IH]; intros D.
  - now apply HP.
  - destruct D as (o & f & D). discriminate D.
  - now apply IH.
  - apply N.
  - now apply IH.
  - rewrite any_slice in *. apply done_etry in D as [_ D]. apply HT; [apply HS, wstrict_varuint|apply N|exact D].
  - rewrite any_slice in *. apply done_etry in D as [_ D]. cbn [elems] in *. apply HT; [apply HS, wstrict_varuint|now apply L|exact D].
  - rewrite any_array in *. now apply L.
  - rewrite any_map in *. apply done_etry in D as [_ D]. apply HT; [apply HS, wstrict_varuint|apply N|exact D].
  - rewrite any_map in *. apply done_etry in D as [_ D]. cbn [elems] in *. apply HT; [apply HS, wstrict_varuint| |exact D].
    clear -IHk IH D HT N. induction m as [|[k a] m IHm]; [apply N|]. cbn [put_any_pairs] in *.
    apply done_etry in D as [D1 D0]. pose proof D0 as D. apply done_etry in D as [D2 D3].
    apply HT; [apply (IHk k a); [now left|exact D1]| |exact D0].
    apply HT; [apply (IH k a); [now left|exact D2]| |exact D3].
    apply IHm; [| |exact D3]; intros k' a' I; [apply (IHk k' a')|apply (IH k' a')]; now right.
  - rewrite any_struct in *. rename IH into IH'.
    clear -HG IH' D HT HF HS N. induction fs as [|[[tg vis] a] fs IHf]; [apply N|].
    assert (R : done (put_any_fields (encode_any E) fs) -> K (put_any_fields (encode_any E) fs)).
    { intros D'. apply IHf; [intros; eapply HG; right; eauto|intros; eapply IH'; [right; eauto|auto]|exact D']. }
    assert (F : forall q, K q -> done (etry match vis with Exported => encode_any E a
                      | _ => EPanic "cannot return value obtained from unexported field" end q) ->
                 K (etry match vis with Exported => encode_any E a
                      | _ => EPanic "cannot return value obtained from unexported field" end q)).
    { intros q Kq Dq. apply done_etry in Dq as [D1 D2]. apply HT; [|exact Kq|exact D2].
      destruct vis; [eapply IH'; [now left|exact D1]|apply HS; constructor|apply HS; constructor]. }
    change (put_any_fields (encode_any E) ((tg, vis, a) :: fs)) with
      (let field := match vis with Exported => encode_any E a
                    | _ => EPanic "cannot return value obtained from unexported field" end in
       match tg with
       | Optional => ebind (WriteBool (negb (any_zero a))) (fun _ =>
           if any_zero a then put_any_fields (encode_any E) fs else etry field (put_any_fields (encode_any E) fs))
       | _ => etry field (put_any_fields (encode_any E) fs)
       end) in *. cbv zeta in *.
    destruct tg.
    + apply F; [|exact D]. apply R. now apply done_etry in D.
    + pose proof (done_flag _ _ D) as Dq. apply HF; [eapply HG; now left| |exact Dq].
      destruct (any_zero a); [now apply R|]. apply F; [|exact Dq]. apply R. now apply done_etry in Dq.
    + apply F; [|exact D]. apply R. now apply done_etry in D.
    + apply F; [|exact D]. apply R. now apply done_etry in D.
Qed.
Lemma any_lossy E a : parts (fun t v => has_type E any_leaf t v /\ writes_checked E t) (fun _ => True) a ->
  done (encode_any E a) -> WLossy (encode_any E a).
Proof.
  apply any_class.
  - exact wstrict_lossy.
  - intros p q P Q (o & f & R). eapply lossy_etry; eauto.
  - intros b q _ Q (o & f & R). eapply lossy_flag; eauto.
  - intros t v [T W]. now apply Encode_lossy.
Qed.
Lemma any_wstrict E a : parts (fun t v => has_type E any_leaf t v /\ no_optionals E t /\ writes_checked E t) (fun tg => tg <> Optional) a ->
  done (encode_any E a) -> WStrict (encode_any E a).
Proof.
  apply any_class; auto.
  - intros p q P Q _. now apply wstrict_etry.
  - congruence.
  - intros t v (T & O & W). now apply Encode_wstrict.
Qed.

Definition readable (E : types) (t : gtype) : Prop := no_extensions E t /\ reads_checked E t.
Lemma plain_field_strict E fuel tg vis t v : tg <> Extension -> readable E t -> IoStrict (get_plain_field E fuel (tg, vis, t) v).
Proof.
  intros N [T M]. unfold get_plain_field. apply get_field_strict; [exact N|].
  assert (A : forall m w x, w = t \/ head E t = TPtr w -> IoStrict (decode fuel E chain_decoder m w x)).
  { intros m w x [->|H]; [apply (decode_strict E fuel Target); assumption|].
    apply (decode_strict E fuel (beneath Target)); [eapply tags_part|eapply methods_part]; try eassumption; now constructor. }
  intros w x H. split; [now apply A|].
  apply strict_bind_err; [apply ReadByte_strict|intros i; now apply A|constructor|auto].
Qed.
Lemma target_field_strict E f fv tg vis g : tg <> Some Extension -> IoStrict (f g) -> IoStrict (fv g) -> IoStrict (get_target_field E f fv tg vis g).
Proof.
  intros N F V. unfold get_target_field. destruct vis; try constructor.
  destruct tg as [[]|]; try exact F; try exact V; [|now elim N].
  apply strict_bind_err; [apply ReadBool_strict| |constructor|auto]. intros b. destruct b; [exact F|constructor].
Qed.
Lemma targets_strict f l : (forall g, In g l -> IoStrict (f g)) -> IoStrict (get_targets f l).
Proof.
  intros H. induction l as [|g l IHl]; cbn [get_targets]; [constructor|].
  apply strict_bind_err; [apply H; now left| |constructor|auto].
  intros a. apply strict_bind_err; [apply IHl; intros; apply H; now right|constructor|constructor|auto].
Qed.
Lemma target_slice_strict size z f o : (forall l g, o = Some l -> In g l -> IoStrict (f g)) -> IoStrict (f z) -> IoStrict (get_target_slice size z f o).
Proof.
  intros H Z. apply strict_bind_err; [apply ReadVaruint_strict| |constructor|auto].
  intros n. destruct (_ =? _).
  - destruct o as [l|]; [|constructor]. apply strict_bind_err; [apply targets_strict; eauto|constructor|constructor|auto].
  - destruct (make_ok _ _); [|constructor]. apply strict_bind_err; [|constructor|constructor|auto].
    apply targets_strict. intros g I. apply repeat_spec in I. now subst g.
Qed.
Lemma target_map_strict fk fv o : IoStrict fk -> IoStrict fv -> IoStrict (get_target_map fk fv o).
Proof.
  intros K V. apply strict_bind_err; [apply ReadVaruint_strict| |constructor|auto].
  intros n. apply strict_bind_err; [|constructor|constructor|auto]. generalize (@nil (rval * target)).
  induction (Z.to_nat (i64 n)) as [|k IH]; intros m; cbn [get_target_pairs]; [constructor|].
  apply strict_bind_err; [exact K| |constructor|auto]. intros x. apply strict_bind_err; [exact V|intros y; apply IH|constructor|auto].
Qed.
Definition readable_somewhere (E : types) (t : gtype) : Prop :=
  exists pl, tags_from (fun tg => tg <> Extension) E (pl, t) /\ methods_from (fun i _ => forall old, IoStrict (unmarshals E i old)) E (pl, t).
Lemma readable_here E t : readable E t -> readable_somewhere E t.
Proof. intros [T M]. now exists Target. Qed.
Lemma readable_beneath E t t' : readable E t -> head E t = TPtr t' -> readable_somewhere E t'.
Proof. intros [T M] H. exists (beneath Target). split; [eapply tags_part|eapply methods_part]; try eassumption; now constructor. Qed.
Definition target_readable (E : types) : target -> Prop := target_parts (readable E) (fun tg => tg <> Extension).
Lemma alternative_strict E p f i fs : target_readable E (GStruct fs) ->
  (forall t v, readable_somewhere E t -> IoStrict (p t v)) -> (forall g, target_readable E g -> IoStrict (f g)) ->
  IoStrict (get_target_alternative E p f i fs).
Proof.
  intros H P F. unfold get_target_alternative. destruct (_ <=? _); [constructor|]. destruct (clear_targets _ _ _) as [fs'|]; [|constructor].
  destruct (nth_error fs (Z.to_nat i)) as [fd|] eqn:N; [|constructor]. apply nth_error_In in N.
  assert (C : target_readable E (content fd)).
  { inversion H as [| | | | | | | | |fs0 A B]. subst fs0. destruct fd as [[[[tg vis] t] v]|[[o vis] g]]; cbn [content].
    - apply A in N as [_ N]. now constructor.
    - apply B in N as [_ N]. exact N. }
  cbv zeta. assert (S : forall x : io target, IoStrict x -> IoStrict ('(x, err) <-- x ;;
                 match err with
                 | Some e => DRet (fs', Some e)
                 | None => if exported fd then DRet (replace_nth (Z.to_nat i) (refilled fd x) fs', None)
                           else DPanic "value obtained using unexported field"
                 end)).
  { intros x X. apply strict_bind_err; [exact X|intros y; destruct (exported fd); constructor|constructor|auto]. }
  destruct (content fd) as [t v|o| |z o|l|size z o|kt z o|l]; try constructor.
  - destruct (head E t) eqn:T; try constructor. apply S. apply strict_bind_err; [|constructor|constructor|auto]. apply P.
    inversion C. eapply readable_beneath; eassumption.
  - apply S. apply strict_bind_err; [|constructor|constructor|auto]. apply F. inversion C; assumption.
Qed.
Lemma through_target_strict E p f : (forall t v, readable_somewhere E t -> IoStrict (p t v)) -> (forall g, target_readable E g -> IoStrict (f g)) ->
  forall g, target_readable E g -> IoStrict (through_target E p f g).
Proof.
  intros P F g H. destruct H; cbn [through_target]; try (apply F; now constructor).
  - apply strict_bind_err; [|constructor|constructor|auto]. apply through_strict.
    + intros t' x Ht. apply P. eapply readable_beneath; eassumption.
    + now apply P, readable_here.
  - apply strict_bind_err; [now apply F|constructor|constructor|auto].
  - apply strict_bind_err; [now apply F|constructor|constructor|auto].
Qed.
Lemma by_index_strict {A} (f : mode -> A -> io A) x : (forall m, IoStrict (f m x)) -> IoStrict (by_index f x).
Proof. intros F. apply strict_bind_err; [apply ReadByte_strict|intros i; apply F|constructor|auto]. Qed.
Lemma readable_strict E fuel m t v : readable_somewhere E t -> IoStrict (decode fuel E chain_decoder m t v).
Proof.
  intros (pl & T & M). apply (decode_strict E _ pl); assumption.
Qed.
Lemma target_strict E : forall fuel m g, target_parts (readable E) (fun tg => tg <> Extension) g ->
  IoStrict (decode_target fuel E m g).
Proof.
  induction fuel as [|fuel IH]; intros m g H; [constructor|].
  assert (W : forall t v, readable_somewhere E t -> IoStrict (decode fuel E chain_decoder Whole t v)) by (intros; now apply readable_strict).
  assert (TH : forall g, target_readable E g -> IoStrict (through_target E (decode fuel E chain_decoder Whole) (decode_target fuel E Whole) g)).
  { apply through_target_strict; [exact W|intros; now apply IH]. }
  destruct H as [t v H| | |x H|z H|z x H H'|l H|size z o H H'|kt z o H H'|fs H H']; cbn [decode_target].
  - apply strict_bind_err; [now apply readable_strict, readable_here|constructor|constructor|auto].
  - destruct m; [apply IH| |]; constructor.
  - destruct m; [apply IH| |]; constructor.
  - destruct m; [apply IH; now constructor| |]; (apply strict_bind_err; [now apply IH|constructor|constructor|auto]).
  - destruct m; [apply IH; now constructor| |]; (apply strict_bind_err; [now apply IH|constructor|constructor|auto]).
  - destruct m; [apply IH; now constructor| |]; (apply strict_bind_err; [now apply IH|constructor|constructor|auto]).
  - destruct m; [apply IH; now constructor| |constructor]. apply strict_bind_err; [|constructor|constructor|auto].
    apply targets_strict. intros g I. apply TH. now apply H.
  - destruct m; [apply IH; now constructor| |constructor]. apply strict_bind_err; [|constructor|constructor|auto].
    apply target_slice_strict; [intros l g Q I; apply TH; now apply (H' l)|now apply TH].
  - destruct m; [apply IH; now constructor| |constructor]. apply strict_bind_err; [|constructor|constructor|auto].
    apply target_map_strict; [now apply W, readable_here|now apply IH].
  - destruct m; [apply IH; now constructor| |].
    2: { apply strict_bind_err; [|constructor|constructor|auto]. apply alternative_strict; [now constructor|exact W|intros; now apply IH]. }
    apply strict_bind_err; [|constructor|constructor|auto].
    assert (TV : forall g, target_readable E g ->
      IoStrict (through_target E (fun t => by_index (fun m => decode fuel E chain_decoder m t)) (by_index (decode_target fuel E)) g)).
    { apply through_target_strict; [intros t v R; apply by_index_strict; intros; now apply readable_strict|].
      intros g R. apply by_index_strict. intros. now apply IH. }
    clear -H H' TH TV. induction fs as [|fd fs IHf]; cbn [get_target_fields]; [constructor|].
    apply strict_bind_err; [| |constructor|auto].
    + destruct fd as [[[[tg vis] t] v]|[[o vis] g]].
      * destruct (H tg vis t v) as [N R]; [now left|].
        apply strict_bind_err; [now apply plain_field_strict|constructor|constructor|auto].
      * destruct (H' o vis g) as [N R]; [now left|].
        apply strict_bind_err; [|constructor|constructor|auto]. apply target_field_strict; [|now apply TH|now apply TV].
        intros ->. now elim (N Extension eq_refl).
    + intros a. apply strict_bind_err; [|constructor|constructor|auto].
      apply IHf; intros; [eapply H|eapply H']; right; eauto.
Qed.
