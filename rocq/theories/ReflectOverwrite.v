(** Decode does not look at what its target held. *)
From Verif Require Import Base Prog AbiPrim BaseProofs SpecWire ProgProofs AbiPrimProofs Chain SpecChain ChainProofs
  Values Leaf SpecLeaf LeafProofs Reflect SpecReflect ReflectProofs.

Definition sim {A} (R : A -> A -> Prop) (p q : io A) : Prop :=
  forall env inp, same_result R (run env p inp) (run env q inp).

Lemma sim_ret {A} (R : A -> A -> Prop) a b e : (e = None -> R a b) -> sim R (DRet (a, e)) (DRet (b, e)).
Proof. intros H env inp. cbn. auto. Qed.
Lemma sim_refl {A} (R : A -> A -> Prop) p : (forall a, R a a) -> sim R p p.
Proof. intros H env inp. destruct (run env p inp) as [[a e] r|m|]; cbn; auto. Qed.
Lemma sim_same {A B} (R : B -> B -> Prop) (p : dec A) f g : (forall a, sim R (f a) (g a)) -> sim R (dbind p f) (dbind p g).
Proof. intros H env inp. rewrite !run_dbind. destruct (run env p inp) as [a r|m|]; [apply H|reflexivity|exact I]. Qed.
Lemma sim_bind {A B} (R : A -> A -> Prop) (R' : B -> B -> Prop) (p q : io A) f g :
  sim R p q -> (forall a b, R a b -> sim R' (f (a, None)) (g (b, None))) ->
  (forall a b e, sim R' (f (a, Some e)) (g (b, Some e))) -> sim R' (dbind p f) (dbind q g).
Proof.
  intros H1 H2 H3 env inp. rewrite !run_dbind. specialize (H1 env inp).
  destruct (run env p inp) as [[a e] r|m|], (run env q inp) as [[b e'] r'|m'|]; cbn in H1; try contradiction.
  - destruct H1 as (-> & -> & HR). destruct e' as [e|]; [apply H3|apply H2; now apply HR].
  - exact H1.
  - exact I.
Qed.
Lemma sim_dtry {A B} (R : B -> B -> Prop) d d' (p : io A) f g :
  (forall a, sim R (f a) (g a)) -> sim R (dtry d p f) (dtry d' p g).
Proof. intros H. unfold dtry. apply sim_same. intros [a [e|]]; [apply sim_ret; discriminate|apply H]. Qed.
Lemma sim_keep {A} (a b : A) p : sim eq (keep a p) (keep b p).
Proof. unfold keep. apply sim_same. intros [x [e|]]; apply sim_ret; [discriminate|reflexivity]. Qed.
Lemma sim_wrap {A B} (c : A -> B) p q : sim eq p q -> sim eq (wrap c p) (wrap c q).
Proof.
  intros H. unfold wrap. apply (sim_bind eq _ _ _ _ _ H).
  - intros a b ->. now apply sim_ret.
  - intros a b e. apply sim_ret. discriminate.
Qed.
Ltac ret_done := first [apply sim_ret; first [discriminate | reflexivity | intros; congruence]].
Ltac by_err := intros [? [?|]]; ret_done.

Lemma Bytes_sim a b : sim eq (Bytes_UnmarshalABI a) (Bytes_UnmarshalABI b).
Proof. apply sim_dtry. intros l. apply sim_same. intros [[n d] [e|]]; ret_done. Qed.
Lemma Checksum_sim n a b : sim eq (Checksum_UnmarshalABI n a) (Checksum_UnmarshalABI n b).
Proof. apply sim_same. intros [[k d] [e|]]; ret_done. Qed.
Lemma Asset_sim a b : sim eq (Asset_UnmarshalABI a) (Asset_UnmarshalABI b).
Proof. apply sim_dtry. intros v. apply sim_refl. reflexivity. Qed.
Lemma ReadUint64_error env inp v e rest : run env ReadUint64 inp = Done (v, Some e) rest ->
  rest = [] /\ exists e', run env ReadUint64 rest = Done (0, Some e') [].
Proof.
  intros H. assert (rest = []) as ->; [|split; [reflexivity|eexists; reflexivity]].
  unfold ReadUint64, ReadBytes in H. change (make_ok 1 8) with true in H. cbn [Z.ltb Z.eqb Z.compare dbind run] in H.
  destruct (8 <=? zlen inp); cbn [run dbind] in H; congruence.
Qed.
Lemma Permission_sim a b : sim eq (PermissionLevel_UnmarshalABI a) (PermissionLevel_UnmarshalABI b).
Proof.
  intros env inp. unfold PermissionLevel_UnmarshalABI, Name_UnmarshalABI, keep. rewrite !run_dbind.
  destruct (run env ReadUint64 inp) as [[v [e|]] r|m|] eqn:H1; try reflexivity.
  - destruct (ReadUint64_error _ _ _ _ _ H1) as [-> [e' H2]]. cbn [run]. rewrite !run_dbind, H2. cbn. repeat split. discriminate.
  - cbn [run]. rewrite !run_dbind. destruct (run env ReadUint64 r) as [[w [e|]] r'|m|]; cbn; repeat split; discriminate.
Qed.
Lemma Header_sim a b : sim eq (TransactionHeader_UnmarshalABI a) (TransactionHeader_UnmarshalABI b).
Proof.
  unfold TransactionHeader_UnmarshalABI. eapply sim_bind; [apply sim_keep| |intros; ret_done].
  intros x y ->. cbv beta iota zeta.
  repeat (apply sim_same; intros [? [?|]]; [ret_done|]).
  ret_done.
Qed.
Lemma Ext_sim a b : sim eq (TransactionExtension_UnmarshalABI a) (TransactionExtension_UnmarshalABI b).
Proof.
  apply sim_same. intros [t [e|]]; [ret_done|]. eapply sim_bind; [apply Bytes_sim| |intros; ret_done].
  intros x y ->. ret_done.
Qed.
Lemma read_slice_sim {A} size z (f : A -> io A) a b : sim eq (read_slice size z f a) (read_slice size z f b).
Proof. apply sim_same. intros [l [e|]]; [ret_done|]. apply sim_refl. reflexivity. Qed.
Lemma Transaction_sim a b : sim eq (Transaction_UnmarshalABI a) (Transaction_UnmarshalABI b).
Proof.
  unfold Transaction_UnmarshalABI. eapply sim_bind; [apply Header_sim| |intros; ret_done].
  intros h ? <-. cbv beta iota zeta. eapply sim_bind; [apply read_slice_sim| |intros; ret_done].
  intros x ? <-. cbv beta iota zeta. eapply sim_bind; [apply read_slice_sim| |intros; ret_done].
  intros y ? <-. cbv beta iota zeta. eapply sim_bind; [apply read_slice_sim| |intros; ret_done].
  intros z ? <-. ret_done.
Qed.
Lemma PublicKey_sim a b : sim eq (PublicKey_UnmarshalABI a) (PublicKey_UnmarshalABI b).
Proof.
  apply sim_dtry. intros t. destruct ((t =? K1) || (t =? P1)); [apply sim_refl; reflexivity|].
  destruct (t =? WA); [|ret_done]. cbv zeta.
  repeat (apply sim_dtry; first [intros [? ?]|intros ?]). apply sim_refl. reflexivity.
Qed.
Lemma Signature_sim a b : sim eq (Signature_UnmarshalABI a) (Signature_UnmarshalABI b).
Proof.
  apply sim_dtry. intros t. destruct ((t =? K1) || (t =? P1)); [apply sim_refl; reflexivity|].
  destruct (t =? WA); [|ret_done]. cbv zeta.
  repeat (apply sim_dtry; first [intros [? ?]|intros ?]). apply sim_refl. reflexivity.
Qed.
Ltac leaf_step :=
  lazymatch goal with
  | |- sim _ (Bytes_UnmarshalABI _) _ => apply Bytes_sim
  | |- sim _ (Checksum_UnmarshalABI _ _) _ => apply Checksum_sim
  | |- sim _ (Asset_UnmarshalABI _) _ => apply Asset_sim
  | |- sim _ (PermissionLevel_UnmarshalABI _) _ => apply Permission_sim
  | |- sim _ (TransactionHeader_UnmarshalABI _) _ => apply Header_sim
  | |- sim _ (TransactionExtension_UnmarshalABI _) _ => apply Ext_sim
  | |- sim _ (Transaction_UnmarshalABI _) _ => apply Transaction_sim
  | |- sim _ (PublicKey_UnmarshalABI _) _ => apply PublicKey_sim
  | |- sim _ (Signature_UnmarshalABI _) _ => apply Signature_sim
  | |- sim _ (Uint64_UnmarshalABI _) _ => apply sim_keep
  | |- sim _ (BlockNum_UnmarshalABI _) _ => apply sim_keep
  | |- sim _ (Name_UnmarshalABI _) _ => apply sim_keep
  | |- sim _ (Symbol_UnmarshalABI _) _ => apply sim_keep
  | |- sim _ (TimePoint_UnmarshalABI _) _ => apply sim_keep
  | |- sim _ (TimePointSec_UnmarshalABI _) _ => apply sim_keep
  | |- sim _ (BlockTimestamp_UnmarshalABI _) _ => apply sim_keep
  | |- sim _ (DecodeByteSlice _) _ => apply sim_same; intros [l [e|]]; [ret_done|]; apply sim_refl; reflexivity
  | |- sim _ (Uint128_UnmarshalABI _) _ => apply sim_dtry; intros lo; apply sim_same; by_err
  | |- sim _ (Float128_UnmarshalABI _) _ => apply sim_same; intros [[n d] [e|]]; ret_done
  | |- sim _ (Action_UnmarshalABI _) _ => idtac
  | |- sim _ (ExtendedAsset_UnmarshalABI _) _ =>
      eapply sim_bind; [apply Asset_sim| |intros; ret_done]; intros x ? <-; cbv beta iota;
      eapply sim_bind; [apply sim_keep| |intros; ret_done]; intros y ? <-; ret_done
  | |- _ => apply sim_refl; intros; apply eq_refl
  end.
Lemma leaf_sim p q : kind_of p = kind_of q -> kind_of p <> KAction -> sim eq (read_prim p) (read_prim q).
Proof.
  intros K NA. destruct p, q; try discriminate K; cbn [read_prim]; apply sim_wrap; leaf_step.
  now elim NA.
Qed.

(** ** Types *)
Definition ow (E : types) (t : gtype) : Prop := forall pl pl' t', within E (pl, t) (pl', t') -> overwritten_here E t'.
Lemma within_place E a b : within E a b -> forall pl, exists pl', within E (pl, snd a) (pl', snd b).
Proof.
  induction 1 as [a|a b c P W IH]; intros pl; [exists pl; constructor|].
  assert (exists pl0, part E (pl, snd a) (pl0, snd b)) as [pl0 P0].
  { destruct P; cbn [snd]; eexists; econstructor; eassumption. }
  destruct (IH pl0) as [pl' W']. exists pl'. eapply wi_part; eassumption.
Qed.
Lemma overwritten_ow E t : overwritten E t -> ow E t.
Proof. intros H pl pl' t' W. destruct (within_place _ _ _ W Target) as [pl0 W0]. exact (H _ _ W0). Qed.
Lemma ow_self E t : ow E t -> overwritten_here E t.
Proof. intros H. apply (H Slot Slot). constructor. Qed.
Lemma ow_part E pl t pl' t' : ow E t -> part E (pl, t) (pl', t') -> ow E t'.
Proof.
  intros H P pl0 pl1 t1 W. destruct (within_place _ _ _ W pl') as [pl2 W2]. apply (H pl pl2). eapply wi_part; eassumption.
Qed.
Definition ow_fields (E : types) (fs : list (tag * visibility * gtype)) : Prop :=
  Forall (fun fd => snd (fst fd) = Exported /\ direct (snd fd) = true /\ ow E (snd fd)) fs.
Lemma ow_struct E t fs : head E t = TStruct fs -> ow E t -> ow_fields E fs.
Proof.
  intros H O. pose proof (ow_self _ _ O) as O0. unfold overwritten_here in O0. rewrite H in O0.
  apply Forall_forall. intros [[tg vis] t'] I. rewrite Forall_forall in O0. destruct (O0 _ I) as [-> D]. cbn [fst snd].
  split; [reflexivity|]. split; [exact D|]. eapply (ow_part _ Slot); [exact O|]. eapply pt_field; eassumption.
Qed.

Lemma zero_flags k : zero_flag_ok (zero_prim k) true.
Proof. split; [now rewrite zero_kind|]. destruct k; cbn; first [reflexivity|discriminate]. Qed.
Lemma repeat_typed E ok t v n : has_type E ok t v -> have_type E ok t (repeat v n).
Proof. intros H. induction n; cbn; now constructor. Qed.
Lemma zero_by_value_typed E (ok : prim -> Prop) : (forall k, ok (zero_prim k)) -> forall t, by_value t = true -> has_type E ok t (zero_of t).
Proof.
  intros OK. fix IH 1. intros t B. destruct t as [k|k| |t|t|n t|kt vt|fs|i u|i]; cbn [zero_of].
  - eapply ht_leaf; [reflexivity|apply zero_kind|apply zero_flags|apply OK].
  - eapply ht_int; [reflexivity|]. clear. destruct k; cbn; unfold in_u, in_i; lia.
  - now apply ht_other.
  - now apply (ht_nil _ _ _ t).
  - now apply (ht_nil_slice _ _ _ t).
  - apply (ht_array _ _ _ t n); [reflexivity| |now rewrite repeat_length]. apply repeat_typed. now apply IH.
  - now apply (ht_nil_map _ _ _ kt vt).
  - apply (ht_struct _ _ _ fs); [reflexivity|]. cbn [by_value] in B.
    revert fs B. fix IHf 1. intros [|[[tg vis] t] fs] B; [constructor|]. apply andb_prop in B as [B1 B2]. constructor.
    + now apply IH.
    + now apply IHf.
  - eapply ht_user; [reflexivity|]. now apply IH.
  - discriminate B.
Qed.
Lemma zero_of_typed E (ok : prim -> Prop) : (forall k, ok (zero_prim k)) -> forall t t0, head E t0 = t -> ow E t0 -> has_type E ok t0 (zero_of t).
Proof.
  intros OK. fix IH 1. intros t t0 H O. pose proof (ow_self _ _ O) as O0. unfold overwritten_here in O0.
  rewrite H in O0. destruct t as [k|k| |t|t|n t|kt vt|fs|i u|i]; cbn [zero_of].
  - eapply ht_leaf; [exact H|apply zero_kind|apply zero_flags|apply OK].
  - eapply ht_int; [exact H|]. clear. destruct k; cbn; unfold in_u, in_i; lia.
  - now apply ht_other.
  - now apply (ht_nil _ _ _ t).
  - now apply (ht_nil_slice _ _ _ t).
  - apply (ht_array _ _ _ t n); [exact H| |now rewrite repeat_length]. apply repeat_typed. apply IH.
    + destruct t; try reflexivity. discriminate O0.
    + eapply (ow_part _ Slot); [exact O|]. eapply pt_array; exact H.
  - now apply (ht_nil_map _ _ _ kt vt).
  - apply (ht_struct _ _ _ fs); [exact H|]. apply (ow_struct _ _ _ H) in O. clear H O0 t0.
    induction fs as [|[[tg vis] t] fs IHfs]; [constructor|].
    pose proof (Forall_inv O) as (V & D & O1). pose proof (Forall_inv_tail O) as O2. cbn [fst snd] in *. constructor.
    + apply IH; [|exact O1]. destruct t; try reflexivity. discriminate D.
    + exact (IHfs O2).
  - eapply ht_user; [exact H|]. apply zero_by_value_typed; [exact OK|apply O0].
  - elim O0.
Qed.
Lemma zero_typed E (ok : prim -> Prop) t : (forall k, ok (zero_prim k)) -> ow E t -> has_type E ok t (zero E t).
Proof. intros OK O. unfold zero. now apply zero_of_typed. Qed.
Lemma zero_storable k : storable (zero_prim k).
Proof. destruct k; exact I || reflexivity. Qed.

(** ** The loops *)
Lemma elems_sim E t f : (forall v w, has_type E storable t v -> has_type E storable t w -> sim same (f v) (f w)) ->
  forall l m, have_type E storable t l -> have_type E storable t m -> length l = length m ->
  sim same_list (get_elems f l) (get_elems f m).
Proof.
  intros Hf l. induction l as [|v l IH]; intros [|w m] L M N; try discriminate N; cbn [get_elems].
  - apply sim_ret. constructor.
  - inversion L; inversion M; subst. eapply sim_bind; [apply Hf; assumption| |intros; ret_done].
    intros a b R. cbv beta iota. eapply sim_bind; [apply IH; try assumption; now injection N| |intros; ret_done].
    intros a' b' R'. apply sim_ret. now constructor.
Qed.
Definition slice_type (E : types) (t : gtype) (size : Z) (o : option (list rval)) : Prop :=
  match o with None => True | Some l => have_type E storable t l /\ make_ok size (zlen l) = true end.
Lemma get_slice_sim E t size z f o o' :
  (forall v w, has_type E storable t v -> has_type E storable t w -> sim same (f v) (f w)) ->
  has_type E storable t z -> slice_type E t size o -> slice_type E t size o' ->
  sim (fun a b => same_list (elems a) (elems b)) (get_slice size z f o) (get_slice size z f o').
Proof.
  intros Hf Hz Ho Ho'. apply sim_same. intros [l [e|]]; [ret_done|]. set (n := i64 l).
  assert (Fresh : sim (fun a b => same_list (elems a) (elems b))
    ('(xs, err) <-- get_elems f (repeat z (Z.to_nat n)) ;; DRet (Some xs, err))
    ('(xs, err) <-- get_elems f (repeat z (Z.to_nat n)) ;; DRet (Some xs, err))).
  { eapply sim_bind; [apply (elems_sim E t f Hf); try reflexivity; now apply repeat_typed| |]; intros; [now apply sim_ret|ret_done]. }
  assert (One : forall l m, have_type E storable t l -> have_type E storable t m -> length l = length m ->
    sim (fun a b => same_list (elems a) (elems b))
    ('(xs, err) <-- get_elems f l ;; DRet (Some xs, err)) ('(xs, err) <-- get_elems f m ;; DRet (Some xs, err))).
  { intros l1 l2 T1 T2 L. eapply sim_bind; [apply (elems_sim E t f Hf); eassumption| |]; intros; [now apply sim_ret|ret_done]. }
  assert (T0 : have_type E storable t (repeat z (Z.to_nat n))) by now apply repeat_typed.
  assert (MK : make_ok size 0 = true) by reflexivity.
  unfold slice_type in *. clearbody n.
  destruct o as [c|], o' as [c'|]; cbn [elems] in *; change (zlen (@nil rval)) with 0.
  - destruct Ho as [T M], Ho' as [T' M'].
    destruct (Z.eqb_spec (zlen c) n) as [Z|Z], (Z.eqb_spec (zlen c') n) as [Z'|Z'].
    + apply One; try assumption. unfold zlen in *. lia.
    + rewrite <- Z, M in *. apply One; try assumption. rewrite repeat_length. unfold zlen. lia.
    + rewrite <- Z', M' in *. apply One; try assumption. rewrite repeat_length. unfold zlen. lia.
    + destruct (make_ok size n); [exact Fresh|]. intros env inp. reflexivity.
  - destruct Ho as [T M].
    destruct (Z.eqb_spec (zlen c) n) as [Z|Z], (Z.eqb_spec 0 n) as [Z'|Z'].
    + destruct c; [cbn [get_elems dbind]; apply sim_ret; constructor|unfold zlen in Z; cbn in Z; lia].
    + rewrite <- Z, M in *. apply One; try assumption. rewrite repeat_length. unfold zlen. lia.
    + rewrite <- Z', MK. cbn [Z.to_nat repeat get_elems dbind]. apply sim_ret. constructor.
    + destruct (make_ok size n); [exact Fresh|]. intros env inp. reflexivity.
  - destruct Ho' as [T M].
    destruct (Z.eqb_spec (zlen c') n) as [Z|Z], (Z.eqb_spec 0 n) as [Z'|Z'].
    + destruct c'; [cbn [get_elems dbind]; apply sim_ret; constructor|unfold zlen in Z; cbn in Z; lia].
    + rewrite <- Z, M in *. apply One; try assumption. rewrite repeat_length. unfold zlen. lia.
    + rewrite <- Z', MK. cbn [Z.to_nat repeat get_elems dbind]. apply sim_ret. constructor.
    + destruct (make_ok size n); [exact Fresh|]. intros env inp. reflexivity.
  - destruct (0 =? n); [apply sim_ret; constructor|]. destruct (make_ok size n); [exact Fresh|]. intros env inp. reflexivity.
Qed.

Definition at_type (E : types) (f : gtype -> rval -> io rval) (t : gtype) : Prop :=
  ow E t -> forall v w, has_type E storable t v -> has_type E storable t w -> sim same (f t v) (f t w).
Lemma through_sim E f t : (forall t, at_type E f t) -> at_type E (through E f) t.
Proof.
  intros Hf O v w V W. unfold through.
  assert (Z : forall t', head E t = TPtr t' -> forall x, has_type E storable t (RPtr x) ->
    has_type E storable t' match x with Some x => x | None => zero E t' end).
  { intros t' H x X. inversion X as [| | |? t1 H1|? t1 y H1 Y| | | | | | |]; subst; rewrite H in H1; injection H1 as <-; [|exact Y].
    apply zero_typed; [exact zero_storable|]. eapply (ow_part _ Slot); [exact O|]. eapply pt_ptr; exact H. }
  destruct (head E t) as [| | |t'| | | | | |] eqn:H; try (now apply Hf).
  assert (P : forall v, has_type E storable t v -> exists o, v = RPtr o) by (intros x X; inversion X; subst; try congruence; eauto).
  destruct (P _ V) as [o ->], (P _ W) as [o' ->].
  eapply sim_bind; [apply Hf; [eapply (ow_part _ Slot); [exact O|]; eapply pt_ptr; exact H| |]; apply (Z t' eq_refl); assumption
    |intros; apply sim_ret; now constructor|intros; ret_done].
Qed.

Lemma same_refl v : same v v. Proof. apply same_refl_all. Qed.
Lemma field_sim E f g tg vis t : vis = Exported -> (forall t, at_type E f t) -> (forall t, at_type E g t) ->
  at_type E (fun t => get_field E f g (tg, vis, t)) t.
Proof.
  intros -> Hf Hg O v w V W. cbn [get_field]. destruct tg.
  - now apply through_sim.
  - apply sim_same. intros [b [e|]]; [ret_done|]. destruct b; [now apply through_sim|]. apply sim_ret. intros; apply same_refl.
  - eapply sim_bind; [now apply (through_sim E f)| |].
    + intros; now apply sim_ret.
    + intros a b e; destruct e; first [apply sim_ret; discriminate | apply sim_ret; intros; apply same_refl].
  - now apply through_sim.
Qed.
Lemma fields_sim E f g : (forall t, at_type E f t) -> (forall t, at_type E g t) ->
  forall fs, ow_fields E fs -> forall l m, have_field_types E storable fs l -> have_field_types E storable fs m ->
  sim same_list (get_fields E f g fs l) (get_fields E f g fs m).
Proof.
  intros Hf Hg fs. induction fs as [|[[tg vis] t] fs IH]; intros O l m L M; inversion L; inversion M; subst; cbn [get_fields].
  - apply sim_ret. constructor.
  - inversion O as [|? ? (V & D & O1) O2]; subst. cbn [fst snd] in *.
    eapply sim_bind; [apply (field_sim E f g tg vis t V Hf Hg O1); assumption| |intros; ret_done].
    intros a b R. cbv beta iota. eapply sim_bind; [apply IH; assumption| |intros; ret_done].
    intros. apply sim_ret. now constructor.
Qed.

(** ** Variants *)
Lemma clear_sim E : forall fs, ow_fields E fs -> forall i l m, have_field_types E storable fs l -> have_field_types E storable fs m ->
  match clear_others E i fs l, clear_others E i fs m with
  | Some l', Some m' => forall x, 0 <= i < zlen fs -> same_list (replace_nth (Z.to_nat i) x l') (replace_nth (Z.to_nat i) x m')
  | None, None => True
  | _, _ => False
  end.
Proof.
  assert (G : forall fs, ow_fields E fs -> forall i l m, have_field_types E storable fs l -> have_field_types E storable fs m ->
  match clear_others E i fs l, clear_others E i fs m with
  | Some l', Some m' => (forall x, 0 <= i < zlen fs -> same_list (replace_nth (Z.to_nat i) x l') (replace_nth (Z.to_nat i) x m'))
                        /\ (~ 0 <= i < zlen fs -> same_list l' m')
  | None, None => True
  | _, _ => False
  end).
  2:{ intros fs O i l m L M. specialize (G fs O i l m L M). destruct (clear_others E i fs l), (clear_others E i fs m); try exact G. apply G. }
  induction fs as [|[[tg vis] t] fs IH]; intros O i l m L M; inversion L as [|? ? ? ? v l0 Tv Tl]; inversion M as [|? ? ? ? w m0 Tw Tm];
    subst; cbn [clear_others].
  - split; [|constructor]. intros x I. unfold zlen in I; cbn in I. lia.
  - inversion O as [|? ? (V & D & O1) O2]; subst. cbn [fst snd] in *. subst vis.
    specialize (IH O2 (i - 1) l0 m0 Tl Tm).
    destruct (clear_others E (i - 1) fs l0) as [l'|], (clear_others E (i - 1) fs m0) as [m'|]; try contradiction; [|exact I].
    assert (LEN : zlen ((tg, Exported, t) :: fs) = zlen fs + 1) by (unfold zlen; cbn [length]; lia).
    rewrite LEN. destruct (Z.eqb_spec i 0) as [->|N].
    { split; [|intros K; unfold zlen in K; lia]. intros x _. cbn [Z.to_nat replace_nth]. constructor; [apply same_refl|].
      apply IH. lia. }
    set (nilable := match head E t with
                    | TPtr _ | TSlice _ | TMap _ _ | TLeaf KGoBytes | TLeaf KBytes | TLeaf KBlob => true
                    | TUser _ (TSlice _) | TUser _ (TMap _ _) => true
                    | _ => false
                    end).
    destruct nilable eqn:NN; [|exact I].
    assert (ZV : forall v, has_type E storable t v -> is_zero v = true -> v = zero E t).
    { intros y Y Z. subst nilable. unfold zero.
      inversion Y as [? k p z H K [Z1 _] _| | | | | | | | | | |? n u a H Ha]; subst; try discriminate Z;
        match goal with H : head E t = _ |- _ => rewrite H in NN |- * end; cbn [zero_of]; try reflexivity; try discriminate NN.
      - cbn [is_zero] in Z. subst z. now rewrite <- (Z1 eq_refl).
      - pose proof (ow_self _ _ O1) as B. unfold overwritten_here in B. rewrite H in B. f_equal.
        now apply (proj1 (zero_by_value E storable)). }
    assert (RP : forall x a b, 0 <= i < zlen fs + 1 -> same a b ->
      same_list (replace_nth (Z.to_nat i) x (a :: l')) (replace_nth (Z.to_nat i) x (b :: m'))).
    { intros x a b Ii Sab. replace (Z.to_nat i) with (S (Z.to_nat (i - 1))) by lia. cbn [replace_nth]. constructor; [exact Sab|].
      apply IH. lia. }
    assert (PL : ~ 0 <= i < zlen fs + 1 -> same_list l' m') by (intros; apply IH; lia).
    destruct (is_zero v) eqn:Zv, (is_zero w) eqn:Zw; cbv beta iota zeta;
      repeat match goal with H : is_zero ?y = true |- _ => rewrite (ZV y) by assumption; clear H end;
      (split; [intros; apply RP; [assumption|apply same_refl]|intros; constructor; [apply same_refl|now apply PL]]).
Qed.
Lemma alternative_sim E f i fs l m : (forall t, at_type E f t) -> 0 <= i -> ow_fields E fs ->
  have_field_types E storable fs l -> have_field_types E storable fs m ->
  sim same_list (get_alternative E f i fs l) (get_alternative E f i fs m).
Proof.
  intros Hf N O L M. unfold get_alternative. destruct (zlen fs <=? i) eqn:B; [ret_done|].
  pose proof (clear_sim E fs O i l m L M) as C. destruct (clear_others E i fs l) as [l'|], (clear_others E i fs m) as [m'|]; try contradiction.
  2:{ intros env inp. reflexivity. }
  destruct (nth_error fs (Z.to_nat i)) as [[[tg vis] t]|] eqn:NE; [|intros env inp; reflexivity].
  assert (OF : vis = Exported).
  { apply nth_error_In in NE. unfold ow_fields in O. rewrite Forall_forall in O. apply (O _ NE). }
  destruct (head E t) eqn:H; try ret_done. apply sim_same. intros [x [e|]]; [ret_done|]. rewrite OF. apply sim_ret. intros _. apply C. lia.
Qed.

Lemma byte_elems_typed E b : have_type E storable (TLeaf KU8) (byte_elems b).
Proof.
  induction b as [|c b IH]; cbn [byte_elems map]; constructor; [|exact IH].
  apply (ht_leaf _ _ _ KU8); try reflexivity. split; [|reflexivity]. intros Z. cbn [kind_of zero_prim]. f_equal. lia.
Qed.
Lemma same_bytes l m : same_list l m -> map elem_byte l = map elem_byte m.
Proof. induction 1 as [|v w l m S _ IH]; [reflexivity|]. cbn [map]. rewrite IH. f_equal. destruct S; reflexivity. Qed.
Lemma u8_ow E : ow E (TLeaf KU8).
Proof.
  assert (G : forall a b, within E a b -> snd a = TLeaf KU8 -> snd b = TLeaf KU8).
  { induction 1 as [|a b c P W IH]; [auto|]. intros A. destruct P; cbn in A; subst; discriminate. }
  intros pl pl' t W. apply G in W; [|reflexivity]. cbn in W. subst. discriminate.
Qed.
Lemma leaf_read_sim p q : kind_of p = kind_of q -> kind_of p <> KAction -> sim same (leaf_read p) (leaf_read q).
Proof.
  intros K A. unfold leaf_read. eapply sim_bind; [now apply leaf_sim| |intros; ret_done].
  intros a b <-. apply sim_ret. intros _. apply same_refl.
Qed.
Definition fits (m : mode) : Prop := match m with Alt i => 0 <= i | _ => True end.
Lemma sim_run {A} (R : A -> A -> Prop) p p' q q' : (forall env inp, run env p inp = run env p' inp) ->
  (forall env inp, run env q inp = run env q' inp) -> sim R p' q' -> sim R p q.
Proof. intros H1 H2 S env inp. rewrite H1, H2. apply S. Qed.
Lemma whole_table fuel E t k p z : head E t = TLeaf k -> table_kind k = true -> forall env inp,
  run env (decode (S fuel) E chain_decoder Whole t (RLeaf p z)) inp = run env (leaf_read p) inp.
Proof.
  intros H T env inp. cbn [decode]. rewrite H. cbn [chain_decoder]. rewrite T, !run_dbind.
  destruct (run env (leaf_read p) inp) as [[v e] r|m|]; reflexivity.
Qed.
Lemma whole_other fuel E t k p z : head E t = TLeaf k -> table_kind k = false ->
  decode (S fuel) E chain_decoder Whole t (RLeaf p z)
  = if go_kind k then leaf_read p else decode fuel E chain_decoder Deref t (RLeaf p z).
Proof. intros H T. cbn [decode]. rewrite H. cbn [chain_decoder]. now rewrite T. Qed.
Lemma leaf_inv E t k v : head E t = TLeaf k -> has_type E storable t v ->
  exists p z, v = RLeaf p z /\ kind_of p = k /\ storable p.
Proof. intros H V. inversion V; subst; try congruence. rewrite H in H0. injection H0 as ->. eauto. Qed.
Lemma bytes_sim E f b c (z z' : bool) : make_ok 1 (zlen b) = true -> make_ok 1 (zlen c) = true -> (forall t, at_type E f t) ->
  sim same ('(o, err) <-- get_slice 1 (zero_of (TLeaf KU8)) (f (TLeaf KU8)) (if z then None else Some (byte_elems b)) ;;
            DRet (byte_slice o, err))
           ('(o, err) <-- get_slice 1 (zero_of (TLeaf KU8)) (f (TLeaf KU8)) (if z' then None else Some (byte_elems c)) ;;
            DRet (byte_slice o, err)).
Proof.
  intros B C Hf.
  assert (L : forall b, zlen (byte_elems b) = zlen b) by (intros; unfold zlen, byte_elems; now rewrite map_length).
  eapply sim_bind.
  - apply (get_slice_sim E (TLeaf KU8)).
    + intros; apply Hf; [apply u8_ow|assumption|assumption].
    + apply (zero_of_typed E storable zero_storable (TLeaf KU8) (TLeaf KU8)); [reflexivity|apply u8_ow].
    + destruct z; [exact I|split; [apply byte_elems_typed|now rewrite L]].
    + destruct z'; [exact I|split; [apply byte_elems_typed|now rewrite L]].
  - intros o o' S. apply sim_ret. intros _. apply same_bytes in S. destruct o, o'; cbn [elems byte_slice map] in *; rewrite ?S, <- ?S; constructor.
  - intros; ret_done.
Qed.
Definition deref_leaf (f : gtype -> rval -> io rval) (p : prim) (z : bool) (old : rval) : io rval :=
  match p with
  | PU64 _ | PU32 _ | PI64 _ | PI32 _ =>
      '(v, err) <-- leaf_read p ;; DRet (match err with None => v | Some _ => old end, err)
  | PGoBytes b =>
      '(o, err) <-- get_slice 1 (zero_of (TLeaf KU8)) (f (TLeaf KU8)) (if z then None else Some (byte_elems b)) ;;
      DRet (byte_slice o, err)
  | _ => DRet (old, Some (ErrMsg "abi: unsupported type"))
  end.
Lemma number_sim p q old old' : kind_of p = kind_of q -> kind_of p <> KAction ->
  sim same ('(v, err) <-- leaf_read p ;; DRet (match err with None => v | Some _ => old end, err))
           ('(v, err) <-- leaf_read q ;; DRet (match err with None => v | Some _ => old' end, err)).
Proof.
  intros K N. eapply sim_bind; [apply leaf_read_sim; assumption|intros; now apply sim_ret|intros; ret_done].
Qed.
Lemma deref_leaf_sim E f p q z z' old old' : (forall t, at_type E f t) -> kind_of p = kind_of q -> storable p -> storable q ->
  sim same (deref_leaf f p z old) (deref_leaf f q z' old').
Proof.
  intros Hf K Sp Sq. destruct p; destruct q; try discriminate K; cbn [deref_leaf];
  lazymatch goal with
  | |- sim _ (DRet _) _ => apply sim_ret; discriminate
  | |- sim _ (dbind (leaf_read _) _) _ => apply number_sim; [reflexivity|discriminate]
  | |- _ => apply (bytes_sim E); assumption
  end.
Qed.
Lemma sim_same_byte {A} (R : A -> A -> Prop) a b f g : (forall i, 0 <= i -> sim R (f i) (g i)) ->
  sim R ('(i, err) <-- ReadByte ;; match err with Some e => DRet (a, Some e) | None => f i end)
        ('(i, err) <-- ReadByte ;; match err with Some e => DRet (b, Some e) | None => g i end).
Proof.
  intros H env inp. rewrite !run_dbind. destruct (run env ReadByte inp) as [[i [e|]] r|m|] eqn:RB; try reflexivity.
  - cbn. repeat split. discriminate.
  - apply H. unfold ReadByte, ReadBytes in RB. change (make_ok 1 1) with true in RB. cbn [Z.ltb Z.eqb Z.compare dbind run] in RB.
    destruct (1 <=? zlen inp); [|discriminate RB]. cbn [run dbind] in RB. destruct (firstn (Z.to_nat 1) inp) as [|c l]; [discriminate RB|].
    cbn [run] in RB. injection RB as <- _. apply zb_range.
Qed.
Lemma decode_sim E : forall fuel m t, fits m -> at_type E (decode fuel E chain_decoder m) t.
Proof.
  induction fuel as [|fuel IH]; intros m t FM O v w V W; [intros env inp; exact I|].
  pose proof (ow_self _ _ O) as O0. unfold overwritten_here in O0.
  assert (HW : forall t, at_type E (decode fuel E chain_decoder Whole) t) by (intros; now apply IH).
  assert (HD : forall t, at_type E (decode fuel E chain_decoder Deref) t) by (intros; now apply IH).
  assert (HA : forall i t, 0 <= i -> at_type E (decode fuel E chain_decoder (Alt i)) t) by (intros; now apply IH).
  destruct m as [| |i].
  - destruct (head E t) as [k|k| |t'|t'|n t'|kt vt|fs|j u|j] eqn:H.
    1:{ destruct (leaf_inv _ _ _ _ H V) as (p & z & -> & Kp & Sp). destruct (leaf_inv _ _ _ _ H W) as (q & z' & -> & Kq & Sq).
        destruct (table_kind k) eqn:T.
        - eapply sim_run; [intros; eapply whole_table; eassumption|intros; eapply whole_table; eassumption|].
          apply leaf_read_sim; congruence.
        - rewrite !(whole_other _ _ _ _ _ _ H T). destruct (go_kind k); [apply leaf_read_sim; congruence|now apply HD]. }
    all: rewrite !decode_whole by (intros; congruence); now apply HD.
  - cbn [decode]. destruct (head E t) as [k|k| |t'|t'|n t'|kt vt|fs|j u|j] eqn:H.
    + destruct (leaf_inv _ _ _ _ H V) as (p & z & -> & Kp & Sp). destruct (leaf_inv _ _ _ _ H W) as (q & z' & -> & Kq & Sq).
      destruct (go_kind k); [|apply leaf_read_sim; congruence].
      apply (deref_leaf_sim E (decode fuel E chain_decoder Whole) _ _ z z'); try assumption. congruence.
    + inversion V; subst; try congruence. inversion W; subst; try congruence.
      eapply sim_bind; [apply sim_keep|intros a ? <-; apply sim_ret; intros; apply same_refl|intros; ret_done].
    + inversion V; subst; try congruence. inversion W; subst; try congruence. ret_done.
    + inversion V; subst; try congruence; inversion W; subst; try congruence; now apply (through_sim E _ t HD).
    + assert (Ht : ow E t') by (eapply (ow_part _ Slot); [exact O|]; eapply pt_slice; exact H).
      assert (G : forall v, has_type E storable t v -> exists o, v = RSlice o /\ slice_type E t' (size_of E t') o).
      { intros x X. inversion X; subst; try congruence; eexists; (split; [reflexivity|]); [exact I|].
        match goal with K : head E t = TSlice ?a |- _ => rewrite H in K; injection K as <- end. now split. }
      destruct (G _ V) as (o & -> & To), (G _ W) as (o' & -> & To').
      eapply sim_bind; [apply (get_slice_sim E t')| |intros; ret_done].
      * intros; now apply (through_sim E _ t' HW).
      * apply zero_typed; [exact zero_storable|exact Ht].
      * exact To.
      * exact To'.
      * intros a b S. apply sim_ret. intros _. now constructor.
    + assert (Ht : ow E t') by (eapply (ow_part _ Slot); [exact O|]; eapply pt_array; exact H).
      assert (G : forall v, has_type E storable t v -> exists l, v = RArray l /\ have_type E storable t' l /\ length l = n).
      { intros x X. inversion X; subst; try congruence.
        match goal with K : head E t = TArray _ ?a |- _ => rewrite H in K; injection K as -> -> end. eauto. }
      destruct (G _ V) as (l & -> & Tl & Ll), (G _ W) as (l' & -> & Tl' & Ll').
      eapply sim_bind; [apply (elems_sim E t')| |intros; ret_done].
      * intros; now apply (through_sim E _ t' HW).
      * exact Tl.
      * exact Tl'.
      * congruence.
      * intros a b S. apply sim_ret. intros _. now constructor.
    + assert (G : forall v, has_type E storable t v -> exists o, v = RMap o) by (intros x X; inversion X; subst; try congruence; eauto).
      destruct (G _ V) as (o & ->), (G _ W) as (o' & ->).
      eapply (sim_bind eq).
      * unfold get_map. apply sim_same. intros [l [e|]]; [ret_done|]. apply sim_refl. reflexivity.
      * intros a ? <-. apply sim_ret. intros; apply same_refl.
      * intros; ret_done.
    + apply (ow_struct _ _ _ H) in O.
      assert (G : forall v, has_type E storable t v -> exists l, v = RStruct l /\ have_field_types E storable fs l).
      { intros x X. inversion X; subst; try congruence.
        match goal with K : head E t = TStruct _ |- _ => rewrite H in K; injection K as -> end. eauto. }
      destruct (G _ V) as (l & -> & Tl), (G _ W) as (l' & -> & Tl').
      eapply sim_bind; [apply fields_sim; try eassumption| |intros; ret_done].
      * intros t1 O1 v1 w1 V1 W1. cbv beta. apply sim_same_byte. intros i I. now apply HA.
      * intros a b S. apply sim_ret. intros _. now constructor.
    + assert (G : forall v, has_type E storable t v -> exists x, v = RUser x /\ has_type E storable u x).
      { intros x X. inversion X; subst; try congruence.
        match goal with K : head E t = TUser _ _ |- _ => rewrite H in K; injection K as -> -> end. eauto. }
      destruct (G _ V) as (a & -> & Ta), (G _ W) as (b & -> & Tb).
      eapply sim_bind; [intros env inp; now apply O0| |intros; ret_done].
      intros x y S. apply sim_ret. intros _. now constructor.
    + elim O0.
  - cbn [fits] in FM. cbn [decode]. destruct (head E t) as [k|k| |t'|t'|n t'|kt vt|fs|j u|j] eqn:H.
    + destruct (leaf_inv _ _ _ _ H V) as (p & z & -> & Kp & Sp). destruct (leaf_inv _ _ _ _ H W) as (q & z' & -> & Kq & Sq).
      destruct (go_kind k); [ret_done|apply leaf_read_sim; congruence].
    + inversion V; subst; try congruence; inversion W; subst; try congruence; ret_done.
    + inversion V; subst; try congruence; inversion W; subst; try congruence; ret_done.
    + inversion V; subst; try congruence; inversion W; subst; try congruence; now apply (through_sim E _ t (fun t => HA i t FM)).
    + inversion V; subst; try congruence; inversion W; subst; try congruence; ret_done.
    + inversion V; subst; try congruence; inversion W; subst; try congruence; ret_done.
    + inversion V; subst; try congruence; inversion W; subst; try congruence; ret_done.
    + apply (ow_struct _ _ _ H) in O.
      assert (G : forall v, has_type E storable t v -> exists l, v = RStruct l /\ have_field_types E storable fs l).
      { intros x X. inversion X; subst; try congruence.
        match goal with K : head E t = TStruct _ |- _ => rewrite H in K; injection K as -> end. eauto. }
      destruct (G _ V) as (l & -> & Tl), (G _ W) as (l' & -> & Tl').
      eapply sim_bind; [apply alternative_sim; eassumption| |intros; ret_done].
      intros a b S. apply sim_ret. intros _. now constructor.
    + assert (G : forall v, has_type E storable t v -> exists x, v = RUser x /\ has_type E storable u x).
      { intros x X. inversion X; subst; try congruence.
        match goal with K : head E t = TUser _ _ |- _ => rewrite H in K; injection K as -> -> end. eauto. }
      destruct (G _ V) as (a & -> & Ta), (G _ W) as (b & -> & Tb).
      eapply sim_bind; [intros env inp; now apply O0| |intros; ret_done].
      intros x y S. apply sim_ret. intros _. now constructor.
    + elim O0.
Qed.

Lemma overwrite E t old old' fuel env inp : overwritten E t -> has_type E storable t old -> has_type E storable t old' ->
  same_result same (run env (Decode fuel E t old) inp) (run env (Decode fuel E t old') inp).
Proof. intros O V W. apply (decode_sim E fuel Whole t I); [now apply overwritten_ow|assumption|assumption]. Qed.
