(** The generated UnmarshalABI accepts what the reflective decoder accepts. *)
From Verif Require Import Base Prog AbiPrim BaseProofs SpecWire ProgProofs AbiPrimProofs Chain SpecChain ChainProofs
  Values Leaf SpecLeaf LeafProofs SpecText GoStd GoStdProofs Reflect SpecReflect SpecStrict ReflectProofs ReflectOverwrite SpecCodegen Codegen CodegenText CodegenWrite.

(** ** Decoders that succeed on the same inputs *)
Definition failed {A} (o : outcome (A * option gerr)) : Prop :=
  match o with Done (_, Some _) _ | Crash _ => True | _ => False end.
(** If [r] comes to an end so does [g], with success in the same cases. *)
Definition rel {A B} (R : A -> B -> Prop) (r : outcome (A * option gerr)) (g : outcome (B * option gerr)) : Prop :=
  match r with
  | Diverged => True
  | Done (v, None) rest => exists v', g = Done (v', None) rest /\ R v v'
  | _ => failed g
  end.
Definition rrel {A B} (R : A -> B -> Prop) (p : io A) (q : io B) : Prop := forall env inp, rel R (run env p inp) (run env q inp).
Definition halts {A} (p : io A) : Prop := match p with DRet (_, Some _) => True | DPanic _ => True | _ => False end.
Lemma halts_failed {A} env (p : io A) inp : halts p -> failed (run env p inp).
Proof. destruct p as [[a [e|]]|m| | |]; cbn; tauto. Qed.
Lemma failed_bind {A B} env (q : io A) (g : A * option gerr -> io B) inp : (forall a e, halts (g (a, Some e))) ->
  failed (run env q inp) -> failed (run env (dbind q g) inp).
Proof.
  intros H F. rewrite run_dbind. destruct (run env q inp) as [[a [e|]] rest|m|]; cbn [failed] in F; try contradiction; [|exact I].
  apply halts_failed, H.
Qed.
Lemma rrel_bind {A A' B B'} (R : A -> A' -> Prop) (R' : B -> B' -> Prop) p q (f : A * option gerr -> io B) (g : A' * option gerr -> io B') :
  rrel R p q -> (forall a a', R a a' -> rrel R' (f (a, None)) (g (a', None))) ->
  (forall a e, halts (f (a, Some e))) -> (forall a e, halts (g (a, Some e))) -> rrel R' (dbind p f) (dbind q g).
Proof.
  intros H K Hf Hg env inp. specialize (H env inp). rewrite run_dbind.
  destruct (run env p inp) as [[a [e|]] rest|m|] eqn:Rp; cbn [rel] in H.
  - assert (X : failed (run env (f (a, Some e)) rest)) by apply halts_failed, Hf.
    pose proof (failed_bind env q g inp Hg H) as Y.
    destruct (run env (f (a, Some e)) rest) as [[b [e'|]] r|m|]; cbn [failed] in X; try contradiction; exact Y.
  - destruct H as (a' & Hq & Ha). rewrite run_dbind, Hq. now apply K.
  - exact (failed_bind env q g inp Hg H).
  - exact I.
Qed.
Lemma rrel_ret {A B} (R : A -> B -> Prop) a b : R a b -> rrel R (DRet (a, None)) (DRet (b, None)).
Proof. intros H env inp. cbn. now exists b. Qed.
Lemma rrel_same {A} (p : io A) : rrel eq p p.
Proof. intros env inp. destruct (run env p inp) as [[a [e|]] rest|m|]; cbn; auto. now exists a. Qed.
Lemma rrel_right {A B B'} (R : A -> B -> Prop) (R' : A -> B' -> Prop) p q (g : B * option gerr -> io B') :
  rrel R p q -> (forall a b, R a b -> exists b', g (b, None) = DRet (b', None) /\ R' a b') ->
  (forall b e, halts (g (b, Some e))) -> rrel R' p (dbind q g).
Proof.
  intros H K Hg env inp. specialize (H env inp).
  destruct (run env p inp) as [[a [e|]] rest|m|] eqn:Rp; cbn [rel] in H |- *.
  - exact (failed_bind env q g inp Hg H).
  - destruct H as (b & Hq & Hb). destruct (K a b Hb) as (b' & Gb & Rb). rewrite run_dbind, Hq, Gb. now exists b'.
  - exact (failed_bind env q g inp Hg H).
  - exact I.
Qed.
Lemma rrel_fuel {A B} (R : A -> B -> Prop) q : rrel R DFuel q.
Proof. intros env inp. exact I. Qed.
Lemma rrel_weaken {A B} (R R' : A -> B -> Prop) p q : (forall a b, R a b -> R' a b) -> rrel R p q -> rrel R' p q.
Proof.
  intros H K env inp. specialize (K env inp). destruct (run env p inp) as [[a [e|]] rest|m|]; cbn [rel] in *; auto.
  destruct K as (v' & -> & Rv). exists v'. auto.
Qed.

(** ** Elements *)
Definition el_read_code (t : gtype) : stmt :=
  match own_kind t with
  | Some k => SRead k {| star := false; index := true |}
  | None => SUnmarshal {| star := false; index := true |}
  end.
Lemma replace_middle {A} (pre post : list A) x y : replace_nth (length pre) x (pre ++ y :: post) = pre ++ x :: post.
Proof. induction pre as [|a pre IH]; [reflexivity|]. cbn [length app replace_nth]. now rewrite IH. Qed.
Lemma nth_middle {A} (pre post : list A) y : nth_error (pre ++ y :: post) (length pre) = Some y.
Proof. rewrite nth_error_app2 by lia. now rewrite Nat.sub_diag. Qed.

(** Slices and arrays. *)
Inductive indexed : (list rval -> rval) -> Prop :=
| ix_slice : indexed (fun l => RSlice (Some l))
| ix_array : indexed RArray.
Lemma indexed_elements mk l : indexed mk -> elements (mk l) = Ok l.
Proof. intros []; reflexivity. Qed.
Lemma indexed_assign mk pre x y post : indexed mk -> assign true (length pre) (mk (pre ++ y :: post)) x = Ok (mk (pre ++ x :: post)).
Proof.
  intros I. unfold assign. rewrite (indexed_elements mk _ I). cbn [rbind].
  replace (length pre <? length (pre ++ y :: post))%nat with true by (rewrite app_length; cbn [length]; symmetry; apply Nat.ltb_lt; lia).
  rewrite replace_middle. destruct I; reflexivity.
Qed.
Lemma indexed_value mk pre y post : indexed mk -> value_at {| star := false; index := true |} (length pre) (mk (pre ++ y :: post)) = Ok y.
Proof. intros I. unfold value_at. cbn [star index rbind]. rewrite (indexed_elements mk _ I). cbn [rbind]. now rewrite nth_middle. Qed.

Lemma scalar_whole m E k p z : go_kind k = true ->
  decode (S m) E chain_decoder Whole (TLeaf k) (RLeaf p z) = leaf_read p.
Proof. intros G. cbn [decode head chain_decoder]. assert (T : table_kind k = false) by (destruct k; try discriminate G; reflexivity). rewrite T. cbn [dbind]. now rewrite G. Qed.

Lemma halts_store (r : res rval) e : halts (dwith r (fun v => DRet (v, Some e))).
Proof. destruct r; exact I. Qed.

(** Equal but for slices that are nil on one side and empty on the other. *)
Inductive near : rval -> rval -> Prop :=
| nr_eq v : near v v
| nr_ptr v v' : near v v' -> near (RPtr (Some v)) (RPtr (Some v'))
| nr_slice o o' : near_list (elems o) (elems o') -> near (RSlice o) (RSlice o')
| nr_array l l' : near_list l l' -> near (RArray l) (RArray l')
| nr_struct l l' : near_list l l' -> near (RStruct l) (RStruct l')
with near_list : list rval -> list rval -> Prop :=
| nrl_nil : near_list [] []
| nrl_cons v v' l l' : near v v' -> near_list l l' -> near_list (v :: l) (v' :: l').
Scheme near_mind := Induction for near Sort Prop with near_list_mind := Induction for near_list Sort Prop.
Combined Scheme near_all from near_mind, near_list_mind.
Lemma near_same_all : (forall v v', near v v' -> same v v') /\ (forall l l', near_list l l' -> same_list l l').
Proof. apply near_all; intros; try (now constructor). apply same_refl. Qed.
Lemma near_same v v' : near v v' -> same v v'.
Proof. apply near_same_all. Qed.
Lemma near_comparable_all E ok :
  (forall v v', near v v' -> forall t, has_type E ok t v -> comparable t = true -> v' = v)
  /\ (forall l l', near_list l l' -> (forall t, have_type E ok t l -> comparable t = true -> l' = l)
      /\ (forall fs, have_field_types E ok fs l -> fields_comparable fs = true -> l' = l)).
Proof.
  apply near_all.
  - reflexivity.
  - intros v v' _ IH t T C. exfalso. inversion T; subst. match goal with H : head E t = _ |- _ => rewrite (comparable_head E) in H by assumption; subst t; discriminate C end.
  - intros o o' _ _ t T C. exfalso. inversion T; subst; match goal with H : head E t = _ |- _ => rewrite (comparable_head E) in H by assumption; subst t; discriminate C end.
  - intros l l' _ [IH _] t T C. inversion T; subst. match goal with H : head E t = _ |- _ => rewrite (comparable_head E) in H by assumption; subst t end.
    f_equal. eapply IH; eassumption.
  - intros l l' _ [_ IH] t T C. inversion T; subst. match goal with H : head E t = _ |- _ => rewrite (comparable_head E) in H by assumption; subst t end.
    f_equal. eapply IH; eassumption.
  - split; reflexivity.
  - intros v v' l l' _ IHv _ [IH1 IH2]. split.
    + intros t T C. inversion T; subst. f_equal; [eapply IHv; eassumption|eapply IH1; eassumption].
    + intros fs T C. inversion T; subst. cbn [fields_comparable] in C. apply andb_prop in C as [C1 C2].
      f_equal; [eapply IHv; eassumption|eapply IH2; eassumption].
Qed.
Lemma near_comparable E ok t v v' : near v v' -> has_type E ok t v -> comparable t = true -> v' = v.
Proof. intros N. now apply (proj1 (near_comparable_all E ok)). Qed.

(** What holds of nested methods. *)
Definition methods_agree (E : types) (good : gtype -> Prop) (m n : nat) : Prop :=
  forall m' t, (m' <= m)%nat -> with_methods E t -> good t ->
  rrel near (decode m' E chain_decoder Whole t (zero E t)) (UnmarshalABI n E t (zero E t)).

Lemma through_whole E f t v : (forall u, head E t <> TPtr u) -> through E f t v = f t v.
Proof. intros N. unfold through. destruct (head E t); try reflexivity. now elim (N g). Qed.
Lemma unmarshal_step unm E t i p v x u : value_at p i v = Ok x -> place_type E p t = Some u -> (forall w, u <> TPtr w) ->
  exec_read unm E t i (SUnmarshal p) v = ('(x, err) <-- unm u x ;; dwith (assign_star p i v x) (fun v => DRet (v, err))).
Proof. intros V P N. cbn [exec_read]. rewrite V, P. destruct u; try (destruct x; reflexivity). now elim (N u). Qed.
Lemma element_body E (good : gtype -> Prop) m n t u mk pre post : methods_agree E good m n -> good u ->
  scalar u \/ with_methods E u -> indexed mk -> place_type E {| star := false; index := true |} t = Some u ->
  rrel (fun x v => exists x', v = mk (pre ++ x' :: post) /\ near x x')
    (through E (decode m E chain_decoder Whole) u (zero E u))
    (exec_read (UnmarshalABI n E) E t (length pre) (el_read_code u) (mk (pre ++ zero E u :: post))).
Proof.
  intros MA G EL IX P. destruct EL as [(k & -> & GK & NB)|W].
  - rewrite through_whole by discriminate. destruct m as [|m]; [apply rrel_fuel|].
    unfold zero. cbn [head zero_of]. rewrite scalar_whole by exact GK. unfold el_read_code. cbn [own_kind]. rewrite GK. cbn [exec_read].
    unfold leaf_read. apply rrel_bind with (R := eq); [apply rrel_same| | |].
    + intros q q' <-. cbn [index]. rewrite (indexed_assign mk pre _ _ post IX). cbn [dwith]. apply rrel_ret. eexists. split; [reflexivity|constructor].
    + intros q e. exact I.
    + intros q e. apply halts_store.
  - assert (NP : forall w, head E u <> TPtr w) by (intros w Hw; unfold with_methods in W; now rewrite Hw in W).
    rewrite through_whole by exact NP. unfold el_read_code.
    destruct (own_kind u) as [k|] eqn:O; [destruct (own_no_methods _ _ _ O W)|].
    rewrite (unmarshal_step (UnmarshalABI n E) E t _ _ _ (zero E u) u);
      [|exact (indexed_value mk pre _ post IX)|exact P|intros w ->; now apply (NP w)].
    eapply rrel_right; [apply (MA m u); [lia|exact W|exact G]| |].
    + intros x x' S. cbv beta iota. unfold assign_star. cbn [star index]. rewrite (indexed_assign mk pre _ _ post IX). cbn [dwith].
      eexists. split; [reflexivity|]. now exists x'.
    + intros x e. apply halts_store.
Qed.

(** The loops. *)
Lemma elements_loop E (good : gtype -> Prop) m n t u mk : methods_agree E good m n -> good u ->
  scalar u \/ with_methods E u -> indexed mk -> place_type E {| star := false; index := true |} t = Some u ->
  forall k pre, rrel (fun xs v => exists xs', v = mk (pre ++ xs') /\ near_list xs xs')
    (get_elems (through E (decode m E chain_decoder Whole) u) (repeat (zero E u) k))
    (for_read (fun i v => exec_read (UnmarshalABI n E) E t i (el_read_code u) v) k (length pre) (mk (pre ++ repeat (zero E u) k))).
Proof.
  intros MA G EL IX P. induction k as [|k IH]; intros pre; cbn [repeat get_elems for_read].
  - apply rrel_ret. exists []. split; [reflexivity|constructor].
  - eapply rrel_bind; [exact (element_body E good m n t u mk pre (repeat (zero E u) k) MA G EL IX P)| | |].
    + intros x v (x' & -> & S). cbv beta iota.
      specialize (IH (pre ++ [x'])). rewrite app_length in IH. cbn [length] in IH. rewrite Nat.add_1_r in IH.
      rewrite <- app_assoc in IH. cbn [app] in IH.
      intros env inp. specialize (IH env inp). rewrite run_dbind.
      destruct (run env (get_elems _ _) inp) as [[xs [e|]] rest|msg|]; cbn [rel run] in IH |- *; try exact IH.
      destruct IH as (v' & -> & xs' & -> & SL). eexists. split; [reflexivity|]. exists (x' :: xs'). split; [now rewrite <- app_assoc|now constructor].
    + intros x e. exact I.
    + intros v e. exact I.
Qed.

(** []byte, one byte at a time. *)
Lemma read_uint8 env c inp : run env ReadUint8 (c :: inp) = Done (zb c, None) inp.
Proof. unfold ReadUint8, dtry. rewrite run_dbind, run_ReadByte_cons. reflexivity. Qed.
Lemma read_uint8_nil env : exists e, run env ReadUint8 [] = Done (0, Some e) [].
Proof. eexists. unfold ReadUint8, dtry. rewrite run_dbind, run_ReadByte_nil. reflexivity. Qed.
Definition byte_code : stmt := SRead KU8 {| star := false; index := true |}.
Lemma map_elem_byte b : map elem_byte (byte_elems b) = b.
Proof. unfold byte_elems. rewrite map_map. rewrite <- (map_id b) at 2. apply map_ext. intros x. apply bz_zb. Qed.
Lemma byte_assign pre c post x : assign true (length pre) (RLeaf (PGoBytes (pre ++ c :: post)) false) (RLeaf (PU8 (zb x)) (leaf_zero (PU8 (zb x))))
  = Ok (RLeaf (PGoBytes (pre ++ x :: post)) false).
Proof.
  unfold assign. cbn [elements rbind].
  replace (length pre <? length (byte_elems (pre ++ c :: post)))%nat with true
    by (unfold byte_elems; rewrite map_length, app_length; cbn [length]; symmetry; apply Nat.ltb_lt; lia).
  f_equal. f_equal. f_equal. change (RLeaf (PU8 (zb x)) (leaf_zero (PU8 (zb x)))) with (RLeaf (PU8 (zb x)) (zb x =? 0)).
  assert (Q : forall p : list byte, replace_nth (length p) (RLeaf (PU8 (zb x)) (zb x =? 0)) (byte_elems (p ++ c :: post)) = byte_elems (p ++ x :: post)).
  { induction p as [|d p IH]; [reflexivity|]. cbn [length app byte_elems map replace_nth]. f_equal. exact IH. }
  rewrite Q. apply map_elem_byte.
Qed.
Lemma bytes_loop E unm env : forall k pre inp,
  let o := run env (for_read (fun i v => exec_read unm E (TLeaf KGoBytes) i byte_code v) k (length pre) (RLeaf (PGoBytes (pre ++ zeros k)) false)) inp in
  if (k <=? length inp)%nat then o = Done (RLeaf (PGoBytes (pre ++ firstn k inp)) false, None) (skipn k inp) else failed o.
Proof.
  induction k as [|k IH]; intros pre inp; cbn [for_read].
  - cbn. reflexivity.
  - cbn zeta. rewrite run_dbind. unfold byte_code at 1 3. cbn [exec_read zero_prim read_prim]. unfold wrap. rewrite !run_dbind.
    destruct inp as [|c inp].
    + cbn [length]. replace (S k <=? 0)%nat with false by reflexivity. destruct (read_uint8_nil env) as (e & ->). cbn [run].
      set (r := assign _ _ _ _). destruct r; cbn; exact I.
    + rewrite read_uint8. cbn [run index]. change (zeros (S k)) with (x00 :: zeros k).
      rewrite byte_assign. cbn [dwith run].
      specialize (IH (pre ++ [c]) inp). cbn zeta in IH. rewrite app_length in IH. cbn [length] in IH. rewrite Nat.add_1_r in IH.
      rewrite <- !app_assoc in IH. cbn [app] in IH. cbn [length firstn skipn].
      change (S k <=? S (length inp))%nat with (k <=? length inp)%nat. destruct (k <=? length inp)%nat; exact IH.
Qed.
Lemma bytes_field E unm m : forall f : gtype -> rval -> io rval, (forall p z, f (TLeaf KGoBytes) (RLeaf p z) = decode m E chain_decoder Whole (TLeaf KGoBytes) (RLeaf p z)) ->
  rrel near (f (TLeaf KGoBytes) (RLeaf (PGoBytes []) true))
    (exec_read unm E (TLeaf KGoBytes) 0 (SReadSlice byte_code) (RLeaf (PGoBytes []) true)).
Proof.
  intros f Hf. rewrite Hf. destruct m as [|m]; [apply rrel_fuel|]. rewrite scalar_whole by reflexivity.
  unfold leaf_read. cbn [read_prim]. unfold wrap, DecodeByteSlice. cbn [exec_read head element_type].
  intros env inp. rewrite !run_dbind. destruct (run env ReadVaruint inp) as [[l [e|]] rest|msg|] eqn:RV.
  - cbn. exact I.
  - rewrite run_dbind. unfold ReadBytes. set (n := i64 l).
    destruct (Z.ltb_spec n 0) as [NEG|POS].
    { assert (MK : make_ok 1 n = false) by (unfold make_ok; lia). rewrite MK. cbn. exact I. }
    destruct (Z.eqb_spec n 0) as [Z0|NZ].
    { rewrite Z0. cbn. eexists. split; [reflexivity|constructor]. }
    destruct (make_ok 1 n) eqn:MK; [|cbn; exact I].
    pose proof (bytes_loop E unm env (Z.to_nat n) [] rest) as BL. cbn zeta in BL. cbn [app length] in BL. cbn [run].
    destruct (Z.leb_spec n (zlen rest)) as [LE|GT].
    + replace (Z.to_nat n <=? length rest)%nat with true in BL by (symmetry; apply Nat.leb_le; unfold zlen in LE; lia).
      cbn [run rel]. rewrite BL. eexists. split; [reflexivity|]. constructor.
    + replace (Z.to_nat n <=? length rest)%nat with false in BL by (symmetry; apply Nat.leb_gt; unfold zlen in GT; lia).
      cbn [run rel]. exact BL.
  - cbn. exact I.
  - cbn. exact I.
Qed.

(** ** Fields *)
Definition good_here (E : types) (t : gtype) : Prop :=
  generable_here E t /\
  match head E t with
  | TPtr u => scalar u
  | TStruct fs => Forall (fun '(tg, _, _) => tg = NoTag \/ tg = Optional) fs
  | _ => True
  end.
Definition good_at (E : types) (pl : place) (t : gtype) : Prop := forall pl' t', within E (pl, t) (pl', t') -> good_here E t'.
Definition good (E : types) (t : gtype) : Prop := exists pl, good_at E pl t.
Lemma good_self E t : good E t -> good_here E t.
Proof. intros [pl H]. apply (H pl). constructor. Qed.
Lemma good_part E t t' : good E t -> (forall pl0, exists pl', part E (pl0, t) (pl', t')) -> good E t'.
Proof.
  intros [pl0 H] P. destruct (P pl0) as [pl' P']. exists pl'. intros pl'' t'' W. apply (H pl''). eapply wi_part; eassumption.
Qed.
Lemma good_slice E u : good E (TSlice u) -> good E u.
Proof. intros G. apply (good_part E (TSlice u)); [exact G|]. intros pl. exists Slot. now constructor. Qed.
Lemma good_elem E n u : good E (TArray n u) -> good E u.
Proof. intros G. apply (good_part E (TArray n u)); [exact G|]. intros pl. exists Slot. now apply pt_array with (n := n). Qed.
Lemma good_element E u : good E u -> element E u -> scalar u \/ with_methods E u.
Proof.
  intros G [S|[W|(w & -> & W)]]; [now left|now right|]. exfalso. apply good_self in G as [_ S]. cbn [head] in S.
  now apply scalar_no_methods with (E := E) (t := w).
Qed.
Lemma get_slice_zero E m u : decode (S (S m)) E chain_decoder Whole (TSlice u) (RSlice None)
  = ('(o, err) <-- get_slice (size_of E u) (zero E u) (through E (decode m E chain_decoder Whole) u) None ;; DRet (RSlice o, err)).
Proof. rewrite decode_whole by discriminate. reflexivity. Qed.
Lemma get_array_step E m n u l : decode (S (S m)) E chain_decoder Whole (TArray n u) (RArray l)
  = ('(l, err) <-- get_elems (through E (decode m E chain_decoder Whole) u) l ;; DRet (RArray l, err)).
Proof. rewrite decode_whole by discriminate. reflexivity. Qed.
Lemma agree_less E g m m' n : methods_agree E g m n -> (m' <= m)%nat -> methods_agree E g m' n.
Proof. intros H L m'' t L' W G. apply H; [lia|exact W|exact G]. Qed.

Lemma field_agree E m n tg t text vr : methods_agree E (good E) m n -> field_form E tg t -> good E t -> direct t = true ->
  tg = NoTag \/ tg = Optional ->
  rrel near (get_field E (decode m E chain_decoder Whole) vr (tg, Exported, t) (zero_of t))
    (exec_read (UnmarshalABI n E) E t 0 (gen_read (field_of t (is_optional tg) text)) (zero_of t)).
Proof.
  intros MA FF G D TG.
  assert (NT : tg <> Optional -> get_field E (decode m E chain_decoder Whole) vr (tg, Exported, t) (zero_of t)
               = through E (decode m E chain_decoder Whole) t (zero_of t) /\ is_optional tg = false).
  { intros N. destruct TG as [-> | ->]; [|congruence]. split; reflexivity. }
  inversion FF as [tg' t' N SC|tg' N|tg' t' N W|tg' t' N EL|tg' k t' N EL|tg' t' SC|tg' t' W|tg' k t' ME]; subst.
  - (* scalar *)
    destruct (NT N) as [-> ->]. destruct SC as (k & -> & GK & NB). rewrite through_whole by discriminate.
    destruct m as [|m]; [apply rrel_fuel|]. cbn [zero_of]. rewrite scalar_whole by exact GK.
    assert (Q : gen_read (field_of (TLeaf k) false text) = SRead k {| star := false; index := false |}).
    { destruct k; try discriminate GK; try congruence; reflexivity. }
    rewrite Q. cbn [exec_read]. unfold leaf_read. apply rrel_bind with (R := eq); [apply rrel_same| | |].
    + intros q q' <-. cbn [index assign dwith]. apply rrel_ret. constructor.
    + intros q e. exact I.
    + intros q e. exact I.
  - (* []byte *)
    destruct (NT N) as [-> ->]. apply (bytes_field E _ m (through E (decode m E chain_decoder Whole))). intros p z. now rewrite through_whole by discriminate.
  - (* methods *)
    destruct (NT N) as [-> ->].
    assert (NP : forall w, head E t <> TPtr w) by (intros w Hw; unfold with_methods in W; now rewrite Hw in W).
    rewrite through_whole by exact NP. rewrite <- (zero_direct E t D).
    assert (Q : exec_read (UnmarshalABI n E) E t 0 (gen_read (field_of t false text)) (zero E t)
                = '(x, err) <-- UnmarshalABI n E t (zero E t) ;; DRet (x, err)).
    { unfold with_methods in W. unfold field_of.
      destruct t as [k|k| |u|u|j u|k w|fs|i0 u0|i]; cbn [head] in W; try contradiction; try discriminate D; try reflexivity.
      destruct k; try discriminate W; reflexivity. }
    rewrite Q. eapply rrel_right; [apply (MA m t); [lia|exact W|exact G]| |].
    + intros x x' S. cbv beta iota. now exists x'.
    + intros x e. exact I.
  - (* slice *)
    destruct (NT N) as [-> ->]. rewrite through_whole by discriminate. cbn [zero_of].
    destruct m as [|[|m]]; [apply rrel_fuel|apply rrel_fuel|]. rewrite get_slice_zero.
    assert (Q : gen_read (field_of (TSlice t') false text) = SReadSlice (el_read_code t')).
    { unfold field_of, el_read_code. cbn [shape_of body_of]. destruct (own_kind t'); reflexivity. }
    rewrite Q. cbn [exec_read element_type head]. unfold get_slice.
    pose proof (good_element E t' (good_slice E t' G) EL) as SM.
    intros env inp. rewrite !run_dbind. destruct (run env ReadVaruint inp) as [[l [e|]] rest|msg|] eqn:RV; try exact I.
    change (zlen (@nil rval)) with 0. destruct (Z.eqb_spec 0 (i64 l)) as [Z0|NZ].
    + rewrite <- Z0. assert (MK : make_ok (size_of E t') 0 = true) by reflexivity. rewrite MK. cbn.
      eexists. split; [reflexivity|]. constructor. constructor.
    + destruct (make_ok (size_of E t') (i64 l)) eqn:MK; [|exact I].
      pose proof (elements_loop E (good E) m n (TSlice t') t' (fun l => RSlice (Some l))
        (agree_less E (good E) _ m n MA ltac:(lia)) (good_slice E t' G) SM ix_slice eq_refl (Z.to_nat (i64 l)) [] env rest) as L.
      cbn [length app] in L. rewrite run_dbind.
      destruct (run env (get_elems _ _) rest) as [[xs [e|]] r|msg|]; cbn [rel run] in L |- *; try exact L.
      destruct L as (v' & -> & xs' & -> & SL). eexists. split; [reflexivity|]. now constructor.
  - (* array *)
    destruct (NT N) as [-> ->]. rewrite through_whole by discriminate. cbn [zero_of].
    destruct m as [|[|m]]; [apply rrel_fuel|apply rrel_fuel|]. rewrite get_array_step.
    assert (Q : gen_read (field_of (TArray k t') false text) = SReadArray (parsed_len k) (el_read_code t')).
    { unfold field_of, el_read_code. cbn [shape_of body_of]. destruct (own_kind t'); reflexivity. }
    rewrite Q. cbn [exec_read].
    pose proof (good_element E t' (good_elem E k t' G) EL) as SM.
    destruct (good_self E _ G) as [[SZ DT] _]. cbn [head] in SZ. rewrite parsed_len_small, Nat2Z.id by exact SZ.
    rewrite <- (zero_direct E t' DT). intros env inp.
    pose proof (elements_loop E (good E) m n (TArray k t') t' RArray
        (agree_less E (good E) _ m n MA ltac:(lia)) (good_elem E k t' G) SM ix_array eq_refl k [] env inp) as L.
    cbn [length app] in L. rewrite run_dbind.
    destruct (run env (get_elems _ _) inp) as [[xs [e|]] r|msg|]; cbn [rel run] in L |- *; try exact L.
    destruct L as (v' & -> & xs' & -> & SL). eexists. split; [reflexivity|]. now constructor.
  - (* pointer to a scalar *)
    destruct SC as (k & -> & GK & NB). cbn [zero_of].
    assert (Q : forall opt, gen_read (field_of (TPtr (TLeaf k)) opt text)
                = if opt then SReadOptional (SReadTmp k {| star := false; index := false |}) else SReadTmp k {| star := false; index := false |}).
    { intros []; destruct k; try discriminate GK; try congruence; reflexivity. }
    rewrite Q.
    assert (X : rrel near (through E (decode m E chain_decoder Whole) (TPtr (TLeaf k)) (RPtr None))
                  (exec_read (UnmarshalABI n E) E (TPtr (TLeaf k)) 0 (SReadTmp k {| star := false; index := false |}) (RPtr None))).
    { unfold through. cbn [head zero_of exec_read]. unfold zero. cbn [head zero_of]. destruct m as [|m]; [apply rrel_fuel|].
      rewrite scalar_whole by exact GK. unfold leaf_read. intros env inp. rewrite !run_dbind.
      destruct (run env (read_prim (zero_prim k)) inp) as [[q [e|]] rest|msg|]; try exact I.
      cbn. eexists. split; [reflexivity|]. repeat constructor. }
    destruct TG as [-> | ->]; cbn [is_optional]; [exact X|]. cbn [get_field exec_read].
    apply rrel_bind with (R := eq); [apply rrel_same| | |].
    + intros b b' <-. destruct b; [exact X|]. apply rrel_ret. constructor.
    + intros b e. exact I.
    + intros b e. exact I.
  - (* pointer to methods *)
    exfalso. apply good_self in G as [_ S]. cbn [head] in S. now apply scalar_no_methods with (E := E) (t := t').
  - exfalso. apply good_self in G as [_ S]. cbn [head] in S. destruct S as (k' & S & _). discriminate S.
Qed.

Lemma fields_agree E m n vr : methods_agree E (good E) m n -> forall fs lf, Forall2 described fs lf ->
  Forall (fun '(tg, vis, t) => vis = Exported /\ field_form E tg t /\ good E t /\ direct t = true /\ (tg = NoTag \/ tg = Optional)) fs ->
  rrel near_list (get_fields E (decode m E chain_decoder Whole) vr fs (map (fun fd : tag * visibility * gtype => zero_of (snd fd)) fs))
    (unmarshal_body (UnmarshalABI n E) E fs (map gen_read lf) (map (fun fd : tag * visibility * gtype => zero_of (snd fd)) fs)).
Proof.
  intros MA. induction 1 as [|[[tg vis] t] f fs lf D _ IH]; intros F; cbn [map get_fields unmarshal_body snd].
  - apply rrel_ret. constructor.
  - inversion F as [|? ? A B]; subst. cbv beta iota in A. destruct A as (-> & FF & G & DT & TG). destruct D as (_ & text & ->).
    eapply rrel_bind; [exact (field_agree E m n tg t text vr MA FF G DT TG)| | |].
    + intros v v' S. cbv beta iota. eapply rrel_bind; [exact (IH B)| | |].
      * intros l l' SL. apply rrel_ret. now constructor.
      * intros l e. exact I.
      * intros l e. exact I.
    + intros v e. exact I.
    + intros v e. exact I.
Qed.

Lemma methods_agree_all E : forall m n, (m <= n)%nat -> methods_agree E (good E) m n.
Proof.
  intros m. induction m as [m IH] using lt_wf_ind. intros n Hn m' t Hm W G.
  destruct (Nat.eq_dec m' m) as [-> |NE].
  2:{ apply (IH m' ltac:(lia) n ltac:(lia) m' t); [lia|exact W|exact G]. }
  unfold with_methods in W. destruct (head E t) as [k|k| |u|u|j u|k w|fs|i0 u0|i] eqn:H; try contradiction.
  - (* pkg/chain's types *)
    destruct m as [|m]; [apply rrel_fuel|]. destruct n as [|n]; [lia|]. unfold zero. rewrite H. cbn [zero_of UnmarshalABI]. rewrite H, W.
    cbn [decode]. rewrite H. cbn [chain_decoder]. destruct (table_kind k).
    + intros env inp. rewrite !run_dbind. destruct (run env (leaf_read (zero_prim k)) inp) as [[q [e|]] rest|msg|]; try exact I.
      cbn. exists q. split; [reflexivity|apply nr_eq].
    + cbn [dbind]. rewrite W. destruct m as [|m]; [apply rrel_fuel|]. cbn [decode]. rewrite H, W.
      apply rrel_weaken with (R := eq); [|apply rrel_same]. intros x ? <-. apply nr_eq.
  - (* structs *)
    destruct m as [|[|m]]; [apply rrel_fuel| |].
    { rewrite decode_whole by congruence. apply rrel_fuel. }
    destruct n as [|n]; [lia|]. rewrite decode_whole by congruence. cbn [decode UnmarshalABI]. unfold zero. rewrite H, zero_struct. unfold GenUnmarshalFn.
    pose proof (good_self E t G) as GH. unfold good_here, generable_here in GH. rewrite H in GH. destruct GH as [[(CF & _ & _) EX] TG].
    destruct (classify_all_ok fs) as (lf & C & _).
    { rewrite Forall_forall in CF. intros vis u I. apply CF in I. cbv beta iota in I. now apply (form_optional E). }
    rewrite C. cbn [rbind]. eapply rrel_bind.
    + apply (fields_agree E m n _ (IH m ltac:(lia) n ltac:(lia)) fs lf (classify_all_described _ _ C)).
      rewrite Forall_forall in *. intros [[tg vis] u] I. pose proof (CF _ I) as C1. pose proof (EX _ I) as C2. pose proof (TG _ I) as C3.
      cbv beta iota in C1, C2, C3. repeat split; try tauto.
      apply (good_part E t); [exact G|]. intros pl. exists Slot. eapply pt_field; eassumption.
    + intros l l' SL. apply rrel_ret. now constructor.
    + intros l e. exact I.
    + intros l e. exact I.
  - (* user-defined types *)
    destruct m as [|[|m]]; [apply rrel_fuel| |].
    { rewrite decode_whole by congruence. apply rrel_fuel. }
    destruct n as [|n]; [lia|]. rewrite decode_whole by congruence. cbn [decode UnmarshalABI]. unfold zero. rewrite H. cbn [zero_of].
    apply rrel_weaken with (R := eq); [|apply rrel_same]. intros x ? <-. apply nr_eq.
Qed.

(** ** The types on which both codecs round trip *)
Definition codec_ready (E : types) (t : gtype) : Prop := generable E t /\ only_scalar_pointers E t /\ only_optional_tags E t.
Lemma ready_good E t : codec_ready E t -> good E t.
Proof.
  intros ((_ & GH) & SP & OT). exists Target. intros pl t' W. split; [exact (GH pl t' W)|].
  destruct (head E t') as [k|k| |u|u|j u|k w|fs|i0 u0|i] eqn:H; try exact I.
  - exact (SP pl t' u W H).
  - apply Forall_forall. intros [[tg vis] u] J. exact (OT pl t' fs tg vis u W H J).
Qed.
Definition shaped (E : types) (a : place * gtype) : Prop :=
  fst a <> Behind /\ (with_methods E (snd a) \/ scalar (snd a) \/ (fst a = Slot /\ ((exists tg, field_form E tg (snd a)) \/ element E (snd a)))).
Lemma part_inv E pl t b : part E (pl, t) b ->
  match head E t with
  | TPtr u => b = (beneath pl, u)
  | TSlice u | TArray _ u => b = (Slot, u)
  | TMap k v => b = (Target, k) \/ b = (Target, v)
  | TStruct fs => exists tg vis u, In (tg, vis, u) fs /\ b = (Slot, u)
  | _ => False
  end.
Proof. intros P. inversion P as [a1 a2 a3 H|a1 a2 a3 H|a1 a2 a3 a4 H|a1 a2 a3 a4 H|a1 a2 a3 a4 H|a1 a2 a3 a4 a5 a6 H J]; subst; rewrite H; eauto. Qed.
Lemma shaped_struct E pl t b : good_here E t -> with_methods E t -> part E (pl, t) b -> shaped E b.
Proof.
  intros [GH _] W P. apply part_inv in P. unfold with_methods in W. unfold generable_here in GH.
  destruct (head E t) as [k|k| |u|u|j u|k w|fs|i0 u0|i] eqn:H; try contradiction.
  destruct P as (tg & vis & u & J & ->). split; [discriminate|]. right. right. split; [reflexivity|]. left.
  destruct GH as [(CF & _) _]. rewrite Forall_forall in CF. specialize (CF _ J). cbv beta iota in CF. destruct CF. eauto.
Qed.
Lemma shaped_part E a b : good_here E (snd a) -> shaped E a -> part E a b -> shaped E b.
Proof.
  destruct a as [pl t]. cbn [snd]. intros G [NB SH] P. cbn [fst snd] in *.
  destruct SH as [W|[(k & -> & _)|(-> & SH)]].
  - exact (shaped_struct E pl t b G W P).
  - apply part_inv in P. destruct P.
  - assert (PTR : forall u, t = TPtr u -> shaped E b).
    { intros u ->. destruct G as [_ PT]. apply part_inv in P. cbn [head beneath] in PT, P. subst b. split; [discriminate|]. right. left. exact PT. }
    destruct SH as [(tg & F)|[(k & -> & _)|[W|(u & -> & W)]]].
    + inversion F as [tg' t' N (k & -> & _)|tg' N|tg' t' N W|tg' t' N EL|tg' k t' N EL|tg' t' S|tg' t' W|tg' k t' ME]; subst.
      * apply part_inv in P. destruct P.
      * apply part_inv in P. destruct P.
      * exact (shaped_struct E Slot t b G W P).
      * apply part_inv in P. cbn [head] in P. subst b. split; [discriminate|]. right. right. auto.
      * apply part_inv in P. cbn [head] in P. subst b. split; [discriminate|]. right. right. auto.
      * exact (PTR _ eq_refl).
      * exact (PTR _ eq_refl).
      * exact (PTR _ eq_refl).
    + apply part_inv in P. destruct P.
    + exact (shaped_struct E Slot t b G W P).
    + exact (PTR _ eq_refl).
Qed.
Lemma shaped_within E a b : within E a b -> (forall b, within E a b -> good_here E (snd b)) -> shaped E a -> shaped E b.
Proof.
  induction 1 as [a|a b c P W IH]; intros G S; [exact S|]. apply IH.
  - intros d Wd. apply G. eapply wi_part; eassumption.
  - apply (shaped_part E a); [apply G; constructor|exact S|exact P].
Qed.
Lemma ready_supported E t : codec_ready E t -> faithful_methods E t -> supported E t.
Proof.
  intros R FM pl t' W. pose proof (ready_good E t R) as (pl0 & _). destruct R as (((fs & H) & GH) & SP & OT).
  assert (GA : forall b, within E (Target, t) b -> good_here E (snd b)).
  { intros [pl1 t1] W1. cbn [snd]. split; [exact (GH _ _ W1)|].
    destruct (head E t1) as [k|k| |u|u|j u|k w|gs|i0 u0|i] eqn:H1; try exact I.
    - exact (SP _ _ _ W1 H1).
    - apply Forall_forall. intros [[tg vis] u] J. exact (OT _ _ _ _ _ _ W1 H1 J). }
  assert (S : shaped E (pl, t')).
  { apply (shaped_within E (Target, t)); [exact W|exact GA|]. split; [discriminate|]. left. unfold with_methods. cbn [snd]. now rewrite H. }
  destruct (GA _ W) as [G1 G2]. cbn [snd] in G1, G2. destruct S as [NB S]. cbn [fst snd] in NB, S. unfold supported_here.
  unfold generable_here in G1.
  assert (NB' : forall k, readable pl k = true) by (intros k; destruct pl; [reflexivity|reflexivity|congruence]).
  assert (DONE : forall x, (x = TOther \/ (exists i, x = TName i) \/ exists a b, x = TMap a b) -> head E t' <> x).
  { intros x X Hx. subst x.
    assert (NW : with_methods E t' -> False).
    { unfold with_methods. destruct X as [X|[(i & X)|(a & b & X)]]; rewrite X; auto. }
    assert (NS : forall u, t' = u -> head E u = u -> (u = TOther \/ (exists i, u = TName i) \/ exists a b, u = TMap a b)).
    { intros u <- Hu. rewrite <- Hu. exact X. }
    assert (NE : element E t' -> False).
    { intros [(k & Q & _)|[W'|(u & Q & _)]]; [|exact (NW W')|]; specialize (NS _ Q eq_refl); destruct NS as [N|[(i & N)|(a & b & N)]]; discriminate N. }
    destruct S as [W'|[(k & Q & _)|(_ & [(tg & F)|EL])]]; [exact (NW W')| | |exact (NE EL)].
    - specialize (NS _ Q eq_refl). destruct NS as [N|[(i & N)|(a & b & N)]]; discriminate N.
    - inversion F as [tg' t1 N (k & Q & _)|tg' N|tg' t1 N W'|tg' t1 N EL|tg' k t1 N EL|tg' t1 S|tg' t1 W'|tg' k t1 ME]; subst;
        [| |exact (NW W')| | | | |];
        (specialize (NS _ eq_refl eq_refl); destruct NS as [M|[(i & M)|(a & b & M)]]; discriminate M). }
  assert (NI : forall k, head E t' <> TInt k).
  { intros k Hx. assert (NW : with_methods E t' -> False) by (unfold with_methods; now rewrite Hx).
    destruct S as [W'|[(q & Q & _)|(_ & [(tg & F)|EL])]]; [exact (NW W')|subst t'; discriminate Hx| |].
    - inversion F as [tg' t1 N (q & Q & _)|tg' N|tg' t1 N W'|tg' t1 N EL|tg' q t1 N EL|tg' t1 S|tg' t1 W'|tg' q t1 ME]; subst; try discriminate Hx. exact (NW W').
    - destruct EL as [(q & Q & _)|[W'|(u & Q & _)]]; [subst t'; discriminate Hx|exact (NW W')|subst t'; discriminate Hx]. }
  destruct (head E t') as [k|k| |u|u|j u|k w|gs|i0 u0|i] eqn:H1; try exact I.
  - apply NB'.
  - elim (DONE TOther); auto.
  - exact (proj2 G1).
  - elim (DONE (TMap k w)); eauto.
  - destruct G1 as [_ EX]. rewrite Forall_forall in *. intros [[tg vis] u] J. specialize (EX _ J). specialize (G2 _ J). cbv beta iota in EX, G2.
    split; [destruct G2 as [-> | ->]; discriminate|exact EX].
  - exact (FM pl t' i0 u0 W H1).
  - elim (DONE (TName i)); eauto.
Qed.

(** ** Pointers to types with methods are never allocated *)
Lemma body_fields unm E env fs code : forall l inp l' rest,
  run env (unmarshal_body unm E fs code l) inp = Done (l', None) rest -> length code = length fs -> length l = length fs ->
  forall i tg vis t s v, nth_error fs i = Some (tg, vis, t) -> nth_error code i = Some s -> nth_error l i = Some v ->
  exists inp' v' rest', run env (exec_read unm E t 0 s v) inp' = Done (v', None) rest' /\ nth_error l' i = Some v'.
Proof.
  revert code. induction fs as [|[tg0 t0] fs IH]; intros code l inp l' rest R LC LL i tg vis t s v N1 N2 N3; [destruct i; discriminate N1|].
  destruct code as [|s0 code]; [discriminate LC|]. destruct l as [|v0 l]; [discriminate LL|].
  cbn [unmarshal_body] in R. rewrite run_dbind in R.
  destruct (run env (exec_read unm E t0 0 s0 v0) inp) as [[v0' [e|]] r|m|] eqn:R0; try discriminate R.
  rewrite run_dbind in R. destruct (run env (unmarshal_body unm E fs code l) r) as [[l1 [e|]] r1|m|] eqn:R1; try discriminate R.
  cbn [run] in R. injection R as <- <-. destruct i as [|i]; cbn [nth_error] in *.
  - injection N1 as -> ->. injection N2 as <-. injection N3 as <-. eauto.
  - injection LC as LC. injection LL as LL. exact (IH code l r l1 r1 R1 LC LL i tg vis t s v N1 N2 N3).
Qed.
Lemma pointer_unread fuel E t fs tg vis u env inp v rest : head E t = TStruct fs -> compilable E fs ->
  In (tg, vis, TPtr u) fs -> tg <> Optional -> with_methods E u ->
  run env (UnmarshalABI fuel E t (zero E t)) inp <> Done (v, None) rest.
Proof.
  intros H C I N W R. destruct fuel as [|fuel]; [discriminate R|]. cbn [UnmarshalABI] in R. unfold zero in R. rewrite H, zero_struct in R.
  unfold GenUnmarshalFn in R. destruct C as (CF & _). destruct (classify_all_ok fs) as (lf & CA & _).
  { rewrite Forall_forall in CF. intros vis' u' I'. apply CF in I'. cbv beta iota in I'. now apply (form_optional E). }
  rewrite CA in R. cbn [rbind] in R. rewrite run_dbind in R.
  destruct (run env (unmarshal_body _ _ _ _ _) inp) as [[l' [e|]] r|m|] eqn:B; try discriminate R.
  destruct (In_nth_error _ _ I) as (i & NI). pose proof (classify_all_described _ _ CA) as D.
  assert (LL : length lf = length fs) by (clear -D; induction D; cbn [length]; congruence).
  assert (exists f, nth_error lf i = Some f) as (f & NF).
  { destruct (nth_error lf i) eqn:Q; [eauto|]. apply nth_error_None in Q. assert (nth_error fs i <> None) by congruence. apply nth_error_Some in H0. lia. }
  assert (DF : described (tg, vis, TPtr u) f).
  { clear -D NI NF. revert i NI NF. induction D as [|x y fs lf D1 D2 IH]; intros [|i] N1 N2; cbn [nth_error] in *; try discriminate; [injection N1 as ->; injection N2 as <-; exact D1|eauto]. }
  destruct DF as (_ & text & ->).
  assert (X : nth_error (map (fun fd : tag * visibility * gtype => zero_of (snd fd)) fs) i = Some (RPtr None)).
  { rewrite nth_error_map, NI. reflexivity. }
  destruct (body_fields _ _ _ _ _ _ _ _ _ B ltac:(now rewrite map_length) ltac:(now rewrite map_length) i tg vis (TPtr u)
    (gen_read (field_of (TPtr u) (is_optional tg) text)) (RPtr None) NI ltac:(rewrite nth_error_map, NF; reflexivity) X) as (inp' & v' & r' & RR & _).
  assert (Q : gen_read (field_of (TPtr u) (is_optional tg) text) = SUnmarshal {| star := false; index := false |}).
  { rewrite not_optional by exact N. unfold field_of. cbn [shape_of]. unfold body_of.
    unfold with_methods in W. destruct u as [k|k| |u|u|j u|k w|gs|q0 u0|q]; cbn [head] in W; try contradiction; try reflexivity.
    destruct k; try discriminate W; reflexivity. }
  rewrite Q in RR. cbn in RR. discriminate RR.
Qed.
Lemma read_false env inp : run env ReadBool (x00 :: inp) = Done (false, None) inp.
Proof. unfold ReadBool, dtry. rewrite run_dbind, run_ReadByte_cons. reflexivity. Qed.
Lemma has_type_weaken E (P Q : prim -> Prop) : (forall p, P p -> Q p) -> forall t v, has_type E P t v -> has_type E Q t v.
Proof.
  intros PQ. apply (has_type_all E P (fun t v _ => has_type E Q t v) (fun t l _ => have_type E Q t l)
    (fun kt vt m _ => have_pair_type E Q kt vt m) (fun fs l _ => have_field_types E Q fs l)); intros; try (econstructor; eauto; fail).
Qed.
