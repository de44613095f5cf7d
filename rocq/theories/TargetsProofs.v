(** Targets with interface variables inside: proofs. *)
From Verif Require Import Base Prog AbiPrim BaseProofs SpecWire ProgProofs AbiPrimProofs Chain SpecChain ChainProofs
  Values Leaf SpecLeaf LeafProofs Reflect SpecReflect ReflectProofs Targets SpecTargets.

Lemma matching_bind {A B C D} env (R : A -> B -> Prop) (S : C -> D -> Prop) (p : io A) (q : io B) f g inp :
  matching R (run env p inp) (run env q inp) ->
  (forall a b e rest, R a b -> matching S (run env (f (a, e)) rest) (run env (g (b, e)) rest)) ->
  matching S (run env (dbind p f) inp) (run env (dbind q g) inp).
Proof.
  intros M H. rewrite !run_dbind. destruct (run env p inp) as [[a e] r|m|], (run env q inp) as [[b e'] r'|m'|]; cbn [matching] in M |- *; try contradiction; auto.
  destruct M as (-> & -> & M). now apply H.
Qed.
Lemma matching_same {A} env (p : io A) inp : matching eq (run env p inp) (run env p inp).
Proof. destruct (run env p inp) as [[a e] r|m|]; cbn; auto. Qed.

Lemma looks_weaken :
  (forall g t v, looks false g t v -> looks true g t v)
  /\ (forall g t v, slot false g t v -> slot true g t v)
  /\ (forall l t l', slots false l t l' -> slots true l t l')
  /\ (forall fs ts l, field_slots false fs ts l -> field_slots true fs ts l).
Proof. apply looks_all; intros; try discriminate; constructor; assumption. Qed.

Lemma slot_direct n g t v : slot n g t v -> direct t = true.
Proof. destruct 1; auto. Qed.

Definition zero_fields (E : types) : list field -> list field :=
  fix go fs := match fs with
      | [] => []
      | inl (tg, vis, t, _) :: fs => inl (tg, vis, t, zero E t) :: go fs
      | inr (tg, vis, g) :: fs => inr (tg, vis, zero_target E g) :: go fs
      end.
Definition zero_list (E : types) : list target -> list target :=
  fix go l := match l with [] => [] | g :: l => zero_target E g :: go l end.
Lemma zero_list_length E l : length (zero_list E l) = length l.
Proof. induction l; cbn [zero_list length]; congruence. Qed.
Lemma settled_zero E g : settled g -> settled (zero_target E g).
Proof. destruct 1; constructor. Qed.
Lemma looks_zero n E :
  (forall g t v, looks n g t v -> True)
  /\ (forall g t v, slot n g t v -> slot true (zero_target E g) t (zero_of t))
  /\ (forall l t l', slots n l t l' -> slots true (zero_list E l) t (repeat (zero_of t) (length l)))
  /\ (forall fs ts l, field_slots n fs ts l -> field_slots true (zero_fields E fs) ts (map (fun fd : tag * visibility * gtype => zero_of (snd fd)) ts)).
Proof.
  apply looks_all; intros; try exact I; try (cbn [zero_target zero_of]; constructor; auto; fail).
  - cbn [zero_target]. rewrite (zero_direct E t) by assumption. now constructor.
  - cbn [zero_target zero_of]. fold (zero_list E). subst. apply sl_array; [assumption|apply zero_list_length|assumption].
  - rewrite zero_struct. now apply sl_struct.
  - cbn [zero_fields map snd]. rewrite (zero_direct E t) by assumption. now constructor.
  - cbn [zero_fields map snd]. constructor; auto. intros ->. auto using settled_zero.
Qed.
Lemma slot_zero n E g t v : slot n g t v -> slot true (zero_target E g) t (zero E t).
Proof. intros S. rewrite (zero_direct E t) by (eapply slot_direct; exact S). eapply (proj1 (proj2 (looks_zero n E))); eassumption. Qed.


(** What kind of target it is. *)
Definition outer (g : target) : nat :=
  match g with
  | GPlain _ _ => 0 | GIface (Some _) => 1 | GIface None => 2 | GHeld => 3 | GPtr _ (Some _) => 4 | GPtr _ None => 5
  | GArray _ => 6 | GStruct _ => 7 | GSlice _ _ _ => 8 | GMap _ _ _ => 9
  end.
Definition simulates (E : types) (fuel : nat) : Prop := forall m g t v, looks false g t v ->
  (match m with Alt _ => settled g | _ => True end) -> forall env inp,
  matching (fun g' v' => looks true g' t v' /\ outer g' = outer g /\ (settled g -> settled g')) (run env (decode_target fuel E m g) inp)
    (run env (decode fuel E chain_decoder m t v) inp).
Lemma matching_ret {A B} env (R : A -> B -> Prop) a b e inp : R a b -> matching R (run env (DRet (a, e)) inp) (run env (DRet (b, e)) inp).
Proof. cbn. auto. Qed.
Lemma matching_weaken {A B} (R S : A -> B -> Prop) o o' : (forall a b, R a b -> S a b) -> matching R o o' -> matching S o o'.
Proof. intros H. destruct o as [[a e] r|m|], o' as [[b e'] r'|m'|]; cbn; intuition. Qed.
Lemma matching_map {A B D} env (R : A -> B -> Prop) (S : A -> D -> Prop) (p : io A) (q : io B) (g : B -> D) inp :
  matching R (run env p inp) (run env q inp) -> (forall a b, R a b -> S a (g b)) ->
  matching S (run env p inp) (run env ('(b, e) <-- q ;; DRet (g b, e)) inp).
Proof.
  intros M H. rewrite run_dbind. destruct (run env p inp) as [[a e] r|m|], (run env q inp) as [[b e'] r'|m'|]; cbn [matching run] in M |- *; try contradiction; auto.
  destruct M as (-> & -> & M). auto.
Qed.

Definition alike (S : target -> Prop) (g : target) (t : gtype) (p : io target) (q : io rval) : Prop :=
  forall env inp, matching (fun g' v' => looks true g' t v' /\ outer g' = outer g /\ (S g -> S g')) (run env p inp) (run env q inp).
Lemma through_alike E p f S : (forall z x, S (GPtr z (Some x)) <-> S x) -> (forall t v, S (GPlain t v)) ->
  (forall g t v, looks false g t v -> S g -> alike S g t (f g) (p t v)) ->
  forall g t v, slot false g t v -> S g -> forall env inp,
  matching (fun g' v' => slot true g' t v' /\ (S g -> S g')) (run env (through_target E p f g) inp) (run env (through E p t v) inp).
Proof.
  intros SP SG SIM g t v L H env inp. destruct L as [t v D|x t v L|t N|z x t v L|z t N|n t l l' D N SL|fs ts l F]; try discriminate.
  - cbn [through_target]. rewrite run_dbind.
    destruct (run env (through E p t v) inp) as [[v' e] r|m|]; cbn; auto.
    repeat split; [now constructor|auto].
  - cbn [through_target through head]. eapply matching_map.
    + apply (SIM (GIface (Some x)) (TPtr t) (RPtr (Some v))); [now constructor|exact H].
    + cbn beta. intros g' v' (M & O & Q). split; [|exact Q]. destruct M; try discriminate O. now constructor.
  - cbn [through_target through head]. eapply matching_bind; [apply SIM; [exact L|now apply SP in H]|]. intros g' v' e rest (M & _ & Q).
    apply matching_ret. split; [now constructor|]. rewrite !SP. exact Q.
  - cbn [through_target]. unfold through. cbn [head]. eapply matching_weaken; [|apply SIM; [now constructor|exact H]].
    cbn beta. intros g' v' (M & O & Q). split; [|exact Q]. destruct M; try discriminate O. now constructor.
  - cbn [through_target]. unfold through. cbn [head]. eapply matching_weaken; [|apply SIM; [now constructor|exact H]].
    cbn beta. intros g' v' (M & O & Q). split; [|exact Q]. destruct M; try discriminate O. now constructor.
Qed.
Notation whole E fuel := (through_target E (decode fuel E chain_decoder Whole) (decode_target fuel E Whole)).
Notation variant E fuel := (through_target E (fun t => by_index (fun m => decode fuel E chain_decoder m t)) (by_index (decode_target fuel E))).
Lemma simulates_through E fuel : simulates E fuel -> forall g t v, slot false g t v -> forall env inp,
  matching (fun g' v' => slot true g' t v' /\ (settled g -> settled g')) (run env (whole E fuel g) inp)
    (run env (through E (decode fuel E chain_decoder Whole) t v) inp).
Proof.
  intros SIM g t v S env inp. assert (X : forall z x, settled (GPtr z (Some x)) <-> settled x).
  { intros z x. split; [now inversion 1|now constructor]. }
  eapply matching_weaken; [|apply (through_alike E _ _ (fun g' => settled g -> settled g')); [| | |exact S|]]; auto.
  - cbn beta. intros a b [M N]. split; [exact M|]. apply N. auto.
  - intros z x. now rewrite X.
  - constructor.
  - intros g0 t0 v0 L H env0 inp0. eapply matching_weaken; [|apply SIM; [exact L|exact I]]. cbn beta. intuition.
Qed.
Lemma simulates_variant E fuel : simulates E fuel -> forall g t v, slot false g t v -> settled g -> forall env inp,
  matching (fun g' v' => slot true g' t v' /\ (settled g -> settled g')) (run env (variant E fuel g) inp)
    (run env (through E (fun t => by_index (fun m => decode fuel E chain_decoder m t)) t v) inp).
Proof.
  intros SIM. apply through_alike.
  - intros z x. split; [now inversion 1|now constructor].
  - constructor.
  - intros g t v L S env inp. unfold by_index. eapply matching_bind; [apply matching_same|]. cbn beta iota. intros b b' e rest <-.
    destruct e as [e|]; [apply matching_ret|apply SIM; assumption]. split; [now apply looks_weaken|]. now split.
Qed.

Lemma simulates_elems E fuel : simulates E fuel -> forall l t l', slots false l t l' -> forall env inp,
  matching (fun g' v' => slots true g' t v' /\ length g' = length l)
    (run env (get_targets (whole E fuel) l) inp)
    (run env (get_elems (through E (decode fuel E chain_decoder Whole) t) l') inp).
Proof.
  intros SIM l t l' S. induction S as [t|g l t v l' Sg Sl IH]; intros env inp.
  - cbn. repeat split. constructor.
  - cbn [get_targets get_elems]. eapply matching_bind; [apply simulates_through; eassumption|]. cbn beta iota.
    intros g' v' [e|] rest [M _].
    + apply matching_ret. split; [|reflexivity]. constructor; [exact M|]. now apply looks_weaken.
    + eapply matching_bind; [apply IH|]. intros gs vs e rest' [M' N]. apply matching_ret. split; [now constructor|cbn; congruence].
Qed.

Lemma simulates_field E fuel : simulates E fuel -> forall o vis g t v, (o = Some Variant -> settled g) -> slot false g t v -> forall env inp,
  matching (fun g' v' => slot true g' t v' /\ (o = Some Variant -> settled g'))
    (run env (get_target_field E (whole E fuel) (variant E fuel) o vis g) inp)
    (run env (get_field E (decode fuel E chain_decoder Whole) (fun t => by_index (fun m => decode fuel E chain_decoder m t)) (tag_of o, vis, t) v) inp).
Proof.
  intros SIM o vis g t v O S env inp.
  assert (W : slot true g t v) by now apply looks_weaken.
  pose proof (simulates_through E fuel SIM g t v S) as M.
  destruct vis; cbn [get_target_field get_field]; [|now apply matching_ret|reflexivity].
  destruct o as [[]|]; cbn [tag_of].
  - eapply matching_weaken; [|apply M]. cbn beta. intros a b [Q _]. split; [exact Q|discriminate].
  - eapply matching_bind; [apply matching_same|]. cbn beta iota. intros b b' e rest <-. destruct e as [e|].
    + apply matching_ret. split; [|discriminate]. destruct S; try discriminate; try exact W. now constructor.
    + destruct b; [eapply matching_weaken; [|apply M]; cbn beta; intros ? ? [Q _]; split; [exact Q|discriminate]|].
      apply matching_ret. split; [|discriminate]. now apply (slot_zero false E g t v).
  - eapply matching_bind; [apply M|]. cbn beta iota. intros g' v' e rest [M' _].
    assert (Z : slot true (zero_target E g') t (zero E t)) by now apply (slot_zero true E g' t v').
    destruct e as [[]|]; apply matching_ret; split; solve [assumption|discriminate].
  - eapply matching_weaken; [|apply simulates_variant; auto]. cbn beta. intuition.
  - eapply matching_weaken; [|apply M]. cbn beta. intros a b [Q _]. split; [exact Q|discriminate].
Qed.

Lemma simulates_fields E fuel : simulates E fuel -> forall fs ts l, field_slots false fs ts l -> forall env inp,
  matching (fun fs' l' => field_slots true fs' ts l')
    (run env (get_target_fields E fuel (whole E fuel) (variant E fuel) fs) inp)
    (run env (get_fields E (decode fuel E chain_decoder Whole) (fun t => by_index (fun m => decode fuel E chain_decoder m t)) ts l) inp).
Proof.
  intros SIM fs ts l S. induction S as [|tg vis t v fs ts l D Sf IH|o vis g t v fs ts l O Sg Sf IH]; intros env inp.
  - cbn. repeat split. constructor.
  - cbn [get_target_fields get_fields]. eapply (matching_bind _ (fun fd v' => fd = inl (tg, vis, t, v'))).
    + rewrite run_dbind. unfold get_plain_field. cbn zeta.
      change (fun (t0 : gtype) (v0 : rval) => '(i, err) <-- ReadByte;; match err with Some e => DRet (v0, Some e) | None => decode fuel E chain_decoder (Alt i) t0 v0 end)
        with (fun t => by_index (fun m => decode fuel E chain_decoder m t)).
      destruct (run env (get_field _ _ _ _ _) inp) as [[v' e] r|m|]; cbn; auto.
    + intros fd v' [e|] rest ->.
      * apply matching_ret. constructor; [exact D|now apply looks_weaken].
      * eapply matching_bind; [apply IH|]. intros fs' l' e rest' M. apply matching_ret. now constructor.
  - cbn [get_target_fields get_fields]. eapply (matching_bind _ (fun fd v' => exists g', fd = inr (o, vis, g') /\ slot true g' t v' /\ (o = Some Variant -> settled g'))).
    + pose proof (simulates_field E fuel SIM o vis g t v O Sg env inp) as M.
      rewrite run_dbind. destruct (run env (get_target_field _ _ _ _ _ _) inp) as [[g' e] r|m|],
        (run env (get_field _ _ _ _ _) inp) as [[v' e'] r'|m'|]; cbn [matching run] in M |- *; try contradiction; auto.
      destruct M as (-> & -> & M). eauto.
    + intros fd v' [e|] rest (g' & -> & M & O').
      * apply matching_ret. constructor; [exact O'|exact M|now apply looks_weaken].
      * eapply matching_bind; [apply IH|]. intros fs' l' e rest' M'. apply matching_ret. now constructor.
Qed.

Lemma simulation E : forall fuel, simulates E fuel.
Proof.
  induction fuel as [|fuel IH]; intros m g t v L S env inp; [exact I|].
  destruct L as [t v D|x t v L|t N|z x t v L|z t N|n t l l' D N SL|fs ts l F]; try discriminate.
  - cbn [decode_target]. rewrite run_dbind.
    destruct (run env (decode (Datatypes.S fuel) E chain_decoder m t v) inp) as [[v' e] r|c|]; cbn [matching run]; auto.
    repeat split; now constructor.
  - destruct m as [| |i].
    + cbn [decode_target decode head chain_decoder dbind]. apply (IH Deref); [now constructor|exact I].
    + cbn [decode_target decode head through]. eapply matching_bind; [apply (IH Deref); [exact L|exact I]|]. intros g' v' e rest (M & O & Q).
      apply matching_ret. split; [now constructor|]. split; [reflexivity|]. intros Z. inversion Z. constructor. auto.
    + cbn [decode_target decode head through]. eapply matching_bind; [apply (IH (Alt i)); [exact L|now inversion S]|]. intros g' v' e rest (M & O & Q).
      apply matching_ret. split; [now constructor|]. split; [reflexivity|]. intros Z. inversion Z. constructor. auto.
  - destruct m as [| |i].
    + cbn [decode_target decode head chain_decoder dbind]. apply (IH Deref); [now constructor|exact I].
    + cbn [decode_target decode head through]. eapply matching_bind; [apply (IH Deref); [exact L|exact I]|]. intros g' v' e rest (M & O & Q).
      apply matching_ret. split; [now constructor|]. split; [reflexivity|]. intros Z. inversion Z. constructor. auto.
    + cbn [decode_target decode head through]. eapply matching_bind; [apply (IH (Alt i)); [exact L|now inversion S]|]. intros g' v' e rest (M & O & Q).
      apply matching_ret. split; [now constructor|]. split; [reflexivity|]. intros Z. inversion Z. constructor. auto.
  - destruct m as [| |i]; [| |inversion S].
    + cbn [decode_target decode head chain_decoder dbind]. apply (IH Deref); [now constructor|exact I].
    + cbn [decode_target decode head]. eapply matching_bind; [apply (simulates_elems E fuel IH); exact SL|]. intros g' v' e rest [M O].
      apply matching_ret. split; [constructor; [assumption|congruence|assumption]|]. split; [reflexivity|]. intros Z. inversion Z.
  - destruct m as [| |i]; [| |inversion S].
    + cbn [decode_target decode head chain_decoder dbind]. apply (IH Deref); [now constructor|exact I].
    + cbn [decode_target decode head]. eapply matching_bind; [apply (simulates_fields E fuel IH); exact F|]. intros g' v' e rest M.
      apply matching_ret. split; [now constructor|]. split; [reflexivity|]. intros Z. inversion Z.
Qed.

(** ** Blocked targets *)
Definition never {A} (p : io A) : Prop := forall env inp a rest, run env p inp <> Done (a, None) rest.
Lemma never_bind {A B} (p : io A) (f : A * option gerr -> io B) : never p -> (forall a e, never (f (a, Some e))) -> never (dbind p f).
Proof.
  intros P F env inp b rest. rewrite run_dbind. destruct (run env p inp) as [[a [e|]] r|m|] eqn:R; try discriminate; [apply F|].
  now elim (P env inp a r).
Qed.
Lemma never_map {A B} (p : io A) (f : A -> B) : never p -> never ('(a, e) <-- p ;; DRet (f a, e)).
Proof. intros P. apply never_bind; [exact P|]. intros a e env inp b rest. discriminate. Qed.
Lemma never_targets f l g : In g l -> (forall g, In g l -> blocked g -> never (f g)) -> blocked g -> never (get_targets f l).
Proof.
  revert g. induction l as [|x l IH]; intros g I H B; [contradiction|]. cbn [get_targets]. destruct I as [->|I].
  - apply never_bind; [apply H; [now left|exact B]|]. intros a e env inp b rest. discriminate.
  - intros env inp b rest. rewrite run_dbind. destruct (run env (f x) inp) as [[a [e|]] r|m|]; try discriminate.
    apply never_map. eapply IH; [exact I| |exact B]. intros g' I'. apply H. now right.
Qed.
Lemma never_fields E fuel f fv fs o g : In (inr (o, Exported, g)) fs -> (o = None /\ never (f g) \/ o = Some Variant /\ never (fv g)) ->
  never (get_target_fields E fuel f fv fs).
Proof.
  intros I N. induction fs as [|fd fs IH]; [destruct I|]. cbn [get_target_fields]. destruct I as [-> |I].
  - apply never_bind; [apply never_map; destruct N as [[-> N]|[-> N]]; exact N|]. intros a e env inp a' rest. discriminate.
  - intros env inp a rest R. rewrite run_dbind in R. destruct (run env _ inp) as [[fd' [e|]] r|m|]; try discriminate.
    rewrite run_dbind in R. destruct (run env (get_target_fields _ _ _ _ fs) r) as [[l [e|]] r'|m|] eqn:X; try discriminate. now apply IH in X.
Qed.
Lemma blocked_variant_never E i : forall fuel g, blocked_variant g -> never (decode_target fuel E (Alt i) g).
Proof.
  induction fuel as [|fuel IH]; intros g B; [intros env inp a rest; discriminate|].
  destruct B; cbn [decode_target]; try (intros env inp a rest; discriminate); apply never_map; now apply IH.
Qed.
Lemma never_index E fuel g : (forall i, never (decode_target fuel E (Alt i) g)) -> never (by_index (decode_target fuel E) g).
Proof.
  intros N env inp a rest R. unfold by_index in R. rewrite run_dbind in R. destruct (run env ReadByte inp) as [[i [e|]] r|m|]; try discriminate R.
  now apply N in R.
Qed.
Lemma blocked_never E : forall fuel m g, blocked g -> m = Whole \/ m = Deref -> never (decode_target fuel E m g).
Proof.
  induction fuel as [|fuel IH]; intros m g B K; [intros env inp a rest; discriminate|].
  assert (T : forall g, blocked g -> never (whole E fuel g)).
  { intros g' B'. pose proof (IH Whole g' B' (or_introl eq_refl)) as N. destruct B'; cbn [through_target]; try exact N; apply never_map; apply IH; auto. }
  destruct K as [-> | ->].
  { destruct B; cbn [decode_target]; apply IH; auto; solve [econstructor; eassumption|eapply bl_struct; eassumption|eapply bl_variant; eassumption]. }
  destruct B as [| |x B|z x B|z B|l g I B|fs g I B|fs g I B]; cbn [decode_target].
  - intros env inp a rest. discriminate.
  - intros env inp a rest. discriminate.
  - apply never_map. apply IH; auto.
  - apply never_map. apply IH; auto.
  - apply never_map. apply IH; auto.
  - apply never_map. eapply never_targets; [exact I| |exact B]. auto.
  - apply never_map. eapply never_fields; [exact I|]. left. split; [reflexivity|]. now apply T.
  - apply never_map. eapply never_fields; [exact I|]. right. split; [reflexivity|].
    assert (N : forall g, blocked_variant g -> never (by_index (decode_target fuel E) g)) by (intros; apply never_index; intros; now apply blocked_variant_never).
    destruct B; cbn [through_target]; try (apply N; now constructor); apply never_map; now apply N.
Qed.

Lemma slots_length n l t l' : slots n l t l' -> length l = length l'.
Proof. intros S. induction S; cbn; congruence. Qed.
Lemma i64_zero v : in_u 64 v -> i64 v = 0 -> v = 0.
Proof. intros U H. pose proof (i64_big v) as G. unfold in_u in U. destruct (Z_lt_le_dec v two63) as [L|L]; [rewrite i64_small in H; lia|]. assert (i64 v < 0) by (apply G; split; [exact L|apply U]). lia. Qed.
Lemma make_ok_least size n : make_ok size n = true -> 0 <= n.
Proof. unfold make_ok. intros H. apply andb_prop in H as [H _]. lia. Qed.
Lemma ReadVaruint_range env inp v rest : run env ReadVaruint inp = Done (v, None) rest -> in_u 64 v.
Proof.
  intros R. apply ReadVaruint_exact in R as (pre & _ & <- & B & _).
  pose proof (leb_value_nonneg pre). unfold in_u in *. lia.
Qed.

Lemma target_set_keys k x m y : In y (map fst (target_set k x m)) <-> y = k \/ In y (map fst m).
Proof.
  induction m as [|[k' x'] m IH]; cbn [target_set map fst In].
  - intuition congruence.
  - destruct (rval_dec k k') as [<-|N]; cbn [map fst In]; [intuition congruence|]. rewrite IH. intuition congruence.
Qed.
Lemma target_set_nodup k x m : NoDup (map fst m) -> NoDup (map fst (target_set k x m)).
Proof.
  induction m as [|[k' x'] m IH]; cbn [target_set map fst]; intros N.
  - repeat constructor. intros [].
  - inversion N; subst. destruct (rval_dec k k') as [<-|D]; cbn [map fst]; [now constructor|].
    constructor; [|auto]. rewrite target_set_keys. intros [->|I]; [congruence|contradiction].
Qed.
Lemma target_set_in k x m k0 x0 : NoDup (map fst m) ->
  In (k0, x0) (target_set k x m) <-> (k0 = k /\ x0 = x) \/ (k0 <> k /\ In (k0, x0) m).
Proof.
  induction m as [|[k' x'] m IH]; cbn [target_set map fst In]; intros N.
  - intuition congruence.
  - inversion N; subst. destruct (rval_dec k k') as [<-|D]; cbn [In].
    + split; [|intuition congruence]. intros [Q|I]; [left; split; congruence|]. right. split; [|now right].
      intros ->. apply H1. change k with (fst (k, x0)). now apply in_map.
    + rewrite IH by assumption. intuition congruence.
Qed.
Lemma pairs_read_all env fk fv n : forall m inp m' rest, NoDup (map fst m) ->
  run env (get_target_pairs fk fv n m) inp = Done (m', None) rest ->
  exists ps, pairs_read env fk fv inp ps rest /\ length ps = n /\ NoDup (map fst m')
    /\ forall k x, In (k, x) m' <-> last_pair k x ps \/ (~ In k (map fst ps) /\ In (k, x) m).
Proof.
  induction n as [|n IH]; intros m inp m' rest N R.
  - cbn in R. injection R as <- <-. exists []. split; [constructor|]. split; [reflexivity|]. split; [exact N|].
    intros k x. split; [intros I; right; now split; [intros []|]|]. intros [(a & b & Q & _)|[_ I]]; [now destruct a|exact I].
  - cbn [get_target_pairs] in R. rewrite run_dbind in R. destruct (run env fk inp) as [[k [e|]] q|c|] eqn:K; try discriminate R.
    rewrite run_dbind in R. destruct (run env fv q) as [[x [e|]] q'|c|] eqn:V; try discriminate R.
    apply IH in R as (ps & P & L & D & I); [|now apply target_set_nodup]. exists ((k, x) :: ps).
    split; [econstructor; eassumption|]. split; [cbn; congruence|]. split; [exact D|].
    intros k0 x0. rewrite I, target_set_in by assumption. cbn [map fst In]. split.
    + intros [(a & b & -> & Z)|[Z [[-> ->]|[O J]]]].
      * left. now exists ((k, x) :: a), b.
      * left. now exists [], ps.
      * right. split; [intuition congruence|exact J].
    + intros [(a & b & Q & Z)|[Z J]].
      * destruct a as [|p a]; cbn [app] in Q; injection Q as Q1 Q2.
        -- subst ps. assert (k0 = k /\ x0 = x) as [-> ->] by (split; congruence). right. split; [exact Z|]. left. now split.
        -- left. now exists a, b.
      * right. split; [tauto|]. right. split; [intros ->; tauto|exact J].
Qed.

(** ** Alternatives *)
Lemma content_refilled E fd : content (refilled fd (zero_target E (content fd))) = zero_target E (content fd).
Proof. destruct fd as [[[[tg vis] t] v]|[[o vis] g]]; reflexivity. Qed.
Lemma is_nil_held E g : is_nil E g = Some true -> held_nil g.
Proof.
  destruct g as [t v|[]| |z []|l|size z []|kt z []|l]; cbn [is_nil]; try discriminate; try constructor.
  destruct (clear_others _ _ _ _); [congruence|discriminate].
Qed.
Lemma is_nil_zero E g b : is_nil E g = Some b -> held_nil (zero_target E g).
Proof.
  intros H. destruct g as [t v|[]| |z []|l|size z []|kt z []|l]; cbn [is_nil zero_target] in H |- *; try discriminate; try constructor.
  revert H. unfold zero. cbn [clear_others Z.eqb Z.sub Z.opp Z.add Z.pos_sub].
  destruct (head E t) as [k|k| |u|u|n u|u w|fs|i u|i]; try discriminate; try reflexivity.
  destruct u; try discriminate; reflexivity.
Qed.
Lemma clear_targets_nil E : forall fs i fs', clear_targets E i fs = Some fs' -> length fs' = length fs
  /\ forall j fd, nth_error fs j = Some fd -> exists fd', nth_error fs' j = Some fd'
     /\ (Z.of_nat j = i /\ fd' = fd \/ Z.of_nat j <> i /\ held_nil (content fd') /\ (fd' = fd \/ content fd' = zero_target E (content fd))).
Proof.
  induction fs as [|fd fs IH]; intros i fs' C; cbn [clear_targets] in C.
  - injection C as <-. split; [reflexivity|]. intros [|j] fd H; discriminate H.
  - destruct (clear_targets E (i - 1) fs) as [l|] eqn:R; [|discriminate]. apply IH in R as [L N].
    assert (T : forall fd0 j fd', nth_error fs j = Some fd' -> exists fd'', nth_error (fd0 :: l) (S j) = Some fd''
      /\ (Z.of_nat (S j) = i /\ fd'' = fd' \/ Z.of_nat (S j) <> i /\ held_nil (content fd'') /\ (fd'' = fd' \/ content fd'' = zero_target E (content fd')))).
    { intros fd0 j fd' H. apply N in H as (fd'' & H & K). exists fd''. split; [exact H|].
      destruct K as [[K ->]|[K H']]; [left; split; [lia|reflexivity]|right; split; [lia|exact H']]. }
    destruct (Z.eqb_spec i 0) as [-> |Z].
    { injection C as <-. split; [cbn; congruence|]. intros [|j] fd' H; [|now apply T]. injection H as <-. exists fd. split; [reflexivity|]. left. now split. }
    destruct (is_nil E (content fd)) as [[|]|] eqn:V; [| |discriminate].
    + injection C as <-. split; [cbn; congruence|]. intros [|j] fd' H; [|now apply T]. injection H as <-. exists fd. split; [reflexivity|].
      right. split; [cbn; lia|]. split; [eapply is_nil_held; exact V|now left].
    + destruct (exported fd); [|discriminate]. injection C as <-. split; [cbn; congruence|]. intros [|j] fd' H; [|now apply T]. injection H as <-.
      eexists. split; [reflexivity|]. right. split; [cbn; lia|]. rewrite content_refilled. split; [eapply is_nil_zero; exact V|now right].
Qed.
Lemma replaced {A} (x : A) : forall n l, (n < length l)%nat -> length (replace_nth n x l) = length l /\ nth_error (replace_nth n x l) n = Some x
  /\ forall j, j <> n -> nth_error (replace_nth n x l) j = nth_error l j.
Proof.
  induction n as [|n IH]; intros [|y l] L; cbn [length] in L; try lia; cbn [replace_nth length nth_error].
  - repeat split. intros [|j] N; [congruence|reflexivity].
  - destruct (IH l) as (A1 & A2 & A3); [lia|]. repeat split; [congruence|exact A2|]. intros [|j] N; [reflexivity|]. apply A3. congruence.
Qed.
Lemma alternative_read E p f i fs env inp fs' rest : 0 <= i -> run env (get_target_alternative E p f i fs) inp = Done (fs', None) rest ->
  exists fd, nth_error fs (Z.to_nat i) = Some fd /\ length fs' = length fs
  /\ (forall j fd, j <> Z.to_nat i -> nth_error fs j = Some fd -> exists fd', nth_error fs' j = Some fd' /\ held_nil (content fd')
        /\ (fd' = fd \/ content fd' = zero_target E (content fd)))
  /\ ((exists t v t' x, content fd = GPlain t v /\ head E t = TPtr t' /\ run env (p t' (zero E t')) inp = Done (x, None) rest
          /\ option_map content (nth_error fs' (Z.to_nat i)) = Some (GPlain t (RPtr (Some x))))
      \/ (exists z o x, content fd = GPtr z o /\ run env (f z) inp = Done (x, None) rest
          /\ option_map content (nth_error fs' (Z.to_nat i)) = Some (GPtr z (Some x)))).
Proof.
  intros I R. unfold get_target_alternative in R. destruct (zlen fs <=? i) eqn:B; [discriminate R|].
  destruct (clear_targets E i fs) as [l|] eqn:C; [|discriminate R]. apply clear_targets_nil in C as [L N].
  destruct (nth_error fs (Z.to_nat i)) as [fd|] eqn:D; [|discriminate R]. exists fd. split; [reflexivity|]. cbv zeta in R.
  assert (K : (Z.to_nat i < length l)%nat) by (rewrite L; apply nth_error_Some; congruence).
  assert (ST : forall (q : io target),
    run env ('(x, err) <-- q ;;
             match err with
             | Some e => DRet (l, Some e)
             | None => if exported fd then DRet (replace_nth (Z.to_nat i) (refilled fd x) l, None)
                       else DPanic "value obtained using unexported field"
             end) inp = Done (fs', None) rest ->
    exists x, run env q inp = Done (x, None) rest /\ fs' = replace_nth (Z.to_nat i) (refilled fd x) l).
  { intros q Q. rewrite run_dbind in Q. destruct (run env q inp) as [[x [e|]] r|c|]; try discriminate Q.
    destruct (exported fd); [|discriminate Q]. cbn [run] in Q. exists x. split; congruence. }
  assert (OTHERS : forall x, fs' = replace_nth (Z.to_nat i) x l -> length fs' = length fs
    /\ forall j fd, j <> Z.to_nat i -> nth_error fs j = Some fd -> exists fd', nth_error fs' j = Some fd' /\ held_nil (content fd')
        /\ (fd' = fd \/ content fd' = zero_target E (content fd))).
  { intros x ->. destruct (replaced x (Z.to_nat i) l K) as (A1 & A2 & A3). split; [congruence|].
    intros j fd0 J H. apply N in H as (fd' & H & [[Q _]|[_ Q]]); [lia|]. exists fd'. rewrite A3 by exact J. now split. }
  destruct (content fd) as [t v|o| |z o|l0|size z o|kt z o|l0] eqn:CT; try discriminate R.
  - destruct (head E t) as [| | |t'| | | | | |] eqn:H; try discriminate R. apply ST in R as (x & R & Q). destruct (OTHERS _ Q) as [O1 O2]. split; [exact O1|]. split; [exact O2|].
    left. rewrite run_dbind in R. destruct (run env (p t' (zero E t')) inp) as [[y e] r|c|] eqn:Y; try discriminate R. cbn [run] in R.
    assert (x = GPlain t (RPtr (Some y))) by congruence. assert (e = None) by congruence. assert (r = rest) by congruence. subst x e r.
    exists t, v, t', y. repeat split; try assumption. subst fs'. destruct (replaced (refilled fd (GPlain t (RPtr (Some y)))) (Z.to_nat i) l K) as (_ & A2 & _). rewrite A2. cbn [option_map].
    destruct fd as [[[[tg vis] t0] v0]|[[o vis] g]]; cbn [refilled content] in *; [|reflexivity]. congruence.
  - apply ST in R as (x & R & Q). destruct (OTHERS _ Q) as [O1 O2]. split; [exact O1|]. split; [exact O2|].
    right. rewrite run_dbind in R. destruct (run env (f z) inp) as [[y e] r|c|] eqn:Y; try discriminate R. cbn [run] in R.
    assert (x = GPtr z (Some y)) by congruence. assert (e = None) by congruence. assert (r = rest) by congruence. subst x e r.
    exists z, o, y. repeat split; try assumption. subst fs'. destruct (replaced (refilled fd (GPtr z (Some y))) (Z.to_nat i) l K) as (_ & A2 & _). rewrite A2. cbn [option_map].
    destruct fd as [[[[tg vis] t0] v0]|[[o' vis] g]]; cbn [refilled content] in *; [discriminate|reflexivity].
Qed.
