(** How much a decoded value holds. *)
From Verif Require Import Base Prog GoVarint AbiPrim BaseProofs SpecWire ProgProofs AbiPrimProofs Chain SpecChain ChainProofs
  Values Leaf SpecLeaf LeafProofs Reflect SpecReflect SpecStrict SpecCanonical CanonicalProofs ReencodeProofs BulkProofs SpecContents.
Import Reflect SpecReflect.

(** ** Leaves *)
Definition frugal {A} (m : A -> Z) (p : io A) : Prop := takes (fun c x => m x < zlen c) p.
Lemma nonempty_pos {A} (c : list A) : c <> [] -> 0 < zlen c.
Proof. destruct c; [congruence|]. intros _. unfold zlen. cbn [length]. lia. Qed.
Lemma frugal_eats {A} (m : A -> Z) p : (forall x, m x = 0) -> eats p -> frugal m p.
Proof. intros Z E. eapply takes_weaken; [exact E|]. intros c x N. cbv beta in N |- *. rewrite Z. now apply nonempty_pos. Qed.
Lemma frugal_wrap {A} (m : prim -> Z) (g : A -> prim) p : frugal (fun x => m (g x)) p -> frugal m (wrap g p).
Proof. intros H. eapply takes_wrap; [exact H|]. auto. Qed.
Lemma frugal_bytes {p : io (list byte)} : takes (fun c b => 1 + zlen b <= zlen c) p -> frugal zlen p.
Proof. intros H. eapply takes_weaken; [exact H|]. intros c b L. cbv beta in *. lia. Qed.
Lemma GoBytes_bulk old : takes (fun c b => 1 + zlen b <= zlen c) (DecodeByteSlice old).
Proof.
  apply sized_bulk. intros env inp b rest R. unfold DecodeByteSlice in R. rewrite run_dbind in R.
  destruct (run env ReadVaruint inp) as [[l [e|]] r|m|]; try discriminate. rewrite run_dbind in R.
  destruct (run env (ReadBytes (i64 l)) r) as [[[n d] [e|]] r'|m|] eqn:E; try discriminate. cbn [run] in R. injection R as <- <-. eauto 6.
Qed.
Lemma eats_permission old : takes (fun c p => 16 <= zlen c) (PermissionLevel_UnmarshalABI old).
Proof.
  eapply takes_weaken; [apply WPermission_takes|]. intros c p W. cbv beta in *.
  rewrite (writes_det _ _ _ W (PL_writes _)). unfold b_pl, zlen. rewrite app_length, !le_put_length. lia.
Qed.
Lemma auths_bulk n : forall acc, takes (fun c l => zlen l <= zlen acc + zlen c) (read_auths n acc).
Proof.
  induction n as [|n IH]; intros acc; cbn [read_auths].
  { apply takes_ret. change (zlen []) with 0. lia. }
  eapply takes_bind; [apply eats_permission| |intros; apply takes_error]. intros c p P. cbv beta iota.
  eapply takes_weaken; [apply IH|]. intros c' l L. cbv beta in *. rewrite zlen_app in L. rewrite zlen_app. change (zlen [p]) with 1 in L. lia.
Qed.
Lemma action_frugal old : Authorization old = [] -> frugal action_contents (Action_UnmarshalABI old).
Proof.
  intros F env inp a rest R. apply Action_success in R as (acc & nm & au & d & (r1 & r2 & l & r3 & r4 & R1 & R2 & R3 & R4 & R5) & ->).
  rewrite F. cbn [app]. apply U64_takes in R1 as (c1 & -> & _). apply U64_takes in R2 as (c2 & -> & _).
  apply Varuint_takes in R3 as (pre & -> & _). apply auths_bulk in R4 as (c4 & -> & L4).
  apply Bytes_bulk in R5 as (c5 & -> & L5). exists (c1 ++ c2 ++ pre ++ c4 ++ c5).
  split; [now rewrite <- !app_assoc|]. unfold action_contents. cbn [Authorization AData app]. rewrite !zlen_app.
  change (zlen []) with 0 in L4.
  pose proof (zlen_nonneg c1). pose proof (zlen_nonneg c2). pose proof (zlen_nonneg pre). lia.
Qed.
Lemma ext_frugal old : frugal extension_contents (TransactionExtension_UnmarshalABI old).
Proof.
  eapply takes_bind; [apply eats_u16| |intros; apply takes_error]. intros c a A. cbv beta iota zeta.
  eapply takes_bind; [apply Bytes_bulk| |intros; apply takes_error]. intros c' b B. cbv beta in B.
  apply takes_ret. unfold extension_contents. cbn [EData]. rewrite app_nil_r, zlen_app. pose proof (zlen_nonneg c). lia.
Qed.
Lemma all_bulk {A} (m : A -> Z) zero f : frugal m (f zero) -> forall n, takes (fun c l => contents_of m l <= zlen c) (read_all zero f n).
Proof.
  intros F n. induction n as [|n IH]; cbn [read_all]; [apply takes_ret; reflexivity|].
  eapply takes_bind; [exact F| |intros; apply takes_error]. intros c x X. cbv beta iota in *.
  eapply takes_bind; [apply IH| |intros; apply takes_error]. intros c' xs L. cbv beta in L. apply takes_ret. rewrite app_nil_r, zlen_app.
  change (contents_of m (x :: xs)) with (1 + m x + contents_of m xs). lia.
Qed.
Lemma slice_bulk {A} (m : A -> Z) size zero f old : frugal m (f zero) -> frugal (contents_of m) (read_slice size zero f old).
Proof.
  intros F. eapply takes_bind; [apply eats_varuint| |intros; apply takes_error]. intros pre l N.
  cbv beta iota in *. destruct (make_ok size l); [|apply takes_panic].
  eapply takes_weaken; [apply (all_bulk m); exact F|]. intros c xs L. cbv beta in *. rewrite zlen_app. apply nonempty_pos in N. lia.
Qed.
Lemma transaction_frugal old : frugal (fun t => kept (PTransaction t)) (Transaction_UnmarshalABI old).
Proof.
  eapply takes_bind; [apply takes_any| |intros; apply takes_error]. intros c1 h _. cbv beta iota zeta.
  eapply takes_bind; [apply (slice_bulk action_contents); now apply action_frugal| |intros; apply takes_error].
  intros c2 a A. cbv beta iota zeta in *.
  eapply takes_bind; [apply (slice_bulk action_contents); now apply action_frugal| |intros; apply takes_error].
  intros c3 b B. cbv beta iota zeta in *.
  eapply takes_bind; [apply (slice_bulk extension_contents); now apply ext_frugal| |intros; apply takes_error].
  intros c4 c C. cbv beta in *. apply takes_ret. cbn [kept ContextFreeActions Actions Extensions]. rewrite app_nil_r, !zlen_app.
  pose proof (zlen_nonneg c1). lia.
Qed.
Lemma prim_frugal k : frugal kept (read_prim (zero_prim k)).
Proof.
  destruct k; cbn [zero_prim read_prim]; apply frugal_wrap; cbn [kept];
    first [ exact (frugal_bytes String_bulk) | exact (frugal_bytes (GoBytes_bulk _)) | exact (frugal_bytes (Bytes_bulk _))
    | now apply action_frugal | apply ext_frugal | apply transaction_frugal
    | eapply takes_weaken; [first [apply (WPublicKey_takes false)|apply (WSignature_takes false)]|]; intros c x K; apply key_bulk in K; cbv beta; lia
    | apply frugal_eats; [reflexivity|] ].
  all: try eat.
  all: try (apply eats_first; [eat|intros; apply takes_any|intros; try (destruct a); apply takes_error]).
  all: try (eapply takes_weaken; [apply eats_permission|]; intros c p L ->; cbv in L; congruence).
Qed.

(** ** Sums *)
Definition sum (l : list rval) : Z := fold_right (fun v s => contents v + s) 0 l.
Definition sum1 (l : list rval) : Z := fold_right (fun v s => 1 + contents v + s) 0 l.
Definition sum2 (m : list (rval * rval)) : Z := fold_right (fun '(k, v) s => 1 + contents k + contents v + s) 0 m.
Lemma contents_array l : contents (RArray l) = sum l.
Proof. induction l as [|v l IH]; [reflexivity|]. cbn [contents] in *. change (sum (v :: l)) with (contents v + sum l). lia. Qed.
Lemma contents_struct l : contents (RStruct l) = sum l.
Proof. exact (contents_array l). Qed.
Lemma contents_slice l : contents (RSlice (Some l)) = sum1 l.
Proof. induction l as [|v l IH]; [reflexivity|]. cbn [contents] in *. change (sum1 (v :: l)) with (1 + contents v + sum1 l). lia. Qed.
Lemma contents_map m : contents (RMap (Some m)) = sum2 m.
Proof. induction m as [|[k v] m IH]; [reflexivity|]. cbn [contents] in *. change (sum2 ((k, v) :: m)) with (1 + contents k + contents v + sum2 m). lia. Qed.
Lemma contents_of_nonneg {A} (f : A -> Z) l : (forall x, 0 <= f x) -> 0 <= contents_of f l.
Proof. intros H. induction l as [|x l IH]; [cbn; lia|]. change (contents_of f (x :: l)) with (1 + f x + contents_of f l). specialize (H x). lia. Qed.
Lemma kept_nonneg p : 0 <= kept p.
Proof.
  assert (A : forall a, 0 <= action_contents a) by (intros a; unfold action_contents; pose proof (zlen_nonneg (Authorization a)); pose proof (zlen_nonneg (AData a)); lia).
  assert (X : forall e, 0 <= extension_contents e) by (intros e; apply zlen_nonneg).
  destruct p; cbn [kept]; try lia; try apply zlen_nonneg; auto.
  pose proof (contents_of_nonneg action_contents (ContextFreeActions t) A). pose proof (contents_of_nonneg action_contents (Actions t) A).
  pose proof (contents_of_nonneg extension_contents (Extensions t) X). lia.
Qed.
Lemma contents_nonneg : forall v, 0 <= contents v.
Proof.
  fix IH 1. intros [p z|v|z|[v|]|[l|]|l|[m|]|l|v]; cbn [contents]; try lia; try apply kept_nonneg; try apply IH.
  - induction l as [|v l IHl]; [lia|]. specialize (IH v). lia.
  - induction l as [|v l IHl]; [lia|]. specialize (IH v). lia.
  - induction m as [|[k v] m IHm]; [lia|]. pose proof (IH k). pose proof (IH v). lia.
  - induction l as [|v l IHl]; [lia|]. specialize (IH v). lia.
Qed.

(** ** Zero values hold nothing *)
Definition zeros_of (fs : list (tag * visibility * gtype)) : list rval := map (fun '(_, _, t) => zero_of t) fs.
Lemma zero_struct fs : zero_of (TStruct fs) = RStruct (zeros_of fs).
Proof. cbn [zero_of]. f_equal. induction fs as [|[[tg vis] t] fs IH]; [reflexivity|]. cbn [zeros_of map]. now rewrite IH. Qed.
Lemma zero_contents : forall t, contents (zero_of t) = 0.
Proof.
  fix IH 1. intros [k|k| |t|t|n t|k v|fs|i u|i]; try reflexivity.
  - destruct k; reflexivity.
  - cbn [zero_of]. rewrite contents_array. induction n as [|n IHn]; [reflexivity|]. cbn [repeat].
    change (sum (zero_of t :: repeat (zero_of t) n)) with (contents (zero_of t) + sum (repeat (zero_of t) n)). rewrite IH. lia.
  - cbn [zero_of contents]. induction fs as [|[[tg vis] t] fs IHfs]; [reflexivity|]. specialize (IH t). lia.
  - cbn [zero_of contents]. apply IH.
Qed.
(** What a target holds: the zero value of its type, or nothing at all where a type
    stands for a name. *)
Definition fresh (E : types) (t : gtype) (v : rval) : Prop := v = zero E t \/ v = ROther true.
Lemma fresh_zero E t : fresh E t (zero E t).
Proof. now left. Qed.
Lemma fresh_zero_of E t : fresh E t (zero_of t).
Proof. destruct t; try (now left). now right. Qed.
Lemma fresh_contents E t v : fresh E t v -> contents v = 0.
Proof. intros [-> | ->]; [apply zero_contents|reflexivity]. Qed.

(** ** Types *)
Definition paid_here (E : types) (t : gtype) : Prop :=
  match head E t with
  | TSlice t => costs E t
  | TMap k v => costs E k \/ costs E v
  | TUser i u => method_frugal E i u
  | _ => True
  end.
Definition paid (E : types) (t : gtype) : Prop := forall pl pl' t', within E (pl, t) (pl', t') -> paid_here E t'.
Lemma paid_self E t : paid E t -> paid_here E t.
Proof. intros P. exact (P Slot Slot t (wi_here _ _)). Qed.
Lemma within_any E a b : within E a b -> forall q, exists q', within E (q, snd a) (q', snd b).
Proof.
  intros W. induction W as [a|a b c P W IH]; intros q; [eexists; apply wi_here|].
  assert (S : exists q1, part E (q, snd a) (q1, snd b)) by (destruct P; cbn [snd]; eexists; econstructor; eassumption).
  destruct S as [q1 S]. destruct (IH q1) as [q2 W2]. exists q2. eapply wi_part; eassumption.
Qed.
Lemma paid_part E pl t pl' t' : paid E t -> part E (pl, t) (pl', t') -> paid E t'.
Proof.
  intros P H q q' u W. destruct (within_any _ _ _ W pl') as [q2 W2]. cbn [snd] in W2. exact (P pl q2 u (wi_part _ _ _ _ H W2)).
Qed.
Lemma paid_of E t : elements_cost E t -> methods_within (method_frugal E) E t -> paid E t.
Proof.
  intros C M q q' u W. destruct (within_any _ _ _ W Target) as [q2 W2]. cbn [snd] in W2. specialize (C q2 u W2). pose proof (M q2 u) as MU.
  unfold paid_here. destruct (head E u); try exact C. now apply MU.
Qed.
Definition cheap (E : types) (t : gtype) (c : list byte) (v : rval) : Prop :=
  contents v <= zlen c /\ (costs E t -> contents v < zlen c).
Definition bounded (E : types) (f : gtype -> rval -> io rval) : Prop :=
  forall t v, paid E t -> fresh E t v -> takes (cheap E t) (f t v).
(** In an alternative the index byte has been read already. *)
Definition bounded_alt (E : types) (f : gtype -> rval -> io rval) : Prop :=
  forall t v, paid E t -> fresh E t v -> takes (fun c x => contents x <= zlen c) (f t v).
Lemma takes_cheap E t p : frugal contents p -> takes (cheap E t) p.
Proof. intros H. eapply takes_weaken; [exact H|]. intros c v L. cbv beta in L. split; [lia|auto]. Qed.
Lemma through_bounded E f : bounded E f -> bounded E (through E f).
Proof.
  intros H t v P F. unfold through. destruct (head E t) eqn:HD; try (now apply H). destruct v; try (now apply H).
  destruct F as [F|F]; [|discriminate]. unfold zero in F. rewrite HD in F. injection F as ->.
  eapply takes_bind; [apply H; [eapply (paid_part E Slot); [exact P|now constructor]|apply fresh_zero]| |intros; apply takes_error].
  intros c x [L S]. apply takes_ret. rewrite app_nil_r. split; [exact L|]. cbn [contents]. intros C. apply S.
  inversion C; congruence.
Qed.
Lemma through_alt E f : bounded_alt E f -> bounded_alt E (through E f).
Proof.
  intros H t v P F. unfold through. destruct (head E t) eqn:HD; try (now apply H). destruct v; try (now apply H).
  destruct F as [F|F]; [|discriminate]. unfold zero in F. rewrite HD in F. injection F as ->.
  eapply takes_bind; [apply H; [eapply (paid_part E Slot); [exact P|now constructor]|apply fresh_zero]| |intros; apply takes_error].
  intros c x L. apply takes_ret. rewrite app_nil_r. exact L.
Qed.
Lemma elems1_bounded f l : (forall v, In v l -> frugal contents (f v)) -> takes (fun c xs => sum1 xs <= zlen c) (get_elems f l).
Proof.
  induction l as [|v l IH]; intros H; cbn [get_elems]; [apply takes_ret; reflexivity|].
  eapply takes_bind; [apply H; now left| |intros; apply takes_error]. intros c x L. cbv beta iota in *.
  eapply takes_bind; [apply IH; intros; apply H; now right| |intros; apply takes_error]. intros c' xs L'. cbv beta in L'. apply takes_ret.
  rewrite app_nil_r, zlen_app. change (sum1 (x :: xs)) with (1 + contents x + sum1 xs). lia.
Qed.
Lemma elems_bounded E t f l : (forall v, In v l -> takes (cheap E t) (f v)) ->
  takes (fun c xs => sum xs <= zlen c /\ (l <> [] -> costs E t -> sum xs < zlen c)) (get_elems f l).
Proof.
  induction l as [|v l IH]; intros H; cbn [get_elems]; [apply takes_ret; split; [reflexivity|congruence]|].
  eapply takes_bind; [apply H; now left| |intros; apply takes_error]. intros c x [L S]. cbv beta iota in *.
  eapply takes_bind; [apply IH; intros; apply H; now right| |intros; apply takes_error]. intros c' xs [L' _]. apply takes_ret.
  rewrite app_nil_r, zlen_app. change (sum (x :: xs)) with (contents x + sum xs). split; [lia|]. intros _ C. specialize (S C). lia.
Qed.
Lemma get_slice_bounded size z f : frugal contents (f z) ->
  frugal (fun o => match o with Some l => sum1 l | None => 0 end) (get_slice size z f None).
Proof.
  intros H. eapply takes_bind; [apply eats_varuint| |intros; apply takes_error]. intros c l N. cbv beta iota in *. apply nonempty_pos in N.
  destruct (zlen [] =? i64 l). { apply takes_ret. rewrite app_nil_r. exact N. }
  destruct (make_ok size (i64 l)); [|apply takes_panic].
  eapply takes_bind; [apply elems1_bounded| |intros; apply takes_error].
  { intros v I. apply repeat_spec in I. now subst v. }
  intros c' xs L. apply takes_ret. rewrite app_nil_r, zlen_app. cbv beta in L. lia.
Qed.
Lemma map_set_sum k x m : sum2 (map_set k x m) <= sum2 m + 1 + contents k + contents x.
Proof.
  induction m as [|[k' x'] m IH]; cbn [map_set].
  - change (sum2 [(k, x)]) with (1 + contents k + contents x + 0). change (sum2 []) with 0. lia.
  - change (sum2 ((k', x') :: m)) with (1 + contents k' + contents x' + sum2 m). pose proof (contents_nonneg k'). pose proof (contents_nonneg x').
    destruct (rval_dec k k').
    + change (sum2 ((k, x) :: m)) with (1 + contents k + contents x + sum2 m). lia.
    + change (sum2 ((k', x') :: map_set k x m)) with (1 + contents k' + contents x' + sum2 (map_set k x m)). lia.
Qed.
Lemma get_pairs_bounded E kt vt fk fv : takes (cheap E kt) fk -> takes (cheap E vt) fv -> costs E kt \/ costs E vt ->
  forall n m, takes (fun c m' => sum2 m' <= sum2 m + zlen c) (get_pairs fk fv n m).
Proof.
  intros HK HV C n. induction n as [|n IH]; intros m; cbn [get_pairs].
  { apply takes_ret. change (zlen []) with 0. lia. }
  eapply takes_bind; [exact HK| |intros; apply takes_error]. intros c k [LK SK]. cbv beta iota.
  eapply takes_bind; [exact HV| |intros; apply takes_error]. intros c' x [LX SX]. cbv beta iota.
  eapply takes_weaken; [apply IH|]. intros c2 m' L. cbv beta in L. pose proof (map_set_sum k x m). rewrite !zlen_app.
  destruct C as [C|C]; [specialize (SK C)|specialize (SX C)]; lia.
Qed.
Lemma get_map_bounded E kt vt fk fv o : takes (cheap E kt) fk -> takes (cheap E vt) fv -> costs E kt \/ costs E vt ->
  frugal (fun o => contents (RMap o)) (get_map fk fv o).
Proof.
  intros HK HV C. eapply takes_bind; [apply eats_varuint| |intros; apply takes_error]. intros c l N. cbv beta iota in *. apply nonempty_pos in N.
  eapply takes_bind; [exact (get_pairs_bounded E kt vt fk fv HK HV C _ [])| |intros; apply takes_error].
  intros c' m L. apply takes_ret. cbv beta in L. change (sum2 []) with 0 in L. rewrite app_nil_r, zlen_app, contents_map. lia.
Qed.
Lemma field_bounded E f g tg vis t v : bounded E f -> (forall t v, paid E t -> fresh E t v -> frugal contents (g t v)) -> paid E t -> fresh E t v ->
  takes (fun c x => contents x <= zlen c /\ (vis = Exported -> tg = Optional \/ tg = Variant \/ (tg = NoTag /\ costs E t) -> contents x < zlen c))
    (get_field E f g (tg, vis, t) v).
Proof.
  intros HF HG P F. unfold get_field. destruct vis.
  - destruct tg.
    + eapply takes_weaken; [apply through_bounded; eassumption|]. intros c x [L S]. split; [exact L|].
      intros _ [X|[X|[_ X]]]; [discriminate X|discriminate X|auto].
    + eapply takes_bind; [apply eats_bool| |intros; apply takes_error]. intros c b N. cbv beta iota in *. apply nonempty_pos in N. destruct b.
      * eapply takes_weaken; [apply through_bounded; eassumption|]. intros c' x [L _]. rewrite zlen_app. split; [lia|]. intros _ _. lia.
      * apply takes_ret. rewrite app_nil_r. unfold zero. rewrite zero_contents. split; [lia|]. intros _ _. lia.
    + intros env inp x rest R. rewrite run_dbind in R.
      destruct (run env (through E f t v) inp) as [[y [e|]] r|s|] eqn:R'; try discriminate R.
      * apply prefix_of in R' as [c ->]. destruct e; cbn [run] in R; try discriminate R. injection R as <- <-. exists c. split; [reflexivity|].
        unfold zero. rewrite zero_contents. split; [apply zlen_nonneg|]. intros _ [X|[X|[X _]]]; discriminate X.
      * apply (through_bounded E f HF t v P F) in R' as (c & -> & L & _). cbn [run] in R. injection R as <- <-. exists c. split; [reflexivity|].
        split; [exact L|]. intros _ [X|[X|[X _]]]; discriminate X.
    + assert (X : takes (fun c x => contents x < zlen c) (through E g t v)).
      { unfold through. destruct (head E t) eqn:HD; try (now apply HG). destruct v; try (now apply HG).
        destruct F as [F|F]; [|discriminate]. unfold zero in F. rewrite HD in F. injection F as ->.
        eapply takes_bind; [apply HG; [eapply (paid_part E Slot); [exact P|now constructor]|apply fresh_zero]| |intros; apply takes_error].
        intros c x L. apply takes_ret. rewrite app_nil_r. exact L. }
      eapply takes_weaken; [exact X|]. intros c x L. cbv beta in L. split; [lia|auto].
  - apply takes_ret. rewrite (fresh_contents E t v F). split; [reflexivity|discriminate].
  - apply takes_panic.
Qed.
Lemma fields_bounded E f g : bounded E f -> (forall t v, paid E t -> fresh E t v -> frugal contents (g t v)) ->
  forall fs, (forall tg vis t, In (tg, vis, t) fs -> paid E t) ->
  takes (fun c xs => sum xs <= zlen c
    /\ ((exists tg t, In (tg, Exported, t) fs /\ (tg = Optional \/ tg = Variant \/ (tg = NoTag /\ costs E t))) -> sum xs < zlen c))
    (get_fields E f g fs (zeros_of fs)).
Proof.
  intros HF HG fs. induction fs as [|[[tg vis] t] fs IH]; intros P; cbn [zeros_of map get_fields].
  { apply takes_ret. split; [reflexivity|]. intros (? & ? & [] & _). }
  eapply takes_bind; [apply field_bounded; [exact HF|exact HG|eapply P; now left|apply fresh_zero_of]| |intros; apply takes_error].
  intros c x [L S]. cbv beta iota.
  eapply takes_bind; [apply IH; intros; eapply P; right; eassumption| |intros; apply takes_error]. intros c' xs [L' S']. apply takes_ret.
  rewrite app_nil_r, zlen_app. change (sum (x :: xs)) with (contents x + sum xs). split; [lia|].
  intros (tg' & t' & [X|X] & H).
  - injection X as -> -> ->. specialize (S eq_refl H). lia.
  - specialize (S' (ex_intro _ tg' (ex_intro _ t' (conj X H)))). lia.
Qed.
Lemma clear_zeros E fs : forall i l, sum l = 0 -> forall l', clear_others E i fs l = Some l' -> sum l' = 0.
Proof.
  induction fs as [|[[tg vis] t] fs IH]; intros i l Z l' H; cbn [clear_others] in H; [injection H as <-; exact Z|].
  destruct l as [|v l]; [injection H as <-; exact Z|]. change (sum (v :: l)) with (contents v + sum l) in Z.
  pose proof (contents_nonneg v). assert (S0 : forall l, 0 <= sum l).
  { intros k. rewrite <- contents_struct. apply contents_nonneg. } pose proof (S0 l).
  destruct (clear_others E (i - 1) fs l) as [l2|] eqn:C; [|discriminate]. apply IH in C; [|lia].
  destruct (i =? 0). { injection H as <-. change (sum (v :: l2)) with (contents v + sum l2). lia. }
  destruct (match head E t with TPtr _ | TSlice _ | TMap _ _ | TLeaf KGoBytes | TLeaf KBytes | TLeaf KBlob => true
            | TUser _ (TSlice _) | TUser _ (TMap _ _) => true | _ => false end); [|discriminate].
  destruct (is_zero v). { injection H as <-. change (sum (v :: l2)) with (contents v + sum l2). lia. }
  destruct vis; try discriminate. injection H as <-. change (sum (zero E t :: l2)) with (contents (zero E t) + sum l2).
  unfold zero. rewrite zero_contents. lia.
Qed.
Lemma replace_sum n x l : sum l = 0 -> sum (replace_nth n x l) <= contents x.
Proof.
  assert (S0 : forall l, 0 <= sum l). { intros k. rewrite <- contents_struct. apply contents_nonneg. }
  revert l. induction n as [|n IH]; intros [|y l] Z; cbn [replace_nth]; pose proof (contents_nonneg x).
  - exact H.
  - change (sum (y :: l)) with (contents y + sum l) in Z. change (sum (x :: l)) with (contents x + sum l). pose proof (contents_nonneg y). pose proof (S0 l). lia.
  - exact H.
  - change (sum (y :: l)) with (contents y + sum l) in Z. change (sum (y :: replace_nth n x l)) with (contents y + sum (replace_nth n x l)).
    pose proof (contents_nonneg y). pose proof (S0 l). specialize (IH l ltac:(lia)). lia.
Qed.
Lemma alternative_bounded E f i fs : bounded E f -> (forall tg vis t, In (tg, vis, t) fs -> paid E t) ->
  takes (fun c xs => sum xs <= zlen c) (get_alternative E f i fs (zeros_of fs)).
Proof.
  intros HF P. unfold get_alternative. destruct (zlen fs <=? i); [apply takes_error|].
  destruct (clear_others E i fs (zeros_of fs)) as [l|] eqn:C; [|apply takes_panic].
  assert (Z : sum l = 0). { eapply clear_zeros; [|exact C]. rewrite <- contents_struct, <- zero_struct. apply zero_contents. }
  destruct (nth_error fs (Z.to_nat i)) as [[[tg vis] t]|] eqn:N; [|apply takes_panic]. apply nth_error_In in N.
  destruct (head E t) eqn:HD; try apply takes_error.
  eapply takes_bind; [apply HF; [eapply (paid_part E Slot); [eapply P, N|now constructor]|apply fresh_zero]| |intros; apply takes_error].
  intros c x [L _]. cbv beta iota. destruct vis; [|apply takes_panic|apply takes_panic]. apply takes_ret. rewrite app_nil_r.
  pose proof (replace_sum (Z.to_nat i) (RPtr (Some x)) l Z). cbn [contents] in H. lia.
Qed.
Lemma leaf_frugal k : frugal contents (leaf_read (zero_prim k)).
Proof. eapply takes_map; [apply prim_frugal|]. auto. Qed.
Lemma byte_slice_contents o : contents (byte_slice o) = match o with Some l => zlen l | None => 0 end.
Proof. destruct o as [l|]; cbn [byte_slice contents kept]; [unfold zlen; now rewrite map_length|reflexivity]. Qed.
Lemma sum1_length l : zlen l <= sum1 l.
Proof.
  induction l as [|v l IH]; [reflexivity|]. rewrite zlen_cons. change (sum1 (v :: l)) with (1 + contents v + sum1 l). pose proof (contents_nonneg v). lia.
Qed.

Lemma struct_costs E t fs : head E t = TStruct fs -> costs E t ->
  exists tg t', In (tg, Exported, t') fs /\ (tg = Optional \/ tg = Variant \/ (tg = NoTag /\ costs E t')).
Proof. intros HD C. inversion C; try congruence; assert (fs0 = fs) by congruence; subst fs0; eauto 8. destruct H1; eauto 8. Qed.
Lemma decode_bounded E : forall fuel, bounded E (decode fuel E chain_decoder Whole) /\ bounded E (decode fuel E chain_decoder Deref)
  /\ forall i, bounded_alt E (decode fuel E chain_decoder (Alt i)).
Proof.
  induction fuel as [|fuel (IW & ID & IA)].
  { split; [|split]; intros; intros t v P F; apply takes_fuel. }
  assert (FLD : forall t fs, head E t = TStruct fs -> paid E t -> forall tg vis t', In (tg, vis, t') fs -> paid E t').
  { intros t fs HD P tg vis t' I. eapply (paid_part E Slot t Slot); [exact P|]. eapply pt_field; eassumption. }
  split; [|split].
  - intros t v P F. cbn [decode]. destruct F as [-> | ->].
    2:{ assert (X : forall k, takes (cheap E t) (dbind (chain_decoder (head E t) (ROther true)) k) <-> takes (cheap E t) (k (ROther true, (false, None)))).
        { intros k. destruct (head E t); reflexivity. }
        apply X. cbv iota beta. destruct (head E t); apply (ID t (ROther true) P); now right. }
    unfold zero at 1. destruct (head E t) as [k|k| |t0|t0|n t0|k w|fs|i0 u0|i0] eqn:HD; cbn [zero_of chain_decoder dbind].
    1:{ destruct (table_kind k).
        - intros env inp x rest R. rewrite run_dbind in R. rewrite run_dbind in R.
          destruct (run env (leaf_read (zero_prim k)) inp) as [[y e] r|s|] eqn:R'; try discriminate R. cbn [run] in R. injection R as <- -> <-.
          exact (takes_cheap E t _ (leaf_frugal k) _ _ _ _ R').
        - cbn [dbind]. destruct (go_kind k); [apply takes_cheap, leaf_frugal|].
          apply ID; [exact P|left; unfold zero; now rewrite HD]. }
    all: apply ID; [exact P|left; unfold zero; now rewrite HD].
  - intros t v P F. cbn [decode]. pose proof (paid_self E t P) as PH. unfold paid_here in PH.
    destruct F as [-> | ->]; [|destruct (head E t); apply takes_error]. unfold zero.
    destruct (head E t) as [k|k| |t0|t0|n t0|k w|fs|i0 u0|i0] eqn:HD; cbn [zero_of]; try apply takes_error.
    + destruct (go_kind k) eqn:GK; [|apply takes_cheap, leaf_frugal].
      destruct k; try discriminate GK; cbn [zero_prim]; try apply takes_error.
      1-4: eapply takes_bind; [first [exact (leaf_frugal KU32)|exact (leaf_frugal KU64)|exact (leaf_frugal KI32)|exact (leaf_frugal KI64)]| |intros; apply takes_error];
           intros c x L; apply takes_ret; rewrite app_nil_r; cbv beta in L; split; [lia|auto].
      apply takes_cheap. eapply takes_bind; [apply get_slice_bounded| |intros; apply takes_error].
      * assert (PB : paid E (TLeaf KU8)).
        { intros q q' u W. inversion W as [a|a b c PT W']; subst; [exact I|]. inversion PT; discriminate. }
        eapply takes_weaken; [apply (IW (TLeaf KU8) (zero E (TLeaf KU8)) PB (fresh_zero _ _))|]. intros c x [_ S]. apply S. eapply co_leaf. reflexivity.
      * intros c o L. apply takes_ret. rewrite app_nil_r, byte_slice_contents. cbv beta in L. destruct o as [l|]; [|exact L].
        pose proof (sum1_length l). lia.
    + apply takes_cheap. assert (X : forall p : io Z, eats p -> frugal contents ('(v, err) <-- keep 0 p;; DRet (RInt v, err))).
      { intros p H. eapply takes_bind; [apply takes_keep, H| |intros; apply takes_error]. intros c x N. apply takes_ret. rewrite app_nil_r.
        cbn [contents]. now apply nonempty_pos. }
      apply X. destruct k; [apply eats_u64|apply eats_u32| |].
      * first [eat | apply eats_first; [eat|intros; apply takes_any|intros; apply takes_error]].
      * first [eat | apply eats_first; [eat|intros; apply takes_any|intros; apply takes_error]].
    + change (RPtr None) with (zero_of (TPtr t0)). rewrite <- HD. fold (zero E t).
      apply through_bounded; [exact ID|exact P|apply fresh_zero].
    + apply takes_cheap. eapply takes_bind; [apply get_slice_bounded| |intros; apply takes_error].
      * eapply takes_weaken; [apply through_bounded; [exact IW|eapply (paid_part E Slot); [exact P|now constructor]|apply fresh_zero]|].
        intros c x [_ S]. exact (S PH).
      * intros c o L. apply takes_ret. rewrite app_nil_r. destruct o as [l|]; [rewrite contents_slice|]; exact L.
    + eapply takes_bind; [apply (elems_bounded E t0)| |intros; apply takes_error].
      * intros x I. apply repeat_spec in I. subst x. apply through_bounded; [exact IW|eapply (paid_part E Slot); [exact P|econstructor; exact HD]|apply fresh_zero_of].
      * intros c xs [L S]. apply takes_ret. rewrite app_nil_r. unfold cheap. rewrite contents_array. split; [exact L|]. intros C.
        inversion C; try congruence. assert (n = Datatypes.S n0) by congruence. assert (t' = t0) by congruence. subst. apply S; [discriminate|assumption].
    + apply takes_cheap. eapply takes_bind; [eapply (get_map_bounded E)| |intros; apply takes_error].
      * apply IW; [eapply (paid_part E Slot); [exact P|eapply pt_key, HD]|apply fresh_zero].
      * apply IW; [eapply (paid_part E Slot); [exact P|eapply pt_value, HD]|apply fresh_zero].
      * exact PH.
      * intros c o L. apply takes_ret. rewrite app_nil_r. exact L.
    + pose proof (zero_struct fs) as ZS; cbn [zero_of] in ZS; injection ZS as ZS; rewrite ZS; clear ZS. eapply takes_bind; [apply (fields_bounded E)| |intros; apply takes_error].
      * exact IW.
      * intros t' v' P' F'. eapply takes_bind; [apply eats_byte| |intros; apply takes_error]. intros c i N. cbv beta iota in *. apply nonempty_pos in N.
        eapply takes_weaken; [apply IA; eassumption|]. intros c' x L. cbv beta in *. rewrite zlen_app. lia.
      * exact (FLD t fs HD P).
      * intros c xs [L S]. apply takes_ret. rewrite app_nil_r. unfold cheap. rewrite contents_struct. split; [exact L|]. intros C. apply S.
        exact (struct_costs E t fs HD C).
    + apply takes_cheap. eapply takes_bind; [intros env inp x rest R; apply PH in R as (c & -> & L); exists c; split; [reflexivity|exact L]| |intros; apply takes_error].
      intros c x L. apply takes_ret. rewrite app_nil_r. exact L.
  - intros i t v P F. cbn [decode]. pose proof (paid_self E t P) as PH. unfold paid_here in PH.
    destruct F as [-> | ->]; [|destruct (head E t); apply takes_error]. unfold zero.
    destruct (head E t) as [k|k| |t0|t0|n t0|k w|fs|i0 u0|i0] eqn:HD; cbn [zero_of]; try apply takes_error.
    + destruct (go_kind k); [apply takes_error|]. eapply takes_weaken; [apply leaf_frugal|]. intros c x L. cbv beta in *. lia.
    + change (RPtr None) with (zero_of (TPtr t0)). rewrite <- HD. fold (zero E t).
      apply through_alt; [apply IA|exact P|apply fresh_zero].
    + pose proof (zero_struct fs) as ZS; cbn [zero_of] in ZS; injection ZS as ZS; rewrite ZS; clear ZS. eapply takes_bind; [apply (alternative_bounded E)| |intros; apply takes_error].
      * exact IW.
      * exact (FLD t fs HD P).
      * intros c xs L. apply takes_ret. rewrite app_nil_r, contents_struct. exact L.
    + eapply takes_bind; [intros env inp x rest R; apply PH in R as (c & -> & L); exists c; split; [reflexivity|exact L]| |intros; apply takes_error].
      intros c x L. apply takes_ret. rewrite app_nil_r. cbn [contents]. cbv beta in L. lia.
Qed.
