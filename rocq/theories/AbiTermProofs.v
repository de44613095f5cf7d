(** Termination of the dynamic codec: fuel only matters for non-terminating types. *)
From Verif Require Import Base Prog GoVarint AbiPrim BaseProofs SpecWire ProgProofs AbiPrimProofs Chain SpecChain ChainProofs
  Values Leaf SpecLeaf LeafProofs AbiDyn SpecAbi AbiResolveProofs AbiCodecProofs.

(** ** More fuel gives the same result *)
Inductive dle {A} : dec A -> dec A -> Prop :=
| dle_fuel q : dle DFuel q
| dle_ret a : dle (DRet a) (DRet a)
| dle_panic m : dle (DPanic m) (DPanic m)
| dle_read n k k' : (forall bs e, dle (k bs e) (k' bs e)) -> dle (DRead n k) (DRead n k')
| dle_go k k' : (forall b, dle (k b) (k' b)) -> dle (DGo k) (DGo k').
Lemma dle_refl {A} (p : dec A) : dle p p.
Proof. induction p; constructor; auto. Qed.
Lemma dle_bind {A B} (p q : dec A) (f g : A -> dec B) :
  dle p q -> (forall a, dle (f a) (g a)) -> dle (dbind p f) (dbind q g).
Proof. intros H Hf. induction H; cbn [dbind]; auto; constructor; auto. Qed.
Lemma dle_run {A} env (p q : dec A) : dle p q -> forall inp,
  run env p inp = Diverged \/ run env q inp = run env p inp.
Proof.
  intros H. induction H; intros inp; cbn [run]; auto. destruct (n <=? zlen inp); auto.
Qed.
Inductive ele {A} : enc A -> enc A -> Prop :=
| ele_fuel q : ele EFuel q
| ele_ret a : ele (ERet a) (ERet a)
| ele_panic m : ele (EPanic m) (EPanic m)
| ele_write bs k k' : (forall e, ele (k e) (k' e)) -> ele (EWrite bs k) (EWrite bs k').
Lemma ele_refl {A} (p : enc A) : ele p p.
Proof. induction p; constructor; auto. Qed.
Lemma ele_bind {A B} (p q : enc A) (f g : A -> enc B) :
  ele p q -> (forall a, ele (f a) (g a)) -> ele (ebind p f) (ebind q g).
Proof. intros H Hf. induction H; cbn [ebind]; auto; constructor; auto. Qed.
Lemma ele_etry p q p' q' : ele p p' -> ele q q' -> ele (etry p q) (etry p' q').
Proof. intros H H'. apply ele_bind; [exact H|]. intros [e|]; [apply ele_refl|exact H']. Qed.
Lemma ele_run {A} (p q : enc A) : ele p q -> forall out,
  runw p out = WDiverged \/ runw q out = runw p out.
Proof. intros H. induction H; intros out; cbn [runw]; eauto. Qed.

Lemma decode_elems_mono f g : dle f g -> forall n acc, dle (decode_elems f n acc) (decode_elems g n acc).
Proof.
  intros H n. induction n as [|n IH]; intros acc; cbn [decode_elems]; [constructor|].
  apply dle_bind; [exact H|]. intros [x [e|]]; [constructor|apply IH].
Qed.
Lemma decode_fields_mono rec rec' : (forall n, dle (rec n) (rec' n)) -> forall fs acc,
  dle (decode_fields rec fs acc) (decode_fields rec' fs acc).
Proof.
  intros H fs. induction fs as [|[f t] fs IH]; intros acc; cbn [decode_fields]; [constructor|].
  apply dle_bind; [apply H|]. intros [x [e|]]; [constructor|apply IH].
Qed.
Lemma decodeInner_mono rec rec' tbl t : (forall n, dle (rec n) (rec' n)) ->
  dle (decodeInner rec tbl t) (decodeInner rec' tbl t).
Proof.
  intros H. unfold decodeInner. destruct (t_ref t); [apply H|].
  destruct (allFields tbl (t_name t)); [now apply decode_fields_mono|].
  destruct (t_variant t) as [l|]; [|apply dle_refl].
  apply dle_bind; [apply dle_refl|]. intros [i [e|]]; [constructor|].
  destruct (zlen l <=? i64 i); [constructor|]. destruct (at_ l i); [|constructor].
  apply dle_bind; [apply H|]. intros [x [e|]]; constructor.
Qed.
Lemma decodeType_mono tbl fuel : forall n, dle (decodeType fuel tbl n) (decodeType (S fuel) tbl n).
Proof.
  induction fuel as [|fuel IH]; intros n; [constructor|].
  destruct (lookup tbl n) as [t|] eqn:L; [|cbn [decodeType]; rewrite L; constructor].
  rewrite !(decodeType_S _ _ _ _ L).
  assert (B : dle (dec_body fuel tbl t) (dec_body (S fuel) tbl t)).
  { unfold dec_body. pose proof (decodeInner_mono _ _ tbl t IH) as I. destruct (t_isArray t).
    - apply dle_bind; [apply dle_refl|]. intros [l [e|]]; [apply dle_refl|].
      destruct (make_ok 16 l); [|constructor].
      apply dle_bind; [now apply decode_elems_mono|]. intros; apply dle_refl.
    - apply dle_bind; [exact I|]. intros; apply dle_refl. }
  destruct (t_isOptional t); [|exact B].
  apply dle_bind; [apply dle_refl|]. intros [x [e|]]; [constructor|]. destruct x; [exact B|constructor].
Qed.
Lemma decodeType_stable env tbl fuel fuel' n inp : (fuel <= fuel')%nat ->
  run env (decodeType fuel tbl n) inp <> Diverged ->
  run env (decodeType fuel' tbl n) inp = run env (decodeType fuel tbl n) inp.
Proof.
  intros L. induction L as [|fuel' L IH]; intros H; [reflexivity|].
  destruct (dle_run env _ _ (decodeType_mono tbl fuel' n) inp) as [D|E]; [|rewrite E; auto].
  rewrite IH in D by exact H. contradiction.
Qed.
Lemma encode_elems_mono f g : (forall v, ele (f v) (g v)) -> forall l, ele (encode_elems f l) (encode_elems g l).
Proof.
  intros H l. induction l as [|x l IH]; cbn [encode_elems]; [constructor|]. now apply ele_etry.
Qed.
Lemma encode_fields_mono rec rec' : (forall n v, ele (rec n v) (rec' n v)) -> forall fs m,
  ele (encode_fields rec fs m) (encode_fields rec' fs m).
Proof.
  intros H fs m. induction fs as [|[f t] fs IH]; cbn [encode_fields]; [constructor|]. now apply ele_etry.
Qed.
Lemma encodeInner_mono rec rec' tbl t : (forall n v, ele (rec n v) (rec' n v)) ->
  forall v, ele (encodeInner rec tbl t v) (encodeInner rec' tbl t v).
Proof.
  intros H v. unfold encodeInner. destruct (t_ref t); [apply H|].
  destruct (allFields tbl (t_name t)).
  { destruct v; try constructor. now apply encode_fields_mono. }
  destruct (t_variant t) as [l|]; [|apply ele_refl].
  destruct v as [| |vs| |]; try constructor. destruct vs as [|x [|y [|z vs]]]; try constructor;
    destruct x as [|p| | |]; try constructor; destruct p; try constructor.
  destruct (find_variant 0 s l); [|constructor]. apply ele_etry; [apply ele_refl|apply H].
Qed.
Lemma encodeType_mono tbl fuel : forall n v, ele (encodeType fuel tbl n v) (encodeType (S fuel) tbl n v).
Proof.
  induction fuel as [|fuel IH]; intros n v; [constructor|].
  destruct (lookup tbl n) as [t|] eqn:L; [|cbn [encodeType]; rewrite L; constructor].
  rewrite !(encodeType_S _ _ _ _ _ L).
  assert (B : ele (enc_body fuel tbl t v) (enc_body (S fuel) tbl t v)).
  { unfold enc_body. pose proof (encodeInner_mono _ _ tbl t IH) as I. destruct (t_isArray t); [|apply I].
    destruct v; try constructor. apply ele_etry; [apply ele_refl|now apply encode_elems_mono]. }
  destruct (t_isOptional t).
  - apply ele_bind; [apply ele_refl|]. intros e.
    destruct (negb (negb (is_nil v)) || match e with Some _ => true | None => false end); [constructor|exact B].
  - destruct (negb (negb (is_nil v))); [constructor|exact B].
Qed.
Lemma encodeType_stable tbl fuel fuel' n v out : (fuel <= fuel')%nat ->
  runw (encodeType fuel tbl n v) out <> WDiverged ->
  runw (encodeType fuel' tbl n v) out = runw (encodeType fuel tbl n v) out.
Proof.
  intros L. induction L as [|fuel' L IH]; intros H; [reflexivity|].
  destruct (ele_run _ _ (encodeType_mono tbl fuel' n v) out) as [D|E]; [|rewrite E; auto].
  rewrite IH in D by exact H. contradiction.
Qed.

(** ** Decoding terminates unless a type contains itself directly *)
(** The run ends, with no more input than before. *)
Definition ends {A} (env : renv) (p : dec A) (inp : list byte) : Prop :=
  match run env p inp with
  | Done _ rest => (length rest <= length inp)%nat
  | Crash _ => True
  | Diverged => False
  end.
Lemma ends_bind {A B} env (p : dec A) (f : A -> dec B) inp :
  ends env p inp ->
  (forall a rest, run env p inp = Done a rest -> (length rest <= length inp)%nat -> ends env (f a) rest) ->
  ends env (dbind p f) inp.
Proof.
  unfold ends. rewrite run_dbind. destruct (run env p inp) as [a rest|m|]; auto. intros H Hf.
  specialize (Hf a rest eq_refl H). destruct (run env (f a) rest); auto. lia.
Qed.
Lemma ends_ret {A} env (a : A) inp : ends env (DRet a) inp.
Proof. unfold ends. cbn. lia. Qed.
Lemma ends_panic {A} env m inp : ends env (@DPanic A m) inp.
Proof. exact I. Qed.
Fixpoint fuel_free {A} (p : dec A) : Prop :=
  match p with
  | DFuel => False
  | DRet _ | DPanic _ => True
  | DRead _ k => forall bs e, fuel_free (k bs e)
  | DGo k => forall b, fuel_free (k b)
  end.
Lemma fuel_free_ends {A} env (p : dec A) : fuel_free p -> forall inp, ends env p inp.
Proof.
  unfold ends. induction p as [a|m| |n k IH|k IH]; cbn [fuel_free run]; intros H inp; auto; try contradiction.
  - destruct (n <=? zlen inp).
    + specialize (IH (firstn (Z.to_nat n) inp) None (H _ _) (skipn (Z.to_nat n) inp)).
      destruct (run env _ _); auto. rewrite skipn_length in IH. lia.
    + specialize (IH inp (Some (short_err inp (r_end env))) (H _ _) []). destruct (run env _ _); auto. cbn in IH. lia.
  - apply IH, H.
Qed.
Lemma ff_bind {A B} (p : dec A) (f : A -> dec B) : fuel_free p -> (forall a, fuel_free (f a)) -> fuel_free (dbind p f).
Proof. intros H Hf. induction p; cbn [dbind fuel_free] in *; auto. Qed.
Lemma ff_ReadBytes n : fuel_free (ReadBytes n).
Proof.
  unfold ReadBytes. destruct (n <? 0); [exact I|]. destruct (n =? 0); [exact I|].
  destruct (make_ok 1 n); [|exact I]. cbn [fuel_free]. intros bs [e|]; exact I.
Qed.
Ltac head_of t := match t with ?f _ => head_of f | ?f => f end.
Ltac ff0 := match goal with |- fuel_free (DRet _) => exact I | |- fuel_free (DPanic _) => exact I end.
Ltac ff := repeat first
  [ ff0
  | apply ff_ReadBytes
  | apply ff_bind; [|intros]
  | match goal with |- fuel_free (match ?x with _ => _ end) => destruct x end ].
Lemma ff_ReadByte : fuel_free ReadByte.
Proof. unfold ReadByte. ff. Qed.
Lemma ff_ReadUvarint_loop k : forall x s, fuel_free (ReadUvarint_loop ReadByte k x s).
Proof.
  induction k as [|k IH]; intros x s; cbn [ReadUvarint_loop]; [exact I|].
  apply ff_bind; [apply ff_ReadByte|]. intros [b [e|]].
  - intros st. ff.
  - cbv zeta. repeat match goal with |- fuel_free (if ?c then _ else _) => destruct c end; try exact I. apply IH.
Qed.
Lemma ff_dtry {A B} (d : B) (p : io A) (f : A -> io B) :
  fuel_free p -> (forall a, fuel_free (f a)) -> fuel_free (dtry d p f).
Proof. intros H Hf. unfold dtry. apply ff_bind; [exact H|]. intros [a [e|]]; [exact I|apply Hf]. Qed.
Lemma ff_ReadVaruint : fuel_free ReadVaruint.
Proof. apply ff_dtry; [apply ff_ReadUvarint_loop|intros; exact I]. Qed.
Lemma ff_into {A} (c : A -> prim) (p : io A) : fuel_free p -> fuel_free (into c p).
Proof. intros H. apply ff_bind; [exact H|]. intros [x e]. exact I. Qed.
Lemma ff_keep {A} (old : A) p : fuel_free p -> fuel_free (keep old p).
Proof. intros H. unfold keep. ff. exact H. Qed.
Ltac ffu := repeat first
  [ ff0 | match goal with |- fuel_free (ReadBytes _) => apply ff_ReadBytes | |- fuel_free ReadByte => apply ff_ReadByte
    | |- fuel_free ReadVaruint => apply ff_ReadVaruint | |- fuel_free (ReadUvarint_loop _ _ _ _) => apply ff_ReadUvarint_loop end
  | match goal with |- fuel_free (dtry _ _ _) => apply ff_dtry; [|intros] | |- fuel_free (keep _ _) => apply ff_keep
    | |- fuel_free (dbind _ _) => apply ff_bind; [|intros] end
  | match goal with |- fuel_free (match ?x with _ => _ end) => destruct x end
  | match goal with |- fuel_free (let _ := _ in _) => cbv zeta end
  | match goal with |- fuel_free ?p => let h := head_of p in unfold h end ].
Lemma ff_decodeBuiltin b : fuel_free (decodeBuiltin b).
Proof.
  unfold decodeBuiltin. destruct (builtin_of b) as [B|]; [|exact I].
  destruct B; cbv iota; try ff0; apply ff_into; ffu.
Qed.

Lemma varuint_consumes env inp l rest : run env ReadVaruint inp = Done (l, None) rest -> (length rest < length inp)%nat.
Proof.
  intros H. destruct (ReadVaruint_cases env inp) as [(bs & r & -> & W & L & V & R)|[(bs & b & r & -> & _ & _ & _ & R)|(_ & _ & R)]];
    rewrite H in R; try discriminate R.
  injection R as _ <-. destruct bs as [|x bs]; [destruct W|]. rewrite app_length. cbn [length]. lia.
Qed.
Lemma bool_consumes env inp x rest : run env ReadBool inp = Done (x, None) rest -> (length rest < length inp)%nat.
Proof.
  unfold ReadBool. rewrite run_dbind. destruct inp as [|b inp]; [rewrite run_ReadByte_nil; discriminate|].
  rewrite run_ReadByte_cons. cbn [run]. intros H. injection H as _ <-. cbn [length]. lia.
Qed.

(** Which names decodeInner goes on to without consuming anything. *)
Definition child (a : Abi) (n b m : name) : Prop :=
  defines a b (DAlias m) \/ exists fs f, inherits a n fs /\ In (f, m) fs.
Lemma inner_ends a n0 tbl env (rec : name -> io gval) n b arr opt ext t L : table_for a n0 tbl -> reach a n0 n ->
  decomposes n b arr opt ext -> lookup tbl n = Some t ->
  (forall m inp, child a n b m -> (length inp <= L)%nat -> ends env (rec m) inp) ->
  (forall m inp, reach a n0 m -> (length inp < L)%nat -> ends env (rec m) inp) ->
  forall inp, (length inp <= L)%nat -> ends env (decodeInner rec tbl t) inp.
Proof.
  intros TB R D LK HC HL inp HI.
  destruct (table_lookup _ _ _ _ TB R) as (t' & L' & Ds). rewrite LK in L'. injection L' as <-.
  destruct (describes_flags _ _ _ _ _ _ _ Ds D) as (N & EB & _).
  unfold decodeInner. destruct (t_ref t) as [r|] eqn:E1.
  { apply (describes_alias _ _ _ _ _ _ _ r Ds D) in E1. apply HC; [now left|exact HI]. }
  destruct (allFields tbl (t_name t)) as [fs|] eqn:E2.
  { rewrite N in E2. apply (allFields_spec _ _ _ _ TB) in E2; [|now exists t]. destruct E2 as [I NE].
    assert (Hc : forall f m, In (f, m) fs -> child a n b m) by (intros f m Hm; right; eauto).
    clear I NE. generalize (@nil (name * gval)) as acc. revert inp HI.
    induction fs as [|[f ty] fs IH]; intros inp HI acc; cbn [decode_fields]; [apply ends_ret|].
    apply ends_bind; [apply HC; [apply (Hc f); now left|exact HI]|].
    intros [x [e|]] rest _ HR; [apply ends_ret|]. apply IH; [intros f' m Hm; apply (Hc f'); now right|lia]. }
  destruct (t_variant t) as [l|] eqn:E3; [|apply fuel_free_ends, ff_decodeBuiltin].
  apply (describes_variant _ _ _ _ _ _ _ l Ds D) in E3.
  apply ends_bind; [apply fuel_free_ends, ff_ReadVaruint|].
  intros [i [e|]] rest HRun HR; [apply ends_ret|]. apply varuint_consumes in HRun.
  destruct (zlen l <=? i64 i); [apply ends_ret|]. destruct (at_ l i) as [tv|] eqn:EA; [|apply ends_panic].
  apply ends_bind; [|intros [x [e|]] ? ? ?; apply ends_ret].
  apply HL; [|lia]. eapply reach_step; [exact R|exact D|exact E3|].
  unfold at_ in EA. destruct (i <? 0); [discriminate|]. now apply nth_error_In in EA.
Qed.
Lemma elems_ends env (f : io gval) L : (forall inp, (length inp <= L)%nat -> ends env f inp) ->
  forall k acc inp, (length inp <= L)%nat -> ends env (decode_elems f k acc) inp.
Proof.
  intros H k. induction k as [|k IH]; intros acc inp HI; cbn [decode_elems]; [apply ends_ret|].
  apply ends_bind; [auto|]. intros [x [e|]] rest _ HR; [apply ends_ret|]. apply IH. lia.
Qed.
Lemma ext_eof_ends env t r inp : ends env (ext_eof t r) inp.
Proof. destruct r as [v [[]|]]; cbn [ext_eof]; try destruct (t_isExtension t); apply ends_ret. Qed.

Lemma path_snoc {A} (R : A -> A -> Prop) x y z : path R x y -> R y z -> path R x z.
Proof. intros H Hz. induction H; [eapply path_more; [eassumption|now constructor]|eapply path_more; eauto]. Qed.
Lemma decode_ends a n0 tbl env : table_for a n0 tbl -> acyclic a n0 ->
  forall fuel n p inp, reach a n0 n ->
  NoDup p -> incl p (map fst tbl) -> (forall x, In x p -> path (direct a) x n) ->
  (length inp * S (length tbl) + (S (length tbl) - length p) <= fuel)%nat ->
  ends env (decodeType fuel tbl n) inp.
Proof.
  intros TB AC. induction fuel as [|fuel IH]; intros n p inp R ND IN PA LE.
  { exfalso. pose proof (NoDup_incl_length ND IN) as Q. rewrite map_length in Q. lia. }
  destruct (table_lookup _ _ _ _ TB R) as (t & LK & Ds). pose proof Ds as (_ & D & _).
  rewrite (decodeType_S _ _ _ _ LK).
  assert (NP : ~ In n p) by (intros I; apply PA in I; now apply (AC n R) in I).
  assert (IN' : incl (n :: p) (map fst tbl)).
  { intros x [<-|I]; [now apply lookup_in in LK|now apply IN]. }
  pose proof (NoDup_incl_length (NoDup_cons n NP ND) IN') as Q. rewrite map_length in Q. cbn [length] in Q.
  (* after consuming a byte *)
  assert (HL : forall m inp', reach a n0 m -> (length inp' < length inp)%nat -> ends env (decodeType fuel tbl m) inp').
  { intros m inp' Rm Hl. apply (IH m []); [exact Rm|constructor|intros x []|intros x []|].
    assert (length inp' * S (length tbl) + S (length tbl) <= length inp * S (length tbl))%nat by nia.
    cbn [length]. lia. }
  assert (Hchild : forall m, child a n (t_baseName t) m -> reach a n0 m).
  { intros m [C|(fs & f & I & C)].
    - eapply reach_step; [exact R|exact D|exact C|cbn; auto].
    - eapply inherits_reach; eauto. }
  assert (INS : forall inp', (length inp' < length inp)%nat ->
            ends env (decodeInner (decodeType fuel tbl) tbl t) inp').
  { intros inp' Hl. apply (inner_ends a n0 tbl env _ n _ _ _ _ t (length inp') TB R D LK); [| |lia].
    - intros m i2 C H2. apply HL; [now apply Hchild|lia].
    - intros m i2 Rm H2. apply HL; [exact Rm|lia]. }
  assert (BODYS : forall inp', (length inp' < length inp)%nat -> ends env (dec_body fuel tbl t) inp').
  { intros inp' Hl. unfold dec_body. destruct (t_isArray t).
    - apply ends_bind; [apply fuel_free_ends, ff_ReadVaruint|]. intros [l [e|]] rest _ HR; [apply ext_eof_ends|].
      destruct (make_ok 16 l); [|apply ends_panic].
      apply ends_bind; [apply elems_ends with (L := length rest); [intros; apply INS; lia|lia]|].
      intros [va [e|]] ? ? ?; apply ends_ret.
    - apply ends_bind; [now apply INS|]. intros; apply ext_eof_ends. }
  destruct (t_isOptional t) eqn:EO.
  { apply ends_bind; [apply fuel_free_ends; unfold ReadBool; apply ff_bind; [apply ff_ReadByte|intros [? ?]; exact I]|].
    intros [x [e|]] rest HRun HR; [apply ends_ret|]. apply bool_consumes in HRun.
    destruct x; [now apply BODYS|apply ends_ret]. }
  unfold dec_body. destruct (t_isArray t) eqn:EA.
  - apply ends_bind; [apply fuel_free_ends, ff_ReadVaruint|]. intros [l [e|]] rest HRun HR; [apply ext_eof_ends|].
    apply varuint_consumes in HRun. destruct (make_ok 16 l); [|apply ends_panic].
    apply ends_bind; [apply elems_ends with (L := length rest); [intros; apply INS; lia|lia]|].
    intros [va [e|]] ? ? ?; apply ends_ret.
  - apply ends_bind; [|intros; apply ext_eof_ends].
    apply (inner_ends a n0 tbl env _ n _ _ _ _ t (length inp) TB R D LK); [|exact HL|lia].
    intros m inp' C Hl. apply (IH m (n :: p)); [now apply Hchild|now constructor|exact IN'| |].
    + assert (DR : direct a n m) by (exists (t_baseName t), (t_isExtension t); split; [exact D|exact C]).
      intros x [<-|I]; [now constructor|]. eapply path_snoc; [now apply PA|exact DR].
    + cbn [length]. assert (length inp' * S (length tbl) <= length inp * S (length tbl))%nat by nia. lia.
Qed.

(** ** Cycles *)
Lemma cycle_step {A} (R : A -> A -> Prop) x : leads_to_cycle R x -> exists y, R x y /\ leads_to_cycle R y.
Proof.
  intros (c & [->|P] & C).
  - inversion C as [y H|y z H1 H2]; subst.
    + exists c. split; [exact H|]. exists c. auto.
    + exists y. split; [exact H1|]. exists c. auto.
  - inversion P as [y H|y z H1 H2]; subst.
    + exists c. split; [exact H|]. exists c. auto.
    + exists y. split; [exact H1|]. exists c. auto.
Qed.
Lemma decode_cycle a n0 tbl env : table_for a n0 tbl ->
  forall fuel n inp, reach a n0 n -> leads_to_cycle (direct_first a) n -> run env (decodeType fuel tbl n) inp = Diverged.
Proof.
  intros TB. induction fuel as [|fuel IH]; intros n inp R C; [reflexivity|].
  destruct (table_lookup _ _ _ _ TB R) as (t & LK & Ds). rewrite (decodeType_S _ _ _ _ LK).
  destruct (cycle_step _ _ C) as (m & (b & ext & D & S) & C').
  destruct (describes_flags _ _ _ _ _ _ _ Ds D) as (N & EB & EA & EO & EE). rewrite EO. unfold dec_body. rewrite EA.
  rewrite run_dbind. unfold decodeInner. destruct S as [S|(fs & f & I)].
  - rewrite (inner_alias _ _ _ _ _ _ _ _ Ds D S). rewrite IH; [reflexivity| |exact C'].
    eapply reach_step; [exact R|exact D|exact S|cbn; auto].
  - destruct (inner_struct _ _ _ _ _ _ TB LK Ds I ltac:(discriminate)) as [E1 E2]. rewrite E1, E2.
    cbn [decode_fields]. rewrite run_dbind, IH; [reflexivity| |exact C'].
    apply (inherits_reach _ _ _ _ I R f). now left.
Qed.
Lemma encode_cycle a n0 tbl : table_for a n0 tbl ->
  forall fuel n v out, v <> VNil -> reach a n0 n -> leads_to_cycle (plain_alias a) n -> runw (encodeType fuel tbl n v) out = WDiverged.
Proof.
  intros TB. induction fuel as [|fuel IH]; intros n v out NV R C; [reflexivity|].
  destruct (table_lookup _ _ _ _ TB R) as (t & LK & Ds). rewrite (encodeType_S _ _ _ _ _ LK).
  destruct (cycle_step _ _ C) as (m & (b & opt & ext & D & S) & C').
  destruct (describes_flags _ _ _ _ _ _ _ Ds D) as (N & EB & EA & EO & EE).
  assert (EN : is_nil v = false) by (destruct v; [congruence|reflexivity..]). rewrite EN. cbn [negb].
  assert (B : forall o, runw (enc_body fuel tbl t v) o = WDiverged).
  { intros o. unfold enc_body. rewrite EA. unfold encodeInner. rewrite (inner_alias _ _ _ _ _ _ _ _ Ds D S).
    apply IH; [exact NV| |exact C']. eapply reach_step; [exact R|exact D|exact S|cbn; auto]. }
  destruct (t_isOptional t); [|apply B]. rewrite runw_ebind.
  assert (EW : runw (WriteBool true) out = WDone None (out ++ [x01])) by reflexivity. rewrite EW. cbn [orb]. apply B.
Qed.

(** ** Encoding terminates unless aliases form a circle *)
Fixpoint gsize (v : gval) : nat :=
  match v with
  | VNil => 0
  | VPrim _ | VOther _ => 1
  | VSlice l => S ((fix go l := match l with [] => 0 | x :: l => gsize x + go l end) l)
  | VMap m => S ((fix go m := match m with [] => 0 | (_, x) :: m => gsize x + go m end) m)
  end%nat.
Lemma gsize_elem x l : In x l -> (gsize x < gsize (VSlice l))%nat.
Proof.
  cbn [gsize]. induction l as [|y l IH]; [intros []|]. intros [->|I]; [lia|]. specialize (IH I). lia.
Qed.
Lemma gsize_entry m f : (gsize (entry m f) < gsize (VMap m))%nat.
Proof.
  unfold entry. cbn [gsize]. induction m as [|[k x] m IH]; cbn [lookup]; [cbn; lia|].
  destruct (bytes_eqb k f); [lia|]. destruct (lookup m f); cbn [gsize] in *; lia.
Qed.
Definition eends (p : wr) : Prop := forall out, runw p out <> WDiverged.
Lemma eends_bind (p : wr) f : eends p -> (forall e, eends (f e)) -> eends (ebind p f).
Proof.
  intros H Hf out. rewrite runw_ebind. specialize (H out). destruct (runw p out) as [e o|m o|]; try discriminate.
  - apply Hf. - contradiction.
Qed.
Lemma eends_etry p q : eends p -> eends q -> eends (etry p q).
Proof. intros H Hq. apply eends_bind; [exact H|]. intros [e|]; [discriminate|exact Hq]. Qed.
Lemma eends_ret e : eends (ERet e).
Proof. intros out. discriminate. Qed.
Fixpoint efuel_free {A} (p : enc A) : Prop :=
  match p with EFuel => False | ERet _ | EPanic _ => True | EWrite _ k => forall e, efuel_free (k e) end.
Lemma efuel_free_ends p : efuel_free p -> eends p.
Proof.
  unfold eends. induction p as [a|m| |bs k IH]; cbn [efuel_free runw]; intros H out; try discriminate; [contradiction|].
  now apply IH.
Qed.
Lemma eff_bind {A B} (p : enc A) (f : A -> enc B) : efuel_free p -> (forall a, efuel_free (f a)) -> efuel_free (ebind p f).
Proof. intros H Hf. induction p; cbn [ebind efuel_free] in *; auto. Qed.
Lemma eff_etry p q : efuel_free p -> efuel_free q -> efuel_free (etry p q).
Proof. intros H Hq. apply eff_bind; [exact H|]. intros [e|]; [exact I|exact Hq]. Qed.
Ltac eff := repeat first
  [ match goal with |- efuel_free (ERet _) => exact I | |- efuel_free (EPanic _) => exact I
    | |- efuel_free (EWrite _ _) => intros ? | |- efuel_free (etry _ _) => apply eff_etry
    | |- efuel_free (ebind _ _) => apply eff_bind; [|intros]
    | |- efuel_free (match ?x with _ => _ end) => destruct x end
  | match goal with |- efuel_free ?p => let h := head_of p in unfold h end ].
Lemma eff_builtin b v : efuel_free (encodeBuiltin b v).
Proof.
  unfold encodeBuiltin. destruct (builtin_of b) as [B|]; [|exact I].
  destruct v as [|p| | |]; [destruct B; exact I| |destruct B; exact I..].
  destruct B; destruct p; match goal with |- efuel_free (ERet _) => exact I | _ => idtac end; eff.
Qed.

Lemma enc_inner_ends a n0 tbl (rec : name -> gval -> wr) n b arr opt ext t : table_for a n0 tbl -> reach a n0 n ->
  decomposes n b arr opt ext -> lookup tbl n = Some t ->
  forall v, (forall r, defines a b (DAlias r) -> eends (rec r v)) ->
  (forall m v', reach a n0 m -> (gsize v' < gsize v)%nat -> eends (rec m v')) ->
  eends (encodeInner rec tbl t v).
Proof.
  intros TB R D LK v HA HL.
  destruct (table_lookup _ _ _ _ TB R) as (t' & L' & Ds). rewrite LK in L'. injection L' as <-.
  destruct (describes_flags _ _ _ _ _ _ _ Ds D) as (N & EB & _).
  unfold encodeInner. destruct (t_ref t) as [r|] eqn:E1.
  { apply (describes_alias _ _ _ _ _ _ _ r Ds D) in E1. now apply HA. }
  destruct (allFields tbl (t_name t)) as [fs|] eqn:E2.
  { rewrite N in E2. apply (allFields_spec _ _ _ _ TB) in E2; [|now exists t]. destruct E2 as [I NE].
    destruct v as [| | |m|]; try apply eends_ret. pose proof (inherits_reach _ _ _ _ I R) as Rf. clear I NE.
    induction fs as [|[f ty] fs IH]; cbn [encode_fields]; [apply eends_ret|].
    apply eends_etry; [|apply IH; intros f' t'' I; apply (Rf f'); now right].
    apply (HL ty (entry m f)); [apply (Rf f); now left|apply gsize_entry]. }
  destruct (t_variant t) as [l|] eqn:E3; [|apply efuel_free_ends, eff_builtin].
  apply (describes_variant _ _ _ _ _ _ _ l Ds D) in E3.
  destruct v as [| |vs| |]; try apply eends_ret. destruct vs as [|x1 [|x2 [|x3 vs]]]; try apply eends_ret;
    destruct x1 as [|p| | |]; try apply eends_ret; destruct p; try apply eends_ret.
  pose proof (find_variant_spec s l 0) as FV. destruct (find_variant 0 s l) as [k|]; [|apply eends_ret].
  destruct FV as (i & -> & FA & _). apply eends_etry; [apply efuel_free_ends; eff|].
  apply HL; [|apply gsize_elem; cbn; auto].
  eapply reach_step; [exact R|exact D|exact E3|]. now apply nth_error_In in FA.
Qed.
Lemma encode_ends a n0 tbl : table_for a n0 tbl -> alias_acyclic a n0 ->
  forall fuel n p v, reach a n0 n ->
  NoDup p -> incl p (map fst tbl) -> (forall x, In x p -> path (plain_alias a) x n) ->
  (gsize v * S (length tbl) + (S (length tbl) - length p) <= fuel)%nat ->
  eends (encodeType fuel tbl n v).
Proof.
  intros TB AC. induction fuel as [|fuel IH]; intros n p v R ND IN PA LE.
  { exfalso. pose proof (NoDup_incl_length ND IN) as Q. rewrite map_length in Q. lia. }
  destruct (table_lookup _ _ _ _ TB R) as (t & LK & Ds). pose proof Ds as (_ & D & _).
  rewrite (encodeType_S _ _ _ _ _ LK).
  assert (NP : ~ In n p) by (intros I; apply PA in I; now apply (AC n R) in I).
  assert (IN' : incl (n :: p) (map fst tbl)).
  { intros x [<-|I]; [now apply lookup_in in LK|now apply IN]. }
  pose proof (NoDup_incl_length (NoDup_cons n NP ND) IN') as Q. rewrite map_length in Q. cbn [length] in Q.
  assert (HL : forall m v', reach a n0 m -> (gsize v' < gsize v)%nat -> eends (encodeType fuel tbl m v')).
  { intros m v' Rm Hl. apply (IH m []); [exact Rm|constructor|intros x []|intros x []|].
    assert (gsize v' * S (length tbl) + S (length tbl) <= gsize v * S (length tbl))%nat by nia.
    cbn [length]. lia. }
  assert (BODY : eends (enc_body fuel tbl t v)).
  { unfold enc_body. destruct (t_isArray t) eqn:EA.
    - destruct v as [| |vs| |]; try apply eends_ret. apply eends_etry; [apply efuel_free_ends; eff|].
      assert (HE : forall x, In x vs -> eends (encodeInner (encodeType fuel tbl) tbl t x)).
      { intros x Ix. apply gsize_elem in Ix.
        apply (enc_inner_ends a n0 tbl _ n _ _ _ _ t TB R D LK).
        - intros r Hr. apply HL; [|exact Ix]. eapply reach_step; [exact R|exact D|exact Hr|cbn; auto].
        - intros m v' Rm Hl. apply HL; [exact Rm|lia]. }
      clear LE HL. induction vs as [|x vs IHv]; cbn [encode_elems]; [apply eends_ret|].
      apply eends_etry; [apply HE; now left|]. apply IHv. intros y Iy. apply HE. now right.
    - apply (enc_inner_ends a n0 tbl _ n _ _ _ _ t TB R D LK); [|exact HL].
      intros r Hr. apply (IH r (n :: p)); [|now constructor|exact IN'| |].
      + eapply reach_step; [exact R|exact D|exact Hr|cbn; auto].
      + assert (DR : plain_alias a n r) by (exists (t_baseName t), (t_isOptional t), (t_isExtension t); split; [exact D|exact Hr]).
        intros x [<-|I]; [now constructor|]. eapply path_snoc; [now apply PA|exact DR].
      + cbn [length]. lia. }
  destruct (t_isOptional t).
  - apply eends_bind; [apply efuel_free_ends; eff|]. intros e.
    destruct (negb (negb (is_nil v)) || match e with Some _ => true | None => false end); [apply eends_ret|exact BODY].
  - destruct (negb (negb (is_nil v))); [apply eends_ret|exact BODY].
Qed.
