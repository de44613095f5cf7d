(** The generated MarshalABI writes what the reflective encoder writes. *)
From Verif Require Import Base Prog AbiPrim BaseProofs SpecWire ProgProofs AbiPrimProofs Chain SpecChain ChainProofs
  Values Leaf SpecLeaf LeafProofs SpecText GoStd GoStdProofs Reflect SpecReflect ReflectProofs SpecCodegen Codegen CodegenText.

(** ** Encoders that succeed on the same values with the same bytes *)
Definition wsim (p q : wr) : Prop := forall out full, runw p out = WDone None full <-> runw q out = WDone None full.
Lemma wsim_refl p : wsim p p.
Proof. intros out full. reflexivity. Qed.
Lemma wsim_trans p q r : wsim p q -> wsim q r -> wsim p r.
Proof. intros A B out full. now rewrite (A out full). Qed.
Lemma wsim_eq p q : (forall out, runw p out = runw q out) -> wsim p q.
Proof. intros H out full. now rewrite H. Qed.
Lemma wsim_fail p q : (forall out full, runw p out <> WDone None full) -> (forall out full, runw q out <> WDone None full) -> wsim p q.
Proof. intros A B out full. split; intros H; [elim (A _ _ H)|elim (B _ _ H)]. Qed.
Lemma runw_etry p q out full : runw (etry p q) out = WDone None full <->
  exists mid, runw p out = WDone None mid /\ runw q mid = WDone None full.
Proof.
  unfold etry. rewrite runw_ebind. destruct (runw p out) as [[e|] o|m o|].
  - cbn [runw]. split; [discriminate|]. intros (mid & H & _). discriminate H.
  - split; [intros H; now exists o|]. intros (mid & H & K). injection H as <-. exact K.
  - split; [discriminate|]. intros (mid & H & _). discriminate H.
  - split; [discriminate|]. intros (mid & H & _). discriminate H.
Qed.
Lemma wsim_etry p p' q q' : wsim p p' -> wsim q q' -> wsim (etry p q) (etry p' q').
Proof.
  intros A B out full. rewrite !runw_etry. split; intros (mid & H & K); exists mid; split; try (now apply A); now apply B.
Qed.
Lemma wsim_put_list f g l : Forall (fun x => wsim (f x) (g x)) l -> wsim (put_list f l) (put_list g l).
Proof. induction 1 as [|x l H _ IH]; [apply wsim_refl|]. cbn [put_list]. now apply wsim_etry. Qed.

Lemma parsed_len_small n : Z.of_nat n < 2 ^ 63 -> parsed_len n = Z.of_nat n.
Proof.
  intros H. unfold parsed_len.
  assert (P : ParseInt (FormatUint (Z.of_nat n)) 64 = Ok (Z.of_nat n)).
  { apply ParseInt_ok; [lia|]. split; [|lia]. rewrite <- (FormatUint_val (Z.of_nat n)) at 2 by lia.
    apply int_plain; [apply FormatUint_ne; lia|apply FormatUint_digits; lia]. }
  now rewrite P.
Qed.

Lemma not_optional tg : tg <> Optional -> is_optional tg = false.
Proof. destruct tg; try reflexivity. congruence. Qed.

(** ** Loops *)
Lemma for_write_list (f : nat -> wr) (g : rval -> wr) L : (forall i x, nth_error L i = Some x -> f i = g x) ->
  forall l pre, L = pre ++ l -> for_write f (length l) (length pre) = put_list g l.
Proof.
  intros H. induction l as [|x l IH]; intros pre Q; [reflexivity|]. cbn [length for_write put_list]. f_equal.
  - apply H. subst L. rewrite nth_error_app2 by lia. now rewrite Nat.sub_diag.
  - specialize (IH (pre ++ [x])). rewrite <- IH by (now rewrite <- app_assoc). f_equal. rewrite app_length. cbn [length]. lia.
Qed.
Lemma for_write_all (f : nat -> wr) (g : rval -> wr) l : (forall i x, nth_error l i = Some x -> f i = g x) ->
  for_write f (length l) 0 = put_list g l.
Proof. intros H. apply (for_write_list f g l H l []). reflexivity. Qed.

(** The code for one element. *)
Definition el_step (mar : gtype -> rval -> wr) (t : gtype) (x : rval) : wr :=
  match own_kind t with
  | Some _ => match x with RLeaf q _ => write_builtin q | _ => EPanic "ill-typed" end
  | None => match t, x with
            | TPtr t', RPtr o => match o with Some y => mar t' y | None => EPanic "nil pointer dereference" end
            | _, _ => mar t x
            end
  end.
Definition el_code (st ix : bool) (t : gtype) : stmt :=
  match own_kind t with Some k => SWrite k {| star := st; index := ix |} | None => SMarshal {| star := st; index := ix |} end.
Lemma exec_el mar E t v i x u st ix : value_at {| star := st; index := ix |} i v = Ok x ->
  place_type E {| star := st; index := ix |} t = Some u -> exec_write mar E t v i (el_code st ix u) = el_step mar u x.
Proof.
  intros V P. unfold el_code, el_step. destruct (own_kind u) as [k|] eqn:O; cbn [exec_write].
  - rewrite V. reflexivity.
  - rewrite V, P. cbn [ewith]. reflexivity.
Qed.

(** ** One field through the reflective encoder *)
Definition field_enc (E : types) (tg : tag) (t : gtype) (v : rval) : wr :=
  if is_optional tg then etry (WriteBool (negb (is_zero v))) (if is_zero v then ERet None else Encode E t v)
  else Encode E t v.
Lemma put_field E tg t fs v l :
  wsim (put_fields E chain_encoder ((tg, Exported, t) :: fs) (v :: l)) (etry (field_enc E tg t v) (put_fields E chain_encoder fs l)).
Proof.
  destruct (is_optional tg) eqn:O.
  - destruct tg; try discriminate O. destruct (is_zero v) eqn:Z.
    + rewrite put_absent by exact Z. unfold field_enc. cbn [is_optional]. rewrite Z. apply wsim_eq. intros out. reflexivity.
    + rewrite put_present by exact Z. unfold field_enc. cbn [is_optional]. rewrite Z. cbn [negb]. intros out full. 
      rewrite runw_etry. unfold WriteBool, WriteByte. cbn [ebind runw]. rewrite runw_etry.
      split.
      * intros (mid & A & B). exists mid. split; [|exact B]. unfold etry. cbn [ebind runw]. exact A.
      * intros (mid & A & B). exists mid. split; [|exact B]. unfold etry in A. cbn [ebind runw] in A. exact A.
  - rewrite put_plain by (intros ->; discriminate O). unfold field_enc. rewrite O. apply wsim_refl.
Qed.

(** ** Types and places *)
Definition gen_at (E : types) (pl : place) (t : gtype) : Prop := forall pl' t', within E (pl, t) (pl', t') -> generable_here E t'.
Lemma gen_self E pl t : gen_at E pl t -> generable_here E t.
Proof. intros H. apply (H pl). constructor. Qed.
Lemma gen_part E pl t pl' t' : gen_at E pl t -> part E (pl, t) (pl', t') -> gen_at E pl' t'.
Proof. intros H P pl'' t'' W. apply (H pl''). eapply wi_part; eassumption. Qed.
Lemma gen_ptr E pl t : gen_at E pl (TPtr t) -> gen_at E (beneath pl) t.
Proof. intros G. eapply gen_part; [exact G|]. now constructor. Qed.
Lemma gen_slice E pl t : gen_at E pl (TSlice t) -> gen_at E Slot t.
Proof. intros G. eapply gen_part; [exact G|]. now constructor. Qed.
Lemma gen_elem E pl n t : gen_at E pl (TArray n t) -> gen_at E Slot t.
Proof. intros G. eapply gen_part; [exact G|]. now apply pt_array with (n := n). Qed.
Lemma gen_array E pl t n u : gen_at E pl t -> head E t = TArray n u -> Z.of_nat n < 2 ^ 63 /\ direct u = true.
Proof. intros G H. apply gen_self in G. unfold generable_here in G. now rewrite H in G. Qed.

Lemma write_builtin_leaf p : kind_of p <> KGoBytes -> write_builtin p = write_prim p.
Proof. destruct p; try reflexivity. intros H. now elim H. Qed.
Lemma marshal_leaf p : forall out, runw (marshal p) out = runw (write_prim p) out.
Proof. intros out. destruct p; reflexivity. Qed.

(** Bytes one at a time. *)
Lemma bytes_write b : forall out, runw (put_list (fun x => match x with RLeaf q _ => write_builtin q | _ => EPanic "ill-typed" end) (byte_elems b)) out
  = WDone None (out ++ b).
Proof.
  induction b as [|c b IH]; intros out; [cbn; now rewrite app_nil_r|].
  cbn [byte_elems map put_list write_builtin write_prim]. unfold etry, WriteUint8, WriteByte. cbn [ebind runw].
  change (map (fun c => RLeaf (PU8 (zb c)) (zb c =? 0)) b) with (byte_elems b). rewrite IH, bz_zb, <- app_assoc. reflexivity.
Qed.
Lemma byte_slice_write b : wsim (etry (WriteVaruint (zlen b)) (put_list (fun x => match x with RLeaf q _ => write_builtin q | _ => EPanic "ill-typed" end) (byte_elems b)))
  (EncodeByteSlice b).
Proof.
  unfold EncodeByteSlice. apply wsim_etry; [apply wsim_refl|]. apply wsim_eq. intros out. rewrite bytes_write. reflexivity.
Qed.

(** ** The equivalence *)
Definition struct_ok (E : types) (t : gtype) (v : rval) : Prop :=
  with_methods E t -> forall pl, gen_at E pl t ->
  exists F, forall fuel, (F <= fuel)%nat -> wsim (MarshalABI fuel E t v) (Encode E t v).
Definition element_ok (E : types) (t : gtype) (v : rval) : Prop :=
  element E t -> forall pl, gen_at E pl t ->
  exists F, forall fuel, (F <= fuel)%nat -> wsim (el_step (MarshalABI fuel E) t v) (Encode E t v).
Definition array_ok (E : types) (t : gtype) (v : rval) : Prop :=
  forall n u l, t = TArray n u -> v = RArray l -> element E u -> forall pl, gen_at E pl t ->
  exists F, forall fuel, (F <= fuel)%nat -> wsim (put_list (el_step (MarshalABI fuel E) u) l) (Encode E t v).
Definition field_ok (E : types) (t : gtype) (v : rval) : Prop :=
  forall tg, field_form E tg t -> forall pl, gen_at E pl t ->
  exists F, forall fuel, (F <= fuel)%nat -> forall text,
    wsim (exec_write (MarshalABI fuel E) E t v 0 (gen_write (field_of t (is_optional tg) text))) (field_enc E tg t v).
Definition value_ok (E : types) (t : gtype) (v : rval) : Prop :=
  struct_ok E t v /\ element_ok E t v /\ array_ok E t v /\ field_ok E t v.

Lemma element_methods E t v : with_methods E t -> struct_ok E t v -> element_ok E t v.
Proof.
  intros W S _ pl G. destruct (S W pl G) as [F H]. exists F. intros fuel Hf. unfold el_step.
  destruct (own_kind t) eqn:O; [destruct (own_no_methods _ _ _ O W)|].
  destruct t; try (now apply H). unfold with_methods in W. cbn [head] in W. contradiction.
Qed.
(** A field of a type with methods, by value. *)
Lemma field_methods E t v tg : with_methods E t -> tg <> Optional -> struct_ok E t v -> forall pl, gen_at E pl t ->
  exists F, forall fuel, (F <= fuel)%nat -> forall text,
    wsim (exec_write (MarshalABI fuel E) E t v 0 (gen_write (field_of t (is_optional tg) text))) (field_enc E tg t v).
Proof.
  intros W N S pl G. destruct (S W pl G) as [F H]. exists F. intros fuel Hf text.
  assert (O : is_optional tg = false) by now apply not_optional. unfold field_enc. rewrite O.
  assert (Q : exec_write (MarshalABI fuel E) E t v 0 (gen_write (field_of t false text)) = MarshalABI fuel E t v).
  { unfold with_methods in W. unfold field_of.
    destruct t as [k|k| |u|u|n u|k w|fs|i0 u0|i]; cbn [head] in W; try contradiction; try discriminate W; try reflexivity.
    destruct k; try discriminate W; reflexivity. }
  rewrite Q. now apply H.
Qed.


Theorem writes_agree E :
  (forall t v, has_type E any_leaf t v -> value_ok E t v)
  /\ (forall t l, have_type E any_leaf t l -> element E t -> forall pl, gen_at E pl t ->
        exists F, forall fuel, (F <= fuel)%nat -> Forall (fun x => wsim (el_step (MarshalABI fuel E) t x) (Encode E t x)) l)
  /\ (forall kt vt m, have_pair_type E any_leaf kt vt m -> True)
  /\ (forall fs l, have_field_types E any_leaf fs l ->
        Forall (fun '(tg, vis, t) => vis = Exported /\ field_form E tg t /\ gen_at E Slot t) fs ->
        exists F, forall fuel, (F <= fuel)%nat -> forall lf, Forall2 described fs lf ->
          wsim (marshal_body (MarshalABI fuel E) E fs (map gen_write lf) l) (put_fields E chain_encoder fs l)).
Proof.
  apply has_type_all; try (intros; exact I).
  - (* leaf *)
    intros t k p z H K Z OK.
    assert (EN : wsim (write_prim p) (Encode E t (RLeaf p z))) by (apply wsim_eq; intros out; symmetry; now apply Encode_leaf with (k := k)).
    assert (S : struct_ok E t (RLeaf p z)).
    { intros W pl G. exists 1%nat. intros [|fuel] Hf; [lia|]. cbn [MarshalABI]. rewrite H.
      unfold with_methods in W. rewrite H in W. rewrite W. eapply wsim_trans; [apply wsim_eq; apply marshal_leaf|exact EN]. }
    assert (EL : element_ok E t (RLeaf p z)).
    { intros [SC|[W|(u & -> & W)]]; [|exact (element_methods E t _ W S (or_intror (or_introl W)))|discriminate H].
      intros pl G. exists O. intros fuel _. unfold el_step. destruct SC as (k' & -> & GK & NB). cbn [head own_kind] in *. injection H as ->.
      rewrite GK. rewrite write_builtin_leaf by congruence. exact EN. }
    repeat split; try assumption; [intros n u l Q V; discriminate V|].
    intros tg FF pl G. inversion FF as [tg' t' N SC|tg' N|tg' t' N W|tg' t' N _|tg' n t' N _|tg' t' SC|tg' t' W|tg' n t' _]; subst;
      try discriminate H.
    + destruct (EL (or_introl SC) pl G) as [F HF]. exists F. intros fuel Hf text. specialize (HF fuel Hf).
      assert (O : is_optional tg = false) by now apply not_optional. unfold field_enc. rewrite O.
      destruct SC as (k' & -> & GK & NB). cbn [head] in H. injection H as H. subst k'.
      eapply wsim_trans; [|exact HF]. unfold field_of. cbn [shape_of].
      destruct (kind_of p) eqn:KP; try discriminate GK; try congruence; apply wsim_refl.
    + cbn [head] in H. injection H as H. exists O. intros fuel _ text.
      assert (O : is_optional tg = false) by now apply not_optional. unfold field_enc. rewrite O.
      destruct p; try discriminate H. eapply wsim_trans; [|exact EN]. cbn [write_prim].
      eapply wsim_trans; [|apply byte_slice_write]. unfold field_of. cbn [shape_of body_of gen_write f_slice f_array f_ptr f_method f_optional orb andb exec_write].
      unfold value_at. cbn [star index rbind ewith elements].
      assert (LE : zlen (byte_elems b) = zlen b) by (unfold zlen, byte_elems; now rewrite map_length). rewrite LE.
      rewrite (for_write_all _ (fun x => match x with RLeaf q _ => write_builtin q | _ => EPanic "ill-typed" end)); [apply wsim_refl|].
      intros i x Hx. unfold value_at. cbn [star index rbind elements]. rewrite Hx. reflexivity.
    + apply field_methods with (pl := pl); assumption.
  - (* int *)
    intros t k v H R. assert (NW : ~ with_methods E t) by (unfold with_methods; now rewrite H).
    assert (NS : ~ scalar t) by (intros (k' & -> & _); discriminate H).
    repeat split.
    + intros W. contradiction.
    + intros [SC|[W|(u & -> & W)]]; [contradiction|contradiction|discriminate H].
    + intros n u l -> . discriminate H.
    + intros tg FF. inversion FF; subst; try contradiction; discriminate H.
  - (* other *)
    intros t z H. assert (NW : ~ with_methods E t) by (unfold with_methods; now rewrite H).
    assert (NS : ~ scalar t) by (intros (k' & -> & _); discriminate H).
    repeat split.
    + intros W. contradiction.
    + intros [SC|[W|(u & -> & W)]]; [contradiction|contradiction|discriminate H].
    + intros n u l -> . discriminate H.
    + intros tg FF. inversion FF; subst; try contradiction; discriminate H.
  - (* nil *)
    intros t t' H. assert (NW : ~ with_methods E t) by (unfold with_methods; now rewrite H).
    assert (NS : ~ scalar t) by (intros (k' & -> & _); discriminate H).
    repeat split.
    + intros W. contradiction.
    + intros [SC|[W|(u & -> & W)]]; [contradiction|contradiction|]. intros pl G. exists O. intros fuel _.
      apply wsim_fail; [intros out full; discriminate|]. exact (Encode_nil E _ _ H).
    + intros n u l -> . discriminate H.
    + intros tg FF pl G. exists O. intros fuel _ text.
      assert (P : exists u, t = TPtr u) by (inversion FF; subst; try contradiction; try discriminate H; eauto).
      destruct P as (u & ->). unfold field_enc. destruct (is_optional tg) eqn:O.
      * assert (Q : exists b, gen_write (field_of (TPtr u) true text) = SWriteOptional true b).
        { unfold field_of. cbn [shape_of]. destruct (body_of u) as [[[s a] n] m]. unfold gen_write. cbn [f_optional orb]. eauto. }
        destruct Q as (b & ->). cbn [exec_write is_zero negb]. apply wsim_refl.
      * assert (Q : exists b, gen_write (field_of (TPtr u) false text) = SWriteOptional false b).
        { unfold field_of. cbn [shape_of]. destruct (body_of u) as [[[s a] n] m]. unfold gen_write. cbn [f_optional f_ptr orb]. eauto. }
        destruct Q as (b & ->). cbn [exec_write is_zero negb].
        apply wsim_fail; [intros out full; discriminate|]. exact (Encode_nil E _ _ H).
  - (* pointer *)
    intros t t' v H HT (IS & IE & IA & _). assert (NW : ~ with_methods E t) by (unfold with_methods; now rewrite H).
    assert (NS : ~ scalar t) by (intros (k' & -> & _); discriminate H).
    assert (EP : wsim (Encode E t' v) (Encode E t (RPtr (Some v)))).
    { apply wsim_eq. intros out. symmetry. apply (Encode_ptr _ _ _ _ H). eapply has_type_leaf_shaped. exact HT. }
    repeat split.
    + intros W. contradiction.
    + intros [SC|[W|(u & -> & W)]]; [contradiction|contradiction|]. intros pl G. cbn [head] in H. injection H as ->.
      destruct (IS W (beneath pl) (gen_ptr _ _ _ G)) as [F HF].
      exists F. intros fuel Hf. unfold el_step. cbn [own_kind]. eapply wsim_trans; [now apply HF|exact EP].
    + intros n u l -> . discriminate H.
    + intros tg FF pl G.
      assert (X : exists F, forall fuel, (F <= fuel)%nat -> forall text,
        exists b, gen_write (field_of t (is_optional tg) text) = SWriteOptional (is_optional tg) b /\
          wsim (exec_write (MarshalABI fuel E) E t (RPtr (Some v)) 0 b) (Encode E t (RPtr (Some v)))).
      { inversion FF as [tg' u N SC|tg' N|tg' u N W|tg' u N _|tg' n u N _|tg' u SC|tg' u W|tg' n u ME]; subst; try contradiction; try discriminate H.
        - cbn [head] in H. injection H as ->.
          destruct (IE (or_introl SC) (beneath pl) (gen_ptr _ _ _ G)) as [F HF].
          exists F. intros fuel Hf text. eexists (el_code true false t'). split.
          + unfold field_of, el_code. cbn [shape_of]. destruct SC as (k & -> & GK & NB).
            destruct k; try discriminate GK; try congruence; destruct tg; reflexivity.
          + rewrite (exec_el _ _ _ _ _ v t') by reflexivity. eapply wsim_trans; [now apply HF|exact EP].
        - cbn [head] in H. injection H as ->.
          destruct (IS W (beneath pl) (gen_ptr _ _ _ G)) as [F HF].
          exists F. intros fuel Hf text. eexists (SMarshal {| star := false; index := false |}). split.
          + unfold field_of. cbn [shape_of].
            assert (B : body_of t' = (false, false, 0, None)).
            { unfold with_methods in W. destruct t' as [k|k| |u|u|n u|k w|fs|i0 u0|i]; cbn [head] in W; try contradiction; try reflexivity.
              destruct k; try discriminate W; reflexivity. }
            rewrite B. destruct tg; reflexivity.
          + cbn [exec_write]. eapply wsim_trans; [now apply HF|exact EP].
        - cbn [head] in H. injection H as <-.
          assert (G' : gen_at E (beneath pl) (TArray n u)) by exact (gen_ptr _ _ _ G).
          inversion HT as [| | | | | | |? u' n' l Hh HL LE| | | |]; subst; try (cbn [head] in *; discriminate).
          cbn [head] in Hh. injection Hh as HN HU. subst u'.
          destruct (IA n u l eq_refl eq_refl (or_intror ME) (beneath pl) G') as [F HF].
          exists F. intros fuel Hf text. eexists (SWriteArray (parsed_len n) (el_code true true u)). split.
          + unfold field_of, el_code. cbn [shape_of body_of]. destruct tg, (own_kind u); reflexivity.
          + cbn [exec_write]. destruct (gen_array _ _ _ _ _ G' eq_refl) as [SZ _]. rewrite parsed_len_small, Nat2Z.id by exact SZ.
            rewrite HN. rewrite (for_write_all _ (el_step (MarshalABI fuel E) u)).
            * eapply wsim_trans; [now apply HF|exact EP].
            * intros i x Hx. apply exec_el; [|reflexivity]. unfold value_at. cbn [star index rbind elements]. now rewrite Hx. }
      destruct X as [F HF]. exists F. intros fuel Hf text. destruct (HF fuel Hf text) as (b & -> & W).
      cbn [exec_write is_zero negb]. unfold field_enc. cbn [is_zero negb].
      destruct (is_optional tg); [apply wsim_etry; [apply wsim_refl|exact W]|]. exact W.
  - (* nil slice *)
    intros t t' H. assert (NW : ~ with_methods E t) by (unfold with_methods; now rewrite H).
    assert (NS : ~ scalar t) by (intros (k' & -> & _); discriminate H).
    repeat split.
    + intros W. contradiction.
    + intros [SC|[W|(u & -> & W)]]; [contradiction|contradiction|discriminate H].
    + intros n u l -> . discriminate H.
    + intros tg FF pl G. inversion FF as [tg' u N SC|tg' N|tg' u N W|tg' u N EL|tg' n u N _|tg' u SC|tg' u W|tg' n u ME]; subst;
        try contradiction; try discriminate H.
      exists O. intros fuel _ text. assert (O : is_optional tg = false) by now apply not_optional. unfold field_enc. rewrite O.
      rewrite (Encode_slice _ _ _ _ H). cbn [elems]. unfold field_of. cbn [shape_of body_of]. destruct (own_kind u); apply wsim_refl.
  - (* slice *)
    intros t t' l H HL IH MK. assert (NW : ~ with_methods E t) by (unfold with_methods; now rewrite H).
    assert (NS : ~ scalar t) by (intros (k' & -> & _); discriminate H).
    repeat split.
    + intros W. contradiction.
    + intros [SC|[W|(u & -> & W)]]; [contradiction|contradiction|discriminate H].
    + intros n u l0 -> . discriminate H.
    + intros tg FF pl G. inversion FF as [tg' u N SC|tg' N|tg' u N W|tg' u N EL|tg' n u N _|tg' u SC|tg' u W|tg' n u ME]; subst;
        try contradiction; try discriminate H.
      cbn [head] in H. injection H as ->.
      destruct (IH EL Slot (gen_slice _ _ _ G)) as [F HF].
      exists F. intros fuel Hf text. assert (O : is_optional tg = false) by now apply not_optional. unfold field_enc. rewrite O.
      rewrite (Encode_slice E (TSlice t') t' _ eq_refl). cbn [elems].
      assert (Q : gen_write (field_of (TSlice t') false text) = SWriteSlice {| star := false; index := false |} (el_code false true t')).
      { unfold field_of, el_code. cbn [shape_of body_of]. destruct (own_kind t'); reflexivity. }
      rewrite Q. cbn [exec_write]. unfold value_at at 1. cbn [star index rbind ewith elements].
      apply wsim_etry; [apply wsim_refl|]. rewrite (for_write_all _ (el_step (MarshalABI fuel E) t')).
      * apply wsim_put_list. now apply HF.
      * intros i x Hx. apply exec_el; [|reflexivity]. unfold value_at. cbn [star index rbind elements]. now rewrite Hx.
  - (* array *)
    intros t t' n l H HL IH LE. assert (NW : ~ with_methods E t) by (unfold with_methods; now rewrite H).
    assert (NS : ~ scalar t) by (intros (k' & -> & _); discriminate H).
    assert (A : array_ok E t (RArray l)).
    { intros n' u l' -> V EL pl G. injection V as <-. cbn [head] in H. injection H as -> ->.
      destruct (IH EL Slot (gen_elem _ _ _ _ G)) as [F HF].
      exists F. intros fuel Hf. rewrite (Encode_array E (TArray n t') n t' _ eq_refl). apply wsim_put_list. now apply HF. }
    repeat split.
    + intros W. contradiction.
    + intros [SC|[W|(u & -> & W)]]; [contradiction|contradiction|discriminate H].
    + exact A.
    + intros tg FF pl G. inversion FF as [tg' u N SC|tg' N|tg' u N W|tg' u N EL|tg' n' u N EL|tg' u SC|tg' u W|tg' n' u ME]; subst;
        try contradiction; try discriminate H.
      destruct (A n' u l eq_refl eq_refl EL pl G) as [F HF].
      destruct (gen_array _ _ _ _ _ G eq_refl) as [SZ _]. cbn [head] in H. injection H as HN ->.
      exists F. intros fuel Hf text. assert (O : is_optional tg = false) by now apply not_optional. unfold field_enc. rewrite O.
      assert (Q : gen_write (field_of (TArray n' t') false text) = SWriteArray (parsed_len n') (el_code false true t')).
      { unfold field_of, el_code. cbn [shape_of body_of]. destruct (own_kind t'); reflexivity. }
      rewrite Q. cbn [exec_write]. rewrite parsed_len_small, Nat2Z.id by exact SZ. rewrite HN.
      rewrite (for_write_all _ (el_step (MarshalABI fuel E) t')); [now apply HF|].
      intros i x Hx. apply exec_el; [|reflexivity]. unfold value_at. cbn [star index rbind elements]. now rewrite Hx.
  - (* nil map *)
    intros t kt vt H. assert (NW : ~ with_methods E t) by (unfold with_methods; now rewrite H).
    assert (NS : ~ scalar t) by (intros (k' & -> & _); discriminate H).
    repeat split.
    + intros W. contradiction.
    + intros [SC|[W|(u & -> & W)]]; [contradiction|contradiction|discriminate H].
    + intros n u l -> . discriminate H.
    + intros tg FF. inversion FF; subst; try contradiction; discriminate H.
  - (* map *)
    intros t kt vt m H _ _ _ _. assert (NW : ~ with_methods E t) by (unfold with_methods; now rewrite H).
    assert (NS : ~ scalar t) by (intros (k' & -> & _); discriminate H).
    repeat split.
    + intros W. contradiction.
    + intros [SC|[W|(u & -> & W)]]; [contradiction|contradiction|discriminate H].
    + intros n u l -> . discriminate H.
    + intros tg FF. inversion FF; subst; try contradiction; discriminate H.
  - (* struct *)
    intros t fs l H HF IH. assert (W : with_methods E t) by (unfold with_methods; now rewrite H).
    assert (NS : ~ scalar t) by (intros (k' & -> & _); discriminate H).
    assert (S : struct_ok E t (RStruct l)).
    { intros _ pl G. pose proof (gen_self _ _ _ G) as GS. unfold generable_here in GS. rewrite H in GS. destruct GS as [(CF & _ & _) EX].
      destruct IH as [F HFu].
      { rewrite Forall_forall in *. intros [[tg vis] u] I. pose proof (CF _ I) as C1. pose proof (EX _ I) as C2.
        cbv beta iota in C1, C2. repeat split; try tauto. eapply gen_part; [exact G|]. eapply pt_field; eassumption. }
      exists (Datatypes.S F). intros [|fuel] Hf; [lia|]. cbn [MarshalABI]. rewrite H. unfold GenUnmarshalFn.
      destruct (classify_all_ok fs) as (lf & C & _).
      { rewrite Forall_forall in CF. intros vis u I. apply CF in I. cbv beta iota in I. now apply (form_optional E). }
      rewrite C. cbn [rbind]. rewrite (Encode_struct _ _ _ _ H). apply HFu; [lia|]. now apply classify_all_described. }
    repeat split.
    + exact S.
    + now apply element_methods.
    + intros n u l0 -> . discriminate H.
    + intros tg FF pl G. inversion FF as [tg' u N SC|tg' N|tg' u N W'|tg' u N EL|tg' n' u N EL|tg' u SC|tg' u W'|tg' n' u ME]; subst;
        try contradiction; try discriminate H.
      now apply field_methods with (pl := pl).
  - (* user *)
    intros t i u v H Hv _. assert (W : with_methods E t) by (unfold with_methods; now rewrite H).
    assert (NS : ~ scalar t) by (intros (k' & -> & _); discriminate H).
    assert (S : struct_ok E t (RUser v)).
    { intros _ pl G. exists 1%nat. intros [|fuel] Hf; [lia|]. cbn [MarshalABI]. rewrite H.
      rewrite (Encode_user _ _ _ _ _ H). apply wsim_refl. }
    repeat split.
    + exact S.
    + now apply element_methods.
    + intros n w l0 -> . discriminate H.
    + intros tg FF pl G. inversion FF as [tg' w N SC|tg' N|tg' w N W'|tg' w N EL|tg' n' w N EL|tg' w SC|tg' w W'|tg' n' w ME]; subst;
        try contradiction; try discriminate H.
      now apply field_methods with (pl := pl).
  - intros t _ pl _. exists O. intros fuel _. constructor.
  - intros t v l Hv (_ & IE & _) Hl IHl EL pl G. destruct (IE EL pl G) as [F1 H1]. destruct (IHl EL pl G) as [F2 H2].
    exists (Nat.max F1 F2). intros fuel Hf. constructor; [apply H1; lia|apply H2; lia].
  - intros _. exists O. intros fuel _ lf D. inversion D; subst. apply wsim_refl.
  - intros tg vis t fs v l Hv (_ & _ & _ & IF) Hl IHl F0. inversion F0 as [|? ? A B]; subst. cbv beta iota in A. destruct A as (-> & FF & G).
    destruct (IF tg FF Slot G) as [F1 H1]. destruct (IHl B) as [F2 H2].
    exists (Nat.max F1 F2). intros fuel Hf lf D. inversion D as [|? f ? lf' D1 D2]; subst.
    destruct D1 as (_ & text & ->). cbn [map marshal_body].
    eapply wsim_trans; [apply wsim_etry; [apply H1; lia|apply H2; [lia|exact D2]]|].
    intros out full. symmetry. apply put_field.
Qed.
