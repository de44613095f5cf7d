(** Termination of the reflective decoder. *)
From Verif Require Import Base Prog GoVarint AbiPrim BaseProofs SpecWire ProgProofs AbiPrimProofs Chain SpecChain ChainProofs
  Values Leaf SpecLeaf LeafProofs Reflect SpecReflect ReflectProofs AbiTermProofs SpecTerm.

(** ** More fuel gives the same result *)
Lemma through_mono E f g : (forall t v, dle (f t v) (g t v)) -> forall t v, dle (through E f t v) (through E g t v).
Proof.
  intros H t v. unfold through. destruct (head E t); try apply H. destruct v; try apply H.
  apply dle_bind; [apply H|]. intros; apply dle_refl.
Qed.
Lemma get_elems_mono f g : (forall v, dle (f v) (g v)) -> forall l, dle (get_elems f l) (get_elems g l).
Proof.
  intros H. induction l as [|x l IH]; cbn [get_elems]; [constructor|]. apply dle_bind; [apply H|].
  intros [y [e|]]; [constructor|]. apply dle_bind; [exact IH|]. intros; apply dle_refl.
Qed.
Lemma get_slice_mono n z f g old : (forall v, dle (f v) (g v)) -> dle (get_slice n z f old) (get_slice n z g old).
Proof.
  intros H. unfold get_slice. apply dle_bind; [apply dle_refl|]. intros [l [e|]]; [constructor|].
  destruct (_ =? _).
  - destruct old; [|constructor]. apply dle_bind; [now apply get_elems_mono|]. intros; apply dle_refl.
  - destruct (make_ok n (i64 l)); [|constructor]. apply dle_bind; [now apply get_elems_mono|]. intros; apply dle_refl.
Qed.
Lemma get_pairs_mono f g f' g' : dle f f' -> dle g g' -> forall n m, dle (get_pairs f g n m) (get_pairs f' g' n m).
Proof.
  intros H H'. induction n as [|n IH]; intros m; cbn [get_pairs]; [constructor|]. apply dle_bind; [exact H|].
  intros [k [e|]]; [constructor|]. apply dle_bind; [exact H'|]. intros [v [e|]]; [constructor|apply IH].
Qed.
Lemma get_map_mono f g f' g' old : dle f f' -> dle g g' -> dle (get_map f g old) (get_map f' g' old).
Proof.
  intros H H'. unfold get_map. apply dle_bind; [apply dle_refl|]. intros [l [e|]]; [constructor|].
  apply dle_bind; [now apply get_pairs_mono|]. intros; apply dle_refl.
Qed.
Lemma get_fields_mono E f g f' g' : (forall t v, dle (f t v) (f' t v)) -> (forall t v, dle (g t v) (g' t v)) ->
  forall fs l, dle (get_fields E f g fs l) (get_fields E f' g' fs l).
Proof.
  intros H H'. induction fs as [|[[tg vis] t] fs IH]; intros l; cbn [get_fields]; [constructor|]. destruct l as [|v l]; [constructor|].
  apply dle_bind.
  - unfold get_field. destruct vis; try apply dle_refl. destruct tg.
    + now apply through_mono.
    + apply dle_bind; [apply dle_refl|]. intros [b [e|]]; [constructor|]. destruct b; [now apply through_mono|constructor].
    + apply dle_bind; [now apply through_mono|]. intros; apply dle_refl.
    + now apply through_mono.
  - intros [x [e|]]; [constructor|]. apply dle_bind; [apply IH|]. intros; apply dle_refl.
Qed.
Lemma get_alternative_mono E f g i fs l : (forall t v, dle (f t v) (g t v)) -> dle (get_alternative E f i fs l) (get_alternative E g i fs l).
Proof.
  intros H. unfold get_alternative. destruct (_ <=? _); [constructor|]. destruct (clear_others _ _ _ _); [|constructor].
  destruct (nth_error _ _) as [[[tg vis] t]|]; [|constructor]. destruct (head E t); try constructor.
  apply dle_bind; [apply H|]. intros; apply dle_refl.
Qed.
Lemma decode_mono E h : forall fuel m t old, dle (decode fuel E h m t old) (decode (S fuel) E h m t old).
Proof.
  induction fuel as [|fuel IH]; intros m t old; [constructor|].
  remember (S fuel) as fuel1 eqn:F1. rewrite F1 at 1. cbn [decode]. 
  assert (R : forall t v, dle (decode fuel E h Whole t v) (decode fuel1 E h Whole t v)) by (subst; intros; apply IH).
  destruct m.
  - apply dle_bind; [apply dle_refl|]. intros [v [[|] [e|]]]; try constructor.
    destruct (head E t); try (subst; apply IH). destruct v; try (subst; apply IH). destruct (go_kind k); [apply dle_refl|subst; apply IH].
  - destruct (head E t), old; try apply dle_refl.
    + destruct (go_kind k); [|apply dle_refl]. destruct p; try apply dle_refl.
      apply dle_bind; [now apply get_slice_mono|]. intros; apply dle_refl.
    + apply through_mono. subst; intros; apply IH.
    + apply dle_bind; [|intros; apply dle_refl]. apply get_slice_mono. intros. now apply through_mono.
    + apply dle_bind; [|intros; apply dle_refl]. apply get_elems_mono. intros. now apply through_mono.
    + apply dle_bind; [|intros; apply dle_refl]. now apply get_map_mono.
    + apply dle_bind; [|intros; apply dle_refl]. apply get_fields_mono; [exact R|].
      intros. apply dle_bind; [apply dle_refl|]. intros [i [e|]]; [constructor|subst; apply IH].
  - destruct (head E t), old; try apply dle_refl.
    + apply through_mono. subst; intros; apply IH.
    + apply dle_bind; [|intros; apply dle_refl]. now apply get_alternative_mono.
Qed.
Lemma decode_stable env E h fuel fuel' m t old inp : (fuel <= fuel')%nat ->
  run env (decode fuel E h m t old) inp <> Diverged ->
  run env (decode fuel' E h m t old) inp = run env (decode fuel E h m t old) inp.
Proof.
  intros L. induction L as [|fuel' L IH]; intros H; [reflexivity|].
  destruct (dle_run env _ _ (decode_mono E h fuel' m t old) inp) as [D|Q]; [|rewrite Q; auto].
  rewrite IH in D by exact H. contradiction.
Qed.

(** ** Leaves come to an end *)
Lemma ff_auths n : forall acc, fuel_free (read_auths n acc).
Proof.
  induction n as [|n IH]; intros acc; cbn [read_auths]; [exact I|]. apply ff_bind; [ffu|]. intros [p [e|]]; [exact I|apply IH].
Qed.
Lemma ff_all {A} (z : A) f : (forall a, fuel_free (f a)) -> forall n, fuel_free (read_all z f n).
Proof.
  intros H. induction n as [|n IH]; cbn [read_all]; [exact I|]. apply ff_bind; [apply H|]. intros [x [e|]]; [exact I|].
  apply ff_bind; [exact IH|]. intros [xs e]. exact I.
Qed.
Lemma ff_slice {A} n (z : A) f old : (forall a, fuel_free (f a)) -> fuel_free (read_slice n z f old).
Proof.
  intros H. unfold read_slice. apply ff_bind; [apply ff_ReadVaruint|]. intros [l [e|]]; [exact I|].
  destruct (make_ok n l); [|exact I]. now apply ff_all.
Qed.
Lemma ff_action a : fuel_free (Action_UnmarshalABI a).
Proof.
  unfold Action_UnmarshalABI. apply ff_bind; [ffu|]. intros [x _]. apply ff_bind; [ffu|]. intros [y _].
  apply ff_bind; [apply ff_ReadVaruint|]. intros [l [e|]]; [exact I|]. apply ff_bind; [apply ff_auths|]. intros [au [e|]]; [exact I|].
  apply ff_bind; [ffu|]. intros [d e]. exact I.
Qed.
Lemma ff_transaction t : fuel_free (Transaction_UnmarshalABI t).
Proof.
  unfold Transaction_UnmarshalABI. apply ff_bind; [ffu|]. intros [h [e|]]; [exact I|]. cbv zeta.
  apply ff_bind; [apply ff_slice, ff_action|]. intros [a [e|]]; [exact I|].
  apply ff_bind; [apply ff_slice, ff_action|]. intros [b [e|]]; [exact I|].
  apply ff_bind; [apply ff_slice; intros x; ffu|]. intros [c e]. exact I.
Qed.
Lemma ff_read p : fuel_free (read_prim p).
Proof.
  destruct p; cbn [read_prim];
    (unfold wrap; apply ff_bind; [|intros [? ?]; exact I]);
    lazymatch goal with
    | |- fuel_free (Action_UnmarshalABI _) => apply ff_action
    | |- fuel_free (Transaction_UnmarshalABI _) => apply ff_transaction
    | |- _ => ffu
    end.
Qed.
Lemma ff_leaf p : fuel_free (leaf_read p).
Proof. apply ff_bind; [apply ff_read|]. intros [q e]. exact I. Qed.

(** ** One step of the decoder *)
Definition ended (E : types) (F : nat) (P : nat -> Prop) (t : gtype) : Prop :=
  forall fuel, (F <= fuel)%nat -> forall env inp old, P (length inp) -> forall m, m = Whole \/ m = Deref ->
    ends env (decode fuel E chain_decoder m t old) inp /\ ends env (through E (decode fuel E chain_decoder m) t old) inp.
Definition ended_alt (E : types) (F : nat) (P : nat -> Prop) (t : gtype) : Prop :=
  forall fuel, (F <= fuel)%nat -> forall env inp old i, P (length inp) ->
    ends env (decode fuel E chain_decoder (Alt i) t old) inp /\ ends env (through E (decode fuel E chain_decoder (Alt i)) t old) inp.
Definition downward (P : nat -> Prop) : Prop := forall n n', P n -> (n' <= n)%nat -> P n'.
Lemma ff_ends {A} env (p : dec A) inp : fuel_free p -> ends env p inp.
Proof. intros H. now apply fuel_free_ends. Qed.
Lemma ends_elems (P : nat -> Prop) env f : downward P -> (forall v inp, P (length inp) -> ends env (f v) inp) ->
  forall l inp, P (length inp) -> ends env (get_elems f l) inp.
Proof.
  intros D H. induction l as [|x l IH]; intros inp L; cbn [get_elems]; [apply ends_ret|].
  apply ends_bind; [now apply H|]. intros [y [e|]] rest _ LR; [apply ends_ret|].
  apply ends_bind; [apply IH; eauto|]. intros [ys e] r2 _ _. apply ends_ret.
Qed.
Lemma ends_slice (P P' : nat -> Prop) env n z f old : (forall n n', P n -> (n' < n)%nat -> P' n') -> downward P' ->
  (forall v inp, P' (length inp) -> ends env (f v) inp) ->
  forall inp, P (length inp) -> ends env (get_slice n z f old) inp.
Proof.
  intros PP D H inp L. unfold get_slice. apply ends_bind; [apply ff_ends, ff_ReadVaruint|].
  intros [l [e|]] rest R _; [apply ends_ret|]. apply varuint_consumes in R.
  destruct (_ =? _).
  - destruct old; [|apply ends_ret]. apply ends_bind; [eapply ends_elems; eauto|]. intros [ys e] r2 _ _. apply ends_ret.
  - destruct (make_ok n (i64 l)); [|exact I]. apply ends_bind; [eapply ends_elems; eauto|]. intros [ys e] r2 _ _. apply ends_ret.
Qed.
Lemma ends_pairs (P : nat -> Prop) env f g : downward P -> (forall inp, P (length inp) -> ends env f inp) -> (forall inp, P (length inp) -> ends env g inp) ->
  forall n m inp, P (length inp) -> ends env (get_pairs f g n m) inp.
Proof.
  intros D H H'. induction n as [|n IH]; intros m inp L; cbn [get_pairs]; [apply ends_ret|].
  apply ends_bind; [now apply H|]. intros [k [e|]] rest _ LR; [apply ends_ret|].
  apply ends_bind; [apply H'; eauto|]. intros [v [e|]] r2 _ LR2; [apply ends_ret|]. apply IH. eauto.
Qed.
Lemma ends_map (P P' : nat -> Prop) env f g old : (forall n n', P n -> (n' < n)%nat -> P' n') -> downward P' ->
  (forall inp, P' (length inp) -> ends env f inp) -> (forall inp, P' (length inp) -> ends env g inp) ->
  forall inp, P (length inp) -> ends env (get_map f g old) inp.
Proof.
  intros PP D H H' inp L. unfold get_map. apply ends_bind; [apply ff_ends, ff_ReadVaruint|].
  intros [l [e|]] rest R _; [apply ends_ret|]. apply varuint_consumes in R.
  apply ends_bind; [eapply ends_pairs; eauto|]. intros [m e] r2 _ _. apply ends_ret.
Qed.
Lemma byte_consumes env inp x rest : run env ReadByte inp = Done (x, None) rest -> (length rest < length inp)%nat.
Proof.
  destruct inp as [|b inp]; [rewrite run_ReadByte_nil; discriminate|].
  rewrite run_ReadByte_cons. intros H. injection H as _ <-. cbn [length]. lia.
Qed.
Lemma elem_u8 E fuel env inp v : (2 <= fuel)%nat -> ends env (decode fuel E chain_decoder Whole (TLeaf KU8) v) inp.
Proof.
  intros L. destruct fuel as [|[|fuel]]; try lia. cbn [decode head].
  destruct v; cbn [chain_decoder table_kind dbind go_kind]; try apply ends_ret. apply ff_ends, ff_leaf.
Qed.

Lemma ends_through E env f t v inp : (forall v, ends env (f t v) inp) -> (forall t' x, head E t = TPtr t' -> ends env (f t' x) inp) ->
  ends env (through E f t v) inp.
Proof.
  intros H H'. unfold through. destruct (head E t) eqn:Ht; try apply H. destruct v; try apply H.
  apply ends_bind; [now apply H'|]. intros [x e] r _ _. apply ends_ret.
Qed.
Lemma ends_pointee E t t' env f x inp : head E t = TPtr t' -> (forall o, ends env (through E f t o) inp) -> ends env (f t' x) inp.
Proof.
  intros H R. specialize (R (RPtr (Some x))). unfold through in R. rewrite H in R. unfold ends in *. rewrite run_dbind in R.
  destruct (run env (f t' x) inp) as [[y e] r|m|]; auto.
Qed.
Lemma one_step E (P P' : nat -> Prop) t : methods_end E -> downward P -> downward P' -> (forall n n', P n -> (n' < n)%nat -> P' n') ->
  (forall t', immediate E t' t -> exists F, ended E F P t') ->
  (forall t', component E t' t -> exists F, ended E F P' t' /\ ended_alt E F P' t') ->
  exists F, ended E F P t.
Proof.
  intros ME D D' PP HI HC.
  assert (X : exists F, forall fuel, (F <= fuel)%nat -> forall env inp old, P (length inp) ->
     ends env (decode fuel E chain_decoder Deref t old) inp).
  { destruct (head E t) as [k|k| |u|u|n u|ku vu|fs|i u|i] eqn:H.
    - exists 3%nat. intros fuel L env inp old Pi. destruct fuel as [|fuel]; [lia|]. cbn [decode]. rewrite H.
      destruct old; try apply ends_ret. destruct (go_kind k); [|apply ff_ends, ff_leaf].
      destruct p; try apply ends_ret; try (apply ff_ends, ff_bind; [apply ff_leaf|]; intros [? ?]; exact I).
      apply ends_bind; [|intros [? ?] r2 _ _; apply ends_ret].
      apply (ends_slice (fun _ => True) (fun _ => True)); try exact I; auto; [now intros ?|].
      intros v inp' _. apply elem_u8. lia.
    - exists 1%nat. intros fuel L env inp old Pi. destruct fuel as [|fuel]; [lia|]. cbn [decode]. rewrite H.
      destruct old; try apply ends_ret. apply ff_ends. destruct k; ffu.
    - exists 1%nat. intros fuel L env inp old Pi. destruct fuel as [|fuel]; [lia|]. cbn [decode]. rewrite H. apply ends_ret.
    - destruct (HI u) as (F & HF); [now constructor|]. exists (S F). intros fuel L env inp old Pi. destruct fuel as [|fuel]; [lia|].
      cbn [decode]. rewrite H. destruct old; try apply ends_ret. unfold through. rewrite H. apply ends_bind.
      + apply HF; auto; lia.
      + intros [x e] r2 _ _. apply ends_ret.
    - destruct (HC u) as (F & HF & _); [exists Slot, Slot; now constructor|]. exists (S F). intros fuel L env inp old Pi. destruct fuel as [|fuel]; [lia|].
      cbn [decode]. rewrite H. destruct old; try apply ends_ret. apply ends_bind; [|intros [x e] r2 _ _; apply ends_ret].
      apply (ends_slice P P'); auto. intros v inp' Pi'. apply HF; auto; lia.
    - destruct (HI u) as (F & HF); [eapply im_array; eassumption|]. exists (S F). intros fuel L env inp old Pi. destruct fuel as [|fuel]; [lia|].
      cbn [decode]. rewrite H. destruct old; try apply ends_ret. apply ends_bind; [|intros [x e] r2 _ _; apply ends_ret].
      apply (ends_elems P); auto. intros v inp' Pi'. apply HF; auto; lia.
    - destruct (HC ku) as (F & HF & _); [exists Slot, Target; eapply pt_key; eassumption|].
      destruct (HC vu) as (F' & HF' & _); [exists Slot, Target; eapply pt_value; eassumption|].
      exists (S (Nat.max F F')). intros fuel L env inp old Pi. destruct fuel as [|fuel]; [lia|].
      cbn [decode]. rewrite H. destruct old; try apply ends_ret. apply ends_bind; [|intros [x e] r2 _ _; apply ends_ret].
      apply (ends_map P P'); auto; intros inp' Pi'; [apply HF|apply HF']; auto; lia.
    - assert (Y : forall gs, (forall f, In f gs -> In f fs) -> exists F, forall fuel, (F <= fuel)%nat -> forall env inp l, P (length inp) ->
        ends env (get_fields E (decode fuel E chain_decoder Whole) (fun t v => '(i, err) <-- ReadByte ;;
              match err with Some e => DRet (v, Some e) | None => decode fuel E chain_decoder (Alt i) t v end) gs l) inp).
      { induction gs as [|[[tg vis] u] gs IH]; intros S.
        - exists O. intros. destruct l; apply ends_ret.
        - destruct IH as (F & HF); [intros f Hf; apply S; now right|]. pose proof (S _ (or_introl eq_refl)) as In1.
          destruct (HC u) as (F1 & H1 & H1'); [exists Slot, Slot; eapply pt_field; eassumption|].
          assert (Z : exists F2, tg = NoTag \/ tg = Extension -> ended E F2 P u).
          { destruct tg; try (exists O; intros [C|C]; discriminate C).
            - destruct (HI u) as (F2 & H2); [eapply im_field; eauto|]. exists F2. auto.
            - destruct (HI u) as (F2 & H2); [eapply im_field; eauto|]. exists F2. auto. }
          destruct Z as (F2 & H2). exists (Nat.max F (Nat.max F1 F2)). intros fuel L env inp l Pi. cbn [get_fields].
          destruct l as [|v l]; [apply ends_ret|]. apply ends_bind.
          + unfold get_field. destruct vis; [|apply ends_ret|exact I]. destruct tg.
            * apply H2; auto; lia.
            * apply ends_bind; [apply ff_ends; ffu|]. intros [b [e|]] rest R _; [apply ends_ret|]. apply bool_consumes in R.
              destruct b; [|apply ends_ret]. apply H1; eauto; lia.
            * apply ends_bind; [apply H2; auto; lia|]. intros [x [[]|]] r2 _ _; apply ends_ret.
            * apply ends_through.
              -- intros x. apply ends_bind; [apply ff_ends, ff_ReadByte|]. intros [i [e|]] rest R _; [apply ends_ret|].
                 apply byte_consumes in R. apply H1'; eauto; lia.
              -- intros u' x Hu. apply ends_bind; [apply ff_ends, ff_ReadByte|]. intros [i [e|]] rest R _; [apply ends_ret|].
                 apply byte_consumes in R. apply (ends_pointee E u). { exact Hu. }
                 intros o. apply H1'; eauto; lia.
          + intros [x [e|]] rest _ LR; [apply ends_ret|]. apply ends_bind; [apply HF; eauto; lia|].
            intros [y e] r2 _ _. apply ends_ret. }
      destruct (Y fs (fun f H => H)) as (F & HF). exists (S F). intros fuel L env inp old Pi. destruct fuel as [|fuel]; [lia|].
      cbn [decode]. rewrite H. destruct old; try apply ends_ret. apply ends_bind; [|intros [x e] r2 _ _; apply ends_ret].
      cbv zeta. apply HF; auto; lia.
    - exists 1%nat. intros fuel L env inp old Pi. destruct fuel as [|fuel]; [lia|]. cbn [decode]. rewrite H.
      destruct old; try apply ends_ret. apply ends_bind; [exact (ME i old env inp)|intros [x e] r2 _ _; apply ends_ret].
    - exists 1%nat. intros fuel L env inp old Pi. destruct fuel as [|fuel]; [lia|]. cbn [decode]. rewrite H. apply ends_ret. }
  destruct X as (F & HF).
  assert (Y : exists F, forall t', head E t = TPtr t' -> ended E F P t').
  { destruct (head E t) eqn:H; try (exists O; discriminate). destruct (HI g) as (F1 & H1); [now constructor|].
    exists F1. intros t' [= <-]. exact H1. }
  destruct Y as (F1 & H1). exists (S (Nat.max F F1)). intros fuel L env inp old Pi m M.
  assert (Q : forall old, ends env (decode fuel E chain_decoder m t old) inp).
  { intros o. destruct M as [-> | ->]; [|apply HF; auto; lia]. destruct fuel as [|fuel]; [lia|]. cbn [decode].
    apply ends_bind.
    - apply ff_ends. unfold chain_decoder. destruct (head E t); try exact I. destruct o; try exact I. destruct (table_kind k); [|exact I].
      apply ff_bind; [apply ff_leaf|]. intros [? ?]. exact I.
    - intros [v [[|] [e|]]] r _ LR; try apply ends_ret. assert (P (length r)) by eauto.
      assert (W : ends env (decode fuel E chain_decoder Deref t v) r) by (apply HF; auto; lia).
      destruct (head E t); try exact W. destruct v; try exact W. destruct (go_kind k); [apply ff_ends, ff_leaf|exact W]. }
  split; [apply Q|]. apply ends_through; [exact Q|]. intros t' x H. apply (H1 t' H); auto; lia.
Qed.
(** DecodeVariant, once Decode comes to an end. *)
Lemma alt_step E P : methods_end E -> forall t, Acc (immediate E) t -> (forall t', reaches E t t' -> exists F, ended E F P t') ->
  exists F, ended_alt E F P t.
Proof.
  intros ME t A. induction A as [t _ IH]. intros W.
  assert (X : exists F, forall fuel, (F <= fuel)%nat -> forall env inp old i, P (length inp) ->
     ends env (decode fuel E chain_decoder (Alt i) t old) inp).
  { destruct (head E t) as [k|k| |u|u|n u|ku vu|fs|j u|j] eqn:H;
      try (exists 1%nat; intros fuel L env inp old i Pi; (destruct fuel as [|fuel]; [lia|]); cbn [decode]; rewrite H; apply ends_ret).
    - exists 1%nat. intros fuel L env inp old i Pi. destruct fuel as [|fuel]; [lia|]. cbn [decode]. rewrite H. destruct old; try apply ends_ret.
      destruct (go_kind k); [apply ends_ret|apply ff_ends, ff_leaf].
    - destruct (IH u) as (F & HF).
      + now constructor.
      + intros t' W'. apply W. eapply re_step; [|exact W']. exists Slot, Target. now constructor.
      + exists (S F). intros fuel L env inp old i Pi. destruct fuel as [|fuel]; [lia|]. cbn [decode]. rewrite H.
        destruct old; try apply ends_ret. unfold through. rewrite H. apply ends_bind; [apply HF; auto; lia|].
        intros [x e] r _ _. apply ends_ret.
    - assert (Y : forall gs, (forall f, In f gs -> In f fs) -> exists F, forall f u', In f gs -> head E (snd f) = TPtr u' -> ended E F P u').
      { induction gs as [|[[tg vis] u] gs IHg]; intros S.
        - exists O. intros f u' [].
        - destruct IHg as (F & HF); [intros f Hf; apply S; now right|]. destruct (head E u) as [k|k| |u1|u1|n u1|ku vu|fs1|j u1|j] eqn:Hu;
            try (exists F; intros f u' [<-|I1] Hf; [cbn [snd] in Hf; congruence|now apply (HF f)]).
          destruct (W u1) as (F1 & H1).
          { eapply re_step; [exists Slot, Slot; eapply pt_field; [exact H|apply S; now left]|]. eapply re_step; [exists Slot, Target; eapply (pt_ptr E Slot); exact Hu|]. constructor. }
          exists (Nat.max F F1). intros f u' [<-|I1] Hf fuel L.
          + cbn [snd] in Hf. rewrite Hu in Hf. injection Hf as <-. apply H1. lia.
          + apply (HF f u' I1 Hf). lia. }
      destruct (Y fs (fun f H => H)) as (F & HF). exists (S F). intros fuel L env inp old i Pi. destruct fuel as [|fuel]; [lia|]. cbn [decode]. rewrite H.
      destruct old; try apply ends_ret. apply ends_bind; [|intros [x e] r _ _; apply ends_ret]. unfold get_alternative.
      destruct (_ <=? _); [apply ends_ret|]. destruct (clear_others _ _ _ _); [|exact I]. destruct (nth_error fs (Z.to_nat i)) as [[[tg vis] u]|] eqn:N; [|exact I].
      destruct (head E u) eqn:Hu; try apply ends_ret. apply nth_error_In in N. apply ends_bind.
      + apply (HF _ _ N Hu); auto; lia.
      + intros [x [e|]] r _ _; [apply ends_ret|]. destruct vis; [apply ends_ret|exact I..].
    - exists 1%nat. intros fuel L env inp old i Pi. destruct fuel as [|fuel]; [lia|]. cbn [decode]. rewrite H.
      destruct old; try apply ends_ret. apply ends_bind; [exact (ME j old env inp)|intros [x e] r2 _ _; apply ends_ret]. }
  destruct X as (F & HF).
  assert (Y : exists F, forall t', head E t = TPtr t' -> ended_alt E F P t').
  { destruct (head E t) eqn:H; try (exists O; discriminate). destruct (IH g) as (F1 & H1); [now constructor| |].
    - intros t' W'. apply W. eapply re_step; [|exact W']. exists Slot, Target. now constructor.
    - exists F1. intros t' [= <-]. exact H1. }
  destruct Y as (F1 & H1). exists (Nat.max F F1). intros fuel L env inp old i Pi.
  assert (Q : forall old, ends env (decode fuel E chain_decoder (Alt i) t old) inp) by (intros o; apply HF; auto; lia).
  split; [apply Q|]. apply ends_through; [exact Q|]. intros t' x H. apply (H1 t' H); auto; lia.
Qed.
Lemma reaches_step E t t' t'' : reaches E t t' -> component E t'' t' -> reaches E t t''.
Proof. induction 1; intros C; [eapply re_step; [exact C|constructor]|eapply re_step; eauto]. Qed.
Lemma reaches_trans E t t' t'' : reaches E t t' -> reaches E t' t'' -> reaches E t t''.
Proof. induction 1; eauto using reaches. Qed.
(** Inputs of bounded length. *)
Lemma grounded_ends E : methods_end E -> forall n t, grounded E t ->
  (exists F, ended E F (fun m => (m <= n)%nat) t) /\ (exists F, ended_alt E F (fun m => (m <= n)%nat) t).
Proof.
  intros ME. assert (DW : forall n, downward (fun m => (m <= n)%nat)) by (intros n a b; lia).
  assert (GR : forall t t', grounded E t -> reaches E t t' -> grounded E t') by (intros t t' G R u RU; apply G; eapply reaches_trans; eassumption).
  assert (Z : forall t, grounded E t -> exists F, ended E F (fun m => (m < 0)%nat) t /\ ended_alt E F (fun m => (m < 0)%nat) t).
  { intros t _. exists O. split; intros fuel L env inp old; lia. }
  enough (H : forall n t, grounded E t -> exists F, ended E F (fun m => (m < n)%nat) t /\ ended_alt E F (fun m => (m < n)%nat) t).
  { intros n t G. destruct (H (S n) t G) as (F & A & B). split; exists F; intros fuel L env inp old; intros; [apply A|apply B]; auto; lia. }
  induction n as [|n IH]; [exact Z|].
  assert (HW : forall t, grounded E t -> exists F, ended E F (fun m => (m < S n)%nat) t).
  { intros t G. assert (A : Acc (immediate E) t) by (apply G; constructor). induction A as [t _ IHA].
    apply (one_step E _ (fun m => (m < n)%nat)); try (intros ? ?; lia); auto.
    - intros t' I. apply IHA; [exact I|]. eapply GR; [exact G|].
      assert (C : component E t' t) by (destruct I; exists Slot; eexists; eauto using part). eapply re_step; [exact C|constructor].
    - intros t' C. apply IH. eapply GR; [exact G|]. eapply re_step; [exact C|constructor]. }
  intros t G. destruct (HW t G) as (F & A). destruct (alt_step E (fun m => (m < S n)%nat) ME t) as (F' & B).
  - apply G. constructor.
  - intros t' R. apply HW. eauto.
  - exists (Nat.max F F'). split; intros fuel L; [apply A|apply B]; lia.
Qed.
(** Finite types: no bound on the input. *)
Lemma nonrecursive_ends E : methods_end E -> forall t, nonrecursive E t -> 
  (exists F, ended E F (fun _ => True) t) /\ (exists F, ended_alt E F (fun _ => True) t).
Proof.
  intros ME t A.
  assert (IM : forall t' t, immediate E t' t -> component E t' t) by (intros t' u I; destruct I; exists Slot; eexists; eauto using part).
  assert (AI : forall t, Acc (component E) t -> Acc (immediate E) t).
  { intros u Au. induction Au as [u _ IH]. constructor. intros y I. apply IH. now apply IM. }
  assert (HW : (forall t', reaches E t t' -> exists F, ended E F (fun _ => True) t') /\ (exists F, ended_alt E F (fun _ => True) t)).
  { induction A as [t AC IH].
    assert (X : exists F, ended E F (fun _ => True) t).
    { apply (one_step E _ (fun _ => True)); auto; try now intros ?.
      - intros t' I. apply (IH t'); [now apply IM|constructor].
      - intros t' C. destruct (IH t' C) as [H1 [F2 H2]]. destruct (H1 t' (re_here _ _)) as (F1 & H1'). exists (Nat.max F1 F2).
        split; intros fuel L; [apply H1'|apply H2]; lia. }
    assert (R : forall t', reaches E t t' -> exists F, ended E F (fun _ => True) t').
    { intros t' R. inversion R as [|? u ? C R']; subst; [exact X|]. now apply (IH u C). }
    split; [exact R|]. apply alt_step; auto. apply AI. now constructor. }
  destruct HW as [H1 H2]. split; [apply H1; constructor|exact H2].
Qed.
Lemma component_cases E t' t : component E t' t ->
  match head E t with
  | TPtr u | TSlice u | TArray _ u => t' = u
  | TMap kt vt => t' = kt \/ t' = vt
  | TStruct fs => exists f, In f fs /\ t' = snd f
  | _ => False
  end.
Proof.
  intros (pl & pl' & H). inversion H; subst;
    match goal with Q : head E t = _ |- _ => rewrite Q end; auto. eexists. split; [eassumption|reflexivity].
Qed.
Lemma nameless_finite E : forall t, nameless t = true -> nonrecursive E t.
Proof.
  fix IH 1. intros t N. constructor. intros t' C. apply component_cases in C. revert N C.
  destruct t as [k|k| |u|u|n u|kt vt|fs|i u|i]; cbn [head nameless]; intros N C; try (exact (match C with end)); try discriminate N.
  - rewrite C. exact (IH u N).
  - rewrite C. exact (IH u N).
  - rewrite C. exact (IH u N).
  - apply andb_prop in N. destruct N as [N1 N2]. destruct C as [-> | ->]; [exact (IH kt N1)|exact (IH vt N2)].
  - assert (FA : Forall (fun f => nonrecursive E (snd f)) fs).
    { clear C. revert fs N. fix IHl 1. intros fs. destruct fs as [|[[tg vis] g] fs]; cbn [forallb snd]; intros N; [constructor|].
      apply andb_prop in N. destruct N as [N1 N2]. constructor; [exact (IH g N1)|exact (IHl fs N2)]. }
    destruct C as (f & I & ->). rewrite Forall_forall in FA. exact (FA f I).
Qed.
