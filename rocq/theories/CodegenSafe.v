(** Generated UnmarshalABI methods: a logic for panics and for truncated input. *)
From Verif Require Import Base Prog SpecWire AbiPrim Chain SpecChain Values Leaf SpecLeaf Reflect SpecReflect SpecStrict SpecCodegen SpecLengths Codegen.
From Verif Require Import BaseProofs ProgProofs AbiPrimProofs ChainProofs ReflectProofs ReflectStrict CodegenText CodegenWrite CodegenRead LengthProofs.

(** ** What the proofs need of a claim about programs *)
Definition final {A} (p : io A) : Prop := exists v e, p = DRet (v, Some e).
Record logic := {
  holds : forall A, (A -> Prop) -> io A -> Prop;
  fit : Z -> Prop;
  l_ret : forall A (Q : A -> Prop) a, Q a -> holds A Q (DRet (a, None));
  l_error : forall A (Q : A -> Prop) a e, holds A Q (DRet (a, Some e));
  l_fuel : forall A (Q : A -> Prop), holds A Q DFuel;
  l_bind : forall A B (P : A -> Prop) (Q : B -> Prop) (p : io A) (f : A * option gerr -> io B),
    holds A P p -> (forall a, P a -> holds B Q (f (a, None))) -> (forall a e, final (f (a, Some e))) -> holds B Q (dbind p f);
  l_weaken : forall A (P Q : A -> Prop) p, holds A P p -> (forall a, P a -> Q a) -> holds A Q p;
  l_prim : forall q, holds prim any (read_prim q);
  l_bool : holds bool any ReadBool;
  l_make : forall (Q : rval -> Prop) size d m (body : Z -> io rval), fit size -> (forall l, 0 <= l -> holds rval Q (body l)) ->
    holds rval Q ('(l, err) <-- ReadVaruint ;;
                  match err with
                  | Some e => DRet (d, Some e)
                  | None => if make_ok size (i64 l) then body (i64 l) else DPanic m
                  end) }.

(** ** Targets of the right shape *)
Inductive fits (E : types) : gtype -> rval -> Prop :=
| fit_leaf t k p z : head E t = TLeaf k -> fits E t (RLeaf p z)
| fit_int t k v : head E t = TInt k -> fits E t (RInt v)
| fit_other t z : head E t = TOther -> fits E t (ROther z)
| fit_ptr t u o : head E t = TPtr u -> fits E t (RPtr o)
| fit_slice t u o : head E t = TSlice u -> fits E t (RSlice o)
| fit_array t n u l : head E t = TArray n u -> length l = n -> Forall (fits E u) l -> fits E t (RArray l)
| fit_map t ku vu o : head E t = TMap ku vu -> fits E t (RMap o)
| fit_struct t fs l : head E t = TStruct fs -> Forall2 (fun f v => fits E (snd f) v) fs l -> fits E t (RStruct l)
| fit_user t i u v : head E t = TUser i u -> fits E t (RUser v).
Lemma typed_fits E ok : (forall t v, has_type E ok t v -> fits E t v) /\ (forall t l, have_type E ok t l -> Forall (fits E t) l)
  /\ (forall kt vt m, have_pair_type E ok kt vt m -> True)
  /\ (forall fs l, have_field_types E ok fs l -> Forall2 (fun (f : tag * visibility * gtype) v => fits E (snd f) v) fs l).
Proof.
  apply has_type_all; intros; try exact I; try (econstructor; eassumption); try constructor; auto.
Qed.

(** ** The types *)
Definition here (L : logic) (E : types) (t : gtype) : Prop :=
  generable_here E t /\
  match head E t with
  | TPtr u => scalar u
  | TSlice u => fit L (size_of E u)
  | TLeaf _ => fit L 1
  | TUser i _ => forall old, holds L _ any (unmarshals E i old)
  | _ => True
  end.
Definition ready (L : logic) (E : types) (t : gtype) : Prop := exists pl, forall pl' t', within E (pl, t) (pl', t') -> here L E t'.
Lemma ready_self L E t : ready L E t -> here L E t.
Proof. intros [pl H]. apply (H pl). constructor. Qed.
Lemma ready_part L E t t' : ready L E t -> (forall pl0, exists pl', part E (pl0, t) (pl', t')) -> ready L E t'.
Proof.
  intros [pl0 H] P. destruct (P pl0) as [pl' P']. exists pl'. intros pl'' t'' W. apply (H pl''). eapply wi_part; eassumption.
Qed.
Lemma ready_slice L E u : ready L E (TSlice u) -> ready L E u.
Proof. intros G. apply (ready_part L E (TSlice u)); [exact G|]. intros pl. exists Slot. now constructor. Qed.
Lemma ready_elem L E n u : ready L E (TArray n u) -> ready L E u.
Proof. intros G. apply (ready_part L E (TArray n u)); [exact G|]. intros pl. exists Slot. now apply pt_array with (n := n). Qed.
Lemma ready_field L E fs f : ready L E (TStruct fs) -> In f fs -> ready L E (snd f).
Proof. intros G J. apply (ready_part L E (TStruct fs)); [exact G|]. intros pl. exists Slot. destruct f as [[tg vis] u]. eapply pt_field; [reflexivity|exact J]. Qed.
Lemma zero_of_fits L E : forall t, direct t = true -> ready L E t -> fits E t (zero_of t).
Proof.
  fix IH 1. intros [k|k| |u|u|n u|ku vu|fs|i u|i] D R; try (econstructor; reflexivity); [| |discriminate D].
  - cbn [zero_of]. econstructor; [reflexivity|apply repeat_length|]. pose proof (ready_self _ _ _ R) as [[_ DU] _].
    pose proof (IH u DU (ready_elem _ _ _ _ R)) as Z. clear -Z. induction n; cbn [repeat]; constructor; auto.
  - rewrite zero_struct. econstructor; [reflexivity|]. pose proof (ready_self _ _ _ R) as [[_ DU] _].
    assert (RF : forall f, In f fs -> ready L E (snd f)) by (intros f J; exact (ready_field _ _ _ _ R J)). clear R.
    induction fs as [|[[tg vis] u] fs IHf]; cbn [map]; constructor.
    + cbn [snd]. apply IH; [inversion DU as [|? ? A B]; exact (proj2 A)|]. apply (RF (tg, vis, u)). now left.
    + apply IHf; [reflexivity|now inversion DU|]. intros f J. apply RF. now right.
Qed.
Lemma zero_fits L E t : with_methods E t -> ready L E t -> fits E t (zero E t).
Proof.
  intros W R. unfold zero. unfold with_methods in W. destruct (head E t) as [k|k| |u|u|n u|ku vu|fs|i u|i] eqn:H; try contradiction.
  - now apply fit_leaf with (k := k).
  - rewrite zero_struct. apply fit_struct with (fs := fs); [exact H|]. pose proof (ready_self _ _ _ R) as [GH _]. unfold generable_here in GH. rewrite H in GH. destruct GH as [_ DU].
    assert (RF : forall f, In f fs -> ready L E (snd f)).
    { intros [[tg vis] u] J. apply (ready_part L E t); [exact R|]. intros pl. exists Slot. eapply pt_field; eassumption. }
    clear R H. induction fs as [|[[tg vis] u] fs IHf]; cbn [map]; constructor.
    + cbn [snd]. apply (zero_of_fits L); [inversion DU as [|? ? A B]; exact (proj2 A)|]. apply (RF (tg, vis, u)). now left.
    + apply IHf; [now inversion DU|]. intros f J. apply RF. now right.
  - now apply fit_user with (i := i) (u := u).
Qed.

(** ** The code of a field *)
Lemma replace_length {A} (x : A) : forall l i, length (replace_nth i x l) = length l.
Proof. induction l as [|y l IH]; intros [|i]; cbn [replace_nth length]; auto. Qed.
Lemma replace_Forall {A} (P : A -> Prop) x : P x -> forall l i, Forall P l -> Forall P (replace_nth i x l).
Proof.
  intros X. induction l as [|y l IH]; intros [|i] F; cbn [replace_nth]; try constructor; inversion F; subst; auto.
Qed.
Lemma indexed_store mk i x l : indexed mk -> (i < length l)%nat -> assign true i (mk l) x = Ok (mk (replace_nth i x l)).
Proof.
  intros IX LT. unfold assign. rewrite (indexed_elements mk _ IX). cbn [rbind]. replace (i <? length l)%nat with true by (symmetry; now apply Nat.ltb_lt).
  destruct IX; reflexivity.
Qed.
Lemma bytes_store i x b z : (i < length b)%nat ->
  exists b', assign true i (RLeaf (PGoBytes b) z) x = Ok (RLeaf (PGoBytes b') false) /\ length b' = length b.
Proof.
  intros LT. unfold assign. cbn [elements rbind]. unfold byte_elems at 1. rewrite map_length. replace (i <? length b)%nat with true by (symmetry; now apply Nat.ltb_lt).
  eexists. split; [reflexivity|]. rewrite map_length, replace_length. unfold byte_elems. apply map_length.
Qed.
(** The claim about the methods called. *)
Definition methods_hold (L : logic) (E : types) (unm : gtype -> rval -> io rval) : Prop :=
  forall u x, with_methods E u -> ready L E u -> fits E u x -> holds L _ (fits E u) (unm u x).
Lemma element_holds L E unm t u mk i l : methods_hold L E unm -> ready L E u -> scalar u \/ with_methods E u ->
  indexed mk -> place_type E {| star := false; index := true |} t = Some u -> (i < length l)%nat -> Forall (fits E u) l ->
  holds L _ (fun v => exists l', v = mk l' /\ length l' = length l /\ Forall (fits E u) l') (exec_read unm E t i (el_read_code u) (mk l)).
Proof.
  intros MH R EL IX P LT F. destruct EL as [(k & -> & GK & NB)|W].
  - unfold el_read_code. cbn [own_kind]. rewrite GK. cbn [exec_read]. apply l_bind with (P := any); [apply l_prim| |].
    + intros q _. cbn [index]. rewrite indexed_store by assumption. cbn [dwith]. apply l_ret. eexists. split; [reflexivity|]. split; [apply replace_length|].
      apply replace_Forall; [|exact F]. now econstructor.
    + intros q e. cbn [index]. rewrite indexed_store by assumption. eexists _, _. reflexivity.
  - assert (NP : forall w, u <> TPtr w) by (intros w ->; unfold with_methods in W; exact W).
    unfold el_read_code. destruct (own_kind u) as [k|] eqn:O; [destruct (own_no_methods _ _ _ O W)|].
    destruct (nth_error l i) as [x|] eqn:NX; [|apply nth_error_None in NX; lia].
    rewrite (unmarshal_step unm E t _ _ _ x u); [| |exact P|exact NP].
    2:{ unfold value_at. cbn [star index rbind]. rewrite (indexed_elements mk _ IX). cbn [rbind]. now rewrite NX. }
    apply l_bind with (P := fits E u).
    + apply MH; [exact W|exact R|]. rewrite Forall_forall in F. apply F. eapply nth_error_In, NX.
    + intros y Y. unfold assign_star. cbn [star index]. rewrite indexed_store by assumption. cbn [dwith]. apply l_ret.
      eexists. split; [reflexivity|]. split; [apply replace_length|]. now apply replace_Forall.
    + intros y e. unfold assign_star. cbn [star index]. rewrite indexed_store by assumption. eexists _, _. reflexivity.
Qed.
Lemma loop_holds L (P : rval -> Prop) f N : (forall i v, (i < N)%nat -> P v -> holds L _ P (f i v)) ->
  forall n i v, (i + n <= N)%nat -> P v -> holds L _ P (for_read f n i v).
Proof.
  intros H. induction n as [|n IH]; intros i v LE Pv; cbn [for_read]; [now apply l_ret|].
  apply l_bind with (P := P); [apply H; [lia|exact Pv]| |].
  - intros a Pa. apply IH; [lia|exact Pa].
  - intros a e. eexists _, _. reflexivity.
Qed.
Lemma ready_element L E u : ready L E u -> element E u -> scalar u \/ with_methods E u.
Proof.
  intros G [S|[W|(w & -> & W)]]; [now left|now right|]. exfalso. apply ready_self in G as [_ S]. cbn [head] in S.
  now apply scalar_no_methods with (E := E) (t := w).
Qed.
Lemma field_holds L E unm tg t text v : methods_hold L E unm -> field_form E tg t -> ready L E t -> direct t = true -> fits E t v ->
  holds L _ (fits E t) (exec_read unm E t 0 (gen_read (field_of t (is_optional tg) text)) v).
Proof.
  intros MH FF R D V.
  inversion FF as [tg' t' N SC|tg' N|tg' t' N W|tg' t' N EL|tg' k t' N EL|tg' t' SC|tg' t' W|tg' k t' ME]; subst.
  - (* scalar *)
    rewrite (not_optional _ N). destruct SC as (k & -> & GK & NB).
    assert (Q : gen_read (field_of (TLeaf k) false text) = SRead k {| star := false; index := false |}).
    { destruct k; try discriminate GK; try congruence; reflexivity. }
    rewrite Q. cbn [exec_read]. apply l_bind with (P := any); [apply l_prim| |].
    + intros q _. cbn [index assign dwith]. apply l_ret. now econstructor.
    + intros q e. eexists _, _. reflexivity.
  - (* []byte *)
    rewrite (not_optional _ N). change (gen_read (field_of (TLeaf KGoBytes) false text)) with (SReadSlice byte_code).
    cbn [exec_read element_type head]. pose proof (ready_self _ _ _ R) as [_ F1]. cbn [head] in F1.
    apply (l_make L (fits E (TLeaf KGoBytes)) 1 v "makeslice: len out of range"
      (fun l => for_read (fun i v => exec_read unm E (TLeaf KGoBytes) i byte_code v) (Z.to_nat l) 0 (RLeaf (PGoBytes (zeros (Z.to_nat l))) false)) F1).
    intros l _. apply l_weaken with (P := fun v => exists b z, v = RLeaf (PGoBytes b) z /\ length b = Z.to_nat l).
    + apply loop_holds with (N := Z.to_nat l); [|lia|].
      * intros i w LT (b & z & -> & LB). cbn [exec_read byte_code]. apply l_bind with (P := any); [apply l_prim| |].
        -- intros q _. cbn [index]. destruct (bytes_store i (RLeaf q (leaf_zero q)) b z) as (b' & -> & LB'); [lia|]. cbn [dwith]. apply l_ret.
           eexists _, _. split; [reflexivity|lia].
        -- intros q e. cbn [index]. destruct (bytes_store i (RLeaf q (leaf_zero q)) b z) as (b' & -> & LB'); [lia|]. eexists _, _. reflexivity.
      * eexists _, _. split; [reflexivity|]. apply repeat_length.
    + intros w (b & z & -> & _). now econstructor.
  - (* methods *)
    rewrite (not_optional _ N).
    assert (Q : exec_read unm E t 0 (gen_read (field_of t false text)) v = '(x, err) <-- unm t v ;; DRet (x, err)).
    { unfold with_methods in W. unfold field_of.
      destruct t as [k|k| |u|u|j u|k w|fs|i0 u0|i]; cbn [head] in W; try contradiction; try discriminate D; try reflexivity.
      destruct k; try discriminate W; reflexivity. }
    rewrite Q. apply l_bind with (P := fits E t); [apply MH; assumption|intros a A; now apply l_ret|]. intros a e. eexists _, _. reflexivity.
  - (* slice *)
    rewrite (not_optional _ N).
    assert (Q : gen_read (field_of (TSlice t') false text) = SReadSlice (el_read_code t')).
    { unfold field_of, el_read_code. cbn [shape_of body_of]. destruct (own_kind t'); reflexivity. }
    rewrite Q. cbn [exec_read element_type head]. pose proof (ready_self _ _ _ R) as [GH F1]. cbn [head] in F1.
    pose proof (ready_element L E t' (ready_slice L E t' R) EL) as SM.
    apply (l_make L (fits E (TSlice t')) (size_of E t') v "makeslice: len out of range"
      (fun l => for_read (fun i v => exec_read unm E (TSlice t') i (el_read_code t') v) (Z.to_nat l) 0 (RSlice (Some (repeat (zero E t') (Z.to_nat l))))) F1).
    intros l _. apply l_weaken with (P := fun v => exists xs, v = RSlice (Some xs) /\ length xs = Z.to_nat l /\ Forall (fits E t') xs).
    + apply loop_holds with (N := Z.to_nat l); [|lia|].
      * intros i w LT (xs & -> & LB & F). eapply l_weaken.
        -- apply (element_holds L E unm (TSlice t') t' (fun l => RSlice (Some l)) i xs MH (ready_slice L E t' R) SM ix_slice eq_refl ltac:(lia) F).
        -- intros w (xs' & -> & L' & F'). exists xs'. split; [reflexivity|]. split; [lia|exact F'].
      * eexists. split; [reflexivity|]. split; [apply repeat_length|].
        assert (Z : fits E t' (zero E t')).
        { destruct SM as [(k & -> & _)|W]; [now econstructor|]. exact (zero_fits L E t' W (ready_slice L E t' R)). }
        clear -Z. induction (Z.to_nat l); cbn [repeat]; constructor; auto.
    + intros w (xs & -> & _). now econstructor.
  - (* array *)
    rewrite (not_optional _ N).
    assert (Q : gen_read (field_of (TArray k t') false text) = SReadArray (parsed_len k) (el_read_code t')).
    { unfold field_of, el_read_code. cbn [shape_of body_of]. destruct (own_kind t'); reflexivity. }
    rewrite Q. cbn [exec_read].
    pose proof (ready_element L E t' (ready_elem L E k t' R) EL) as SM.
    destruct (ready_self L E _ R) as [[SZ DT] _]. cbn [head] in SZ. rewrite parsed_len_small, Nat2Z.id by exact SZ.
    inversion V as [| | | | |t0 n0 u0 l0 H0 LN FA| | |]; subst; try discriminate. cbn [head] in *. injection H0 as HN <-.
    apply l_weaken with (P := fun v => exists xs, v = RArray xs /\ length xs = k /\ Forall (fits E t') xs).
    + apply loop_holds with (N := k); [|lia|].
      * intros i w LT (xs & -> & LB & F). eapply l_weaken.
        -- apply (element_holds L E unm (TArray k t') t' RArray i xs MH (ready_elem L E k t' R) SM ix_array eq_refl ltac:(lia) F).
        -- intros w (xs' & -> & L' & F'). exists xs'. split; [reflexivity|]. split; [lia|exact F'].
      * eexists. split; [reflexivity|]. split; [now symmetry|exact FA].
    + intros w (xs & -> & LX & FX). econstructor; [reflexivity|exact LX|exact FX].
  - (* pointer to a scalar *)
    destruct SC as (k & -> & GK & NB).
    assert (Q : forall opt, gen_read (field_of (TPtr (TLeaf k)) opt text)
                = if opt then SReadOptional (SReadTmp k {| star := false; index := false |}) else SReadTmp k {| star := false; index := false |}).
    { intros []; destruct k; try discriminate GK; try congruence; reflexivity. }
    rewrite Q.
    assert (X : holds L _ (fits E (TPtr (TLeaf k))) (exec_read unm E (TPtr (TLeaf k)) 0 (SReadTmp k {| star := false; index := false |}) v)).
    { cbn [exec_read]. apply l_bind with (P := any); [apply l_prim| |].
      - intros q _. cbn [index assign dwith]. apply l_ret. now econstructor.
      - intros q e. eexists _, _. reflexivity. }
    destruct (is_optional tg); [|exact X]. cbn [exec_read]. apply l_bind with (P := any); [apply l_bool| |].
    + intros [|] _; [exact X|now apply l_ret].
    + intros b e. eexists _, _. reflexivity.
  - exfalso. apply ready_self in R as [_ S]. cbn [head] in S. now apply scalar_no_methods with (E := E) (t := t').
  - exfalso. apply ready_self in R as [_ S]. cbn [head] in S. destruct S as (k' & S & _). discriminate S.
Qed.

(** ** The methods *)
Lemma fields_hold L E unm : methods_hold L E unm -> forall fs lf l, Forall2 described fs lf ->
  Forall (fun '(tg, vis, t) => field_form E tg t /\ ready L E t /\ direct t = true) fs -> Forall2 (fun f v => fits E (snd f) v) fs l ->
  holds L _ (fun l => Forall2 (fun (f : tag * visibility * gtype) v => fits E (snd f) v) fs l) (unmarshal_body unm E fs (map gen_read lf) l).
Proof.
  intros MH fs lf l D. revert l. induction D as [|[[tg vis] t] f fs lf D _ IH]; intros l F V; cbn [map unmarshal_body].
  - inversion V; subst. now apply l_ret.
  - inversion V as [|? v ? l' V1 V2]; subst. inversion F as [|? ? A B]; subst. cbv beta iota in A. destruct A as (FF & R & DT). destruct D as (_ & text & ->).
    apply l_bind with (P := fits E t); [exact (field_holds L E unm tg t text v MH FF R DT V1)| |].
    + intros a Fa. eapply l_bind; [exact (IH l' B V2)| |].
      * intros l1 F1. apply l_ret. now constructor.
      * intros l1 e. eexists _, _. reflexivity.
    + intros a e. eexists _, _. reflexivity.
Qed.
Lemma UnmarshalABI_holds L E : forall n, methods_hold L E (UnmarshalABI n E).
Proof.
  induction n as [|n IH]; intros t v W R V; [apply l_fuel|]. cbn [UnmarshalABI]. unfold with_methods in W.
  destruct (head E t) as [k|k| |u|u|j u|k w|fs|i u|i] eqn:H; try contradiction.
  - inversion V as [t0 k0 p z H0| | | | | | | |]; subst; try congruence. rewrite W. unfold leaf_read. apply l_bind with (P := any); [apply l_prim| |].
    + intros q _. apply l_ret. now apply fit_leaf with (k := k).
    + intros q e. eexists _, _. reflexivity.
  - inversion V as [| | | | | | |t0 fs0 l H0 FL|]; subst; try congruence. assert (fs0 = fs) by congruence. subst fs0.
    pose proof (ready_self _ _ _ R) as [GH _]. unfold generable_here in GH. rewrite H in GH. destruct GH as [(CF & _ & _) EX].
    unfold GenUnmarshalFn. destruct (classify_all_ok fs) as (lf & C & _).
    { rewrite Forall_forall in CF. intros vis u I. apply CF in I. cbv beta iota in I. now apply (form_optional E). }
    rewrite C. cbn [rbind]. eapply l_bind.
    + apply (fields_hold L E _ IH fs lf l (classify_all_described _ _ C)); [|exact FL].
      rewrite Forall_forall in *. intros [[tg vis] u] I. pose proof (CF _ I) as C1. pose proof (EX _ I) as C2. cbv beta iota in C1, C2. repeat split; try tauto.
      apply (ready_part L E t); [exact R|]. intros pl. exists Slot. eapply pt_field; eassumption.
    + intros l1 F1. apply l_ret. now apply fit_struct with (fs := fs).
    + intros l1 e. eexists _, _. reflexivity.
  - inversion V as [| | | | | | | |t0 i0 u0 x H0]; subst; try congruence. assert (i0 = i /\ u0 = u) as [-> ->] by (split; congruence).
    pose proof (ready_self _ _ _ R) as [_ U]. rewrite H in U. apply l_bind with (P := any); [apply U| |].
    + intros a _. apply l_ret. now apply fit_user with (i := i) (u := u).
    + intros a e. eexists _, _. reflexivity.
Qed.

(** ** No panic *)
Lemma final_safe {A} k (Q : A -> Prop) p : final p -> safe k Q p.
Proof. intros (v & e & ->). apply safe_error. Qed.
Lemma safe_make k (Q : rval -> Prop) size d m body : (k <= 6)%nat -> size * 128 ^ Z.of_nat k <= 2 ^ 48 ->
  (forall l, 0 <= l -> safe k Q (body l)) ->
  safe k Q ('(l, err) <-- ReadVaruint ;;
            match err with
            | Some e => DRet (d, Some e)
            | None => if make_ok size (i64 l) then body (i64 l) else DPanic m
            end).
Proof.
  intros K SZ B. eapply safe_bind; [apply Varuint_safe| |intros; apply safe_error]. intros l L. len K L.
  assert (M : make_ok size l = true).
  { assert (l * size <= 2 ^ 48) by (destruct L as [L0 L1]; remember (128 ^ Z.of_nat k) as w; clear - L0 L1 SZ; destruct (Z.le_gt_cases size 0); nia). apply make_small; [apply L|assumption]. }
  rewrite M. apply B. apply L.
Qed.
Definition panics (k : nat) (K : (k <= 6)%nat) : logic := {|
  holds := fun A Q p => safe k Q p;
  fit := fun size => size * 128 ^ Z.of_nat k <= 2 ^ 48;
  l_ret := fun A Q a H => safe_ret k Q a None (fun _ => H);
  l_error := fun A Q a e => safe_error k Q a e;
  l_fuel := fun A Q => safe_fuel k Q;
  l_bind := fun A B P Q p f Hp H1 H2 => safe_bind k P Q p f Hp H1 (fun a e => final_safe k Q _ (H2 a e));
  l_weaken := fun A P Q p => safe_weaken k P Q p;
  l_prim := fun q => prim_safe k q K;
  l_bool := safe_never k _ (calm_never _ ReadBool_calm);
  l_make := fun Q size d m body => safe_make k Q size d m body K |}.

(** ** Truncated input *)
Inductive Checked {A} (Q : A -> Prop) : io A -> Prop :=
| K_ret a : Q a -> Checked Q (DRet (a, None))
| K_error a e : Checked Q (DRet (a, Some e))
| K_panic m : Checked Q (DPanic m)
| K_fuel : Checked Q DFuel
| K_read n k : 1 <= n ->
    (forall bs, zlen bs = n -> Checked Q (k bs None)) ->
    (forall got e, zlen got < n -> IoFailing (k got (Some e))) ->
    Checked Q (DRead n k).
Lemma checked_strict {A} (Q : A -> Prop) p : Checked Q p -> IoStrict p.
Proof. induction 1; constructor; auto. Qed.
Lemma strict_checked {A} (p : io A) : IoStrict p -> Checked any p.
Proof. induction 1 as [[a [e|]]| | |]; constructor; auto. exact I. Qed.
Lemma final_failing {A} (p : io A) : final p -> IoFailing p.
Proof. intros (v & e & ->). constructor. discriminate. Qed.
Lemma checked_bind {A B} (P : A -> Prop) (Q : B -> Prop) (p : io A) (f : A * option gerr -> io B) :
  Checked P p -> (forall a, P a -> Checked Q (f (a, None))) -> (forall a e, final (f (a, Some e))) -> Checked Q (dbind p f).
Proof.
  intros Hp H1 H2. induction Hp as [a Pa|a e|m| |n k Hn Hk IH Hf]; cbn [dbind]; auto; try constructor; auto.
  - destruct (H2 a e) as (v & e' & ->). constructor.
  - intros got e L. eapply failing_bind; [exact (Hf got e L)|]. intros [a [e'|]] N; [|now elim N]. apply final_failing, H2.
Qed.
Lemma checked_weaken {A} (P Q : A -> Prop) p : Checked P p -> (forall a, P a -> Q a) -> Checked Q p.
Proof. intros H W. induction H; constructor; auto. Qed.
Lemma checked_make (Q : rval -> Prop) size d m body : (forall l, 0 <= l -> Checked Q (body l)) ->
  Checked Q ('(l, err) <-- ReadVaruint ;;
             match err with
             | Some e => DRet (d, Some e)
             | None => if make_ok size (i64 l) then body (i64 l) else DPanic m
             end).
Proof.
  intros B. apply checked_bind with (P := any); [apply strict_checked, ReadVaruint_strict| |].
  - intros l _. destruct (make_ok size (i64 l)) eqn:M; [|constructor]. apply B. unfold make_ok in M. lia.
  - intros l e. eexists _, _. reflexivity.
Qed.
Definition truncations : logic := {|
  holds := fun A Q p => Checked Q p;
  fit := fun _ => True;
  l_ret := fun A Q a H => K_ret Q a H;
  l_error := fun A Q a e => K_error Q a e;
  l_fuel := fun A Q => K_fuel Q;
  l_bind := fun A B P Q p f => checked_bind P Q p f;
  l_weaken := fun A P Q p => checked_weaken P Q p;
  l_prim := fun q => strict_checked _ (read_prim_strict q);
  l_bool := strict_checked _ ReadBool_strict;
  l_make := fun Q size d m body _ => checked_make Q size d m body |}.

(** ** The types a caller may use *)
Lemma ready_for (L : logic) E t : (forall pl t', within E (Target, t) (pl, t') -> generable_here E t') -> only_scalar_pointers E t ->
  (forall pl t', within E (Target, t) (pl, t') -> match head E t' with
     | TSlice u => fit L (size_of E u) | TLeaf _ => fit L 1 | TUser i _ => forall old, holds L _ any (unmarshals E i old) | _ => True end) -> ready L E t.
Proof.
  intros G S H. exists Target. intros pl t' W. split; [exact (G pl t' W)|]. specialize (H pl t' W).
  destruct (head E t') as [k|k| |u|u|n u|ku vu|fs|i u|i] eqn:HD; try exact H. exact (S pl t' u W HD).
Qed.
Lemma generable_methods E t : generable E t -> with_methods E t.
Proof. intros [(fs & H) _]. unfold with_methods. now rewrite H. Qed.
Lemma generated_panics k E t ok v n : (k <= 6)%nat -> generable E t -> only_scalar_pointers E t -> roomy E k t -> has_type E ok t v ->
  panic_free k (UnmarshalABI n E t v).
Proof.
  intros K G S R V. eapply safe_panic_free. apply (UnmarshalABI_holds (panics k K) E n t v).
  - now apply generable_methods.
  - apply ready_for; [apply G|exact S|]. intros pl t' W. specialize (R pl t' W). unfold roomy_here in R.
    destruct (head E t') as [k'|k'| |u|u|j u|ku vu|fs|i u|i]; try exact I; cbn [panics fit holds].
    + assert (128 ^ Z.of_nat k <= 128 ^ 6) by (apply Z.pow_le_mono_r; lia). change (128 ^ 6) with (2 ^ 42) in *. lia.
    + exact R.
    + intros old. apply panic_free_safe, R.
  - now apply (typed_fits E ok).
Qed.
Lemma generated_truncation E t ok v n : generable E t -> only_scalar_pointers E t -> reads_checked E t -> has_type E ok t v ->
  truncation_safe (UnmarshalABI n E t v).
Proof.
  intros G S R V. apply strict_truncation. eapply checked_strict. apply (UnmarshalABI_holds truncations E n t v).
  - now apply generable_methods.
  - apply ready_for; [apply G|exact S|]. intros pl t' W.
    destruct (head E t') as [k'|k'| |u|u|j u|ku vu|fs|i u|i] eqn:H; try exact I. intros old. apply strict_checked. exact (R pl t' i u W H old).
  - now apply (typed_fits E ok).
Qed.

(** ** Failing writers *)
Definition user_writes (E : types) (t : gtype) : Prop := exists pl, methods_from (fun i _ => forall v, WStrict (marshals E i v)) E (pl, t).
Lemma user_writes_part E t t' : user_writes E t -> (forall pl, exists pl', part E (pl, t) (pl', t')) -> user_writes E t'.
Proof. intros [pl H] P. destruct (P pl) as [pl' P']. exists pl'. eapply methods_part; eassumption. Qed.
Lemma ptr_writes E t u : user_writes E t -> head E t = TPtr u -> user_writes E u.
Proof. intros W H. apply (user_writes_part E t); [exact W|]. intros pl. exists (beneath pl). now constructor. Qed.
Lemma array_writes E t n u : user_writes E t -> head E t = TArray n u -> user_writes E u.
Proof. intros W H. apply (user_writes_part E t); [exact W|]. intros pl. exists Slot. eapply pt_array, H. Qed.
Lemma element_writes E t u : user_writes E t -> element_type E t = Some u -> user_writes E u.
Proof.
  intros W H. unfold element_type in H.
  destruct (head E t) as [k|k| |w|w|n w|ku vu|fs|i w|i] eqn:HD; try discriminate H.
  - destruct k; try discriminate H. injection H as <-. exists Target. apply methods_leaf.
  - destruct (head E w) as [k|k| |w'|w'|n' w'|ku' vu'|fs'|i' w'|i'] eqn:HW; try discriminate H. injection H as <-.
    eapply array_writes, HW. eapply ptr_writes, HD. exact W.
  - injection H as <-. apply (user_writes_part E t); [exact W|]. intros pl. exists Slot. now constructor.
  - injection H as <-. eapply array_writes, HD. exact W.
Qed.
Lemma place_writes E p t u : user_writes E t -> place_type E p t = Some u -> user_writes E u.
Proof.
  intros W H. unfold place_type in H. destruct (star p).
  - destruct (head E t) as [k|k| |w|w|n w|ku vu|fs|i w|i] eqn:HD; try discriminate H.
    apply (ptr_writes E t w) in HD; [|exact W]. destruct (index p); [eapply element_writes; eassumption|now injection H as <-].
  - destruct (index p); [eapply element_writes; eassumption|now injection H as <-].
Qed.
Definition reported (p : wr) : Prop := done p -> WStrict p.
Lemma reported_etry p q : reported p -> reported q -> reported (etry p q).
Proof. intros P Q D. apply done_etry in D as [D1 D2]. apply wstrict_etry; auto. Qed.
Lemma reported_with {A} (r : res A) f : (forall x, reported (f x)) -> reported (ewith r f).
Proof. intros H. destruct r; cbn [ewith]; [apply H| |]; intros _; constructor. Qed.
Lemma reported_for f n : forall i, (forall i, reported (f i)) -> reported (for_write f n i).
Proof. induction n as [|n IH]; intros i H; cbn [for_write]; [intros _; constructor|]. apply reported_etry; auto. Qed.
Lemma reported_write mar E t v s : (forall u x, user_writes E u -> reported (mar u x)) -> user_writes E t ->
  forall i, reported (exec_write mar E t v i s).
Proof.
  intros M W. induction s; intros i0; cbn [exec_write]; try (intros _; constructor).
  - apply reported_with. intros [q z| | | | | | | |]; try (intros _; constructor).
    destruct q; cbn [write_builtin]; try exact (write_prim_wstrict _). intros _. apply wstrict_bytes.
  - apply reported_with. intros x. destruct (place_type E p t) as [u|] eqn:P; [|intros _; constructor].
    pose proof (place_writes E _ _ _ W P) as WU.
    destruct u as [k|k| |u|u|j u|ku vu|fs|i1 u|i1]; try (now apply M).
    destruct x as [q z| | |[y|]| | | | |]; try (now apply M); [|intros _; constructor].
    apply M. now apply (ptr_writes E (TPtr u) u).
  - apply reported_with. intros x. apply reported_with. intros l. apply reported_etry; [intros _; apply wstrict_varuint|]. now apply reported_for.
  - now apply reported_for.
  - apply reported_etry; [destruct optional; [intros _; apply wstrict_bool|intros _; constructor]|].
    destruct (negb (is_zero v)); [apply IHs|]. destruct optional; intros _; constructor.
Qed.
Lemma reported_body mar E : (forall u x, user_writes E u -> reported (mar u x)) -> forall fs code l,
  (forall tg vis u, In (tg, vis, u) fs -> user_writes E u) -> reported (marshal_body mar E fs code l).
Proof.
  intros M. induction fs as [|[[tg vis] t] fs IH]; intros code l W; cbn [marshal_body]; [intros _; constructor|].
  destruct code as [|s code]; [intros _; constructor|]. destruct l as [|v l]; [intros _; constructor|].
  apply reported_etry; [apply reported_write; [exact M|eapply W; now left]|]. apply IH. intros tg' vis' u J. eapply W. right. exact J.
Qed.
Lemma reported_methods E : forall n t v, user_writes E t -> reported (MarshalABI n E t v).
Proof.
  induction n as [|n IH]; intros t v W; cbn [MarshalABI]; [intros _; constructor|].
  destruct (head E t) as [k|k| |u|u|j u|ku vu|fs|i u|i] eqn:H; try (intros _; constructor);
    destruct v as [q z| | | | | | | |x]; try (intros _; constructor).
  - destruct (go_kind k); [intros _; constructor|exact (marshal_wstrict q)].
  - destruct (GenUnmarshalFn fs) as [[code rd]| |]; try (intros _; constructor). apply reported_body; [exact IH|].
    intros tg vis u J. apply (user_writes_part E t); [exact W|]. intros pl. exists Slot. eapply pt_field; eassumption.
  - intros _. destruct W as [pl W]. eapply W; [apply wi_here|exact H].
Qed.
Lemma generated_faults E t v n : writes_checked E t -> write_faults_reported (MarshalABI n E t v).
Proof.
  intros W. apply wstrict_faults_if. intros full R. apply reported_methods; [now exists Target|]. now exists [], full.
Qed.
