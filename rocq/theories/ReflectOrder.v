(** Enumeration order of maps, and laws of [same]. *)
From Verif Require Import Base Prog AbiPrim BaseProofs SpecWire ProgProofs AbiPrimProofs Chain SpecChain ChainProofs
  Values Leaf SpecLeaf LeafProofs Reflect SpecReflect ReflectProofs.
From Coq Require Import Permutation.

(** Values without maps are only reorderings of themselves. *)
Fixpoint no_maps (v : rval) : Prop :=
  match v with
  | RLeaf _ _ | RInt _ | ROther _ | RUser _ => True
  | RPtr o => match o with Some v => no_maps v | None => True end
  | RSlice o => match o with
                | Some l => (fix all l := match l with [] => True | v :: l => no_maps v /\ all l end) l
                | None => True
                end
  | RArray l | RStruct l => (fix all l := match l with [] => True | v :: l => no_maps v /\ all l end) l
  | RMap _ => False
  end.
Definition no_maps_list := fix all l := match l with [] => True | v :: l => no_maps v /\ all l end.
Lemma reordered_no_maps :
  (forall v v', reordered v v' -> no_maps v -> v' = v)
  /\ (forall l l', reordered_list l l' -> no_maps_list l -> l' = l)
  /\ (forall m m', reordered_pairs m m' -> True).
Proof.
  apply reordered_all; try (intros; exact I); try reflexivity.
  - intros v v' _ IH N. now rewrite IH.
  - intros l l' _ IH N. now rewrite IH.
  - intros l l' _ IH N. now rewrite IH.
  - intros m q m' _ _ _ [].
  - intros l l' _ IH N. now rewrite IH.
  - intros v v' l l' _ IH1 _ IH2 [N1 N2]. now rewrite IH1, IH2.
Qed.
Lemma zero_no_maps : forall t, comparable t = true -> no_maps (zero_of t).
Proof.
  fix IH 1. intros [k|k| |t|t|n t|kt vt|fs|i u|i] C; try exact I; try discriminate.
  - cbn [zero_of]. cbn [comparable] in C. specialize (IH t C). clear -IH. cbn [no_maps].
    induction n as [|n IHn]; [exact I|]. split; [exact IH|exact IHn].
  - cbn [zero_of comparable] in *. cbn [no_maps]. revert fs C. fix IHf 1. intros [|[[tg vis] t] fs] C; [exact I|].
    apply andb_prop in C as [C1 C2]. split; [now apply IH|now apply IHf].
Qed.
Lemma encoded_no_maps E :
  (forall pl t v bs v', encoded E pl t v bs v' -> comparable t = true -> no_maps v')
  /\ (forall t l bs l', encoded_list E t l bs l' -> comparable t = true -> no_maps_list l')
  /\ (forall kt vt m bs m', encoded_pairs E kt vt m bs m' -> comparable kt = true -> Forall (fun p => no_maps (fst p)) m')
  /\ (forall fs l bs l', encoded_fields E fs l bs l' -> fields_comparable fs = true -> no_maps_list l').
Proof.
  apply encoded_all; try (intros; exact I).
  - intros pl t t' v bs v' H _ _ C. rewrite (comparable_head E) in H by assumption. subst t. discriminate.
  - intros pl t t' o pre bs l' H _ _ _ _ _ C. rewrite (comparable_head E) in H by assumption. subst t. discriminate.
  - intros pl t n t' l bs l' H _ _ _ IH C. rewrite (comparable_head E) in H by assumption. subst t. now apply IH.
  - intros pl t kt vt o pre bs m' H _ _ _ _ _ _ C. rewrite (comparable_head E) in H by assumption. subst t. discriminate.
  - intros pl t fs l bs l' H _ IH C. rewrite (comparable_head E) in H by assumption. subst t. now apply IH.
  - intros t v l b bs v' l' _ IH1 _ IH2 C. split; auto.
  - constructor.
  - intros kt vt k v m b1 b2 bs k' v' m' _ IH1 _ _ _ IH3 C. constructor; [now apply IH1|now apply IH3].
  - intros tg t fs v l b bs v' l' _ _ _ IH1 _ IH2 C. unfold fields_comparable in *. cbn [comparable] in C.
    apply andb_prop in C as [C1 C2]. split; auto.
  - intros t fs v l bs l' _ _ _ IH C. unfold fields_comparable in *. cbn [comparable] in C.
    apply andb_prop in C as [C1 C2]. split; [now apply zero_no_maps|auto].
  - intros t fs v l b bs v' l' _ _ _ IH1 _ IH2 C. unfold fields_comparable in *. cbn [comparable] in C.
    apply andb_prop in C as [C1 C2]. split; auto.
Qed.

Lemma reordered_is_zero :
  (forall v v', reordered v v' -> is_zero v' = is_zero v)
  /\ (forall l l', reordered_list l l' -> is_zero (RArray l') = is_zero (RArray l))
  /\ (forall m m', reordered_pairs m m' -> True).
Proof.
  apply reordered_all; try (intros; exact I); try reflexivity; try (intros; assumption).
  intros v v' l l' _ IH1 _ IH2. cbn [is_zero] in *. now rewrite IH1, IH2.
Qed.
Lemma reordered_list_length l l' : reordered_list l l' -> length l' = length l.
Proof. induction 1; cbn [length]; congruence. Qed.
Lemma reordered_pairs_length l l' : reordered_pairs l l' -> length l' = length l.
Proof. induction 1; cbn [length]; congruence. Qed.

Lemma encoded_pairs_perm E kt vt m q : Permutation m q -> forall bs m', encoded_pairs E kt vt m bs m' ->
  exists bs2 q', encoded_pairs E kt vt q bs2 q' /\ Permutation m' q' /\ length bs2 = length bs.
Proof.
  induction 1 as [|[k v] m q P IH|[k v] [k2 v2] m|m q r P1 IH1 P2 IH2]; intros bs m' W.
  - inversion W; subst. exists [], []. repeat split; constructor.
  - inversion W; subst. destruct (IH _ _ H8) as (bs2 & q' & W' & P' & L). eexists _, _.
    split; [econstructor; eassumption|]. split; [now constructor|]. rewrite !app_length. lia.
  - inversion W; subst. inversion H8; subst. eexists _, _.
    split; [econstructor; [eassumption|eassumption|econstructor; eassumption]|]. split; [constructor|].
    rewrite !app_length. lia.
  - destruct (IH1 _ _ W) as (bs1 & q1 & W1 & Q1 & L1). destruct (IH2 _ _ W1) as (bs2 & q2 & W2 & Q2 & L2).
    exists bs2, q2. split; [exact W2|]. split; [now transitivity q1|congruence].
Qed.

Lemma encoded_reordered E :
  (forall pl t v bs v', encoded E pl t v bs v' -> forall v2, reordered v v2 ->
     exists bs2 v2', encoded E pl t v2 bs2 v2' /\ reordered v' v2' /\ length bs2 = length bs)
  /\ (forall t l bs l', encoded_list E t l bs l' -> forall l2, reordered_list l l2 ->
     exists bs2 l2', encoded_list E t l2 bs2 l2' /\ reordered_list l' l2' /\ length bs2 = length bs)
  /\ (forall kt vt m bs m', encoded_pairs E kt vt m bs m' -> forall m2, reordered_pairs m m2 ->
     exists bs2 m2', encoded_pairs E kt vt m2 bs2 m2' /\ reordered_pairs m' m2' /\ length bs2 = length bs)
  /\ (forall fs l bs l', encoded_fields E fs l bs l' -> forall l2, reordered_list l l2 ->
     exists bs2 l2', encoded_fields E fs l2 bs2 l2' /\ reordered_list l' l2' /\ length bs2 = length bs).
Proof.
  assert (REFL : forall v, reordered v v).
  { fix IH 1. intros [p z|v|z|[v|]|[l|]|l|[m|]|l|v].
    - constructor.
    - constructor.
    - constructor.
    - constructor. apply IH.
    - constructor.
    - constructor. revert l. fix IHl 1. intros [|v l]; constructor; [apply IH|apply IHl].
    - constructor.
    - constructor. revert l. fix IHl 1. intros [|v l]; constructor; [apply IH|apply IHl].
    - apply (ro_map m m m); [|apply Permutation_refl]. revert m. fix IHl 1. intros [|[k v] l]; constructor; [apply IH|apply IH|apply IHl].
    - constructor.
    - constructor. revert l. fix IHl 1. intros [|v l]; constructor; [apply IH|apply IHl].
    - constructor. }
  apply encoded_all.
  - intros pl t k p z bs H K R T B W L v2 RO. inversion RO; subst. exists bs, (RLeaf p (read_zero pl p)).
    split; [now apply (w_leaf E pl t (kind_of p))|]. split; [constructor|reflexivity].
  - intros pl t k v bs H R L v2 RO. inversion RO; subst. exists bs, (RInt v).
    split; [now apply (w_int E pl t k)|]. split; [constructor|reflexivity].
  - intros pl t t' v bs v' H W IH v2 RO. inversion RO; subst. destruct (IH _ H1) as (bs2 & v2' & W2 & R2 & L2).
    exists bs2, (RPtr (Some v2')). split; [eapply w_ptr; eassumption|]. split; [now constructor|exact L2].
  - intros pl t t' o pre bs l' H SH MK V W IH v2 RO.
    assert (exists o2, v2 = RSlice o2 /\ reordered_list (elems o) (elems o2)) as (o2 & -> & RL).
    { inversion RO; subst; [exists None|eexists (Some _)]; split; try reflexivity; [constructor|assumption]. }
    destruct (IH _ RL) as (bs2 & l2' & W2 & R2 & L2).
    assert (LE : zlen (elems o2) = zlen (elems o)) by (unfold zlen; now rewrite (reordered_list_length _ _ RL)).
    exists (pre ++ bs2), (RSlice match l2' with [] => None | _ => Some l2' end). split.
    + apply (w_slice E pl t t' o2); rewrite ?LE; assumption.
    + split; [|rewrite !app_length; lia]. destruct R2; [constructor|]. constructor. now constructor.
  - intros pl t n t' l bs l' H D LE W IH v2 RO. inversion RO; subst. destruct (IH _ H1) as (bs2 & l2' & W2 & R2 & L2).
    exists bs2, (RArray l2'). split; [|split; [now constructor|exact L2]].
    apply (w_array E pl t (length l) t'); try assumption. now apply reordered_list_length.
  - intros pl t kt vt o pre bs m' H CK SH V W IH N v2 RO.
    assert (exists o2 q, v2 = RMap o2 /\ reordered_pairs (elems o) q /\ Permutation q (elems o2)) as (o2 & q & -> & RL & P).
    { inversion RO; subst; [exists None, []|eexists (Some _), _]; split; try reflexivity; split; try eassumption; constructor. }
    destruct (IH _ RL) as (bs2 & q' & W2 & R2 & L2). destruct (encoded_pairs_perm _ _ _ _ _ P _ _ W2) as (bs3 & m3 & W3 & P3 & L3).
    assert (LE : zlen (elems o2) = zlen (elems o)).
    { unfold zlen. now rewrite <- (Permutation_length P), (reordered_pairs_length _ _ RL). }
    exists (pre ++ bs3), (RMap (Some m3)). split; [|split; [now apply (ro_map m' q')|rewrite !app_length; lia]].
    apply (w_map E pl t kt vt o2); rewrite ?LE; try assumption.
    assert (KE : map fst q' = map fst m').
    { pose proof (proj1 (proj2 (proj2 (encoded_no_maps E))) _ _ _ _ _ W CK) as NM. clear -R2 NM.
      induction R2 as [|k k' v v' m m' RK RV R IH]; [reflexivity|]. inversion_clear NM. cbn [map fst].
      rewrite IH by assumption. f_equal. now apply (proj1 reordered_no_maps). }
    eapply Permutation_NoDup; [apply Permutation_map; exact P3|]. now rewrite KE.
  - intros pl t fs l bs l' H W IH v2 RO. inversion RO; subst. destruct (IH _ H1) as (bs2 & l2' & W2 & R2 & L2).
    exists bs2, (RStruct l2'). split; [eapply w_struct; eassumption|]. split; [now constructor|exact L2].
  - intros pl t i u v bs v' H W R v2 RO. inversion RO; subst. exists bs, (RUser v').
    split; [eapply w_user; eassumption|]. split; [constructor|reflexivity].
  - intros t l2 RO. inversion RO; subst. exists [], []. repeat split; constructor.
  - intros t v l b bs v' l' W1 IH1 W2 IH2 l2 RO. inversion RO; subst.
    destruct (IH1 _ H1) as (b2 & v2' & W1' & R1 & L1). destruct (IH2 _ H3) as (bs2 & l2' & W2' & R2 & L2).
    exists (b2 ++ bs2), (v2' :: l2'). split; [now constructor|]. split; [now constructor|rewrite !app_length; lia].
  - intros kt vt l2 RO. inversion RO; subst. exists [], []. repeat split; constructor.
  - intros kt vt k v m b1 b2 bs k' v' m' W1 IH1 W2 IH2 W3 IH3 l2 RO. inversion RO; subst.
    destruct (IH1 _ H2) as (c1 & k2' & W1' & R1 & L1). destruct (IH2 _ H4) as (c2 & v2' & W2' & R2 & L2).
    destruct (IH3 _ H5) as (c3 & m2' & W3' & R3 & L3).
    exists (c1 ++ c2 ++ c3), ((k2', v2') :: m2'). split; [now constructor|]. split; [now constructor|rewrite !app_length; lia].
  - intros l2 RO. inversion RO; subst. exists [], []. repeat split; constructor.
  - intros tg t fs v l b bs v' l' TG D W1 IH1 W2 IH2 l2 RO. inversion RO; subst.
    destruct (IH1 _ H1) as (b2 & v2' & W1' & R1 & L1). destruct (IH2 _ H3) as (bs2 & l2' & W2' & R2 & L2).
    exists (b2 ++ bs2), (v2' :: l2'). split; [now constructor|]. split; [now constructor|rewrite !app_length; lia].
  - intros t fs v l bs l' Z D W IH l2 RO. inversion RO; subst. destruct (IH _ H3) as (bs2 & l2' & W2' & R2 & L2).
    exists ([x00] ++ bs2), (zero_of t :: l2').
    split; [apply wf_absent; try assumption; now rewrite (proj1 reordered_is_zero _ _ H1)|].
    split; [constructor; [apply REFL|assumption]|rewrite !app_length; lia].
  - intros t fs v l b bs v' l' Z D W1 IH1 W2 IH2 l2 RO. inversion RO; subst.
    destruct (IH1 _ H1) as (b2 & v2' & W1' & R1 & L1). destruct (IH2 _ H3) as (bs2 & l2' & W2' & R2 & L2).
    exists ([x01] ++ b2 ++ bs2), (v2' :: l2').
    split; [apply wf_present; try assumption; now rewrite (proj1 reordered_is_zero _ _ H1)|].
    split; [now constructor|rewrite !app_length; lia].
Qed.

(** ** [same] is an equivalence, and reorderings are the same value *)
Lemma Forall2_perm {A B} (R : A -> B -> Prop) q m2 : Permutation q m2 -> forall m, Forall2 R m q ->
  exists p, Permutation m p /\ Forall2 R p m2.
Proof.
  induction 1 as [|x a b P IH|x y a|a b c P1 IH1 P2 IH2]; intros m S.
  - inversion S; subst. exists []. split; constructor.
  - inversion S; subst. destruct (IH _ H3) as (p & Pp & Sp). eexists. split; [apply perm_skip; exact Pp|now constructor].
  - inversion S; subst. inversion H3; subst. eexists. split; [apply perm_swap|]. constructor; [assumption|]. now constructor.
  - destruct (IH1 _ S) as (p1 & Q1 & S1). destruct (IH2 _ S1) as (p2 & Q2 & S2). exists p2. split; [now transitivity p1|exact S2].
Qed.
Definition same_pair (a b : rval * rval) : Prop := same (fst a) (fst b) /\ same (snd a) (snd b).
Lemma same_pairs_Forall2 m m' : same_pairs m m' <-> Forall2 same_pair m m'.
Proof.
  split.
  - induction 1; constructor; [split; assumption|assumption].
  - intros H. induction H as [|[k v] [k' v'] m m' [S1 S2] F IH]; constructor; assumption.
Qed.
Lemma reordered_same :
  (forall v v', reordered v v' -> same v v')
  /\ (forall l l', reordered_list l l' -> same_list l l')
  /\ (forall m m', reordered_pairs m m' -> same_pairs m m').
Proof.
  apply reordered_all; try (intros; constructor; assumption).
  - constructor. constructor.
  - apply (sm_map None None []); constructor.
  - intros m q m' _ S P. apply same_pairs_Forall2 in S. destruct (Forall2_perm _ _ _ P _ S) as (p & Pp & Sp).
    apply (sm_map (Some m) (Some m') p); [exact Pp|]. now apply same_pairs_Forall2.
  - intros v. constructor. apply same_refl_all.
Qed.
Lemma same_sym v v' : same v v' -> same v' v.
Proof.
  revert v v'. apply (same_mind (fun v v' _ => same v' v) (fun l l' _ => same_list l' l)
    (fun m m' _ => Forall2 (fun a b => same_pair b a) m m')); try (intros; constructor; assumption).
  - intros o o' m P _ F. apply Permutation_sym in P.
    assert (G : Forall2 same_pair (elems o') m) by (clear -F; induction F; constructor; assumption).
    destruct (Forall2_perm _ _ _ P _ G) as (p & Pp & Sp). apply (sm_map o' o p); [exact Pp|]. now apply same_pairs_Forall2.
  - intros k k' v v' m m' _ S1 _ S2 _ F. constructor; [split; assumption|assumption].
Qed.
Lemma same_trans v v' : same v v' -> forall w, same v' w -> same v w.
Proof.
  revert v v'. apply (same_mind (fun v v' _ => forall w, same v' w -> same v w)
    (fun l l' _ => forall w, same_list l' w -> same_list l w)
    (fun m m' _ => Forall2 (fun a b => forall w, same_pair b w -> same_pair a w) m m'));
    try (intros; assumption).
  - intros p z z' w S. inversion S; subst. constructor.
  - intros v v' _ IH w S. inversion S; subst. constructor. auto.
  - intros o o' _ IH w S. inversion S; subst. constructor. auto.
  - intros l l' _ IH w S. inversion S; subst. constructor. auto.
  - intros o o' m P _ F w S. inversion S as [| | | | | | |x o'' m2 P2 S2| |]; subst.
    destruct (Forall2_perm _ _ _ P2 _ F) as (p & Pp & Sp). apply (sm_map o o'' p); [now transitivity m|].
    apply same_pairs_Forall2. apply same_pairs_Forall2 in S2. clear -Sp S2. revert S2. generalize (elems o'').
    induction Sp as [|a b p m2 R F IH]; intros w S; inversion S; subst; constructor; auto.
  - intros l l' _ IH w S. inversion S; subst. constructor. auto.
  - intros v v' _ IH w S. inversion S; subst. constructor. auto.
  - intros v v' l l' _ IH1 _ IH2 w S. inversion S; subst. constructor; auto.
  - constructor.
  - intros k k' v v' m m' _ IH1 _ IH2 _ F. constructor; [|exact F]. intros [k2 v2] [S1 S2]. split; cbn in *; auto.
Qed.

(** Both enumerations of a value encode, to the same number of bytes, and decode to
    the same value. *)
Lemma order_irrelevant E t v w out full : supported E t -> has_type E sound_leaf t v -> reordered v w ->
  runw (Encode E t v) out = WDone None full ->
  exists bs v' bs2 w', full = out ++ bs /\ runw (Encode E t w) out = WDone None (out ++ bs2)
    /\ length bs2 = length bs /\ same v v' /\ same v' w'
    /\ decodes_whatever_follows E t bs v' /\ decodes_whatever_follows E t bs2 w'.
Proof.
  intros S T RO R. destruct (round_trip _ _ _ _ _ S T R) as (bs & v' & -> & M & W & D).
  destruct (proj1 (encoded_reordered E) _ _ _ _ _ W w RO) as (bs2 & w' & W2 & RO' & L).
  exists bs, v', bs2, w'. split; [reflexivity|].
  split; [exact (proj1 (encoded_writes E) _ _ _ _ _ W2 out)|]. split; [exact L|]. split; [exact M|].
  split; [now apply (proj1 reordered_same)|]. split; [exact D|].
  destruct (proj1 (encoded_reads E) _ _ _ _ _ W2) as [F H]. exists F. exact H.
Qed.

(** The bytes determine the order of the keys. *)
Lemma map_keys E t kt vt m out full : supported E t -> head E t = TMap kt vt -> has_type E sound_leaf t (RMap (Some m)) ->
  runw (Encode E t (RMap (Some m))) out = WDone None full ->
  exists bs m', full = out ++ bs /\ map fst m' = map fst m /\ decodes_whatever_follows E t bs (RMap (Some m')).
Proof.
  intros S H T R. assert (K : comparable kt = true).
  { specialize (S Target t (wi_here _ _)). unfold supported_here in S. now rewrite H in S. }
  assert (exists m2, has_type E sound_leaf t (RMap (Some m2)) /\ m2 = m) as (m2 & T2 & EQ) by eauto.
  inversion T as [| | | | | | | | |? kt' vt' ? H' K' HP ND| |]; subst. rewrite H in H'. injection H' as <- <-. clear T2.
  rewrite (Encode_map _ _ _ _ _ H) in R. cbn [elems] in R. apply runw_etry_done in R as (mid & R1 & R2).
  apply varu_done in R1 as (L & pre & V & ->); [|apply zlen_nonneg].
  destruct (proj1 (proj2 (proj2 (encode_complete E))) _ _ _ HP _ _
    (supported_part E Target t Target kt S (pt_key _ _ _ _ _ H)) (supported_part E Target t Target vt S (pt_value _ _ _ _ _ H)) R2)
    as (bs & m' & -> & W & M & C).
  exists (pre ++ bs), m'. split; [now rewrite app_assoc|]. split; [now apply C|].
  assert (W' : encoded E Target t (RMap (Some m)) (pre ++ bs) (RMap (Some m'))).
  { eapply w_map; try eassumption. now rewrite (C K). }
  destruct (proj1 (encoded_reads E) _ _ _ _ _ W') as [F D]. exists F. exact D.
Qed.
Lemma order_visible E t kt vt m m2 out full full2 : supported E t -> head E t = TMap kt vt ->
  has_type E sound_leaf t (RMap (Some m)) -> has_type E sound_leaf t (RMap (Some m2)) -> map fst m <> map fst m2 ->
  runw (Encode E t (RMap (Some m))) out = WDone None full -> runw (Encode E t (RMap (Some m2))) out = WDone None full2 ->
  full <> full2.
Proof.
  intros S H T T2 N R R2 Q. destruct (map_keys _ _ _ _ _ _ _ S H T R) as (bs & m' & -> & K & F & D).
  destruct (map_keys _ _ _ _ _ _ _ S H T2 R2) as (bs2 & m2' & -> & K2 & F2 & D2).
  apply app_inv_head in Q. subst bs2. apply N. rewrite <- K, <- K2.
  specialize (D (Nat.max F F2) ltac:(lia) {| r_end := EOF; r_strict := false |} []).
  specialize (D2 (Nat.max F F2) ltac:(lia) {| r_end := EOF; r_strict := false |} []). congruence.
Qed.
