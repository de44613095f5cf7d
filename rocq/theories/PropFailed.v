(** C85: what a Decode that fails leaves in its target. *)
From Coq Require Import String.
From Verif Require Import Base Prog SpecWire AbiPrim Chain SpecChain Values Leaf SpecLeaf Reflect SpecReflect SpecFailed.
From Verif Require Import BaseProofs ProgProofs ReflectProofs TargetsProofs ReflectRepeat PropReflect.
Import ListNotations.
Local Open Scope Z_scope.

Lemma fields_left E f g : forall fs l env inp l' e rest, length l = length fs ->
  run env (get_fields E f g fs l) inp = Done (l', Some e) rest ->
  exists fs1 fd fs2 l1 x l2 l1' x' r, fs = fs1 ++ fd :: fs2 /\ l = l1 ++ x :: l2 /\ length l1 = length fs1
    /\ l' = l1' ++ x' :: l2 /\ run env (get_fields E f g fs1 l1) inp = Done (l1', None) r
    /\ run env (get_field E f g fd x) r = Done (x', Some e) rest.
Proof.
  induction fs as [|fd fs IH]; intros [|x l] env inp l' e rest L R; try discriminate L; [discriminate R|].
  cbn [get_fields] in R. rewrite run_dbind in R. destruct (run env (get_field E f g fd x) inp) as [[x' [e'|]] r|m|] eqn:F; try discriminate R.
  - cbn [run] in R. assert (l' = x' :: l) by congruence. assert (e' = e) by congruence. assert (r = rest) by congruence. subst.
    exists [], fd, fs, [], x, l, [], x', inp. repeat split. exact F.
  - rewrite run_dbind in R. destruct (run env (get_fields E f g fs l) r) as [[q o] r'|m|] eqn:G; try discriminate R. cbn [run] in R.
    assert (l' = x' :: q) by congruence. assert (o = Some e) by congruence. assert (r' = rest) by congruence. subst.
    apply IH in G as (fs1 & fd' & fs2 & l1 & y & l2 & l1' & y' & r' & -> & -> & A & -> & B & C); [|cbn in L; lia].
    exists (fd :: fs1), fd', fs2, (x :: l1), y, l2, (x' :: l1'), y', r'. repeat split; [cbn; lia| |exact C].
    cbn [get_fields]. rewrite run_dbind, F, run_dbind, B. reflexivity.
Qed.
Lemma elems_left f : forall l env inp l' e rest, run env (get_elems f l) inp = Done (l', Some e) rest ->
  exists l1 x l2 l1' x' r, l = l1 ++ x :: l2 /\ l' = l1' ++ x' :: l2
    /\ run env (get_elems f l1) inp = Done (l1', None) r /\ run env (f x) r = Done (x', Some e) rest.
Proof.
  induction l as [|x l IH]; intros env inp l' e rest R; [discriminate R|].
  cbn [get_elems] in R. rewrite run_dbind in R. destruct (run env (f x) inp) as [[x' [e'|]] r|m|] eqn:F; try discriminate R.
  - cbn [run] in R. assert (l' = x' :: l) by congruence. assert (e' = e) by congruence. assert (r = rest) by congruence. subst.
    exists [], x, l, [], x', inp. repeat split. exact F.
  - rewrite run_dbind in R. destruct (run env (get_elems f l) r) as [[q o] r'|m|] eqn:G; try discriminate R. cbn [run] in R.
    assert (l' = x' :: q) by congruence. assert (o = Some e) by congruence. assert (r' = rest) by congruence. subst.
    apply IH in G as (l1 & y & l2 & l1' & y' & r' & -> & -> & B & C).
    exists (x :: l1), y, l2, (x' :: l1'), y', r'. repeat split; [|exact C].
    cbn [get_elems]. rewrite run_dbind, F, run_dbind, B. reflexivity.
Qed.
Lemma map_done {A B} env (p : io A) (c : A -> B) inp b e rest : run env ('(a, err) <-- p ;; DRet (c a, err)) inp = Done (b, e) rest ->
  exists a, run env p inp = Done (a, e) rest /\ b = c a.
Proof.
  rewrite run_dbind. destruct (run env p inp) as [[a e'] r|m|]; try discriminate. cbn [run]. intros R. exists a.
  assert (e' = e) by congruence. assert (r = rest) by congruence. subst. split; [reflexivity|congruence].
Qed.
Lemma done_map {A B} env (p : io A) (c : A -> B) inp a e rest : run env p inp = Done (a, e) rest ->
  run env ('(a, err) <-- p ;; DRet (c a, err)) inp = Done (c a, e) rest.
Proof. intros R. now rewrite run_dbind, R. Qed.

(** A struct: the fields before the one that fails hold what was decoded, those after it
    what they held before. *)
Theorem C85_struct E fuel fs l env inp v e rest : length l = length fs ->
  run env (Decode fuel E (TStruct fs) (RStruct l)) inp = Done (v, Some e) rest ->
  exists before fd after l1 x l2 l1' x' r, fs = before ++ fd :: after /\ l = l1 ++ x :: l2 /\ length l1 = length before
    /\ run env (Decode fuel E (TStruct before) (RStruct l1)) inp = Done (RStruct l1', None) r
    /\ run env (Decode fuel E (TStruct [fd]) (RStruct [x])) r = Done (RStruct [x'], Some e) rest
    /\ v = RStruct (l1' ++ x' :: l2).
Proof.
  intros L R. unfold Decode in R |- *. destruct fuel as [|[|fuel]]; try discriminate R. cbn [decode head chain_decoder dbind] in R |- *. cbv zeta in R |- *.
  apply map_done in R as (l' & R & ->).
  apply fields_left in R as (fs1 & fd & fs2 & l1 & x & l2 & l1' & x' & r & -> & -> & A & -> & B & C); [|exact L].
  exists fs1, fd, fs2, l1, x, l2, l1', x', r. repeat split; [exact A|now apply done_map|].
  apply (done_map env _ RStruct). cbn [get_fields]. rewrite run_dbind, C. reflexivity.
Qed.
Print Assumptions C85_struct.

(** An array likewise. *)
Theorem C85_array E fuel n t l env inp v e rest :
  run env (Decode fuel E (TArray n t) (RArray l)) inp = Done (v, Some e) rest ->
  exists l1 x l2 l1' x' r, l = l1 ++ x :: l2
    /\ run env (Decode fuel E (TArray (length l1) t) (RArray l1)) inp = Done (RArray l1', None) r
    /\ run env (Decode fuel E (TArray 1 t) (RArray [x])) r = Done (RArray [x'], Some e) rest
    /\ v = RArray (l1' ++ x' :: l2).
Proof.
  intros R. unfold Decode in R |- *. destruct fuel as [|[|fuel]]; try discriminate R. cbn [decode head chain_decoder dbind] in R |- *.
  apply map_done in R as (l' & R & ->). apply elems_left in R as (l1 & x & l2 & l1' & x' & r & -> & -> & B & C).
  exists l1, x, l2, l1', x', r. repeat split; [now apply done_map|].
  apply (done_map env _ RArray). cbn [get_elems]. rewrite run_dbind, C. reflexivity.
Qed.
Print Assumptions C85_array.

(** A slice is as it was if its length could not be read.  Otherwise it has that length:
    its elements are those it had, if there were as many, or else zero values, up to the
    element that failed decoded. *)
Theorem C85_slice E fuel t o env inp v e rest :
  run env (Decode fuel E (TSlice t) (RSlice o)) inp = Done (v, Some e) rest ->
  (exists n, run env ReadVaruint inp = Done (n, Some e) rest /\ v = RSlice o)
  \/ exists n r l l', run env ReadVaruint inp = Done (n, None) r /\ zlen l = i64 n
       /\ (o = Some l \/ (forall held, o = Some held -> zlen held <> i64 n) /\ l = repeat (zero E t) (length l))
       /\ run env (Decode fuel E (TArray (length l) t) (RArray l)) r = Done (RArray l', Some e) rest /\ v = RSlice (Some l').
Proof.
  intros R. unfold Decode in R |- *. destruct fuel as [|[|fuel]]; try discriminate R. cbn [decode head chain_decoder dbind] in R |- *.
  apply map_done in R as (o' & R & ->). unfold get_slice in R. rewrite run_dbind in R.
  destruct (run env ReadVaruint inp) as [[n [e'|]] r|m|]; try discriminate R.
  { left. cbn [run] in R. exists n. assert (o' = o) by congruence. assert (e' = e) by congruence. assert (r = rest) by congruence. subst. now split. }
  right. exists n, r. destruct (Z.eqb_spec (zlen match o with Some cur => cur | None => [] end) (i64 n)) as [Q|Q].
  - destruct o as [l|]; [|discriminate R]. apply (map_done env _ (@Some _)) in R as (l' & R & ->).
    exists l, l'. split; [reflexivity|]. split; [exact Q|]. split; [now left|]. split; [now apply done_map|reflexivity].
  - destruct (make_ok _ _) eqn:M; [|discriminate R]. apply (map_done env _ (@Some _)) in R as (l' & R & ->).
    exists (repeat (zero E t) (Z.to_nat (i64 n))), l'. split; [reflexivity|]. split.
    + apply make_ok_least in M. unfold zlen. rewrite repeat_length. lia.
    + split; [right|split; [now apply done_map|reflexivity]]. split; [intros held ->; exact Q|now rewrite repeat_length].
Qed.
Print Assumptions C85_slice.

Lemma pairs_left key value : forall n m env inp m' e rest, run env (get_pairs key value n m) inp = Done (m', Some e) rest ->
  exists ps q, entries_read env key value inp ps q /\ (length ps < n)%nat /\ m' = collect ps m
    /\ ((exists k, run env key q = Done (k, Some e) rest)
        \/ exists k r x, run env key q = Done (k, None) r /\ run env value r = Done (x, Some e) rest).
Proof.
  induction n as [|n IH]; intros m env inp m' e rest R; [discriminate R|]. cbn [get_pairs] in R. rewrite run_dbind in R.
  destruct (run env key inp) as [[k [e'|]] r|s|] eqn:K; try discriminate R.
  { cbn [run] in R. assert (m' = m) by congruence. assert (e' = e) by congruence. assert (r = rest) by congruence. subst.
    exists [], inp. split; [constructor|]. split; [cbn; lia|]. split; [reflexivity|]. left. now exists k. }
  rewrite run_dbind in R. destruct (run env value r) as [[x [e'|]] r'|s|] eqn:X; try discriminate R.
  { cbn [run] in R. assert (m' = m) by congruence. assert (e' = e) by congruence. assert (r' = rest) by congruence. subst.
    exists [], inp. split; [constructor|]. split; [cbn; lia|]. split; [reflexivity|]. right. now exists k, r, x. }
  apply IH in R as (ps & q & P & L & -> & F). exists ((k, x) :: ps), q. split; [econstructor; eassumption|]. split; [cbn; lia|]. now split.
Qed.
(** A map is as it was if its length could not be read.  Otherwise it is a new map with
    the entries read before the one that failed. *)
Theorem C85_map E fuel kt vt o env inp v e rest :
  run env (Decode fuel E (TMap kt vt) (RMap o)) inp = Done (v, Some e) rest ->
  (exists n, run env ReadVaruint inp = Done (n, Some e) rest /\ v = RMap o)
  \/ exists fuel' n r ps q m, run env ReadVaruint inp = Done (n, None) r
       /\ entries_read env (Decode fuel' E kt (zero E kt)) (Decode fuel' E vt (zero E vt)) r ps q /\ zlen ps < i64 n
       /\ ((exists k, run env (Decode fuel' E kt (zero E kt)) q = Done (k, Some e) rest)
           \/ exists k q' x, run env (Decode fuel' E kt (zero E kt)) q = Done (k, None) q'
                          /\ run env (Decode fuel' E vt (zero E vt)) q' = Done (x, Some e) rest)
       /\ v = RMap (Some m) /\ NoDup (map fst m) /\ (forall k x, In (k, x) m <-> last_entry k x ps).
Proof.
  intros R. unfold Decode in R |- *. destruct fuel as [|[|fuel]]; try discriminate R. cbn [decode head chain_decoder dbind] in R.
  apply map_done in R as (o' & R & ->). unfold get_map in R. rewrite run_dbind in R.
  destruct (run env ReadVaruint inp) as [[n [e'|]] r|m|]; try discriminate R.
  { left. cbn [run] in R. exists n. assert (o' = o) by congruence. assert (e' = e) by congruence. assert (r = rest) by congruence. subst. now split. }
  right. apply (map_done env _ (@Some _)) in R as (m & R & ->). apply pairs_left in R as (ps & q & P & L & -> & F).
  exists fuel, n, r, ps, q, (collect ps []). split; [reflexivity|]. split; [exact P|]. split; [unfold zlen; lia|]. split; [exact F|].
  split; [reflexivity|]. split; [apply collect_nodup; constructor|]. intros k x. rewrite collect_in by constructor. unfold last_entry. cbn [In]. tauto.
Qed.
Print Assumptions C85_map.

(** A pointer, in a struct or as an element, is never left nil: it points to what the
    failed Decode of what it points to left, which was new if the pointer was nil. *)
Theorem C85_pointer E fuel t t' o env inp v e rest : head E t = TPtr t' ->
  let left x := exists fuel', run env (Decode fuel' E t' match o with Some x => x | None => zero E t' end) inp = Done (x, Some e) rest in
  (run env (Decode fuel E (TStruct [(NoTag, Exported, t)]) (RStruct [RPtr o])) inp = Done (v, Some e) rest ->
     exists x, left x /\ v = RStruct [RPtr (Some x)])
  /\ (run env (Decode fuel E (TArray 1 t) (RArray [RPtr o])) inp = Done (v, Some e) rest ->
     exists x, left x /\ v = RArray [RPtr (Some x)]).
Proof.
  intros H left. unfold left, Decode. clear left. destruct fuel as [|[|fuel]]; [split; intros R; discriminate R..|].
  cbn [decode head chain_decoder dbind]. cbv zeta. split; intros R; apply map_done in R as (l' & R & ->).
  - cbn [get_fields get_field] in R. unfold through in R. rewrite H, !run_dbind in R.
    destruct (run env (decode fuel E chain_decoder Whole t' _) inp) as [[x [e'|]] r|m|] eqn:X; try discriminate R. cbn [run] in R.
    exists x. assert (e' = e) by congruence. assert (r = rest) by congruence. assert (l' = [RPtr (Some x)]) by congruence. subst. eauto.
  - cbn [get_elems] in R. unfold through in R. rewrite H, !run_dbind in R.
    destruct (run env (decode fuel E chain_decoder Whole t' _) inp) as [[x [e'|]] r|m|] eqn:X; try discriminate R. cbn [run] in R.
    exists x. assert (e' = e) by congruence. assert (r = rest) by congruence. assert (l' = [RPtr (Some x)]) by congruence. subst. eauto.
Qed.
Print Assumptions C85_pointer.

Lemma cleared E : forall fs i l l', clear_others E i fs l = Some l' -> length l = length fs -> length l' = length l
  /\ (0 <= i -> nth_error l' (Z.to_nat i) = nth_error l (Z.to_nat i))
  /\ (forall j x, Z.of_nat j <> i -> nth_error l' j = Some x -> is_zero x = true).
Proof.
  induction fs as [|[[tg vis] t] fs IH]; intros i [|x l] l' C L; try discriminate L.
  { cbn [clear_others] in C. assert (l' = []) by congruence. subst. repeat split. now intros [|j]. }
  cbn [clear_others] in C. destruct (clear_others E (i - 1) fs l) as [q|] eqn:Q; [|discriminate C]. apply IH in Q as (A & B & D); [|cbn in L; lia].
  assert (W : exists x', l' = x' :: q /\ (i = 0 -> x' = x) /\ (i <> 0 -> is_zero x' = true)).
  { destruct (Z.eqb_spec i 0) as [->|N]; [exists x; repeat split; congruence|]. cbv zeta in C.
    destruct (is_zero x) eqn:Zx.
    - exists x. repeat split; try congruence. destruct (head E t) as [k| | | | | | | |? []|]; try destruct k; congruence.
    - exists (zero E t). unfold zero in C |- *. repeat split; try congruence.
      + destruct (head E t) as [k| | | | | | | |? []|]; try destruct k; try discriminate C; destruct vis; congruence.
      + intros _. destruct (head E t) as [k| | | | | | | |? []|]; try destruct k; try discriminate C; reflexivity. }
  destruct W as (x' & -> & W & W'). split; [cbn; lia|]. split.
  - intros P. destruct (Z.eq_dec i 0) as [->|N]; [cbn; now rewrite W|]. replace (Z.to_nat i) with (S (Z.to_nat (i - 1))) by lia. cbn [nth_error]. apply B. lia.
  - intros [|j] y N Y; cbn [nth_error] in Y.
    + assert (y = x') by congruence. subst. apply W'. lia.
    + apply (D j); [lia|exact Y].
Qed.
(** A variant is as it was if its index could not be read or is not that of an
    alternative.  Otherwise the alternative with that index holds what it held, not what
    was read of it, and the others are nil. *)
Theorem C85_variant E fuel t alts l env inp v e rest : head E t = TStruct alts -> length l = length alts ->
  run env (Decode fuel E (TStruct [(Variant, Exported, t)]) (RStruct [RStruct l])) inp = Done (v, Some e) rest ->
  v = RStruct [RStruct l]
  \/ exists i r l', run env ReadByte inp = Done (i, None) r /\ v = RStruct [RStruct l'] /\ length l' = length l
       /\ (0 <= i -> nth_error l' (Z.to_nat i) = nth_error l (Z.to_nat i))
       /\ (forall j x, Z.of_nat j <> i -> nth_error l' j = Some x -> is_zero x = true)
       /\ exists fd, nth_error alts (Z.to_nat i) = Some fd
       /\ (forall t', head E (snd fd) = TPtr t' -> exists fuel' x, run env (Decode fuel' E t' (zero E t')) r = Done (x, Some e) rest).
Proof.
  intros H L R. unfold Decode in R |- *. destruct fuel as [|[|fuel]]; try discriminate R.
  cbn [decode head chain_decoder dbind] in R. cbv zeta in R. apply map_done in R as (l' & R & ->).
  cbn [get_fields get_field] in R. unfold through in R. rewrite H in R.
  cbn [get_fields] in R. rewrite !run_dbind in R. destruct (run env ReadByte inp) as [[i [e'|]] r|m|]; try discriminate R.
  { cbn [run] in R. left. assert (l' = [RStruct l]) by congruence. now subst. }
  destruct fuel as [|fuel]; [discriminate R|]. cbn [decode] in R. rewrite H in R. cbn iota beta in R. rewrite run_dbind in R.
  assert (K : exists l0, run env (get_alternative E (decode fuel E chain_decoder Whole) i alts l) r = Done (l0, Some e) rest /\ l' = [RStruct l0]).
  { destruct (run env (get_alternative E (decode fuel E chain_decoder Whole) i alts l) r) as [[l0 [e'|]] r'|m|]; try discriminate R. cbn [run] in R.
    exists l0. assert (e' = e) by congruence. assert (r' = rest) by congruence. split; [|]; congruence. }
  clear R. destruct K as (l0 & R & ->). unfold get_alternative in R.
  destruct (Z.leb_spec (zlen alts) i) as [Bd|Bd]; [left; cbn [run] in R; congruence|].
  destruct (clear_others E i alts l) as [l1|] eqn:C; [|discriminate R]. apply cleared in C as (A & B & D); [|exact L].
  destruct (nth_error alts (Z.to_nat i)) as [[[tg vis] ta]|] eqn:Nt; [|discriminate R].
  right. exists i, r, l1. split; [reflexivity|]. destruct (head E ta) as [ | | | t' | | | | | | ] eqn:Ht.
  4: { rewrite run_dbind in R. destruct (run env (decode fuel E chain_decoder Whole t' _) r) as [[x [e'|]] r'|m|] eqn:X; try discriminate R.
    2: { destruct vis; discriminate R. }
    cbn [run] in R. assert (l0 = l1) by congruence. assert (e' = e) by congruence. assert (r' = rest) by congruence. subst.
    repeat (split; [solve [assumption|reflexivity]|]). exists (tg, vis, ta). split; [exact Nt|]. cbn [snd]. intros u Hu. exists fuel, x.
    assert (u = t') by congruence. now subst. }
  all: cbn [run] in R; assert (l0 = l1) by congruence; subst; repeat (split; [solve [assumption|reflexivity]|]); exists (tg, vis, ta); split; [exact Nt|]; cbn [snd]; intros u Hu; congruence.
Qed.
Print Assumptions C85_variant.

Lemma leaf_left E fuel k p z env inp v e rest : kind_of p = k -> k <> KExtendedAsset ->
  run env (Decode fuel E (TLeaf k) (RLeaf p z)) inp = Done (v, Some e) rest ->
  exists p', run env (read_prim p) inp = Done (p', Some e) rest /\ exists z', v = RLeaf p' z'.
Proof.
  intros K N R. unfold Decode in R. destruct fuel as [|fuel]; [discriminate R|]. cbn [decode head chain_decoder] in R.
  assert (W : run env (leaf_read p) inp = Done (v, Some e) rest -> exists p', run env (read_prim p) inp = Done (p', Some e) rest /\ exists z', v = RLeaf p' z').
  { intros Q. unfold leaf_read in Q. apply (map_done env _ (fun q => RLeaf q (leaf_zero q))) in Q as (p' & Q & ->). eauto. }
  destruct (table_kind k) eqn:T.
  - rewrite !run_dbind in R. destruct (run env (leaf_read p) inp) as [[q o] r|m|] eqn:X; try discriminate R. cbn [run] in R.
    apply W. destruct o; congruence.
  - cbn [dbind] in R. destruct (go_kind k) eqn:G; [now apply W|]. destruct k; try discriminate; congruence.
Qed.
(** These types of package chain keep the value they held. *)
Theorem C85_kept E fuel k p z env inp v e rest : stored_whole k -> kind_of p = k ->
  run env (Decode fuel E (TLeaf k) (RLeaf p z)) inp = Done (v, Some e) rest -> exists z', v = RLeaf p z'.
Proof.
  intros S K R. assert (N : k <> KExtendedAsset) by (now destruct S). apply leaf_left in R as (p' & R & z' & ->); [|assumption..]. exists z'.
  assert (W : p' = p); [|now subst].
  destruct S; destruct p; try discriminate K; cbn [read_prim] in R; apply map_done in R as (a & R & ->); f_equal;
    unfold Name_UnmarshalABI, Symbol_UnmarshalABI, Uint64_UnmarshalABI, Uint128_UnmarshalABI, Float128_UnmarshalABI, BlockNum_UnmarshalABI, TimePoint_UnmarshalABI,
      TimePointSec_UnmarshalABI, BlockTimestamp_UnmarshalABI, Checksum_UnmarshalABI, Bytes_UnmarshalABI, keep, dtry in R; rewrite run_dbind in R;
    repeat (match type of R with
     | match ?x with _ => _ end = _ => destruct x as [[? [?|]] ?| |]; try discriminate R; cbn [run] in R
     | run _ (let '(_, _) := ?x in _) _ = _ => destruct x; cbn [run] in R
     | run _ (dbind _ _) _ = _ => rewrite run_dbind in R
     end); congruence.
Qed.
Print Assumptions C85_kept.
Lemma leaf_flag E fuel k p z env inp v e rest : kind_of p = k -> k <> KExtendedAsset ->
  run env (Decode fuel E (TLeaf k) (RLeaf p z)) inp = Done (v, Some e) rest ->
  exists p', run env (read_prim p) inp = Done (p', Some e) rest /\ v = RLeaf p' (leaf_zero p').
Proof.
  intros K N R. unfold Decode in R. destruct fuel as [|fuel]; [discriminate R|]. cbn [decode head chain_decoder] in R.
  assert (W : run env (leaf_read p) inp = Done (v, Some e) rest -> exists p', run env (read_prim p) inp = Done (p', Some e) rest /\ v = RLeaf p' (leaf_zero p')).
  { intros Q. unfold leaf_read in Q. now apply (map_done env _ (fun q => RLeaf q (leaf_zero q))) in Q. }
  destruct (table_kind k) eqn:T.
  - rewrite !run_dbind in R. destruct (run env (leaf_read p) inp) as [[q o] r|m|] eqn:X; try discriminate R. cbn [run] in R.
    apply W. destruct o; congruence.
  - cbn [dbind] in R. destruct (go_kind k) eqn:G; [now apply W|]. destruct k; try discriminate; congruence.
Qed.
Definition zero_on_error {A} (z : A) (p : io A) : Prop :=
  forall env inp a e rest, run env p inp = Done (a, Some e) rest -> a = z.
Lemma zoe_try {A B} (z : B) (p : io A) (k : A -> io B) : (forall a, zero_on_error z (k a)) -> zero_on_error z (dtry z p k).
Proof.
  intros K env inp a e rest R. unfold dtry in R. rewrite run_dbind in R. destruct (run env p inp) as [[x [e'|]] r|m|]; try discriminate R.
  - cbn [run] in R. congruence.
  - exact (K _ _ _ _ _ _ R).
Qed.
Lemma zoe_ret {A} (z a : A) : zero_on_error z (DRet (a, None)).
Proof. intros env inp b e rest R. discriminate R. Qed.
Lemma zoe_bytes {B} (z : B) n (k : list byte -> option gerr -> io B) : (forall b e, k b (Some e) = DRet (z, Some e)) -> (forall b, zero_on_error z (k b None)) ->
  zero_on_error z ('(_, b, err) <-- ReadBytes n ;; k b err).
Proof.
  intros K N env inp a e rest R. rewrite run_dbind in R. destruct (run env (ReadBytes n) inp) as [[[c b] [e'|]] r|m|]; try discriminate R.
  - rewrite K in R. cbn [run] in R. congruence.
  - exact (N _ _ _ _ _ _ R).
Qed.
Lemma zoe_byte : zero_on_error 0 ReadByte.
Proof. unfold ReadByte. apply (zoe_bytes 0 1 (fun b err => match err with Some e => DRet (0, Some e) | None => match b with c :: _ => DRet (zb c, None) | [] => DPanic "index out of range" end end)); [reflexivity|]. intros [|c b] env inp a e rest R; discriminate R. Qed.
Lemma zoe_le n : zero_on_error 0 ('(_, b, err) <-- ReadBytes n ;; match err with Some e => DRet (0, Some e) | None => DRet (le_get b, None) end).
Proof. apply (zoe_bytes 0 n (fun b err => match err with Some e => DRet (0, Some e) | None => DRet (le_get b, None) end)); [reflexivity|]. intros b. apply zoe_ret. Qed.
Lemma zoe_bool : zero_on_error false ReadBool.
Proof.
  intros env inp a e rest R. unfold ReadBool in R. apply (map_done env _ (fun b => negb (b =? 0))) in R as (b & R & ->). apply zoe_byte in R. now subst.
Qed.
(** Go's own types are set to zero. *)
Theorem C85_zeroed E fuel k p z env inp v e rest : go_basic k -> kind_of p = k ->
  run env (Decode fuel E (TLeaf k) (RLeaf p z)) inp = Done (v, Some e) rest -> v = zero E (TLeaf k).
Proof.
  intros S K R. assert (N : k <> KExtendedAsset) by (now destruct S). apply leaf_flag in R as (p' & R & ->); [|assumption..].
  assert (W : p' = zero_prim k); [|subst; now destruct S].
  destruct S; destruct p; try discriminate K; cbn [read_prim] in R; apply map_done in R as (a & R & ->); cbn [zero_prim]; f_equal; revert R;
    generalize env inp a e rest.
  - exact zoe_bool.
  - apply zoe_try. intros len. apply (zoe_bytes [] (i64 len) (fun b err => match err with Some e => DRet ([], Some e) | None => DRet (b, None) end)); [reflexivity|]. intros b. apply zoe_ret.
  - apply zoe_try. intros b. apply zoe_ret.
  - apply zoe_le.
  - apply zoe_le.
  - apply zoe_le.
  - apply zoe_try. intros b. apply zoe_ret.
  - apply zoe_try. intros b. apply zoe_ret.
  - apply zoe_try. intros b. apply zoe_ret.
  - apply zoe_try. intros b. apply zoe_ret.
  - apply zoe_try. intros b. apply zoe_ret.
  - apply zoe_try. intros b. apply zoe_ret.
  - apply zoe_try. intros b. apply zoe_ret.
  - apply zoe_try. intros b. apply zoe_ret.
Qed.
Print Assumptions C85_zeroed.

Lemma bytes_left n env inp c b e rest : run env (ReadBytes n) inp = Done ((c, b), Some e) rest ->
  n < 0 /\ b = [] /\ rest = inp \/ zlen inp < n /\ b = inp ++ zeros (Z.to_nat n - length inp) /\ rest = [].
Proof.
  unfold ReadBytes. destruct (Z.ltb_spec n 0) as [N|N].
  { cbn [run]. intros R. left. repeat split; [exact N|congruence..]. }
  destruct (n =? 0); [discriminate|]. destruct (make_ok 1 n); [|discriminate]. cbn [run].
  destruct (Z.leb_spec n (zlen inp)) as [L|L]; [discriminate|]. intros R. right. repeat split; [exact L|congruence..].
Qed.
(** A []byte is as it was if its length could not be read.  Otherwise it has that length
    and holds the bytes that were there, then zeros; a length too large for an int leaves
    it empty. *)
Theorem C85_byte_slice E fuel b z env inp v e rest :
  run env (Decode fuel E (TLeaf KGoBytes) (RLeaf (PGoBytes b) z)) inp = Done (v, Some e) rest ->
  exists b' z', v = RLeaf (PGoBytes b') z'
    /\ ((exists n, run env ReadVaruint inp = Done (n, Some e) rest /\ b' = b)
        \/ exists n r, run env ReadVaruint inp = Done (n, None) r
             /\ (i64 n < 0 /\ b' = [] /\ rest = r
                 \/ zlen r < i64 n /\ zlen b' = i64 n /\ rest = [] /\ exists k, b' = r ++ repeat x00 k)).
Proof.
  intros R. apply leaf_left in R as (p' & R & z' & ->); [|reflexivity|discriminate]. cbn [read_prim] in R. apply map_done in R as (b' & R & ->).
  exists b', z'. split; [reflexivity|]. unfold DecodeByteSlice in R. rewrite run_dbind in R.
  destruct (run env ReadVaruint inp) as [[n [e'|]] r|m|]; try discriminate R.
  { cbn [run] in R. left. exists n. assert (e' = e) by congruence. assert (r = rest) by congruence. subst. split; [reflexivity|congruence]. }
  right. exists n, r. split; [reflexivity|]. rewrite run_dbind in R. destruct (run env (ReadBytes (i64 n)) r) as [[[c b1] o] q|m|] eqn:X; try discriminate R.
  cbn [run] in R. assert (b1 = b') by congruence. assert (o = Some e) by congruence. assert (q = rest) by congruence. subst.
  apply bytes_left in X as [(A & B & C)|(A & B & C)]; [left; auto|]. right. split; [exact A|]. split.
  - subst b'. rewrite zlen_app. unfold zlen in A |- *. unfold zeros. rewrite repeat_length. lia.
  - split; [exact C|]. eexists. exact B.
Qed.
Print Assumptions C85_byte_slice.
(** An Asset is as it was if its amount could not be read.  Otherwise it holds the new
    amount and the zero symbol. *)
Theorem C85_asset E fuel a z env inp v e rest :
  run env (Decode fuel E (TLeaf KAsset) (RLeaf (PAsset a) z)) inp = Done (v, Some e) rest ->
  exists a' z', v = RLeaf (PAsset a') z'
    /\ (a' = a \/ exists r, run env ReadInt64 inp = Done (Value a', None) r /\ Sym a' = 0).
Proof.
  intros R. apply leaf_left in R as (p' & R & z' & ->); [|reflexivity|discriminate]. cbn [read_prim] in R. apply map_done in R as (a' & R & ->).
  exists a', z'. split; [reflexivity|]. unfold Asset_UnmarshalABI, dtry in R. rewrite run_dbind in R.
  destruct (run env ReadInt64 inp) as [[n [e'|]] r|m|]; try discriminate R; [left; cbn [run] in R; congruence|]. right.
  unfold Symbol_UnmarshalABI, keep in R. rewrite !run_dbind in R.
  destruct (run env ReadUint64 r) as [[s [e'|]] q|m|]; try discriminate R. cbn [run] in R.
  exists r. assert (W : a' = {| Value := n; Sym := 0 |}) by congruence. rewrite W. now split.
Qed.
Print Assumptions C85_asset.
(** A key or signature is as it was if its type could not be read.  Otherwise it has the
    new type, even one that is not known, over the bytes it held; for the types whose
    length is fixed, over the bytes that were there, then zeros. *)
Theorem C85_key E fuel k key size kd z env inp v e rest :
  (kd = KPublicKey /\ key = PPublicKey /\ size = 33) \/ (kd = KSignature /\ key = PSignature /\ size = 65) ->
  run env (Decode fuel E (TLeaf kd) (RLeaf (key k) z)) inp = Done (v, Some e) rest ->
  exists k' z', v = RLeaf (key k') z'
    /\ (k' = k \/ exists r, run env ReadByte inp = Done (KType k', None) r
                    /\ (KData k' = KData k
                        \/ (KType k' = 0 \/ KType k' = 1) /\ zlen (KData k') = size /\ rest = [] /\ exists n, KData k' = r ++ repeat x00 n)).
Proof.
  intros K R.
  assert (W : exists k' z', v = RLeaf (key k') z' /\ exists p, run env (dtry k ReadByte p) inp = Done (k', Some e) rest
    /\ forall t r, run env (p t) r = Done (k', Some e) rest -> KType k' = t /\ (KData k' = KData k
       \/ (t = 0 \/ t = 1) /\ exists c, run env (ReadBytes size) r = Done ((c, KData k'), Some e) rest)).
  { destruct K as [(-> & -> & ->)|(-> & -> & ->)]; (apply leaf_left in R as (p' & R & z' & ->); [|reflexivity|discriminate]); cbn [read_prim] in R; apply map_done in R as (k' & R & ->);
      exists k', z'; (split; [reflexivity|]); eexists; (split; [exact R|]); clear R; intros t r R; cbv beta in R; unfold K1, P1, WA, put_len, dtry in R;
      (destruct (Z.eqb_spec t 0); [|destruct (Z.eqb_spec t 1)]); cbn [orb] in R.
    all: try (rewrite run_dbind in R; destruct (run env (ReadBytes _) r) as [[[c b] o] q|m|]; try discriminate R; cbn [run] in R;
      assert (o = Some e) by congruence; assert (q = rest) by congruence; assert (X : k' = {| KType := t; KData := b |}) by congruence; rewrite X; subst; cbn; split; [reflexivity|];
      right; split; [lia|]; exists c; reflexivity).
    all: destruct (t =? 2); [|cbn [run] in R; assert (X : k' = {| KType := t; KData := KData k |}) by congruence; rewrite X; cbn; auto].
    all: repeat match type of R with
      | run _ (dbind _ _) _ = _ => rewrite run_dbind in R
      | match ?x with Done _ _ => _ | Crash _ => _ | Diverged => _ end = _ => destruct x as [[[? ?] [?|]] ?| |]; try discriminate R; cbn [run] in R
      | match ?x with Done _ _ => _ | Crash _ => _ | Diverged => _ end = _ => destruct x as [[? [?|]] ?| |]; try discriminate R; cbn [run] in R
      | run _ match ?o with Some _ => _ | None => _ end _ = _ => destruct o; try discriminate R; cbn [run] in R
      end; try discriminate R; assert (X : k' = {| KType := t; KData := KData k |}) by congruence; rewrite X; cbn; auto. }
  destruct W as (k' & z' & -> & p & Q & W). exists k', z'. split; [reflexivity|]. unfold dtry in Q. rewrite run_dbind in Q.
  destruct (run env ReadByte inp) as [[t [e'|]] r|m|]; try discriminate Q; [left; cbn [run] in Q; congruence|]. right. exists r.
  apply W in Q as [T Q]. rewrite T. split; [reflexivity|]. destruct Q as [Q|(A & c & Q)]; [now left|]. right. split; [exact A|].
  assert (S0 : 0 <= size) by (destruct K as [(_ & _ & ->)|(_ & _ & ->)]; lia).
  apply bytes_left in Q as [(N & _)|(L & B & C)]; [lia|]. split.
  - rewrite B, zlen_app. unfold zlen in L |- *. unfold zeros. rewrite repeat_length. lia.
  - split; [exact C|]. eexists. exact B.
Qed.
Print Assumptions C85_key.

(** Decodes that fail: a struct with a pointer, a slice and a variant; a map; leaves. *)
Example C85_ex :
  let env := {| r_end := EOF; r_strict := true |} in
  let E := node_types in
  let name n := RLeaf (PName n) (n =? 0) in
  let u8 n := RLeaf (PU8 n) (n =? 0) in
  let fails t old inp v := exists e rest, run env (Decode 9 E t old) inp = Done (v, Some e) rest in
  let fs := [(NoTag, Exported, TLeaf KU8); (NoTag, Exported, TPtr (TLeaf KName)); (NoTag, Exported, TLeaf KName)] in
  fails (TStruct fs) (RStruct [u8 9; RPtr None; name 7]) [x05; x01] (RStruct [u8 5; RPtr (Some (name 0)); name 7])
  /\ fails (TArray 2 (TLeaf KName)) (RArray [name 3; name 4]) (repeat x00 8 ++ [x01]) (RArray [name 0; name 4])
  /\ fails (TSlice (TLeaf KU8)) (RSlice (Some [u8 7; u8 8; u8 9])) [x03; x01] (RSlice (Some [u8 1; u8 0; u8 9]))
  /\ fails (TSlice (TLeaf KU8)) (RSlice (Some [u8 7; u8 8])) [x03; x01] (RSlice (Some [u8 1; u8 0; u8 0]))
  /\ fails (TSlice (TLeaf KU8)) (RSlice (Some [u8 7; u8 8])) [] (RSlice (Some [u8 7; u8 8]))
  /\ fails (TMap (TLeaf KU8) (TLeaf KU8)) (RMap (Some [(u8 1, u8 1)])) [x03; x05; x06; x05; x07; x08] (RMap (Some [(u8 5, u8 7)]))
  /\ fails (TStruct [(NoTag, Exported, TPtr (TLeaf KName))]) (RStruct [RPtr None]) [x01] (RStruct [RPtr (Some (name 0))])
  /\ fails (TArray 1 (TPtr (TLeaf KName))) (RArray [RPtr (Some (name 4))]) [x01] (RArray [RPtr (Some (name 4))])
  /\ (let alts := TStruct [(NoTag, Exported, TPtr (TLeaf KName)); (NoTag, Exported, TPtr (TLeaf KU8))] in
      fails (TStruct [(Variant, Exported, alts)]) (RStruct [RStruct [RPtr (Some (name 4)); RPtr (Some (u8 5))]]) [x00; x01]
        (RStruct [RStruct [RPtr (Some (name 4)); RPtr None]])
      /\ fails (TStruct [(Variant, Exported, alts)]) (RStruct [RStruct [RPtr (Some (name 4)); RPtr (Some (u8 5))]]) [x02; x01]
        (RStruct [RStruct [RPtr (Some (name 4)); RPtr (Some (u8 5))]]))
  /\ fails (TLeaf KName) (name 4) [x01] (name 4)
  /\ fails (TLeaf KU32) (RLeaf (PU32 4) false) [x01] (RLeaf (PU32 0) true)
  /\ fails (TLeaf KGoBytes) (RLeaf (PGoBytes [x09]) false) [x03; x01] (RLeaf (PGoBytes [x01; x00; x00]) false)
  /\ fails (TLeaf KAsset) (RLeaf (PAsset {| Value := 4; Sym := 5 |}) false) (x07 :: repeat x00 8) (RLeaf (PAsset {| Value := 7; Sym := 0 |}) false)
  /\ fails (TLeaf KPublicKey) (RLeaf (PPublicKey {| KType := 0; KData := [x09] |}) false) [x07; x01] (RLeaf (PPublicKey {| KType := 7; KData := [x09] |}) false)
  /\ fails (TLeaf KPublicKey) (RLeaf (PPublicKey {| KType := 0; KData := [x09] |}) false) [x01; x05] (RLeaf (PPublicKey {| KType := 1; KData := x05 :: repeat x00 32 |}) false).
Proof. cbv zeta. repeat split; eexists; eexists; vm_compute; reflexivity. Qed.
