(** Decoding of maps whose bytes repeat a key. *)
From Verif Require Import Base Prog SpecWire AbiPrim Chain SpecChain Values Leaf SpecLeaf Reflect SpecReflect.
From Verif Require Import BaseProofs ProgProofs AbiPrimProofs ChainProofs LeafProofs ReflectProofs.

Definition collect (l m : list (rval * rval)) : list (rval * rval) :=
  fold_left (fun m p => map_set (fst p) (snd p) m) l m.
Lemma map_set_keys k x m y : In y (map fst (map_set k x m)) <-> y = k \/ In y (map fst m).
Proof.
  induction m as [|[k' x'] m IH]; cbn [map_set map fst In].
  - intuition congruence.
  - destruct (rval_dec k k') as [<-|N]; cbn [map fst In]; [intuition congruence|]. rewrite IH. intuition congruence.
Qed.
Lemma map_set_nodup k x m : NoDup (map fst m) -> NoDup (map fst (map_set k x m)).
Proof.
  induction m as [|[k' x'] m IH]; cbn [map_set map fst]; intros N.
  - repeat constructor. intros [].
  - inversion N as [|? ? NI N']; subst. destruct (rval_dec k k') as [<-|NE]; cbn [map fst]; [now constructor|].
    constructor; [|auto]. rewrite map_set_keys. intros [->|I]; [congruence|contradiction].
Qed.
Lemma map_set_in k x m k0 x0 : NoDup (map fst m) ->
  In (k0, x0) (map_set k x m) <-> (k0 = k /\ x0 = x) \/ (k0 <> k /\ In (k0, x0) m).
Proof.
  induction m as [|[k' x'] m IH]; cbn [map_set map fst In]; intros N.
  - split; [intros [H|[]]; injection H as <- <-; auto|intros [[-> ->]|[_ []]]; auto].
  - inversion N as [|? ? NI N']; subst. destruct (rval_dec k k') as [<-|NE]; cbn [In].
    + split.
      * intros [H|I]; [injection H as <- <-; auto|]. right. split; [|auto]. intros ->. apply NI.
        now apply (in_map fst) in I.
      * intros [[-> ->]|[NE [H|I]]]; [auto|congruence|auto].
    + rewrite (IH N'). split.
      * intros [H|[[-> ->]|[A B]]]; [injection H as -> ->; right; auto|auto|auto].
      * intros [[-> ->]|[A [B|B]]]; auto.
Qed.
Lemma collect_nodup l : forall m, NoDup (map fst m) -> NoDup (map fst (collect l m)).
Proof. induction l as [|[k x] l IH]; intros m N; [exact N|]. apply IH. now apply map_set_nodup. Qed.
Lemma collect_in l : forall m, NoDup (map fst m) -> forall k x, In (k, x) (collect l m) <->
  (exists before after, l = before ++ (k, x) :: after /\ ~ In k (map fst after))
  \/ (~ In k (map fst l) /\ In (k, x) m).
Proof.
  induction l as [|[k1 x1] l IH]; intros m N k x.
  - cbn [collect fold_left map]. split; [intros I; right; auto|]. intros [(b & a & H & _)|[_ I]]; [now destruct b|exact I].
  - change (collect ((k1, x1) :: l) m) with (collect l (map_set k1 x1 m)).
    rewrite IH by now apply map_set_nodup. rewrite map_set_in by assumption. cbn [map fst In]. split.
    + intros [(b & a & -> & NI)|[NI [[-> ->]|[NE I]]]].
      * left. now exists ((k1, x1) :: b), a.
      * left. now exists [], l.
      * right. split; [|exact I]. intros [H|H]; [congruence|contradiction].
    + intros [(b & a & H & NI)|[NI I]].
      * destruct b as [|y b].
        -- cbn [app] in H. inversion H; subst. right. auto.
        -- cbn [app] in H. inversion H; subst. left. now exists b, a.
      * right. split; [tauto|]. right. split; [|exact I]. intros ->. tauto.
Qed.

Definition pair_of (e : listed) : rval * rval := (key e, value e).
Lemma listed_pairs E kt vt es : Forall (listed_in E kt vt) es ->
  exists F, forall fuel, (F <= fuel)%nat -> forall acc,
    reads (get_pairs (decode fuel E chain_decoder Whole kt (zero E kt)) (decode fuel E chain_decoder Whole vt (zero E vt))
             (length es) acc) (listing es) (collect (map pair_of es) acc).
Proof.
  induction 1 as [|e es [[F1 H1] [F2 H2]] _ [F3 H3]].
  - exists O. intros fuel _ acc. apply reads_ret.
  - exists (Nat.max F1 (Nat.max F2 F3)). intros fuel Hf acc. unfold listing. cbn [map concat length get_pairs].
    rewrite <- app_assoc.
    eapply reads_dbind; [apply H1; lia|]. cbv beta iota. eapply reads_dbind; [apply H2; lia|]. cbv beta iota.
    change (collect (pair_of e :: map pair_of es) acc) with (collect (map pair_of es) (map_set (key e) (value e) acc)).
    apply H3. lia.
Qed.
Lemma listed_map E t kt vt es pre : head E t = TMap kt vt -> zlen es < 2 ^ 28 -> varu (zlen es) pre ->
  Forall (listed_in E kt vt) es ->
  decodes_whatever_follows E t (pre ++ listing es) (RMap (Some (collect (map pair_of es) []))).
Proof.
  intros H SH V S. destruct (listed_pairs _ _ _ _ S) as [F HF]. unfold decodes_whatever_follows, Decode.
  change (exists F0, forall fuel, (F0 <= fuel)%nat -> reads (get fuel E Target t (zero E t))
    (pre ++ listing es) (RMap (Some (collect (map pair_of es) [])))).
  by_deref (Datatypes.S F). intros [|fuel] Hf; [lia|].
  replace (zero E t) with (RMap None) by (unfold zero; now rewrite H). cbn [decode]. rewrite H.
  eapply rd_bind0; [|apply reads_ret]. unfold get_map.
  pose proof (zlen_nonneg es). destruct (varu_ok (zlen es) pre ltac:(lia) V) as [_ RV].
  eapply reads_dbind; [exact RV|]. cbv beta iota. rewrite i64_len by lia. unfold zlen at 1. rewrite Nat2Z.id.
  eapply rd_bind0; [|apply reads_ret]. apply (HF fuel ltac:(lia) []).
Qed.
Lemma last_pair es k x :
  (exists before after, map pair_of es = before ++ (k, x) :: after /\ ~ In k (map fst after)) <-> last_listed es k x.
Proof.
  assert (K : forall l, map fst (map pair_of l) = map key l) by (intros l; now rewrite map_map).
  split.
  - intros (b & a & H & NI). apply map_eq_app in H as (b' & r & -> & <- & H).
    destruct r as [|e a']; [discriminate|]. cbn [map] in H. unfold pair_of at 1 in H. inversion H; subst. rewrite K in NI. now exists b', e, a'.
  - intros (b & e & a & -> & <- & <- & NI). exists (map pair_of b), (map pair_of a). rewrite map_app, K. now split.
Qed.
Lemma repeated_keys E t kt vt es pre : head E t = TMap kt vt -> zlen es < 2 ^ 28 -> varu (zlen es) pre ->
  Forall (listed_in E kt vt) es ->
  exists m, decodes_whatever_follows E t (pre ++ listing es) (RMap (Some m)) /\ NoDup (map fst m)
    /\ forall k x, In (k, x) m <-> last_listed es k x.
Proof.
  intros H SH V S. exists (collect (map pair_of es) []). split; [now apply listed_map with kt vt|].
  split; [apply collect_nodup; constructor|]. intros k x. rewrite collect_in by constructor. rewrite last_pair.
  split; [intros [L|[_ []]]; exact L|auto].
Qed.
