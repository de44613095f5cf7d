(** C72: streams of values. *)
From Verif Require Import Base Prog SpecWire BaseProofs ProgProofs AbiPrim Chain SpecChain ChainProofs Values Leaf SpecLeaf AbiDyn SpecAbi Reflect SpecReflect SpecStrict SpecStream.
From Verif Require Import AbiResolveProofs AbiTermProofs AbiStrictProofs AbiApiProofs ReflectStrict ReflectProofs DecodedProofs AbiSample PropReflect PropStrict PropAbi.

Lemma record_back E r fuel out full : proper E r -> (forall f, (fuel <= f)%nat -> runw (write_record f E r) out = WDone None full) ->
  exists bs x, full = out ++ bs /\ restored r x
    /\ forall env rest, exists F, forall f, (F <= f)%nat -> run env (read_record f E (format_of r)) (bs ++ rest) = Done (x, None) rest.
Proof.
  destruct r as [t v|a n v]; cbn [proper write_record format_of read_record]; intros [P W] R.
  - destruct (C40_roundtrip E t v out full P W (R fuel (le_n _))) as (bs & v' & A & S & F & D).
    exists bs, (TypedItem v'). split; [exact A|]. split; [exact S|]. intros env rest. exists F. intros f L.
    rewrite run_dbind, D by exact L. reflexivity.
  - destruct (C45_roundtrip a n v out full P W) as (bs & v' & A & _ & S & D).
    { split; [discriminate|]. exists fuel. exact R. }
    exists bs, (DynamicItem v'). split; [exact A|]. split; [exact S|]. intros env rest.
    destruct (D env rest) as [_ [F H]]. exists F. intros f L. rewrite run_dbind, H by exact L. reflexivity.
Qed.
Lemma written_step E r rs out full : stream_written E (r :: rs) out full ->
  exists fuel mid, (forall f, (fuel <= f)%nat -> runw (write_record f E r) out = WDone None mid) /\ stream_written E rs mid full.
Proof.
  intros [F H]. cbn [write_stream] in H.
  assert (X : forall f, (F <= f)%nat -> exists mid, runw (write_record f E r) out = WDone None mid /\ runw (write_stream f E rs) mid = WDone None full).
  { intros f L. specialize (H f L). unfold etry in H. rewrite runw_ebind in H.
    destruct (runw (write_record f E r) out) as [[e|] mid|m o|]; try discriminate H. eauto. }
  assert (Y : forall f g, (F <= f)%nat -> (f <= g)%nat -> runw (write_record g E r) out = runw (write_record f E r) out).
  { intros f g L M. destruct r as [t v|a n v]; cbn [write_record]; [reflexivity|].
    apply C47_budget_irrelevant; [exact M|]. destruct (X f L) as (mid & R & _). cbn [write_record] in R. rewrite R. discriminate. }
  destruct (X F (le_n _)) as (mid & R & _). exists F, mid.
  assert (Z : forall f, (F <= f)%nat -> runw (write_record f E r) out = WDone None mid) by (intros f L; rewrite (Y F f); auto).
  split; [exact Z|]. exists F. intros f L. destruct (X f L) as (mid' & R' & S). rewrite Z in R' by exact L. now injection R' as <-.
Qed.
(** One record after the other: the bytes of each, what each is read as. *)
Definition reads_back (E : types) (f : format) (bs : list byte) (x : item) : Prop :=
  forall env rest, exists F, forall fuel, (F <= fuel)%nat -> run env (read_record fuel E f) (bs ++ rest) = Done (x, None) rest.
Inductive sections (E : types) : list record -> list (list byte) -> list item -> Prop :=
| sec_nil : sections E [] [] []
| sec_cons r rs bs bss x xs : restored r x -> reads_back E (format_of r) bs x -> sections E rs bss xs ->
    sections E (r :: rs) (bs :: bss) (x :: xs).
Lemma stream_sections E rs : forall out full, Forall (proper E) rs -> stream_written E rs out full ->
  exists bss xs, full = out ++ concat bss /\ sections E rs bss xs.
Proof.
  induction rs as [|r rs IH]; intros out full P W.
  - destruct W as [F W]. specialize (W F (le_n _)). injection W as <-. exists [], []. split; [now rewrite app_nil_r|constructor].
  - inversion_clear P as [|? ? P1 P2]. destruct (written_step _ _ _ _ _ W) as (fuel & mid & R & S).
    destruct (record_back E r fuel out mid P1 R) as (bs & x & -> & A & D).
    destruct (IH _ _ P2 S) as (bss & xs & -> & Q). exists (bs :: bss), (x :: xs).
    split; [cbn [concat]; now rewrite app_assoc|]. now constructor.
Qed.
Lemma sections_restored E rs bss xs : sections E rs bss xs -> Forall2 restored rs xs /\ length bss = length rs.
Proof. intros S. induction S as [|? ? ? ? ? ? ? ? ? [IH1 IH2]]; [split; [constructor|reflexivity]|]. split; [now constructor|cbn [length]; now rewrite IH2]. Qed.
Lemma sections_read E rs bss xs : sections E rs bss xs -> forall env rest, exists F, forall fuel, (F <= fuel)%nat ->
  run env (read_stream fuel E (map format_of rs)) (concat bss ++ rest) = Done (xs, None) rest.
Proof.
  intros S env rest. induction S as [|r rs bs bss x xs A D S [F2 IH]]; [exists O; reflexivity|].
  destruct (D env (concat bss ++ rest)) as [F1 D1]. exists (F1 + F2)%nat. intros fuel L.
  cbn [map read_stream concat]. rewrite <- app_assoc, run_dbind, D1 by lia. rewrite run_dbind, IH by lia. reflexivity.
Qed.

(** Values of any types and any schemas, written one after the other with one
    encoder, are read back one after the other with one decoder, and what follows
    the last is left unread. *)
Theorem C72_roundtrip E rs out full : Forall (proper E) rs -> stream_written E rs out full ->
  exists bs xs, full = out ++ bs /\ Forall2 restored rs xs /\
    forall env rest, exists F, forall fuel, (F <= fuel)%nat ->
      run env (read_stream fuel E (map format_of rs)) (bs ++ rest) = Done (xs, None) rest.
Proof.
  intros P W. destruct (stream_sections E rs out full P W) as (bss & xs & A & S).
  exists (concat bss), xs. split; [exact A|]. split; [exact (proj1 (sections_restored _ _ _ _ S))|]. exact (sections_read _ _ _ _ S).
Qed.
Print Assumptions C72_roundtrip.

Lemma record_truncation E f fuel : delimited E f -> truncation_safe (read_record fuel E f).
Proof.
  intros D. assert (T : forall A (g : A -> item) (p : io A), truncation_safe p ->
    truncation_safe ('(v, e) <-- p ;; DRet (g v, e))).
  { intros A g p TS env env' inp v rest R. rewrite run_dbind in R. destruct (run env p inp) as [[a o] r|m|] eqn:Q; try discriminate R.
    cbn [run] in R. injection R as <- -> <-. destruct (TS env env' inp a r Q) as (used & U & V & X). exists used. split; [exact U|]. split.
    - intros rest'. rewrite run_dbind, V. reflexivity.
    - intros q s Eq NS. destruct (X q s Eq NS) as (v' & e & Y). exists (g v'), e. rewrite run_dbind, Y. reflexivity. }
  destruct f as [t|a n]; cbn [delimited read_record] in *; apply T; [now apply C60_truncation|now apply C58_truncation].
Qed.
Lemma record_cut E f bs x env q s : delimited E f -> reads_back E f bs x -> bs = q ++ s -> s <> [] ->
  exists F, forall fuel, (F <= fuel)%nat -> exists y e, run env (read_record fuel E f) q = Done (y, Some e) [].
Proof.
  intros D R Eq NS. destruct (R env []) as [F H]. exists F. intros fuel L. specialize (H fuel L).
  destruct (record_truncation E f fuel D env env _ _ _ H) as (used & U & _ & X). rewrite !app_nil_r in U. subst used.
  exact (X q s Eq NS).
Qed.
Lemma app_split {A} (x y q s : list A) : x ++ y = q ++ s ->
  (exists m, q = x ++ m /\ y = m ++ s) \/ (exists m, x = q ++ m /\ m <> [] /\ s = m ++ y).
Proof.
  revert q. induction x as [|a x IH]; intros q H; cbn [app] in H.
  - left. exists q. split; [reflexivity|exact H].
  - destruct q as [|b q]; cbn [app] in H.
    + right. exists (a :: x). split; [reflexivity|]. split; [discriminate|]. symmetry. exact H.
    + injection H as <- H. destruct (IH q H) as [(m & -> & ->)|(m & -> & N & ->)].
      * left. exists m. now split.
      * right. exists m. now split.
Qed.
Lemma sections_cut E rs bss xs : sections E rs bss xs -> Forall (delimited E) (map format_of rs) ->
  forall env q s, concat bss = q ++ s -> s <> [] ->
      exists k F, (length (concat (firstn k bss)) <= length q < length (concat (firstn (S k) bss)))%nat
        /\ forall fuel, (F <= fuel)%nat ->
             exists e, run env (read_stream fuel E (map format_of rs)) q = Done (firstn k xs, Some e) [].
Proof.
  intros S D env. induction S as [|r rs bs bss x xs R B S IH]; intros q s Eq NS.
  - destruct q, s; try discriminate Eq. congruence.
  - cbn [map] in D. inversion_clear D as [|? ? D1 D2]. cbn [concat] in Eq. destruct (app_split _ _ _ _ Eq) as [(m & -> & E2)|(m & E1 & NM & ->)].
    + destruct (IH D2 m s E2 NS) as (k & F2 & L & H). destruct (B env m) as [F1 H1]. exists (Datatypes.S k), (F1 + F2)%nat. split.
      { destruct bss as [|b bss]; [destruct m, s; try discriminate E2; congruence|].
        cbn [firstn concat] in *. rewrite !app_length in *. lia. }
      intros fuel LF. destruct (H fuel ltac:(lia)) as [e HE]. exists e. cbn [map read_stream]. rewrite run_dbind, H1 by lia.
      rewrite run_dbind, HE. reflexivity.
    + destruct (record_cut E _ bs x env q m D1 B E1 NM) as [F H]. exists O, F. split.
      { cbn [firstn concat]. rewrite app_nil_r, E1, app_length. destruct m; [congruence|]. cbn [length]. lia. }
      intros fuel LF. destruct (H fuel LF) as (y & e & HE). exists e. cbn [map read_stream]. rewrite run_dbind, HE. reflexivity.
Qed.
(** Wherever a stream is cut (a writer that failed, a connection that broke, a file
    not yet complete), reading what is there gives the records that are completely
    there, in order and unchanged, and then an error: never a value made of pieces. *)
Theorem C72_cut E rs out full : Forall (proper E) rs -> Forall (delimited E) (map format_of rs) -> stream_written E rs out full ->
  exists bss xs, full = out ++ concat bss /\ Forall2 restored rs xs /\ length bss = length rs /\
    forall env q s, concat bss = q ++ s -> s <> [] ->
      exists k F, (length (concat (firstn k bss)) <= length q < length (concat (firstn (S k) bss)))%nat
        /\ forall fuel, (F <= fuel)%nat ->
             exists e, run env (read_stream fuel E (map format_of rs)) q = Done (firstn k xs, Some e) [].
Proof.
  intros P D W. destruct (stream_sections E rs out full P W) as (bss & xs & A & S).
  exists bss, xs. split; [exact A|]. destruct (sections_restored _ _ _ _ S) as [S1 S2]. split; [exact S1|]. split; [exact S2|].
  exact (sections_cut _ _ _ _ S D).
Qed.
Print Assumptions C72_cut.

Lemma record_wstrict E r fuel : proper E r -> checked E (format_of r) -> done (write_record fuel E r) -> WStrict (write_record fuel E r).
Proof.
  destruct r as [t v|a n v]; cbn [proper checked format_of write_record]; intros [P1 P2] C D.
  - destruct C as [C1 C2]. apply Encode_wstrict; auto. eapply has_type_weaken; [|exact P2]. intros p [P _]. exact P.
  - destruct (resolve_outcome a n) as [(tbl & _ & _ & _ & W)|(_ & m & R & M)].
    + destruct (resolved a n W) as (tbl' & _ & T & _ & EE). rewrite EE. apply (encodeType_wstrict a n tbl' T C fuel n v (reach_refl _ _)).
    + destruct (unresolved a n m R M) as (s & _ & _ & EE). rewrite EE. constructor.
Qed.
Lemma stream_wstrict E rs fuel : Forall (proper E) rs -> Forall (checked E) (map format_of rs) -> done (write_stream fuel E rs) -> WStrict (write_stream fuel E rs).
Proof.
  induction rs as [|r rs IH]; intros P C D; cbn [write_stream]; [constructor|].
  cbn [map] in C. inversion_clear P as [|? ? P1 P2]. inversion_clear C as [|? ? C1 C2]. cbn [write_stream] in D.
  apply done_etry in D as [D1 D2]. apply wstrict_etry; [now apply record_wstrict|now apply IH].
Qed.
(** A writer that breaks down at any moment: writing does not panic, a nil error means
    that everything has arrived, and whatever has arrived reads as a number of whole
    records, followed by an error unless it is all of them. *)
Theorem C72_crash E rs full o : Forall (proper E) rs -> Forall (delimited E) (map format_of rs) -> Forall (checked E) (map format_of rs) ->
  stream_written E rs [] full -> sticky o ->
  exists xs F, Forall2 restored rs xs /\ forall fuel, (F <= fuel)%nat ->
    exists r got, runf o 0 (write_stream fuel E rs) [] = WDone r got /\ (r = None -> got = full)
      /\ forall env, exists k F', forall fuel', (F' <= fuel')%nat ->
           exists e, run env (read_stream fuel' E (map format_of rs)) got = Done (firstn k xs, e) []
             /\ (e = None <-> got = full) /\ (got = full -> firstn k xs = xs).
Proof.
  intros P D C W So. destruct (stream_sections E rs [] full P W) as (bss & xs & A & S). cbn [app] in A. subst full.
  destruct W as [F W]. exists xs, F. split; [exact (proj1 (sections_restored _ _ _ _ S))|]. intros fuel L. specialize (W fuel L).
  destruct (wstrict_faults _ (stream_wstrict E rs fuel P C ltac:(now exists [], (concat bss))) o _ So W) as (r & got & R & [s PX] & N).
  exists r, got. split; [exact R|]. split; [exact N|]. intros env. destruct s as [|b s].
  - rewrite app_nil_r in PX. subst got. exists (length xs). destruct (sections_read _ _ _ _ S env []) as [F' H]. exists F'. intros f' L'.
    exists None. specialize (H f' L'). rewrite app_nil_r in H. rewrite firstn_all. split; [exact H|]. split; [tauto|auto].
  - destruct (sections_cut _ _ _ _ S D env got (b :: s) PX ltac:(discriminate)) as (k & F' & _ & H). exists k, F'. intros f' L'.
    destruct (H f' L') as [e He]. exists (Some e). split; [exact He|].
    assert (NG : got <> concat bss) by (rewrite PX; intros Q; apply (f_equal (@length _)) in Q; rewrite app_length in Q; cbn [length] in Q; lia).
    split; [split; [discriminate|]|]; intros Q; now elim NG.
Qed.
Print Assumptions C72_crash.

(** The usual loop over records of one format ends by itself, with every record, if
    the format does not read something out of nothing. *)
Theorem C72_loop E f rs out full : Forall (proper E) rs -> Forall (fun r => format_of r = f) rs -> rs <> [] -> delimited E f ->
  (forall env fuel x, run env (read_record fuel E f) [] <> Done (x, None) []) -> stream_written E rs out full ->
  exists bs xs, full = out ++ bs /\ Forall2 restored rs xs /\
    forall env, exists F, forall n fuel, (length rs < n)%nat -> (F <= fuel)%nat ->
      exists e, run env (read_until_error n fuel E f) bs = Done (xs, Some e) [].
Proof.
  intros P Q NR D NE W. destruct (stream_sections E rs out full P W) as (bss & xs & A & S).
  exists (concat bss), xs. split; [exact A|]. split; [exact (proj1 (sections_restored _ _ _ _ S))|]. clear P W A out full.
  intros env.
  assert (Z : exists F, forall fuel, (F <= fuel)%nat -> exists y e, run env (read_record fuel E f) [] = Done (y, Some e) []).
  { destruct S as [|r rs bs bss x xs R B S]; [congruence|]. inversion_clear Q as [|? ? Q1 _]. subst f.
    destruct bs as [|b bs].
    - destruct (B env []) as [F H]. specialize (H F (le_n _)). now apply NE in H.
    - exact (record_cut E _ (b :: bs) x env [] (b :: bs) D B eq_refl ltac:(discriminate)). }
  destruct Z as [FZ Z]. clear NR. induction S as [|r rs bs bss x xs R B S IH].
  - exists FZ. intros [|n] fuel L LF; [inversion L|]. destruct (Z fuel LF) as (y & e & H). exists e. cbn [concat read_until_error].
    rewrite run_dbind, H. reflexivity.
  - inversion_clear Q as [|? ? Q1 Q2]. destruct (IH Q2) as [F2 H2]. destruct (B env (concat bss)) as [F1 H1]. exists (F1 + F2)%nat.
    intros [|n] fuel L LF; [inversion L|]. cbn [length] in L. destruct (H2 n fuel ltac:(lia) ltac:(lia)) as [e H]. exists e.
    cbn [concat read_until_error]. rewrite Q1 in H1. rewrite run_dbind, H1 by lia. rewrite run_dbind, H. reflexivity.
Qed.
Print Assumptions C72_loop.

(** Two records in one stream, one by type and one by schema; the hypotheses are met. *)
Definition pair_type : gtype := TStruct [(NoTag, Exported, TLeaf KU8); (NoTag, Exported, TLeaf KU8)].
Definition pair_value (a b : Z) : rval := RStruct [RLeaf (PU8 a) false; RLeaf (PU8 b) false].
Lemma pair_typed E a b : in_u 8 a -> in_u 8 b -> a <> 0 -> b <> 0 -> has_type E sound_leaf pair_type (pair_value a b).
Proof.
  intros HA HB NA NB. assert (L : forall x, in_u 8 x -> x <> 0 -> has_type E sound_leaf (TLeaf KU8) (RLeaf (PU8 x) false)).
  { intros x HX NX. eapply ht_leaf; [reflexivity|reflexivity|split; [|intros _]|split; [exact HX|exact I]].
    - discriminate.
    - symmetry. cbn. now apply Z.eqb_neq. }
  eapply ht_struct; [reflexivity|]. constructor; [now apply L|]. constructor; [now apply L|constructor].
Qed.
Lemma pair_closed E : forall a b, within E a b -> In a [(Target, pair_type); (Slot, TLeaf KU8)] -> In b [(Target, pair_type); (Slot, TLeaf KU8)].
Proof.
  induction 1 as [a|a b c P W IH]; [auto|]. intros I. apply IH. clear c W IH. cbn [In] in I.
  repeat (destruct I as [<-|I]); try contradiction; inversion P; subst; try discriminate;
    repeat match goal with
    | H : head _ _ = _ |- _ => cbn in H; injection H as; subst
    | H : In _ [] |- _ => destruct H
    | H : In _ (_ :: _) |- _ => destruct H as [H|H]; [injection H as; subst|]
    end; cbn; tauto.
Qed.
Lemma pair_plain E : supported E pair_type /\ delimited E (OfType pair_type) /\ checked E (OfType pair_type).
Proof.
  assert (T : tags_within (fun tg => tg = NoTag) E pair_type).
  { intros pl t fs tg vis u W H I. apply pair_closed in W; [|now left]. cbn [In] in W.
    destruct W as [W|[W|[]]]; injection W as <- <-; [|discriminate H]. injection H as <-. cbn [In] in I.
    destruct I as [I|[I|[]]]; injection I as; now subst. }
  split; [now apply plain_supported|]. repeat split; try (apply no_methods_within; now apply plain_no_methods);
    intros pl t fs tg vis u W H I; rewrite (T pl t fs tg vis u W H I); discriminate.
Qed.
Example C72_ex E : let rs := [Dynamic sample (str "transfer") sample_value; Typed pair_type (pair_value 1 2)] in
  Forall (proper E) rs /\ stream_written E rs [] (sample_bytes ++ [x01; x02]).
Proof.
  cbv zeta. split.
  - constructor; [split; [apply C45_ex|exact sample_wf]|]. constructor; [|constructor].
    split; [apply pair_plain|apply pair_typed; unfold in_u; lia].
  - destruct sample_encodes as [_ [F H]]. exists F. intros fuel L. cbn [write_stream write_record]. unfold etry.
    rewrite runw_ebind, H by exact L. vm_compute. reflexivity.
Qed.
Example C72_ex_cut E : let rs := [Typed pair_type (pair_value 1 2); Typed pair_type (pair_value 3 4)] in
  Forall (proper E) rs /\ Forall (delimited E) (map format_of rs) /\ Forall (checked E) (map format_of rs) /\ Forall (fun r => format_of r = OfType pair_type) rs
  /\ stream_written E rs [] [x01; x02; x03; x04]
  /\ (forall env fuel x, run env (read_record fuel E (OfType pair_type)) [] <> Done (x, None) []).
Proof.
  cbv zeta. split; [|split; [|split; [|split; [|split]]]].
  - constructor; [|constructor; [|constructor]]; (split; [apply pair_plain|apply pair_typed; unfold in_u; lia]).
  - constructor; [|constructor; [|constructor]]; apply pair_plain.
  - constructor; [|constructor; [|constructor]]; apply pair_plain.
  - repeat constructor.
  - exists O. intros fuel _. reflexivity.
  - intros env [|[|[|fuel]]] x; discriminate.
Qed.

(** io.EOF does not tell a stream that is complete from one that was cut inside a
    record: the loop gives the same values and the same error for both. *)
Theorem C72_eof_refuted E : let env := {| r_end := EOF; r_strict := true |} in let f := OfType pair_type in
  stream_written E [Typed pair_type (pair_value 1 2)] [] [x01; x02]
  /\ stream_written E [Typed pair_type (pair_value 1 2); Typed pair_type (pair_value 3 4)] [] [x01; x02; x03; x04]
  /\ forall n, (2 <= n)%nat ->
     run env (read_until_error n 5 E f) [x01; x02] = Done ([TypedItem (pair_value 1 2)], Some EOF) []
     /\ run env (read_until_error n 5 E f) [x01; x02; x03] = Done ([TypedItem (pair_value 1 2)], Some EOF) [].
Proof.
  cbv zeta. split; [exists O; intros fuel _; reflexivity|]. split; [exists O; intros fuel _; reflexivity|].
  intros [|[|n]] L; [lia|lia|]. split; reflexivity.
Qed.
Print Assumptions C72_eof_refuted.
