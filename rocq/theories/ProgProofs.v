(** General theorems about every decoder and encoder program. *)
From Verif Require Import Base BaseProofs Prog SpecWire.

(** ** Composition *)

Lemma run_dbind {A B} v (p : dec A) (f : A -> dec B) : forall inp,
  run v (dbind p f) inp =
  match run v p inp with
  | Done a rest => run v (f a) rest
  | Crash m => Crash m
  | Diverged => Diverged
  end.
Proof.
  induction p as [a|m| |n k IH|k IH]; intros inp; cbn [dbind run]; try reflexivity.
  - destruct (n <=? zlen inp); apply IH.
  - apply IH.
Qed.

Lemma runw_ebind {A B} (p : enc A) (f : A -> enc B) : forall out,
  runw (ebind p f) out =
  match runw p out with
  | WDone a out' => runw (f a) out'
  | WCrash m out' => WCrash m out'
  | WDiverged => WDiverged
  end.
Proof.
  induction p as [a|m| |bs k IH]; intros out; cbn [ebind runw]; try reflexivity.
  apply IH.
Qed.

Lemma run_dtry {A B} v (d : B) (p : io A) (f : A -> io B) inp :
  run v (dtry d p f) inp =
  match run v p inp with
  | Done (a, None) rest => run v (f a) rest
  | Done (_, Some e) rest => Done (d, Some e) rest
  | Crash m => Crash m
  | Diverged => Diverged
  end.
Proof.
  unfold dtry. rewrite run_dbind.
  destruct (run v p inp) as [[a [e|]] r|m|]; reflexivity.
Qed.

(** ** reads / writes *)

Lemma writes_ret : writes (ERet None) [].
Proof. intros out. cbn. now rewrite app_nil_r. Qed.

Lemma writes_etry p q a b : writes p a -> writes q b -> writes (etry p q) (a ++ b).
Proof.
  intros Hp Hq out. unfold etry. rewrite runw_ebind, Hp, Hq, app_assoc. reflexivity.
Qed.

Lemma writes_ebind p (f : option gerr -> wr) a b :
  writes p a -> writes (f None) b -> writes (ebind p f) (a ++ b).
Proof.
  intros Hp Hq out. rewrite runw_ebind, Hp, Hq, app_assoc. reflexivity.
Qed.

Lemma writes_det p a b : writes p a -> writes p b -> a = b.
Proof.
  intros Ha Hb. specialize (Ha []). specialize (Hb []). rewrite Ha in Hb.
  now injection Hb as E.
Qed.

Lemma reads_ret {A} (a : A) : reads (DRet (a, None)) [] a.
Proof. intros env rest. reflexivity. Qed.

Lemma reads_dtry {A B} (d : B) (p : io A) (f : A -> io B) a bs bs' b :
  reads p bs a -> reads (f a) bs' b -> reads (dtry d p f) (bs ++ bs') b.
Proof.
  intros Hp Hf env rest. rewrite run_dtry, <- app_assoc, Hp. apply Hf.
Qed.

Lemma reads_dbind {A B} (p : io A) (f : A * option gerr -> io B) a bs bs' b :
  reads p bs a -> reads (f (a, None)) bs' b -> reads (dbind p f) (bs ++ bs') b.
Proof.
  intros Hp Hf env rest. rewrite run_dbind, <- app_assoc, Hp. apply Hf.
Qed.

(** ** Fragmentation *)

Lemma readfull_spec e : forall cs data n got, delivers e cs data ->
  (n <= length data /\
     exists cs', readfull e n got cs = (got ++ firstn n data, None, cs')
                 /\ delivers e cs' (skipn n data))%nat
  \/ (length data < n /\
     exists cs', readfull e n got cs = (got ++ data, Some (short_err (got ++ data) e), cs')
                 /\ delivers e cs' [])%nat.
Proof.
  intros cs data n got H. revert n got.
  induction H as [|d|d cs data H IH]; intros n got.
  - destruct n; cbn [readfull length]; [left|right].
    + split; [lia|]. exists []. rewrite app_nil_r. split; [reflexivity|constructor].
    + split; [lia|]. exists []. rewrite app_nil_r. split; [reflexivity|constructor].
  - destruct n as [|n]; cbn [readfull c_data c_err].
    { left. split; [lia|]. eexists. rewrite app_nil_r. split; [reflexivity|]. constructor. }
    destruct (Nat.ltb_spec (S n) (length d)).
    { left. split; [lia|]. eexists. split; [reflexivity|]. constructor. }
    destruct (S n - length d)%nat eqn:E.
    + left. assert (length d = S n) by lia. split; [lia|]. eexists. split.
      * rewrite firstn_all2 by lia. reflexivity.
      * rewrite skipn_all2 by lia. constructor.
    + right. split; [lia|]. eexists. split; [reflexivity|constructor].
  - destruct n as [|n]; cbn [readfull c_data c_err].
    { left. split; [lia|]. eexists. rewrite app_nil_r. split; [reflexivity|]. now constructor. }
    destruct (Nat.ltb_spec (S n) (length d)).
    { left. rewrite app_length. split; [lia|]. eexists. split.
      - rewrite firstn_app. replace (S n - length d)%nat with 0%nat by lia.
        rewrite firstn_O, app_nil_r. reflexivity.
      - rewrite skipn_app. replace (S n - length d)%nat with 0%nat by lia.
        rewrite skipn_O. now constructor. }
    destruct (S n - length d)%nat eqn:E.
    + left. assert (length d = S n) by lia. rewrite app_length. split; [lia|]. eexists. split.
      * rewrite firstn_app, E, firstn_O, app_nil_r, firstn_all2 by lia. reflexivity.
      * rewrite skipn_app, E, skipn_O, skipn_all2 by lia. exact H.
    + rewrite app_length. destruct (IH (S n0) (got ++ d)) as [[L [cs' [R D]]]|[L [cs' [R D]]]].
      * left. split; [lia|]. exists cs'. rewrite R. split.
        -- rewrite firstn_app, E, (firstn_all2 d) by lia. now rewrite app_assoc.
        -- rewrite skipn_app, E, (skipn_all2 d) by lia. exact D.
      * right. split; [lia|]. exists cs'. rewrite R. rewrite <- app_assoc. split; [reflexivity|exact D].
Qed.

Lemma fragmentation {A} v (p : dec A) : forall cs data,
  delivers (r_end v) cs data ->
  same_outcome (r_end v) (run v p data) (run_chunks v p cs).
Proof.
  induction p as [a|m| |n k IH|k IH]; intros cs data H; cbn [run run_chunks].
  - exists cs. auto.
  - reflexivity.
  - reflexivity.
  - destruct (readfull_spec (r_end v) cs data (Z.to_nat n) [] H)
      as [[L [cs' [R D]]]|[L [cs' [R D]]]]; rewrite R.
    + destruct (Z.leb_spec n (zlen data)); [|unfold zlen in *; lia].
      apply IH. exact D.
    + destruct (Z.leb_spec n (zlen data)); [unfold zlen in *; lia|].
      apply IH. exact D.
  - apply IH. exact H.
Qed.

(** ** Truncation *)

Lemma failing_bind {A B} (Q : A -> Prop) (Q' : B -> Prop) p (f : A -> dec B) :
  Failing Q p -> (forall a, Q a -> Failing Q' (f a)) -> Failing Q' (dbind p f).
Proof.
  intros H Hf. induction H; cbn [dbind]; auto; constructor; auto.
Qed.

Lemma strict_bind {A B} (Q : A -> Prop) (Q' : B -> Prop) p (f : A -> dec B) :
  Strict Q p -> (forall a, Strict Q' (f a)) -> (forall a, Q a -> Failing Q' (f a)) ->
  Strict Q' (dbind p f).
Proof.
  intros H Hs Hf. induction H; cbn [dbind]; auto; constructor; auto.
  intros got e L. eapply failing_bind; eauto.
Qed.


Lemma strict_dtry {A B} (d : B) (p : io A) (f : A -> io B) :
  IoStrict p -> (forall a, IoStrict (f a)) -> IoStrict (dtry d p f).
Proof.
  intros Hp Hf. unfold dtry. eapply strict_bind; [exact Hp| |].
  - intros [a [e|]]; [constructor|apply Hf].
  - intros [a [e|]] He; [|now elim He]. constructor. unfold errs; cbn; congruence.
Qed.

Lemma failing_dtry {A B} (d : B) (p : io A) (f : A -> io B) :
  IoFailing p -> IoFailing (dtry d p f).
Proof.
  intros Hp. unfold dtry. eapply failing_bind; [exact Hp|].
  intros [a [e|]] He; [|now elim He]. constructor. unfold errs; cbn; congruence.
Qed.

Lemma failing_run {A} (Q : A -> Prop) v p :
  Failing Q p -> exists a, run v p [] = Done a [] /\ Q a.
Proof.
  intros H. induction H as [a Ha|n k Hn Hk IH|k Hk IH]; cbn [run].
  - eauto.
  - destruct (Z.leb_spec n (zlen (@nil byte))); [unfold zlen in *; cbn in *; lia|].
    apply IH.
  - apply IH.
Qed.

(** What a strict program does with a proper prefix of what it consumed. *)
Lemma strict_run {A} (Q : A -> Prop) v v' p : Strict Q p ->
  forall inp a rest, run v p inp = Done a rest -> ~ Q a ->
  exists pre, inp = pre ++ rest
    /\ (forall rest', run v' p (pre ++ rest') = Done a rest')
    /\ (forall q s, pre = q ++ s -> s <> [] ->
         exists a', run v' p q = Done a' [] /\ Q a').
Proof.
  intros H. induction H as [a0|m| |n k Hn Hk IH Hf]; intros inp a rest R NQ; cbn [run] in *.
  - inversion R; subst. exists []. split; [reflexivity|]. split; [reflexivity|].
    intros q s E N. destruct q, s; cbn in E; congruence.
  - discriminate.
  - discriminate.
  - destruct (Z.leb_spec n (zlen inp)) as [L|L].
    + assert (Lf : zlen (firstn (Z.to_nat n) inp) = n)
        by (unfold zlen in *; rewrite firstn_length; lia).
      destruct (IH _ Lf _ _ _ R NQ) as [pre [E [G T]]].
      exists (firstn (Z.to_nat n) inp ++ pre). split.
      { rewrite <- app_assoc, <- E. now rewrite firstn_skipn. }
      assert (Ln : length (firstn (Z.to_nat n) inp) = Z.to_nat n) by (unfold zlen in *; lia).
      split.
      * intros rest'. rewrite <- app_assoc.
        destruct (Z.leb_spec n (zlen (firstn (Z.to_nat n) inp ++ pre ++ rest'))) as [_|C];
          [|rewrite zlen_app in C; pose proof (zlen_nonneg (pre ++ rest')); lia].
        rewrite firstn_app, skipn_app, Ln, Nat.sub_diag, firstn_O, skipn_O, app_nil_r.
        rewrite (firstn_all2 (firstn _ _)), (skipn_all2 (firstn _ _)) by lia. apply G.
      * intros q s Eq Ns. destruct (Z.leb_spec n (zlen q)) as [Lq|Lq].
        -- assert (Eq1 : firstn (Z.to_nat n) q = firstn (Z.to_nat n) inp).
           { apply (f_equal (firstn (Z.to_nat n))) in Eq. rewrite !firstn_app, Ln in Eq.
             rewrite Nat.sub_diag, firstn_O, app_nil_r in Eq.
             replace (Z.to_nat n - length q)%nat with 0%nat in Eq by (unfold zlen in *; lia).
             rewrite firstn_O, app_nil_r, (firstn_all2 (firstn _ _)) in Eq by lia. now symmetry. }
           rewrite Eq1. apply T with (s := s); [|exact Ns].
           apply (f_equal (skipn (Z.to_nat n))) in Eq. rewrite !skipn_app, Ln in Eq.
           rewrite Nat.sub_diag, skipn_O, (skipn_all2 (firstn _ _)) in Eq by lia.
           replace (Z.to_nat n - length q)%nat with 0%nat in Eq by (unfold zlen in *; lia).
           cbn [app] in Eq. rewrite skipn_O in Eq. exact Eq.
        -- apply failing_run. apply Hf. exact Lq.
    + exfalso. destruct (failing_run Q v _ (Hf inp (short_err inp (r_end v)) L)) as [a' [R' Q']].
      rewrite R in R'. inversion R'; subst. contradiction.
Qed.

Lemma strict_truncation {A} (p : io A) : IoStrict p -> truncation_safe p.
Proof.
  intros S env env' inp v rest R.
  assert (N : ~ @errs A (v, None)) by (unfold errs; cbn; congruence).
  destruct (strict_run _ env env' p S inp _ rest R N) as [pre [E [G T]]].
  exists pre. split; [exact E|]. split; [exact G|].
  intros q s Eq Ns. destruct (T q s Eq Ns) as [[v' [e|]] [R' Q']].
  - eauto.
  - now elim Q'.
Qed.

(** ** No panics *)
Inductive Calm {A} : dec A -> Prop :=
| C_ret a : Calm (DRet a)
| C_read n k : 1 <= n ->
    (forall bs, zlen bs = n -> Calm (k bs None)) ->
    (forall got e, zlen got < n -> Calm (k got (Some e))) ->
    Calm (DRead n k)
| C_go k : (forall b, Calm (k b)) -> Calm (DGo k).

Lemma calm_bind {A B} (p : dec A) (f : A -> dec B) :
  Calm p -> (forall a, Calm (f a)) -> Calm (dbind p f).
Proof. intros H Hf. induction H; cbn [dbind]; auto; constructor; auto. Qed.

Lemma calm_dtry {A B} (d : B) (p : io A) (f : A -> io B) :
  Calm p -> (forall a, Calm (f a)) -> Calm (dtry d p f).
Proof.
  intros H Hf. unfold dtry. apply calm_bind; [exact H|].
  intros [a [e|]]; [constructor|apply Hf].
Qed.

Lemma calm_run {A} v (p : dec A) : Calm p -> forall inp, exists a rest, run v p inp = Done a rest.
Proof.
  intros H. induction H as [a|n k Hn Hk IH Hf IHf|k Hk IH]; intros inp; cbn [run].
  - eauto.
  - destruct (Z.leb_spec n (zlen inp)) as [L|L].
    + apply IH. unfold zlen in *. rewrite firstn_length. lia.
    + apply IHf. exact L.
  - apply IH.
Qed.

(** ** Failing writers *)
Lemma efailing_bind {A B} (Q : A -> Prop) (Q' : B -> Prop) p (f : A -> enc B) :
  EFailing Q p -> (forall a, Q a -> EFailing Q' (f a)) -> EFailing Q' (ebind p f).
Proof. intros H Hf. induction H; cbn [ebind]; auto; constructor; auto. Qed.

Lemma estrict_bind {A B} (Q : A -> Prop) (Q' : B -> Prop) p (f : A -> enc B) :
  EStrict Q p -> (forall a, EStrict Q' (f a)) -> (forall a, Q a -> EFailing Q' (f a)) ->
  EStrict Q' (ebind p f).
Proof.
  intros H Hs Hf. induction H; cbn [ebind]; auto; constructor; auto.
  intros e. eapply efailing_bind; eauto.
Qed.

Lemma wstrict_etry p q : WStrict p -> WStrict q -> WStrict (etry p q).
Proof.
  intros Hp Hq. unfold etry. eapply estrict_bind; [exact Hp| |].
  - intros [e|]; [constructor|exact Hq].
  - intros [e|] He; [constructor; unfold werrs; congruence|now elim He].
Qed.

Lemma wfailing_etry p q : WFailing p -> WFailing (etry p q).
Proof.
  intros Hp. unfold etry. eapply efailing_bind; [exact Hp|].
  intros [e|] He; [constructor; unfold werrs; congruence|now elim He].
Qed.

Lemma efailing_runf {A} (Q : A -> Prop) o p : EFailing Q p -> forall i out,
  (forall j, (i <= j)%nat -> exists e, o j = Some (O, e)) ->
  exists a, runf o i p out = WDone a out /\ Q a.
Proof.
  intros H. induction H as [a Ha|bs k Hk IH]; intros i out Ho; cbn [runf].
  - eauto.
  - destruct (Ho i (le_n i)) as [e ->]. cbn [firstn]. rewrite app_nil_r.
    apply IH. intros j Hj. apply Ho. lia.
Qed.

Lemma runw_extends {A} (p : enc A) : forall out,
  match runw p out with
  | WDone _ o | WCrash _ o => prefix out o
  | WDiverged => True
  end.
Proof.
  induction p as [a|m| |bs k IH]; intros out; cbn [runw].
  - exists []. now rewrite app_nil_r.
  - exists []. now rewrite app_nil_r.
  - exact I.
  - specialize (IH None (out ++ bs)).
    destruct (runw (k None) (out ++ bs)) as [a o|m o|]; [| |exact I];
      destruct IH as [c ->]; exists (bs ++ c); now rewrite app_assoc.
Qed.

Lemma prefix_trans {A} (a b c : list A) : prefix a b -> prefix b c -> prefix a c.
Proof. intros [x ->] [y ->]. exists (x ++ y). now rewrite app_assoc. Qed.

Lemma prefix_app_firstn {A} n (a b : list A) : prefix (a ++ firstn n b) (a ++ b).
Proof. exists (skipn n b). now rewrite <- app_assoc, firstn_skipn. Qed.

Definition full_output {A} (o : woutcome A) (full : list byte) : Prop :=
  match o with WDone _ f | WCrash _ f => f = full | WDiverged => False end.

(** With a writer that keeps failing once it has failed: what arrives is a prefix
    of the full output, and a nil error means that everything arrived. *)
Lemma wstrict_runf (p : wr) o : WStrict p -> sticky o ->
  forall i out full, (forall j, (j < i)%nat -> o j = None) ->
  full_output (runw p out) full ->
  match runf o i p out with
  | WDone r out' => prefix out' full /\ (r = None -> runw p out = WDone None out')
  | WCrash m out' => runw p out = WCrash m out'
  | WDiverged => False
  end.
Proof.
  intros H So. induction H as [a|m| |bs k Hk IH Hf]; intros i out full Hi F; cbn [runw runf] in *.
  - cbn in F. subst. split; [exists []; now rewrite app_nil_r|intros ->; reflexivity].
  - reflexivity.
  - exact F.
  - destruct (o i) as [[n e]|] eqn:E.
    + assert (Hs : forall j, (S i <= j)%nat -> exists e, o j = Some (O, e)).
      { intros j Hj. apply (So i j); [lia|congruence]. }
      destruct (efailing_runf _ o _ (Hf e) (S i) (out ++ firstn n bs) Hs) as [r [-> Hr]].
      split; [|intros ->; now elim Hr].
      pose proof (runw_extends (k None) (out ++ bs)) as X.
      destruct (runw (k None) (out ++ bs)) as [a f|m f|]; cbn in F; [| |contradiction]; subst f;
        (eapply prefix_trans; [apply prefix_app_firstn|exact X]).
    + apply IH; [|exact F]. intros j Hj. destruct (Nat.eq_dec j i) as [->|]; [exact E|apply Hi; lia].
Qed.

Lemma wstrict_faults p : WStrict p -> write_faults_reported p.
Proof.
  intros S o full So R.
  pose proof (wstrict_runf p o S So 0%nat [] full) as H.
  rewrite R in H. specialize (H (fun j Hj => ltac:(lia)) eq_refl).
  destruct (runf o 0 p []) as [r out'|m out'|]; [|discriminate|contradiction].
  exists r, out'. destruct H as [P N]. split; [reflexivity|]. split; [exact P|].
  intros Hr. specialize (N Hr). congruence.
Qed.
(** What a program writes does not depend on what was written before. *)
Lemma runw_shift {A} (p : enc A) : forall out out',
  match runw p out with
  | WDone a full => forall bs, full = out ++ bs -> runw p out' = WDone a (out' ++ bs)
  | _ => True
  end.
Proof.
  induction p as [a|m| |bs k IH]; intros out out'; cbn [runw]; try exact I.
  - intros bs H. rewrite <- (app_nil_r out) in H at 1. apply app_inv_head in H. subst. now rewrite app_nil_r.
  - specialize (IH None (out ++ bs) (out' ++ bs)). pose proof (runw_extends (k None) (out ++ bs)) as X.
    destruct (runw (k None) (out ++ bs)) as [a full|m full|]; try exact I. destruct X as [w ->].
    intros bs' H. rewrite <- app_assoc in H. apply app_inv_head in H. subst. rewrite (IH w eq_refl). now rewrite <- app_assoc.
Qed.
