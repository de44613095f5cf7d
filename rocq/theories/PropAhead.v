(** C89: decoding asks the reader for nothing beyond what it uses. *)
From Verif Require Import Base Prog BaseProofs SpecWire ProgProofs Chain SpecChain Values Leaf SpecLeaf Reflect SpecReflect ReflectProofs PropReflect
  AbiDyn SpecAbi PropAbi AbiSample SpecAhead.
Import ListNotations.
Local Open Scope Z_scope.

(** What is read is the beginning of the input. *)
Theorem C89_beginning {A} env (p : dec A) : forall inp r rest, run env p inp = Done r rest -> exists c, inp = c ++ rest.
Proof.
  induction p as [a|m| |n k IH|k IH]; intros inp r rest R; cbn [run] in R; try discriminate.
  - exists []. cbn [app]. congruence.
  - destruct (n <=? zlen inp).
    + apply IH in R as [c C]. exists (firstn (Z.to_nat n) inp ++ c). now rewrite <- app_assoc, <- C, firstn_skipn.
    + apply IH in R as [c C]. symmetry in C. apply app_eq_nil in C as [_ ->]. exists inp. now rewrite app_nil_r.
  - eapply IH. exact R.
Qed.
Print Assumptions C89_beginning.
(** One step of a run that leaves something unread. *)
Lemma step_inside {A} env n (k : list byte -> option gerr -> dec A) c x rest r : run env (DRead n k) (c ++ x :: rest) = Done r (x :: rest) ->
  (Z.to_nat n <= length c)%nat /\ run env (k (firstn (Z.to_nat n) c) None) (skipn (Z.to_nat n) c ++ x :: rest) = Done r (x :: rest).
Proof.
  intros R. cbn [run] in R. destruct (Z.leb_spec n (zlen (c ++ x :: rest))) as [L|L].
  - assert (B : (Z.to_nat n <= length c)%nat).
    { apply C89_beginning in R as [c' C]. apply (f_equal (@length byte)) in C. rewrite skipn_length, !app_length in C. cbn [length] in C.
      unfold zlen in L. rewrite app_length in L. cbn [length] in L. lia. }
    split; [exact B|]. rewrite firstn_app, skipn_app in R. replace (Z.to_nat n - length c)%nat with 0%nat in R by lia.
    rewrite firstn_O, app_nil_r, skipn_O in R. exact R.
  - apply C89_beginning in R as [c' C]. destruct c'; discriminate.
Qed.
(** What is left unread does not matter, whether decoding succeeded or failed. *)
Theorem C89_unread {A} env (p : dec A) : forall c x rest r, run env p (c ++ x :: rest) = Done r (x :: rest) ->
  forall e rest', run {| r_end := e; r_strict := r_strict env |} p (c ++ rest') = Done r rest'.
Proof.
  induction p as [a|m| |n k IH|k IH]; intros c x rest r R e rest'; try discriminate R.
  - cbn [run] in *. assert (C : c ++ x :: rest = [] ++ x :: rest) by (cbn [app]; congruence). apply app_inv_tail in C as ->. cbn [app]. congruence.
  - apply step_inside in R as [L R]. cbn [run]. destruct (Z.leb_spec n (zlen (c ++ rest'))) as [B|B].
    + rewrite firstn_app, skipn_app. replace (Z.to_nat n - length c)%nat with 0%nat by lia. rewrite firstn_O, app_nil_r, skipn_O.
      eapply IH. exact R.
    + unfold zlen in B. rewrite app_length in B. lia.
  - cbn [run] in *. eapply IH. exact R.
Qed.
Print Assumptions C89_unread.

Lemma readfull_arrived e later cs c : arrived cs c -> forall n got, (n <= length c)%nat ->
  exists es, readfull e n got (cs ++ later) = (got ++ firstn n c, None, es ++ later) /\ arrived es (skipn n c).
Proof.
  induction 1 as [|d cs c A IH]; intros n got L.
  - cbn [length] in L. assert (n = 0%nat) by lia. subst n. exists []. split; [|constructor]. cbn [firstn app]. rewrite app_nil_r. now destruct later.
  - destruct n as [|n].
    { exists ({| c_data := d; c_err := None |} :: cs). split; [|now constructor]. cbn [firstn app readfull]. now rewrite app_nil_r. }
    cbn [app readfull c_data c_err]. rewrite app_length in L. destruct (Nat.ltb_spec (S n) (length d)) as [B|B].
    { exists ({| c_data := skipn (S n) d; c_err := None |} :: cs). rewrite firstn_app, skipn_app.
      replace (S n - length d)%nat with 0%nat by lia. rewrite firstn_O, app_nil_r, skipn_O. split; [reflexivity|now constructor]. }
    rewrite firstn_app, skipn_app, (firstn_all2 d), (skipn_all2 d) by lia. cbn [app].
    destruct (S n - length d)%nat as [|n'] eqn:E.
    + exists cs. rewrite firstn_O, app_nil_r, skipn_O. split; [reflexivity|exact A].
    + destruct (IH (S n') (got ++ d)) as (es & R & A'); [lia|]. exists es. rewrite R, <- app_assoc. split; [reflexivity|exact A'].
Qed.
(** Nothing beyond what is used is asked for. *)
Theorem C89_not_ahead {A} env (p : dec A) : forall c x rest r, run env p (c ++ x :: rest) = Done r (x :: rest) -> needs_only (r_strict env) p c r.
Proof.
  induction p as [a|m| |n k IH|k IH]; intros c x rest r R e cs later D; try discriminate R.
  - cbn [run run_chunks] in *. assert (C : c ++ x :: rest = [] ++ x :: rest) by (cbn [app]; congruence). apply app_inv_tail in C as ->.
    exists cs. split; [congruence|exact D].
  - apply step_inside in R as [L R]. cbn [run_chunks r_end].
    destruct (readfull_arrived e later cs c D (Z.to_nat n) [] L) as (es & -> & D'). cbn [app]. eapply IH; [exact R|exact D'].
  - cbn [run run_chunks r_strict] in *. eapply IH; [exact R|exact D].
Qed.
Print Assumptions C89_not_ahead.

(** So a value written by Encode is decoded as soon as its last byte has arrived. *)
Theorem C89_decode E t v out full : supported E t -> has_type E sound_leaf t v -> runw (Encode E t v) out = WDone None full ->
  exists bs v', full = out ++ bs /\ same v v' /\
    exists F, forall fuel, (F <= fuel)%nat -> forall strict, needs_only strict (Decode fuel E t (zero E t)) bs (v', None).
Proof.
  intros S T R. destruct (C40_roundtrip E t v out full S T R) as (bs & v' & A & [M _] & F & HF). exists bs, v'.
  split; [exact A|]. split; [exact M|]. exists F. intros fuel L strict.
  exact (C89_not_ahead {| r_end := EOF; r_strict := strict |} _ bs x00 [] _ (HF fuel L _ _)).
Qed.
Print Assumptions C89_decode.
(** And so is a value written by Abi.Encode. *)
Theorem C89_abi a n v out full : plain_schema a n -> wf_gval v -> encodes a n v out (WDone None full) ->
  exists bs v', full = out ++ bs /\ keeps v v' /\
    forall strict, exists F, forall fuel, (F <= fuel)%nat -> needs_only strict (Abi_Decode fuel a n) bs (v', None).
Proof.
  intros P W R. destruct (C45_roundtrip a n v out full P W R) as (bs & v' & A & _ & K & D). exists bs, v'.
  split; [exact A|]. split; [exact K|]. intros strict.
  destruct (D {| r_end := EOF; r_strict := strict |} [x00]) as [_ [F HF]]. exists F. intros fuel L.
  exact (C89_not_ahead {| r_end := EOF; r_strict := strict |} _ bs x00 [] _ (HF fuel L)).
Qed.
Print Assumptions C89_abi.

(** A transfer with an unknown alternative, followed by two more bytes: the error comes
    when the index has been read. *)
Definition unknown_kind : list byte := [x05; x00; x00; x00; x00; x00; x00; x00; x00; x02; x01; x61; x00; x09].
Example C89_ex : exists r, run {| r_end := EOF; r_strict := true |} (Abi_Decode 10 sample (str "transfer")) (unknown_kind ++ [x01; x02]) = Done r [x01; x02]
  /\ snd r = Some (ErrMsg "invalid variant index").
Proof. eexists. split; vm_compute; reflexivity. Qed.
(** Values as C89_decode and C89_abi need them are those of C40_node and C45_ex. *)
Example C89_pieces : arrived [{| c_data := [x05; x00]; c_err := None |}; {| c_data := []; c_err := None |}; {| c_data := [x07]; c_err := None |}] [x05; x00; x07].
Proof. apply (ar_cons [x05; x00]), (ar_cons []), (ar_cons [x07]), ar_nil. Qed.
