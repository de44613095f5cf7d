(** C84: the JSON form and the binary form stand for the same thing. *)
From Verif Require Import Base GoStd BaseProofs Prog AbiPrim Values Leaf SpecWire SpecText SpecName Chain AbiDyn Reflect SpecLeaf SpecReflect SpecAbiDef SpecChain Json SpecJson.
From Verif Require Import ChainProofs DecodedProofs JsonKept JsonReleases PropChain PropAbiDef PropJson PropJsonKept.

(** What is read from a JSON text is packed, if it is packed at all, as documented, and
    unpacked as the same value. *)
Theorem C84_packed : forall e,
  (forall old text t bs, typed_transaction old -> Unmarshal (j_Transaction e) old text = Ok t -> writes (Transaction_MarshalABI t) bs ->
     transaction_layout t bs /\ forall old', reads (Transaction_UnmarshalABI old') bs t)
  /\ (forall old text a bs, typed_action old -> Unmarshal (j_Action e) old text = Ok a -> writes (Action_MarshalABI a) bs ->
     action_layout a bs /\ reads (Action_UnmarshalABI zero_action) bs a).
Proof.
  intros e. destruct (C83_transactions e) as (T & _ & A & _). split; intros old text x bs O U W.
  - destruct (T old text x O U) as [TY _]. pose proof (Transaction_done x [] _ TY (W [])) as WF.
    destruct (C36_transaction x x WF) as (b & W' & L & _).
    assert (E : bs = b) by (pose proof (W []) as X; rewrite (W' []) in X; cbn in X; congruence). rewrite E. split; [exact L|].
    intros old'. destruct (C36_transaction old' x WF) as (c & W'' & _ & R).
    assert (E' : b = c) by (pose proof (W' []) as X; rewrite (W'' []) in X; cbn in X; congruence). rewrite E'. exact R.
  - destruct (A old text x O U) as [TY _]. pose proof (Action_done x [] _ TY (W [])) as WF.
    destruct (C36_action x WF) as (b & W' & L & R).
    assert (E : bs = b) by (pose proof (W []) as X; rewrite (W' []) in X; cbn in X; congruence). rewrite E. auto.
Qed.
Print Assumptions C84_packed.

(** What is unpacked from bytes is printed as JSON, as documented, and read back. *)
Theorem C84_unpacked : forall e env inp rest, zlen inp < 2 ^ 28 ->
  (forall old t, run env (Transaction_UnmarshalABI old) inp = Done (t, None) rest ->
     forall old', json_round (j_Transaction e) old' t (transaction_json t))
  /\ (forall old a, typed_action old -> run env (Action_UnmarshalABI old) inp = Done (a, None) rest ->
     forall old', json_round (j_Action e) old' a (action_json a)).
Proof.
  intros e env inp rest L. split.
  - intros old t R old'. apply C71_transaction. exact (Transaction_yields old env inp t rest L R).
  - intros old a O R old'. apply C71_action. exact (Action_yields old O env inp a rest L R).
Qed.
Print Assumptions C84_unpacked.

(** So two transactions with one JSON text have the same bytes, and two with the same
    bytes have the same JSON texts. *)
Theorem C84_agree : forall e t t' bs bs', typed_transaction t -> typed_transaction t' ->
  writes (Transaction_MarshalABI t) bs -> writes (Transaction_MarshalABI t') bs' ->
  (bs = bs' <-> exists text, Marshal (j_Transaction e) t text /\ Marshal (j_Transaction e) t' text)
  /\ (bs = bs' <-> forall text, Marshal (j_Transaction e) t text <-> Marshal (j_Transaction e) t' text).
Proof.
  intros e t t' bs bs' T T' W W'.
  assert (EQ : bs = bs' <-> t = t').
  { split; [intros <-|intros <-].
    - exact (proj1 (C37_transaction_injective t t' bs bs [] [] T T' W W' eq_refl)).
    - pose proof (W []) as X. rewrite (W' []) in X. cbn in X. congruence. }
  destruct (C71_transaction e t t T) as [(text & M) R]. destruct (C71_transaction e t t' T') as [_ R'].
  assert (J : (exists text, Marshal (j_Transaction e) t text /\ Marshal (j_Transaction e) t' text) -> t = t').
  { intros (s & A & B). apply R in A. apply R' in B. destruct A as [_ A], B as [_ B]. congruence. }
  rewrite EQ. split; split.
  - intros <-. eauto.
  - exact J.
  - intros <-. tauto.
  - intros H. apply J. exists text. split; [exact M|now apply H].
Qed.
Print Assumptions C84_agree.

(** Read, printed and read again by programs built with different Go releases. *)
Theorem C84_releases : forall e e',
  (forall old t text, typed_transaction t -> Marshal (j_Transaction e) t text -> Unmarshal (j_Transaction e') old text = Ok t)
  /\ (forall old a text, typed_action a -> Marshal (j_Action e) a text -> Unmarshal (j_Action e') old text = Ok a)
  /\ (forall old x text, utf8_abi x -> AbiDyn.ErrorMessages old = [] -> AbiDyn.AbiExtensions old = [] -> AbiDyn.Variants old = [] ->
       Marshal (j_Abi e) x text -> Unmarshal (j_Abi e') old text = Ok x).
Proof.
  intros e e'. set (m := {| short := Json.short e; fold := fold e' |}). split; [|split].
  - intros old t text T M. eapply (alike_round _ _ (j_Transaction m)); [| |exact M|intros M'; now apply (C71_transaction m old t T)];
      apply alike_transaction; try discriminate; reflexivity.
  - intros old a text T M. eapply (alike_round _ _ (j_Action m)); [| |exact M|intros M'; now apply (C71_action m old a T)];
      apply alike_action; try discriminate; reflexivity.
  - intros old x text T A B C M. eapply (alike_round _ _ (j_Abi m)); [| |exact M|intros M'; now apply (C71_abi m old x T A B C)];
      apply alike_abi; try discriminate; reflexivity.
Qed.
Print Assumptions C84_releases.

(** An ABI that is read from JSON, is not too long and has no null among its extensions is
    packed as documented, and unpacked as the same definition. *)
Theorem C84_abi : forall e E old text a, small_types E -> utf8_abi old -> Unmarshal (j_Abi e) old text = Ok a -> wf_abi_def a ->
  (exists bs, abi_def_layout a bs) /\ forall bs, abi_def_layout a bs ->
    (forall out, runw (Encode E Abi_struct (Abi_value a)) out = WDone None (out ++ bs))
    /\ (exists v, same (Abi_value a) v /\ (forall b, same (Abi_value b) v -> b = a)
         /\ exists F, forall fuel, (F <= fuel)%nat -> forall env rest, run env (Decode fuel E Abi_struct (zero E Abi_struct)) (bs ++ rest) = Done (v, None) rest)
    /\ json_round (j_Abi e) zero_abi a (abi_json a).
Proof.
  intros e E old text a S O U W. destruct (C53_roundtrip E a S W) as [X R]. split; [exact X|]. intros bs L.
  destruct (R bs L) as (A & v & SA & D). split; [exact A|]. split.
  - exists v. split; [exact SA|]. split; [|exact D]. intros b SB. exact (C53_determined b a v SB SA).
  - apply (C83_abi e old text a O U); reflexivity.
Qed.
Print Assumptions C84_abi.

(** An action read from JSON that has a binary form; an ABI without anything in it has one. *)
Example C84_ex :
  (exists a bs, typed_action zero_action /\ Unmarshal (j_Action go) zero_action (str " {""name"":""transfer"",""data"":""CAfe"",""account"":""eosio"",""authorization"":null} ") = Ok a
     /\ writes (Action_MarshalABI a) bs /\ AData a = [xca; xfe])
  /\ utf8_abi zero_abi /\ wf_abi_def zero_abi.
Proof.
  split; [|split].
  - set (a := {| Account := 6138663577826885632; AName := 14829575313431724032; Authorization := []; AData := [xca; xfe] |}).
    assert (W : wf_action a) by (unfold wf_action, in_u, short, zlen; cbn; repeat split; try lia; constructor).
    destruct (C36_action a W) as (bs & B & _). exists a, bs. split; [split; [unfold in_u; cbn; lia|split; [unfold in_u; cbn; lia|constructor]]|].
    split; [vm_compute; reflexivity|]. split; [exact B|reflexivity].
  - repeat split; try exact utf8_nil; constructor.
  - unfold wf_abi_def, short_all, short, zlen; cbn. repeat split; try lia; constructor.
Qed.
