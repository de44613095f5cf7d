(** C76: encodings identify what was encoded and where it ends. *)
From Verif Require Import Base Prog SpecWire AbiPrim Chain SpecChain Values Leaf SpecLeaf Reflect SpecReflect
  Interfaces SpecInterfaces AbiDyn SpecAbi.
From Verif Require Import BaseProofs ProgProofs ReflectProofs ReflectOrder PropReflect PropInterfaces AbiApiProofs PropAbi AbiSample.

(** Two values of one type: if what was written for one, continued somehow, is what was
    written for the other, continued somehow, then they are the same value and the
    continuations are equal.  So no encoding is the beginning of another. *)
Theorem C76_reflective E t v w bv bw rv rw : supported E t ->
  has_type E sound_leaf t v -> has_type E sound_leaf t w ->
  runw (Encode E t v) [] = WDone None bv -> runw (Encode E t w) [] = WDone None bw ->
  bv ++ rv = bw ++ rw -> same v w /\ rv = rw.
Proof.
  intros S Tv Tw Rv Rw Q.
  destruct (round_trip _ _ _ _ _ S Tv Rv) as (b1 & v' & -> & Mv & _ & F1 & D1).
  destruct (round_trip _ _ _ _ _ S Tw Rw) as (b2 & w' & -> & Mw & _ & F2 & D2). cbn [app] in Q.
  pose (env := {| r_end := EOF; r_strict := true |}).
  pose proof (D1 (F1 + F2)%nat ltac:(lia) env rv) as H1. pose proof (D2 (F1 + F2)%nat ltac:(lia) env rw) as H2.
  rewrite Q in H1. rewrite H1 in H2. injection H2 as -> ->. split; [|reflexivity].
  eapply same_trans; [exact Mv|]. now apply same_sym.
Qed.
Print Assumptions C76_reflective.

(** The same for parts held in interface variables, whichever they are. *)
Theorem C76_interfaces E t v w a b bv bw rv rw : boxed E t v a -> boxed E t w b -> supported E t ->
  has_type E sound_leaf t v -> has_type E sound_leaf t w ->
  runw (encode_any E a) [] = WDone None bv -> runw (encode_any E b) [] = WDone None bw ->
  bv ++ rv = bw ++ rw -> same v w /\ rv = rw.
Proof.
  intros Ba Bb S Tv Tw Rv Rw. rewrite (C74_same_bytes _ _ _ _ _ _ Ba Tv) in Rv. rewrite (C74_same_bytes _ _ _ _ _ _ Bb Tw) in Rw.
  now apply (C76_reflective E t v w bv bw).
Qed.
Print Assumptions C76_interfaces.

(** Encoded by an ABI: the two agree in everything the ABI declares. *)
Theorem C76_dynamic a n v w bv bw rv rw : plain_schema a n -> wf_gval v -> wf_gval w ->
  encodes a n v [] (WDone None bv) -> encodes a n w [] (WDone None bw) ->
  bv ++ rv = bw ++ rw -> rv = rw /\ exists u, keeps v u /\ keeps w u /\ abi_enc a n v bv u /\ abi_enc a n w bw u.
Proof.
  intros P Wv Ww Ev Ew Q.
  destruct (C45_roundtrip _ _ _ _ _ P Wv Ev) as (b1 & v' & -> & A1 & K1 & D1).
  destruct (C45_roundtrip _ _ _ _ _ P Ww Ew) as (b2 & w' & -> & A2 & K2 & D2). cbn [app] in *.
  pose (env := {| r_end := EOF; r_strict := true |}).
  destruct (D1 env rv) as [_ [F1 H1]]. destruct (D2 env rw) as [_ [F2 H2]].
  specialize (H1 (F1 + F2)%nat ltac:(lia)). specialize (H2 (F1 + F2)%nat ltac:(lia)).
  rewrite Q in H1. rewrite H1 in H2. injection H2 as -> ->. split; [reflexivity|]. exists w'. auto.
Qed.
Print Assumptions C76_dynamic.

(** Two different values: their encodings differ and neither begins the other. *)
Example C76_nodes : exists bv bw,
  runw (Encode node_types (Reflect.TName 0) (two_nodes [entry 1 [x61]])) [] = WDone None bv
  /\ runw (Encode node_types (Reflect.TName 0) (two_nodes [entry 1 [x61]; entry 2 [x62; x63]])) [] = WDone None bw
  /\ forall rv rw, bv ++ rv <> bw ++ rw.
Proof.
  eexists _, _. split; [vm_compute; reflexivity|]. split; [vm_compute; reflexivity|].
  intros rv rw E. repeat (cbn [app] in E; injection E as E; try discriminate E).
Qed.
Example C76_transfer : plain_schema sample (str "transfer") /\ wf_gval sample_value
  /\ encodes sample (str "transfer") sample_value [] (WDone None sample_bytes).
Proof. destruct C45_ex as (H1 & _ & H2 & H3). auto. Qed.
