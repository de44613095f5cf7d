(** Proofs about the hexadecimal and base64 text forms. *)
From Verif Require Import Base BaseProofs GoStd Numbers SpecNumbers NumbersProofs Hex SpecHex.
Ltac Zify.zify_post_hook ::= Z.div_mod_to_equations.

(** ** Positional values *)
Lemma base_from r ds : forall a, fold_left (fun a d => r * a + d) ds a = a * r ^ zlen ds + base_value r ds.
Proof.
  unfold base_value. induction ds as [|d ds IH]; intros a; cbn [fold_left]; [cbn; lia|].
  rewrite IH, (IH (r * 0 + d)), zlen_cons.
  replace (1 + zlen ds) with (Z.succ (zlen ds)) by lia.
  rewrite Z.pow_succ_r by apply zlen_nonneg. lia.
Qed.
Lemma base_cons r d ds : base_value r (d :: ds) = d * r ^ zlen ds + base_value r ds.
Proof. unfold base_value at 1. cbn [fold_left]. rewrite base_from. lia. Qed.
Lemma base_app r a b : base_value r (a ++ b) = base_value r a * r ^ zlen b + base_value r b.
Proof. unfold base_value at 1. rewrite fold_left_app, base_from. reflexivity. Qed.
Lemma base_bound r ds : 1 < r -> Forall (fun d => 0 <= d < r) ds -> 0 <= base_value r ds < r ^ zlen ds.
Proof.
  intros Hr H. induction H as [|d ds Hd _ IH]; [cbn; lia|].
  rewrite base_cons, zlen_cons. replace (1 + zlen ds) with (Z.succ (zlen ds)) by lia.
  rewrite Z.pow_succ_r by apply zlen_nonneg. nia.
Qed.
Lemma base_inj r a : 1 < r -> forall b, length a = length b -> Forall (fun d => 0 <= d < r) a -> Forall (fun d => 0 <= d < r) b ->
  base_value r a = base_value r b -> a = b.
Proof.
  intros Hr. induction a as [|x a IH]; intros [|y b] L Ha Hb E; try discriminate L; [reflexivity|].
  inversion Ha as [|? ? Hx Ha']; inversion Hb as [|? ? Hy Hb']; subst.
  rewrite !base_cons in E. injection L as L. assert (LL : zlen a = zlen b) by (unfold zlen; lia). rewrite LL in E.
  pose proof (base_bound r a Hr Ha') as Ba. pose proof (base_bound r b Hr Hb') as Bb. rewrite LL in Ba.
  assert (x = y) by nia. subst y. f_equal. apply IH; auto. lia.
Qed.
Lemma be_cons c b : be_value (c :: b) = zb c * 256 ^ zlen b + be_value b.
Proof. rewrite <- !be_get_value. change (c :: b) with ([c] ++ b). rewrite be_get_app.
  assert (be_get [c] = zb c) as ->; [|reflexivity]. unfold be_get. cbn. rewrite Z.lor_0_r. reflexivity. Qed.
Lemma be_inj a b : length a = length b -> be_value a = be_value b -> a = b.
Proof. rewrite <- !be_get_value. apply be_get_inj. Qed.
Lemma be_bound b : 0 <= be_value b < 256 ^ zlen b.
Proof. rewrite <- be_get_value. apply be_get_bound. Qed.

(** ** Hexadecimal *)
Lemma fromHex_val c : fromHexChar c = hex_val c.
Proof. destruct c; vm_compute; reflexivity. Qed.
Lemma hex_val_range c v : hex_val c = Some v -> 0 <= v < 16.
Proof. destruct c; vm_compute; intros [= <-]; split; congruence. Qed.
Lemma map_some_inj (a b : list Z) : map Some a = map Some b -> a = b.
Proof. revert b. induction a as [|x a IH]; intros [|y b] H; try discriminate H; [reflexivity|]. injection H as -> H. f_equal; auto. Qed.
Lemma map_some_len {A} (f : A -> option Z) t ds : map f t = map Some ds -> length ds = length t.
Proof. intros H. apply (f_equal (@length _)) in H. now rewrite !map_length in H. Qed.

Lemma pair_ind (P : list byte -> Prop) :
  P [] -> (forall c, P [c]) -> (forall c d l, P l -> P (c :: d :: l)) -> forall l, P l.
Proof.
  intros H0 H1 H2 l. enough (P l /\ forall c, P (c :: l)) by tauto.
  induction l as [|x l [IH1 IH2]]; split; auto.
Qed.

Lemma hex_sound t : forall b, hex_Decode t = (b, None) -> hex_text t b.
Proof.
  induction t as [|c|c d t IH] using pair_ind; intros b; cbn [hex_Decode].
  - intros [= <-]. exists []. auto.
  - discriminate.
  - rewrite !fromHex_val. destruct (hex_val c) as [x|] eqn:Ec; [|discriminate].
    destruct (hex_val d) as [y|] eqn:Ed; [|discriminate].
    destruct (hex_Decode t) as [r e] eqn:E. intros H. assert (Hb : b = bz (x * 16 + y) :: r) by congruence.
    assert (He : e = None) by congruence. subst e b. clear H.
    destruct (IH r eq_refl) as (ds & M & L & V).
    exists (x :: y :: ds). cbn [map]. rewrite Ec, Ed, M. split; [reflexivity|]. cbn [length]. split; [lia|].
    rewrite !base_cons, be_cons, zlen_cons, V. apply map_some_len in M.
    apply hex_val_range in Ec, Ed. rewrite zb_bz, Z.mod_small by lia.
    replace (zlen ds) with (2 * zlen r) by (unfold zlen; lia).
    replace (1 + 2 * zlen r) with (Z.succ (2 * zlen r)) by lia. pose proof (zlen_nonneg r).
    rewrite Z.pow_succ_r by lia. rewrite Z.pow_mul_r by lia. change (16 ^ 2) with 256. lia.
Qed.
Lemma hex_total t ds : map hex_val t = map Some ds -> Nat.even (length t) = true -> exists b, hex_Decode t = (b, None).
Proof.
  revert ds. induction t as [|c|c d t IH] using pair_ind; intros ds M L; cbn [hex_Decode].
  - eauto.
  - discriminate L.
  - destruct ds as [|x [|y ds]]; try discriminate M. cbn [map] in M. rewrite !fromHex_val.
    injection M as -> -> M. destruct (IH ds M L) as [b ->]. eauto.
Qed.
Lemma hex_Decode_ok t b : hex_Decode t = (b, None) <-> hex_text t b.
Proof.
  split; [apply hex_sound|]. intros (ds & M & L & V).
  destruct (hex_total t ds M) as [b' E]. { rewrite L, Nat.even_mul. reflexivity. }
  rewrite E. f_equal. destruct (hex_sound t b' E) as (ds' & M' & L' & V').
  rewrite M in M'. apply map_some_inj in M'. subst ds'. apply be_inj; [lia|congruence].
Qed.
Lemma hex_Decode_dec t : (exists b, hex_text t b) \/ (~ (exists b, hex_text t b) /\ exists p e, hex_Decode t = (p, Some e)).
Proof.
  destruct (hex_Decode t) as [b [e|]] eqn:E.
  - right. split; [|eauto]. intros [b' H]. apply hex_Decode_ok in H. congruence.
  - left. exists b. now apply hex_Decode_ok.
Qed.
Lemma hex_digit_val d : 0 <= d < 16 -> hex_val (hex_digit d) = Some d /\ lower_hex (hex_digit d).
Proof.
  intros H. unfold hex_digit, hex_val, lower_hex. destruct (Z.ltb_spec d 10); rewrite zb_bz, Z.mod_small by lia.
  - destruct (Z.leb_spec 48 (48 + d)); [|lia]. destruct (Z.leb_spec (48 + d) 57); [|lia]. cbn [andb]. split; [f_equal|]; lia.
  - destruct (Z.leb_spec 48 (87 + d)); [|lia]. destruct (Z.leb_spec (87 + d) 57); [lia|]. cbn [andb].
    destruct (Z.leb_spec 97 (87 + d)); [|lia]. destruct (Z.leb_spec (87 + d) 102); [|lia]. cbn [andb]. split; [f_equal|]; lia.
Qed.
Lemma hex_Encode_text b : hex_text (hex_EncodeToString b) b /\ Forall lower_hex (hex_EncodeToString b).
Proof.
  induction b as [|c b [IH F]]; cbn [hex_EncodeToString]; [split; [exists []; auto|constructor]|].
  pose proof (zb_range c). destruct (hex_digit_val (zb c / 16)) as [V1 F1]; [lia|].
  destruct (hex_digit_val (zb c mod 16)) as [V2 F2]; [lia|].
  split; [|constructor; [exact F1|constructor; auto]].
  apply hex_Decode_ok in IH. apply hex_Decode_ok. cbn [hex_Decode]. rewrite !fromHex_val, V1, V2, IH.
  f_equal. f_equal. replace (zb c / 16 * 16 + zb c mod 16) with (zb c) by lia. apply bz_zb.
Qed.
Lemma hex_roundtrip b : hex_Decode (hex_EncodeToString b) = (b, None).
Proof. apply hex_Decode_ok, hex_Encode_text. Qed.

(** ** Base64 *)
Lemma b64_map_val c : b64_map c = b64_val c.
Proof. destruct c; vm_compute; reflexivity. Qed.
Lemma b64_val_range c v : b64_val c = Some v -> 0 <= v < 64.
Proof. destruct c; vm_compute; intros [= <-]; split; congruence. Qed.
Lemma b64_char_val d : 0 <= d < 64 -> b64_val (b64_char d) = Some d.
Proof.
  intros H. assert (In d (map Z.of_nat (seq 0 64))) as I.
  { rewrite <- (Z2Nat.id d) by lia. apply in_map, in_seq. lia. }
  revert I. cbn [seq map]. cbn [In]. intros I.
  repeat (destruct I as [<-|I]; [vm_compute; reflexivity|]). destruct I.
Qed.
Lemma b64_val_inj c d v : b64_val c = Some v -> b64_val d = Some v -> c = d.
Proof.
  intros Hc Hd. assert (E : forall c v, b64_val c = Some v -> c = b64_char v).
  { clear. intros c v. destruct c; intros H; first [discriminate H|injection H as <-; reflexivity]. }
  rewrite (E _ _ Hc), (E _ _ Hd). reflexivity.
Qed.
Lemma digits_range body ds : map b64_val body = map Some ds -> Forall (fun d => 0 <= d < 64) ds.
Proof.
  revert ds. induction body as [|c body IH]; intros [|d ds] M; try discriminate M; [constructor|].
  cbn [map] in M. injection M as M1 M. apply b64_val_range in M1. constructor; auto.
Qed.
Lemma digits_inj body body' ds : map b64_val body = map Some ds -> map b64_val body' = map Some ds -> body = body'.
Proof.
  revert body' ds. induction body as [|c body IH]; intros [|c' body'] [|d ds] M M'; try discriminate; [reflexivity|].
  cbn [map] in M, M'. injection M as M1 M. injection M' as M1' M'. f_equal; eauto using b64_val_inj.
Qed.
Lemma base64_unique body b p body' p' : base64_digits body b p -> base64_digits body' b p' -> body = body' /\ p = p'.
Proof.
  intros (ds & M & P & L & V) (ds' & M' & P' & L' & V'). assert (p = p') by lia. subst p'. split; [|reflexivity].
  assert (ds = ds'); [|subst; eapply digits_inj; eauto].
  pose proof (map_some_len _ _ _ M). pose proof (map_some_len _ _ _ M').
  apply (base_inj 64); eauto using digits_range; [lia|lia|congruence].
Qed.

Lemma triple_ind (P : list byte -> Prop) :
  P [] -> (forall x, P [x]) -> (forall x y, P [x; y]) -> (forall x y z l, P l -> P (x :: y :: z :: l)) -> forall l, P l.
Proof.
  intros H0 H1 H2 H3 l. enough (P l /\ (forall c, P (c :: l)) /\ forall c d, P (c :: d :: l)) by tauto.
  induction l as [|x l (A & B & C)]; repeat split; auto.
Qed.

Lemma quantum4 a b c d rest : 
  forall va vb vc vd, b64_val a = Some va -> b64_val b = Some vb -> b64_val c = Some vc -> b64_val d = Some vd ->
  decodeQuantum (a :: b :: c :: d :: rest) [] = (quantum_bytes [va; vb; vc; vd], rest, None).
Proof.
  intros va vb vc vd Ha Hb Hc Hd. cbn [decodeQuantum]. rewrite !b64_map_val, Ha, Hb, Hc, Hd. reflexivity.
Qed.
Lemma quantum_bytes4 va vb vc vd : 0 <= va < 64 -> 0 <= vb < 64 -> 0 <= vc < 64 -> 0 <= vd < 64 ->
  exists x y z, quantum_bytes [va; vb; vc; vd] = [x; y; z] /\
    zb x * 65536 + zb y * 256 + zb z = va * 262144 + vb * 4096 + vc * 64 + vd.
Proof.
  intros. unfold quantum_bytes. cbn [nth length Nat.sub firstn].
  do 3 eexists. split; [reflexivity|]. rewrite !zb_bz. lia.
Qed.
Lemma three_eq x y z x' y' z' :
  zb x * 65536 + zb y * 256 + zb z = zb x' * 65536 + zb y' * 256 + zb z' -> x = x' /\ y = y' /\ z = z'.
Proof.
  intros H. pose proof (zb_range x). pose proof (zb_range y). pose proof (zb_range z).
  pose proof (zb_range x'). pose proof (zb_range y'). pose proof (zb_range z').
  repeat split; apply zb_inj; lia.
Qed.

(** Newlines are skipped wherever they are. *)
Definition clean (s : list byte) : list byte := filter not_newline s.
Lemma is_nl_not c : not_newline c = negb (is_nl c).
Proof. reflexivity. Qed.
Lemma nl_map c : is_nl c = true -> b64_map c = None.
Proof. destruct c; vm_compute; congruence. Qed.
Lemma clean_skip s : clean (skip_nl s) = clean s.
Proof. induction s as [|c s IH]; [reflexivity|]. cbn [skip_nl]. unfold clean in *. cbn [filter]. rewrite is_nl_not.
  destruct (is_nl c) eqn:E; cbn [negb]; auto. cbn [filter]. rewrite is_nl_not, E. reflexivity. Qed.
Lemma skip_clean s : skip_nl (clean s) = clean s.
Proof. unfold clean. destruct (filter not_newline s) as [|c l] eqn:E; [reflexivity|]. cbn [skip_nl].
  assert (In c (filter not_newline s)) as I by (rewrite E; now left). apply filter_In in I as [_ I].
  rewrite is_nl_not in I. destruct (is_nl c); [discriminate|reflexivity]. Qed.
Lemma skip_head s c l : skip_nl s = c :: l -> clean s = c :: clean l.
Proof. intros E. rewrite <- clean_skip, E. unfold clean. cbn [filter]. rewrite is_nl_not.
  assert (is_nl c = false) as ->; [|reflexivity]. revert E. induction s as [|d s IH]; cbn [skip_nl]; [discriminate|].
  destruct (is_nl d) eqn:D; auto. congruence. Qed.
Lemma skip_nil s : skip_nl s = [] -> clean s = [].
Proof. intros E. rewrite <- clean_skip, E. reflexivity. Qed.
Lemma finish_clean s (q : list byte) :
  let fin s := (q, skip_nl s, match skip_nl s with [] => None | _ => Some ErrB64 end) in
  fin (clean s) = let '(o, r, e) := fin s in (o, clean r, e).
Proof.
  cbv zeta beta. rewrite skip_clean. destruct (skip_nl s) as [|c l] eqn:E.
  - rewrite (skip_nil s E). reflexivity.
  - rewrite (skip_head s c l E). unfold clean at 2. cbn [filter]. 
    assert (not_newline c = true) as ->; [|reflexivity].
    pose proof (skip_head s c l E) as I. assert (In c (clean s)) as J by (rewrite I; now left).
    unfold clean in J. now apply filter_In in J.
Qed.
Lemma quantum_clean s : forall vals,
  decodeQuantum (clean s) vals = let '(o, r, e) := decodeQuantum s vals in (o, clean r, e).
Proof.
  induction s as [|c s IH]; intros vals; [cbn; destruct vals; reflexivity|].
  change (clean (c :: s)) with (if not_newline c then c :: clean s else clean s). rewrite is_nl_not.
  destruct (is_nl c) eqn:N; cbn [negb decodeQuantum].
  - rewrite (nl_map c N). rewrite N. apply IH.
  - destruct (b64_map c) as [v|] eqn:E.
    + cbv zeta. destruct (length (vals ++ [v]) =? 4)%nat; [reflexivity|apply IH].
    + rewrite N. destruct (negb (Byte.eqb c x3d)); [reflexivity|].
      destruct (length vals) as [|[|[|n]]]; [reflexivity|reflexivity| |apply (finish_clean s (quantum_bytes vals))].
      rewrite skip_clean. destruct (skip_nl s) as [|c2 l] eqn:K.
      * rewrite (skip_nil s K). reflexivity.
      * rewrite (skip_head s c2 l K). destruct (Byte.eqb c2 x3d); [apply (finish_clean l (quantum_bytes vals))|reflexivity].
Qed.
Lemma quantum_shorter s : forall vals, (length (snd (fst (decodeQuantum s vals))) <= length s - 1)%nat.
Proof.
  assert (SK : forall s, (length (skip_nl s) <= length s)%nat).
  { clear. induction s as [|c s IH]; cbn [skip_nl]; [lia|]. destruct (is_nl c); cbn [length]; lia. }
  induction s as [|c s IH]; intros vals; cbn [decodeQuantum]; [destruct vals; cbn; lia|].
  assert (IH' : forall vals, (length (snd (fst (decodeQuantum s vals))) <= length (c :: s) - 1)%nat).
  { intros vals'. specialize (IH vals'). cbn [length]. lia. }
  destruct (b64_map c) as [v|].
  - cbv zeta. destruct (length (vals ++ [v]) =? 4)%nat; [cbn; lia|apply IH'].
  - destruct (is_nl c); [apply IH'|]. destruct (negb (Byte.eqb c x3d)); [cbn; lia|].
    destruct (length vals) as [|[|[|n]]]; cbn [fst snd length]; try lia.
    + destruct (skip_nl s) as [|c2 l] eqn:K; [cbn; lia|]. pose proof (SK s) as Q. rewrite K in Q. cbn [length] in Q.
      destruct (Byte.eqb c2 x3d); cbn [fst snd]; [pose proof (SK l); lia|lia].
    + pose proof (SK s). lia.
Qed.
Lemma loop_fuel f : forall g s, (length s <= f)%nat -> (length s <= g)%nat -> base64_loop f s = base64_loop g s.
Proof.
  induction f as [|f IH]; intros [|g] s Hf Hg; try (destruct s; [reflexivity|cbn [length] in *; lia]).
  cbn [base64_loop]. destruct s as [|c s]; [reflexivity|]. pose proof (quantum_shorter (c :: s) []) as Q. 
  destruct (decodeQuantum (c :: s) []) as [[o r] e]. cbn [fst snd length] in *.
  destruct e; [reflexivity|]. rewrite (IH g r) by lia. reflexivity.
Qed.
Lemma loop_clean f : forall s, (length s <= f)%nat -> base64_loop f (clean s) = base64_loop f s.
Proof.
  induction f as [|f IH]; intros s H; [destruct s; [reflexivity|cbn [length] in H; lia]|].
  destruct s as [|c s]; [reflexivity|]. pose proof (quantum_shorter (c :: s) []) as Q. pose proof (quantum_clean (c :: s) []) as QC.
  destruct (clean (c :: s)) as [|c' s'] eqn:K.
  - cbn [base64_loop]. destruct (decodeQuantum (c :: s) []) as [[o r] e]. cbn [fst snd length] in *.
    change (([] : list byte, [] : list byte, @None gerr) = (o, clean r, e)) in QC.
    assert (o = []) by congruence. assert (R : clean r = []) by congruence. assert (e = None) by congruence. subst o e.
    rewrite <- IH by lia. rewrite R. destruct f; reflexivity.
  - cbn [base64_loop]. rewrite QC. destruct (decodeQuantum (c :: s) []) as [[o r] e]. cbn [fst snd length] in *.
    destruct e; [reflexivity|]. rewrite IH by lia. reflexivity.
Qed.
Lemma decode_clean s : base64_DecodeString (clean s) = base64_DecodeString s.
Proof.
  unfold base64_DecodeString. rewrite <- (loop_clean (length s)) by lia. apply loop_fuel; [lia|].
  unfold clean. induction s as [|c s IH]; cbn [filter length]; [lia|]. destruct (not_newline c); cbn [length]; lia.
Qed.

(** Appending a group of three bytes / four sextets. *)
Lemma loose_group c1 c2 c3 c4 v1 v2 v3 v4 body x y z b p :
  b64_val c1 = Some v1 -> b64_val c2 = Some v2 -> b64_val c3 = Some v3 -> b64_val c4 = Some v4 ->
  zb x * 65536 + zb y * 256 + zb z = v1 * 262144 + v2 * 4096 + v3 * 64 + v4 ->
  forall ds, map b64_val body = map Some ds -> (3 * (length body + p) = 4 * (length b + p))%nat ->
  map b64_val (c1 :: c2 :: c3 :: c4 :: body) = map Some (v1 :: v2 :: v3 :: v4 :: ds) /\
  base_value 64 (v1 :: v2 :: v3 :: v4 :: ds) =
    (be_value (x :: y :: z :: b) - be_value b) * 4 ^ Z.of_nat p + base_value 64 ds.
Proof.
  intros E1 E2 E3 E4 H ds M L. cbn [map]. rewrite E1, E2, E3, E4, M. split; [reflexivity|].
  rewrite !base_cons, !be_cons, !zlen_cons. apply map_some_len in M.
  assert (Q : 64 ^ zlen ds = 256 ^ zlen b * 4 ^ Z.of_nat p).
  { change 64 with (2 ^ 6). change 256 with (2 ^ 8). change 4 with (2 ^ 2).
    rewrite <- !Z.pow_mul_r, <- Z.pow_add_r by (unfold zlen; lia). f_equal. unfold zlen. lia. }
  rewrite !Z.pow_add_r by (unfold zlen; lia). change (64 ^ 1) with 64. change (256 ^ 1) with 256. rewrite Q.
  set (A := 256 ^ zlen b). set (B := 4 ^ Z.of_nat p).
  transitivity ((v1 * 262144 + v2 * 4096 + v3 * 64 + v4) * A * B + base_value 64 ds); [ring|]. rewrite <- H. ring.
Qed.

Lemma byte_ne_eq c : b64_val c = None \/ exists v, b64_val c = Some v /\ 0 <= v < 64.
Proof. destruct (b64_val c) as [v|] eqn:E; [right|now left]. exists v. split; [reflexivity|]. now apply b64_val_range in E. Qed.

Lemma be_nil : be_value [] = 0. Proof. reflexivity. Qed.
Lemma base_nil r : base_value r [] = 0. Proof. reflexivity. Qed.

Lemma loop_sound f : forall s b, Forall (fun c => not_newline c = true) s -> (length s <= f)%nat ->
  base64_loop f s = (b, None) -> exists body p, s = body ++ pad p /\ base64_loose body b p.
Proof.
  induction f as [|f IH]; intros s b C L H.
  { destruct s; [|cbn [length] in L; lia]. injection H as <-. exists [], 0%nat. split; [reflexivity|]. exists []. repeat split; auto; lia. }
  cbn [base64_loop] in H. destruct s as [|c1 s].
  { injection H as <-. exists [], 0%nat. split; [reflexivity|]. exists []. repeat split; auto; lia. }
  assert (NL : forall c l, Forall (fun c => not_newline c = true) (c :: l) -> is_nl c = false /\ Forall (fun c => not_newline c = true) l).
  { clear. intros c l H. inversion H as [|? ? A B]; subst. rewrite is_nl_not in A. split; [now destruct (is_nl c)|exact B]. }
  assert (SK : forall l, Forall (fun c => not_newline c = true) l -> skip_nl l = l).
  { clear - NL. intros [|c l] H; [reflexivity|]. cbn [skip_nl]. now rewrite (proj1 (NL _ _ H)). }
  destruct (NL _ _ C) as [N1 C1]. cbn [decodeQuantum] in H. rewrite b64_map_val in H.
  destruct (byte_ne_eq c1) as [E1|(v1 & E1 & R1)]; rewrite E1 in H.
  { rewrite N1 in H. cbn [length] in H. destruct (negb (Byte.eqb c1 x3d)); discriminate H. }
  cbn [app length Nat.eqb] in H. cbv zeta in H.
  destruct s as [|c2 s]; [discriminate H|]. destruct (NL _ _ C1) as [N2 C2]. cbn [decodeQuantum] in H. rewrite b64_map_val in H.
  destruct (byte_ne_eq c2) as [E2|(v2 & E2 & R2)]; rewrite E2 in H.
  { rewrite N2 in H. cbn [length] in H. destruct (negb (Byte.eqb c2 x3d)); discriminate H. }
  cbn [app length Nat.eqb] in H. cbv zeta in H.
  destruct s as [|c3 s]; [discriminate H|]. destruct (NL _ _ C2) as [N3 C3]. cbn [decodeQuantum] in H. rewrite b64_map_val in H.
  destruct (byte_ne_eq c3) as [E3|(v3 & E3 & R3)]; rewrite E3 in H.
  { rewrite N3 in H. cbn [length] in H. destruct (Byte.eqb c3 x3d) eqn:Q3; cbn [negb] in H; [|discriminate H].
    rewrite (SK s C3) in H. destruct s as [|c4 s]; [discriminate H|]. destruct (NL _ _ C3) as [N4 C4].
    destruct (Byte.eqb c4 x3d) eqn:Q4; [|discriminate H]. rewrite (SK s C4) in H.
    destruct s; [|discriminate H]. apply eqb_eq in Q3, Q4. subst c3 c4.
    destruct f; cbn [base64_loop] in H; injection H as <-; exists [c1; c2], 2%nat; (split; [reflexivity|]);
      exists [v1; v2]; cbn [map]; rewrite E1, E2; (split; [reflexivity|]); (split; [lia|]); (split; [reflexivity|]);
      cbn [nth]; rewrite !base_cons, be_cons, be_nil, base_nil, zb_bz; cbn; lia. }
  cbn [app length Nat.eqb] in H. cbv zeta in H.
  destruct s as [|c4 s]; [discriminate H|]. destruct (NL _ _ C3) as [N4 C4]. cbn [decodeQuantum] in H. rewrite b64_map_val in H.
  destruct (byte_ne_eq c4) as [E4|(v4 & E4 & R4)]; rewrite E4 in H.
  { rewrite N4 in H. cbn [length] in H. destruct (Byte.eqb c4 x3d) eqn:Q4; cbn [negb] in H; [|discriminate H].
    rewrite (SK s C4) in H. destruct s; [|discriminate H]. apply eqb_eq in Q4. subst c4.
    destruct f; cbn [base64_loop] in H; injection H as <-; exists [c1; c2; c3], 1%nat; (split; [reflexivity|]);
      exists [v1; v2; v3]; cbn [map]; rewrite E1, E2, E3; (split; [reflexivity|]); (split; [lia|]); (split; [reflexivity|]);
      cbn [nth]; rewrite !base_cons, !be_cons, be_nil, base_nil, !zb_bz; cbn; lia. }
  cbn [app length Nat.eqb] in H. cbv zeta in H.
  destruct (quantum_bytes4 v1 v2 v3 v4) as (x & y & z & Q & QV); auto. rewrite Q in H.
  destruct (base64_loop f s) as [out e] eqn:E.
  assert (HB : b = x :: y :: z :: out) by (cbn [app] in H; congruence). assert (HE : e = None) by congruence. subst b e. clear H.
  destruct (IH s out C4) as (body & p & S & ds & M & P & LL & V); [cbn [length] in L; lia|exact E|].
  exists (c1 :: c2 :: c3 :: c4 :: body), p. split; [cbn [app]; now rewrite S|].
  destruct (loose_group c1 c2 c3 c4 v1 v2 v3 v4 body x y z out p E1 E2 E3 E4 QV ds M LL) as [MM VV].
  exists (v1 :: v2 :: v3 :: v4 :: ds). split; [exact MM|]. split; [exact P|]. split; [cbn [length]; lia|].
  rewrite VV, Z.div_add_l by (apply Z.pow_nonzero; lia). rewrite V. lia.
Qed.
Lemma loop_total n : forall body p ds f, (length body <= n)%nat -> map b64_val body = map Some ds -> (p <= 2)%nat ->
  Nat.modulo (length body + p) 4 = 0%nat -> (length (body ++ pad p) <= f)%nat -> exists b, base64_loop f (body ++ pad p) = (b, None).
Proof.
  induction n as [|n IH]; intros body p ds f Hn M P D F.
  { destruct body; [|cbn [length] in Hn; lia]. cbn [length Nat.add] in D. 
    assert (p = 0%nat) by (destruct p as [|[|[|]]]; [reflexivity|discriminate|discriminate|lia]). subst p.
    destruct f; cbn; eauto. }
  destruct body as [|c1 body].
  { cbn [length Nat.add] in D. assert (p = 0%nat) by (destruct p as [|[|[|]]]; [reflexivity|discriminate|discriminate|lia]). subst p.
    destruct f; cbn; eauto. }
  destruct f as [|f]; [cbn [length app] in F; lia|].
  destruct ds as [|v1 ds]; [discriminate M|]. cbn [map] in M. injection M as E1 M.
  destruct body as [|c2 body].
  { cbn [length] in D. destruct p as [|[|[|]]]; try discriminate D; lia. }
  destruct ds as [|v2 ds]; [discriminate M|]. cbn [map] in M. injection M as E2 M.
  destruct body as [|c3 body].
  { cbn [length] in D. assert (p = 2%nat) by (destruct p as [|[|[|]]]; try discriminate D; lia). subst p.
    cbn [pad repeat app base64_loop decodeQuantum]. rewrite !b64_map_val, E1, E2. cbn. destruct f; cbn; eauto. }
  destruct ds as [|v3 ds]; [discriminate M|]. cbn [map] in M. injection M as E3 M.
  destruct body as [|c4 body].
  { cbn [length] in D. assert (p = 1%nat) by (destruct p as [|[|[|]]]; try discriminate D; lia). subst p.
    cbn [pad repeat app base64_loop decodeQuantum]. rewrite !b64_map_val, E1, E2, E3. cbn. destruct f; cbn; eauto. }
  destruct ds as [|v4 ds]; [discriminate M|]. cbn [map] in M. injection M as E4 M.
  cbn [app base64_loop]. rewrite (quantum4 c1 c2 c3 c4 (body ++ pad p) v1 v2 v3 v4 E1 E2 E3 E4).
  destruct (IH body p ds f) as [b E]; auto.
  - cbn [length] in Hn. lia.
  - cbn [length] in D. replace (S (S (S (S (length body)))) + p)%nat with ((length body + p) + 1 * 4)%nat in D by lia.
    rewrite Nat.mod_add in D by lia. exact D.
  - cbn [app length] in F. lia.
  - rewrite E. eauto.
Qed.

Lemma split_pad body p body' p' ds ds' : map b64_val body = map Some ds -> map b64_val body' = map Some ds' ->
  body ++ pad p = body' ++ pad p' -> body = body' /\ p = p'.
Proof.
  revert body' ds ds'. induction body as [|c body IH]; intros [|c' body'] ds ds' M M' E.
  - split; [reflexivity|]. apply (f_equal (@length _)) in E. cbn [app] in E. unfold pad in E. now rewrite !repeat_length in E.
  - exfalso. destruct ds'; [discriminate|]. injection M' as M' _. destruct p; [discriminate|]. cbn in E. injection E as E _. subst c'. discriminate M'.
  - exfalso. destruct ds; [discriminate|]. injection M as M _. destruct p'; [discriminate|]. cbn in E. injection E as E _. subst c. discriminate M.
  - destruct ds, ds'; try discriminate. cbn [map] in *. injection M as _ M. injection M' as _ M'. cbn [app] in E. injection E as -> E.
    destruct (IH body' ds ds' M M' E). subst. auto.
Qed.
Lemma body_clean body ds : map b64_val body = map Some ds -> Forall (fun c => not_newline c = true) body.
Proof.
  revert ds. induction body as [|c body IH]; intros [|d ds] M; try discriminate M; [constructor|].
  cbn [map] in M. injection M as M1 M. constructor; eauto. revert M1. destruct c; vm_compute; congruence.
Qed.
Lemma pad_clean p : Forall (fun c => not_newline c = true) (pad p).
Proof. induction p; constructor; auto. Qed.
Lemma clean_id s : Forall (fun c => not_newline c = true) s -> clean s = s.
Proof. induction 1 as [|c s Hc _ IH]; [reflexivity|]. unfold clean in *. cbn [filter]. now rewrite Hc, IH. Qed.
Lemma clean_is_clean s : Forall (fun c => not_newline c = true) (clean s).
Proof. apply Forall_forall. intros c H. now apply filter_In in H. Qed.

Lemma base64_decode_ok s b :
  base64_DecodeString s = (b, None) <->
  exists body p, filter not_newline s = body ++ pad p /\ base64_loose body b p.
Proof.
  rewrite <- decode_clean. change (filter not_newline s) with (clean s). unfold base64_DecodeString. split.
  - apply loop_sound; [apply clean_is_clean|lia].
  - intros (body & p & E & ds & M & P & L & V). rewrite E.
    destruct (loop_total (length body) body p ds (length (body ++ pad p))) as [b' H]; auto.
    { replace (length body + p)%nat with (((length body + p) - (length b + p)) * 4)%nat by lia. apply Nat.mod_mul. lia. }
    rewrite H. f_equal.
    apply loop_sound in H as (body' & p' & E' & ds' & M' & P' & L' & V'); [| |lia].
    + destruct (split_pad _ _ _ _ _ _ M M' E') as [<- <-]. rewrite M in M'. apply map_some_inj in M'. subst ds'.
      apply be_inj; [lia|congruence].
    + apply Forall_app. eauto using body_clean, pad_clean.
Qed.
Lemma digits_loose body b p : base64_digits body b p -> base64_loose body b p.
Proof.
  intros (ds & M & P & L & V). exists ds. repeat split; auto. rewrite V. apply Z.div_mul. apply Z.pow_nonzero; lia.
Qed.
Lemma decode_digits body b p : base64_digits body b p -> base64_DecodeString (body ++ pad p) = (b, None).
Proof.
  intros H. apply base64_decode_ok. exists body, p. split; [|now apply digits_loose].
  destruct H as (ds & M & _). apply clean_id. apply Forall_app. eauto using body_clean, pad_clean.
Qed.
Lemma base64_Encode_text b : exists body p, base64_EncodeToString b = body ++ pad p /\ base64_digits body b p.
Proof.
  induction b as [|x|x y|x y z b (body & p & E & ds & M & P & L & V)] using triple_ind; cbn [base64_EncodeToString].
  - exists [], 0%nat. split; [reflexivity|]. exists []. repeat split; auto.
  - pose proof (zb_range x). set (v := zb x * 65536).
    exists [b64_char (v / 262144); b64_char (v / 4096 mod 64)], 2%nat. split; [reflexivity|].
    exists [v / 262144; v / 4096 mod 64]. cbn [map]. rewrite !b64_char_val by (unfold v; lia). repeat split; auto.
    rewrite !base_cons, be_cons, be_nil, base_nil. unfold v. cbn. lia.
  - pose proof (zb_range x). pose proof (zb_range y). set (v := zb x * 65536 + zb y * 256).
    exists [b64_char (v / 262144); b64_char (v / 4096 mod 64); b64_char (v / 64 mod 64)], 1%nat. split; [reflexivity|].
    exists [v / 262144; v / 4096 mod 64; v / 64 mod 64]. cbn [map]. rewrite !b64_char_val by (unfold v; lia). repeat split; auto.
    rewrite !base_cons, !be_cons, be_nil, base_nil. unfold v. cbn. lia.
  - pose proof (zb_range x). pose proof (zb_range y). pose proof (zb_range z). set (v := zb x * 65536 + zb y * 256 + zb z). cbv zeta.
    rewrite E.
    exists (b64_char (v / 262144) :: b64_char (v / 4096 mod 64) :: b64_char (v / 64 mod 64) :: b64_char (v mod 64) :: body), p.
    split; [reflexivity|].
    destruct (loose_group (b64_char (v / 262144)) (b64_char (v / 4096 mod 64)) (b64_char (v / 64 mod 64)) (b64_char (v mod 64))
      (v / 262144) (v / 4096 mod 64) (v / 64 mod 64) (v mod 64) body x y z b p) with (ds := ds) as [MM VV];
      try (apply b64_char_val; unfold v; lia); auto.
    { fold v. lia. }
    exists (v / 262144 :: v / 4096 mod 64 :: v / 64 mod 64 :: v mod 64 :: ds). split; [exact MM|]. split; [exact P|].
    split; [cbn [length]; lia|]. rewrite VV, V. lia.
Qed.

(** ** Blob.UnmarshalText *)
(** padding appended to a text of [n] bytes *)
Definition missing (n : nat) : nat := match (n mod 4)%nat with 2%nat => 2%nat | 3%nat => 1%nat | _ => 0%nat end.
Lemma Blob_unfold buf n :
  Blob_UnmarshalText buf n =
  ((if (n + missing n <=? length buf)%nat then firstn n buf ++ pad (missing n) ++ skipn (n + missing n) buf else buf),
   base64_DecodeString (firstn n buf ++ pad (missing n))).
Proof.
  unfold Blob_UnmarshalText, missing, append_slice. destruct (n mod 4)%nat as [|[|[|[|k]]]] eqn:E;
  try (rewrite Nat.add_0_r; cbn [pad repeat app]; rewrite app_nil_r, firstn_skipn; destruct (n <=? length buf)%nat; reflexivity);
  cbn [length pad repeat]; destruct (_ <=? length buf)%nat; cbn [fst snd]; rewrite <- ?app_assoc; reflexivity.
Qed.
