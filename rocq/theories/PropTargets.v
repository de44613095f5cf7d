(** C63: what UnmarshalText and UnmarshalJSON leave in the target. *)
From Verif Require Import Base BaseProofs GoStd Chain Numbers SpecNumbers SpecHex Hex HexProofs Keys Name Symbol Time.
From Verif Require PropHex PropNumbers.

(** A method is given as [unmarshal old text]: the new content of the target and
    the error returned. *)
(** a rejected text leaves the target as it was *)
Definition keeps {T} (unmarshal : T -> list byte -> res (T * option gerr)) : Prop :=
  forall old text v e, unmarshal old text = Ok (v, Some e) -> v = old.
(** whether a text is accepted, and what it becomes, does not depend on the target *)
Definition blind {T} (unmarshal : T -> list byte -> res (T * option gerr)) : Prop :=
  forall old old' text v, unmarshal old text = Ok (v, None) -> unmarshal old' text = Ok (v, None).
(** a method that cannot panic *)
Definition calm {T} (unmarshal : T -> list byte -> T * option gerr) old text : res (T * option gerr) := Ok (unmarshal old text).

Lemma on_success_keeps {T} (parse : list byte -> res T) : keeps (fun old text => set_on_success old (parse text)).
Proof. intros old text v e. destruct (parse text); cbn; congruence. Qed.
Lemma on_success_blind {T} (parse : list byte -> res T) : blind (fun old text => set_on_success old (parse text)).
Proof. intros old old' text v. destruct (parse text); cbn; congruence. Qed.

Theorem C63_keeps :
  keeps Symbol_UnmarshalText /\ keeps SymbolCode_UnmarshalText /\ keeps Asset_UnmarshalText
  /\ keeps TimePoint_UnmarshalText /\ keeps TimePointSec_UnmarshalText /\ keeps BlockTimestamp_UnmarshalText
  /\ (forall sha, keeps (PublicKey_UnmarshalText sha)) /\ keeps Signature_UnmarshalText
  /\ (forall n, keeps (Checksum_UnmarshalText n)) /\ keeps (calm Float128_UnmarshalText)
  /\ keeps (calm Uint64_UnmarshalJSON) /\ keeps (calm BlockNum_UnmarshalJSON).
Proof.
  repeat match goal with |- _ /\ _ => split end; try (intro; apply on_success_keeps); try apply on_success_keeps.
  - intros n old text v e. unfold Checksum_UnmarshalText. destruct (hex_Decode text) as [d [e'|]]; [congruence|].
    destruct (_ <? n)%nat; congruence.
  - intros old text v e. unfold calm, Float128_UnmarshalText. destruct (hex_Decode text) as [d [e'|]]; congruence.
  - intros old text v e. unfold calm. intros [= H]. now apply PropNumbers.C19_reject_keeps in H.
  - intros old text v e. unfold calm. intros [= H]. now apply PropNumbers.C20_reject_keeps in H.
Qed.
Print Assumptions C63_keeps.

Theorem C63_blind :
  blind Symbol_UnmarshalText /\ blind SymbolCode_UnmarshalText /\ blind Asset_UnmarshalText
  /\ blind TimePoint_UnmarshalText /\ blind TimePointSec_UnmarshalText /\ blind BlockTimestamp_UnmarshalText
  /\ (forall sha, blind (PublicKey_UnmarshalText sha)) /\ blind Signature_UnmarshalText
  /\ (forall n, blind (Checksum_UnmarshalText n)) /\ blind (calm Name_UnmarshalText)
  /\ blind Uint128_UnmarshalText /\ blind Int128_UnmarshalText
  /\ blind (calm Uint64_UnmarshalJSON) /\ blind (calm BlockNum_UnmarshalJSON).
Proof.
  repeat match goal with |- _ /\ _ => split end; try (intro; apply on_success_blind); try apply on_success_blind;
    try (intros old old' text v H; exact H).
  - intros n old old' text v. unfold Checksum_UnmarshalText. destruct (hex_Decode text) as [d [e'|]]; [congruence|].
    destruct (_ <? n)%nat; congruence.
  - intros old old' text v. unfold calm, Uint64_UnmarshalJSON. destruct (readUintJSON text) as [w [e|]]; congruence.
  - intros old old' text v. unfold calm, BlockNum_UnmarshalJSON. destruct (readUintJSON text) as [w [e|]];
      destruct (4294967295 <? w); congruence.
Qed.
Print Assumptions C63_blind.

(** The 128-bit integers are set to zero by a rejected text, whatever they held. *)
Theorem C63_zeroed : forall old text v e,
  (Uint128_UnmarshalText old text = Ok (v, Some e) -> v = {| Lo := 0; Hi := 0 |})
  /\ (Int128_UnmarshalText old text = Ok (v, Some e) -> v = {| Lo := 0; Hi := 0 |}).
Proof.
  intros old text v e. unfold Uint128_UnmarshalText, Int128_UnmarshalText, assign_always.
  split; [destruct (NewUint128FromString text)|destruct (NewInt128FromString text)]; congruence.
Qed.
Print Assumptions C63_zeroed.

(** A blob is overwritten by a rejected text with what was decoded before the
    error: the text of any [b] of a multiple of three bytes followed by a
    character outside the alphabet leaves [b] in the target and an error. *)
Lemma blob_prefix b : forall c tail f, (length (base64_EncodeToString b ++ c :: tail) <= f)%nat -> (length b mod 3 = 0)%nat ->
  b64_val c = None -> not_newline c = true ->
  base64_loop f (base64_EncodeToString b ++ c :: tail) = (b, Some ErrB64).
Proof.
  induction b as [|x|x y|x y z b IH] using triple_ind; intros c tail f L M C N; try discriminate M.
  - destruct f as [|f]; [cbn in L; lia|]. cbn [base64_EncodeToString app base64_loop decodeQuantum]. rewrite b64_map_val, C.
    rewrite is_nl_not in N. destruct (is_nl c); [discriminate|]. destruct (negb (Byte.eqb c x3d)); reflexivity.
  - pose proof (zb_range x). pose proof (zb_range y). pose proof (zb_range z).
    destruct f as [|f]; [cbn in L; lia|]. cbn [base64_EncodeToString] in *. cbv zeta in *.
    set (v := zb x * 65536 + zb y * 256 + zb z) in *. cbn [app base64_loop] in *.
    rewrite (quantum4 _ _ _ _ _ (v / 262144) (v / 4096 mod 64) (v / 64 mod 64) (v mod 64)) by (apply b64_char_val; unfold v; lia).
    rewrite IH; auto.
    + destruct (quantum_bytes4 (v / 262144) (v / 4096 mod 64) (v / 64 mod 64) (v mod 64)) as (x' & y' & z' & -> & E); try (unfold v; lia).
      assert (E' : zb x' * 65536 + zb y' * 256 + zb z' = zb x * 65536 + zb y * 256 + zb z) by (fold v; lia).
      apply three_eq in E'. destruct E' as (-> & -> & ->). reflexivity.
    + cbn [length] in L. lia.
    + cbn [length] in M. replace (S (S (S (length b)))) with (length b + 1 * 3)%nat in M by lia. now rewrite Nat.mod_add in M.
Qed.
Theorem C63_blob_refuted : forall b c spare, (length b mod 3 = 0)%nat -> b64_val c = None -> not_newline c = true ->
  let text := Blob_MarshalText b ++ [c] in
  exists e, snd (Blob_UnmarshalText (text ++ spare) (length text)) = (b, Some e).
Proof.
  intros b c spare M C N text. exists ErrB64. rewrite Blob_unfold. cbn [snd].
  rewrite firstn_app, firstn_all, Nat.sub_diag. cbn [firstn]. rewrite app_nil_r. unfold text, base64_DecodeString.
  rewrite <- app_assoc. cbn [app]. unfold Blob_MarshalText. now apply blob_prefix.
Qed.
Print Assumptions C63_blob_refuted.
(** The texts of Name are never rejected; those of Bytes are never reported as
    rejected, and the target is then kept. *)
Theorem C63_silent : forall text,
  (forall old, snd (Name_UnmarshalText old text) = None)
  /\ (forall old, snd (Bytes_UnmarshalText old text) = None)
  /\ ((~ exists b, hex_text text b) -> forall old, fst (Bytes_UnmarshalText old text) = old).
Proof.
  intros text. split; [reflexivity|]. split; intros; [unfold Bytes_UnmarshalText; destruct (hex_Decode text) as [d [e|]]; reflexivity|].
  destruct (PropHex.C25_outcome old text) as [_ K]. now rewrite K.
Qed.
Print Assumptions C63_silent.
(** An accepted Float128 text of fewer than 16 bytes keeps the end of the target. *)
Theorem C63_float128_refuted : forall old b, length old = 16%nat -> (length b < 16)%nat ->
  Float128_UnmarshalText old (hex_EncodeToString b) = (b ++ skipn (length b) old, None).
Proof.
  intros old b L K. destruct (PropHex.C24_float128_outcome old (hex_EncodeToString b) L) as [H _].
  destruct (H b) as [_ H']; [apply hex_Encode_text|]. apply H'. lia.
Qed.
Print Assumptions C63_float128_refuted.

Example C63_ex :
  (exists e, Asset_UnmarshalText {| Value := 7; Sym := 1397703940 |} (str "1.0 eos") = Ok ({| Value := 7; Sym := 1397703940 |}, Some e))
  /\ (exists e, Uint128_UnmarshalText {| Lo := 5; Hi := 0 |} (str "x") = Ok ({| Lo := 0; Hi := 0 |}, Some e))
  /\ Blob_MarshalText (str "abc") = str "YWJj" /\ b64_val x21 = None /\ not_newline x21 = true.
Proof. vm_compute. eauto 10. Qed.
