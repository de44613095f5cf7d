(** C24-C27: hexadecimal and base64 text forms. *)
From Verif Require Import Base BaseProofs GoStd SpecNumbers Hex SpecHex HexProofs.

(** * C24 *)
Theorem C24_checksum_text : forall c,
  hex_text (Checksum_MarshalText c) c /\ Forall lower_hex (Checksum_MarshalText c).
Proof. exact hex_Encode_text. Qed.
Print Assumptions C24_checksum_text.
Theorem C24_checksum_roundtrip : forall n c old, In n [20; 32; 64]%nat -> length c = n ->
  Checksum_UnmarshalText n old (Checksum_MarshalText c) = Ok (c, None).
Proof.
  intros n c old _ L. unfold Checksum_UnmarshalText, Checksum_MarshalText. rewrite hex_roundtrip.
  rewrite L, Nat.ltb_irrefl. rewrite <- L, firstn_all. reflexivity.
Qed.
Print Assumptions C24_checksum_roundtrip.
(** Every hex text is accepted or panics, by length; anything else is an error
    that leaves the target alone. *)
Theorem C24_checksum_outcome : forall n old t,
  (forall b, hex_text t b ->
     ((length b < n)%nat -> exists m, Checksum_UnmarshalText n old t = Panic m)
     /\ ((n <= length b)%nat -> Checksum_UnmarshalText n old t = Ok (firstn n b, None)))
  /\ ((~ exists b, hex_text t b) -> exists e, Checksum_UnmarshalText n old t = Ok (old, Some e)).
Proof.
  intros n old t. unfold Checksum_UnmarshalText. split.
  - intros b H. apply hex_Decode_ok in H. rewrite H. split; intros K.
    + destruct (Nat.ltb_spec (length b) n); [eauto|lia].
    + destruct (Nat.ltb_spec (length b) n); [lia|reflexivity].
  - intros H. destruct (hex_Decode_dec t) as [K|[_ (p & e & ->)]]; [contradiction|eauto].
Qed.
Print Assumptions C24_checksum_outcome.
Theorem C24_float128_roundtrip : forall d old, length d = 16%nat -> length old = 16%nat ->
  Float128_UnmarshalText old (Float128_MarshalText d) = (d, None)
  /\ hex_text (Float128_MarshalText d) d /\ Forall lower_hex (Float128_MarshalText d).
Proof.
  intros d old L K. split; [|apply hex_Encode_text]. unfold Float128_UnmarshalText, Float128_MarshalText. rewrite hex_roundtrip.
  rewrite L, <- K, skipn_all, K, <- L, firstn_all, app_nil_r. reflexivity.
Qed.
Print Assumptions C24_float128_roundtrip.
Theorem C24_float128_outcome : forall old t, length old = 16%nat ->
  (forall b, hex_text t b ->
     ((16 <= length b)%nat -> Float128_UnmarshalText old t = (firstn 16 b, None))
     /\ ((length b <= 16)%nat -> Float128_UnmarshalText old t = (b ++ skipn (length b) old, None)))
  /\ ((~ exists b, hex_text t b) -> exists e, Float128_UnmarshalText old t = (old, Some e)).
Proof.
  intros old t L. unfold Float128_UnmarshalText. split.
  - intros b H. apply hex_Decode_ok in H. rewrite H. split; intros K.
    + rewrite skipn_all2 by lia. now rewrite app_nil_r.
    + now rewrite firstn_all2 by lia.
  - intros H. destruct (hex_Decode_dec t) as [K|[_ (p & e & ->)]]; [contradiction|eauto].
Qed.
Print Assumptions C24_float128_outcome.
Example C24_example : hex_text (str "00fF") [x00; xff] /\ ~ (exists b, hex_text (str "0g") b)
  /\ Checksum_UnmarshalText 20 (repeat x01 20) (str "00ff") = Panic "slice bounds out of range".
Proof.
  split; [apply hex_Decode_ok; vm_compute; reflexivity|]. split; [|vm_compute; reflexivity].
  intros [b H]. apply hex_Decode_ok in H. vm_compute in H. discriminate H.
Qed.

(** * C25 *)
Theorem C25_roundtrip : forall b old, Bytes_UnmarshalText old (Bytes_MarshalText b) = (b, None)
  /\ hex_text (Bytes_MarshalText b) b /\ Forall lower_hex (Bytes_MarshalText b).
Proof.
  intros b old. split; [|apply hex_Encode_text]. unfold Bytes_UnmarshalText, Bytes_MarshalText. now rewrite hex_roundtrip.
Qed.
Print Assumptions C25_roundtrip.
Theorem C25_outcome : forall old t,
  (forall b, hex_text t b -> Bytes_UnmarshalText old t = (b, None))
  /\ ((~ exists b, hex_text t b) -> Bytes_UnmarshalText old t = (old, None)).
Proof.
  intros old t. unfold Bytes_UnmarshalText. split.
  - intros b H. apply hex_Decode_ok in H. now rewrite H.
  - intros H. destruct (hex_Decode_dec t) as [K|[_ (p & e & ->)]]; [contradiction|reflexivity].
Qed.
Print Assumptions C25_outcome.
Example C25_example : Bytes_UnmarshalText [x01] (str "zz") = ([x01], None) /\ Bytes_UnmarshalText [x01] (str "ABcd") = ([xab; xcd], None).
Proof. vm_compute. auto. Qed.

(** * C26 *)
(** The text form is the base64 text of the bytes, padding complete, and it is
    the only text the specification allows. *)
Theorem C26_text : forall b, exists body p, Blob_MarshalText b = body ++ pad p /\ base64_digits body b p.
Proof. exact base64_Encode_text. Qed.
Print Assumptions C26_text.
Theorem C26_text_unique : forall b body p, base64_digits body b p -> Blob_MarshalText b = body ++ pad p.
Proof.
  intros b body p H. destruct (base64_Encode_text b) as (body' & p' & E & H').
  destruct (base64_unique _ _ _ _ _ H H') as [-> ->]. exact E.
Qed.
Print Assumptions C26_text_unique.
(** It is read back whatever number q <= p of its p padding characters is kept,
    and whatever lies behind the text in its backing array. *)
Theorem C26_roundtrip : forall b body p q spare, base64_digits body b p -> (q <= p)%nat ->
  let text := body ++ pad q in
  snd (Blob_UnmarshalText (text ++ spare) (length text)) = (b, None).
Proof.
  intros b body p q spare H Q text. rewrite Blob_unfold. cbn [snd].
  rewrite firstn_app, firstn_all, Nat.sub_diag. cbn [firstn]. rewrite app_nil_r.
  assert (M : missing (length text) = (p - q)%nat).
  { destruct H as (ds & _ & P & L & _). unfold missing, text. rewrite app_length. unfold pad. rewrite repeat_length.
    assert (E : exists k, (length body + q = 4 * k - (p - q))%nat /\ (p - q <= 4 * k)%nat).
    { exists (length body + p - (length b + p))%nat. lia. }
    destruct E as (k & -> & K). assert (p - q = 0 \/ p - q = 1 \/ p - q = 2)%nat as [D|[D|D]] by lia; rewrite D in *.
    - rewrite Nat.sub_0_r, Nat.mul_comm, Nat.mod_mul by lia. reflexivity.
    - destruct k as [|k]; [lia|]. replace (4 * S k - 1)%nat with (3 + k * 4)%nat by lia. rewrite Nat.mod_add by lia. reflexivity.
    - destruct k as [|k]; [lia|]. replace (4 * S k - 2)%nat with (2 + k * 4)%nat by lia. rewrite Nat.mod_add by lia. reflexivity. }
  rewrite M. unfold text, pad. rewrite <- app_assoc, <- repeat_app. replace (q + (p - q))%nat with p by lia.
  now apply decode_digits.
Qed.
Print Assumptions C26_roundtrip.
(** Exactly which texts are accepted: after the padding of a text whose length
    is 2 or 3 mod 4 is completed and line breaks are dropped, it must be base64
    digits and the padding that completes them; the unused low bits are ignored. *)
Theorem C26_accepts : forall text spare b,
  snd (Blob_UnmarshalText (text ++ spare) (length text)) = (b, None) <->
  exists k body p,
    (k = match length text mod 4 with 2 => 2 | 3 => 1 | _ => 0 end)%nat
    /\ filter not_newline (text ++ pad k) = body ++ pad p /\ base64_loose body b p.
Proof.
  intros text spare b. rewrite Blob_unfold. cbn [snd].
  rewrite firstn_app, firstn_all, Nat.sub_diag. cbn [firstn]. rewrite app_nil_r, base64_decode_ok.
  split; [intros (body & p & H); exists (missing (length text)), body, p; split; [reflexivity|exact H]|].
  intros (k & body & p & -> & H). exists body, p. exact H.
Qed.
Print Assumptions C26_accepts.
Example C26_example : Blob_MarshalText [xff] = str "/w==" /\ snd (Blob_UnmarshalText (str "/w") 2) = ([xff], None)
  /\ snd (Blob_UnmarshalText (str "/w=") 3) = ([xff], None) /\ base64_digits (str "/w") [xff] 2.
Proof.
  do 3 (split; [vm_compute; reflexivity|]). exists [63; 48]. vm_compute. repeat split; auto.
Qed.

(** * C27 *)
(** [buf] is the backing array from the start of the argument to its capacity,
    the argument is its first [n] bytes. *)
Theorem C27_argument_kept : forall buf n, (n <= length buf)%nat ->
  firstn n (fst (Blob_UnmarshalText buf n)) = firstn n buf /\ length (fst (Blob_UnmarshalText buf n)) = length buf.
Proof.
  intros buf n H. rewrite Blob_unfold. cbn [fst]. destruct (Nat.leb_spec (n + missing n) (length buf)); [|auto].
  split.
  - rewrite firstn_app, firstn_firstn, Nat.min_id, firstn_length_le, Nat.sub_diag by lia. cbn [firstn]. apply app_nil_r.
  - rewrite !app_length, firstn_length_le, skipn_length by lia. unfold pad. rewrite repeat_length. lia.
Qed.
Print Assumptions C27_argument_kept.
Theorem C27_overwrites : forall text spare,
  let k := (match length text mod 4 with 2 => 2 | 3 => 1 | _ => 0 end)%nat in
  fst (Blob_UnmarshalText (text ++ spare) (length text)) =
  text ++ (if (k <=? length spare)%nat then pad k ++ skipn k spare else spare).
Proof.
  intros text spare k. rewrite Blob_unfold. cbn [fst]. change (missing (length text)) with k. rewrite app_length.
  rewrite firstn_app, firstn_all, Nat.sub_diag. cbn [firstn]. rewrite app_nil_r.
  rewrite skipn_app, (skipn_all2 text) by lia. replace (length text + k - length text)%nat with k by lia.
  destruct (Nat.leb_spec k (length spare)); destruct (Nat.leb_spec (length text + k) (length text + length spare)); try lia; reflexivity.
Qed.
Print Assumptions C27_overwrites.
Example C27_example : fst (Blob_UnmarshalText (str "/w,next") 2) = str "/w==ext" /\ fst (Blob_UnmarshalText (str "/w,") 2) = str "/w,".
Proof. vm_compute. auto. Qed.
