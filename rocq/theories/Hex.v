(** encoding/hex and encoding/base64 (library models) and the text forms of
    Checksum160/256/512, Float128, Bytes and Blob. *)
From Verif Require Import Base GoStd.

(** ** encoding/hex *)
Definition hex_digit (d : Z) : byte := if d <? 10 then bz (48 + d) else bz (87 + d).  (* "0123456789abcdef" *)
Fixpoint hex_EncodeToString (b : list byte) : list byte :=
  match b with
  | [] => []
  | c :: b => hex_digit (zb c / 16) :: hex_digit (zb c mod 16) :: hex_EncodeToString b
  end.
Definition fromHexChar (c : byte) : option Z :=
  if (48 <=? zb c) && (zb c <=? 57) then Some (zb c - 48)
  else if (97 <=? zb c) && (zb c <=? 102) then Some (zb c - 97 + 10)
  else if (65 <=? zb c) && (zb c <=? 70) then Some (zb c - 65 + 10)
  else None.
Definition ErrHexByte : gerr := ErrMsg "encoding/hex: invalid byte".
Definition ErrHexLength : gerr := ErrMsg "encoding/hex: odd length hex string".
(** hex.Decode: the bytes written so far and the error *)
Fixpoint hex_Decode (src : list byte) : list byte * option gerr :=
  match src with
  | [] => ([], None)
  | [c] => ([], Some (match fromHexChar c with Some _ => ErrHexLength | None => ErrHexByte end))
  | c :: d :: src =>
      match fromHexChar c, fromHexChar d with
      | Some a, Some b =>
          let (rest, err) := hex_Decode src in (bz (a * 16 + b) :: rest, err)
      | _, _ => ([], Some ErrHexByte)
      end
  end.

(** ** Checksums, chain/checksum.go; [n] is 20, 32 or 64 *)
(** checksum.go:51-61, :105-115 String / MarshalText *)
Definition Checksum_MarshalText (c : list byte) : list byte := hex_EncodeToString c.
(** checksum.go:119-126, :128-135, :137-144 UnmarshalText: data[:n] panics when the
    decoded data is shorter than n bytes (make gives it no spare capacity). *)
Definition Checksum_UnmarshalText (n : nat) (old : list byte) (text : list byte)
  : res (list byte * option gerr) :=
  match hex_Decode text with
  | (_, Some e) => Ok (old, Some e)
  | (data, None) =>
      if (length data <? n)%nat then Panic "slice bounds out of range" else Ok (firstn n data, None)
  end.

(** ** Float128, chain/numbers.go *)
(** numbers.go:203-205 *)
Definition Float128_MarshalText (d : list byte) : list byte := hex_EncodeToString d.
(** numbers.go:221-227: copy(f128.Data[:], b) *)
Definition Float128_UnmarshalText (old : list byte) (text : list byte) : list byte * option gerr :=
  match hex_Decode text with
  | (_, Some e) => (old, Some e)
  | (b, None) => (firstn 16 b ++ skipn (length b) old, None)
  end.

(** ** Bytes, chain/bytes.go *)
(** bytes.go:13-15, :45-47 *)
Definition Bytes_MarshalText (b : list byte) : list byte := hex_EncodeToString b.
(** bytes.go:51-58: the error of hex.Decode is dropped *)
Definition Bytes_UnmarshalText (old : list byte) (text : list byte) : list byte * option gerr :=
  match hex_Decode text with
  | (data, None) => (data, None)
  | (_, Some _) => (old, None)
  end.

(** ** encoding/base64, StdEncoding *)
(** the alphabet A-Z a-z 0-9 + / *)
Definition b64_char (d : Z) : byte :=
  if d <? 26 then bz (65 + d) else if d <? 52 then bz (71 + d)
  else if d <? 62 then bz (d - 4) else if d =? 62 then x2b else x2f.
Definition b64_map (c : byte) : option Z :=
  if (65 <=? zb c) && (zb c <=? 90) then Some (zb c - 65)
  else if (97 <=? zb c) && (zb c <=? 122) then Some (zb c - 71)
  else if (48 <=? zb c) && (zb c <=? 57) then Some (zb c + 4)
  else if zb c =? 43 then Some 62 else if zb c =? 47 then Some 63 else None.

(** EncodeToString; the bit operations are written arithmetically. *)
Fixpoint base64_EncodeToString (b : list byte) : list byte :=
  match b with
  | [] => []
  | [x] => let v := zb x * 65536 in
      [b64_char (v / 262144); b64_char (v / 4096 mod 64); x3d; x3d]
  | [x; y] => let v := zb x * 65536 + zb y * 256 in
      [b64_char (v / 262144); b64_char (v / 4096 mod 64); b64_char (v / 64 mod 64); x3d]
  | x :: y :: z :: b => let v := zb x * 65536 + zb y * 256 + zb z in
      b64_char (v / 262144) :: b64_char (v / 4096 mod 64) :: b64_char (v / 64 mod 64) :: b64_char (v mod 64)
        :: base64_EncodeToString b
  end.

Definition is_nl (c : byte) : bool := (zb c =? 10) || (zb c =? 13).
Fixpoint skip_nl (s : list byte) : list byte :=
  match s with [] => [] | c :: s' => if is_nl c then skip_nl s' else s end.
Definition ErrB64 : gerr := ErrMsg "illegal base64 data".

(** Result of one decodeQuantum: bytes written, rest of the input, error. *)
Definition quantum_bytes (vals : list Z) : list byte :=
  let v := nth 0 vals 0 * 262144 + nth 1 vals 0 * 4096 + nth 2 vals 0 * 64 + nth 3 vals 0 in
  firstn (length vals - 1) [bz (v / 65536); bz (v / 256); bz v].
Fixpoint decodeQuantum (src : list byte) (vals : list Z) : list byte * list byte * option gerr :=
  match src with
  | [] => match vals with [] => ([], [], None) | _ => ([], [], Some ErrB64) end
  | c :: src =>
      match b64_map c with
      | Some v =>
          let vals := vals ++ [v] in
          if (length vals =? 4)%nat then (quantum_bytes vals, src, None) else decodeQuantum src vals
      | None =>
          if is_nl c then decodeQuantum src vals
          else if negb (Byte.eqb c x3d) then ([], src, Some ErrB64)
          else
            let finish src :=
              let src := skip_nl src in
              (quantum_bytes vals, src, match src with [] => None | _ => Some ErrB64 end) in
            match length vals with
            | 0%nat | 1%nat => ([], src, Some ErrB64)
            | 2%nat =>
                match skip_nl src with
                | [] => ([], [], Some ErrB64)
                | c2 :: src2 => if Byte.eqb c2 x3d then finish src2 else ([], src2, Some ErrB64)
                end
            | _ => finish src
            end
      end
  end.
(** Decode: quantum after quantum (the 8- and 4-byte fast paths of the library
    compute the same and are not modelled).  Every quantum consumes input, so the
    length is enough fuel. *)
Fixpoint base64_loop (fuel : nat) (src : list byte) : list byte * option gerr :=
  match fuel with
  | O => ([], None)
  | S fuel =>
      match src with
      | [] => ([], None)
      | _ =>
          let '(out, rest, err) := decodeQuantum src [] in
          match err with
          | Some e => (out, Some e)
          | None => let (out2, err2) := base64_loop fuel rest in (out ++ out2, err2)
          end
      end
  end.
Definition base64_DecodeString (s : list byte) : list byte * option gerr := base64_loop (length s) s.

(** ** Blob, chain/blob.go *)
(** blob.go:14-16, :46-48 *)
Definition Blob_MarshalText (b : list byte) : list byte := base64_EncodeToString b.

(** Go's append(s, xs...) on a slice that is the first [n] bytes of the array
    [buf] (up to its capacity): the array afterwards and the resulting slice. *)
Definition append_slice (buf : list byte) (n : nat) (xs : list byte) : list byte * list byte :=
  let out := firstn n buf ++ xs in
  if (n + length xs <=? length buf)%nat
  then (out ++ skipn (n + length xs) buf, out)
  else (buf, out).

(** blob.go:52-63 UnmarshalText: the argument is the first [n] bytes of [buf].
    Results: the array afterwards, the new target and the error; the target is
    assigned whatever the error. *)
Definition Blob_UnmarshalText (buf : list byte) (n : nat) : list byte * (list byte * option gerr) :=
  let '(buf', text) :=
    match (n mod 4)%nat with
    | 2%nat => append_slice buf n [x3d; x3d]
    | 3%nat => append_slice buf n [x3d]
    | _ => (buf, firstn n buf)
    end in
  (buf', base64_DecodeString text).
