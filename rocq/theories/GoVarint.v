(** encoding/binary varints (Go standard library, encoding/binary/varint.go). *)
From Verif Require Import Base Prog.

(** binary.PutUvarint into a buffer of [cap] bytes; [None] = index out of range. *)
Fixpoint PutUvarint (cap : nat) (x : Z) : option (list byte) :=
  match cap with
  | O => None
  | S c =>
      if x >=? 128
      then match PutUvarint c (Z.shiftr x 7) with
           | Some r => Some (bz (Z.lor x 128) :: r)
           | None => None
           end
      else Some [bz x]
  end.

(** binary.PutVarint: ux := uint64(x) << 1; if x < 0 { ux = ^ux }. *)
Definition PutVarint (cap : nat) (x : Z) : option (list byte) :=
  let ux := u64 (Z.shiftl (u64 x) 1) in
  let ux := if x <? 0 then u64 (Z.lnot ux) else ux in
  PutUvarint cap ux.

(** binary.ReadUvarint.  [left] counts the iterations left of
    [for i := 0; i < MaxVarintLen64; i++], so i = 10 - left.  Older Go releases
    return the reader's error unchanged; newer ones turn an io.EOF that comes
    after the first byte into io.ErrUnexpectedEOF ([DGo] asks which). *)
Fixpoint ReadUvarint_loop (readByte : io Z) (left : nat) (x s : Z) : io Z :=
  match left with
  | O => DRet (x, Some (ErrMsg "binary: varint overflows a 64-bit integer"))
  | S left' =>
      '(b, err) <-- readByte ;;
      match err with
      | Some e =>
          DGo (fun strict =>
            match e with
            | EOF => if strict && negb (Nat.eqb left 10)
                     then DRet (x, Some ErrUnexpectedEOF)
                     else DRet (x, Some EOF)
            | _ => DRet (x, Some e)
            end)
      | None =>
          if b <? 128
          then if (Nat.eqb left 1) && (b >? 1)
               then DRet (x, Some (ErrMsg "binary: varint overflows a 64-bit integer"))
               else DRet (Z.lor x (u64 (Z.shiftl b s)), None)
          else ReadUvarint_loop readByte left'
                 (Z.lor x (u64 (Z.shiftl (Z.land b 127) s))) (s + 7)
      end
  end.
Definition ReadUvarint (readByte : io Z) : io Z := ReadUvarint_loop readByte 10 0 0.

(** binary.ReadVarint: x := int64(ux >> 1); if ux&1 != 0 { x = ^x }. *)
Definition ReadVarint (readByte : io Z) : io Z :=
  '(ux, err) <-- ReadUvarint readByte ;;
  let x := i64 (Z.shiftr ux 1) in
  DRet (if Z.land ux 1 =? 0 then x else Z.lnot x, err).
