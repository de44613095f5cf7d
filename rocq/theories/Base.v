(** Bytes, Go integers, errors and results.

    Conventions used by the whole model:
    - a Go [string] and a Go [[]byte] are [list byte];
    - Go integers are [Z]; conversions and arithmetic that can wrap are written
      with the explicit wrap functions below;
    - [int]/[uint] are 64 bit (the model fixes a 64-bit platform);
    - a Go [error] is [option gerr] ([None] = nil); a Go panic is an explicit
      outcome, never an error value. *)
From Coq Require Export String.
From Coq Require Export List ZArith Lia Bool.
From Coq.Strings Require Byte.
Export Coq.Init.Byte.
From Coq Require Export ZifyBool ZifyNat ZifyN.
Export ListNotations.
#[global] Open Scope Z_scope.

(** ** Bytes *)

Definition zb (b : byte) : Z := Z.of_N (Byte.to_N b).

(** Go's conversion [byte(x)]: the low eight bits. *)
Definition bz (z : Z) : byte :=
  match Byte.of_N (Z.to_N (z mod 256)) with
  | Some b => b
  | None => x00
  end.

(** Go string literals. *)
Definition str (s : string) : list byte := String.list_byte_of_string s.

Definition zlen {A} (l : list A) : Z := Z.of_nat (length l).

(** ** Go integer conversions *)
Notation two8  := 256 (only parsing).
Notation two16 := 65536 (only parsing).
Notation two32 := 4294967296 (only parsing).
Notation two63 := 9223372036854775808 (only parsing).
Notation two64 := 18446744073709551616 (only parsing).

Definition u8  (z : Z) : Z := z mod 256.
Definition u16 (z : Z) : Z := z mod 65536.
Definition u32 (z : Z) : Z := z mod 4294967296.
Definition u64 (z : Z) : Z := z mod 18446744073709551616.
(** Two's complement reinterpretation: int8(x), int16(x), int32(x), int64(x), int(x). *)
Definition i8  (z : Z) : Z := (z + 128) mod 256 - 128.
Definition i16 (z : Z) : Z := (z + 32768) mod 65536 - 32768.
Definition i32 (z : Z) : Z := (z + 2147483648) mod 4294967296 - 2147483648.
Definition i64 (z : Z) : Z := (z + 9223372036854775808) mod 18446744073709551616 - 9223372036854775808.

(** ** Errors and results *)
Inductive gerr : Type :=
| EOF                      (* io.EOF *)
| ErrUnexpectedEOF         (* io.ErrUnexpectedEOF *)
| ErrIO (k : Z)            (* any other error of the underlying reader / writer *)
| ErrMsg (s : string).     (* errors.New / fmt.Errorf; messages abbreviated *)

(** Result of a pure Go function returning (T, error) when the value returned
    beside a non-nil error is not used, or panicking. *)
Inductive res (A : Type) : Type :=
| Ok (a : A)
| Err (e : gerr)
| Panic (m : string).
Arguments Ok {A} a.
Arguments Err {A} e.
Arguments Panic {A} m.

Definition rbind {A B} (r : res A) (f : A -> res B) : res B :=
  match r with
  | Ok a => f a
  | Err e => Err e
  | Panic m => Panic m
  end.

(** ** Little- and big-endian byte strings (encoding/binary ByteOrder) *)

(** binary.LittleEndian.PutUintN: byte i is byte(v >> 8i). *)
Fixpoint le_put (n : nat) (v : Z) : list byte :=
  match n with
  | O => []
  | S n => bz v :: le_put n (Z.shiftr v 8)
  end.

(** binary.LittleEndian.UintN: b[0] | b[1]<<8 | ... *)
Fixpoint le_get (bs : list byte) : Z :=
  match bs with
  | [] => 0
  | b :: bs => Z.lor (zb b) (Z.shiftl (le_get bs) 8)
  end.

(** binary.BigEndian.PutUintN / UintN. *)
Definition be_put (n : nat) (v : Z) : list byte := rev (le_put n v).
Definition be_get (bs : list byte) : Z := le_get (rev bs).

(** ** Small list helpers *)
Fixpoint bytes_eqb (a b : list byte) : bool :=
  match a, b with
  | [], [] => true
  | x :: a, y :: b => Byte.eqb x y && bytes_eqb a b
  | _, _ => false
  end.

Definition zeros (n : nat) : list byte := repeat x00 n.

(** s[i] for a Go string or slice; [None] = index out of range panic. *)
Definition at_ {A} (l : list A) (i : Z) : option A :=
  if i <? 0 then None else nth_error l (Z.to_nat i).
