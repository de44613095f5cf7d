(** 128-bit numbers: specification. *)
From Verif Require Import Base.
From Verif Require Import Chain.

(** Number denoted by bytes, most significant first. *)
Definition be_value (bs : list byte) : Z := fold_left (fun a b => 256 * a + zb b) bs 0.

Definition u128_value (u : U128) : Z := Hi u * 2 ^ 64 + Lo u.
(** Two's complement reading. *)
Definition i128_value (u : U128) : Z :=
  if u128_value u <? 2 ^ 127 then u128_value u else u128_value u - 2 ^ 128.
Definition u128_ok (u : U128) : Prop := 0 <= Lo u < 2 ^ 64 /\ 0 <= Hi u < 2 ^ 64.
