(** pkg/ripemd160: the hash as the package computes it. *)
From Verif Require Import Base.

(** uint32 operations *)
Definition add32 (a b : Z) : Z := u32 (a + b).
Definition not32 (a : Z) : Z := Z.lxor a 4294967295.                        (* ^a *)
Definition RotateLeft32 (x k : Z) : Z := Z.lor (u32 (Z.shiftl x k)) (Z.shiftr x (32 - k)).  (* math/bits, 0 < k < 32 *)

(** ripemd160.go:22-28 *)
Definition s0 : Z := 0x67452301.
Definition s1 : Z := 0xefcdab89.
Definition s2 : Z := 0x98badcfe.
Definition s3 : Z := 0x10325476.
Definition s4 : Z := 0xc3d2e1f0.

(** ripemd160block.go:8-39 *)
Definition n_l : list Z :=
  [0; 1; 2; 3; 4; 5; 6; 7; 8; 9; 10; 11; 12; 13; 14; 15;
   7; 4; 13; 1; 10; 6; 15; 3; 12; 0; 9; 5; 2; 14; 11; 8;
   3; 10; 14; 4; 9; 15; 8; 1; 2; 7; 0; 6; 13; 11; 5; 12;
   1; 9; 11; 10; 0; 8; 12; 4; 13; 3; 7; 15; 14; 5; 6; 2;
   4; 0; 5; 9; 7; 12; 2; 10; 14; 1; 3; 8; 11; 6; 15; 13].
Definition r_l : list Z :=
  [11; 14; 15; 12; 5; 8; 7; 9; 11; 13; 14; 15; 6; 7; 9; 8;
   7; 6; 8; 13; 11; 9; 7; 15; 7; 12; 15; 9; 11; 7; 13; 12;
   11; 13; 6; 7; 14; 9; 13; 15; 14; 8; 13; 6; 5; 12; 7; 5;
   11; 12; 14; 15; 14; 15; 9; 8; 9; 14; 5; 6; 8; 6; 5; 12;
   9; 15; 5; 11; 6; 8; 13; 12; 5; 12; 13; 14; 11; 8; 5; 6].
Definition n_r : list Z :=
  [5; 14; 7; 0; 9; 2; 11; 4; 13; 6; 15; 8; 1; 10; 3; 12;
   6; 11; 3; 7; 0; 13; 5; 10; 14; 15; 8; 12; 4; 9; 1; 2;
   15; 5; 1; 3; 7; 14; 6; 9; 11; 8; 12; 2; 10; 0; 4; 13;
   8; 6; 4; 1; 3; 11; 15; 0; 5; 12; 2; 13; 9; 7; 10; 14;
   12; 15; 10; 4; 1; 5; 8; 7; 6; 2; 13; 14; 0; 3; 9; 11].
Definition r_r : list Z :=
  [8; 9; 9; 11; 13; 15; 15; 5; 7; 7; 8; 11; 14; 14; 12; 6;
   9; 13; 15; 7; 12; 8; 9; 11; 7; 7; 12; 7; 6; 15; 13; 11;
   9; 7; 15; 11; 8; 6; 6; 14; 12; 13; 5; 14; 13; 13; 7; 5;
   15; 5; 8; 11; 14; 14; 6; 14; 6; 9; 12; 9; 12; 5; 15; 8;
   8; 5; 12; 9; 12; 5; 14; 6; 8; 13; 6; 5; 15; 13; 11; 11].
Definition tab (t : list Z) (i : nat) : Z := nth i t 0.

(** The running context md.s, and the five working variables of one line. *)
Record five : Type := F5 { w0 : Z; w1 : Z; w2 : Z; w3 : Z; w4 : Z }.

(** ripemd160block.go:49-52: x[i], little-endian *)
Definition load (p : list byte) (i : nat) : Z :=
  let b k := zb (nth (4 * i + k) p x00) in
  Z.lor (Z.lor (Z.lor (b 0%nat) (Z.shiftl (b 1%nat) 8)) (Z.shiftl (b 2%nat) 16)) (Z.shiftl (b 3%nat) 24).

(** The tail common to all ten lines (e.g. ripemd160block.go:58-61):
    alpha = RotateLeft32(alpha, s) + e; beta = RotateLeft32(c, 10);
    a, b, c, d, e = e, alpha, b, beta, d *)
Definition line (v : five) (alpha s : Z) : five :=
  let alpha := add32 (RotateLeft32 alpha s) (w4 v) in
  let beta := RotateLeft32 (w2 v) 10 in
  F5 (w4 v) alpha (w1 v) beta (w3 v).

(** In the rounds [x] is the array of the sixteen words. *)
Definition xw (x : nat -> Z) (n : Z) : Z := x (Z.to_nat n).

(** round 1, :57-70 *)
Definition left1 (x : nat -> Z) (i : nat) (v : five) : five :=
  line v (add32 (add32 (w0 v) (Z.lxor (Z.lxor (w1 v) (w2 v)) (w3 v))) (xw x (tab n_l i))) (tab r_l i).
Definition right1 (x : nat -> Z) (i : nat) (v : five) : five :=
  line v (add32 (add32 (add32 (w0 v) (Z.lxor (w1 v) (Z.lor (w2 v) (not32 (w3 v))))) (xw x (tab n_r i))) 0x50a28be6) (tab r_r i).
(** round 2, :74-88 *)
Definition left2 (x : nat -> Z) (i : nat) (v : five) : five :=
  line v (add32 (add32 (add32 (w0 v) (Z.lor (Z.land (w1 v) (w2 v)) (Z.land (not32 (w1 v)) (w3 v)))) (xw x (tab n_l i))) 0x5a827999) (tab r_l i).
Definition right2 (x : nat -> Z) (i : nat) (v : five) : five :=
  line v (add32 (add32 (add32 (w0 v) (Z.lor (Z.land (w1 v) (w3 v)) (Z.ldiff (w2 v) (w3 v)))) (xw x (tab n_r i))) 0x5c4dd124) (tab r_r i).
(** round 3, :92-106; in Go [|] and binary [^] have the same precedence *)
Definition left3 (x : nat -> Z) (i : nat) (v : five) : five :=
  line v (add32 (add32 (add32 (w0 v) (Z.lxor (Z.lor (w1 v) (not32 (w2 v))) (w3 v))) (xw x (tab n_l i))) 0x6ed9eba1) (tab r_l i).
Definition right3 (x : nat -> Z) (i : nat) (v : five) : five :=
  line v (add32 (add32 (add32 (w0 v) (Z.lxor (Z.lor (w1 v) (not32 (w2 v))) (w3 v))) (xw x (tab n_r i))) 0x6d703ef3) (tab r_r i).
(** round 4, :110-124 *)
Definition left4 (x : nat -> Z) (i : nat) (v : five) : five :=
  line v (add32 (add32 (add32 (w0 v) (Z.lor (Z.land (w1 v) (w3 v)) (Z.ldiff (w2 v) (w3 v)))) (xw x (tab n_l i))) 0x8f1bbcdc) (tab r_l i).
Definition right4 (x : nat -> Z) (i : nat) (v : five) : five :=
  line v (add32 (add32 (add32 (w0 v) (Z.lor (Z.land (w1 v) (w2 v)) (Z.land (not32 (w1 v)) (w3 v)))) (xw x (tab n_r i))) 0x7a6d76e9) (tab r_r i).
(** round 5, :128-142 *)
Definition left5 (x : nat -> Z) (i : nat) (v : five) : five :=
  line v (add32 (add32 (add32 (w0 v) (Z.lxor (w1 v) (Z.lor (w2 v) (not32 (w3 v))))) (xw x (tab n_l i))) 0xa953fd4e) (tab r_l i).
Definition right5 (x : nat -> Z) (i : nat) (v : five) : five :=
  line v (add32 (add32 (w0 v) (Z.lxor (Z.lxor (w1 v) (w2 v)) (w3 v))) (xw x (tab n_r i))) (tab r_r i).

(** for i < hi { ... i++ } starting at lo, both lines *)
Definition loop (lo : nat) (l r : nat -> five -> five) (v : five * five) : five * five :=
  fold_left (fun v i => (l i (fst v), r i (snd v))) (seq lo 16) v.

(** One iteration of the block loop, :46-152 *)
Definition block (x : nat -> Z) (md : five) : five :=
  let v := loop 0 (left1 x) (right1 x) (md, md) in
  let v := loop 16 (left2 x) (right2 x) v in
  let v := loop 32 (left3 x) (right3 x) v in
  let v := loop 48 (left4 x) (right4 x) v in
  let v := loop 64 (left5 x) (right5 x) v in
  let (l, r) := v in
  (* combine results, :145-151 *)
  let dd := add32 (w3 r) (add32 (w2 l) (w1 md)) in
  F5 dd
     (add32 (add32 (w2 md) (w3 l)) (w4 r))
     (add32 (add32 (w3 md) (w4 l)) (w0 r))
     (add32 (add32 (w4 md) (w0 l)) (w1 r))
     (add32 (add32 (w0 md) (w1 l)) (w2 r)).

(** ripemd160block.go:41-157 _Block: the new context and the number of bytes
    consumed; the length of p is enough fuel. *)
Fixpoint Block (fuel : nat) (md : five) (p : list byte) : five * nat :=
  match fuel with
  | O => (md, O)
  | S fuel =>
      if (64 <=? length p)%nat then
        let (md', n) := Block fuel (block (load p) md) (skipn 64 p) in (md', (64 + n)%nat)
      else (md, O)
  end.
Definition Block_ (md : five) (p : list byte) : five * nat := Block (length p) md p.

(** ripemd160.go:31-36 *)
Record digest : Type := Digest { ds : five; dx : list byte; nx : nat; tc : Z }.

(** ripemd160.go:38-42 (x is left alone) *)
Definition Reset (d : digest) : digest := Digest (F5 s0 s1 s2 s3 s4) (dx d) 0 0.
(** ripemd160.go:45-49 *)
Definition New : digest := Reset (Digest (F5 0 0 0 0 0) (zeros 64) 0 0).

(** x with p written at offset i *)
Definition blit (x : list byte) (i : nat) (p : list byte) : list byte :=
  firstn i x ++ p ++ skipn (i + length p) x.

(** ripemd160.go:55-79: the digest afterwards and nn; the error is always nil *)
Definition Write (d : digest) (p : list byte) : digest * nat :=
  let nn := length p in
  let d := Digest (ds d) (dx d) (nx d) (u64 (tc d + zlen p)) in
  let '(d, p) :=
    if (0 <? nx d)%nat then
      let n := Nat.min (length p) (64 - nx d) in
      let x := blit (dx d) (nx d) (firstn n p) in
      let nx' := (nx d + n)%nat in
      let d := if (nx' =? 64)%nat then Digest (fst (Block_ (ds d) x)) x 0 (tc d)
               else Digest (ds d) x nx' (tc d) in
      (d, skipn n p)
    else (d, p) in
  let (s, n) := Block_ (ds d) p in
  let p := skipn n p in
  let d := Digest s (dx d) (nx d) (tc d) in
  let d := match p with
           | [] => d
           | _ => let c := firstn 64 p in Digest (ds d) (blit (dx d) 0 c) (length c) (tc d)
           end in
  (d, nn).

(** ripemd160.go:106-112 *)
Definition put32 (s : Z) : list byte := [bz s; bz (Z.shiftr s 8); bz (Z.shiftr s 16); bz (Z.shiftr s 24)].

(** ripemd160.go:81-115; the receiver is copied, so it is not part of the result *)
Definition Sum (d : digest) (inn : list byte) : res (list byte) :=
  let t := tc d in
  let tmp := x80 :: zeros 63 in
  let (d, _) :=
    if t mod 64 <? 56 then Write d (firstn (Z.to_nat (56 - t mod 64)) tmp)
    else Write d (firstn (Z.to_nat (64 + 56 - t mod 64)) tmp) in
  let t := u64 (Z.shiftl t 3) in
  let len := map (fun i => bz (Z.shiftr t (8 * Z.of_nat i))) (seq 0 8) in
  let (d, _) := Write d len in
  if negb (nx d =? 0)%nat then Panic "d.nx != 0"
  else
    let s := ds d in
    Ok (inn ++ put32 (w0 s) ++ put32 (w1 s) ++ put32 (w2 s) ++ put32 (w3 s) ++ put32 (w4 s)).
