(** RIPEMD-160 as specified by Dobbertin, Bosselaers and Preneel ("RIPEMD-160: A
    Strengthened Version of RIPEMD", 1996): specification. *)
From Verif Require Import Base.

Definition word := Z.                                     (* 0 <= w < 2^32 *)
Definition plus (ws : list word) : word := fold_right Z.add 0 ws mod 2 ^ 32.
Definition neg (w : word) : word := 2 ^ 32 - 1 - w.
(** cyclic left shift *)
Definition rol (s : Z) (w : word) : word := (w * 2 ^ s) mod 2 ^ 32 + w / 2 ^ (32 - s).

(** The nonlinear functions, by round 0..4. *)
Definition f (round : nat) (x y z : word) : word :=
  match round with
  | 0%nat => Z.lxor (Z.lxor x y) z
  | 1%nat => Z.lor (Z.land x y) (Z.land (neg x) z)
  | 2%nat => Z.lxor (Z.lor x (neg y)) z
  | 3%nat => Z.lor (Z.land x z) (Z.land y (neg z))
  | _ => Z.lxor x (Z.lor y (neg z))
  end.
Definition K (round : nat) : word := nth round [0; 0x5a827999; 0x6ed9eba1; 0x8f1bbcdc; 0xa953fd4e] 0.
Definition K' (round : nat) : word := nth round [0x50a28be6; 0x5c4dd124; 0x6d703ef3; 0x7a6d76e9; 0] 0.

(** Message word order: left line id, rho, rho^2, rho^3, rho^4; right line pi,
    rho pi, rho^2 pi, rho^3 pi, rho^4 pi, where pi(i) = 9i + 5 mod 16. *)
Definition rho (i : nat) : nat := nth i [7; 4; 13; 1; 10; 6; 15; 3; 12; 0; 9; 5; 2; 14; 11; 8]%nat 0%nat.
Definition pi (i : nat) : nat := ((9 * i + 5) mod 16)%nat.
Fixpoint rho_n (n i : nat) : nat := match n with O => i | S n => rho (rho_n n i) end.
Definition r (round k : nat) : nat := rho_n round k.
Definition r' (round k : nat) : nat := rho_n round (pi k).

(** The shift depends on the round and the message word, in both lines. *)
Definition shift (round w : nat) : Z :=
  nth w (nth round
    [[11; 14; 15; 12; 5; 8; 7; 9; 11; 13; 14; 15; 6; 7; 9; 8];
     [12; 13; 11; 15; 6; 9; 9; 7; 12; 15; 11; 13; 7; 8; 7; 7];
     [13; 15; 14; 11; 7; 7; 6; 8; 13; 14; 13; 12; 5; 5; 6; 9];
     [14; 11; 12; 14; 8; 6; 5; 5; 15; 12; 15; 14; 9; 9; 8; 6];
     [15; 12; 13; 13; 9; 5; 8; 6; 14; 11; 12; 11; 8; 6; 5; 5]] []) 0.

Definition vars : Type := word * word * word * word * word.    (* A B C D E *)
Definition step (f : word -> word -> word -> word) (X K : word) (s : Z) (v : vars) : vars :=
  let '(A, B, C, D, E) := v in
  let T := plus [rol s (plus [A; f B C D; X; K]); E] in
  (E, T, B, rol 10 C, D).
(** Step j = 16 * round + k. *)
Definition left_line (X : nat -> word) (v : vars) : vars :=
  fold_left (fun v j => let '(round, k) := (j / 16, j mod 16)%nat in
    step (f round) (X (r round k)) (K round) (shift round (r round k)) v) (seq 0 80) v.
Definition right_line (X : nat -> word) (v : vars) : vars :=
  fold_left (fun v j => let '(round, k) := (j / 16, j mod 16)%nat in
    step (f (4 - round)) (X (r' round k)) (K' round) (shift round (r' round k)) v) (seq 0 80) v.

Definition compress (h : vars) (X : nat -> word) : vars :=
  let '(h0, h1, h2, h3, h4) := h in
  let '(A, B, C, D, E) := left_line X h in
  let '(A', B', C', D', E') := right_line X h in
  (plus [h1; C; D'], plus [h2; D; E'], plus [h3; E; A'], plus [h4; A; B'], plus [h0; B; C']).

(** Little-endian words *)
Definition le_word (b : list byte) : word := fold_right (fun c a => zb c + 256 * a) 0 b.
Definition word_bytes (w : word) : list byte := [bz w; bz (w / 2 ^ 8); bz (w / 2 ^ 16); bz (w / 2 ^ 24)].
Definition words (block : list byte) (i : nat) : word := le_word (firstn 4 (skipn (4 * i) block)).

(** The message, one bit 1, the fewest zero bits that leave 64 bits in the last
    block, the bit length modulo 2^64 as two little-endian words. *)
Definition padding_zeros (n : nat) : nat := ((119 - n mod 64) mod 64)%nat.
Definition padded (m : list byte) : list byte :=
  let bits := 8 * zlen m in
  m ++ [x80] ++ zeros (padding_zeros (length m)) ++ word_bytes (bits mod 2 ^ 32) ++ word_bytes (bits / 2 ^ 32 mod 2 ^ 32).

(** Cut into blocks of 64 bytes; an incomplete last block would be dropped. *)
Fixpoint blocks (n : nat) (m : list byte) : list (list byte) :=
  match n with O => [] | S n => firstn 64 m :: blocks n (skipn 64 m) end.
Definition h_init : vars := (0x67452301, 0xefcdab89, 0x98badcfe, 0x10325476, 0xc3d2e1f0).
Definition ripemd160 (m : list byte) : list byte :=
  let p := padded m in
  let '(h0, h1, h2, h3, h4) := fold_left (fun h b => compress h (words b)) (blocks (length p / 64) p) h_init in
  word_bytes h0 ++ word_bytes h1 ++ word_bytes h2 ++ word_bytes h3 ++ word_bytes h4.
