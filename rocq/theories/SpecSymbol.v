(** Symbols and asset amounts: specification. *)
From Verif Require Import Base SpecText.
From Verif Require Chain.

Definition upper (c : byte) : Prop := 65 <= zb c <= 90.
(** A symbol name: at most seven letters A-Z. *)
Definition symbol_name (s : list byte) : Prop := (length s <= 7)%nat /\ Forall upper s.
(** Its packed code: one letter per byte, first letter lowest. *)
Fixpoint name_code (s : list byte) : Z :=
  match s with [] => 0 | c :: s => zb c + 256 * name_code s end.
(** The symbol with [p] decimals: precision in the low byte, code above. *)
Definition symbol_of (p : Z) (name : list byte) : Z := p + 256 * name_code name.

(** Text of an amount:  [-] ip [. fp]  with at least one digit. *)
Definition amount_text (s : list byte) (value decimals : Z) : Prop :=
  exists (neg point : bool) (ip fp : list byte),
    s = (if neg then [x2d] else []) ++ ip ++ (if point then x2e :: fp else [])
    /\ digits ip /\ digits fp /\ (point = false -> fp = []) /\ ip ++ fp <> []
    /\ decimals = zlen fp
    /\ value = (if neg then - dec_val (ip ++ fp) else dec_val (ip ++ fp)).

(** Text of an asset. *)
Definition asset_text (s : list byte) (value decimals : Z) (name : list byte) : Prop :=
  exists amount, s = amount ++ x20 :: name /\ amount_text amount value decimals.

(** The canonical text: integer part without superfluous zeros, exactly [decimals]
    fraction digits, no point when there are none. *)
Definition canonical_asset (s : list byte) (value decimals : Z) (name : list byte) : Prop :=
  exists ip fp,
    s = (if value <? 0 then [x2d] else []) ++ ip ++ (if 0 <? decimals then x2e :: fp else []) ++ x20 :: name
    /\ digits fp /\ zlen fp = decimals
    /\ numeral (Z.abs value / 10 ^ decimals) ip /\ dec_val fp = Z.abs value mod 10 ^ decimals.
