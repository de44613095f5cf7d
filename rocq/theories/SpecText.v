(** Decimal numerals: specification. *)
From Verif Require Import Base.

Definition digit (c : byte) : Prop := 48 <= zb c <= 57.
Definition digits (s : list byte) : Prop := Forall digit s.
(** Value of a digit string. *)
Fixpoint dec_val_from (acc : Z) (s : list byte) : Z :=
  match s with [] => acc | c :: s => dec_val_from (10 * acc + (zb c - 48)) s end.
Definition dec_val (s : list byte) : Z := dec_val_from 0 s.

(** [s] is the usual decimal numeral of [n >= 0]: no superfluous leading zero. *)
Definition numeral (n : Z) (s : list byte) : Prop :=
  s <> [] /\ digits s /\ dec_val s = n /\ (forall t, s = x30 :: t -> t = []).
(** ... of any integer *)
Definition int_numeral (n : Z) (s : list byte) : Prop :=
  (0 <= n /\ numeral n s) \/ (n < 0 /\ exists t, s = x2d :: t /\ numeral (- n) t).

(** Any decimal spelling with an optional sign. *)
Inductive int_text : list byte -> Z -> Prop :=
| int_plain s : s <> [] -> digits s -> int_text s (dec_val s)
| int_plus s : s <> [] -> digits s -> int_text (x2b :: s) (dec_val s)
| int_minus s : s <> [] -> digits s -> int_text (x2d :: s) (- dec_val s).
