(** Specification of how far a decoder reads. *)
From Verif Require Import Base Prog.

(** What has arrived at the reader so far: the bytes [c], in pieces of any size (some
    perhaps empty), and no error yet. *)
Inductive arrived : list chunk -> list byte -> Prop :=
| ar_nil : arrived [] []
| ar_cons d cs c : arrived cs c -> arrived ({| c_data := d; c_err := None |} :: cs) (d ++ c).
(** Run on a reader at which [c] has arrived in any pieces, [p] returns [r] and leaves the
    reader where it is: it has asked for nothing of [later], which may be more bytes, an
    error, or a Read that would wait for a long time. *)
Definition needs_only {A} (strict : bool) (p : dec A) (c : list byte) (r : A) : Prop :=
  forall e cs later, arrived cs c ->
  exists es, run_chunks {| r_end := e; r_strict := strict |} p (cs ++ later) = CDone r (es ++ later) /\ arrived es [].
