(** Specification: texts that are read back from their printed form. *)
From Verif Require Import Base Prog.

(** Whatever text a value was read from, unless it is one of [bad], printing it succeeds and
    the printed text is read as the same value. *)
Definition settled_unless {A} (bad : A -> Prop) (parse : list byte -> res A) (print : A -> res (list byte)) : Prop :=
  forall s v, parse s = Ok v -> ~ bad v -> exists t, print v = Ok t /\ parse t = Ok v.
Definition settled {A} : (list byte -> res A) -> (A -> res (list byte)) -> Prop := settled_unless (fun _ => False).
(** The same for a method that reads into a variable, which holds a value of [old_ok]. *)
Definition settled_into {A} (old_ok : A -> Prop) (unmarshal : A -> list byte -> res (A * option gerr)) (print : A -> res (list byte)) : Prop :=
  forall old s v, old_ok old -> unmarshal old s = Ok (v, None) ->
  exists t, print v = Ok t /\ forall old', old_ok old' -> unmarshal old' t = Ok (v, None).
