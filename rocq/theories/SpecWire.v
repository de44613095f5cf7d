(** Specification vocabulary for the wire format, independent of the model's
    encoders: what it means to write and to read, and the values byte strings
    denote. *)
From Verif Require Import Base Prog.

(** The program writes exactly [bs], successfully, whatever was written before. *)
Definition writes (p : wr) (bs : list byte) : Prop :=
  forall out, runw p out = WDone None (out ++ bs).

(** On any stream starting with [bs] the program returns [v] without error and
    leaves everything behind [bs] unread, in every environment. *)
Definition reads {A} (p : io A) (bs : list byte) (v : A) : Prop :=
  forall env rest, run env p (bs ++ rest) = Done (v, None) rest.

(** The program panics whatever was written before. *)
Definition wpanics (p : wr) : Prop :=
  forall out, exists m out', runw p out = WCrash m out'.

(** Number denoted by bytes, least significant first. *)
Fixpoint le_value (bs : list byte) : Z :=
  match bs with
  | [] => 0
  | b :: bs => zb b + 256 * le_value bs
  end.

(** [bs] is the [n]-byte little-endian two's complement form of [v]. *)
Definition is_le (n : nat) (v : Z) (bs : list byte) : Prop :=
  length bs = n /\ le_value bs = v mod 256 ^ Z.of_nat n.

(** Number denoted by base-128 groups, least significant first, the top bit of
    each byte ignored. *)
Fixpoint leb_value (bs : list byte) : Z :=
  match bs with
  | [] => 0
  | b :: bs => zb b mod 128 + 128 * leb_value bs
  end.

(** A base-128 numeral: every byte but the last has its top bit set. *)
Fixpoint leb_wf (bs : list byte) : Prop :=
  match bs with
  | [] => False
  | [b] => zb b < 128
  | b :: bs => 128 <= zb b /\ leb_wf bs
  end.

(** Minimal: no redundant zero group at the end. *)
Definition leb_minimal (bs : list byte) : Prop :=
  leb_wf bs /\ (length bs = 1%nat \/ last bs x00 <> x00).

(** Zigzag: 0, -1, 1, -2, 2, ... numbered 0, 1, 2, 3, 4, ... *)
Definition zigzag (v : Z) : Z := if 0 <=? v then 2 * v else - 2 * v - 1.

(** All bytes have the continuation bit set. *)
Definition all_cont (bs : list byte) : Prop := Forall (fun b => 128 <= zb b) bs.

(** The error of a varint that does not fit 64 bits. *)
Definition overflow_err := ErrMsg "binary: varint overflows a 64-bit integer".

(** The error ReadVaruint reports when the stream ends inside the number. *)
Definition varuint_eof (env : renv) (got : list byte) : gerr :=
  match r_end env with
  | EOF => if r_strict env then match got with [] => EOF | _ => ErrUnexpectedEOF end else EOF
  | e => e
  end.

(** ** Fragmented readers *)

(** The reader [cs] delivers exactly [data] and then the error [e]; the error may
    come with the last bytes. *)
Inductive delivers (e : gerr) : list chunk -> list byte -> Prop :=
| del_nil : delivers e [] []
| del_last d : delivers e [{| c_data := d; c_err := Some e |}] d
| del_cons d cs data : delivers e cs data ->
    delivers e ({| c_data := d; c_err := None |} :: cs) (d ++ data).

(** The fragmented run agrees with the plain run: same value and error, and what
    is left unread is the same; or the same panic. *)
Definition same_outcome {A} (e : gerr) (o : outcome A) (c : coutcome A) : Prop :=
  match o with
  | Done a rest => exists cs, c = CDone a cs /\ delivers e cs rest
  | Crash m => c = CCrash m
  | Diverged => c = CDiverged
  end.

(** ** Truncation and failing writers *)

(** If decoding succeeds having consumed [used], then [used] decodes to the same
    value whatever follows, and every proper prefix of [used] yields an error. *)
Definition truncation_safe {A} (p : io A) : Prop :=
  forall env env' inp v rest,
  run env p inp = Done (v, None) rest ->
  exists used, inp = used ++ rest
    /\ (forall rest', run env' p (used ++ rest') = Done (v, None) rest')
    /\ (forall q s, used = q ++ s -> s <> [] ->
          exists v' e, run env' p q = Done (v', Some e) []).

Definition prefix {A} (a b : list A) : Prop := exists c, b = a ++ c.

(** With a writer that keeps failing once it has failed: no panic, what arrives is
    a prefix of the full encoding, and a nil error means everything arrived. *)
Definition write_faults_reported (p : wr) : Prop :=
  forall o full, sticky o -> runw p [] = WDone None full ->
  exists r out', runf o 0 p [] = WDone r out' /\ prefix out' full /\ (r = None -> out' = full).


(** ** Programs that check every error of the reader or the writer *)

(** [Failing Q p]: on a reader that yields nothing but errors the program ends
    normally with a result satisfying [Q]. *)
Inductive Failing {A} (Q : A -> Prop) : dec A -> Prop :=
| F_ret a : Q a -> Failing Q (DRet a)
| F_read n k : 1 <= n -> (forall e, Failing Q (k [] (Some e))) -> Failing Q (DRead n k)
| F_go k : (forall b, Failing Q (k b)) -> Failing Q (DGo k).

(** [Strict Q p]: as soon as one read fails, the program is [Failing Q]; until then it
    does not depend on the Go release. *)
Inductive Strict {A} (Q : A -> Prop) : dec A -> Prop :=
| S_ret a : Strict Q (DRet a)
| S_panic m : Strict Q (DPanic m)
| S_fuel : Strict Q DFuel
| S_read n k : 1 <= n ->
    (forall bs, zlen bs = n -> Strict Q (k bs None)) ->
    (forall got e, zlen got < n -> Failing Q (k got (Some e))) ->
    Strict Q (DRead n k).

(** Some value beside a non-nil error. *)
Definition errs {A} (r : A * option gerr) : Prop := snd r <> None.

Definition IoStrict {A} (p : io A) : Prop := Strict errs p.
Definition IoFailing {A} (p : io A) : Prop := Failing errs p.

(** The same for writes. *)
Inductive EFailing {A} (Q : A -> Prop) : enc A -> Prop :=
| EF_ret a : Q a -> EFailing Q (ERet a)
| EF_write bs k : (forall e, EFailing Q (k (Some e))) -> EFailing Q (EWrite bs k).

Inductive EStrict {A} (Q : A -> Prop) : enc A -> Prop :=
| ES_ret a : EStrict Q (ERet a)
| ES_panic m : EStrict Q (EPanic m)
| ES_fuel : EStrict Q EFuel
| ES_write bs k : EStrict Q (k None) -> (forall e, EFailing Q (k (Some e))) ->
    EStrict Q (EWrite bs k).

Definition werrs (e : option gerr) : Prop := e <> None.
Definition WStrict (p : wr) : Prop := EStrict werrs p.
Definition WFailing (p : wr) : Prop := EFailing werrs p.
