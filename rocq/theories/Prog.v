(** Decoders and encoders as trees of I/O requests.

    [dec A] is a program reading through pkg/abi's Decoder: its only access to the
    io.Reader is [io.ReadFull(dec.r, b)] (pkg/abi/decode.go:320), represented by
    [DRead n k], where the continuation receives the bytes that arrived and the
    error returned.  [enc A] is a program writing through pkg/abi's Encoder: its
    only access to the io.Writer is [enc.w.Write(b)] (pkg/abi/encode.go:160,165),
    represented by [EWrite b k], where the continuation receives the error. *)
From Verif Require Import Base.

Inductive dec (A : Type) : Type :=
| DRet (a : A)
| DPanic (m : string)
| DFuel                                                 (* model fuel exhausted *)
| DRead (n : Z) (k : list byte -> option gerr -> dec A) (* io.ReadFull of n >= 1 bytes *)
| DGo (k : bool -> dec A).                              (* which Go release, see ReadUvarint *)
Arguments DRet {A} a.
Arguments DPanic {A} m.
Arguments DFuel {A}.
Arguments DRead {A} n k.
Arguments DGo {A} k.

Fixpoint dbind {A B} (p : dec A) (f : A -> dec B) : dec B :=
  match p with
  | DRet a => f a
  | DPanic m => DPanic m
  | DFuel => DFuel
  | DRead n k => DRead n (fun bs e => dbind (k bs e) f)
  | DGo k => DGo (fun b => dbind (k b) f)
  end.

Inductive enc (A : Type) : Type :=
| ERet (a : A)
| EPanic (m : string)
| EFuel
| EWrite (bs : list byte) (k : option gerr -> enc A).
Arguments ERet {A} a.
Arguments EPanic {A} m.
Arguments EFuel {A}.
Arguments EWrite {A} bs k.

Fixpoint ebind {A B} (p : enc A) (f : A -> enc B) : enc B :=
  match p with
  | ERet a => f a
  | EPanic m => EPanic m
  | EFuel => EFuel
  | EWrite bs k => EWrite bs (fun e => ebind (k e) f)
  end.

Declare Scope prog_scope.
Delimit Scope prog_scope with prog.
Notation "x <-- p ;; q" := (dbind p (fun x => q))
  (at level 61, p at next level, right associativity) : prog_scope.
Notation "' x <-- p ;; q" := (dbind p (fun x => q))
  (at level 61, x pattern, p at next level, right associativity) : prog_scope.
Notation "x <~~ p ;; q" := (ebind p (fun x => q))
  (at level 61, p at next level, right associativity) : prog_scope.
#[global] Open Scope prog_scope.

(** A Go function returning (T, error) through a Decoder; the value returned
    beside a non-nil error is kept, because some callers use it. *)
Definition io (A : Type) := dec (A * option gerr).
Definition wr := enc (option gerr).

(** [if err != nil { return d, err }] after a call returning (T, error). *)
Definition dtry {A B} (d : B) (p : io A) (f : A -> io B) : io B :=
  '(a, e) <-- p ;;
  match e with Some e => DRet (d, Some e) | None => f a end.

(** [if err := w; err != nil { return err }; rest]. *)
Definition etry (p : wr) (q : wr) : wr :=
  e <~~ p ;; match e with Some e => ERet (Some e) | None => q end.

(** ** Running a decoder on a byte stream *)

(** How the environment behaves: the error the reader returns once its bytes are
    exhausted (io.EOF for bytes.Reader), and whether the Go release makes
    binary.ReadUvarint report a truncated varint as io.ErrUnexpectedEOF. *)
Record renv := { r_end : gerr; r_strict : bool }.

Inductive outcome (A : Type) : Type :=
| Done (a : A) (rest : list byte)
| Crash (m : string)
| Diverged.
Arguments Done {A} a rest.
Arguments Crash {A} m.
Arguments Diverged {A}.

(** io.ReadFull's error when fewer bytes than asked for arrive before the reader
    reports [e]: io.EOF becomes io.ErrUnexpectedEOF iff some byte was read. *)
Definition short_err (got : list byte) (e : gerr) : gerr :=
  match e, got with
  | EOF, _ :: _ => ErrUnexpectedEOF
  | _, _ => e
  end.

Fixpoint run {A} (v : renv) (p : dec A) (inp : list byte) : outcome A :=
  match p with
  | DRet a => Done a inp
  | DPanic m => Crash m
  | DFuel => Diverged
  | DGo k => run v (k (r_strict v)) inp
  | DRead n k =>
      if n <=? zlen inp
      then run v (k (firstn (Z.to_nat n) inp) None) (skipn (Z.to_nat n) inp)
      else run v (k inp (Some (short_err inp (r_end v)))) []
  end.

(** ** Running a decoder on an arbitrary io.Reader

    A reader is the list of results its successive Read calls have to offer: some
    bytes and possibly an error.  Read(buf) delivers at most len(buf) of the bytes
    of the first entry; the entry's error is delivered with its last bytes; when
    the entries are used up Read returns (0, e) for the final error e. *)
Record chunk := { c_data : list byte; c_err : option gerr }.

(** io.ReadFull = io.ReadAtLeast(r, buf, len(buf)) (Go io/io.go): keep calling Read
    while fewer than n bytes have arrived and no error was returned; an error
    that comes with the last needed byte is dropped. *)
Fixpoint readfull (fin : gerr) (n : nat) (got : list byte) (cs : list chunk)
  : list byte * option gerr * list chunk :=
  match n with O => (got, None, cs) | S _ =>
  match cs with
  | [] => (got, Some (short_err got fin), [])
  | c :: cs' =>
      if Nat.ltb n (length (c_data c))
      then (* the entry holds more than requested: it stays, shortened *)
        (got ++ firstn n (c_data c), None,
         {| c_data := skipn n (c_data c); c_err := c_err c |} :: cs')
      else
        let got' := got ++ c_data c in
        let n' := (n - length (c_data c))%nat in
        match n' with
        | O => (got', None, cs')
        | S _ =>
            match c_err c with
            | None => readfull fin n' got' cs'
            | Some e => (got', Some (short_err got' e), cs')
            end
        end
  end end.

Inductive coutcome (A : Type) : Type :=
| CDone (a : A) (rest : list chunk)
| CCrash (m : string)
| CDiverged.
Arguments CDone {A} a rest.
Arguments CCrash {A} m.
Arguments CDiverged {A}.

Fixpoint run_chunks {A} (v : renv) (p : dec A) (cs : list chunk) : coutcome A :=
  match p with
  | DRet a => CDone a cs
  | DPanic m => CCrash m
  | DFuel => CDiverged
  | DGo k => run_chunks v (k (r_strict v)) cs
  | DRead n k =>
      let '(got, e, cs') := readfull (r_end v) (Z.to_nat n) [] cs in
      run_chunks v (k got e) cs'
  end.

(** ** Running an encoder *)

Inductive woutcome (A : Type) : Type :=
| WDone (a : A) (out : list byte)
| WCrash (m : string) (out : list byte)
| WDiverged.
Arguments WDone {A} a out.
Arguments WCrash {A} m out.
Arguments WDiverged {A}.

(** Into a bytes.Buffer: every write succeeds. *)
Fixpoint runw {A} (p : enc A) (out : list byte) : woutcome A :=
  match p with
  | ERet a => WDone a out
  | EPanic m => WCrash m out
  | EFuel => WDiverged
  | EWrite bs k => runw (k None) (out ++ bs)
  end.

(** Into an arbitrary io.Writer: the i-th Write call either takes everything, or
    takes a prefix of at most [n] bytes and returns an error. *)
Definition woracle := nat -> option (nat * gerr).

Fixpoint runf {A} (o : woracle) (i : nat) (p : enc A) (out : list byte) : woutcome A :=
  match p with
  | ERet a => WDone a out
  | EPanic m => WCrash m out
  | EFuel => WDiverged
  | EWrite bs k =>
      match o i with
      | None => runf o (S i) (k None) (out ++ bs)
      | Some (n, e) => runf o (S i) (k (Some e)) (out ++ firstn n bs)
      end
  end.

(** The writer keeps failing once it has failed: with [j] the first failing call,
    every later call fails too and takes nothing more. *)
Definition sticky (o : woracle) : Prop :=
  forall i j, (i < j)%nat -> o i <> None -> exists e, o j = Some (O, e).
