(** Time texts: pkg/chain/time.go, with the functions of Go's package time it calls
    (those are models of library functions, Go 1.20, not of code in /repo). *)
From Verif Require Import Base GoStd.

(** ** Package time *)

(** A UTC time.Time without monotonic part: seconds since 1970 and nanoseconds. *)
Record Time := { t_sec : Z; t_nsec : Z }.

(** time.Unix: nsec is brought into [0, 1e9). *)
Definition Unix (sec nsec : Z) : Time :=
  if (nsec <? 0) || (1000000000 <=? nsec) then
    let n := Z.quot nsec 1000000000 in
    let sec := sec + n in
    let nsec := nsec - n * 1000000000 in
    if nsec <? 0 then {| t_sec := sec - 1; t_nsec := nsec + 1000000000 |} else {| t_sec := sec; t_nsec := nsec |}
  else {| t_sec := sec; t_nsec := nsec |}.
Definition UnixMicro (usec : Z) : Time := Unix (Z.quot usec 1000000) (Z.rem usec 1000000 * 1000).
Definition UnixMilli (msec : Z) : Time := Unix (Z.quot msec 1000) (Z.rem msec 1000 * 1000000).
(** Time.UnixMicro, Time.UnixMilli, Time.Unix *)
Definition Time_UnixMicro (t : Time) : Z := i64 (i64 (t_sec t * 1000000) + Z.quot (t_nsec t) 1000).
Definition Time_UnixMilli (t : Time) : Z := i64 (i64 (t_sec t * 1000) + Z.quot (t_nsec t) 1000000).
Definition Time_Unix (t : Time) : Z := t_sec t.
(** Time.Round(500ms): 500ms divides a second, so the remainder (div) is that of the
    nanoseconds. *)
Definition Round500 (t : Time) : Time :=
  let r := (t_nsec t) mod 500000000 in
  let nsec := if r + r <? 500000000 then t_nsec t - r else t_nsec t + (500000000 - r) in
  if 1000000000 <=? nsec then {| t_sec := t_sec t + 1; t_nsec := nsec - 1000000000 |}
  else {| t_sec := t_sec t; t_nsec := nsec |}.

(** isLeap, daysBefore, daysIn *)
Definition isLeap (year : Z) : bool :=
  (Z.rem year 4 =? 0) && (negb (Z.rem year 100 =? 0) || (Z.rem year 400 =? 0)).
Definition daysBefore (m : Z) : Z :=
  nth (Z.to_nat m) [0; 31; 59; 90; 120; 151; 181; 212; 243; 273; 304; 334; 365] 0.
Definition daysIn (month year : Z) : Z :=
  if (month =? 2) && isLeap year then 29 else daysBefore month - daysBefore (month - 1).

(** absoluteZeroYear, and seconds from its first of January to 1970. *)
Definition absoluteZeroYear : Z := -292277022399.
Definition unixToAbsolute : Z := 9223372028715321600.

(** absDate: year, month and day of an absolute day number *)
Definition absDate (d : Z) : Z * Z * Z :=
  let n := d / 146097 in
  let y := 400 * n in
  let d := d - 146097 * n in
  let n := d / 36524 in
  let n := n - Z.shiftr n 2 in
  let y := y + 100 * n in
  let d := d - 36524 * n in
  let n := d / 1461 in
  let y := y + 4 * n in
  let d := d - 1461 * n in
  let n := d / 365 in
  let n := n - Z.shiftr n 2 in
  let y := y + n in
  let yday := d - 365 * n in
  let year := y + absoluteZeroYear in
  if isLeap year && (yday =? 59) then (year, 2, 29)
  else
    let day := if isLeap year && (59 <? yday) then yday - 1 else yday in
    let month := day / 31 in
    let end_ := daysBefore (month + 1) in
    if end_ <=? day then (year, month + 2, day - end_ + 1)
    else (year, month + 1, day - daysBefore month + 1).

(** daysSinceEpoch and Date: the arguments are in range, so nothing is normalised. *)
Definition daysSinceEpoch (year : Z) : Z :=
  let y := year - absoluteZeroYear in
  let n := y / 400 in
  let y := y - 400 * n in
  let d := 146097 * n in
  let n := y / 100 in
  let y := y - 100 * n in
  let d := d + 36524 * n in
  let n := y / 4 in
  let y := y - 4 * n in
  let d := d + 1461 * n in
  d + 365 * y.
Definition absDay (year month day : Z) : Z :=
  let d := daysSinceEpoch year + daysBefore (month - 1) in
  let d := if isLeap year && (3 <=? month) then d + 1 else d in
  d + (day - 1).
Definition Date (year month day hour min sec nsec : Z) : Time :=
  {| t_sec := i64 (u64 (absDay year month day * 86400 + (hour * 3600 + min * 60 + sec)) - unixToAbsolute); t_nsec := nsec |}.

(** appendInt(nil, x, width) *)
Definition appendInt (x : Z) (width : nat) : list byte :=
  let s := FormatUint (Z.abs x) in
  (if x <? 0 then [x2d] else []) ++ repeat x30 (width - length s) ++ s.
(** formatNano with n digits: the first n of nine *)
Definition nano_digits (ns : Z) (n : nat) : list byte :=
  firstn n (map (fun k => bz (48 + (ns / 10 ^ (8 - Z.of_nat k)) mod 10)) (seq 0 9)).

(** Time.Format("2006-01-02T15:04:05") and ("2006-01-02T15:04:05.000"), unrolled *)
Definition FormatSeconds (t : Time) : list byte :=
  let abs := u64 (t_sec t + unixToAbsolute) in
  let '(year, month, day) := absDate (abs / 86400) in
  let secs := abs mod 86400 in
  let hour := secs / 3600 in
  let secs := secs - hour * 3600 in
  let min := secs / 60 in
  let sec := secs - min * 60 in
  appendInt year 4 ++ [x2d] ++ appendInt month 2 ++ [x2d] ++ appendInt day 2 ++ [x54]
  ++ appendInt hour 2 ++ [x3a] ++ appendInt min 2 ++ [x3a] ++ appendInt sec 2.
Definition FormatMillis (t : Time) : list byte := FormatSeconds t ++ [x2e] ++ nano_digits (t_nsec t) 3.

(** isDigit, commaOrPeriod, atoi (at most nine digits here, so it cannot overflow) *)
Definition isDigit (s : list byte) (i : nat) : bool := match nth_error s i with Some c => is_dec c | None => false end.
Definition commaOrPeriod (c : byte) : bool := Byte.eqb c x2e || Byte.eqb c x2c.
Definition digits_value (s : list byte) : Z := fold_left (fun a c => a * 10 + (zb c - 48)) s 0.
Definition errParse : gerr := ErrMsg "parsing time".
Definition atoi (s : list byte) : res Z :=
  let '(neg, s) := match s with c :: s' => if Byte.eqb c x2d then (true, s') else if Byte.eqb c x2b then (false, s') else (false, s) | [] => (false, s) end in
  if forallb is_dec s then Ok (if neg : bool then - digits_value s else digits_value s) else Err errParse.
(** getnum *)
Definition getnum (s : list byte) (fixed : bool) : res (Z * list byte) :=
  if negb (isDigit s 0) then Err errParse
  else if negb (isDigit s 1) then
    if fixed then Err errParse else match s with c :: s => Ok (zb c - 48, s) | [] => Err errParse end
  else match s with c :: c' :: s => Ok ((zb c - 48) * 10 + (zb c' - 48), s) | _ => Err errParse end.
(** skip(value, prefix) for a one-byte prefix *)
Definition skip (c : byte) (s : list byte) : res (list byte) :=
  match s with c' :: s => if Byte.eqb c' c then Ok s else Err errParse | [] => Err errParse end.
(** parseNanoseconds(value, nbytes) *)
Definition parseNanoseconds (value : list byte) (nbytes : nat) : res Z :=
  match value with
  | c :: _ =>
      if negb (commaOrPeriod c) then Err errParse
      else
        let nbytes := Nat.min nbytes 10 in
        rbind (atoi (skipn 1 (firstn nbytes value))) (fun ns =>
          if ns <? 0 then Err errParse else Ok (ns * 10 ^ (10 - Z.of_nat nbytes)))
  | [] => Panic "index out of range"
  end.
(** The number of digits of value from index n on. *)
Fixpoint digit_run (s : list byte) : nat := match s with c :: s => if is_dec c then S (digit_run s) else O | [] => O end.

(** time.Parse(layout, value) for the layouts 2006-01-02T15:04:05 ([frac] = false) and
    2006-01-02T15:04:05.000 ([frac] = true), unrolled; errors are not told apart. *)
Definition in_range (v lo hi : Z) : res unit := if (lo <=? v) && (v <=? hi) then Ok tt else Err errParse.
Definition Parse (frac : bool) (value : list byte) : res Time :=
  (* 2006 *)
  rbind (if (length value <? 4)%nat || negb (isDigit value 0) then Err errParse else atoi (firstn 4 value)) (fun year =>
  rbind (skip x2d (skipn 4 value)) (fun value =>
  (* 01 *)
  rbind (getnum value true) (fun '(month, value) =>
  rbind (in_range month 1 12) (fun _ =>
  rbind (skip x2d value) (fun value =>
  (* 02 *)
  rbind (getnum value true) (fun '(day, value) =>
  rbind (skip x54 value) (fun value =>
  (* 15 *)
  rbind (getnum value false) (fun '(hour, value) =>
  rbind (in_range hour 0 23) (fun _ =>
  rbind (skip x3a value) (fun value =>
  (* 04 *)
  rbind (getnum value true) (fun '(min, value) =>
  rbind (in_range min 0 59) (fun _ =>
  rbind (skip x3a value) (fun value =>
  (* 05 *)
  rbind (getnum value true) (fun '(sec, value) =>
  rbind (in_range sec 0 59) (fun _ =>
  rbind
    (if frac then
       (* .000 *)
       if (length value <? 4)%nat then Err errParse
       else rbind (parseNanoseconds value 4) (fun ns => Ok (ns, skipn 4 value))
     else
       (* a fraction in the text only *)
       match value with
       | c :: c' :: rest =>
           if commaOrPeriod c && is_dec c' then
             let n := (2 + digit_run rest)%nat in
             rbind (parseNanoseconds value n) (fun ns => Ok (ns, skipn n value))
           else Ok (0, value)
       | _ => Ok (0, value)
       end)
    (fun '(nsec, value) =>
  match value with
  | _ :: _ => Err errParse                                             (* extra text *)
  | [] =>
      if (day <? 1) || (daysIn month year <? day) then Err errParse      (* day out of range *)
      else Ok (Date year month day hour min sec nsec)
  end)))))))))))))))).

(** ** pkg/chain/time.go *)

(** time.go:20 *)
Definition blockTimestampEpochMilli : Z := 946684800000.
(** time.go:22-24 *)
Definition NewTimePoint (t : Time) : Z := Time_UnixMicro t.
(** time.go:26-28 *)
Definition NewTimePointSec (t : Time) : Z := u32 (Time_Unix t).
(** time.go:30-33 *)
Definition NewBlockTimestamp (t : Time) : Z :=
  u32 (Z.quot (i64 (Time_UnixMilli (Round500 t) - blockTimestampEpochMilli)) 500).
(** time.go:36-38, :47-49, :58-60 *)
Definition strip_z (s : list byte) : list byte :=
  match rev s with c :: r => if Byte.eqb c x5a then rev r else s | [] => s end.
(** time.go:35-44 *)
Definition NewTimePointFromString (s : list byte) : res Z := rbind (Parse true (strip_z s)) (fun t => Ok (NewTimePoint t)).
(** time.go:46-55 *)
Definition NewTimePointSecFromString (s : list byte) : res Z := rbind (Parse false (strip_z s)) (fun t => Ok (NewTimePointSec t)).
(** time.go:57-66 *)
Definition NewBlockTimestampFromString (s : list byte) : res Z := rbind (Parse true (strip_z s)) (fun t => Ok (NewBlockTimestamp t)).
(** time.go:68-70 *)
Definition TimePoint_Time (tp : Z) : Time := UnixMicro tp.
(** time.go:72-74 *)
Definition TimePointSec_Time (tps : Z) : Time := Unix tps 0.
(** time.go:76-78 *)
Definition BlockTimestamp_Time (bts : Z) : Time := UnixMilli (i64 (i64 (bts * 500) + blockTimestampEpochMilli)).
(** time.go:80-82 *)
Definition TimePoint_String (tp : Z) : list byte := FormatMillis (TimePoint_Time tp).
(** time.go:84-86 *)
Definition TimePointSec_String (tps : Z) : list byte := FormatSeconds (TimePointSec_Time tps).
(** time.go:88-90 *)
Definition BlockTimestamp_String (bts : Z) : list byte := FormatMillis (BlockTimestamp_Time bts).
(** time.go:134-144 *)
Definition TimePoint_MarshalText (tp : Z) : res (list byte) := Ok (TimePoint_String tp).
Definition TimePointSec_MarshalText (tps : Z) : res (list byte) := Ok (TimePointSec_String tps).
Definition BlockTimestamp_MarshalText (bts : Z) : res (list byte) := Ok (BlockTimestamp_String bts).
(** time.go:148-170: the new target and the error *)
Definition TimePoint_UnmarshalText (old : Z) (text : list byte) := set_on_success old (NewTimePointFromString text).
Definition TimePointSec_UnmarshalText (old : Z) (text : list byte) := set_on_success old (NewTimePointSecFromString text).
Definition BlockTimestamp_UnmarshalText (old : Z) (text : list byte) := set_on_success old (NewBlockTimestampFromString text).

