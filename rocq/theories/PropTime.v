(** Properties C21, C22, C23: time points and their texts. *)
From Verif Require Import Base BaseProofs GoStd SpecText Time SpecTime TimeCalendar TimeProofs.
Ltac Zify.zify_post_hook ::= Z.div_mod_to_equations.

(** ** The calendar of the specification *)
Theorem C21_calendar : forall n, exists d, is_date n d /\ valid_date d /\ forall d', is_date n d' -> d' = d.
Proof.
  intros n. destruct (date_exists n) as [d [D V]]. exists d. split; [exact D|]. split; [exact V|]. intros d' D'.
  now rewrite (date_unique _ _ D), (date_unique _ _ D').
Qed.
Print Assumptions C21_calendar.
Theorem C21_every_date : forall d, valid_date d -> exists n, is_date n d /\ forall n', is_date n' d -> n' = n.
Proof.
  intros d V. exists (absDayOf d - epoch_day). split; [now apply is_date_iff|]. intros n' H. now apply is_date_iff in H.
Qed.
Print Assumptions C21_every_date.
Example C21_calendar_example : is_date 19783 {| d_year := 2024; d_month := 3; d_day := 1 |} /\ is_date (-719528) {| d_year := 0; d_month := 1; d_day := 1 |}.
Proof. split; apply is_date_iff; (split; [repeat split; vm_compute; congruence|reflexivity]). Qed.

(** ** C21: TimePointSec *)
Theorem C21_text : forall t, 0 <= t < 2 ^ 32 -> forall s, TimePointSec_String t = s <-> second_text t s.
Proof.
  intros t T s. assert (H : second_text t (TimePointSec_String t)).
  { unfold TimePointSec_String, TimePointSec_Time, Unix. cbn [orb Z.ltb Z.compare Z.leb]. apply FormatSeconds_text. unfold year_zero, year_10000. lia. }
  split; [intros <-; exact H|]. intros S. now apply (second_text_unique t).
Qed.
Print Assumptions C21_text.
Lemma sec_accepts s v : NewTimePointSecFromString s = Ok v <->
  exists body tail t, maybe_z (body ++ tail) s /\ read_seconds body t /\ read_any_fraction tail /\ v = t mod 2 ^ 32.
Proof.
  unfold NewTimePointSecFromString. rewrite rbind_iff. split.
  - intros (t & P & H). injection H as <-. apply Parse_strip in P as (b & Z & P). apply Parse_iff in P as (body & tail & -> & B & F).
    exists body, tail, (t_sec t). split; [exact Z|]. split; [exact B|]. split; [|reflexivity]. apply any_fraction_iff. exists (t_nsec t).
    split; [exact F|exact (parse_fraction_false _ _ _ F)].
  - intros (body & tail & t & Z & B & F & ->). apply any_fraction_iff in F as (ns & F & _). exists {| t_sec := t; t_nsec := ns |}. split; [|reflexivity].
    apply Parse_strip. exists (body ++ tail). split; [exact Z|]. apply Parse_iff. exists body, tail. now split.
Qed.
(** Exactly these texts are read, with the number of seconds reduced to 32 bits. *)
Theorem C21_accepts : forall s v, NewTimePointSecFromString s = Ok v <->
  exists body tail t, maybe_z (body ++ tail) s /\ read_seconds body t /\ read_any_fraction tail /\ v = t mod 2 ^ 32.
Proof. exact sec_accepts. Qed.
Print Assumptions C21_accepts.
Theorem C21_roundtrip : forall t s, 0 <= t < 2 ^ 32 -> maybe_z (TimePointSec_String t) s -> NewTimePointSecFromString s = Ok t.
Proof.
  intros t s T Z. apply sec_accepts. exists (TimePointSec_String t), [], t. rewrite app_nil_r. split; [exact Z|].
  split; [apply second_text_read, C21_text; [exact T|reflexivity]|]. split; [now left|]. now rewrite Z.mod_small.
Qed.
Print Assumptions C21_roundtrip.
Theorem C21_time : forall t, 0 <= t < 2 ^ 32 ->
  TimePointSec_Time t = {| t_sec := t; t_nsec := 0 |} /\ NewTimePointSec (TimePointSec_Time t) = t.
Proof. intros t T. split; [reflexivity|]. apply u32_small. exact T. Qed.
Print Assumptions C21_time.
Theorem C21_unmarshal : forall old s,
  match NewTimePointSecFromString s with
  | Ok v => TimePointSec_UnmarshalText old s = Ok (v, None)
  | Err e => TimePointSec_UnmarshalText old s = Ok (old, Some e)
  | Panic _ => False
  end.
Proof.
  intros old s. unfold TimePointSec_UnmarshalText. destruct (NewTimePointSecFromString s) as [v|e|m] eqn:E; try reflexivity.
  revert E. apply rbind_np; [intro; apply Parse_np|discriminate].
Qed.
Print Assumptions C21_unmarshal.
Example C21_example : TimePointSec_String 1709251199 = str "2024-02-29T23:59:59"
  /\ NewTimePointSecFromString (str "2024-02-29T23:59:59Z") = Ok 1709251199
  /\ NewTimePointSecFromString (str "2024-02-29T3:59:59.123456789012") = Ok 1709179199
  /\ (exists e, NewTimePointSecFromString (str "2023-02-29T23:59:59") = Err e)
  /\ NewTimePointSecFromString (str "1969-12-31T23:59:59") = Ok 4294967295.
Proof. repeat split; try (vm_compute; reflexivity). eexists. vm_compute. reflexivity. Qed.

(** ** C22: BlockTimestamp *)
Lemma block_time b : 0 <= b < 2 ^ 32 ->
  BlockTimestamp_Time b = {| t_sec := 946684800 + b / 2; t_nsec := b mod 2 * 500000000 |}.
Proof.
  intros B. unfold BlockTimestamp_Time, blockTimestampEpochMilli. rewrite (i64_small (b * 500)), i64_small, UnixMilli_ok by lia. f_equal; lia.
Qed.
(** 2000-01-01T00:00:00 and [b] half-seconds. *)
Theorem C22_time : forall b, 0 <= b < 2 ^ 32 ->
  let t := BlockTimestamp_Time b in
  0 <= t_nsec t < 1000000000 /\ is_date (946684800 / 86400) {| d_year := 2000; d_month := 1; d_day := 1 |} /\
  t_sec t * 1000000000 + t_nsec t = 946684800 * 1000000000 + b * 500000000.
Proof.
  intros b B t. subst t. rewrite block_time by exact B. cbn [t_sec t_nsec]. split; [lia|]. split; [|lia].
  apply is_date_iff. split; [repeat split; vm_compute; congruence|reflexivity].
Qed.
Print Assumptions C22_time.
Lemma round_nanos t : well_formed t -> well_formed (Round500 t) /\ nanos (Round500 t) = (nanos t + 250000000) / 500000000 * 500000000.
Proof.
  destruct t as [s n]. unfold well_formed, nanos, Round500. cbn [t_sec t_nsec]. intros W. cbv zeta.
  destruct (Z.ltb_spec (n mod 500000000 + n mod 500000000) 500000000) as [H|H].
  - destruct (Z.leb_spec 1000000000 (n - n mod 500000000)) as [K|K]; cbn [t_sec t_nsec]; split; lia.
  - destruct (Z.leb_spec 1000000000 (n + (500000000 - n mod 500000000))) as [K|K]; cbn [t_sec t_nsec]; split; lia.
Qed.
Lemma new_block t : well_formed t -> - 9000000000000000 <= t_sec t <= 9000000000000000 ->
  NewBlockTimestamp t = ((nanos t + 250000000) / 500000000 - 1893369600) mod 2 ^ 32.
Proof.
  intros W R. destruct (round_nanos t W) as [W' N]. unfold NewBlockTimestamp, Time_UnixMilli, blockTimestampEpochMilli.
  set (h := (nanos t + 250000000) / 500000000) in *. assert (H : - 18000000000000001 <= h <= 18000000000000002) by (unfold nanos, well_formed in *; lia). clearbody h.
  destruct (Round500 t) as [s n]. unfold nanos, well_formed in N, W'. cbn [t_sec t_nsec] in *.
  assert (S : s = h / 2) by lia. assert (NN : n = h mod 2 * 500000000) by lia. subst s n. clear N W'.
  rewrite (i64_small (h / 2 * 1000)) by lia. replace (Z.quot (h mod 2 * 500000000) 1000000) with (h mod 2 * 500) by lia.
  rewrite (i64_small (h / 2 * 1000 + h mod 2 * 500)), i64_small by lia.
  replace (h / 2 * 1000 + h mod 2 * 500 - 946684800000) with ((h - 1893369600) * 500) by lia. rewrite Z.quot_mul by lia. reflexivity.
Qed.
(** The nearest slot, and the later one if two are equally near. *)
Theorem C22_nearest : forall t, 0 <= t_nsec t < 1000000000 ->
  let since := (t_sec t - 946684800) * 1000000000 + t_nsec t in
  - 250000000 <= since < 2 ^ 32 * 500000000 - 250000000 ->
  let b := NewBlockTimestamp t in
  0 <= b < 2 ^ 32 /\ b * 500000000 - 250000000 <= since < b * 500000000 + 250000000.
Proof.
  intros t W since S b. subst since b. rewrite new_block by (unfold well_formed; lia). unfold nanos.
  set (h := (t_sec t * 1000000000 + t_nsec t + 250000000) / 500000000). assert (H : h * 500000000 <= t_sec t * 1000000000 + t_nsec t + 250000000 < h * 500000000 + 500000000) by lia.
  clearbody h. rewrite Z.mod_small by lia. lia.
Qed.
Print Assumptions C22_nearest.
(** Outside the range of the type the slot number is reduced to 32 bits, in silence. *)
Theorem C22_wraps : forall t, 0 <= t_nsec t < 1000000000 -> - 9000000000000000 <= t_sec t <= 9000000000000000 ->
  let since := (t_sec t - 946684800) * 1000000000 + t_nsec t in
  NewBlockTimestamp t = ((since + 250000000) / 500000000) mod 2 ^ 32.
Proof.
  intros t W R since. subst since. rewrite new_block by assumption. unfold nanos. f_equal. lia.
Qed.
Print Assumptions C22_wraps.
Theorem C22_time_roundtrip : forall b, 0 <= b < 2 ^ 32 -> NewBlockTimestamp (BlockTimestamp_Time b) = b.
Proof.
  intros b B. rewrite block_time by exact B. rewrite new_block; [|unfold well_formed; cbn [t_nsec]; lia|cbn [t_sec]; lia].
  unfold nanos. cbn [t_sec t_nsec]. rewrite Z.mod_small; lia.
Qed.
Print Assumptions C22_time_roundtrip.
Theorem C22_text : forall b, 0 <= b < 2 ^ 32 -> forall s, BlockTimestamp_String b = s <-> milli_text (946684800000 + b * 500) s.
Proof.
  intros b B s. assert (H : milli_text (946684800000 + b * 500) (BlockTimestamp_String b)).
  { unfold BlockTimestamp_String. rewrite block_time by exact B.
    pose proof (FormatMillis_text {| t_sec := 946684800 + b / 2; t_nsec := b mod 2 * 500000000 |}) as F. unfold well_formed, nanos, year_zero, year_10000 in F. cbn [t_sec t_nsec] in F.
    replace (((946684800 + b / 2) * 1000000000 + b mod 2 * 500000000) / 1000000) with (946684800000 + b * 500) in F by lia. apply F; lia. }
  split; [intros <-; exact H|]. intros S. now apply (milli_text_unique (946684800000 + b * 500)).
Qed.
Print Assumptions C22_text.
Lemma milli_parse s t : Parse true (strip_z s) = Ok t <->
  exists body tail ms, maybe_z (body ++ tail) s /\ read_seconds body (t_sec t) /\ read_millis tail ms /\ t_nsec t = ms * 1000000.
Proof.
  rewrite Parse_strip. split.
  - intros (b & Z & P). apply Parse_iff in P as (body & tail & -> & B & F). apply millis_iff in F as (ms & M & E). eauto 10.
  - intros (body & tail & ms & Z & B & M & E). exists (body ++ tail). split; [exact Z|]. apply Parse_iff. exists body, tail. split; [reflexivity|].
    split; [exact B|]. apply millis_iff. eauto.
Qed.
Lemma millis_range s ms : read_millis s ms -> 0 <= ms < 1000.
Proof.
  intros (c & f & _ & _ & [P|[(g & _ & P)|[_ ->]]]); [apply padded_range in P|apply padded_range in P|lia].
  - change (10 ^ Z.of_nat 3) with 1000 in P. lia.
  - change (10 ^ Z.of_nat 2) with 100 in P. lia.
Qed.
(** Exactly these texts are read, rounded to a slot. *)
Theorem C22_accepts : forall s v, NewBlockTimestampFromString s = Ok v <->
  exists body tail t ms, maybe_z (body ++ tail) s /\ read_seconds body t /\ read_millis tail ms
    /\ v = ((t * 1000 + ms - 946684800000 + 250) / 500) mod 2 ^ 32.
Proof.
  intros s v. unfold NewBlockTimestampFromString. rewrite rbind_iff. split.
  - intros (t & P & H). injection H as <-. apply milli_parse in P as (body & tail & ms & Z & B & M & E). exists body, tail, (t_sec t), ms.
    split; [exact Z|]. split; [exact B|]. split; [exact M|]. pose proof (millis_range _ _ M). apply read_seconds_range in B. unfold year_zero, year_10000 in B.
    rewrite new_block by (unfold well_formed; lia). f_equal. unfold nanos. rewrite E. lia.
  - intros (body & tail & t & ms & Z & B & M & ->). exists {| t_sec := t; t_nsec := ms * 1000000 |}. split; [apply milli_parse; cbn [t_sec t_nsec]; eauto 10|].
    pose proof (millis_range _ _ M). apply read_seconds_range in B. unfold year_zero, year_10000 in B.
    rewrite new_block by (unfold well_formed; cbn [t_sec t_nsec]; lia). f_equal. f_equal. unfold nanos. cbn [t_sec t_nsec]. lia.
Qed.
Print Assumptions C22_accepts.
Theorem C22_roundtrip : forall b s, 0 <= b < 2 ^ 32 -> maybe_z (BlockTimestamp_String b) s -> NewBlockTimestampFromString s = Ok b.
Proof.
  intros b s B Z. unfold NewBlockTimestampFromString. rewrite rbind_iff. pose proof (proj1 (C22_text b B _) eq_refl) as T. apply Parse_millis in T.
  eexists. split; [apply Parse_strip; eexists; split; [exact Z|exact T]|]. f_equal. transitivity (NewBlockTimestamp (BlockTimestamp_Time b)); [|now apply C22_time_roundtrip]. f_equal. rewrite block_time by exact B. f_equal; lia.
Qed.
Print Assumptions C22_roundtrip.
Theorem C22_unmarshal : forall old s,
  match NewBlockTimestampFromString s with
  | Ok v => BlockTimestamp_UnmarshalText old s = Ok (v, None)
  | Err e => BlockTimestamp_UnmarshalText old s = Ok (old, Some e)
  | Panic _ => False
  end.
Proof.
  intros old s. unfold BlockTimestamp_UnmarshalText. destruct (NewBlockTimestampFromString s) as [v|e|m] eqn:E; try reflexivity.
  revert E. apply rbind_np; [intro; apply Parse_np|discriminate].
Qed.
Print Assumptions C22_unmarshal.
Example C22_example : BlockTimestamp_String 1521 = str "2000-01-01T00:12:40.500"
  /\ NewBlockTimestampFromString (str "2000-01-01T00:12:40.749Z") = Ok 1521
  /\ NewBlockTimestampFromString (str "2000-01-01T00:12:40.750") = Ok 1522
  /\ NewBlockTimestamp {| t_sec := 946684799; t_nsec := 999999999 |} = 0
  /\ NewBlockTimestamp {| t_sec := 946684799; t_nsec := 500000000 |} = 4294967295.
Proof. repeat split; vm_compute; reflexivity. Qed.

(** ** C23: TimePoint *)
Definition four_digit_years (tp : Z) : Prop := year_zero * 1000000 <= tp < year_10000 * 1000000.
Theorem C23_time : forall tp, - 2 ^ 63 <= tp < 2 ^ 63 ->
  let t := TimePoint_Time tp in
  0 <= t_nsec t < 1000000000 /\ t_sec t * 1000000000 + t_nsec t = tp * 1000 /\ NewTimePoint t = tp.
Proof.
  intros tp T t. subst t. unfold TimePoint_Time, NewTimePoint, Time_UnixMicro. rewrite UnixMicro_ok. cbn [t_sec t_nsec]. split; [lia|]. split; [lia|].
  replace (Z.quot (tp mod 1000000 * 1000) 1000) with (tp mod 1000000) by lia.
  destruct (Z.le_gt_cases (- 2 ^ 63) (tp / 1000000 * 1000000)); [rewrite (i64_small (tp / 1000000 * 1000000)), i64_small; lia|].
  unfold i64. lia.
Qed.
Print Assumptions C23_time.
Theorem C23_text : forall tp, four_digit_years tp -> forall s, TimePoint_String tp = s <-> milli_text (tp / 1000) s.
Proof.
  intros tp T s. unfold four_digit_years, year_zero, year_10000 in T. assert (H : milli_text (tp / 1000) (TimePoint_String tp)).
  { unfold TimePoint_String, TimePoint_Time. rewrite UnixMicro_ok.
    pose proof (FormatMillis_text {| t_sec := tp / 1000000; t_nsec := tp mod 1000000 * 1000 |}) as F. unfold well_formed, nanos, year_zero, year_10000 in F. cbn [t_sec t_nsec] in F.
    replace ((tp / 1000000 * 1000000000 + tp mod 1000000 * 1000) / 1000000) with (tp / 1000) in F by lia. apply F; lia. }
  split; [intros <-; exact H|]. intros S. now apply (milli_text_unique (tp / 1000)).
Qed.
Print Assumptions C23_text.
Lemma micros t ms : year_zero <= t < year_10000 -> 0 <= ms < 1000 -> NewTimePoint {| t_sec := t; t_nsec := ms * 1000000 |} = t * 1000000 + ms * 1000.
Proof.
  intros T M. unfold year_zero, year_10000 in T. unfold NewTimePoint, Time_UnixMicro. cbn [t_sec t_nsec]. replace (Z.quot (ms * 1000000) 1000) with (ms * 1000) by lia.
  rewrite (i64_small (t * 1000000)), i64_small; lia.
Qed.
(** The text keeps the milliseconds. *)
Theorem C23_roundtrip : forall tp s, four_digit_years tp -> maybe_z (TimePoint_String tp) s ->
  NewTimePointFromString s = Ok (tp / 1000 * 1000).
Proof.
  intros tp s T Z. unfold NewTimePointFromString. rewrite rbind_iff. pose proof (proj1 (C23_text tp T _) eq_refl) as H. apply Parse_millis in H.
  eexists. split; [apply Parse_strip; eexists; split; [exact Z|exact H]|]. f_equal. unfold four_digit_years, year_zero, year_10000 in T.
  rewrite micros; unfold year_zero, year_10000; lia.
Qed.
Print Assumptions C23_roundtrip.
Theorem C23_exact : forall tp s, four_digit_years tp -> maybe_z (TimePoint_String tp) s ->
  (NewTimePointFromString s = Ok tp <-> tp mod 1000 = 0).
Proof.
  intros tp s T Z. rewrite (C23_roundtrip tp s T Z). split; intros H; [injection H as H|f_equal]; lia.
Qed.
Print Assumptions C23_exact.
Theorem C23_accepts : forall s v, NewTimePointFromString s = Ok v <->
  exists body tail t ms, maybe_z (body ++ tail) s /\ read_seconds body t /\ read_millis tail ms
    /\ v = t * 1000000 + ms * 1000.
Proof.
  intros s v. unfold NewTimePointFromString. rewrite rbind_iff. split.
  - intros (t & P & H). injection H as <-. apply milli_parse in P as (body & tail & ms & Z & B & M & E). exists body, tail, (t_sec t), ms.
    split; [exact Z|]. split; [exact B|]. split; [exact M|]. pose proof (millis_range _ _ M). apply read_seconds_range in B.
    destruct t as [t ns]. cbn [t_sec t_nsec] in *. subst ns. now apply micros.
  - intros (body & tail & t & ms & Z & B & M & ->). exists {| t_sec := t; t_nsec := ms * 1000000 |}. split; [apply milli_parse; cbn [t_sec t_nsec]; eauto 10|].
    pose proof (millis_range _ _ M). apply read_seconds_range in B. f_equal. now apply micros.
Qed.
Print Assumptions C23_accepts.
(** The other time points have a text that is not read back. *)
Theorem C23_outside : forall tp s, - 2 ^ 63 <= tp < 2 ^ 63 -> ~ four_digit_years tp -> maybe_z (TimePoint_String tp) s ->
  exists e, NewTimePointFromString s = Err e.
Proof.
  intros tp s T O Z. unfold NewTimePointFromString. assert (O' : tp / 1000000 < year_zero \/ year_10000 <= tp / 1000000) by (unfold four_digit_years, year_zero, year_10000 in *; lia).
  unfold TimePoint_String, TimePoint_Time, FormatMillis in Z. rewrite UnixMicro_ok in Z. cbn [t_nsec] in Z.
  set (ns := tp mod 1000000 * 1000) in Z. assert (NS : 0 <= ns < 1000000000) by lia.
  pose proof (nano_padded ns NS) as P.
  assert (E : strip_z s = FormatSeconds {| t_sec := tp / 1000000; t_nsec := ns |} ++ [x2e] ++ nano_digits ns 3).
  { destruct Z as [-> | ->]; [|apply strip_z_app]. apply strip_z_digit. apply end_app, end_cons, (padded_end 3 (ns / 1000000)); [lia|exact P]. }
  rewrite E. destruct (outside_years (tp / 1000000) ns) with (frac := true) (tail := [x2e] ++ nano_digits ns 3) as [e ->]; [unfold clear_of_limits; lia|exact O'|].
  exists e. reflexivity.
Qed.
Print Assumptions C23_outside.
Theorem C23_unmarshal : forall old s,
  match NewTimePointFromString s with
  | Ok v => TimePoint_UnmarshalText old s = Ok (v, None)
  | Err e => TimePoint_UnmarshalText old s = Ok (old, Some e)
  | Panic _ => False
  end.
Proof.
  intros old s. unfold TimePoint_UnmarshalText. destruct (NewTimePointFromString s) as [v|e|m] eqn:E; try reflexivity.
  revert E. apply rbind_np; [intro; apply Parse_np|discriminate].
Qed.
Print Assumptions C23_unmarshal.
Example C23_example : four_digit_years (-1) /\ TimePoint_String (-1) = str "1969-12-31T23:59:59.999"
  /\ NewTimePointFromString (str "1969-12-31T23:59:59.999Z") = Ok (-1000)
  /\ TimePoint_String 253402300800000000 = str "10000-01-01T00:00:00.000" /\ ~ four_digit_years 253402300800000000
  /\ NewTimePointFromString (str "2021-01-01T00:00:00,+12") = Ok 1609459200012000.
Proof. unfold four_digit_years, year_zero, year_10000. repeat split; try lia; vm_compute; reflexivity. Qed.
