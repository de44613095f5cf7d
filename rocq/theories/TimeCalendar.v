(** The calendar computations of package time against the day-by-day calendar. *)
From Verif Require Import Base BaseProofs GoStd SpecText Time SpecTime.
Ltac Zify.zify_post_hook ::= Z.div_mod_to_equations.

Definition of_triple (t : Z * Z * Z) : date := let '(y, m, d) := t in {| d_year := y; d_month := m; d_day := d |}.
Definition absDayOf (d : date) : Z := absDay (d_year d) (d_month d) (d_day d).
(** The absolute day number of 1970-01-01. *)
Definition epoch_day : Z := 106751991073094.

(** ** Years *)
Lemma isLeap_leap y : isLeap y = leap y.
Proof.
  assert (G : forall n, n <> 0 -> (Z.rem y n =? 0) = (y mod n =? 0)).
  { intros n N. destruct (Z.eqb_spec (Z.rem y n) 0) as [H|H], (Z.eqb_spec (y mod n) 0) as [K|K]; try reflexivity; exfalso.
    - apply K. apply Z.rem_divide in H; [|exact N]. now apply Z.mod_divide.
    - apply H. apply Z.mod_divide in K; [|exact N]. now apply Z.rem_divide. }
  unfold isLeap, leap. now rewrite !G by lia.
Qed.
Definition year_length (y : Z) : Z := if leap y then 366 else 365.
(** The year and the day within it, as absDate finds them. *)
Definition year_of (d : Z) : Z * Z :=
  let n := d / 146097 in
  let y := 400 * n in
  let d := d - 146097 * n in
  let n := d / 36524 in
  let n := n - Z.shiftr n 2 in
  let y := y + 100 * n in
  let d := d - 36524 * n in
  let n := d / 1461 in
  let y := y + 4 * n in
  let d := d - 1461 * n in
  let n := d / 365 in
  let n := n - Z.shiftr n 2 in
  (y + n + absoluteZeroYear, d - 365 * n).
Definition month_of (lp : bool) (yday : Z) : Z * Z :=
  if lp && (yday =? 59) then (2, 29)
  else
    let day := if lp && (59 <? yday) then yday - 1 else yday in
    let month := day / 31 in
    let end_ := daysBefore (month + 1) in
    if end_ <=? day then (month + 2, day - end_ + 1) else (month + 1, day - daysBefore month + 1).
Lemma absDate_split d : of_triple (absDate d) =
  let (y, yd) := year_of d in let (m, dd) := month_of (leap y) yd in {| d_year := y; d_month := m; d_day := dd |}.
Proof.
  unfold absDate, year_of, month_of. cbv zeta. set (y := _ + absoluteZeroYear). set (yd := _ - 365 * _). clearbody y yd.
  rewrite isLeap_leap. destruct (leap y && (yd =? 59)); [reflexivity|]. now destruct (daysBefore _ <=? _).
Qed.
Definition offset (lp : bool) (m : Z) : Z := let d := daysBefore (m - 1) in if lp && (3 <=? m) then d + 1 else d.
Lemma absDay_split y m d : absDay y m d = daysSinceEpoch y + offset (leap y) m + (d - 1).
Proof. unfold absDay, offset. cbv zeta. rewrite isLeap_leap. destruct (leap y && (3 <=? m)); lia. Qed.
Lemma leap_shift q r : leap (400 * q + r + absoluteZeroYear) = leap (r + 1).
Proof.
  unfold absoluteZeroYear.
  assert (A : (400 * q + r + -292277022399) mod 4 = (r + 1) mod 4) by lia.
  assert (B : (400 * q + r + -292277022399) mod 100 = (r + 1) mod 100) by lia.
  assert (C : (400 * q + r + -292277022399) mod 400 = (r + 1) mod 400) by lia.
  unfold leap. now rewrite A, B, C.
Qed.
(** Days before the year number [r] of a cycle. *)
Definition cycle_days (r : Z) : Z := 36524 * (r / 100) + 1461 * (r mod 100 / 4) + 365 * (r mod 100 mod 4).
Lemma days_split q r : 0 <= r < 400 -> daysSinceEpoch (400 * q + r + absoluteZeroYear) = 146097 * q + cycle_days r.
Proof.
  intros R. unfold daysSinceEpoch, cycle_days. cbv zeta.
  replace (400 * q + r + absoluteZeroYear - absoluteZeroYear) with (400 * q + r) by lia.
  replace ((400 * q + r) / 400) with q by lia. replace (400 * q + r - 400 * q) with r by lia.
  replace (r - 100 * (r / 100)) with (r mod 100) by lia. lia.
Qed.
Lemma leap_of r : 0 <= r < 400 -> leap (r + 1) = ((r mod 4 =? 3) && (negb (r mod 100 =? 99) || (r =? 399))).
Proof.
  intros R. unfold leap.
  assert (A : ((r + 1) mod 4 =? 0) = (r mod 4 =? 3)) by lia.
  assert (B : ((r + 1) mod 100 =? 0) = (r mod 100 =? 99)) by lia.
  assert (C : ((r + 1) mod 400 =? 0) = (r =? 399)) by lia.
  now rewrite A, B, C.
Qed.
Lemma year_of_spec d : let (y, yd) := year_of d in d = daysSinceEpoch y + yd /\ 0 <= yd < year_length y.
Proof.
  unfold year_of. cbv zeta. rewrite !shiftr_div by lia. change (2 ^ 2) with 4.
  set (q := d / 146097). set (e := d - 146097 * q). assert (E : 0 <= e < 146097) by lia. assert (D : d = 146097 * q + e) by lia.
  clearbody q e. subst d.
  set (a := e / 36524 - e / 36524 / 4). assert (A : 0 <= a <= 3 /\ 36524 * a <= e /\ (e < 36524 * a + 36524 \/ a = 3 /\ e <= 36524 * a + 36524)) by lia.
  clearbody a. set (e2 := e - 36524 * a). assert (A' : e = 36524 * a + e2) by lia. clearbody e2. subst e.
  set (b := e2 / 1461). assert (B : 0 <= b <= 24 /\ 1461 * b <= e2 < 1461 * b + 1461) by lia.
  clearbody b. set (e3 := e2 - 1461 * b). assert (B' : e2 = 1461 * b + e3) by lia. clearbody e3. subst e2.
  set (c := e3 / 365 - e3 / 365 / 4). assert (C : 0 <= c <= 3 /\ 365 * c <= e3 /\ (e3 < 365 * c + 365 \/ c = 3 /\ e3 <= 365 * c + 365)) by lia.
  clearbody c. set (yd := e3 - 365 * c). assert (C' : e3 = 365 * c + yd) by lia. clearbody yd. subst e3.
  replace (400 * q + 100 * a + 4 * b + c + absoluteZeroYear) with (400 * q + (100 * a + 4 * b + c) + absoluteZeroYear) by lia.
  unfold year_length. rewrite days_split, leap_shift, leap_of by lia. unfold cycle_days.
  set (r := 100 * a + 4 * b + c).
  assert (R1 : r / 100 = a) by lia. assert (R2 : r mod 100 = 4 * b + c) by lia. assert (R3 : (4 * b + c) / 4 = b) by lia.
  assert (R4 : (4 * b + c) mod 4 = c) by lia. assert (R5 : r mod 4 = c) by lia. rewrite R1, R2, R3, R4, R5. split; [lia|].
  destruct (Z.eqb_spec c 3), (Z.eqb_spec (4 * b + c) 99), (Z.eqb_spec r 399); cbn [andb orb negb]; lia.
Qed.
Lemma next_year y : daysSinceEpoch (y + 1) = daysSinceEpoch y + year_length y.
Proof.
  set (q := (y - absoluteZeroYear) / 400). set (r := (y - absoluteZeroYear) mod 400).
  assert (R : 0 <= r < 400) by lia. assert (Y : y = 400 * q + r + absoluteZeroYear) by lia. clearbody q r. subst y.
  unfold year_length. rewrite (days_split q r R), leap_shift, leap_of by exact R.
  destruct (Z.eq_dec r 399) as [->|N].
  - replace (400 * q + 399 + absoluteZeroYear + 1) with (400 * (q + 1) + 0 + absoluteZeroYear) by lia.
    rewrite days_split by lia. change (cycle_days 0) with 0. change (cycle_days 399) with 145731.
    match goal with |- context [if ?b then _ else _] => change b with true end. clear. cbv iota. lia.
  - replace (400 * q + r + absoluteZeroYear + 1) with (400 * q + (r + 1) + absoluteZeroYear) by lia.
    rewrite days_split by lia. unfold cycle_days.
    destruct (Z.eqb_spec (r mod 4) 3), (Z.eqb_spec (r mod 100) 99), (Z.eqb_spec r 399); cbn [andb orb negb]; lia.
Qed.
Lemma year_length_pos y : 365 <= year_length y <= 366.
Proof. unfold year_length. destruct (leap y); lia. Qed.
Lemma years_apart k : 0 <= k -> forall y, daysSinceEpoch (y + k) >= daysSinceEpoch y + 365 * k.
Proof.
  revert k. apply (natlike_ind (fun k => forall y, daysSinceEpoch (y + k) >= daysSinceEpoch y + 365 * k)).
  - intros y. replace (y + 0) with y by lia. lia.
  - intros k K IH y. replace (y + Z.succ k) with (y + k + 1) by lia. rewrite next_year. specialize (IH y).
    pose proof (year_length_pos (y + k)). lia.
Qed.
Lemma years_apart' y y' : y < y' -> daysSinceEpoch y + year_length y <= daysSinceEpoch y'.
Proof.
  intros H. pose proof (years_apart (y' - y - 1) ltac:(lia) (y + 1)) as P. rewrite next_year in P.
  replace (y + 1 + (y' - y - 1)) with y' in P by lia. lia.
Qed.
Lemma year_of_day y yd : 0 <= yd < year_length y -> year_of (daysSinceEpoch y + yd) = (y, yd).
Proof.
  intros Y. pose proof (year_of_spec (daysSinceEpoch y + yd)) as H. destruct (year_of (daysSinceEpoch y + yd)) as [y' yd'].
  destruct H as [H1 H2]. destruct (Z.lt_trichotomy y y') as [L|[->|L]].
  - pose proof (years_apart' y y' L). lia.
  - f_equal. lia.
  - pose proof (years_apart' y' y L). lia.
Qed.

(** ** Months, by computation over the days of a year *)
Definition length_of (lp : bool) (m : Z) : Z :=
  if m =? 2 then if lp then 29 else 28
  else if (m =? 4) || (m =? 6) || (m =? 9) || (m =? 11) then 30 else 31.
Lemma month_length_of y m : month_length y m = length_of (leap y) m.
Proof. reflexivity. Qed.
Fixpoint all_from (P : Z -> bool) (n : nat) (c : Z) : bool :=
  match n with O => true | S n => if P c then all_from P n (c + 1) else false end.
Lemma all_from_ok P n : forall c, all_from P n c = true -> forall x, c <= x < c + Z.of_nat n -> P x = true.
Proof.
  induction n as [|n IH]; intros c H x X; [lia|]. cbn [all_from] in H. destruct (P c) eqn:E; [|discriminate].
  destruct (Z.eq_dec x c) as [->|]; [exact E|]. apply (IH (c + 1)); [exact H|lia].
Qed.
Definition last_day (lp : bool) : Z := if lp then 365 else 364.
Definition day_ok (lp : bool) (yd : Z) : bool :=
  let (m, d) := month_of lp yd in
  (last_day lp <? yd) ||
  ((1 <=? m) && (m <=? 12) && (1 <=? d) && (d <=? length_of lp m) && (offset lp m + (d - 1) =? yd)
   && (if d <? length_of lp m then let (m', d') := month_of lp (yd + 1) in (m' =? m) && (d' =? d + 1)
       else if m <? 12 then let (m', d') := month_of lp (yd + 1) in (m' =? m + 1) && (d' =? 1)
       else yd =? last_day lp)
   && ((yd <? last_day lp) || (negb (d <? length_of lp m) && negb (m <? 12)))).
Lemma year_days : all_from (day_ok false) 366 0 = true /\ all_from (day_ok true) 366 0 = true.
Proof. split; vm_compute; reflexivity. Qed.
Definition month_ok (lp : bool) (m d : Z) : bool :=
  negb (d <=? length_of lp m) ||
  (let (m', d') := month_of lp (offset lp m + (d - 1)) in (m' =? m) && (d' =? d)
   && (0 <=? offset lp m + (d - 1)) && (offset lp m + (d - 1) <=? last_day lp)).
Lemma year_months : all_from (fun m => all_from (month_ok false m) 31 1) 12 1 = true
  /\ all_from (fun m => all_from (month_ok true m) 31 1) 12 1 = true.
Proof. split; vm_compute; reflexivity. Qed.
Lemma first_day lp : month_of lp 0 = (1, 1).
Proof. destruct lp; reflexivity. Qed.

Lemma every_day c : valid_date (of_triple (absDate c)) /\ next_day (of_triple (absDate c)) = of_triple (absDate (c + 1))
  /\ absDayOf (of_triple (absDate c)) = c.
Proof.
  rewrite !absDate_split. pose proof (year_of_spec c) as Y. destruct (year_of c) as [y yd]. destruct Y as [-> Y].
  assert (K : day_ok (leap y) yd = true).
  { destruct year_days as [F T]. pose proof (year_length_pos y). destruct (leap y); [apply (all_from_ok _ _ _ T)|apply (all_from_ok _ _ _ F)]; lia. }
  unfold day_ok in K. destruct (month_of (leap y) yd) as [m d] eqn:M.
  assert (L : year_length y = last_day (leap y) + 1) by (unfold year_length, last_day; now destruct (leap y)).
  destruct (Z.ltb_spec (last_day (leap y)) yd) as [|_]; [lia|]. cbn [orb] in K.
  apply andb_prop in K as [K K7]. apply andb_prop in K as [K K6]. apply andb_prop in K as [K K5]. apply andb_prop in K as [K K4].
  apply andb_prop in K as [K K3]. apply andb_prop in K as [K1 K2].
  apply Z.leb_le in K1, K2, K3, K4. apply Z.eqb_eq in K5.
  unfold valid_date, absDayOf, next_day; cbn [d_year d_month d_day]. rewrite month_length_of, absDay_split. split; [lia|]. split; [|lia].
  destruct (Z.ltb_spec yd (last_day (leap y))) as [I|I].
  - rewrite <- Z.add_assoc, year_of_day by lia. destruct (d <? length_of (leap y) m).
    + destruct (month_of (leap y) (yd + 1)) as [m' d']. f_equal; lia.
    + destruct (m <? 12); [destruct (month_of (leap y) (yd + 1)) as [m' d']; f_equal; lia|lia].
  - cbn [orb] in K7. destruct (d <? length_of (leap y) m); [discriminate|]. destruct (m <? 12); [discriminate|].
    replace (daysSinceEpoch y + yd + 1) with (daysSinceEpoch (y + 1) + 0) by (rewrite next_year; lia).
    pose proof (year_length_pos (y + 1)). rewrite year_of_day by lia. now rewrite first_day.
Qed.
Lemma month_length_bound y m : 28 <= month_length y m <= 31.
Proof. unfold month_length. destruct (m =? 2), (leap y), ((m =? 4) || (m =? 6) || (m =? 9) || (m =? 11)); lia. Qed.
Lemma in_year y m d : 1 <= m <= 12 -> 1 <= d <= month_length y m ->
  month_of (leap y) (offset (leap y) m + (d - 1)) = (m, d) /\ 0 <= offset (leap y) m + (d - 1) < year_length y.
Proof.
  intros M D. pose proof (month_length_bound y m) as B.
  assert (K : month_ok (leap y) m d = true).
  { destruct year_months as [F T]. destruct (leap y); [pose proof (all_from_ok _ _ _ T m ltac:(lia)) as H|pose proof (all_from_ok _ _ _ F m ltac:(lia)) as H];
      apply (all_from_ok _ _ _ H); lia. }
  unfold month_ok in K. rewrite month_length_of in D. destruct (Z.leb_spec d (length_of (leap y) m)) as [_|]; [|lia]. cbn [negb orb] in K.
  assert (L : year_length y = last_day (leap y) + 1) by (unfold year_length, last_day; now destruct (leap y)).
  destruct (month_of _ _) as [m' d']. split; [f_equal; lia|lia].
Qed.
Lemma every_date d : valid_date d -> of_triple (absDate (absDayOf d)) = d.
Proof.
  destruct d as [y m d]. intros [M D]. cbn [d_year d_month d_day] in M, D. unfold absDayOf; cbn [d_year d_month d_day].
  destruct (in_year y m d M D) as [E R]. rewrite absDate_split, absDay_split, <- Z.add_assoc, year_of_day by exact R. now rewrite E.
Qed.

(** ** Dates of day numbers *)
Lemma date_at n : is_date n (of_triple (absDate (n + epoch_day))).
Proof.
  assert (Z0 : is_date 0 (of_triple (absDate (0 + epoch_day)))) by (change (of_triple (absDate (0 + epoch_day))) with
    {| d_year := 1970; d_month := 1; d_day := 1 |}; constructor).
  assert (F : forall n, is_date n (of_triple (absDate (n + epoch_day))) -> is_date (n + 1) (of_triple (absDate (n + 1 + epoch_day)))).
  { intros k H. destruct (every_day (k + epoch_day)) as (_ & E & _). replace (k + 1 + epoch_day) with (k + epoch_day + 1) by lia.
    rewrite <- E. now constructor. }
  assert (B : forall n, is_date (n + 1) (of_triple (absDate (n + 1 + epoch_day))) -> is_date n (of_triple (absDate (n + epoch_day)))).
  { intros k H. destruct (every_day (k + epoch_day)) as (V & E & _). replace (k + 1 + epoch_day) with (k + epoch_day + 1) in H by lia.
    rewrite <- E in H. now apply day_before. }
  destruct (Z.le_gt_cases 0 n) as [N|N].
  - revert n N. apply natlike_ind; [exact Z0|]. intros x _ H. exact (F x H).
  - replace n with (- (- n)) by lia. assert (N' : 0 <= - n) by lia. generalize (- n) N'. clear N N' n.
    apply natlike_ind; [exact Z0|]. intros x _ H. replace (- Z.succ x) with (- x - 1) by lia.
    apply B. replace (- x - 1 + 1) with (- x) by lia. exact H.
Qed.
Lemma month_length_ext d d' : valid_date d -> valid_date d' -> next_day d = next_day d' -> d = d'.
Proof.
  destruct d as [y m d], d' as [y' m' d']. unfold valid_date, next_day; cbn [d_year d_month d_day]. intros [M D] [M' D'] H.
  destruct (Z.ltb_spec d (month_length y m)) as [L|L], (Z.ltb_spec d' (month_length y' m')) as [L'|L'];
    [|destruct (Z.ltb_spec m' 12)|destruct (Z.ltb_spec m 12)|destruct (Z.ltb_spec m 12), (Z.ltb_spec m' 12)];
    pose proof (f_equal d_year H) as E1; pose proof (f_equal d_month H) as E2; pose proof (f_equal d_day H) as E3;
    clear H; cbn [d_year d_month d_day] in E1, E2, E3; try (exfalso; lia).
  - subst y' m'. f_equal; lia.
  - assert (m = m') by lia. subst y' m'. f_equal; lia.
  - assert (m = 12) by lia. assert (m' = 12) by lia. assert (y = y') by lia. subst y' m m'. f_equal; lia.
Qed.
Lemma date_unique n d : is_date n d -> d = of_triple (absDate (n + epoch_day)).
Proof.
  induction 1 as [|n d H IH|n d V H IH].
  - reflexivity.
  - replace (n + 1 + epoch_day) with (n + epoch_day + 1) by lia. destruct (every_day (n + epoch_day)) as (_ & E & _). congruence.
  - replace (n + 1 + epoch_day) with (n + epoch_day + 1) in IH by lia. destruct (every_day (n + epoch_day)) as (V' & E & _).
    rewrite <- E in IH. now apply month_length_ext.
Qed.
Lemma is_date_iff n d : is_date n d <-> valid_date d /\ n = absDayOf d - epoch_day.
Proof.
  split.
  - intros H. apply date_unique in H. destruct (every_day (n + epoch_day)) as (V & _ & A). rewrite <- H in *. split; [exact V|lia].
  - intros [V ->]. pose proof (date_at (absDayOf d - epoch_day)) as H. replace (absDayOf d - epoch_day + epoch_day) with (absDayOf d) in H by lia.
    now rewrite every_date in H by exact V.
Qed.
Lemma daysIn_length m y : 1 <= m <= 12 -> daysIn m y = month_length y m.
Proof.
  intros H. unfold daysIn, month_length. rewrite isLeap_leap.
  assert (C : In m [1; 2; 3; 4; 5; 6; 7; 8; 9; 10; 11; 12]) by (cbn; lia). cbn [In] in C.
  repeat destruct C as [<-|C]; try reflexivity; destruct C.
Qed.
(** Years in order of days. *)
Lemma absDay_range y m d : 0 <= y < 10000 -> 1 <= m <= 12 -> 1 <= d <= month_length y m ->
  -719528 <= absDay y m d - epoch_day < 2932897.
Proof.
  intros Y M D. destruct (in_year y m d M D) as [_ R]. rewrite absDay_split.
  assert (A : daysSinceEpoch 0 <= daysSinceEpoch y).
  { pose proof (years_apart y ltac:(lia) 0). replace (0 + y) with y in * by lia. lia. }
  pose proof (years_apart' y 10000 ltac:(lia)) as B.
  change (daysSinceEpoch 0) with (epoch_day - 719528) in A. change (daysSinceEpoch 10000) with (epoch_day + 2932897) in B. lia.
Qed.
