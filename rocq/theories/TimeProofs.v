(** The texts of points in time: formatting and parsing. *)
From Verif Require Import Base BaseProofs GoStd GoStdProofs SpecText NumbersProofs Time SpecTime TimeCalendar.
Ltac Zify.zify_post_hook ::= Z.div_mod_to_equations.

(** ** Digits *)
Lemma padded_unique w n s s' : padded w n s -> padded w n s' -> s = s'.
Proof. intros (L & D & V) (L' & D' & V'). apply dec_val_inj; congruence. Qed.
Lemma padded_range w n s : padded w n s -> 0 <= n < 10 ^ Z.of_nat w.
Proof. intros (<- & D & <-). now apply dec_val_bound. Qed.
Lemma padded_two n s : padded 2 n s <-> exists a b, s = [a; b] /\ digit a /\ digit b /\ n = (zb a - 48) * 10 + (zb b - 48).
Proof.
  split.
  - intros (L & D & <-). destruct s as [|a [|b [|? ?]]]; try discriminate L. inversion D as [|? ? A D']; inversion D' as [|? ? B _]; subst.
    exists a, b. split; [reflexivity|]. split; [exact A|]. split; [exact B|]. unfold dec_val. cbn [dec_val_from]. lia.
  - intros (a & b & -> & A & B & ->). split; [reflexivity|]. split; [unfold digits; auto|]. unfold dec_val. cbn [dec_val_from]. lia.
Qed.
Lemma padded_one n s : padded 1 n s <-> exists a, s = [a] /\ digit a /\ n = zb a - 48.
Proof.
  split.
  - intros (L & D & <-). destruct s as [|a [|? ?]]; try discriminate L. inversion D; subst.
    exists a. split; [reflexivity|]. split; [assumption|]. unfold dec_val. cbn [dec_val_from]. lia.
  - intros (a & -> & A & ->). split; [reflexivity|]. split; [unfold digits; auto|]. unfold dec_val. cbn [dec_val_from]. lia.
Qed.
Lemma appendInt_padded x w : (0 < w)%nat -> 0 <= x < 10 ^ Z.of_nat w -> padded w x (appendInt x w).
Proof.
  intros W X. unfold appendInt. destruct (Z.ltb_spec x 0) as [|_]; [lia|]. rewrite Z.abs_eq by lia. cbn [app].
  pose proof (FormatUint_numeral x ltac:(lia)) as N. pose proof (numeral_length x _ (Z.of_nat w) ltac:(lia) N) as L. specialize (L ltac:(lia)).
  split; [|split].
  - unfold zlen in L. rewrite app_length, repeat_length. lia.
  - apply Forall_app. split; [|apply FormatUint_digits; lia].
    apply Forall_forall. intros c Hc. apply repeat_spec in Hc. subst. unfold digit. cbn. lia.
  - rewrite dec_zeros. apply FormatUint_val. lia.
Qed.
Lemma digits_value_ok s : digits_value s = dec_val s.
Proof.
  unfold digits_value, dec_val. generalize 0. induction s as [|c s IH]; intros a; [reflexivity|]. cbn [fold_left dec_val_from]. rewrite <- IH.
  f_equal. lia.
Qed.
Lemma all_dec s : forallb is_dec s = true <-> digits s.
Proof.
  unfold digits. rewrite forallb_forall, Forall_forall. split; intros H c I; [apply is_dec_digit|apply is_dec_digit]; auto.
Qed.
Lemma zb_digit k : 0 <= k < 10 -> zb (bz (48 + k)) = 48 + k.
Proof. intros K. rewrite zb_bz. lia. Qed.
Lemma nano_padded ns : 0 <= ns < 1000000000 -> padded 3 (ns / 1000000) (nano_digits ns 3).
Proof.
  intros N. unfold nano_digits. cbn [seq map firstn]. change (10 ^ (8 - Z.of_nat 0)) with 100000000.
  change (10 ^ (8 - Z.of_nat 1)) with 10000000. change (10 ^ (8 - Z.of_nat 2)) with 1000000.
  split; [reflexivity|]. split.
  - repeat constructor; unfold digit; rewrite zb_digit; lia.
  - unfold dec_val. cbn [dec_val_from]. rewrite !zb_digit by lia. lia.
Qed.

(** ** Formatting *)
Lemma unixToAbsolute_days : unixToAbsolute = epoch_day * 86400.
Proof. reflexivity. Qed.
Lemma year_before y y' : y < y' -> forall d d' m m', 1 <= m <= 12 -> 1 <= d <= month_length y m -> 1 <= m' <= 12 -> 1 <= d' <= month_length y' m' ->
  absDay y m d < absDay y' m' d'.
Proof.
  intros L d d' m m' M D M' D'. destruct (in_year y m d M D) as [_ R]. destruct (in_year y' m' d' M' D') as [_ R'].
  rewrite !absDay_split. pose proof (years_apart' y y' L). lia.
Qed.
Lemma year_range n d : is_date n d -> (0 <= d_year d <-> -719528 <= n) /\ (d_year d < 10000 <-> n < 2932897).
Proof.
  intros H. apply is_date_iff in H as [[M D] ->]. destruct d as [y m d]. cbn [d_year d_month d_day] in *. unfold absDayOf; cbn [d_year d_month d_day].
  destruct (in_year y m d M D) as [_ R]. rewrite absDay_split.
  assert (A : daysSinceEpoch 0 = epoch_day - 719528) by reflexivity. assert (B : daysSinceEpoch 10000 = epoch_day + 2932897) by reflexivity.
  split; split; intros H.
  - destruct (Z.eq_dec y 0) as [->|]; [lia|]. pose proof (years_apart' 0 y ltac:(lia)). pose proof (year_length_pos 0). lia.
  - destruct (Z.le_gt_cases 0 y); [lia|]. pose proof (years_apart' y 0 ltac:(lia)). lia.
  - pose proof (years_apart' y 10000 ltac:(lia)). lia.
  - destruct (Z.lt_ge_cases y 10000); [lia|]. destruct (Z.eq_dec y 10000) as [->|]; [lia|].
    pose proof (years_apart' 10000 y ltac:(lia)). pose proof (year_length_pos 10000). lia.
Qed.
(** Every time whose seconds stay clear of the 64-bit range. *)
Definition clear_of_limits (t : Z) : Prop := - 9223372028715321600 <= t < 9223372028715321600.
Lemma FormatSeconds_date t ns d : clear_of_limits t -> is_date (t / 86400) d ->
  FormatSeconds {| t_sec := t; t_nsec := ns |} =
  appendInt (d_year d) 4 ++ [x2d] ++ appendInt (d_month d) 2 ++ [x2d] ++ appendInt (d_day d) 2 ++ [x54]
  ++ appendInt (t mod 86400 / 3600) 2 ++ [x3a] ++ appendInt (t mod 3600 / 60) 2 ++ [x3a] ++ appendInt (t mod 60) 2.
Proof.
  intros C D. apply date_unique in D. unfold clear_of_limits in C. unfold FormatSeconds. cbn [t_sec]. cbv zeta. rewrite u64_small by (unfold unixToAbsolute; lia).
  rewrite unixToAbsolute_days, Z.div_add, Z.mod_add by lia. destruct (absDate _) as [[y m] dd]. subst d. cbn [of_triple d_year d_month d_day].
  replace ((t mod 86400 - t mod 86400 / 3600 * 3600) / 60) with (t mod 3600 / 60) by lia.
  replace (t mod 86400 - t mod 86400 / 3600 * 3600 - t mod 3600 / 60 * 60) with (t mod 60) by lia. reflexivity.
Qed.
Lemma date_exists n : exists d, is_date n d /\ valid_date d.
Proof. exists (of_triple (absDate (n + epoch_day))). split; [apply date_at|]. apply (every_day (n + epoch_day)). Qed.
Lemma FormatSeconds_text t ns : year_zero <= t < year_10000 -> second_text t (FormatSeconds {| t_sec := t; t_nsec := ns |}).
Proof.
  intros T. unfold year_zero, year_10000 in T. destruct (date_exists (t / 86400)) as [d [D V]]. exists d. split; [exact D|].
  rewrite (FormatSeconds_date t ns d) by (unfold clear_of_limits; try lia; exact D).
  pose proof (year_range _ _ D) as Y. destruct V as [M DD]. pose proof (month_length_bound (d_year d) (d_month d)).
  do 6 eexists. split; [reflexivity|]. repeat split; apply appendInt_padded; try lia.
Qed.
Lemma second_text_unique t s s' : second_text t s -> second_text t s' -> s = s'.
Proof.
  intros (d & D & ty & tm & td & th & tmin & ts & -> & P1 & P2 & P3 & P4 & P5 & P6) (d' & D' & ty' & tm' & td' & th' & tmin' & ts' & -> & Q1 & Q2 & Q3 & Q4 & Q5 & Q6).
  assert (d = d') by (rewrite (date_unique _ _ D), (date_unique _ _ D'); reflexivity). subst d'.
  rewrite (padded_unique _ _ _ _ P1 Q1), (padded_unique _ _ _ _ P2 Q2), (padded_unique _ _ _ _ P3 Q3), (padded_unique _ _ _ _ P4 Q4),
    (padded_unique _ _ _ _ P5 Q5), (padded_unique _ _ _ _ P6 Q6). reflexivity.
Qed.

(** ** Parsing *)
Lemma rbind_iff {A B} (r : res A) (f : A -> res B) b : rbind r f = Ok b <-> exists a, r = Ok a /\ f a = Ok b.
Proof. destruct r; cbn [rbind]; split; intros H; eauto; try discriminate H; destruct H as (? & H & ?); try discriminate H. now inversion H; subst. Qed.
Lemma skip_iff c s r : skip c s = Ok r <-> s = c :: r.
Proof.
  unfold skip. destruct s as [|c' s]; [split; intros H; discriminate H|]. destruct (Byte.eqb c' c) eqn:E.
  - apply eqb_eq in E. subst. split; intros H; [injection H as ->|injection H as H]; congruence.
  - apply eqb_neq in E. split; intros H; [discriminate H|injection H as H1 H2; congruence].
Qed.
Lemma in_range_iff v lo hi u : in_range v lo hi = Ok u <-> lo <= v <= hi.
Proof.
  unfold in_range. destruct u. destruct (Z.leb_spec lo v), (Z.leb_spec v hi); cbn [andb]; split; intros X; try discriminate X; try reflexivity; lia.
Qed.
Lemma getnum_fixed s v r : getnum s true = Ok (v, r) <-> exists p, s = p ++ r /\ padded 2 v p.
Proof.
  unfold getnum. split.
  - destruct s as [|a [|b s]]; cbn [isDigit nth_error]; [discriminate| |].
    + destruct (negb _); discriminate.
    + unfold isDigit. cbn [nth_error]. destruct (is_dec a) eqn:A; [|discriminate]. destruct (is_dec b) eqn:B; [|discriminate].
      cbn [negb]. intros H. injection H as <- <-. exists [a; b]. split; [reflexivity|]. apply padded_two. apply is_dec_digit in A, B. now exists a, b.
  - intros (p & -> & P). apply padded_two in P as (a & b & -> & A & B & ->). apply is_dec_digit in A, B. cbn [app]. unfold isDigit. cbn [nth_error].
    now rewrite A, B.
Qed.
Lemma getnum_free s v r : getnum s false = Ok (v, r) <->
  exists p, s = p ++ r /\ (padded 2 v p \/ padded 1 v p /\ isDigit r 0 = false).
Proof.
  unfold getnum. split.
  - destruct s as [|a s]; [discriminate|]. unfold isDigit at 1. cbn [nth_error]. destruct (is_dec a) eqn:A; [|discriminate]. cbn [negb].
    apply is_dec_digit in A. change (isDigit (a :: s) 1) with (isDigit s 0). destruct (isDigit s 0) eqn:B; cbn [negb].
    + destruct s as [|b s]; [discriminate|]. intros H. injection H as <- <-. exists [a; b]. split; [reflexivity|]. left. apply padded_two.
      apply is_dec_digit in B. exists a, b. now split.
    + intros H. injection H as <- <-. exists [a]. split; [reflexivity|]. right. split; [|exact B]. apply padded_one. now exists a.
  - intros (p & -> & [P|[P R]]).
    + apply padded_two in P as (a & b & -> & A & B & ->). apply is_dec_digit in A, B. cbn [app]. unfold isDigit. cbn [nth_error]. now rewrite A, B.
    + apply padded_one in P as (a & -> & A & ->). apply is_dec_digit in A. cbn [app]. change (isDigit (a :: r) 1) with (isDigit r 0). rewrite R.
      unfold isDigit. cbn [nth_error]. now rewrite A.
Qed.
Lemma atoi_digit c s v : digit c -> atoi (c :: s) = Ok v <-> digits (c :: s) /\ v = dec_val (c :: s).
Proof.
  intros C. unfold atoi. destruct (Byte.eqb c x2d) eqn:E; [exfalso; apply (sign_not_digit c); auto|].
  destruct (Byte.eqb c x2b) eqn:E'; [exfalso; apply (sign_not_digit c); auto|]. rewrite digits_value_ok.
  destruct (forallb is_dec (c :: s)) eqn:F; split.
  - intros H. injection H as <-. split; [now apply all_dec|reflexivity].
  - intros [_ ->]. reflexivity.
  - discriminate.
  - intros [H _]. apply all_dec in H. congruence.
Qed.
Definition parse_year (value : list byte) : res Z :=
  if (length value <? 4)%nat || negb (isDigit value 0) then Err errParse else atoi (firstn 4 value).
Lemma year_iff s y r : parse_year s = Ok y /\ skipn 4 s = r <-> exists p, s = p ++ r /\ padded 4 y p.
Proof.
  unfold parse_year. split.
  - destruct s as [|a [|b [|c [|d s]]]]; try (intros [H _]; discriminate H). unfold isDigit. cbn [length Nat.ltb Nat.leb nth_error orb firstn skipn].
    destruct (is_dec a) eqn:A; [|intros [H _]; discriminate H]. cbn [negb orb]. intros [H <-]. apply is_dec_digit in A. apply atoi_digit in H as [D ->]; [|exact A].
    exists [a; b; c; d]. split; [reflexivity|]. split; [reflexivity|]. split; [exact D|reflexivity].
  - intros (p & -> & L & D & <-). destruct p as [|a [|b [|c [|d [|? ?]]]]]; try discriminate L. unfold isDigit. cbn [app length Nat.ltb Nat.leb nth_error orb firstn skipn].
    inversion D as [|? ? A _]; subst. pose proof A as A'. apply is_dec_digit in A'. rewrite A'. cbn [negb orb]. split; [|reflexivity]. now apply atoi_digit.
Qed.
(** The fraction. *)
Definition parse_fraction (frac : bool) (value : list byte) : res (Z * list byte) :=
  if frac then
    if (length value <? 4)%nat then Err errParse else rbind (parseNanoseconds value 4) (fun ns => Ok (ns, skipn 4 value))
  else
    match value with
    | c :: c' :: rest =>
        if commaOrPeriod c && is_dec c' then
          let n := (2 + digit_run rest)%nat in
          rbind (parseNanoseconds value n) (fun ns => Ok (ns, skipn n value))
        else Ok (0, value)
    | _ => Ok (0, value)
    end.
Lemma comma_iff c : commaOrPeriod c = true <-> point c.
Proof. unfold commaOrPeriod, point. rewrite orb_true_iff, !eqb_eq. tauto. Qed.
Lemma millis_iff s ns : parse_fraction true s = Ok (ns, []) <-> exists ms, read_millis s ms /\ ns = ms * 1000000.
Proof.
  unfold parse_fraction, read_millis. split.
  - destruct s as [|c [|a [|b [|d [|e s]]]]]; try discriminate.
    + cbn [length Nat.ltb Nat.leb]. unfold parseNanoseconds. destruct (commaOrPeriod c) eqn:C; [|discriminate]. apply comma_iff in C. cbn [negb].
      change (Nat.min 4 10) with 4%nat. cbn [firstn skipn]. change (10 ^ (10 - Z.of_nat 4)) with 1000000. unfold atoi.
      destruct (Byte.eqb a x2d) eqn:E1; [|destruct (Byte.eqb a x2b) eqn:E2].
      * apply eqb_eq in E1. subst a. destruct (forallb is_dec [b; d]) eqn:F; cbn [rbind]; [|discriminate]. apply all_dec in F. rewrite digits_value_ok.
        pose proof (dec_val_bound _ F) as B. destruct (Z.ltb_spec (- dec_val [b; d]) 0); [discriminate|]. intros H0. injection H0 as <-.
        assert (E : dec_val [b; d] = 0) by lia. exists 0. split; [|lia]. exists c, [x2d; b; d]. split; [reflexivity|]. split; [exact C|]. right; right.
        split; [|reflexivity]. inversion F as [|? ? X F']; inversion F' as [|? ? Y _]; subst. unfold dec_val in E; cbn [dec_val_from] in E. unfold digit in *.
        assert (zb b = zb x30) by (change (zb x30) with 48; lia). assert (zb d = zb x30) by (change (zb x30) with 48; lia). apply zb_inj in H0, H1. now subst.
      * apply eqb_eq in E2. subst a. destruct (forallb is_dec [b; d]) eqn:F; cbn [rbind]; [|discriminate]. apply all_dec in F. rewrite digits_value_ok.
        pose proof (dec_val_bound _ F) as B. destruct (Z.ltb_spec (dec_val [b; d]) 0); [discriminate|]. intros H0. injection H0 as <-.
        exists (dec_val [b; d]). split; [|reflexivity]. exists c, [x2b; b; d]. split; [reflexivity|]. split; [exact C|]. right; left.
        exists [b; d]. split; [reflexivity|]. split; [reflexivity|]. split; [exact F|reflexivity].
      * destruct (forallb is_dec [a; b; d]) eqn:F; cbn [rbind]; [|discriminate]. apply all_dec in F. rewrite digits_value_ok.
        pose proof (dec_val_bound _ F) as B. destruct (Z.ltb_spec (dec_val [a; b; d]) 0); [discriminate|]. intros H0. injection H0 as <-.
        exists (dec_val [a; b; d]). split; [|reflexivity]. exists c, [a; b; d]. split; [reflexivity|]. split; [exact C|]. left.
        split; [reflexivity|]. split; [exact F|reflexivity].
    + cbn [length Nat.ltb Nat.leb]. destruct (parseNanoseconds _ _); discriminate.
  - intros (ms & (c & f & -> & C & F) & ->). apply comma_iff in C.
    assert (L : length f = 3%nat) by (destruct F as [[L _]|[(g & -> & [L _])|[-> _]]]; cbn [length]; lia).
    destruct f as [|a [|b [|d [|? ?]]]]; try discriminate L. clear L. cbn [length Nat.ltb Nat.leb]. unfold parseNanoseconds. rewrite C. cbn [negb].
    change (Nat.min 4 10) with 4%nat. cbn [firstn skipn]. change (10 ^ (10 - Z.of_nat 4)) with 1000000.
    destruct F as [(_ & D & V)|[(g & E & (_ & D & V))|[E ->]]].
    + assert (H : atoi [a; b; d] = Ok ms) by (apply atoi_digit; [now inversion D|now split]). rewrite H. cbn [rbind].
      pose proof (dec_val_bound _ D). destruct (Z.ltb_spec ms 0); [lia|reflexivity].
    + injection E as -> <-. unfold atoi. cbn [Byte.eqb]. change (Byte.eqb x2b x2d) with false. change (Byte.eqb x2b x2b) with true. cbv iota.
      apply all_dec in D as D'. rewrite D', digits_value_ok. cbn [rbind]. pose proof (dec_val_bound _ D). destruct (Z.ltb_spec (dec_val [b; d]) 0); [lia|].
      now rewrite V.
    + injection E as -> -> ->. reflexivity.
Qed.
Lemma digit_run_all s : skipn (digit_run s) s = [] <-> digits s.
Proof.
  induction s as [|c s IH]; [split; [constructor|reflexivity]|]. cbn [digit_run]. destruct (is_dec c) eqn:C.
  - cbn [skipn]. rewrite IH. apply is_dec_digit in C. split; intros H; [constructor; auto|now inversion H].
  - cbn [skipn]. split; intros H; [discriminate H|]. inversion H as [|? ? X _]; subst. apply is_dec_digit in X. congruence.
Qed.
Lemma digit_run_digits s : digits (firstn (digit_run s) s).
Proof.
  induction s as [|c s IH]; [constructor|]. cbn [digit_run]. destruct (is_dec c) eqn:C; [|constructor]. cbn [firstn]. constructor; [now apply is_dec_digit|exact IH].
Qed.
Lemma digits_firstn n s : digits s -> digits (firstn n s).
Proof. intros H. revert n. induction H; intros [|n]; cbn [firstn]; constructor; auto. apply IHForall. Qed.
Lemma nanos_ok c c' rest : point c -> digit c' ->
  exists ns, parseNanoseconds (c :: c' :: rest) (2 + digit_run rest) = Ok ns /\ 0 <= ns < 1000000000.
Proof.
  intros C D. unfold parseNanoseconds. apply comma_iff in C. rewrite C. cbn [negb]. set (k0 := Nat.min (2 + digit_run rest) 10).
  assert (K : (2 <= k0 <= 10 /\ k0 <= 2 + digit_run rest)%nat) by lia. clearbody k0. destruct k0 as [|[|k]]; try lia. cbn [firstn skipn].
  assert (DD : digits (c' :: firstn k rest)).
  { constructor; [exact D|]. replace (firstn k rest) with (firstn k (firstn (digit_run rest) rest)) by (rewrite firstn_firstn; f_equal; lia).
    apply digits_firstn, digit_run_digits. }
  assert (A : atoi (c' :: firstn k rest) = Ok (dec_val (c' :: firstn k rest))) by (apply atoi_digit; auto). rewrite A. cbn [rbind].
  pose proof (dec_val_bound _ DD) as B. destruct (Z.ltb_spec (dec_val (c' :: firstn k rest)) 0); [lia|]. eexists. split; [reflexivity|].
  assert (L : zlen (c' :: firstn k rest) <= Z.of_nat (S (S k)) - 1) by (unfold zlen; cbn [length]; pose proof (firstn_le_length k rest); lia).
  assert (P : 10 ^ zlen (c' :: firstn k rest) <= 10 ^ (Z.of_nat (S (S k)) - 1)) by (apply Z.pow_le_mono_r; lia).
  assert (Q : 10 ^ (Z.of_nat (S (S k)) - 1) * 10 ^ (10 - Z.of_nat (S (S k))) = 1000000000).
  { rewrite <- Z.pow_add_r by lia. replace (Z.of_nat (S (S k)) - 1 + (10 - Z.of_nat (S (S k)))) with 9 by lia. reflexivity. }
  assert (0 < 10 ^ (10 - Z.of_nat (S (S k)))) by (apply Z.pow_pos_nonneg; lia). nia.
Qed.
Lemma any_fraction_iff s : (exists ns, parse_fraction false s = Ok (ns, []) /\ 0 <= ns < 1000000000) <-> read_any_fraction s.
Proof.
  unfold parse_fraction, read_any_fraction. split.
  - intros (ns & H & _). destruct s as [|c [|c' rest]]; [now left|discriminate H|]. right. destruct (commaOrPeriod c) eqn:C; [|discriminate H].
    destruct (is_dec c') eqn:D; [|discriminate H]. cbn [andb] in H. cbv zeta in H. apply comma_iff in C. apply is_dec_digit in D.
    destruct (nanos_ok c c' rest C D) as (x & E & _). rewrite E in H. cbn [rbind Nat.add skipn] in H. injection H as _ H. apply digit_run_all in H.
    exists c, (c' :: rest). repeat split; auto; [discriminate|]. now constructor.
  - intros [->|(c & f & -> & C & N & D)]; [exists 0; split; [reflexivity|lia]|]. destruct f as [|c' rest]; [congruence|]. inversion D as [|? ? D1 D2]; subst.
    destruct (nanos_ok c c' rest C D1) as (x & E & R). exists x. split; [|exact R]. apply comma_iff in C. apply is_dec_digit in D1. rewrite C, D1. cbn [andb]. cbv zeta.
    rewrite E. cbn [rbind Nat.add skipn]. apply digit_run_all in D2. now rewrite D2.
Qed.
Lemma parse_fraction_false s ns r : parse_fraction false s = Ok (ns, r) -> 0 <= ns < 1000000000.
Proof.
  unfold parse_fraction. destruct s as [|c [|c' rest]]; try (intros H; injection H as <- _; lia). destruct (commaOrPeriod c) eqn:C; [|intros H; injection H as <- _; lia].
  destruct (is_dec c') eqn:D; [|intros H; injection H as <- _; lia]. cbn [andb]. cbv zeta. apply comma_iff in C. apply is_dec_digit in D.
  destruct (nanos_ok c c' rest C D) as (x & E & R). rewrite E. cbn [rbind]. intros H. injection H as <- _. exact R.
Qed.
Lemma Date_ok y m d h mi s ns : 0 <= y < 10000 -> 1 <= m <= 12 -> 1 <= d <= month_length y m -> 0 <= h < 24 -> 0 <= mi < 60 -> 0 <= s < 60 ->
  Date y m d h mi s ns = {| t_sec := (absDay y m d - epoch_day) * 86400 + h * 3600 + mi * 60 + s; t_nsec := ns |}.
Proof.
  intros Y M D H MI S. unfold Date. f_equal. pose proof (absDay_range y m d Y M D) as R. rewrite u64_small.
  - rewrite unixToAbsolute_days, i64_small; unfold epoch_day in *; lia.
  - unfold epoch_day in R. lia.
Qed.
Lemma Parse_iff frac s t : Parse frac s = Ok t <->
  exists body tail, s = body ++ tail /\ read_seconds body (t_sec t) /\ parse_fraction frac tail = Ok (t_nsec t, []).
Proof.
  unfold Parse. fold (parse_year s).
  split.
  - intros H. apply rbind_iff in H as (year & Hy & H). apply rbind_iff in H as (v1 & S1 & H). apply skip_iff in S1.
    destruct (proj1 (year_iff s year (x2d :: v1)) (conj Hy S1)) as (ty & -> & Py). clear Hy S1.
    apply rbind_iff in H as ([month v2] & G & H). apply getnum_fixed in G as (tm & -> & Pm).
    apply rbind_iff in H as (? & R1 & H). apply in_range_iff in R1. apply rbind_iff in H as (v3 & S1 & H). apply skip_iff in S1. subst v2.
    apply rbind_iff in H as ([day v2] & G & H). apply getnum_fixed in G as (td & -> & Pd).
    apply rbind_iff in H as (v3 & S1 & H). apply skip_iff in S1. subst v2.
    apply rbind_iff in H as ([hour v2] & G & H). apply getnum_free in G as (th & -> & Ph).
    apply rbind_iff in H as (? & R2 & H). apply in_range_iff in R2. apply rbind_iff in H as (v4 & S1 & H). apply skip_iff in S1. subst v2.
    apply rbind_iff in H as ([min v2] & G & H). apply getnum_fixed in G as (tmin & -> & Pmin).
    apply rbind_iff in H as (? & R3 & H). apply in_range_iff in R3. apply rbind_iff in H as (v5 & S1 & H). apply skip_iff in S1. subst v2.
    apply rbind_iff in H as ([sec v2] & G & H). apply getnum_fixed in G as (ts & -> & Ps).
    apply rbind_iff in H as (? & R4 & H). apply in_range_iff in R4.
    apply rbind_iff in H as ([ns v3] & F & H). destruct v3; [|discriminate H].
    destruct (Z.ltb_spec day 1) as [|D1]; [discriminate H|]. destruct (Z.ltb_spec (daysIn month year) day) as [|D2]; [discriminate H|]. cbn [orb] in H.
    rewrite daysIn_length in D2 by lia. injection H as <-. pose proof (padded_range _ _ _ Py) as Ry. change (10 ^ Z.of_nat 4) with 10000 in Ry.
    rewrite Date_ok by lia. cbn [t_sec t_nsec].
    exists (ty ++ [x2d] ++ tm ++ [x2d] ++ td ++ [x54] ++ th ++ [x3a] ++ tmin ++ [x3a] ++ ts), v2.
    split; [now rewrite <- ?app_assoc; cbn [app]; rewrite <- ?app_assoc|]. split; [|exact F].
    assert (W : exists w, padded w hour th /\ (w = 1%nat \/ w = 2%nat)) by (destruct Ph as [P|[P _]]; eauto). destruct W as (w & Ph' & W).
    exists {| d_year := year; d_month := month; d_day := day |}, (absDay year month day - epoch_day), w, hour, min, sec.
    split; [apply is_date_iff; split; [split; cbn [d_year d_month d_day]; lia|reflexivity]|].
    split; [exists ty, tm, td, th, tmin, ts; cbn [d_year d_month d_day]; repeat (split; auto)|]. split; [exact W|]. repeat split; lia.
  - intros (body & tail & -> & (d & n & w & h & mi & sc & D & (ty & tm & td & th & tmin & ts & -> & Py & Pm & Pd & Ph & Pmin & Ps) & W & Rh & Rm & Rs & T) & F).
    apply is_date_iff in D as [[M DD] ->]. unfold absDayOf in T.
    pose proof (padded_range _ _ _ Py) as Ry. change (10 ^ Z.of_nat 4) with 10000 in Ry.
    rewrite <- ?app_assoc. cbn [app].
    match goal with |- context [parse_year (ty ++ ?r)] =>
      assert (Y : parse_year (ty ++ r) = Ok (d_year d) /\ skipn 4 (ty ++ r) = r) by (apply year_iff; eauto) end.
    destruct Y as [Y1 Y2]. rewrite Y1, Y2. cbn [rbind]. rewrite (proj2 (skip_iff _ _ _) eq_refl). cbn [rbind]. rewrite <- ?app_assoc. cbn [app].
    rewrite (proj2 (getnum_fixed _ (d_month d) _)) by eauto. cbn [rbind]. rewrite (proj2 (in_range_iff (d_month d) 1 12 tt)) by lia. cbn [rbind].
    rewrite (proj2 (skip_iff _ _ _) eq_refl). cbn [rbind]. rewrite <- ?app_assoc. cbn [app].
    rewrite (proj2 (getnum_fixed _ (d_day d) _)) by eauto. cbn [rbind].
    rewrite (proj2 (skip_iff _ _ _) eq_refl). cbn [rbind]. rewrite <- ?app_assoc. cbn [app].
    rewrite (proj2 (getnum_free _ h (x3a :: tmin ++ x3a :: ts ++ tail))) by (exists th; split; [reflexivity|destruct W as [-> | ->]; [right; split; [exact Ph|reflexivity]|left; exact Ph]]).
    cbn [rbind]. rewrite (proj2 (in_range_iff h 0 23 tt)) by lia. cbn [rbind].
    rewrite (proj2 (skip_iff _ _ _) eq_refl). cbn [rbind].
    rewrite (proj2 (getnum_fixed _ mi _)) by eauto. cbn [rbind]. rewrite (proj2 (in_range_iff mi 0 59 tt)) by lia. cbn [rbind].
    rewrite (proj2 (skip_iff _ _ _) eq_refl). cbn [rbind].
    rewrite (proj2 (getnum_fixed _ sc _)) by eauto. cbn [rbind]. rewrite (proj2 (in_range_iff sc 0 59 tt)) by lia. cbn [rbind].
    fold (parse_fraction frac tail). rewrite F. cbn [rbind].
    destruct (Z.ltb_spec (d_day d) 1); [lia|]. rewrite daysIn_length by lia. destruct (Z.ltb_spec (month_length (d_year d) (d_month d)) (d_day d)); [lia|]. cbn [orb].
    rewrite Date_ok by lia. destruct t as [t ns]. cbn [t_sec t_nsec] in *. now rewrite T.
Qed.

(** ** The trailing Z *)
Definition ends_in_digit (s : list byte) : Prop := exists s' c, s = s' ++ [c] /\ digit c.
Lemma digits_end s : s <> [] -> digits s -> ends_in_digit s.
Proof.
  intros N D. destruct (exists_last N) as (s' & c & ->). exists s', c. split; [reflexivity|]. apply Forall_app in D as [_ D]. now inversion D.
Qed.
Lemma padded_end w n s : (0 < w)%nat -> padded w n s -> ends_in_digit s.
Proof. intros W (L & D & _). apply digits_end; [|exact D]. intros ->. cbn in L. lia. Qed.
Lemma end_app s t : ends_in_digit t -> ends_in_digit (s ++ t).
Proof. intros (t' & c & -> & D). exists (s ++ t'), c. now rewrite app_assoc. Qed.
Lemma end_cons c t : ends_in_digit t -> ends_in_digit (c :: t).
Proof. apply (end_app [c]). Qed.
Lemma read_seconds_end s t : read_seconds s t -> ends_in_digit s.
Proof.
  intros (d & n & w & h & m & sc & _ & (ty & tm & td & th & tmin & ts & -> & _ & _ & _ & _ & _ & P) & _).
  repeat (apply end_app). apply (padded_end 2 sc); [lia|exact P].
Qed.
Lemma read_millis_end s ms : read_millis s ms -> ends_in_digit s.
Proof.
  intros (c & f & -> & _ & F). apply end_cons. destruct F as [P|[(g & -> & P)|[-> _]]].
  - apply (padded_end 3 ms); [lia|exact P].
  - apply end_cons. apply (padded_end 2 ms); [lia|exact P].
  - exists [x2d; x30], x30. split; [reflexivity|]. unfold digit. cbn. lia.
Qed.
Lemma any_fraction_end s : read_any_fraction s -> s = [] \/ ends_in_digit s.
Proof. intros [->|(c & f & -> & _ & N & D)]; [now left|right]. apply end_cons. now apply digits_end. Qed.
Lemma Parse_end frac s t : Parse frac s = Ok t -> ends_in_digit s.
Proof.
  intros H. apply Parse_iff in H as (body & tail & -> & B & F). destruct frac.
  - apply millis_iff in F as (ms & M & _). apply end_app. now apply read_millis_end in M.
  - assert (A : read_any_fraction tail) by (apply any_fraction_iff; exists (t_nsec t); split; [exact F|exact (parse_fraction_false _ _ _ F)]).
    apply any_fraction_end in A as [->|A]; [rewrite app_nil_r; now apply read_seconds_end in B|now apply end_app].
Qed.
Lemma strip_z_app s : strip_z (s ++ [x5a]) = s.
Proof. unfold strip_z. rewrite rev_app_distr. cbn [rev app]. rewrite eqb_refl. apply rev_involutive. Qed.
Lemma strip_z_digit s : ends_in_digit s -> strip_z s = s.
Proof.
  intros (s' & c & -> & D). unfold strip_z. rewrite rev_app_distr. cbn [rev app]. destruct (Byte.eqb c x5a) eqn:E; [|reflexivity].
  apply eqb_eq in E. subst c. unfold digit in D. change (zb x5a) with 90 in D. lia.
Qed.
Lemma strip_z_maybe s : maybe_z (strip_z s) s.
Proof.
  unfold strip_z, maybe_z. destruct (rev s) as [|c r] eqn:R; [now left|]. destruct (Byte.eqb c x5a) eqn:E; [|now left].
  apply eqb_eq in E. subst c. right. rewrite <- (rev_involutive s), R. reflexivity.
Qed.
Lemma Parse_strip frac s t : Parse frac (strip_z s) = Ok t <-> exists body, maybe_z body s /\ Parse frac body = Ok t.
Proof.
  split.
  - intros H. exists (strip_z s). split; [apply strip_z_maybe|exact H].
  - intros (body & [->| ->] & H); [now rewrite (strip_z_digit _ (Parse_end _ _ _ H))|now rewrite strip_z_app].
Qed.

(** ** No panic *)
Lemma rbind_np {A B} (r : res A) (f : A -> res B) : (forall m, r <> Panic m) -> (forall a m, f a <> Panic m) -> forall m, rbind r f <> Panic m.
Proof. intros H F m. destruct r as [a|e|p]; cbn [rbind]; [apply F|discriminate|]. intros E. injection E as E. now apply (H p). Qed.
Lemma skip_np c s m : skip c s <> Panic m.
Proof. unfold skip. destruct s as [|c' s]; [discriminate|]. destruct (Byte.eqb c' c); discriminate. Qed.
Lemma getnum_np s b m : getnum s b <> Panic m.
Proof. unfold getnum. destruct (negb _); [discriminate|]. destruct (negb _); [destruct b|]; destruct s as [|? [|? ?]]; discriminate. Qed.
Lemma in_range_np v a b m : in_range v a b <> Panic m.
Proof. unfold in_range. destruct (_ && _); discriminate. Qed.
Lemma atoi_np s m : atoi s <> Panic m.
Proof. unfold atoi. destruct (match s with [] => _ | _ :: _ => _ end) as [n s']. destruct (forallb is_dec s'); discriminate. Qed.
Lemma nanos_np c s n m : parseNanoseconds (c :: s) n <> Panic m.
Proof. unfold parseNanoseconds. destruct (negb _); [discriminate|]. apply rbind_np; [intros; apply atoi_np|]. intros a m'. destruct (a <? 0); discriminate. Qed.
Lemma Parse_np frac s m : Parse frac s <> Panic m.
Proof.
  unfold Parse.
  revert m. apply rbind_np; [intros m; destruct (_ || _); [discriminate|apply atoi_np]|].
  assert (G : forall {A} c s (f : list byte -> res A), (forall v m, f v <> Panic m) -> forall m, rbind (skip c s) f <> Panic m)
    by (intros; apply rbind_np; [intro; apply skip_np|assumption]).
  assert (N : forall {A} s b (f : Z * list byte -> res A), (forall n v m, f (n, v) <> Panic m) -> forall m, rbind (getnum s b) f <> Panic m)
    by (intros; apply rbind_np; [intro; apply getnum_np|intros [? ?]; auto]).
  assert (R : forall {A} v a b (f : unit -> res A), (forall m, f tt <> Panic m) -> forall m, rbind (in_range v a b) f <> Panic m)
    by (intros; apply rbind_np; [intro; apply in_range_np|intros []; auto]).
  intros year. apply G; intros v1. apply N; intros month v2. apply R. apply G; intros v3. apply N; intros day v4. apply G; intros v5.
  apply N; intros hour v6. apply R. apply G; intros v7. apply N; intros min v8. apply R. apply G; intros v9. apply N; intros sec v10. apply R.
  apply rbind_np.
  - intros m. destruct frac.
    + destruct v10 as [|c v]; [discriminate|]. destruct (length (c :: v) <? 4)%nat; [discriminate|].
      apply rbind_np; [intros; apply nanos_np|discriminate].
    + destruct v10 as [|c [|c' v]]; try discriminate. destruct (_ && _); [|discriminate]. cbv zeta. apply rbind_np; [intros; apply nanos_np|discriminate].
  - intros [ns [|? ?]] m; [|discriminate]. destruct (_ || _); discriminate.
Qed.

(** ** Points in time *)
Definition nanos (t : Time) : Z := t_sec t * 1000000000 + t_nsec t.
Definition well_formed (t : Time) : Prop := 0 <= t_nsec t < 1000000000.
Lemma Unix_ok s ns : well_formed (Unix s ns) /\ nanos (Unix s ns) = s * 1000000000 + ns.
Proof.
  unfold Unix, well_formed, nanos. destruct (Z.ltb_spec ns 0), (Z.leb_spec 1000000000 ns); cbn [orb]; try (cbn [t_sec t_nsec]; lia).
  all: destruct (Z.ltb_spec (ns - Z.quot ns 1000000000 * 1000000000) 0); cbn [t_sec t_nsec]; lia.
Qed.
Lemma nanos_inj t t' : well_formed t -> well_formed t' -> nanos t = nanos t' -> t = t'.
Proof. destruct t as [s n], t' as [s' n']. unfold well_formed, nanos; cbn [t_sec t_nsec]. intros. f_equal; lia. Qed.
Lemma UnixMicro_ok u : UnixMicro u = {| t_sec := u / 1000000; t_nsec := u mod 1000000 * 1000 |}.
Proof.
  unfold UnixMicro. destruct (Unix_ok (Z.quot u 1000000) (Z.rem u 1000000 * 1000)) as [W N]. apply nanos_inj; [exact W|unfold well_formed; cbn [t_nsec]; lia|].
  rewrite N. unfold nanos; cbn [t_sec t_nsec]. lia.
Qed.
Lemma UnixMilli_ok u : UnixMilli u = {| t_sec := u / 1000; t_nsec := u mod 1000 * 1000000 |}.
Proof.
  unfold UnixMilli. destruct (Unix_ok (Z.quot u 1000) (Z.rem u 1000 * 1000000)) as [W N]. apply nanos_inj; [exact W|unfold well_formed; cbn [t_nsec]; lia|].
  rewrite N. unfold nanos; cbn [t_sec t_nsec]. lia.
Qed.
Lemma FormatMillis_text t : well_formed t -> year_zero <= t_sec t < year_10000 -> milli_text (nanos t / 1000000) (FormatMillis t).
Proof.
  intros W R. unfold well_formed in W. destruct t as [s ns]. cbn [t_sec t_nsec] in *. unfold FormatMillis. cbn [t_nsec].
  exists (FormatSeconds {| t_sec := s; t_nsec := ns |}), (nano_digits ns 3). split; [reflexivity|]. unfold nanos; cbn [t_sec t_nsec].
  replace ((s * 1000000000 + ns) / 1000000 / 1000) with s by lia. replace ((s * 1000000000 + ns) / 1000000 mod 1000) with (ns / 1000000) by lia.
  split; [now apply FormatSeconds_text|now apply nano_padded].
Qed.
Lemma second_text_read t s : second_text t s -> read_seconds s t.
Proof.
  intros (d & D & T). exists d, (t / 86400), 2%nat, (t mod 86400 / 3600), (t mod 3600 / 60), (t mod 60).
  split; [exact D|]. split; [exact T|]. split; [now right|]. lia.
Qed.
Lemma milli_text_unique t s s' : milli_text t s -> milli_text t s' -> s = s'.
Proof. intros (b & f & -> & B & F) (b' & f' & -> & B' & F'). rewrite (second_text_unique _ _ _ B B'), (padded_unique _ _ _ _ F F'). reflexivity. Qed.
Lemma Parse_millis text ms : milli_text ms text -> Parse true text = Ok {| t_sec := ms / 1000; t_nsec := ms mod 1000 * 1000000 |}.
Proof.
  intros (b & f & -> & B & F). apply Parse_iff. exists b, (x2e :: f). split; [reflexivity|]. cbn [t_sec t_nsec]. split; [now apply second_text_read|].
  apply millis_iff. exists (ms mod 1000). split; [|reflexivity]. exists x2e, f. split; [reflexivity|]. split; [now left|now left].
Qed.
Lemma read_seconds_range s t : read_seconds s t -> year_zero <= t < year_10000.
Proof.
  intros (d & n & w & h & m & sc & D & (ty & _ & _ & _ & _ & _ & _ & P & _) & _ & H & M & S & ->).
  apply padded_range in P. change (10 ^ Z.of_nat 4) with 10000 in P. pose proof (year_range _ _ D). unfold year_zero, year_10000. lia.
Qed.
(** Outside years 0 to 9999 *)
Lemma outside_years t ns : clear_of_limits t -> t < year_zero \/ year_10000 <= t ->
  forall frac tail, exists e, Parse frac (FormatSeconds {| t_sec := t; t_nsec := ns |} ++ tail) = Err e.
Proof.
  intros C Out frac tail. destruct (date_exists (t / 86400)) as [d [D V]]. rewrite (FormatSeconds_date t ns d C D).
  pose proof (year_range _ _ D) as Y. unfold year_zero, year_10000 in Out. unfold Parse. match goal with |- context [rbind (if (length ?s <? 4)%nat || _ then _ else _) _] => fold (parse_year s) end.
  rewrite <- app_assoc. match goal with |- context [parse_year (_ ++ ?r)] => set (rest := r) end.
  destruct (Z.lt_ge_cases (d_year d) 0) as [N|N].
  - unfold appendInt. destruct (Z.ltb_spec (d_year d) 0) as [_|]; [|lia]. unfold parse_year, isDigit. cbn [app nth_error]. change (is_dec x2d) with false. cbn [negb].
    rewrite orb_true_r. eexists. reflexivity.
  - assert (L : 10000 <= d_year d) by lia. unfold appendInt. destruct (Z.ltb_spec (d_year d) 0) as [|_]; [lia|]. rewrite Z.abs_eq by lia. cbn [app].
    pose proof (FormatUint_digits (d_year d) ltac:(lia)) as F. pose proof (FormatUint_val (d_year d) ltac:(lia)) as E. pose proof (dec_val_bound _ F) as B.
    rewrite E in B. remember (FormatUint (d_year d)) as u eqn:U. assert (LU : (5 <= length u)%nat).
    { destruct (le_lt_dec 5 (length u)); [assumption|]. exfalso. assert (10 ^ zlen u <= 10 ^ 4) by (apply Z.pow_le_mono_r; unfold zlen; lia).
      change (10 ^ 4) with 10000 in *. lia. }
    replace (4 - length u)%nat with O by lia. cbn [repeat app]. destruct u as [|a [|b [|c [|x [|e u]]]]]; try (cbn [length] in LU; lia).
    destruct (parse_year _) as [y|er|p] eqn:PY; cbn [rbind]; [|eexists; reflexivity|].
    2:{ exfalso. revert PY. unfold parse_year. destruct (_ || _); [discriminate|apply atoi_np]. }
    cbn [app skipn]. unfold skip at 1. destruct (Byte.eqb e x2d) eqn:EE; [|eexists; reflexivity]. exfalso. apply eqb_eq in EE. subst e.
    inversion F as [|? ? _ F1]; inversion F1 as [|? ? _ F2]; inversion F2 as [|? ? _ F3]; inversion F3 as [|? ? _ F4]; inversion F4 as [|? ? F5 _]; subst.
    unfold digit in F5. change (zb x2d) with 45 in F5. lia.
Qed.
