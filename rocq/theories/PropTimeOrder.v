(** C64: the texts of times sort in the order of time. *)
From Verif Require Import Base BaseProofs GoStd SpecText Time SpecTime TimeCalendar TimeProofs SpecName NameProofs NumbersProofs PropTime.
Ltac Zify.zify_post_hook ::= Z.div_mod_to_equations.

Lemma str_lt_app a : forall a' b b', length a = length a' ->
  str_lt (a ++ b) (a' ++ b') -> str_lt a a' \/ (a = a' /\ str_lt b b').
Proof.
  induction a as [|x a IH]; intros [|y a'] b b' L H; try discriminate L; [now right|].
  cbn [app str_lt] in *. destruct H as [H|[-> H]]; [auto|]. apply IH in H; [|now injection L].
  destruct H as [H|[-> H]]; auto.
Qed.
Lemma padded_lt w n n' s s' : padded w n s -> padded w n' s' -> str_lt s s' -> n < n'.
Proof. intros (L & D & <-) (L' & D' & <-) H. apply digits_order in H; auto. congruence. Qed.
Lemma padded_app w n n' s s' r r' : padded w n s -> padded w n' s' -> str_lt (s ++ r) (s' ++ r') -> n < n' \/ (n = n' /\ str_lt r r').
Proof.
  intros P P' H. apply str_lt_app in H; [|destruct P as [-> _], P' as [-> _]; reflexivity].
  destruct H as [H|[-> H]]; [left; eauto using padded_lt|]. right. split; [|exact H]. destruct P as (_ & _ & <-), P' as (_ & _ & <-). reflexivity.
Qed.
Lemma skip_same c r r' : str_lt ([c] ++ r) ([c] ++ r') -> str_lt r r'.
Proof. cbn [app str_lt]. intros [H|[_ H]]; [lia|exact H]. Qed.
Lemma month_before y m m' d d' : 1 <= m -> m < m' -> m' <= 12 -> 1 <= d <= month_length y m -> 1 <= d' ->
  absDay y m d < absDay y m' d'.
Proof.
  intros M1 M M2 D D'. rewrite !absDay_split. rewrite month_length_of in D.
  assert (K : offset (leap y) m + length_of (leap y) m <= offset (leap y) m').
  { clear D D'. assert (A : In m [1; 2; 3; 4; 5; 6; 7; 8; 9; 10; 11]) by (cbn; lia).
    assert (B : In m' [2; 3; 4; 5; 6; 7; 8; 9; 10; 11; 12]) by (cbn; lia).
    cbn [In] in A, B. destruct (leap y);
    repeat (destruct A as [<-|A]); try tauto; repeat (destruct B as [<-|B]); try tauto; try lia; vm_compute; congruence. }
  lia.
Qed.
Lemma second_lt t t' s s' : second_text t s -> second_text t' s' -> str_lt s s' -> t < t'.
Proof.
  intros (d & D & ty & tm & td & th & tmin & ts & -> & P1 & P2 & P3 & P4 & P5 & P6) (d' & D' & ty' & tm' & td' & th' & tmin' & ts' & -> & Q1 & Q2 & Q3 & Q4 & Q5 & Q6) H.
  apply is_date_iff in D as [[V1 V2] E], D' as [[V1' V2'] E']. unfold absDayOf in *.
  apply (padded_app _ _ _ _ _ _ _ P1 Q1) in H. destruct H as [H|[EY H]].
  { assert (absDay (d_year d) (d_month d) (d_day d) < absDay (d_year d') (d_month d') (d_day d')) by now apply year_before. lia. }
  apply skip_same in H. apply (padded_app _ _ _ _ _ _ _ P2 Q2) in H. rewrite <- EY in *. destruct H as [H|[EM H]].
  { assert (absDay (d_year d) (d_month d) (d_day d) < absDay (d_year d) (d_month d') (d_day d')) by (apply month_before; lia). lia. }
  rewrite <- EM in *. apply skip_same in H. apply (padded_app _ _ _ _ _ _ _ P3 Q3) in H. rewrite !absDay_split in *. destruct H as [H|[ED H]]; [lia|].
  apply skip_same in H. apply (padded_app _ _ _ _ _ _ _ P4 Q4) in H. destruct H as [H|[EH H]]; [lia|].
  apply skip_same in H. apply (padded_app _ _ _ _ _ _ _ P5 Q5) in H. destruct H as [H|[EI H]]; [lia|].
  apply skip_same in H. apply (padded_lt _ _ _ _ _ P6 Q6) in H. lia.
Qed.
Lemma second_length t s : second_text t s -> length s = 19%nat.
Proof.
  intros (d & D & ty & tm & td & th & tmin & ts & -> & (P1 & _) & (P2 & _) & (P3 & _) & (P4 & _) & (P5 & _) & (P6 & _)).
  rewrite !app_length, P1, P2, P3, P4, P5, P6. reflexivity.
Qed.
Lemma app_same {A} (a a' b b' : list A) : length a = length a' -> a ++ b = a' ++ b' -> a = a' /\ b = b'.
Proof. revert a'. induction a as [|x a IH]; intros [|y a'] L H; try discriminate L; [auto|]. cbn in *. injection H as -> H. apply IH in H; [|lia]. now destruct H as [-> ->]. Qed.
Lemma padded_same w n n' s s' r r' : padded w n s -> padded w n' s' -> s ++ r = s' ++ r' -> n = n' /\ r = r'.
Proof.
  intros P P' H. apply app_same in H; [|destruct P as [-> _], P' as [-> _]; reflexivity]. destruct H as [-> ->].
  split; [|reflexivity]. destruct P as (_ & _ & <-), P' as (_ & _ & <-). reflexivity.
Qed.
Lemma second_same t t' s : second_text t s -> second_text t' s -> t = t'.
Proof.
  intros (d & D & ty & tm & td & th & tmin & ts & -> & P1 & P2 & P3 & P4 & P5 & P6) (d' & D' & ty' & tm' & td' & th' & tmin' & ts' & H & Q1 & Q2 & Q3 & Q4 & Q5 & Q6).
  apply is_date_iff in D as [_ E], D' as [_ E']. unfold absDayOf in *.
  apply (padded_same _ _ _ _ _ _ _ P1 Q1) in H. destruct H as [EY H]. rewrite <- EY in *. injection H as H.
  apply (padded_same _ _ _ _ _ _ _ P2 Q2) in H. destruct H as [EM H]. rewrite <- EM in *. injection H as H.
  apply (padded_same _ _ _ _ _ _ _ P3 Q3) in H. destruct H as [ED H]. rewrite <- ED in *. injection H as H.
  apply (padded_same _ _ _ _ _ _ _ P4 Q4) in H. destruct H as [? H]. injection H as H.
  apply (padded_same _ _ _ _ _ _ _ P5 Q5) in H. destruct H as [? H]. injection H as H. subst ts'.
  destruct P6 as (_ & _ & P6), Q6 as (_ & _ & Q6). lia.
Qed.
Lemma milli_lt t t' s s' : milli_text t s -> milli_text t' s' -> str_lt s s' -> t < t'.
Proof.
  intros (b & f & -> & B & F) (b' & f' & -> & B' & F') H. apply str_lt_app in H; [|now rewrite (second_length _ _ B), (second_length _ _ B')].
  destruct H as [H|[<- H]]; [apply (second_lt _ _ _ _ B B') in H; lia|]. pose proof (second_same _ _ _ B B').
  apply skip_same in H. apply (padded_lt _ _ _ _ _ F F') in H. lia.
Qed.
(** If the texts of an increasing function sort upwards, they sort as the function. *)
Lemma order_iff (T : Z -> list byte -> Prop) : (forall t t' s s', T t s -> T t' s' -> str_lt s s' -> t < t') ->
  (forall t s s', T t s -> T t s' -> s = s') -> (forall t t' s, T t s -> T t' s -> t = t') ->
  forall t t' s s', T t s -> T t' s' -> (t < t' <-> str_lt s s').
Proof.
  intros L U I t t' s s' A B. split; [|eauto]. intros H. destruct (str_lt_total s s') as [K|[<-|K]]; [exact K| |].
  - pose proof (I _ _ _ A B). lia.
  - pose proof (L _ _ _ _ B A K). lia.
Qed.
Lemma milli_same t t' s : milli_text t s -> milli_text t' s -> t = t'.
Proof.
  intros (b & f & -> & B & F) (b' & f' & H & B' & F'). apply app_same in H; [|now rewrite (second_length _ _ B), (second_length _ _ B')].
  destruct H as [<- H]. injection H as <-. pose proof (second_same _ _ _ B B'). destruct F as (_ & _ & F), F' as (_ & _ & F'). lia.
Qed.

Theorem C64_seconds : forall a b, 0 <= a < 2 ^ 32 -> 0 <= b < 2 ^ 32 ->
  (a < b <-> str_lt (TimePointSec_String a) (TimePointSec_String b)).
Proof.
  intros a b A B. apply (order_iff second_text second_lt second_text_unique second_same); apply C21_text; auto.
Qed.
Print Assumptions C64_seconds.
Theorem C64_blocks : forall a b, 0 <= a < 2 ^ 32 -> 0 <= b < 2 ^ 32 ->
  (a < b <-> str_lt (BlockTimestamp_String a) (BlockTimestamp_String b)).
Proof.
  intros a b A B. transitivity (946684800000 + a * 500 < 946684800000 + b * 500); [lia|].
  apply (order_iff milli_text milli_lt milli_text_unique milli_same); apply C22_text; auto.
Qed.
Print Assumptions C64_blocks.
(** The texts of time points (microseconds) have milliseconds: two points in the
    same millisecond have the same text.  For the years 0 to 9999. *)
Theorem C64_points : forall a b, four_digit_years a -> four_digit_years b ->
  (a / 1000 < b / 1000 <-> str_lt (TimePoint_String a) (TimePoint_String b))
  /\ (a / 1000 = b / 1000 <-> TimePoint_String a = TimePoint_String b).
Proof.
  intros a b A B. pose proof (proj1 (C23_text a A _) eq_refl) as TA. pose proof (proj1 (C23_text b B _) eq_refl) as TB. split.
  - now apply (order_iff milli_text milli_lt milli_text_unique milli_same).
  - split; intros H; [rewrite H in TA; eauto using milli_text_unique|rewrite H in TA; eauto using milli_same].
Qed.
Print Assumptions C64_points.
(** Outside these years the order is lost. *)
Theorem C64_points_refuted : exists a b, a < b /\ - 2 ^ 63 <= a < 2 ^ 63 /\ - 2 ^ 63 <= b < 2 ^ 63
  /\ str_lt (TimePoint_String b) (TimePoint_String a).
Proof.
  exists 253402300799000000, 253402300800000000. split; [lia|]. split; [lia|]. split; [lia|].
  vm_compute. left. reflexivity.
Qed.
Print Assumptions C64_points_refuted.
Example C64_ex : TimePoint_String 253402300799000000 = str "9999-12-31T23:59:59.000" /\ TimePoint_String 253402300800000000 = str "10000-01-01T00:00:00.000"
  /\ four_digit_years 1709251199000000 /\ BlockTimestamp_String 1 = str "2000-01-01T00:00:00.500".
Proof. repeat split; vm_compute; congruence. Qed.
