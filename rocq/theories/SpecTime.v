(** The civil calendar and the text forms of points in time. *)
From Verif Require Import Base SpecText.

(** ** The Gregorian calendar, day by day from 1970-01-01 *)
Record date := { d_year : Z; d_month : Z; d_day : Z }.
Definition leap (y : Z) : bool := (y mod 4 =? 0) && (negb (y mod 100 =? 0) || (y mod 400 =? 0)).
Definition month_length (y m : Z) : Z :=
  if m =? 2 then if leap y then 29 else 28
  else if (m =? 4) || (m =? 6) || (m =? 9) || (m =? 11) then 30 else 31.
Definition valid_date (d : date) : Prop := 1 <= d_month d <= 12 /\ 1 <= d_day d <= month_length (d_year d) (d_month d).
Definition next_day (d : date) : date :=
  if d_day d <? month_length (d_year d) (d_month d) then {| d_year := d_year d; d_month := d_month d; d_day := d_day d + 1 |}
  else if d_month d <? 12 then {| d_year := d_year d; d_month := d_month d + 1; d_day := 1 |}
  else {| d_year := d_year d + 1; d_month := 1; d_day := 1 |}.
(** [is_date n d]: [d] is [n] days after 1970-01-01 (before it, if negative). *)
Inductive is_date : Z -> date -> Prop :=
| epoch : is_date 0 {| d_year := 1970; d_month := 1; d_day := 1 |}
| day_after n d : is_date n d -> is_date (n + 1) (next_day d)
| day_before n d : valid_date d -> is_date (n + 1) (next_day d) -> is_date n d.

(** ** Texts *)
(** Exactly [w] digits, of the number [n]. *)
Definition padded (w : nat) (n : Z) (s : list byte) : Prop := length s = w /\ digits s /\ dec_val s = n.
(** YYYY-MM-DDThh:mm:ss *)
Definition date_time_text (hour_width : nat) (d : date) (h m s : Z) (text : list byte) : Prop :=
  exists ty tm td th tmin ts,
    text = ty ++ [x2d] ++ tm ++ [x2d] ++ td ++ [x54] ++ th ++ [x3a] ++ tmin ++ [x3a] ++ ts
    /\ padded 4 (d_year d) ty /\ padded 2 (d_month d) tm /\ padded 2 (d_day d) td
    /\ padded hour_width h th /\ padded 2 m tmin /\ padded 2 s ts.
(** The text of the second [t] after 1970-01-01T00:00:00, for years 0 to 9999. *)
Definition second_text (t : Z) (text : list byte) : Prop :=
  exists d, is_date (t / 86400) d
    /\ date_time_text 2 d (t mod 86400 / 3600) (t mod 3600 / 60) (t mod 60) text.
(** The text of the millisecond [t], with three digits after the point. *)
Definition milli_text (t : Z) (text : list byte) : Prop :=
  exists body frac, text = body ++ [x2e] ++ frac /\ second_text (t / 1000) body /\ padded 3 (t mod 1000) frac.
(** 0000-01-01 and 10000-01-01 *)
Definition year_zero : Z := -62167219200.
Definition year_10000 : Z := 253402300800.

(** What the parsers understand: the hour may have one digit. *)
Definition read_seconds (text : list byte) (t : Z) : Prop :=
  exists d n w h m s, is_date n d /\ date_time_text w d h m s text /\ (w = 1%nat \/ w = 2%nat)
    /\ 0 <= h < 24 /\ 0 <= m < 60 /\ 0 <= s < 60 /\ t = n * 86400 + h * 3600 + m * 60 + s.
Definition point (c : byte) : Prop := c = x2e \/ c = x2c.
(** The fraction where the layout has none: absent, or a point or comma and any digits,
    of which nine count. *)
Definition read_any_fraction (text : list byte) : Prop :=
  text = [] \/ exists c f, text = c :: f /\ point c /\ f <> [] /\ digits f.
(** The fraction where the layout has three digits, in milliseconds: a sign may stand for
    the first. *)
Definition read_millis (text : list byte) (ms : Z) : Prop :=
  exists c f, text = c :: f /\ point c /\
    (padded 3 ms f \/ (exists g, f = x2b :: g /\ padded 2 ms g) \/ (f = [x2d; x30; x30] /\ ms = 0)).
(** A Z may follow. *)
Definition maybe_z (body text : list byte) : Prop := text = body \/ text = body ++ [x5a].
