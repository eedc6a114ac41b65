(** What dates mean, without the functions of the model: the calendar as a succession of days, periods of the calendar, and zones. *)
From Coq Require Import ZArith Bool List.
From Verif Require Import Duration Dates.
Import ListNotations.
Local Open Scope Z_scope.

(** A year is a leap year when it divides by 4 and not by 100, or by 400. *)
Definition leap_year (y : Z) : Prop := ((4 | y) /\ ~ (100 | y)) \/ (400 | y).
(** How long a month is. *)
Inductive month_length : Z -> Z -> Z -> Prop :=
| Long : forall y m, In m [1; 3; 5; 7; 8; 10; 12] -> month_length y m 31
| Short : forall y m, In m [4; 6; 9; 11] -> month_length y m 30
| Feb29 : forall y, leap_year y -> month_length y 2 29
| Feb28 : forall y, ~ leap_year y -> month_length y 2 28.
(** The day after a day. *)
Inductive next_day : Z * Z * Z -> Z * Z * Z -> Prop :=
| NextInMonth : forall y m d n, month_length y m n -> 1 <= d < n -> next_day (y, m, d) (y, m, d + 1)
| NextMonth : forall y m n, month_length y m n -> m < 12 -> next_day (y, m, n) (y, m + 1, 1)
| NextYear : forall y, next_day (y, 12, 31) (y + 1, 1, 1).
(** A reading of the clock that exists. *)
Definition clock_ok (x : naive) : Prop :=
  (exists n, month_length (n_y x) (n_m x) n /\ 1 <= n_d x <= n) /\ 0 <= n_h x < 24 /\ 0 <= n_mi x < 60 /\ 0 <= n_s x < 60 /\ 0 <= n_ns x < 1000000000.
(** Earlier on the clock: the first field that differs is smaller. *)
Definition fields (x : naive) : list Z := [n_y x; n_m x; n_d x; n_h x; n_mi x; n_s x; n_ns x].
Fixpoint lex (a b : list Z) : Prop := match a, b with x :: a, y :: b => x < y \/ x = y /\ lex a b | _, _ => False end.
Definition earlier (x y : naive) : Prop := lex (fields x) (fields y).
(** Two readings in the same year, quarter, month, day, hour, minute or second have the same first fields; the weeks start on Mondays: 1970-01-05 was one, and [day_number] counts the days
    since 1970-01-01. *)
Definition same_period (u : dunit) (x y : naive) : Prop :=
  match u with
  | UYear => n_y x = n_y y
  | UQuarter => n_y x = n_y y /\ exists q, 0 <= q < 4 /\ 3 * q + 1 <= n_m x <= 3 * q + 3 /\ 3 * q + 1 <= n_m y <= 3 * q + 3
  | UMonth => firstn 2 (fields x) = firstn 2 (fields y)
  | UDay => firstn 3 (fields x) = firstn 3 (fields y)
  | UHour => firstn 4 (fields x) = firstn 4 (fields y)
  | UMinute => firstn 5 (fields x) = firstn 5 (fields y)
  | USecond => firstn 6 (fields x) = firstn 6 (fields y)
  | UWeek => exists w, let monday := 4 + 7 * w in
      monday <= day_number (n_y x) (n_m x) (n_d x) < monday + 7 /\ monday <= day_number (n_y y) (n_m y) (n_d y) < monday + 7
  end.
(** A zone whose clock is always [c] seconds ahead of UTC, by at most a day. *)
Definition fixed (z : zone) (c : Z) : Prop := (forall t, z_off z t = c) /\ (forall l, z_local z l = [l - c]) /\ -86400 <= c <= 86400.
(** In every zone: if there is one instant at which the clock shows a time, the clock shows it then. *)
Definition zone_ok (z : zone) : Prop := forall l t, z_local z l = [t] -> t + z_off z t = l.
(** Years two years away from the limits of the library. *)
Definition mid_range (d : datetime) : Prop := min_year + 2 <= n_y (local d) <= max_year - 2.
(** The milliseconds shown by a clock, from 1970-01-01T00:00:00 on the same clock. *)
Definition clock_millis (x : naive) : Z := (((day_number (n_y x) (n_m x) (n_d x) * 24 + n_h x) * 60 + n_mi x) * 60 + n_s x) * 1000 + n_ns x / 1000000.
(** The same time of the day. *)
Definition same_time (x y : naive) : Prop := skipn 3 (fields x) = skipn 3 (fields y).
(** The same day and time, some months later. *)
Definition months_later (k : Z) (x y : naive) : Prop := clock_ok y /\ n_y y * 12 + n_m y = n_y x * 12 + n_m x + k /\ n_d y = n_d x /\ same_time x y.
(** Which field of a reading a unit names: weeks and quarters name none. *)
Definition field_of (u : dunit) : option nat := match u with UYear => Some 0%nat | UMonth => Some 1%nat | UDay => Some 2%nat | UHour => Some 3%nat | UMinute => Some 4%nat | USecond => Some 5%nat | _ => None end.
