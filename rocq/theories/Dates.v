(** Dates: core/expression/src/vm/date/mod.rs and functions/date_method.rs, over the calendar of the chrono library (0.4.45). Of chrono, this file models what its documentation says
    of [NaiveDateTime] (the proleptic Gregorian calendar; no leap seconds), [DateTime<Tz>] and [TimeZone]; an instant is a number of nanoseconds since 1970-01-01T00:00:00Z. *)
From Coq Require Import String Ascii ZArith Bool List Arith.
From Verif Require Import Base Dec Value Ast Duration.
Import ListNotations.
Local Open Scope string_scope.
Local Open Scope list_scope.
Local Open Scope Z_scope.

(** ** The calendar. *)
Definition leap (y : Z) : bool := (y mod 4 =? 0) && (negb (y mod 100 =? 0) || (y mod 400 =? 0)).
Definition mdays (y m : Z) : Z := if m =? 2 then (if leap y then 29 else 28) else if (m =? 4) || (m =? 6) || (m =? 9) || (m =? 11) then 30 else 31.
(** Days before the first of January of year [y], from 0001-01-01. *)
Definition year_start (y : Z) : Z := 365 * (y - 1) + (y - 1) / 4 - (y - 1) / 100 + (y - 1) / 400.
(** Days of the year before month [m]. *)
Definition month_start (y m : Z) : Z :=
  let f := if leap y then 1 else 0 in
  if m <=? 1 then 0 else if m =? 2 then 31 else if m =? 3 then 59 + f else if m =? 4 then 90 + f else if m =? 5 then 120 + f else if m =? 6 then 151 + f
  else if m =? 7 then 181 + f else if m =? 8 then 212 + f else if m =? 9 then 243 + f else if m =? 10 then 273 + f else if m =? 11 then 304 + f else 334 + f.
Definition epoch_days : Z := 719162.
(** Days since 1970-01-01. *)
Definition day_number (y m d : Z) : Z := year_start y + month_start y m + d - 1 - epoch_days.
Definition year_of (n : Z) : Z := let y := (400 * (n + epoch_days)) / 146097 + 1 in if year_start (y + 1) <=? n + epoch_days then y + 1 else if n + epoch_days <? year_start y then y - 1 else y.
Definition month_of (y o : Z) : Z :=
  if o <? month_start y 2 then 1 else if o <? month_start y 3 then 2 else if o <? month_start y 4 then 3 else if o <? month_start y 5 then 4 else if o <? month_start y 6 then 5
  else if o <? month_start y 7 then 6 else if o <? month_start y 8 then 7 else if o <? month_start y 9 then 8 else if o <? month_start y 10 then 9 else if o <? month_start y 11 then 10
  else if o <? month_start y 12 then 11 else 12.
(** A date and a time of day. *)
Record naive := Naive { n_y : Z; n_m : Z; n_d : Z; n_h : Z; n_mi : Z; n_s : Z; n_ns : Z }.
Definition civil (n : Z) : Z * Z * Z := let y := year_of n in let o := n + epoch_days - year_start y in let m := month_of y o in (y, m, o - month_start y m + 1).
Definition giga : Z := 1000000000.
Definition day_secs : Z := 86400.
Definition naive_secs (x : naive) : Z := day_number (n_y x) (n_m x) (n_d x) * day_secs + n_h x * 3600 + n_mi x * 60 + n_s x.
Definition naive_of (secs ns : Z) : naive :=
  let '(y, m, d) := civil (secs / day_secs) in let t := secs mod day_secs in Naive y m d (t / 3600) ((t / 60) mod 60) (t mod 60) ns.
(** Years of [NaiveDate] and the bounds of [DateTime]. *)
Definition min_year : Z := -262143.
Definition max_year : Z := 262142.
Definition min_utc : Z := day_number min_year 1 1 * day_secs * giga.
Definition max_utc : Z := (day_number max_year 12 31 + 1) * day_secs * giga - 1.
Definition in_utc (t : Z) : bool := (min_utc <=? t) && (t <=? max_utc).
Definition ymd_ok (y m d : Z) : bool := (min_year <=? y) && (y <=? max_year) && (1 <=? m) && (m <=? 12) && (1 <=? d) && (d <=? mdays y m).
(** [Datelike] and [Timelike] for [NaiveDateTime]. *)
Definition with_ymd (x : naive) (y m d : Z) : option naive := if ymd_ok y m d then Some (Naive y m d (n_h x) (n_mi x) (n_s x) (n_ns x)) else None.
Definition with_year (y : Z) (x : naive) : option naive := with_ymd x y (n_m x) (n_d x).
Definition with_month (m : Z) (x : naive) : option naive := with_ymd x (n_y x) m (n_d x).
Definition with_day (d : Z) (x : naive) : option naive := with_ymd x (n_y x) (n_m x) d.
Definition with_hour (h : Z) (x : naive) : option naive := if (0 <=? h) && (h <? 24) then Some (Naive (n_y x) (n_m x) (n_d x) h (n_mi x) (n_s x) (n_ns x)) else None.
Definition with_minute (mi : Z) (x : naive) : option naive := if (0 <=? mi) && (mi <? 60) then Some (Naive (n_y x) (n_m x) (n_d x) (n_h x) mi (n_s x) (n_ns x)) else None.
Definition with_second (s : Z) (x : naive) : option naive := if (0 <=? s) && (s <? 60) then Some (Naive (n_y x) (n_m x) (n_d x) (n_h x) (n_mi x) s (n_ns x)) else None.
Definition with_nano (ns : Z) (x : naive) : option naive := if (0 <=? ns) && (ns <? giga) then Some (Naive (n_y x) (n_m x) (n_d x) (n_h x) (n_mi x) (n_s x) ns) else None.
Definition move_days (k : Z) (x : naive) : option naive :=
  let '(y, m, d) := civil (day_number (n_y x) (n_m x) (n_d x) + k) in with_ymd x y m d.
(** [diff_months]: the day is cut to the length of the month. *)
Definition move_months (k : Z) (x : naive) : option naive :=
  let i := n_y x * 12 + n_m x - 1 + k in let y := i / 12 in let m := i mod 12 + 1 in with_ymd x y m (Z.min (n_d x) (mdays y m)).

(** ** Zones. [z_off]: the offset in seconds at an instant (in seconds); [z_local]: the instants at which the local clock shows a time. *)
Record zone := Zone { z_off : Z -> Z; z_local : Z -> list Z }.
Record datetime := DateTime { dt_t : Z; dt_z : zone }.
Definition dt_secs (d : datetime) : Z := dt_t d / giga.
Definition dt_ns (d : datetime) : Z := dt_t d mod giga.
Definition offset (d : datetime) : Z := z_off (dt_z d) (dt_secs d).
Definition local (d : datetime) : naive := naive_of (dt_secs d + offset d) (dt_ns d).
(** [map_local]: a local time that is missing or ambiguous gives nothing. *)
Definition to_zone (z : zone) (x : naive) : option datetime :=
  match z_local z (naive_secs x) with
  | [u] => let t := u * giga + n_ns x in if in_utc t then Some (DateTime t z) else None
  | _ => None
  end.
Definition bind_o {A B} (o : option A) (f : A -> option B) : option B := match o with Some x => f x | None => None end.
Notation "o >>= f" := (bind_o o f) (at level 50, left associativity).
Definition map_local (f : naive -> option naive) (d : datetime) : option datetime := f (local d) >>= to_zone (dt_z d).
(** [checked_add_days], [checked_sub_days]: nothing happens for no days. *)
Definition add_days (k : Z) (d : datetime) : option datetime := if k =? 0 then Some d else map_local (move_days k) d.
(** [checked_add_months], [checked_sub_months]. *)
Definition add_months (k : Z) (d : datetime) : option datetime := map_local (move_months k) d.
(** [checked_add_signed] of [TimeDelta::try_seconds]. *)
Definition add_seconds (k : Z) (d : datetime) : option datetime :=
  if Z.abs k <=? (2 ^ 63 - 1) / 1000 then let t := dt_t d + k * giga in if in_utc t then Some (DateTime t (dt_z d)) else None else None.
Definition millis (d : datetime) : Z := dt_t d / 1000000.
(** Days since Monday; 1970-01-01 is a Thursday. *)
Definition weekday (x : naive) : Z := (day_number (n_y x) (n_m x) (n_d x) + 3) mod 7.
Definition quarter (x : naive) : Z := (n_m x - 1) / 3 + 1.

(** ** vm/date/mod.rs. *)
(** mod.rs:250-258 [add_duration]. *)
Definition add_duration (d : datetime) (u : duration) : option datetime :=
  add_seconds (du_seconds u) d >>= add_months (du_months u) >>=
  fun d => let y := n_y (local d) + du_years u in if (- 2 ^ 31 <=? y) && (y <? 2 ^ 31) then map_local (with_year y) d else None.
Definition midnight (d : datetime) : option datetime := map_local (with_hour 0) d >>= map_local (with_minute 0) >>= map_local (with_second 0) >>= map_local (with_nano 0).
(** mod.rs:260-304 [start_of]. *)
Definition start_of (d : datetime) (u : dunit) : option datetime :=
  match u with
  | USecond => map_local (with_nano 0) d
  | UMinute => map_local (with_second 0) d >>= map_local (with_nano 0)
  | UHour => map_local (with_minute 0) d >>= map_local (with_second 0) >>= map_local (with_nano 0)
  | UDay => midnight d
  | UWeek => add_days (- weekday (local d)) d >>= midnight
  | UMonth => map_local (with_day 1) d >>= midnight
  | UQuarter => map_local (with_month ((quarter (local d) - 1) * 3 + 1)) d >>= map_local (with_day 1) >>= midnight
  | UYear => map_local (with_month 1) d >>= map_local (with_day 1) >>= midnight
  end.
Definition last_second (d : datetime) : option datetime := map_local (with_hour 23) d >>= map_local (with_minute 59) >>= map_local (with_second 59).
(** mod.rs:306-358 [end_of]. *)
Definition end_of (d : datetime) (u : dunit) : option datetime :=
  map_local (with_nano 999999999) d >>= fun d =>
  match u with
  | USecond => Some d
  | UMinute => map_local (with_second 59) d
  | UHour => map_local (with_minute 59) d >>= map_local (with_second 59)
  | UDay => last_second d
  | UWeek => add_days (6 - weekday (local d)) d >>= last_second
  | UMonth => map_local (with_day (mdays (n_y (local d)) (n_m (local d)))) d >>= last_second
  | UQuarter => let m := quarter (local d) * 3 in map_local (with_month m) d >>= map_local (with_day (mdays (n_y (local d)) m)) >>= last_second
  | UYear => map_local (with_month 12) d >>= map_local (with_day (mdays (n_y (local d)) 12)) >>= last_second
  end.
(** mod.rs:398-409 [set]. *)
Definition set_unit (d : datetime) (v : Z) (u : dunit) : option datetime :=
  match u with
  | USecond => map_local (with_second v) d
  | UMinute => map_local (with_minute v) d
  | UHour => map_local (with_hour v) d
  | UDay => map_local (with_day v) d
  | UMonth => map_local (with_month v) d
  | UYear => if v <? 2 ^ 31 then map_local (with_year v) d else None
  | UWeek | UQuarter => Some d
  end.
(** mod.rs:411-441 [is_same], [is_before], [is_after]. *)
Definition is_same (a b : datetime) (u : option dunit) : option bool :=
  match u with
  | Some u => start_of a u >>= fun s => end_of a u >>= fun e => Some ((dt_t s <=? dt_t b) && (dt_t b <=? dt_t e))
  | None => Some (millis a =? millis b)
  end.
Definition is_before (a b : datetime) (u : option dunit) : option bool :=
  match u with Some u => end_of a u >>= fun e => Some (dt_t e <? dt_t b) | None => Some (dt_t a <? dt_t b) end.
Definition is_after (a b : datetime) (u : option dunit) : option bool :=
  match u with Some u => start_of a u >>= fun s => Some (dt_t b <? dt_t s) | None => Some (dt_t b <? dt_t a) end.
(** mod.rs:469-476 [add_months_to_date]. *)
Definition shift_months (d : datetime) (k : Z) : datetime := match add_months k d with Some x => x | None => d end.
(** mod.rs:443-467 [month_diff], negated and as a fraction: numerator and denominator. Floats are exact fractions here: the source computes [whole + n / d] in [f64], where [d] is
    at most 31 days in milliseconds, so that the result is on the same side of every whole number of months. *)
Definition month_diff1 (a b : datetime) : Z * Z :=
  let w := (n_y (local b) - n_y (local a)) * 12 + (n_m (local b) - n_m (local a)) in
  let anchor := shift_months a w in
  let c := millis b - millis anchor <? 0 in
  let anchor2 := shift_months a (w + if c then -1 else 1) in
  let num := millis b - millis anchor in
  let den := if c then millis anchor - millis anchor2 else millis anchor2 - millis anchor in
  if den =? 0 then (w, 1) else (w * den + num, den).
Definition month_diff (a b : datetime) : Z * Z :=
  if n_d (local a) <? n_d (local b) then month_diff1 b a else let (n, d) := month_diff1 a b in (- n, d).
(** mod.rs:360-396 [diff]; the quotients of [f64] numbers are exact fractions here, rounded towards zero. *)
Definition diff (a b : datetime) (u : option dunit) : Z :=
  let ms := millis a - millis b in
  let loc := ms - (offset b - offset a) * 1000 in
  let months k := let (n, d) := month_diff a b in Z.quot n (d * k) in
  match u with
  | None => ms
  | Some UYear => months 12
  | Some UMonth => months 1
  | Some UQuarter => months 3
  | Some UWeek => Z.quot loc (86400000 * 7)
  | Some UDay => Z.quot loc 86400000
  | Some UHour => Z.quot ms 3600000
  | Some UMinute => Z.quot ms 60000
  | Some USecond => Z.quot ms 1000
  end.
(** mod.rs:52-177: methods of [VmDate]; [None] is an invalid date. *)
Definition vm_date := option datetime.
Definition vm_add (d : vm_date) (u : duration) : vm_date := d >>= fun d => add_duration d u.
Definition vm_sub (d : vm_date) (u : duration) : vm_date := d >>= fun d => add_duration d (dur_neg u).
Definition vm_start (d : vm_date) (u : dunit) : vm_date := d >>= fun d => start_of d u.
Definition vm_end (d : vm_date) (u : dunit) : vm_date := d >>= fun d => end_of d u.
Definition vm_set (d : vm_date) (v : Z) (u : dunit) : vm_date := d >>= fun d => set_unit d v u.
Definition vm_diff (a b : vm_date) (u : option dunit) : option Z := a >>= fun a => b >>= fun b => Some (diff a b u).
Definition vm_cmp (f : datetime -> datetime -> option dunit -> option bool) (a b : vm_date) (u : option dunit) : bool :=
  match a >>= fun a => b >>= fun b => f a b u with Some r => r | None => false end.
Definition vm_tz (d : vm_date) (z : zone) : vm_date := d >>= fun d => Some (DateTime (dt_t d) z).
Definition same_or_before (a b : vm_date) (u : option dunit) : bool := vm_cmp is_before a b u || vm_cmp is_same a b u.
Definition same_or_after (a b : vm_date) (u : option dunit) : bool := vm_cmp is_after a b u || vm_cmp is_same a b u.
