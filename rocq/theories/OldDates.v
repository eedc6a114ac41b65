(** The older functions of dates, core/expression/src/functions/deprecated.rs and vm/helpers.rs: they take texts or numbers of seconds, always in UTC. *)
From Coq Require Import String Ascii ZArith Bool List Arith.
From Verif Require Import Base Dec Value Ast Ops Funcs Duration Dates DateMethods.
Import ListNotations.
Local Open Scope string_scope.
Local Open Scope list_scope.
Local Open Scope Z_scope.

(** What the environment gives. [o_now]: [utc_now().naive_utc()]; [o_text]: the reading of a text in the first of the formats at helpers.rs:20-22 that takes it; [o_time]: the seconds from midnight
    of a text in the first of the formats at helpers.rs:35-39 that takes it; [o_secs]: the seconds of a text that [humantime::parse_duration] takes; [o_show]: [NaiveDateTime::to_string]. *)
Record oldclock := Old { o_now : naive; o_text : string -> option naive; o_time : string -> option Z; o_secs : string -> option Z; o_show : naive -> string }.

(** helpers.rs:58-72 [DateUnit::try_from]. *)
Definition old_unit (s : string) : option dunit :=
  if existsb (String.eqb s) ["s"; "second"; "seconds"] then Some USecond
  else if existsb (String.eqb s) ["m"; "minute"; "minutes"] then Some UMinute
  else if existsb (String.eqb s) ["h"; "hour"; "hours"] then Some UHour
  else if existsb (String.eqb s) ["d"; "day"; "days"] then Some UDay
  else if existsb (String.eqb s) ["w"; "week"; "weeks"] then Some UWeek
  else if existsb (String.eqb s) ["M"; "month"; "months"] then Some UMonth
  else if existsb (String.eqb s) ["y"; "year"; "years"] then Some UYear
  else None.
(** helpers.rs:125-141 [get_month_days]. *)
Definition month_days (x : naive) : option Z :=
  let y2 := if n_m x =? 12 then n_y x + 1 else n_y x in
  let m2 := if n_m x =? 12 then 1 else n_m x + 1 in
  if ymd_ok y2 m2 1 && ymd_ok (n_y x) (n_m x) 1 then Some (day_number y2 m2 1 - day_number (n_y x) (n_m x) 1) else None.
(** helpers.rs:75-98 [date_time_start_of]. The enum has no quarter. *)
Definition old_start (x : naive) (u : dunit) : option naive :=
  match u with
  | USecond => Some x
  | UMinute => with_second 0 x
  | UHour => with_second 0 x >>= with_minute 0
  | UDay => with_second 0 x >>= with_minute 0 >>= with_hour 0
  | UWeek => with_second 0 x >>= with_minute 0 >>= with_hour 0 >>= move_days (- weekday x)
  | UMonth => with_second 0 x >>= with_minute 0 >>= with_hour 0 >>= with_day 1
  | UYear => with_second 0 x >>= with_minute 0 >>= with_hour 0 >>= with_day 1 >>= with_month 1
  | UQuarter => None
  end.
(** helpers.rs:100-123 [date_time_end_of]. *)
Definition old_end (x : naive) (u : dunit) : option naive :=
  match u with
  | USecond => Some x
  | UMinute => with_second 59 x
  | UHour => with_second 59 x >>= with_minute 59
  | UDay => with_second 59 x >>= with_minute 59 >>= with_hour 23
  | UWeek => with_second 59 x >>= with_minute 59 >>= with_hour 23 >>= move_days (6 - weekday x)
  | UMonth => with_second 59 x >>= with_minute 59 >>= with_hour 23 >>= fun y => month_days x >>= fun n => with_day n y
  | UYear => with_second 59 x >>= with_minute 59 >>= with_hour 23 >>= (fun y => month_days x >>= fun n => with_day n y) >>= with_month 12
  | UQuarter => None
  end.
(** chrono: [format("%b")] and [Weekday::to_string]. *)
Definition month_names : list string := ["Jan"; "Feb"; "Mar"; "Apr"; "May"; "Jun"; "Jul"; "Aug"; "Sep"; "Oct"; "Nov"; "Dec"].
Definition day_names : list string := ["Mon"; "Tue"; "Wed"; "Thu"; "Fri"; "Sat"; "Sun"].
Section Old.
  Context (O : oldclock).
  (** helpers.rs:15-26 [date_time]. *)
  Definition old_text (s : string) : option naive := if String.eqb s "now" then Some (o_now O) else o_text O s.
  (** deprecated.rs:123-143 [__internal_convert_datetime]. *)
  Definition old_read (v : value) : res naive :=
    match v with
    | VStr s => of_option (old_text s) (EOp "ParseDateTime")
    | VNum n => do k <- of_option (dec_to_i64 n) (EOp "Failed to extract date"); if in_utc (k * giga) then Ok (naive_of k 0) else Err (EOp "ParseDateTime")
    | _ => Err (EOp "Unsupported type")
    end.
  (** deprecated.rs:145-159 [parse_date]. *)
  Definition old_date (v : value) : res value :=
    match v with
    | VStr s => do x <- of_option (old_text s) (EOp "ParseDateTime"); Ok (num (naive_secs x))
    | VNum n => do k <- of_option (dec_to_i64 n) (EOp "Number overflow"); Ok (num k)
    | _ => Err (EOp "Unsupported type for date function")
    end.
  (** helpers.rs:28-43 [time], deprecated.rs:161-171 [parse_time]. *)
  Definition old_time (v : value) : res value :=
    match v with
    | VStr s => do k <- of_option (if String.eqb s "now" then Some (naive_secs (o_now O) mod day_secs) else o_time O s) (EOp "ParseDateTime"); Ok (num k)
    | VNum n => do k <- of_option (dec_to_u32 n) (EOp "Number overflow"); Ok (num k)
    | _ => Err (EOp "Unsupported type for time function")
    end.
  (** deprecated.rs:173-183 [parse_duration]. *)
  Definition old_duration (v : value) : res value :=
    match v with
    | VStr s => do k <- of_option (o_secs O s) (EOp "duration"); Ok (num k)
    | VNum n => do k <- of_option (dec_to_usize n) (EOp "Number overflow"); Ok (num k)
    | _ => Err (EOp "Unsupported type for duration function")
    end.
  (** deprecated.rs:239-265 [start_of], [end_of]. *)
  Definition old_bound (f : naive -> dunit -> option naive) (args : list value) : res value :=
    do v <- arg args 0; do s <- arg_str args 1; do x <- old_read v; do u <- of_option (old_unit s) (EOp "Invalid date unit");
    do r <- of_option (f x u) (EOp "Failed to calculate period"); Ok (num (naive_secs r)).
  (** deprecated.rs:30-115, 185-237: the table of the functions. *)
  Definition old_field (f : naive -> value) (args : list value) : res value := do v <- arg args 0; do x <- old_read v; Ok (f x).
  Definition old_call (k : string) (args : list value) : res value :=
    if String.eqb k "date" then do v <- arg args 0; old_date v
    else if String.eqb k "time" then do v <- arg args 0; old_time v
    else if String.eqb k "duration" then do v <- arg args 0; old_duration v
    else if String.eqb k "year" then old_field (fun x => num (n_y x)) args
    else if String.eqb k "dayOfWeek" then old_field (fun x => num (weekday x + 1)) args
    else if String.eqb k "dayOfMonth" then old_field (fun x => num (n_d x)) args
    else if String.eqb k "dayOfYear" then old_field (fun x => num (ordinal x)) args
    else if String.eqb k "weekOfYear" then old_field (fun x => num (iso_week x)) args
    else if String.eqb k "monthOfYear" then old_field (fun x => num (n_m x)) args
    else if String.eqb k "monthString" then old_field (fun x => VStr (nth (Z.to_nat (n_m x - 1)) month_names "")) args
    else if String.eqb k "dateString" then old_field (fun x => VStr (o_show O x)) args
    else if String.eqb k "weekdayString" then old_field (fun x => VStr (nth (Z.to_nat (weekday x)) day_names "")) args
    else if String.eqb k "startOf" then old_bound old_start args
    else if String.eqb k "endOf" then old_bound old_end args
    else Err (EOp "Call").
  (** The library of functions with these. *)
  Definition with_old (L : lib) : lib := {|
    l_add := l_add L; l_sub := l_sub L; l_mul := l_mul L; l_div := l_div L; l_rem := l_rem L; l_pow := l_pow L; l_upper := l_upper L; l_lower := l_lower L; l_trim := l_trim L;
    l_matches := l_matches L; l_captures := l_captures L; l_similarity := l_similarity L; l_rand := l_rand L; l_parse := l_parse L;
    l_date := l_date L; l_deprecated := old_call; l_method := l_method L; l_marity := l_marity L |}.
End Old.
