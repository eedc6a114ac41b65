(** The functions [d()] and [date()] and the methods of dates: core/expression/src/functions/date_method.rs, functions/internal.rs (date), vm/date/mod.rs (reading a date). *)
From Coq Require Import String Ascii ZArith Bool List Arith.
From Verif Require Import Base Dec Value Ast Ops Funcs Duration Dates.
Import ListNotations.
Local Open Scope string_scope.
Local Open Scope list_scope.
Local Open Scope Z_scope.

(** What the environment gives. [c_zones]: chrono-tz, [Tz::from_str]; [c_sys]: the name of the zone of the machine (mod.rs:190-199); [c_now]: the time of the machine (mod.rs:491-503), in nanoseconds;
    [c_rfc]: [DateTime::parse_from_rfc3339], the reading of the clock that is written and its offset in seconds; [c_naive]: the formats tried at mod.rs:232-242, in their order;
    [c_format]: the text of a date in a format, or in the format of [to_string]. *)
Record clockwork := Clock {
  c_zones : string -> option zone; c_sys : string; c_now : Z; c_rfc : string -> option (naive * Z); c_naive : string -> option naive; c_format : option string -> datetime -> string }.
Definition utc : zone := Zone (fun _ => 0) (fun l => [l]).
Section Methods.
  Context (C : clockwork).
  (** A value of type [DateTime<Tz>] has a zone; a value of this model has the name of one. *)
  Definition zone_of (name : string) : zone := match c_zones C name with Some z => z | None => utc end.
  Definition vm_of (d : vmdate) : vm_date := option_map (fun t => DateTime t (zone_of (vd_tz d))) (vd_instant d).
  Definition of_vm (name : string) (d : vm_date) : vmdate := VmDate (option_map dt_t d) name.
  (** mod.rs:201-207 [now], [now_tz]. *)
  Definition now_in (name : string) : vmdate := VmDate (Some (c_now C)) name.
  (** [from_local_datetime(..).earliest()]. *)
  Definition earliest (z : zone) (x : naive) : vm_date :=
    match z_local z (naive_secs x) with
    | u :: _ => let t := u * giga + n_ns x in if in_utc t then Some (DateTime t z) else None
    | [] => None
    end.
  (** mod.rs:209-248 [parse_date]. *)
  Definition read_date (v : value) (tz : option string) : vmdate :=
    let name := match tz with Some n => n | None => c_sys C end in
    let z := zone_of name in
    match v with
    | VNum n => of_vm name (dec_to_i64 n >>= fun k => let t := k * 1000000 in if in_utc t then Some (DateTime t z) else None)
    | VStr s =>
        match c_rfc C s with
        | Some (x, _) => of_vm name (earliest z x)
        | None =>
            match c_naive C s with
            | Some x => of_vm name (earliest z x)
            | None => match c_zones C s with Some _ => now_in s | None => VmDate None name end
            end
        end
    | VDyn (DDate d) => d
    | _ => VmDate None name
    end.
  (** internal.rs:908-921 [date]. *)
  Definition date_fn (args : list value) : res vmdate :=
    do tz <- match nth_error args 1 with
             | None => Ok None
             | Some (VStr s) => match c_zones C s with Some _ => Ok (Some s) | None => Err (EOp "Invalid timezone") end
             | Some _ => Err (EOp "argument")
             end;
    match nth_error args 0 with Some v => Ok (read_date v tz) | None => Ok (now_in (c_sys C)) end.
  Definition arg_date (args : list value) (i : nat) : res vmdate := match nth_error args i with Some (VDyn (DDate d)) => Ok d | _ => Err (EOp "argument") end.
  Definition arg_ostr (args : list value) (i : nat) : res (option string) := match nth_error args i with Some (VStr s) => Ok (Some s) | Some _ => Err (EOp "argument") | None => Ok None end.
  (** date_method.rs:215-236 [__internal_extract_duration_unit], [__internal_extract_duration_unit_opt]. *)
  Definition arg_unit (args : list value) (i : nat) : res dunit := do s <- arg_str args i; of_option (unit_parse s) (EOp "Invalid duration unit").
  Definition arg_ounit (args : list value) (i : nat) : res (option dunit) :=
    do o <- arg_ostr args i; match o with None => Ok None | Some s => do u <- of_option (unit_parse s) (EOp "Invalid duration unit"); Ok (Some u) end.
  (** date_method.rs:204-213 [__internal_extract_duration]. *)
  Definition arg_duration (args : list value) (i : nat) : res duration :=
    do v <- arg args i;
    match v with
    | VStr s => dparse s
    | VNum n => do u <- arg_unit args (i + 1); do o <- from_unit n u; of_option o (EOp "Invalid duration unit")
    | _ => Err (EOp "Invalid duration arguments")
    end.
  Definition ret_date (name : string) (d : vm_date) : res value := Ok (VDyn (DDate (of_vm name d))).
  Definition num (z : Z) : value := VNum (dec_of_Z z).
  (** [iso_week]: the number of the week in the year of its Thursday. *)
  Definition iso_week (x : naive) : Z := let th := day_number (n_y x) (n_m x) (n_d x) - weekday x + 3 in let '(y, _, _) := civil th in (th - day_number y 1 1) / 7 + 1.
  Definition ordinal (x : naive) : Z := day_number (n_y x) (n_m x) (n_d x) - day_number (n_y x) 1 1 + 1.
  (** duration.rs:57-62 [day]. *)
  Definition one_day : duration := Dur 86400 0 0.
  (** date_method.rs:383-416, the fields of a valid date. *)
  Definition getter (k : mkind) (name : string) (d : datetime) : option value :=
    let x := local d in
    let now := vm_of (now_in (c_sys C)) in
    if String.eqb k "second" then Some (num (n_s x)) else if String.eqb k "minute" then Some (num (n_mi x)) else if String.eqb k "hour" then Some (num (n_h x))
    else if String.eqb k "day" then Some (num (n_d x)) else if String.eqb k "weekday" then Some (num (weekday x + 1)) else if String.eqb k "dayOfYear" then Some (num (ordinal x))
    else if String.eqb k "week" then Some (num (iso_week x)) else if String.eqb k "month" then Some (num (n_m x)) else if String.eqb k "quarter" then Some (num (quarter x))
    else if String.eqb k "year" then Some (num (n_y x)) else if String.eqb k "timestamp" then Some (num (millis d))
    else if String.eqb k "isYesterday" then Some (VBool (vm_cmp is_same (Some d) (vm_sub now one_day) (Some UDay)))
    else if String.eqb k "isToday" then Some (VBool (vm_cmp is_same (Some d) now (Some UDay)))
    else if String.eqb k "isTomorrow" then Some (VBool (vm_cmp is_same (Some d) (vm_add now one_day) (Some UDay)))
    else if String.eqb k "isLeapYear" then Some (VBool (leap (n_y x))) else if String.eqb k "offsetName" then Some (VStr name) else None.
  (** date_method.rs:323-358 [compare_using]: which comparison. *)
  Definition comparison (k : mkind) : option (vm_date -> vm_date -> option dunit -> bool) :=
    if String.eqb k "isSame" then Some (vm_cmp is_same) else if String.eqb k "isBefore" then Some (vm_cmp is_before) else if String.eqb k "isAfter" then Some (vm_cmp is_after)
    else if String.eqb k "isSameOrBefore" then Some same_or_before else if String.eqb k "isSameOrAfter" then Some same_or_after else None.
  (** date_method.rs:78-184: the methods; 238-318, 323-358, 360-420: what they do. *)
  Definition date_method (k : mkind) (args : list value) : res value :=
    do this <- arg_date args 0;
    let name := vd_tz this in
    let d := vm_of this in
    if String.eqb k "add" then do u <- arg_duration args 1; ret_date name (vm_add d u)
    else if String.eqb k "sub" then do u <- arg_duration args 1; ret_date name (vm_sub d u)
    else if String.eqb k "set" then
      do u <- arg_unit args 1; do n <- arg_num args 2; do v <- of_option (dec_to_u32 n) (EOp "Invalid duration value"); ret_date name (vm_set d v u)
    else if String.eqb k "format" then do f <- arg_ostr args 1; Ok (VStr (match d with Some d => c_format C f d | None => "Invalid date" end))
    else if String.eqb k "startOf" then do u <- arg_unit args 1; ret_date name (vm_start d u)
    else if String.eqb k "endOf" then do u <- arg_unit args 1; ret_date name (vm_end d u)
    else if String.eqb k "diff" then
      do v <- arg args 1; do u <- arg_ounit args 2;
      Ok (match vm_diff d (vm_of (read_date v None)) u with Some n => num n | None => VNull end)
    else if String.eqb k "tz" then
      do s <- arg_str args 1;
      match c_zones C s with
      | Some z => match d with Some _ => ret_date s (vm_tz d z) | None => Ok (VDyn (DDate this)) end
      | None => Err (EOp "Invalid timezone")
      end
    else match comparison k with
         | Some f => do v <- arg args 1; do u <- arg_ounit args 2; Ok (VBool (f d (vm_of (read_date v None)) u))
         | None =>
             if String.eqb k "isValid" then Ok (VBool (match d with Some _ => true | None => false end))
             else match d with
                  | None => Ok VNull
                  | Some d => of_option (getter k name d) (EOp "method")
                  end
         end.
  (** date_method.rs:78-184, the numbers of arguments after the date itself (functions/defs.rs: from the fewest to the most). *)
  Definition date_arity (k : mkind) : option (nat * nat) :=
    if existsb (String.eqb k) ["add"; "sub"] then Some (1, 2)%nat
    else if String.eqb k "set" then Some (2, 2)%nat
    else if String.eqb k "format" then Some (0, 1)%nat
    else if existsb (String.eqb k) ["startOf"; "endOf"; "tz"] then Some (1, 1)%nat
    else if existsb (String.eqb k) ["diff"; "isSame"; "isBefore"; "isAfter"; "isSameOrBefore"; "isSameOrAfter"] then Some (1, 2)%nat
    else if existsb (String.eqb k) ["second"; "minute"; "hour"; "day"; "dayOfYear"; "week"; "weekday"; "month"; "quarter"; "year"; "timestamp"; "offsetName"; "isValid"; "isYesterday";
      "isToday"; "isTomorrow"; "isLeapYear"] then Some (0, 0)%nat
    else None.
  (** The library of functions with these dates. *)
  Definition with_dates (L : lib) : lib := {|
    l_add := l_add L; l_sub := l_sub L; l_mul := l_mul L; l_div := l_div L; l_rem := l_rem L; l_pow := l_pow L; l_upper := l_upper L; l_lower := l_lower L; l_trim := l_trim L;
    l_matches := l_matches L; l_captures := l_captures L; l_similarity := l_similarity L; l_rand := l_rand L; l_parse := l_parse L;
    l_date := date_fn; l_deprecated := l_deprecated L; l_method := date_method; l_marity := date_arity |}.
End Methods.
