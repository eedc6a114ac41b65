(** Durations: core/expression/src/vm/date (duration.rs, duration_parser.rs, duration_unit.rs). A text is a list of bytes; white space is ASCII (Table.v, [is_space]). *)
From Coq Require Import String Ascii ZArith Bool List Arith.
From Verif Require Import Base Dec Table.
Import ListNotations.
Local Open Scope list_scope.
Local Open Scope Z_scope.

(** duration_unit.rs:5-14. *)
Inductive dunit := USecond | UMinute | UHour | UDay | UWeek | UMonth | UQuarter | UYear.
(** duration_unit.rs:33-45 [parse]. *)
Definition unit_names : list (string * dunit) :=
  [("seconds", USecond); ("second", USecond); ("secs", USecond); ("sec", USecond); ("s", USecond); ("minutes", UMinute); ("minute", UMinute); ("min", UMinute); ("mins", UMinute); ("m", UMinute);
   ("hours", UHour); ("hour", UHour); ("hr", UHour); ("hrs", UHour); ("h", UHour); ("days", UDay); ("day", UDay); ("d", UDay); ("weeks", UWeek); ("week", UWeek); ("w", UWeek);
   ("months", UMonth); ("month", UMonth); ("mo", UMonth); ("M", UMonth); ("quarters", UQuarter); ("quarter", UQuarter); ("qtr", UQuarter); ("q", UQuarter);
   ("years", UYear); ("year", UYear); ("y", UYear)]%string.
Definition unit_parse (s : string) : option dunit := aget s unit_names.
(** duration_unit.rs:47-59 [as_secs]. *)
Definition as_secs (u : dunit) : option Z :=
  match u with USecond => Some 1 | UMinute => Some 60 | UHour => Some 3600 | UDay => Some 86400 | UWeek => Some (86400 * 7) | _ => None end.
(** duration.rs:7-12. *)
Record duration := Dur { du_seconds : Z; du_months : Z; du_years : Z }.
Definition dur_zero : duration := Dur 0 0 0.
Definition to_i32 (n : Z) : res Z := if (- 2 ^ 31 <=? n) && (n <? 2 ^ 31) then Ok n else Err (EOp "NumberOverflow").
Definition to_i64 (n : Z) : res Z := if (- 2 ^ 63 <=? n) && (n <? 2 ^ 63) then Ok n else Err (EOp "NumberOverflow").
(** Overflow of the unchecked product with three panics in a debug build and wraps in a release build. *)
Definition times3 (n : Z) : res Z := if n * 3 <? 2 ^ 31 then Ok (n * 3) else Err (EPanic "overflow").
(** duration_parser.rs:51-93 [parse_unit]. *)
Definition add_term (d : duration) (n : Z) (name : list ascii) : res duration :=
  do u <- of_option (unit_parse (string_of_list_ascii name)) (EOp "UnknownUnit");
  do d1 <- match u with
           | UQuarter => do k <- to_i32 n; do m <- times3 k; Ok (Dur (du_seconds d) m (du_years d))
           | UMonth => do m <- to_i32 n; Ok (Dur (du_seconds d) m (du_years d))
           | UYear => do y <- to_i32 n; Ok (Dur (du_seconds d) (du_months d) y)
           | _ => Ok d
           end;
  match as_secs u with
  | Some k =>
      do n1 <- to_i64 n;
      do p <- to_i64 (k * n1);
      do s <- to_i64 (du_seconds d1 + p);
      Ok (Dur s (du_months d1) (du_years d1))
  | None => Ok d1
  end.
Definition digit_of (c : ascii) : option Z :=
  let n := Z.of_nat (nat_of_ascii c) in if (48 <=? n) && (n <=? 57) then Some (n - 48) else None.
Definition is_letter (c : ascii) : bool :=
  let n := Z.of_nat (nat_of_ascii c) in ((65 <=? n) && (n <=? 90)) || ((97 <=? n) && (n <=? 122)).
(** duration_parser.rs:36-50 [parse_first_char] and 95-143 [parse], as one pass over the characters. [DFirst]: in [parse_first_char], [b] when a term has been read;
    [DNum]: in the loop of lines 99-117; [DUnit]: in the loop of lines 120-133, with the name read so far. *)
Inductive dstate := DFirst (b : bool) | DNum (n : Z) | DUnit (n : Z) (name : list ascii).
Fixpoint dscan (st : dstate) (d : duration) (l : list ascii) : res duration :=
  match l with
  | [] =>
      match st with
      | DFirst b => if b then Ok d else Err (EOp "Empty")
      | DNum n => add_term d n []
      | DUnit n name => add_term d n name
      end
  | c :: l =>
      match st with
      | DFirst b =>
          match digit_of c with
          | Some k => dscan (DNum k) d l
          | None => if is_space c then dscan (DFirst b) d l else Err (EOp "NumberExpected")
          end
      | DNum n =>
          match digit_of c with
          | Some k => if n * 10 + k <? 2 ^ 64 then dscan (DNum (n * 10 + k)) d l else Err (EOp "NumberOverflow")
          | None => if is_space c then dscan (DNum n) d l else if is_letter c then dscan (DUnit n [c]) d l else Err (EOp "InvalidCharacter")
          end
      | DUnit n name =>
          match digit_of c with
          | Some k => do d1 <- add_term d n name; dscan (DNum k) d1 l
          | None =>
              if is_space c then do d1 <- add_term d n name; dscan (DFirst true) d1 l
              else if is_letter c then dscan (DUnit n (name ++ [c])) d l else Err (EOp "InvalidCharacter")
          end
      end
  end.
(** duration.rs:15-22 [parse]. *)
Definition dparse (s : string) : res duration := dscan (DFirst false) dur_zero (list_ascii_of_string s).
(** duration.rs:24-47 [from_unit]; the product of the number with the seconds of the unit is exact here (a decimal has at most 28 digits). [None]: no duration. *)
Definition from_unit (n : dec) (u : dunit) : res (option duration) :=
  let i32 := match dec_to_i64 n with Some k => if (- 2 ^ 31 <=? k) && (k <? 2 ^ 31) then Some k else None | None => None end in
  match as_secs u with
  | Some k => Ok (option_map (fun s => Dur s 0 0) (dec_to_i64 (Dec (mant n * k) (scale n))))
  | None =>
      match u, i32 with
      | UMonth, Some k => Ok (Some (Dur 0 k 0))
      | UQuarter, Some k => if (- 2 ^ 31 <=? k * 3) && (k * 3 <? 2 ^ 31) then Ok (Some (Dur 0 (k * 3) 0)) else Err (EPanic "overflow")
      | UYear, Some k => Ok (Some (Dur 0 0 k))
      | _, _ => Ok None
      end
  end.
(** duration.rs:49-55 [negate]. *)
Definition dur_neg (d : duration) : duration := Dur (- du_seconds d) (- du_months d) (- du_years d).
