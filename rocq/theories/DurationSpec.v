(** What a duration text means: a list of terms, each a number and a unit. *)
From Coq Require Import String Ascii ZArith Bool List Arith.
From Verif Require Import Base Table Duration.
Import ListNotations.
Local Open Scope list_scope.
Local Open Scope Z_scope.

(** A term as written: spaces, digits with spaces after each, and the letters of the unit. *)
Record term := Term { tm_lead : list ascii; tm_digits : list (ascii * list ascii); tm_name : list ascii }.
Definition spaces (l : list ascii) : Prop := forallb is_space l = true.
Definition term_text (t : term) : list ascii := tm_lead t ++ concat (map (fun p => fst p :: snd p) (tm_digits t)) ++ tm_name t.
Definition dur_text (ts : list term) (trail : list ascii) : list ascii := concat (map term_text ts) ++ trail.
Definition term_ok (t : term) : Prop :=
  spaces (tm_lead t) /\ tm_digits t <> [] /\ (forall c sp, In (c, sp) (tm_digits t) -> digit_of c <> None /\ spaces sp) /\ tm_name t <> [] /\ forallb is_letter (tm_name t) = true.
(** The number, in decimal. *)
Definition digit (c : ascii) : Z := Z.of_nat (nat_of_ascii c) - 48.
Definition number_of (t : term) : Z := fold_left (fun n p => 10 * n + digit (fst p)) (tm_digits t) 0.
(** The names of the units. *)
Definition names_of (u : dunit) : list string :=
  match u with
  | USecond => ["s"; "sec"; "secs"; "second"; "seconds"] | UMinute => ["m"; "min"; "mins"; "minute"; "minutes"] | UHour => ["h"; "hr"; "hrs"; "hour"; "hours"]
  | UDay => ["d"; "day"; "days"] | UWeek => ["w"; "week"; "weeks"] | UMonth => ["M"; "mo"; "month"; "months"] | UQuarter => ["q"; "qtr"; "quarter"; "quarters"]
  | UYear => ["y"; "year"; "years"]
  end%string.
Definition unit_named (s : string) : option dunit := find (fun u => existsb (String.eqb s) (names_of u)) [USecond; UMinute; UHour; UDay; UWeek; UMonth; UQuarter; UYear].
Definition unit_of (t : term) : option dunit := unit_named (string_of_list_ascii (tm_name t)).
(** How many seconds, months and years a unit is. *)
Definition unit_size (u : dunit) : duration :=
  match u with
  | USecond => Dur 1 0 0 | UMinute => Dur 60 0 0 | UHour => Dur 3600 0 0 | UDay => Dur 86400 0 0 | UWeek => Dur 604800 0 0
  | UMonth => Dur 0 1 0 | UQuarter => Dur 0 3 0 | UYear => Dur 0 0 1
  end.
Definition term_size (t : term) : duration :=
  match unit_of t with Some u => let s := unit_size u in let n := number_of t in Dur (n * du_seconds s) (n * du_months s) (n * du_years s) | None => dur_zero end.
Definition total (f : duration -> Z) (ts : list term) : Z := fold_right (fun t s => f (term_size t) + s) 0 ts.
(** The terms of a kind: fixed length, counted in months, counted in years. *)
Inductive kind := KFixed | KMonths | KYears.
Definition unit_kind (u : dunit) : kind := match u with UMonth | UQuarter => KMonths | UYear => KYears | _ => KFixed end.
Definition of_kind (k : kind) (t : term) : Prop := exists u, unit_of t = Some u /\ unit_kind u = k.
(** At most one term of the kind. *)
Definition once (k : kind) (ts : list term) : Prop := forall a t b u, ts = a ++ t :: b -> of_kind k t -> In u (a ++ b) -> ~ of_kind k u.
(** The numbers fit: months and years in 32 bits, seconds in 64 bits. *)
Definition fits (ts : list term) : Prop :=
  (forall t, In t ts -> exists u, unit_of t = Some u /\ match unit_kind u with KFixed => number_of t < 2 ^ 63 | KMonths => du_months (term_size t) < 2 ^ 31 | KYears => number_of t < 2 ^ 31 end) /\
  total du_seconds ts < 2 ^ 63.
(** The last term of a kind. *)
Definition last_of (k : kind) (ts : list term) (t : term) : Prop := exists a b, ts = a ++ t :: b /\ of_kind k t /\ forall u, In u b -> ~ of_kind k u.
