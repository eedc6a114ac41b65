(** Dates: sums with durations (C58), differences (C59), fields (C60). *)
From Coq Require Import String Ascii ZArith Bool List Arith Lia.
From Verif Require Import Base Dec Value Ast Heap Ops Funcs Eval Duration DurationSpec DurationFacts Dates DateMethods DateSpec CalendarFacts DateFacts DatePeriods DateMath DateCalls DateDiff DateMore PropDates.
Import ListNotations.
Local Open Scope string_scope.
Local Open Scope list_scope.
Local Open Scope Z_scope.
Local Strategy 1000 [civil day_number naive_of local].

(** ** C58. In a zone with a fixed offset, adding seconds, minutes, hours, days or weeks moves the instant by that time, and subtracting them moves it back. *)
Theorem C58_fixed : forall C tz c t n s u, fixed (zone_of C tz) c -> unit_named s = Some u -> unit_kind u = KFixed ->
  let t2 := t + n * du_seconds (unit_size u) * 1000000000 in mid_range (dt C t tz) -> mid_range (dt C t2 tz) ->
  date_method C "add" [dv t tz; num n; VStr s] = Ok (dv t2 tz) /\ date_method C "sub" [dv t2 tz; num n; VStr s] = Ok (dv t tz).
Proof.
  intros C tz c t n s u F E K t2 M M2. assert (SM : small n (unit_size u)) by exact (fixed_small C tz c t n u F K M M2).
  rewrite (call_add _ _ _ _ _ _ E SM), (call_sub _ _ _ _ _ _ E SM).
  assert (SU : forall k, scaled k (unit_size u) = Dur (k * du_seconds (unit_size u)) 0 0) by (intros k; destruct u; try discriminate; unfold scaled; cbn [unit_size du_seconds du_months du_years]; rewrite !Z.mul_0_r; reflexivity).
  rewrite !SU. unfold mid_range in M, M2. split.
  - rewrite (add_secs (dt C t tz) c _ (dt C t2 tz) F); [reflexivity|lia|reflexivity|lia].
  - rewrite (add_secs (dt C t2 tz) c _ (dt C t tz) F); [reflexivity|lia| |lia]. unfold dt. cbn [dt_t dt_z]. f_equal. unfold t2, giga. lia.
Qed.
Print Assumptions C58_fixed.
(** Adding months or quarters moves the month, keeps the time of the day, and keeps the day of the month or takes the last day of a month that is too short; subtracting them moves back
    when the day is at most the 28th. *)
Theorem C58_months : forall C tz c t n s u, fixed (zone_of C tz) c -> unit_named s = Some u -> unit_kind u = KMonths -> mid_range (dt C t tz) ->
  let x := reading C t tz in let k := n * du_months (unit_size u) in (min_year + 2) * 12 < n_y x * 12 + n_m x + k <= (max_year - 2) * 12 ->
  exists t2, date_method C "add" [dv t tz; num n; VStr s] = Ok (dv t2 tz) /\
    (let y := reading C t2 tz in n_y y * 12 + n_m y = n_y x * 12 + n_m x + k /\ (exists l, month_length (n_y y) (n_m y) l /\ n_d y = Z.min (n_d x) l) /\ same_time x y) /\
    (n_d x <= 28 -> date_method C "sub" [dv t2 tz; num n; VStr s] = Ok (dv t tz)).
Proof.
  intros C tz c t n s u F E K M x k R. unfold mid_range in M. fold (reading C t tz) in M. fold x in M. pose proof (local_clock (dt C t tz)) as Kx. fold (reading C t tz) in Kx. fold x in Kx.
  pose proof (clock_date x Kx) as [Mx Dx].
  assert (SM : small n (unit_size u)) by (destruct u; try discriminate; unfold small, k in *; cbn [unit_size du_seconds du_months du_years] in *; unfold min_year, max_year in *; lia).
  assert (SU : forall j, scaled j (unit_size u) = Dur 0 (j * du_months (unit_size u)) 0) by (intros j; destruct u; try discriminate; unfold scaled; cbn [unit_size du_seconds du_months du_years]; rewrite !Z.mul_0_r; reflexivity).
  rewrite (call_add _ _ _ _ _ _ E SM), SU. fold k.
  assert (Y : min_year + 1 <= n_y (month_to k x) <= max_year - 1).
  { unfold month_to. cbv zeta. cbn [n_y]. pose proof (Z.div_mod (n_y x * 12 + n_m x - 1 + k) 12 ltac:(lia)). pose proof (Z.mod_pos_bound (n_y x * 12 + n_m x - 1 + k) 12 ltac:(lia)). lia. }
  destruct (add_month (dt C t tz) c k F) as (e & A & L & Z); [fold (reading C t tz); fold x; lia|exact Y|]. fold (reading C t tz) in L. fold x in L.
  rewrite A. exists (dt_t e). split; [reflexivity|].
  assert (RE : reading C (dt_t e) tz = month_to k x) by (unfold reading; rewrite (dt_is C tz e Z); exact L).
  split.
  - cbv zeta. rewrite RE. exact (month_to_means k x Kx).
  - intros D. rewrite (call_sub _ _ _ _ _ _ E SM), SU, Z.mul_opp_l. fold k. destruct (add_month (dt C (dt_t e) tz) c (- k) F) as (f & A2 & L2 & Z2).
    + fold (reading C (dt_t e) tz). rewrite RE. exact Y.
    + fold (reading C (dt_t e) tz). rewrite RE, (month_back k x Kx D). lia.
    + fold (reading C (dt_t e) tz) in L2. rewrite RE, (month_back k x Kx D) in L2. rewrite A2.
      assert (EQ : f = dt C t tz) by (apply (same_dt f (dt C t tz) c); [rewrite Z2; exact F|exact Z2|exact L2]). rewrite EQ. reflexivity.
Qed.
Print Assumptions C58_months.
(** Adding years moves the year and keeps every other field, unless the date is the 29th of February and the new year has none; subtracting them moves back. *)
Theorem C58_years : forall C tz c t n s, fixed (zone_of C tz) c -> unit_named s = Some UYear -> mid_range (dt C t tz) ->
  let x := reading C t tz in min_year + 2 <= n_y x + n <= max_year - 2 -> (n_m x = 2 -> n_d x = 29 -> leap_year (n_y x + n)) ->
  exists t2, date_method C "add" [dv t tz; num n; VStr s] = Ok (dv t2 tz) /\ (let y := reading C t2 tz in n_y y = n_y x + n /\ tl (fields y) = tl (fields x)) /\
    date_method C "sub" [dv t2 tz; num n; VStr s] = Ok (dv t tz).
Proof.
  intros C tz c t n s F E M x R L. destruct (year_round (dt C t tz) c n F M R L) as (e & A & Le & Z & B).
  assert (SM : small n (unit_size UYear)).
  { unfold mid_range in M. fold (reading C t tz) in M. fold x in M. unfold small, min_year, max_year in *. cbn [unit_size du_seconds du_months du_years]. lia. }
  assert (SU : forall j, scaled j (unit_size UYear) = Dur 0 0 j) by (intros j; unfold scaled; cbn [unit_size du_seconds du_months du_years]; rewrite !Z.mul_0_r, Z.mul_1_r; reflexivity).
  exists (dt_t e). rewrite (call_add _ _ _ _ _ _ E SM), (call_sub _ _ _ _ _ _ E SM), !SU, A. split; [reflexivity|].
  rewrite (dt_is C tz e Z), B. split; [|reflexivity]. unfold reading at 1. rewrite (dt_is C tz e Z). exact (year_parts n x (local e) Le).
Qed.
Print Assumptions C58_years.
(** The restriction is needed: a year after the 29th of February there is no date, although twelve months after it there is one. *)
Theorem C58_leap_refuted : forall C tz c t n s, fixed (zone_of C tz) c -> unit_named s = Some UYear -> mid_range (dt C t tz) ->
  let x := reading C t tz in min_year + 2 <= n_y x + n <= max_year - 3 -> n_m x = 2 -> n_d x = 29 -> ~ leap_year (n_y x + n) ->
  date_method C "add" [dv t tz; num n; VStr s] = Ok (invalid tz) /\
  exists t2, date_method C "add" [dv t tz; num (12 * n); VStr "months"] = Ok (dv t2 tz) /\ firstn 3 (fields (reading C t2 tz)) = [n_y x + n; 2; 28].
Proof.
  intros C tz c t n s F E M x R Mx Dx L. split.
  - assert (SM : small n (unit_size UYear)) by (unfold small, min_year, max_year in *; cbn [unit_size du_seconds du_months du_years]; unfold mid_range in M; fold (reading C t tz) in M; fold x in M; unfold min_year, max_year in M; lia).
    unfold mid_range in M. fold (reading C t tz) in M. fold x in M.
    rewrite (call_add _ _ _ _ _ _ E SM). unfold scaled. cbn [unit_size du_seconds du_months du_years]. rewrite !Z.mul_0_r, Z.mul_1_r.
    rewrite (add_year (dt C t tz) c n F) by (fold (reading C t tz); fold x; lia). unfold map_local. fold (reading C t tz). fold x. rewrite (no_leap_day x _ Mx Dx L). reflexivity.
  - destruct (C58_months C tz c t (12 * n) "months" UMonth F eq_refl eq_refl M) as (t2 & A & (I & (l & ML & D) & T) & _); [fold x; cbn [unit_size du_months]; lia|]. fold x in I, D, T. cbn [unit_size du_months] in I.
    exists t2. split; [exact A|]. cbn [firstn fields]. set (y := reading C t2 tz) in *. pose proof (length_month _ _ _ ML) as My.
    assert (n_y y = n_y x + n /\ n_m y = 2) as [Y1 Y2] by lia. rewrite Y1, Y2 in *. assert (l = 28) by (inversion ML; subst; try reflexivity; try contradiction; cbn in *; lia). subst l.
    rewrite D, Dx. reflexivity.
Qed.
Print Assumptions C58_leap_refuted.
(** In a zone whose clock goes back, an hour can be added to a date without a date as the result: the clock shows the hour twice. *)
Theorem C58_fall_refuted : zone_ok (zone_of demo_clock "Fall") /\ exists t, date_method demo_clock "isValid" [dv t "Fall"] = Ok (VBool true) /\
  date_method demo_clock "add" [dv t "Fall"; VStr "1h"] = Ok (invalid "Fall") /\ date_method demo_clock "add" [dv t "Fall"; VStr "3h"] = Ok (dv (t + 10800000000000) "Fall").
Proof.
  split.
  - change (zone_ok (fall 1541289600)). intros l t. cbn [z_local z_off fall]. destruct (l <? 1541289600) eqn:A; [|destruct (l <? 1541289600 + 3600) eqn:B; [discriminate|]]; intros E; injection E as E; subst t.
    + apply Z.ltb_lt in A. replace (l - 3600 <? 1541289600) with true; [lia|]. symmetry. apply Z.ltb_lt. lia.
    + rewrite A. lia.
  - exists 1541285940000000000. vm_compute. auto.
Qed.
Print Assumptions C58_fall_refuted.
Example C58_case : mid_range (dt demo_clock 1580428800000000000 "UTC") /\ reading demo_clock 1580428800000000000 "UTC" = Naive 2020 1 31 0 0 0 0 /\
  date_method demo_clock "add" [dv 1580428800000000000 "UTC"; num 1; VStr "month"] = Ok (dv 1582934400000000000 "UTC") /\ reading demo_clock 1582934400000000000 "UTC" = Naive 2020 2 29 0 0 0 0 /\
  date_method demo_clock "add" [dv 1582934400000000000 "UTC"; num 1; VStr "year"] = Ok (invalid "UTC") /\
  date_method demo_clock "sub" [dv 1582934400000000000 "UTC"; num 3; VStr "weeks"] = Ok (dv 1581120000000000000 "UTC").
Proof. split; [vm_compute; split; discriminate|]. vm_compute. auto 10. Qed.

(** ** C59. Differences. In seconds, minutes and hours: the whole units in the milliseconds between the instants, rounded towards zero; in days and weeks: those between the readings of
    the clocks of the two dates. *)
Definition unit_millis (u : dunit) : Z := du_seconds (unit_size u) * 1000.
Theorem C59_fixed : forall C tz tz2 t t2 s u, unit_named s = Some u ->
  (In u [USecond; UMinute; UHour] -> date_method C "diff" [dv t tz; dv t2 tz2; VStr s] = Ok (num (Z.quot (t / 1000000 - t2 / 1000000) (unit_millis u)))) /\
  (In u [UDay; UWeek] -> date_method C "diff" [dv t tz; dv t2 tz2; VStr s] = Ok (num (Z.quot (clock_millis (reading C t tz) - clock_millis (reading C t2 tz2)) (unit_millis u)))).
Proof.
  intros C tz tz2 t t2 s u E. rewrite (call_diff _ _ _ _ _ _ _ E). split; intros I.
  - repeat (destruct I as [<-|I]; [reflexivity|]). destruct I.
  - unfold reading. rewrite <- loc_diff. repeat (destruct I as [<-|I]; [reflexivity|]). destruct I.
Qed.
Print Assumptions C59_fixed.
(** In months, for days of the month up to the 28th and a date that is not before the other: the number of whole months. *)
Theorem C59_months : forall C tz c t t2 s, fixed (zone_of C tz) c -> unit_named s = Some UMonth -> mid_range (dt C t tz) -> mid_range (dt C t2 tz) ->
  let x := reading C t tz in let y := reading C t2 tz in n_d x <= 28 -> n_d y <= 28 -> t2 <= t ->
  exists k, date_method C "diff" [dv t tz; dv t2 tz; VStr s] = Ok (num k) /\ 0 <= k /\
    (forall z, months_later k y z -> clock_millis z <= clock_millis x) /\ (forall z, months_later (k + 1) y z -> clock_millis x < clock_millis z).
Proof.
  intros C tz c t t2 s F E M M2 x y D D2 O. exists (diff (dt C t tz) (dt C t2 tz) (Some UMonth)). split; [exact (call_diff _ _ _ _ _ _ _ E)|].
  apply (months_between (dt C t tz) (dt C t2 tz) c F eq_refl M M2 D D2). rewrite !local_millis. unfold millis, offset, dt. cbn [dt_t dt_z]. rewrite !(proj1 F).
  pose proof (Z.div_le_mono t2 t 1000000 ltac:(lia) O). lia.
Qed.
Print Assumptions C59_months.
(** Quarters and years are months divided by three and by twelve, rounded towards zero. *)
Theorem C59_multiples : forall C tz tz2 t t2, exists k, date_method C "diff" [dv t tz; dv t2 tz2; VStr "month"] = Ok (num k) /\
  date_method C "diff" [dv t tz; dv t2 tz2; VStr "quarter"] = Ok (num (Z.quot k 3)) /\ date_method C "diff" [dv t tz; dv t2 tz2; VStr "year"] = Ok (num (Z.quot k 12)).
Proof.
  intros C tz tz2 t t2. exists (diff (dt C t tz) (dt C t2 tz2) (Some UMonth)). rewrite (call_diff C t tz t2 tz2 "month" UMonth eq_refl), (call_diff C t tz t2 tz2 "quarter" UQuarter eq_refl), (call_diff C t tz t2 tz2 "year" UYear eq_refl).
  destruct (diff_multiples (dt C t tz) (dt C t2 tz2)) as [-> ->]. auto.
Qed.
Print Assumptions C59_multiples.
(** The difference of two dates of one zone, in any unit or in milliseconds, changes its sign with their order. *)
Theorem C59_anti : forall C tz c t t2 s u, fixed (zone_of C tz) c -> unit_named s = Some u -> mid_range (dt C t tz) -> mid_range (dt C t2 tz) ->
  (exists k, date_method C "diff" [dv t tz; dv t2 tz; VStr s] = Ok (num k) /\ date_method C "diff" [dv t2 tz; dv t tz; VStr s] = Ok (num (- k))) /\
  (exists k, date_method C "diff" [dv t tz; dv t2 tz] = Ok (num k) /\ date_method C "diff" [dv t2 tz; dv t tz] = Ok (num (- k))).
Proof.
  intros C tz c t t2 s u F E M M2. split.
  - exists (diff (dt C t tz) (dt C t2 tz) (Some u)). rewrite !(call_diff _ _ _ _ _ _ _ E). split; [reflexivity|]. rewrite (diff_anti (dt C t2 tz) (dt C t tz) u c F eq_refl M2 M). reflexivity.
  - exists (t / 1000000 - t2 / 1000000). rewrite !call_diff2. split; [reflexivity|]. do 2 f_equal. lia.
Qed.
Print Assumptions C59_anti.
(** What was added is the difference, for every unit. *)
Theorem C59_added : forall C tz c t n s u t2, fixed (zone_of C tz) c -> unit_named s = Some u -> mid_range (dt C t tz) -> mid_range (dt C t2 tz) -> - 2 ^ 29 < n < 2 ^ 29 ->
  date_method C "add" [dv t tz; num n; VStr s] = Ok (dv t2 tz) ->
  date_method C "diff" [dv t2 tz; dv t tz; VStr s] = Ok (num n).
Proof.
  intros C tz c t n s u t2 F E M M2 B A. rewrite (call_diff _ _ _ _ _ _ _ E). do 2 f_equal.
  assert (SM : small n (unit_size u)) by (destruct u; unfold small; cbn [unit_size du_seconds du_months du_years]; lia).
  rewrite (call_add _ _ _ _ _ _ E SM) in A. apply ret_dv in A as (e & A & T). subst t2.
  exact (added_diff C tz c t n u e F M M2 A).
Qed.
Print Assumptions C59_added.
Theorem C59_invalid : forall C tz tz2 t d, date_method C "diff" [invalid tz; d] = Ok VNull /\ date_method C "diff" [dv t tz; invalid tz2] = Ok VNull.
Proof. intros. split; reflexivity. Qed.
Print Assumptions C59_invalid.
Example C59_case : date_method demo_clock "diff" [dv 1582934400000000000 "UTC"; dv 1541329200000000000 "UTC"; VStr "month"] = Ok (num 15) /\
  date_method demo_clock "diff" [dv 1541329200000000000 "UTC"; dv 1582934400000000000 "UTC"; VStr "year"] = Ok (num (-1)) /\
  date_method demo_clock "diff" [dv 1582934400000000000 "East"; dv 1541329200000000000 "UTC"; VStr "days"] = Ok (num 481).
Proof. vm_compute. auto. Qed.

(** ** C60. The fields of a date are those of the reading of its clock. *)
Theorem C60_fields : forall C tz t, let x := reading C t tz in let get k := date_method C k [dv t tz] in
  get "year" = Ok (num (n_y x)) /\ get "month" = Ok (num (n_m x)) /\ get "day" = Ok (num (n_d x)) /\ get "hour" = Ok (num (n_h x)) /\ get "minute" = Ok (num (n_mi x)) /\
  get "second" = Ok (num (n_s x)) /\ get "timestamp" = Ok (num (t / 1000000)) /\ get "offsetName" = Ok (VStr tz) /\ get "isValid" = Ok (VBool true).
Proof. intros C tz t. repeat split. Qed.
Print Assumptions C60_fields.
(** The day of the week counts from Monday; the quarter holds the month; the day of the year is one on the first of January and grows by one each day; the week is numbered in the year
    of its Thursday, from the week with the first Thursday. *)
Theorem C60_calendar : forall C tz t, let x := reading C t tz in let get k := date_method C k [dv t tz] in let n := day_number (n_y x) (n_m x) (n_d x) in
  (exists w, get "weekday" = Ok (num w) /\ 1 <= w <= 7 /\ (7 | n - (4 + (w - 1)))) /\
  (exists q, get "quarter" = Ok (num q) /\ 1 <= q <= 4 /\ 3 * q - 2 <= n_m x <= 3 * q) /\
  (exists b, get "isLeapYear" = Ok (VBool b) /\ (b = true <-> leap_year (n_y x))) /\
  (exists o, get "dayOfYear" = Ok (num o) /\ civil (n - (o - 1)) = (n_y x, 1, 1)) /\
  (exists k th y m d, get "week" = Ok (num k) /\ same_period UWeek x (Naive y m d 0 0 0 0) /\ civil th = (y, m, d) /\ day_number y m d = th /\ (7 | th) /\
    exists jan1, civil jan1 = (y, 1, 1) /\ jan1 + 7 * (k - 1) <= th < jan1 + 7 * k).
Proof.
  intros C tz t x get n. pose proof (local_clock (dt C t tz)) as Kx. fold (reading C t tz) in Kx. fold x in Kx. split; [exists (weekday x + 1); split; [reflexivity|exact (weekday_means x)]|].
  split; [exists (quarter x); split; [reflexivity|exact (quarter_means x Kx)]|].
  split; [exists (leap (n_y x)); split; [reflexivity|exact (leap_iff (n_y x))]|].
  split; [exists (ordinal x); split; [reflexivity|exact (ordinal_means x)]|].
  destruct (week_means x) as (th & y & m & d & W). exists (iso_week x), th, y, m, d. split; [reflexivity|exact W].
Qed.
Print Assumptions C60_calendar.
(** [isToday], [isYesterday] and [isTomorrow]: the day of the present instant, of the one a day before and of the one a day later, on the clock of the date; the zone of the machine has
    a fixed offset here, as has that of the date. *)
Theorem C60_today : forall C tz c c0 t, fixed (zone_of C tz) c -> fixed (zone_of C (c_sys C)) c0 -> mid_range (dt C t tz) -> min_year + 3 <= n_y (reading C (c_now C) (c_sys C)) <= max_year - 3 ->
  forall k p, In (k, p) [("isYesterday", -86400); ("isToday", 0); ("isTomorrow", 86400)] ->
  exists b, date_method C k [dv t tz] = Ok (VBool b) /\ (b = true <-> same_period UDay (reading C t tz) (reading C (c_now C + p * 1000000000) tz)).
Proof.
  intros C tz c c0 t F F0 M R k p I. exact (today_means C tz c c0 t F F0 M R k p I).
Qed.
Print Assumptions C60_today.
(** Changing the zone keeps the instant, and reading a timestamp gives the instant back, to the millisecond. *)
Theorem C60_zone : forall C tz z t, c_zones C z <> None -> date_method C "tz" [dv t tz; VStr z] = Ok (dv t z).
Proof. intros C tz z t N. unfold date_method, dv. cbn. destruct (c_zones C z) eqn:E; [reflexivity|congruence]. Qed.
Print Assumptions C60_zone.
Theorem C60_timestamp : forall C k, - 2 ^ 63 < k < 2 ^ 63 -> in_utc (k * 1000000) = true ->
  exists d, date_fn C [num k] = Ok d /\ date_method C "timestamp" [VDyn (DDate d)] = Ok (num k) /\ date_method C "offsetName" [VDyn (DDate d)] = Ok (VStr (c_sys C)).
Proof.
  intros C k B I. exists (VmDate (Some (k * 1000000)) (c_sys C)). split; [|split].
  - unfold date_fn, num. cbn [nth_error bind]. unfold read_date, dec_of_Z. rewrite (i64_fits k B). unfold bind_o. cbv zeta. rewrite I. reflexivity.
  - change (Ok (num (k * 1000000 / 1000000)) = Ok (num k)). rewrite Z.div_mul by lia. reflexivity.
  - reflexivity.
Qed.
Print Assumptions C60_timestamp.
(** The offset written in a text is not used: two texts with the same date and time and other offsets are read as one instant. *)
Theorem C60_offset_refuted : forall C s1 s2 x o1 o2, c_rfc C s1 = Some (x, o1) -> c_rfc C s2 = Some (x, o2) -> date_fn C [VStr s1] = date_fn C [VStr s2].
Proof. intros C s1 s2 x o1 o2 A B. unfold date_fn. cbn [nth_error bind]. unfold read_date. rewrite A, B. reflexivity. Qed.
Print Assumptions C60_offset_refuted.
(** Setting a field: in every zone, a valid result shows the value in that field and the old values in the others; setting the week or the quarter changes nothing. *)
Theorem C60_set : forall C tz t t2 s u v, zone_ok (zone_of C tz) -> unit_named s = Some u -> 0 <= v < 2 ^ 32 -> date_method C "set" [dv t tz; VStr s; num v] = Ok (dv t2 tz) ->
  match field_of u with
  | Some i => forall j, nth_error (fields (reading C t2 tz)) j = if Nat.eqb i j then Some v else nth_error (fields (reading C t tz)) j
  | None => t2 = t
  end.
Proof.
  intros C tz t t2 s u v K E B A. rewrite (call_set _ _ _ _ _ _ E B) in A. apply ret_dv in A as (e & A & T). subst t2. exact (set_means C tz t u v e K A).
Qed.
Print Assumptions C60_set.
(** In a zone with a fixed offset the result is valid just when such a reading exists. *)
Theorem C60_set_fixed : forall C tz c t s u v x2, fixed (zone_of C tz) c -> unit_named s = Some u -> 0 <= v < 2 ^ 32 -> mid_range (dt C t tz) -> min_year + 1 <= n_y x2 <= max_year - 1 ->
  (forall j, nth_error (fields x2) j = match field_of u with Some i => if Nat.eqb i j then Some v else nth_error (fields (reading C t tz)) j | None => nth_error (fields (reading C t tz)) j end) ->
  clock_ok x2 -> exists t2, date_method C "set" [dv t tz; VStr s; num v] = Ok (dv t2 tz) /\ reading C t2 tz = x2.
Proof.
  intros C tz c t s u v x2 F E B M R H K. rewrite (call_set _ _ _ _ _ _ E B). destruct (set_exists C tz c t u v x2 F M R H K) as (e & A & L & Z).
  rewrite A. exists (dt_t e). split; [reflexivity|]. unfold reading. rewrite (dt_is C tz e Z). exact L.
Qed.
Print Assumptions C60_set_fixed.
Example C60_case : date_method demo_clock "week" [dv 1577836800000000000 "UTC"] = Ok (num 1) /\ date_method demo_clock "dayOfYear" [dv 1582934400000000000 "UTC"] = Ok (num 60) /\
  date_method demo_clock "weekday" [dv 1577836800000000000 "UTC"] = Ok (num 3) /\ date_method demo_clock "isToday" [dv 1699999999000000000 "East"] = Ok (VBool true) /\
  date_method demo_clock "set" [dv 1577836800000000000 "UTC"; VStr "month"; num 2] = Ok (dv 1580515200000000000 "UTC").
Proof. vm_compute. auto 10. Qed.
(** The methods in expressions: [d(0).add(1, 'month').month()], and a difference. *)
Example C60_expression : exists h1 h2,
  evaluate (std_ext (with_dates demo_clock demo_lib)) (NMethod "month" (NMethod "add" (NCall (FInternal FDate) [NNumber (dec_of_Z 0)]) [NNumber (dec_of_Z 1); NString "month"]) []) (scope_new VNull) [] = (Ok (num 2), h1) /\
  evaluate (std_ext (with_dates demo_clock demo_lib)) (NMethod "diff" (NCall (FInternal FDate) [NNumber (dec_of_Z 86400000)]) [NCall (FInternal FDate) [NNumber (dec_of_Z 0)]; NString "hours"]) (scope_new VNull) [] = (Ok (num 24), h2).
Proof. do 2 eexists. split; vm_compute; reflexivity. Qed.
(** An invalid date: [isValid] tells it, its fields are null, it compares with nothing, it is written as such, moving or changing it gives an invalid date, and another zone leaves it as it is. *)
Theorem C60_invalid : forall C tz,
  date_method C "isValid" [invalid tz] = Ok (VBool false) /\
  (forall k, In k ["second"; "minute"; "hour"; "day"; "dayOfYear"; "week"; "weekday"; "month"; "quarter"; "year"; "timestamp"; "offsetName"; "isYesterday"; "isToday"; "isTomorrow"; "isLeapYear"] ->
    date_method C k [invalid tz] = Ok VNull) /\
  date_method C "format" [invalid tz] = Ok (VStr "Invalid date") /\
  (forall k s u, In k ["startOf"; "endOf"] -> unit_named s = Some u -> date_method C k [invalid tz; VStr s] = Ok (invalid tz)) /\
  (forall k s w, In k ["add"; "sub"] -> dparse s = Ok w -> date_method C k [invalid tz; VStr s] = Ok (invalid tz)) /\
  (forall z, c_zones C z <> None -> date_method C "tz" [invalid tz; VStr z] = Ok (invalid tz)).
Proof.
  intros C tz. split; [reflexivity|]. split; [|split; [reflexivity|split; [|split]]].
  - intros k I. cbn [In] in I. repeat (destruct I as [I|I]; [subst k; reflexivity|]). destruct I.
  - intros k s u I E. pose proof (DurationFacts.parse_named s) as P. rewrite E in P.
    assert (G : forall f, (do u <- arg_unit [invalid tz; VStr s] 1; ret_date tz (f (@None datetime) u)) = ret_date tz (f None u)). { intro f. unfold arg_unit. cbn [arg_str arg nth_error bind]. rewrite P. reflexivity. }
    cbn [In] in I. destruct I as [I|[I|[]]]; subst k; [exact (G vm_start)|exact (G vm_end)].
  - intros k s w I E. cbn [In] in I. destruct I as [I|[I|[]]]; subst k; [change (date_method C "add" [invalid tz; VStr s]) with (do w <- dparse s; Ok (invalid tz))|change (date_method C "sub" [invalid tz; VStr s]) with (do w <- dparse s; Ok (invalid tz))]; rewrite E; reflexivity.
  - intros z N. unfold date_method, invalid. cbn. destruct (c_zones C z) eqn:E; [reflexivity|congruence].
Qed.
Print Assumptions C60_invalid.
(** A zone nobody knows is an error, in [d()] and in [tz]. *)
Theorem C60_unknown_zone : forall C z, c_zones C z = None -> forall v, (exists e, date_fn C [v; VStr z] = Err e) /\ (exists e, date_method C "tz" [v; VStr z] = Err e).
Proof.
  intros C z N v. split; [unfold date_fn; cbn; rewrite N; eexists; reflexivity|]. unfold date_method.
  destruct (arg_date [v; VStr z] 0) as [d|e]; [|eexists; reflexivity]. cbn. rewrite N. eexists; reflexivity.
Qed.
Print Assumptions C60_unknown_zone.
(** Every method can be called in an expression. *)
Definition method_cases : list (mkind * list node * list value) :=
  map (fun k => (k, [], [])) ["second"; "minute"; "hour"; "day"; "dayOfYear"; "week"; "weekday"; "month"; "quarter"; "year"; "timestamp"; "offsetName"; "isValid"; "isYesterday"; "isToday"; "isTomorrow"; "isLeapYear"; "format"] ++
  map (fun k => (k, [NString "day"], [VStr "day"])) ["startOf"; "endOf"] ++
  map (fun k => (k, [NString "1d"], [VStr "1d"])) ["add"; "sub"] ++
  map (fun k => (k, [NNumber (dec_of_Z 2); NString "hour"], [num 2; VStr "hour"])) ["add"; "sub"] ++
  map (fun k => (k, [NNumber (dec_of_Z 0)], [num 0])) ["diff"; "isSame"; "isBefore"; "isAfter"; "isSameOrBefore"; "isSameOrAfter"] ++
  map (fun k => (k, [NNumber (dec_of_Z 0); NString "month"], [num 0; VStr "month"])) ["diff"; "isSame"; "isBefore"; "isAfter"; "isSameOrBefore"; "isSameOrAfter"] ++
  [("set", [NString "hour"; NNumber (dec_of_Z 5)], [VStr "hour"; num 5]); ("tz", [NString "East"], [VStr "East"]); ("format", [NString "%Y"], [VStr "%Y"])].
Example C60_methods : forall k a v, In (k, a, v) method_cases ->
  fst (evaluate (std_ext (with_dates demo_clock demo_lib)) (NMethod k (NCall (FInternal FDate) [NNumber (dec_of_Z 1582934400000)]) a) (scope_new VNull) []) = date_method demo_clock k (dv 1582934400000000000 "UTC" :: v) /\
  exists x, date_method demo_clock k (dv 1582934400000000000 "UTC" :: v) = Ok x.
Proof.
  intros k a v I. unfold method_cases in I. cbn [map app In] in I.
  repeat (destruct I as [I|I]; [inversion I; subst k a v; split; [vm_compute; reflexivity|eexists; vm_compute; reflexivity]|]). destruct I.
Qed.
