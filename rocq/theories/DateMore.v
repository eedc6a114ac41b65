(** More of what calls of the methods of dates compute. *)
From Coq Require Import String Ascii ZArith Bool List Arith Lia.
From Verif Require Import Base Dec Value Ast Ops Funcs Duration DurationSpec DurationFacts Dates DateMethods DateSpec CalendarFacts DateFacts DatePeriods DateMath DateCalls DateDiff.
Import ListNotations.
Local Open Scope string_scope.
Local Open Scope list_scope.
Local Open Scope Z_scope.
Local Strategy 1000 [civil day_number naive_of local].

Lemma fixed_small : forall C tz c t n u, fixed (zone_of C tz) c -> unit_kind u = KFixed -> mid_range (dt C t tz) -> mid_range (dt C (t + n * du_seconds (unit_size u) * 1000000000) tz) ->
  small n (unit_size u).
Proof.
  intros C tz c t n u F K M M2. unfold mid_range in M, M2.
  pose proof (mid_in (dt C t tz) c F ltac:(lia)) as I1. pose proof (mid_in (dt C (t + n * du_seconds (unit_size u) * 1000000000) tz) c F ltac:(lia)) as I2.
  unfold in_utc in I1, I2. apply andb_prop in I1, I2. rewrite !Z.leb_le in I1, I2. cbn [dt dt_t] in I1, I2.
  assert (X : max_utc - min_utc <= 20000000000000 * 1000000000) by (vm_compute; discriminate).
  assert (B : - 20000000000000 <= n * du_seconds (unit_size u) <= 20000000000000) by lia.
  unfold small. split; [lia|]. destruct u; try discriminate; cbn [unit_size du_months du_years]; lia.
Qed.
Lemma month_to_means : forall k x, clock_ok x -> n_y (month_to k x) * 12 + n_m (month_to k x) = n_y x * 12 + n_m x + k /\
  (exists l, month_length (n_y (month_to k x)) (n_m (month_to k x)) l /\ n_d (month_to k x) = Z.min (n_d x) l) /\ same_time x (month_to k x).
Proof.
  intros k x K. pose proof (month_to_date k x K) as [M _]. split; [|split].
  - unfold month_to. cbv zeta. cbn [n_y n_m]. pose proof (Z.div_mod (n_y x * 12 + n_m x - 1 + k) 12 ltac:(lia)). lia.
  - exists (mdays (n_y (month_to k x)) (n_m (month_to k x))). split; [apply mdays_iff; [exact M|reflexivity]|reflexivity].
  - reflexivity.
Qed.
Lemma other_year : forall x n, date_ok (n_y x) (n_m x) (n_d x) -> (n_m x = 2 -> n_d x = 29 -> leap_year (n_y x + n)) -> date_ok (n_y x + n) (n_m x) (n_d x).
Proof.
  intros x n [M D] L. split; [exact M|]. split; [apply D|]. unfold mdays in *. destruct (n_m x =? 2) eqn:E; [|apply D]. apply Z.eqb_eq in E. specialize (L E).
  destruct (leap (n_y x + n)) eqn:P; [destruct (leap (n_y x)); lia|]. destruct (Z.eq_dec (n_d x) 29) as [Q|Q]; [|destruct (leap (n_y x)); lia]. specialize (L Q). apply leap_iff in L. congruence.
Qed.
Lemma no_leap_day : forall x y, n_m x = 2 -> n_d x = 29 -> ~ leap_year y -> with_year y x = None.
Proof.
  intros x y M D L. unfold with_year, with_ymd. destruct (ymd_ok y (n_m x) (n_d x)) eqn:E; [|reflexivity]. apply ymd_iff in E as [[_ E] _]. rewrite M, D in E. unfold mdays in E. cbn [Z.eqb Pos.eqb] in E.
  destruct (leap y) eqn:P; [apply leap_iff in P; contradiction|lia].
Qed.
Lemma month_den : forall a b, snd (month_diff a b) <> 0.
Proof. intros a b. unfold month_diff. destruct (_ <? _); [apply den_ok|]. pose proof (den_ok a b) as N. destruct (month_diff1 a b) as [n d]. exact N. Qed.
Lemma diff_multiples : forall a b, diff a b (Some UQuarter) = Z.quot (diff a b (Some UMonth)) 3 /\ diff a b (Some UYear) = Z.quot (diff a b (Some UMonth)) 12.
Proof.
  intros a b. unfold diff. cbv zeta. pose proof (month_den a b) as N. destruct (month_diff a b) as [n d]. cbn [snd] in N. rewrite Z.mul_1_r. rewrite !Z.quot_quot by lia. auto.
Qed.
Lemma diff_anti : forall a b u c, fixed (dt_z a) c -> dt_z b = dt_z a -> mid_range a -> mid_range b -> diff a b (Some u) = - diff b a (Some u).
Proof.
  intros a b u c F Z Ra Rb. unfold diff. cbv zeta.
  assert (O : offset b = offset a) by (unfold offset; rewrite Z, !(proj1 F); reflexivity).
  assert (Q : forall x y k, k <> 0 -> x = - y -> Z.quot x k = - Z.quot y k) by (intros x y k Nk ->; apply quot_neg; exact Nk).
  destruct u; try (apply Q; lia); apply (months_anti a b c); try assumption; lia.
Qed.
Lemma time_sym : forall x y, same_time x y -> same_time y x. Proof. intros x y T. symmetry. exact T. Qed.
Lemma year_to_time : forall n x, same_time (year_to n x) x. Proof. reflexivity. Qed.
Lemma exact_months : forall e d c n q, fixed (dt_z d) c -> dt_z e = dt_z d -> mid_range d -> 0 < q -> local e = month_to (n * q) (local d) -> min_year + 1 <= n_y (local e) <= max_year - 1 ->
  (let (a, b) := month_diff e d in Z.quot a (b * q)) = n.
Proof.
  intros e d c n q F Z M Pq L R. assert (Fe : fixed (dt_z e) c) by (rewrite Z; exact F). unfold mid_range in M.
  destruct (month_to_means (n * q) (local d) (local_clock d)) as (I & (l & ML & D) & T). rewrite <- L in I, D, T, ML.
  destruct (Z.lt_ge_cases (n_d (local e)) (n_d (local d))) as [C1|C1].
  - unfold month_diff. replace (n_d (local e) <? n_d (local d)) with true by (symmetry; apply Z.ltb_lt; exact C1). unfold month_diff1.
    replace ((n_y (local e) - n_y (local d)) * 12 + (n_m (local e) - n_m (local d))) with (n * q) by lia. cbv zeta.
    assert (A : shift_months d (n * q) = e).
    { unfold shift_months. destruct (add_months_make d c (n * q) F) as (f & E & Lf & Zf); [rewrite <- L; exact R|]. rewrite E. apply (same_dt f e c); [rewrite Zf; exact F|congruence|congruence]. }
    rewrite A, Z.sub_diag. cbn [Z.ltb Z.compare]. set (den := millis (shift_months d (n * q + 1)) - millis e). destruct (den =? 0) eqn:N.
    + replace (n * q) with (n * q * 1) by lia. apply quot_exact; lia.
    + apply Z.eqb_neq in N. rewrite Z.add_0_r. apply quot_exact; lia.
  - assert (DE : n_d (local e) = n_d (local d)) by lia. apply time_sym in T.
    destruct (month_diff_exact e d c (n * q) Fe (eq_sym Z) ltac:(lia) DE I T) as (den & N & X). rewrite X. apply quot_exact; lia.
Qed.
Lemma added_fixed : forall d c k e, fixed (dt_z d) c -> add_duration d (Dur k 0 0) = Some e -> dt_t e = dt_t d + k * giga /\ dt_z e = dt_z d.
Proof.
  intros d c k e F A. pose proof (fixed_ok _ _ F) as K. unfold add_duration in A. cbn [du_seconds du_months du_years] in A. apply chain in A as (e2 & A2 & A3). apply chain in A2 as (e1 & A1 & A2).
  unfold add_seconds in A1. destruct (Z.abs _ <=? _); [|discriminate]. cbv zeta in A1. destruct (in_utc _); [|discriminate]. injection A1 as A1.
  assert (Z1 : dt_z e1 = dt_z d) by (rewrite <- A1; reflexivity). assert (K1 : zone_ok (dt_z e1)) by (rewrite Z1; exact K).
  destruct (map_step (move_months 0) e1 e2 K1 (keeps_months 0) A2) as [L2 Z2]. apply move_take in L2. rewrite (month_zero _ (local_clock e1)) in L2.
  assert (E2 : e2 = e1) by (apply (same_dt e2 e1 c); [rewrite Z2, Z1; exact F|exact Z2|exact L2]). subst e2. rewrite Z.add_0_r in A3.
  destruct ((- 2 ^ 31 <=? n_y (local e1)) && (n_y (local e1) <? 2 ^ 31)); [|discriminate]. destruct (map_step (with_year (n_y (local e1))) e1 e K1 (keeps_year _) A3) as [L3 Z3].
  unfold with_year in L3. apply (ymd_take _ _ _ _ _ (local_clock e1)) in L3. rewrite naive_eta in L3.
  assert (E3 : e = e1) by (apply (same_dt e e1 c); [rewrite Z3, Z1; exact F|exact Z3|exact L3]). rewrite E3. split; [|exact Z1]. rewrite <- A1. reflexivity.
Qed.
Lemma added_month : forall d c k e, fixed (dt_z d) c -> min_year + 1 <= n_y (local d) <= max_year - 1 -> add_duration d (Dur 0 k 0) = Some e -> local e = month_to k (local d) /\ dt_z e = dt_z d.
Proof.
  intros d c k e F M A. pose proof (fixed_ok _ _ F) as K. unfold add_duration in A. cbn [du_seconds du_months du_years] in A. rewrite (add_seconds_zero d) in A by (apply (mid_in d c F); exact M).
  unfold bind_o at 2 in A. apply chain in A as (e1 & A1 & A2). destruct (map_step (move_months k) d e1 K (keeps_months k) A1) as [L1 Z1]. apply move_take in L1.
  assert (K1 : zone_ok (dt_z e1)) by (rewrite Z1; exact K). rewrite Z.add_0_r in A2.
  destruct ((- 2 ^ 31 <=? n_y (local e1)) && (n_y (local e1) <? 2 ^ 31)); [|discriminate]. destruct (map_step (with_year (n_y (local e1))) e1 e K1 (keeps_year _) A2) as [L3 Z3].
  unfold with_year in L3. apply (ymd_take _ _ _ _ _ (local_clock e1)) in L3. rewrite naive_eta in L3. split; [congruence|]. rewrite Z3, Z1. reflexivity.
Qed.
Lemma added_year : forall d c k e, fixed (dt_z d) c -> min_year + 1 <= n_y (local d) <= max_year - 1 -> add_duration d (Dur 0 0 k) = Some e -> local e = year_to k (local d) /\ dt_z e = dt_z d.
Proof.
  intros d c k e F M A. pose proof (fixed_ok _ _ F) as K. unfold add_duration in A. cbn [du_seconds du_months du_years] in A. rewrite (add_seconds_zero d) in A by (apply (mid_in d c F); exact M).
  unfold bind_o at 2 in A. rewrite (add_months_zero d c F M) in A. unfold bind_o in A.
  destruct ((- 2 ^ 31 <=? n_y (local d) + k) && (n_y (local d) + k <? 2 ^ 31)); [|discriminate]. destruct (map_step (with_year (n_y (local d) + k)) d e K (keeps_year _) A) as [L3 Z3].
  unfold with_year in L3. apply (ymd_take _ _ _ _ _ (local_clock d)) in L3. split; [exact L3|exact Z3].
Qed.
Lemma fixed_diff : forall d e c n u, fixed (dt_z d) c -> dt_z e = dt_z d -> unit_kind u = KFixed -> dt_t e = dt_t d + n * du_seconds (unit_size u) * giga -> diff e d (Some u) = n.
Proof.
  intros d e c n u F Z KU T.
  assert (X : millis e - millis d = n * (du_seconds (unit_size u) * 1000)).
  { unfold millis. rewrite T. replace (dt_t d + n * du_seconds (unit_size u) * giga) with (dt_t d + (n * (du_seconds (unit_size u) * 1000)) * 1000000) by (unfold giga; lia). rewrite Z.div_add by lia. lia. }
  assert (O : offset d = offset e) by (unfold offset; rewrite Z, !(proj1 F); reflexivity).
  unfold diff. cbv zeta. rewrite O, Z.sub_diag, X, Z.mul_0_l, Z.sub_0_r. destruct u; try discriminate; cbn [unit_size du_seconds]; apply Z.quot_mul; lia.
Qed.
Lemma year_month : forall n x, clock_ok x -> date_ok (n_y x + n) (n_m x) (n_d x) -> year_to n x = month_to (n * 12) x.
Proof.
  intros n x K O. pose proof (clock_date x K) as [M _]. unfold month_to, year_to. cbv zeta. replace (n_y x * 12 + n_m x - 1 + n * 12) with ((n_y x + n) * 12 + n_m x - 1) by lia.
  destruct (index_split (n_y x + n) (n_m x) M) as [-> ->]. rewrite Z.min_l by apply O. reflexivity.
Qed.
Lemma year_to_ok : forall n x y, y = year_to n x -> clock_ok y -> date_ok (n_y x + n) (n_m x) (n_d x). Proof. intros n x y -> K. apply clock_date in K. exact K. Qed.
Lemma added_diff : forall C tz c t n u e, fixed (zone_of C tz) c -> mid_range (dt C t tz) -> mid_range (dt C (dt_t e) tz) -> add_duration (dt C t tz) (scaled n (unit_size u)) = Some e ->
  diff (dt C (dt_t e) tz) (dt C t tz) (Some u) = n.
Proof.
  intros C tz c t n u e F M M2 A. change (zone_of C tz) with (dt_z (dt C t tz)) in F.
  assert (R : min_year + 1 <= n_y (local (dt C t tz)) <= max_year - 1) by (unfold mid_range in M; lia).
  assert (DI : dt_z e = dt_z (dt C t tz) -> dt C (dt_t e) tz = e) by (intros Z; apply dt_is; exact Z).
  assert (R2 : dt_z e = dt_z (dt C t tz) -> min_year + 1 <= n_y (local e) <= max_year - 1) by (intros Z; rewrite (DI Z) in M2; unfold mid_range in M2; lia). clear M2.
  set (d := dt C t tz) in *. clearbody d. destruct (unit_kind u) eqn:KU.
  - assert (SU : scaled n (unit_size u) = Dur (n * du_seconds (unit_size u)) 0 0) by (destruct u; try discriminate; unfold scaled; cbn [unit_size du_seconds du_months du_years]; rewrite !Z.mul_0_r; reflexivity).
    rewrite SU in A. destruct (added_fixed d c _ e F A) as [T Z]. rewrite (DI Z). exact (fixed_diff d e c n u F Z KU T).
  - assert (SU : scaled n (unit_size u) = Dur 0 (n * du_months (unit_size u)) 0) by (destruct u; try discriminate; unfold scaled; cbn [unit_size du_seconds du_months du_years]; rewrite !Z.mul_0_r; reflexivity).
    rewrite SU in A. destruct (added_month d c _ e F R A) as [L Z]. rewrite (DI Z). specialize (R2 Z).
    unfold diff. cbv zeta. destruct u; try discriminate; cbn [unit_size du_months] in L; apply (exact_months e d c); assumption || lia.
  - assert (u = UYear) by (destruct u; try discriminate; reflexivity). subst u.
    unfold scaled in A. cbn [unit_size du_seconds du_months du_years] in A. rewrite !Z.mul_0_r, Z.mul_1_r in A.
    destruct (added_year d c _ e F R A) as [L Z]. rewrite (DI Z). specialize (R2 Z).
    assert (O : date_ok (n_y (local d) + n) (n_m (local d)) (n_d (local d))) by (exact (year_to_ok n (local d) (local e) L (local_clock e))).
    rewrite (year_month n _ (local_clock d) O) in L. unfold diff. cbv zeta. apply (exact_months e d c); assumption || lia.
Qed.
(** Fields. *)
Lemma weekday_means : forall x, 1 <= weekday x + 1 <= 7 /\ (7 | day_number (n_y x) (n_m x) (n_d x) - (4 + (weekday x + 1 - 1))).
Proof.
  intros x. unfold weekday. set (n := day_number (n_y x) (n_m x) (n_d x)). pose proof (Z.mod_pos_bound (n + 3) 7 ltac:(lia)). split; [lia|].
  exists ((n + 3) / 7 - 1). pose proof (Z.div_mod (n + 3) 7 ltac:(lia)). lia.
Qed.
Lemma quarter_means : forall x, clock_ok x -> 1 <= quarter x <= 4 /\ 3 * quarter x - 2 <= n_m x <= 3 * quarter x.
Proof. intros x K. apply clock_date in K as [M _]. rewrite quarter_third. destruct (third_ok (n_m x) M). lia. Qed.
Lemma ordinal_means : forall x, civil (day_number (n_y x) (n_m x) (n_d x) - (ordinal x - 1)) = (n_y x, 1, 1).
Proof.
  intros x. unfold ordinal. replace (day_number (n_y x) (n_m x) (n_d x) - (day_number (n_y x) (n_m x) (n_d x) - day_number (n_y x) 1 1 + 1 - 1)) with (day_number (n_y x) 1 1) by lia.
  apply civil_number, first_date. lia.
Qed.
Lemma week_means : forall x, exists th y m d, same_period UWeek x (Naive y m d 0 0 0 0) /\ civil th = (y, m, d) /\ day_number y m d = th /\ (7 | th) /\
    exists jan1, civil jan1 = (y, 1, 1) /\ jan1 + 7 * (iso_week x - 1) <= th < jan1 + 7 * iso_week x.
Proof.
  intros x. unfold iso_week. set (n := day_number (n_y x) (n_m x) (n_d x)). set (th := n - weekday x + 3). destruct (civil_split th) as (y & m & d & E & O & N).
  exists th, y, m, d. cbv zeta. fold th. rewrite E.
  assert (W : weekday x = (n + 3) mod 7) by reflexivity. pose proof (Z.div_mod (n + 3) 7 ltac:(lia)) as DM. pose proof (Z.mod_pos_bound (n + 3) 7 ltac:(lia)) as B. rewrite <- W in DM, B.
  split; [|split; [reflexivity|split; [exact N|split]]].
  - cbn [same_period n_y n_m n_d]. exists ((n + 3) / 7 - 1). fold n. rewrite N. unfold th. cbv zeta. lia.
  - exists ((n + 3) / 7). unfold th. lia.
  - exists (day_number y 1 1). split; [apply civil_number, first_date; lia|]. pose proof (Z.div_mod (th - day_number y 1 1) 7 ltac:(lia)). pose proof (Z.mod_pos_bound (th - day_number y 1 1) 7 ltac:(lia)). lia.
Qed.
(** Today. *)
Lemma same_day : forall C tz c t tz2 t2, fixed (zone_of C tz) c -> mid_range (dt C t tz) ->
  (vm_cmp is_same (Some (dt C t tz)) (Some (dt C t2 tz2)) (Some UDay) = true <-> same_period UDay (reading C t tz) (reading C t2 tz)).
Proof. intros C tz c t tz2 t2 F M. exact (same_iff (dt C t tz) (dt C t2 tz) UDay c F eq_refl M ltac:(discriminate)). Qed.
Lemma near_range : forall C tz c t p, fixed (zone_of C tz) c -> -86400 <= p <= 86400 -> min_year + 3 <= n_y (reading C t tz) <= max_year - 3 ->
  min_year + 2 <= n_y (reading C (t + p * giga) tz) <= max_year - 2.
Proof.
  intros C tz c t p F B R. set (x := reading C t tz) in *. set (y := reading C (t + p * giga) tz).
  pose proof (local_clock (dt C t tz)) as Kx. pose proof (local_clock (dt C (t + p * giga) tz)) as Ky. fold (reading C t tz) in Kx. fold (reading C (t + p * giga) tz) in Ky. fold x in Kx. fold y in Ky.
  pose proof (fixed_stamp (dt C t tz) c F) as Tx. pose proof (fixed_stamp (dt C (t + p * giga) tz) c F) as Ty. fold (reading C t tz) in Tx. fold (reading C (t + p * giga) tz) in Ty. fold x in Tx. fold y in Ty.
  cbn [dt dt_t] in Tx, Ty. destruct (day_stamp x Kx) as (rx & Bx & Sx). destruct (day_stamp y Ky) as (ry & By & Sy).
  pose proof (near_year _ _ _ _ _ _ (clock_date x Kx) (clock_date y Ky)) as N. unfold day_secs, giga in *. specialize (N ltac:(lia)). lia.
Qed.
Lemma today_means : forall C tz c c0 t, fixed (zone_of C tz) c -> fixed (zone_of C (c_sys C)) c0 -> mid_range (dt C t tz) -> min_year + 3 <= n_y (reading C (c_now C) (c_sys C)) <= max_year - 3 ->
  forall k p, In (k, p) [("isYesterday", -86400); ("isToday", 0); ("isTomorrow", 86400)] ->
  exists b, date_method C k [dv t tz] = Ok (VBool b) /\ (b = true <-> same_period UDay (reading C t tz) (reading C (c_now C + p * 1000000000) tz)).
Proof.
  intros C tz c c0 t F F0 M R k p I.
  assert (Add : forall q, -86400 <= q <= 86400 -> add_duration (dt C (c_now C) (c_sys C)) (Dur q 0 0) = Some (dt C (c_now C + q * giga) (c_sys C))).
  { intros q B. apply (add_secs _ c0); [exact F0|fold (reading C (c_now C) (c_sys C)); lia|reflexivity|]. pose proof (near_range C (c_sys C) c0 (c_now C) q F0 B R). fold (reading C (c_now C + q * giga) (c_sys C)). lia. }
  destruct I as [I|[I|[I|[]]]]; injection I as <- <-.
  - exists (vm_cmp is_same (Some (dt C t tz)) (add_duration (dt C (c_now C) (c_sys C)) (Dur (- 86400) 0 0)) (Some UDay)). split; [reflexivity|]. rewrite Add by lia. apply (same_day C tz c t (c_sys C) _ F M).
  - exists (vm_cmp is_same (Some (dt C t tz)) (Some (dt C (c_now C) (c_sys C))) (Some UDay)). split; [reflexivity|]. rewrite Z.mul_0_l, Z.add_0_r. apply (same_day C tz c t (c_sys C) _ F M).
  - exists (vm_cmp is_same (Some (dt C t tz)) (add_duration (dt C (c_now C) (c_sys C)) (Dur 86400 0 0)) (Some UDay)). split; [reflexivity|]. rewrite Add by lia. apply (same_day C tz c t (c_sys C) _ F M).
Qed.
(** Setting. *)
Lemma call_set : forall C t tz v s u, unit_named s = Some u -> 0 <= v < 2 ^ 32 -> date_method C "set" [dv t tz; VStr s; num v] = ret tz (set_unit (dt C t tz) v u).
Proof.
  intros C t tz v s u E B.
  change (date_method C "set" [dv t tz; VStr s; num v]) with (do u <- arg_unit [dv t tz; VStr s; num v] 1; do v <- of_option (dec_to_u32 (dec_of_Z v)) (EOp "Invalid duration value"); ret_date tz (set_unit (dt C t tz) v u)).
  unfold arg_unit. cbn [arg_str nth_error bind]. rewrite parse_named, E. cbn [of_option bind].
  assert (U : dec_to_u32 (dec_of_Z v) = Some v).
  { unfold dec_to_u32, dec_to_usize, dec_trunc, dec_of_Z. cbn [mant scale]. change (pow10 0) with 1. rewrite Z.quot_1_r. replace (v <? 0) with false by (symmetry; apply Z.ltb_ge; lia).
    replace (v <? 2 ^ 64) with true by (symmetry; apply Z.ltb_lt; lia). replace (v <? 2 ^ 32) with true by (symmetry; apply Z.ltb_lt; lia). reflexivity. }
  rewrite U. cbn [of_option bind]. apply ret_is.
Qed.

Definition put (i : nat) (v : Z) (x y : naive) : Prop := forall j, nth_error (fields y) j = if Nat.eqb i j then Some v else nth_error (fields x) j.
Ltac fields_of := intros j; do 8 (try destruct j as [|j]); reflexivity.
Lemma put_ymd : forall i v x y m d e, (forall z, z = Naive y m d (n_h x) (n_mi x) (n_s x) (n_ns x) -> put i v x z) -> with_ymd x y m d = Some e -> put i v x e.
Proof. intros i v x y m d e H. unfold with_ymd. intros E. apply some_if in E as [_ E]. apply H. exact E. Qed.
Lemma put_year : forall v x e, with_year v x = Some e -> put 0 v x e. Proof. intros v x e. apply put_ymd. intros z ->. fields_of. Qed.
Lemma put_month : forall v x e, with_month v x = Some e -> put 1 v x e. Proof. intros v x e. apply put_ymd. intros z ->. fields_of. Qed.
Lemma put_day : forall v x e, with_day v x = Some e -> put 2 v x e. Proof. intros v x e. apply put_ymd. intros z ->. fields_of. Qed.
Lemma put_hour : forall v x e, with_hour v x = Some e -> put 3 v x e. Proof. intros v x e E. apply some_if in E as [_ ->]. fields_of. Qed.
Lemma put_minute : forall v x e, with_minute v x = Some e -> put 4 v x e. Proof. intros v x e E. apply some_if in E as [_ ->]. fields_of. Qed.
Lemma put_second : forall v x e, with_second v x = Some e -> put 5 v x e. Proof. intros v x e E. apply some_if in E as [_ ->]. fields_of. Qed.
Lemma set_means : forall C tz t u v e, zone_ok (zone_of C tz) -> set_unit (dt C t tz) v u = Some e ->
  match field_of u with
  | Some i => forall j, nth_error (fields (reading C (dt_t e) tz)) j = if Nat.eqb i j then Some v else nth_error (fields (reading C t tz)) j
  | None => dt_t e = t
  end.
Proof.
  intros C tz t u v e K A.
  assert (Step : forall i f, keeps f -> (forall x y, f x = Some y -> put i v x y) -> map_local f (dt C t tz) = Some e -> put i v (reading C t tz) (reading C (dt_t e) tz)).
  { intros i f Kf P E. destruct (map_step f (dt C t tz) e K Kf E) as [L Z]. apply P in L. unfold reading at 2. rewrite (dt_is C tz e Z). exact L. }
  unfold set_unit in A. destruct u; cbn [field_of].
  - exact (Step 5%nat _ (keeps_second v) (put_second v) A).
  - exact (Step 4%nat _ (keeps_minute v) (put_minute v) A).
  - exact (Step 3%nat _ (keeps_hour v) (put_hour v) A).
  - exact (Step 2%nat _ (keeps_day v) (put_day v) A).
  - injection A as A. rewrite <- A. reflexivity.
  - exact (Step 1%nat _ (keeps_month v) (put_month v) A).
  - injection A as A. rewrite <- A. reflexivity.
  - destruct (v <? 2 ^ 31); [|discriminate]. exact (Step 0%nat _ (keeps_year v) (put_year v) A).
Qed.
Lemma fields_inj : forall x y, (forall j, nth_error (fields x) j = nth_error (fields y) j) -> x = y.
Proof.
  intros [a b c d e f g] [a2 b2 c2 d2 e2 f2 g2] H. pose proof (H 0%nat) as H0. pose proof (H 1%nat) as H1. pose proof (H 2%nat) as H2. pose proof (H 3%nat) as H3.
  pose proof (H 4%nat) as H4. pose proof (H 5%nat) as H5. pose proof (H 6%nat) as H6. cbn in *. congruence.
Qed.
Lemma put_fun : forall i v x y z, put i v x y -> put i v x z -> y = z. Proof. intros i v x y z A B. apply fields_inj. intros j. rewrite (A j), (B j). reflexivity. Qed.
Lemma make_year : forall v x z, put 0 v x z -> clock_ok z -> min_year <= n_y z <= max_year -> with_year v x = Some z.
Proof.
  intros v x z P K R. assert (E : Naive v (n_m x) (n_d x) (n_h x) (n_mi x) (n_s x) (n_ns x) = z) by (apply (put_fun 0 v x); [fields_of|exact P]). apply clock_date in K. rewrite <- E in K, R. cbn [n_y n_m n_d] in K, R. unfold with_year. rewrite (ymd_make x _ _ _ K R), E. reflexivity.
Qed.
Lemma make_month : forall v x z, put 1 v x z -> clock_ok z -> min_year <= n_y z <= max_year -> with_month v x = Some z.
Proof.
  intros v x z P K R. assert (E : Naive (n_y x) v (n_d x) (n_h x) (n_mi x) (n_s x) (n_ns x) = z) by (apply (put_fun 1 v x); [fields_of|exact P]). apply clock_date in K. rewrite <- E in K, R. cbn [n_y n_m n_d] in K, R. unfold with_month. rewrite (ymd_make x _ _ _ K R), E. reflexivity.
Qed.
Lemma make_day : forall v x z, put 2 v x z -> clock_ok z -> min_year <= n_y z <= max_year -> with_day v x = Some z.
Proof.
  intros v x z P K R. assert (E : Naive (n_y x) (n_m x) v (n_h x) (n_mi x) (n_s x) (n_ns x) = z) by (apply (put_fun 2 v x); [fields_of|exact P]). apply clock_date in K. rewrite <- E in K, R. cbn [n_y n_m n_d] in K, R. unfold with_day. rewrite (ymd_make x _ _ _ K R), E. reflexivity.
Qed.
Lemma make_time : forall v x z, clock_ok z -> (put 3 v x z -> with_hour v x = Some z) /\ (put 4 v x z -> with_minute v x = Some z) /\ (put 5 v x z -> with_second v x = Some z).
Proof.
  intros v x z K. apply clock_iff in K as (_ & H1 & H2 & H3 & _). repeat split; intros P.
  - assert (E : Naive (n_y x) (n_m x) (n_d x) v (n_mi x) (n_s x) (n_ns x) = z) by (apply (put_fun 3 v x); [fields_of|exact P]). rewrite <- E in H1. cbn [n_h] in H1. unfold with_hour.
    replace ((0 <=? v) && (v <? 24)) with true; [rewrite E; reflexivity|]. symmetry. apply andb_true_intro. rewrite Z.leb_le, Z.ltb_lt. lia.
  - assert (E : Naive (n_y x) (n_m x) (n_d x) (n_h x) v (n_s x) (n_ns x) = z) by (apply (put_fun 4 v x); [fields_of|exact P]). rewrite <- E in H2. cbn [n_mi] in H2. unfold with_minute.
    replace ((0 <=? v) && (v <? 60)) with true; [rewrite E; reflexivity|]. symmetry. apply andb_true_intro. rewrite Z.leb_le, Z.ltb_lt. lia.
  - assert (E : Naive (n_y x) (n_m x) (n_d x) (n_h x) (n_mi x) v (n_ns x) = z) by (apply (put_fun 5 v x); [fields_of|exact P]). rewrite <- E in H3. cbn [n_s] in H3. unfold with_second.
    replace ((0 <=? v) && (v <? 60)) with true; [rewrite E; reflexivity|]. symmetry. apply andb_true_intro. rewrite Z.leb_le, Z.ltb_lt. lia.
Qed.
Lemma set_exists : forall C tz c t u v x2, fixed (zone_of C tz) c -> mid_range (dt C t tz) -> min_year + 1 <= n_y x2 <= max_year - 1 ->
  (forall j, nth_error (fields x2) j = match field_of u with Some i => if Nat.eqb i j then Some v else nth_error (fields (reading C t tz)) j | None => nth_error (fields (reading C t tz)) j end) ->
  clock_ok x2 -> exists e, set_unit (dt C t tz) v u = Some e /\ local e = x2 /\ dt_z e = zone_of C tz.
Proof.
  intros C tz c t u v x2 F M R H K. assert (RR : min_year <= n_y x2 <= max_year) by lia. set (d := dt C t tz) in *. fold (reading C t tz) in *.
  assert (Step : forall f, keeps f -> f (local d) = Some x2 -> exists e, map_local f d = Some e /\ local e = x2 /\ dt_z e = zone_of C tz) by (intros f Kf E; exact (map_make f d c x2 F Kf E R)).
  unfold set_unit. destruct (make_time v (local d) x2 K) as (T1 & T2 & T3). destruct u; cbn [field_of] in H.
  - apply (Step _ (keeps_second v)), T3. exact H.
  - apply (Step _ (keeps_minute v)), T2. exact H.
  - apply (Step _ (keeps_hour v)), T1. exact H.
  - apply (Step _ (keeps_day v)), make_day; [exact H|exact K|exact RR].
  - exists d. split; [reflexivity|]. split; [|reflexivity]. symmetry. apply fields_inj. exact H.
  - apply (Step _ (keeps_month v)), make_month; [exact H|exact K|exact RR].
  - exists d. split; [reflexivity|]. split; [|reflexivity]. symmetry. apply fields_inj. exact H.
  - pose proof (H 0%nat) as H0. cbn in H0. injection H0 as H0. rewrite H0 in R. replace (v <? 2 ^ 31) with true by (symmetry; apply Z.ltb_lt; unfold max_year in R; lia).
    rewrite <- H0 in R. apply (Step _ (keeps_year v)), make_year; [exact H|exact K|exact RR].
Qed.

Lemma year_parts : forall n x y, y = year_to n x -> n_y y = n_y x + n /\ tl (fields y) = tl (fields x). Proof. intros n x y ->. split; reflexivity. Qed.
Lemma year_undo : forall n x, year_to (- n) (year_to n x) = x. Proof. intros n [y m d h mi s ns]. unfold year_to. cbn [n_y n_m n_d n_h n_mi n_s n_ns]. f_equal. lia. Qed.
Lemma year_round : forall d c n, fixed (dt_z d) c -> mid_range d -> min_year + 2 <= n_y (local d) + n <= max_year - 2 -> (n_m (local d) = 2 -> n_d (local d) = 29 -> leap_year (n_y (local d) + n)) ->
  exists e, add_duration d (Dur 0 0 n) = Some e /\ local e = year_to n (local d) /\ dt_z e = dt_z d /\ add_duration e (Dur 0 0 (- n)) = Some d.
Proof.
  intros d c n F M R L. unfold mid_range in M. pose proof (clock_date _ (local_clock d)) as O.
  destruct (add_year_make d c n F (other_year _ n O L) ltac:(lia)) as (e & A & Le & Z). assert (Fe : fixed (dt_z e) c) by (rewrite Z; exact F).
  assert (YE : n_y (local e) = n_y (local d) + n /\ n_m (local e) = n_m (local d) /\ n_d (local e) = n_d (local d)) by (rewrite Le; cbn [year_to n_y n_m n_d]; auto). destruct YE as (Y1 & Y2 & Y3).
  exists e. rewrite (add_year d c n F) by lia. split; [exact A|]. split; [exact Le|]. split; [exact Z|].
  rewrite (add_year e c (- n) Fe) by lia. destruct (add_year_make e c (- n) Fe) as (f & A2 & L2 & Z2); [rewrite Y1, Y2, Y3; replace (n_y (local d) + n + - n) with (n_y (local d)) by lia; exact O|lia|].
  rewrite A2. f_equal. apply (same_dt f d c); [rewrite Z2; exact Fe|congruence|]. rewrite L2, Le. apply year_undo.
Qed.
