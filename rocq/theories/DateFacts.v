(** Dates. *)
From Coq Require Import String Ascii ZArith Lia Bool List Arith.
From Verif Require Import Base Dec Value Duration Dates CalendarFacts DateSpec.
Import ListNotations.
Local Open Scope Z_scope.

(** ** The specification of the calendar. *)
Lemma leap_iff : forall y, leap y = true <-> leap_year y.
Proof.
  intros y. unfold leap, leap_year. assert (D : forall k, 0 < k -> (y mod k =? 0) = true <-> (k | y)) by (intros k P; rewrite Z.eqb_eq; apply Z.mod_divide; lia).
  assert (H : (400 | y) -> (4 | y)) by (intros [q ->]; exists (q * 100); lia).
  rewrite andb_true_iff, orb_true_iff, negb_true_iff. rewrite !D by lia. assert (N : (y mod 100 =? 0) = false <-> ~ (100 | y)) by (rewrite <- D by lia; now rewrite not_true_iff_false). rewrite N. tauto.
Qed.
Lemma mdays_iff : forall y m n, 1 <= m <= 12 -> (month_length y m n <-> mdays y m = n).
Proof.
  intros y m n M. split.
  - intros L. inversion L as [? ? I0|? ? I0|? Lp|? Lp]; subst; unfold mdays.
    + cbn in I0. repeat (destruct I0 as [<-|I0]; [reflexivity|]). destruct I0.
    + cbn in I0. repeat (destruct I0 as [<-|I0]; [reflexivity|]). destruct I0.
    + cbn. apply leap_iff in Lp. now rewrite Lp.
    + cbn. destruct (leap y) eqn:E; [apply leap_iff in E; tauto|reflexivity].
  - intros <-. destruct (leap y) eqn:E.
    + pose proof (proj1 (leap_iff y) E). months M; unfold mdays; cbn; rewrite ?E; try (apply Long; cbn; tauto); try (apply Short; cbn; tauto). now apply Feb29.
    + assert (~ leap_year y) by (rewrite <- leap_iff; congruence). months M; unfold mdays; cbn; rewrite ?E; try (apply Long; cbn; tauto); try (apply Short; cbn; tauto). now apply Feb28.
Qed.
Lemma length_month : forall y m n, month_length y m n -> 1 <= m <= 12.
Proof. intros y m n L. inversion L as [? ? I0|? ? I0| |]; subst; try lia; cbn in I0; lia. Qed.
Lemma date_iff : forall y m d, date_ok y m d <-> exists n, month_length y m n /\ 1 <= d <= n.
Proof.
  intros y m d. split.
  - intros [M D]. exists (mdays y m). split; [now apply mdays_iff|exact D].
  - intros (n & L & D). pose proof (length_month _ _ _ L) as M. split; [exact M|]. apply mdays_iff in L; [|exact M]. lia.
Qed.
Lemma civil_step : forall n, next_day (civil n) (civil (n + 1)).
Proof.
  intros n. destruct (civil n) as [[y m] d] eqn:E. destruct (number_civil _ _ _ _ E) as [[M D] N].
  assert (F : forall y2 m2 d2, date_ok y2 m2 d2 -> day_number y2 m2 d2 = n + 1 -> civil (n + 1) = (y2, m2, d2)) by (intros y2 m2 d2 K <-; now apply civil_number).
  destruct (Z.eq_dec d (mdays y m)) as [->|Nd].
  - destruct (Z.eq_dec m 12) as [->|Nm].
    + rewrite (F (y + 1) 1 1); [apply NextYear| |].
      * split; [lia|]. pose proof (mdays_bounds (y + 1) 1). lia.
      * unfold day_number in *. rewrite year_next, month_first. pose proof (month_end y). lia.
    + rewrite (F y (m + 1) 1); [apply NextMonth; [now apply mdays_iff|lia]| |].
      * split; [lia|]. pose proof (mdays_bounds y (m + 1)). lia.
      * unfold day_number in *. rewrite month_next by lia. lia.
  - rewrite (F y m (d + 1)); [apply (NextInMonth y m d (mdays y m)); [now apply mdays_iff|lia]| |]; [split; lia|unfold day_number in *; lia].
Qed.

(** ** Readings of the clock. *)
Definition stamp (x : naive) : Z := naive_secs x * giga + n_ns x.
Lemma clock_iff : forall x, clock_ok x <-> date_ok (n_y x) (n_m x) (n_d x) /\ 0 <= n_h x < 24 /\ 0 <= n_mi x < 60 /\ 0 <= n_s x < 60 /\ 0 <= n_ns x < giga.
Proof. intros x. unfold clock_ok. now rewrite date_iff. Qed.
Lemma time_split : forall t, 0 <= t < day_secs -> exists h mi s, t = h * 3600 + mi * 60 + s /\ 0 <= h < 24 /\ 0 <= mi < 60 /\ 0 <= s < 60 /\ t / 3600 = h /\ (t / 60) mod 60 = mi /\ t mod 60 = s.
Proof.
  intros t B. unfold day_secs in B. exists (t / 3600), ((t / 60) mod 60), (t mod 60). pose proof (Z.div_mod t 60 ltac:(lia)). pose proof (Z.mod_pos_bound t 60 ltac:(lia)). pose proof (Z.div_mod (t / 60) 60 ltac:(lia)). pose proof (Z.mod_pos_bound (t / 60) 60 ltac:(lia)).
  rewrite (Z.div_div t 60 60) in * by lia. change (60 * 60) with 3600 in *. lia.
Qed.
Lemma naive_of_ok : forall s ns, 0 <= ns < giga -> clock_ok (naive_of s ns) /\ naive_secs (naive_of s ns) = s /\ n_ns (naive_of s ns) = ns.
Proof.
  intros s ns B. unfold naive_of. destruct (civil (s / day_secs)) as [[y m] d] eqn:E. destruct (number_civil _ _ _ _ E) as [K N].
  destruct (time_split (s mod day_secs)) as (h & mi & sc & T & H1 & H2 & H3 & -> & -> & ->); [apply Z.mod_pos_bound; unfold day_secs; lia|].
  rewrite clock_iff. cbn. unfold naive_secs. cbn. rewrite N. pose proof (Z.div_mod s day_secs ltac:(unfold day_secs; lia)). split; [tauto|]. split; [lia|reflexivity].
Qed.
Lemma secs_parts : forall x, clock_ok x -> naive_secs x / day_secs = day_number (n_y x) (n_m x) (n_d x) /\ naive_secs x mod day_secs = n_h x * 3600 + n_mi x * 60 + n_s x.
Proof.
  intros x K. apply clock_iff in K as (_ & H1 & H2 & H3 & _). unfold naive_secs. set (D := day_number _ _ _). set (t := n_h x * 3600 + n_mi x * 60 + n_s x). assert (0 <= t < day_secs) by (unfold t, day_secs; lia).
  replace (D * day_secs + n_h x * 3600 + n_mi x * 60 + n_s x) with (t + D * day_secs) by (unfold t; lia). rewrite Z.div_add, Z.mod_add by (unfold day_secs; lia). rewrite Z.div_small, Z.mod_small by assumption. lia.
Qed.
Lemma naive_back : forall x, clock_ok x -> naive_of (naive_secs x) (n_ns x) = x.
Proof.
  intros x K. destruct (secs_parts x K) as [E1 E2]. apply clock_iff in K as (Kd & H1 & H2 & H3 & _). unfold naive_of. rewrite E1, E2, (civil_number _ _ _ Kd).
  destruct (time_split (n_h x * 3600 + n_mi x * 60 + n_s x)) as (h & mi & s & T & B1 & B2 & B3 & -> & -> & ->); [unfold day_secs; lia|]. destruct x; cbn in *. f_equal; lia.
Qed.
Lemma stamp_lt : forall x y, clock_ok x -> clock_ok y -> (stamp x < stamp y <-> earlier x y).
Proof.
  intros x y K K2. apply clock_iff in K as (Kd & H1 & H2 & H3 & H4). apply clock_iff in K2 as (Kd2 & G1 & G2 & G3 & G4). unfold stamp, naive_secs, earlier, fields. cbn [lex].
  pose proof (number_lt _ _ _ _ _ _ Kd Kd2) as L. pose proof (number_lt _ _ _ _ _ _ Kd2 Kd) as L2.
  assert (E : n_y x = n_y y -> n_m x = n_m y -> n_d x = n_d y -> day_number (n_y x) (n_m x) (n_d x) = day_number (n_y y) (n_m y) (n_d y)) by congruence.
  set (D := day_number (n_y x) _ _) in *. set (D2 := day_number (n_y y) _ _) in *. unfold day_secs, giga in *. lia.
Qed.
Lemma split_giga : forall a b p q, 0 <= p < giga -> 0 <= q < giga -> a * giga + p = b * giga + q -> a = b /\ p = q.
Proof. unfold giga. intros a b p q. lia. Qed.
Lemma stamp_eq : forall x, stamp x = naive_secs x * giga + n_ns x.
Proof. reflexivity. Qed.
Lemma stamp_inj : forall x y, clock_ok x -> clock_ok y -> stamp x = stamp y -> x = y.
Proof.
  intros x y K K2 E. pose proof (naive_back x K) as Ex. pose proof (naive_back y K2) as Ey. apply clock_iff in K as (_ & _ & _ & _ & H4). apply clock_iff in K2 as (_ & _ & _ & _ & G4). rewrite !stamp_eq in E. apply split_giga in E as [A B]; [|exact H4|exact G4]. rewrite <- Ex. rewrite A, B. exact Ey.
Qed.

(** ** Dates in a zone. *)
Lemma local_ok : forall d, clock_ok (local d) /\ naive_secs (local d) = dt_secs d + offset d /\ n_ns (local d) = dt_ns d.
Proof. intros d. apply naive_of_ok. apply Z.mod_pos_bound. unfold giga. lia. Qed.
Lemma local_stamp : forall d, stamp (local d) = dt_t d + offset d * giga.
Proof. intros d. destruct (local_ok d) as (_ & E1 & E2). unfold stamp. rewrite E1, E2. unfold dt_secs, dt_ns. pose proof (Z.div_mod (dt_t d) giga ltac:(unfold giga; lia)). lia. Qed.
Lemma to_zone_local : forall z x d, zone_ok z -> clock_ok x -> to_zone z x = Some d -> local d = x /\ dt_z d = z.
Proof.
  intros z x d Z0 K E. unfold to_zone in E. destruct (z_local z (naive_secs x)) as [|u [|? ?]] eqn:L; try discriminate. cbn zeta in E. destruct (in_utc _); [|discriminate]. injection E as <-. split; [|reflexivity].
  pose proof (proj1 (clock_iff x) K) as (_ & _ & _ & _ & B). unfold local, offset, dt_secs, dt_ns. cbn [dt_t dt_z]. assert (Eu : (u * giga + n_ns x) / giga = u) by (rewrite Z.add_comm, Z.div_add, Z.div_small by (unfold giga in *; lia); lia).
  assert (En : (u * giga + n_ns x) mod giga = n_ns x) by (rewrite Z.add_comm, Z.mod_add, Z.mod_small by (unfold giga in *; lia); reflexivity). rewrite Eu, En, (Z0 _ _ L). now apply naive_back.
Qed.
Lemma map_local_ok : forall f d e, zone_ok (dt_z d) -> map_local f d = Some e -> (forall x, f (local d) = Some x -> clock_ok x) -> f (local d) = Some (local e) /\ dt_z e = dt_z d.
Proof. intros f d e Z0 E K. unfold map_local in E. destruct (f (local d)) as [x|] eqn:F; [|discriminate]. cbn [bind_o] in E. destruct (to_zone_local _ _ _ Z0 (K _ eq_refl) E) as [-> ->]. auto. Qed.
Lemma fixed_ok : forall z c, fixed z c -> zone_ok z.
Proof. intros z c (H1 & H2 & _) l t E. rewrite H2 in E. injection E as <-. rewrite H1. lia. Qed.
Lemma fixed_stamp : forall d c, fixed (dt_z d) c -> dt_t d = stamp (local d) - c * giga.
Proof. intros d c (H1 & _). rewrite local_stamp. unfold offset. rewrite H1. lia. Qed.
Lemma year_gap : forall y m d k, date_ok y m d -> k < y -> day_number (k + 1) 1 1 <= day_number y m d.
Proof. intros y m d k K L. pose proof (day_in_year _ _ _ K). unfold day_number at 1. rewrite month_first. destruct (Z.eq_dec y (k + 1)) as [->|N]; [lia|]. pose proof (year_mono (k + 1) y ltac:(lia)). pose proof (year_next (k + 1)). pose proof (year_days_pos (k + 1)). lia. Qed.
Lemma in_range : forall x c, clock_ok x -> -86400 <= c <= 86400 -> min_year + 1 <= n_y x <= max_year - 1 -> in_utc (stamp x - c * giga) = true.
Proof.
  intros x c K Bc B. destruct (secs_parts x K) as [_ _]. apply clock_iff in K as (Kd & H1 & H2 & H3 & H4). pose proof (day_in_year _ _ _ Kd) as Y. unfold in_utc, min_utc, max_utc, stamp, naive_secs. set (D := day_number (n_y x) (n_m x) (n_d x)) in *.
  assert (A1 : day_number min_year 1 1 + 1 <= D). { pose proof (year_next min_year). pose proof (year_days_pos min_year). unfold D, day_number at 1. rewrite month_first. destruct (Z.eq_dec (n_y x) (min_year + 1)) as [E|N]; [rewrite <- E in *; lia|]. pose proof (year_mono (min_year + 1) (n_y x) ltac:(lia)) as Q. pose proof (year_next (min_year + 1)). pose proof (year_days_pos (min_year + 1)). lia. }
  assert (A2 : D + 1 <= day_number max_year 12 31). { pose proof (year_next max_year). pose proof (year_days_pos max_year). unfold day_number at 1. pose proof (month_end max_year) as Me. change (mdays max_year 12) with 31 in Me. pose proof (year_mono (n_y x) max_year ltac:(lia)). lia. }
  apply andb_true_intro. unfold day_secs, giga in *. split; apply Z.leb_le; lia.
Qed.
Lemma step : forall f d c x, fixed (dt_z d) c -> f (local d) = Some x -> clock_ok x -> min_year + 1 <= n_y x <= max_year - 1 -> exists e, map_local f d = Some e /\ local e = x /\ dt_z e = dt_z d.
Proof.
  intros f d c x F E K B. unfold map_local. rewrite E. cbn [bind_o]. pose proof F as (H1 & H2 & Bc). unfold to_zone. rewrite H2. cbn zeta.
  replace ((naive_secs x - c) * giga + n_ns x) with (stamp x - c * giga) by (unfold stamp; lia). rewrite (in_range x c K Bc B).
  eexists. split; [reflexivity|]. split; [|reflexivity]. apply (to_zone_local (dt_z d) x); [eapply fixed_ok; eauto|exact K|]. unfold to_zone. rewrite H2. cbn zeta.
  replace ((naive_secs x - c) * giga + n_ns x) with (stamp x - c * giga) by (unfold stamp; lia). now rewrite (in_range x c K Bc B).
Qed.

(** ** What the functions do to the clock. *)
Definition keeps (f : naive -> option naive) : Prop := forall x y, clock_ok x -> f x = Some y -> clock_ok y.
Lemma ymd_iff : forall y m d, ymd_ok y m d = true <-> date_ok y m d /\ min_year <= y <= max_year.
Proof. intros y m d. unfold ymd_ok, date_ok. rewrite !andb_true_iff, !Z.leb_le. tauto. Qed.
Lemma keeps_ymd : forall x y m d e, clock_ok x -> with_ymd x y m d = Some e -> clock_ok e /\ e = Naive y m d (n_h x) (n_mi x) (n_s x) (n_ns x).
Proof. intros x y m d e K E. unfold with_ymd in E. destruct (ymd_ok y m d) eqn:O; [|discriminate]. injection E as <-. apply ymd_iff in O as [O _]. apply clock_iff in K as (_ & K). split; [apply clock_iff; cbn; tauto|reflexivity]. Qed.
Lemma keeps_day : forall k, keeps (with_day k). Proof. intros k x y K E. exact (proj1 (keeps_ymd _ _ _ _ _ K E)). Qed.
Lemma keeps_month : forall k, keeps (with_month k). Proof. intros k x y K E. exact (proj1 (keeps_ymd _ _ _ _ _ K E)). Qed.
Lemma keeps_year : forall k, keeps (with_year k). Proof. intros k x y K E. exact (proj1 (keeps_ymd _ _ _ _ _ K E)). Qed.
Lemma keeps_days : forall k, keeps (move_days k). Proof. intros k x y K. unfold move_days. destruct (civil (day_number (n_y x) (n_m x) (n_d x) + k)) as [[a b] c]. intros E. exact (proj1 (keeps_ymd _ _ _ _ _ K E)). Qed.
Lemma keeps_months : forall k, keeps (move_months k). Proof. intros k x y K. unfold move_months. cbv zeta. intros E. exact (proj1 (keeps_ymd _ _ _ _ _ K E)). Qed.
Lemma some_if : forall (b : bool) (x y : naive), (if b then Some x else None) = Some y -> b = true /\ y = x.
Proof. intros [|] x y E; [injection E as <-; auto|discriminate]. Qed.
Lemma range_iff : forall k n, (0 <=? k) && (k <? n) = true -> 0 <= k < n.
Proof. intros k n H. apply andb_prop in H as [A B]. apply Z.leb_le in A. apply Z.ltb_lt in B. lia. Qed.
Ltac keeps_time := intros k x y K E; apply clock_iff in K as (K1 & K2 & K3 & K4 & K5); apply clock_iff; apply some_if in E as [R ->]; apply range_iff in R; cbn [n_y n_m n_d n_h n_mi n_s n_ns]; auto.
Lemma keeps_hour : forall k, keeps (with_hour k). Proof. keeps_time. Qed.
Lemma keeps_minute : forall k, keeps (with_minute k). Proof. keeps_time. Qed.
Lemma keeps_second : forall k, keeps (with_second k). Proof. keeps_time. Qed.
Lemma keeps_nano : forall k, keeps (with_nano k). Proof. keeps_time. Qed.
#[export] Hint Resolve keeps_day keeps_month keeps_year keeps_days keeps_months keeps_hour keeps_minute keeps_second keeps_nano : keep.
Lemma local_clock : forall d, clock_ok (local d). Proof. intros d. apply local_ok. Qed.
Lemma map_step : forall f d e, zone_ok (dt_z d) -> keeps f -> map_local f d = Some e -> f (local d) = Some (local e) /\ dt_z e = dt_z d.
Proof. intros f d e Z0 K E. apply map_local_ok; [exact Z0|exact E|]. intros x F. eapply K; [apply local_clock|exact F]. Qed.
Lemma map_make : forall f d c x, fixed (dt_z d) c -> keeps f -> f (local d) = Some x -> min_year + 1 <= n_y x <= max_year - 1 -> exists e, map_local f d = Some e /\ local e = x /\ dt_z e = dt_z d.
Proof. intros f d c x F K E B. eapply step; eauto. eapply K; [apply local_clock|exact E]. Qed.
Lemma chain : forall (o : option datetime) (g : datetime -> option datetime) s, o >>= g = Some s -> exists e, o = Some e /\ g e = Some s.
Proof. intros [e|] g s E; [eauto|discriminate]. Qed.
Lemma some_inj : forall a b : naive, Some a = Some b -> a = b.
Proof. intros a b E. injection E as E. exact E. Qed.
Definition day_start (x : naive) : naive := Naive (n_y x) (n_m x) (n_d x) 0 0 0 0.
Definition day_end (x : naive) : naive := Naive (n_y x) (n_m x) (n_d x) 23 59 59 (n_ns x).
Lemma midnight_local : forall d s, zone_ok (dt_z d) -> midnight d = Some s -> local s = day_start (local d) /\ dt_z s = dt_z d.
Proof.
  intros d s Z0 E. unfold midnight in E. apply chain in E as (e3 & E & E4). apply chain in E as (e2 & E & E3). apply chain in E as (e1 & E1 & E2).
  apply map_step in E1 as [F1 Q1]; auto with keep. rewrite <- Q1 in Z0. apply map_step in E2 as [F2 Q2]; auto with keep. rewrite <- Q2 in Z0. apply map_step in E3 as [F3 Q3]; auto with keep. rewrite <- Q3 in Z0. apply map_step in E4 as [F4 Q4]; auto with keep.
  split; [|congruence]. apply some_inj in F1. rewrite <- F1 in F2. apply some_inj in F2. rewrite <- F2 in F3. apply some_inj in F3. rewrite <- F3 in F4. apply some_inj in F4. now rewrite <- F4.
Qed.
Lemma last_local : forall d s, zone_ok (dt_z d) -> last_second d = Some s -> local s = day_end (local d) /\ dt_z s = dt_z d.
Proof.
  intros d s Z0 E. unfold last_second in E. apply chain in E as (e2 & E & E3). apply chain in E as (e1 & E1 & E2).
  apply map_step in E1 as [F1 Q1]; auto with keep. rewrite <- Q1 in Z0. apply map_step in E2 as [F2 Q2]; auto with keep. rewrite <- Q2 in Z0. apply map_step in E3 as [F3 Q3]; auto with keep.
  split; [|congruence]. apply some_inj in F1. rewrite <- F1 in F2. apply some_inj in F2. rewrite <- F2 in F3. apply some_inj in F3. now rewrite <- F3.
Qed.
Lemma midnight_make : forall d c, fixed (dt_z d) c -> min_year + 1 <= n_y (local d) <= max_year - 1 -> exists s, midnight d = Some s /\ local s = day_start (local d) /\ dt_z s = dt_z d.
Proof.
  intros d c F B. unfold midnight. destruct (map_make (with_hour 0) d c _ F ltac:(auto with keep) eq_refl B) as (e1 & -> & L1 & Q1). cbn [bind_o]. rewrite <- Q1 in F.
  destruct (map_make (with_minute 0) e1 c _ F ltac:(auto with keep) eq_refl ltac:(rewrite L1; exact B)) as (e2 & -> & L2 & Q2). cbn [bind_o]. rewrite <- Q2 in F.
  destruct (map_make (with_second 0) e2 c _ F ltac:(auto with keep) eq_refl ltac:(rewrite L2, L1; exact B)) as (e3 & -> & L3 & Q3). cbn [bind_o]. rewrite <- Q3 in F.
  destruct (map_make (with_nano 0) e3 c _ F ltac:(auto with keep) eq_refl ltac:(rewrite L3, L2, L1; exact B)) as (e4 & -> & L4 & Q4). exists e4. split; [reflexivity|]. split; [|congruence]. rewrite L4, L3, L2, L1. reflexivity.
Qed.
Lemma last_make : forall d c, fixed (dt_z d) c -> min_year + 1 <= n_y (local d) <= max_year - 1 -> exists s, last_second d = Some s /\ local s = day_end (local d) /\ dt_z s = dt_z d.
Proof.
  intros d c F B. unfold last_second. destruct (map_make (with_hour 23) d c _ F ltac:(auto with keep) eq_refl B) as (e1 & -> & L1 & Q1). cbn [bind_o]. rewrite <- Q1 in F.
  destruct (map_make (with_minute 59) e1 c _ F ltac:(auto with keep) eq_refl ltac:(rewrite L1; exact B)) as (e2 & -> & L2 & Q2). cbn [bind_o]. rewrite <- Q2 in F.
  destruct (map_make (with_second 59) e2 c _ F ltac:(auto with keep) eq_refl ltac:(rewrite L2, L1; exact B)) as (e3 & -> & L3 & Q3). exists e3. split; [reflexivity|]. split; [|congruence]. rewrite L3, L2, L1. reflexivity.
Qed.
(** The first and the last reading of a period. *)
Definition third (m : Z) : Z := (m - 1) / 3.
Definition on_day (n : Z) (h mi s ns : Z) : naive := let '(y, m, d) := civil n in Naive y m d h mi s ns.
Definition first_of (u : dunit) (x : naive) : naive :=
  let 'Naive y m d h mi s _ := x in
  match u with
  | USecond => Naive y m d h mi s 0
  | UMinute => Naive y m d h mi 0 0
  | UHour => Naive y m d h 0 0 0
  | UDay => Naive y m d 0 0 0 0
  | UWeek => on_day (day_number y m d - weekday x) 0 0 0 0
  | UMonth => Naive y m 1 0 0 0 0
  | UQuarter => Naive y (3 * third m + 1) 1 0 0 0 0
  | UYear => Naive y 1 1 0 0 0 0
  end.
Definition last_of_period (u : dunit) (x : naive) : naive :=
  let 'Naive y m d h mi s _ := x in
  let n := 999999999 in
  match u with
  | USecond => Naive y m d h mi s n
  | UMinute => Naive y m d h mi 59 n
  | UHour => Naive y m d h 59 59 n
  | UDay => Naive y m d 23 59 59 n
  | UWeek => on_day (day_number y m d + (6 - weekday x)) 23 59 59 n
  | UMonth => Naive y m (mdays y m) 23 59 59 n
  | UQuarter => Naive y (3 * third m + 3) (mdays y (3 * third m + 3)) 23 59 59 n
  | UYear => Naive y 12 31 23 59 59 n
  end.
