(** Periods of the calendar. *)
From Coq Require Import String Ascii ZArith Lia Bool List Arith.
From Verif Require Import Base Dec Value Duration Dates CalendarFacts DateSpec DateFacts.
Import ListNotations.
Local Open Scope Z_scope.
(* These are unfolded last when two terms are compared. *)
Local Strategy 1000 [civil day_number naive_of local].

Lemma ymd_take : forall x y m d e, clock_ok x -> with_ymd x y m d = Some e -> e = Naive y m d (n_h x) (n_mi x) (n_s x) (n_ns x).
Proof. intros x y m d e K E. exact (proj2 (keeps_ymd _ _ _ _ _ K E)). Qed.
Lemma civil_split : forall n, exists y m d, civil n = (y, m, d) /\ date_ok y m d /\ day_number y m d = n.
Proof. intros n. destruct (civil n) as [[y m] d] eqn:E. destruct (number_civil _ _ _ _ E). eauto 8. Qed.
Lemma days_take : forall k x e, clock_ok x -> move_days k x = Some e -> e = on_day (day_number (n_y x) (n_m x) (n_d x) + k) (n_h x) (n_mi x) (n_s x) (n_ns x).
Proof. intros k x e K. unfold move_days, on_day. destruct (civil (day_number (n_y x) (n_m x) (n_d x) + k)) as [[a b] c]. apply ymd_take. exact K. Qed.
Lemma on_day_own : forall x, clock_ok x -> on_day (day_number (n_y x) (n_m x) (n_d x)) (n_h x) (n_mi x) (n_s x) (n_ns x) = x.
Proof. intros x K. apply clock_iff in K as (K & _). unfold on_day. rewrite (civil_number _ _ _ K). destruct x; reflexivity. Qed.
Lemma add_days_local : forall k d e, zone_ok (dt_z d) -> add_days k d = Some e ->
  local e = on_day (day_number (n_y (local d)) (n_m (local d)) (n_d (local d)) + k) (n_h (local d)) (n_mi (local d)) (n_s (local d)) (n_ns (local d)) /\ dt_z e = dt_z d.
Proof.
  intros k d e Z0. unfold add_days. destruct (k =? 0) eqn:E.
  - intros H. injection H as <-. apply Z.eqb_eq in E. subst k. rewrite Z.add_0_r. split; [|reflexivity]. symmetry. apply on_day_own. apply local_clock.
  - intros H. apply map_step in H as [F Q]; auto with keep. split; [|exact Q]. apply days_take in F; [exact F|apply local_clock].
Qed.
Lemma day_start_on : forall n h mi s ns, day_start (on_day n h mi s ns) = on_day n 0 0 0 0.
Proof. intros. unfold on_day. destruct (civil n) as [[a b] c]. reflexivity. Qed.
Lemma day_end_on : forall n h mi s ns, day_end (on_day n h mi s ns) = on_day n 23 59 59 ns.
Proof. intros. unfold on_day. destruct (civil n) as [[a b] c]. reflexivity. Qed.
(** On readings. *)
Ltac takes := repeat match goal with
  | F : with_day _ ?x = Some _, K : clock_ok ?x |- _ => let K2 := fresh in pose proof (keeps_day _ _ _ K F) as K2; apply (ymd_take _ _ _ _ _ K) in F; subst
  | F : with_month _ ?x = Some _, K : clock_ok ?x |- _ => let K2 := fresh in pose proof (keeps_month _ _ _ K F) as K2; apply (ymd_take _ _ _ _ _ K) in F; subst
  | F : with_nano _ _ = Some _ |- _ => apply some_inj in F; subst
  | F : with_second _ _ = Some _ |- _ => apply some_inj in F; subst
  | F : with_minute _ _ = Some _ |- _ => apply some_inj in F; subst
  end.
Lemma f_second : forall x s, with_nano 0 x = Some s -> s = first_of USecond x.
Proof. intros x s F. takes. destruct x; reflexivity. Qed.
Lemma f_minute : forall x a s, with_second 0 x = Some a -> with_nano 0 a = Some s -> s = first_of UMinute x.
Proof. intros x a s F G. takes. destruct x; reflexivity. Qed.
Lemma f_hour : forall x a b s, with_minute 0 x = Some a -> with_second 0 a = Some b -> with_nano 0 b = Some s -> s = first_of UHour x.
Proof. intros x a b s F G H. takes. destruct x; reflexivity. Qed.
Lemma f_day : forall x s, s = day_start x -> s = first_of UDay x.
Proof. intros x s ->. destruct x; reflexivity. Qed.
Lemma f_week : forall x a s h mi sc ns, a = on_day (day_number (n_y x) (n_m x) (n_d x) + - weekday x) h mi sc ns -> s = day_start a -> s = first_of UWeek x.
Proof. intros x a s h mi sc ns -> ->. rewrite day_start_on. destruct x; reflexivity. Qed.
Lemma f_month : forall x a s, clock_ok x -> with_day 1 x = Some a -> s = day_start a -> s = first_of UMonth x.
Proof. intros x a s K F ->. takes. destruct x; reflexivity. Qed.
Lemma f_quarter : forall x a b s, clock_ok x -> with_month ((quarter x - 1) * 3 + 1) x = Some a -> with_day 1 a = Some b -> s = day_start b -> s = first_of UQuarter x.
Proof.
  intros x a b s K F G ->. takes. unfold quarter. destruct x as [y m dd h mi sc ns]. unfold day_start. cbn [n_y n_m n_d n_h n_mi n_s n_ns first_of]. unfold third. replace (((m - 1) / 3 + 1 - 1) * 3 + 1) with (3 * ((m - 1) / 3) + 1) by lia. reflexivity.
Qed.
Lemma f_year : forall x a b s, clock_ok x -> with_month 1 x = Some a -> with_day 1 a = Some b -> s = day_start b -> s = first_of UYear x.
Proof. intros x a b s K F G ->. takes. destruct x; reflexivity. Qed.
Lemma l_any : forall u x a, with_nano 999999999 x = Some a -> last_of_period u x = last_of_period u a /\ n_ns a = 999999999.
Proof. intros u x a F. takes. split; [|reflexivity]. destruct x, u; reflexivity. Qed.
Lemma l_second : forall x, n_ns x = 999999999 -> x = last_of_period USecond x.
Proof. intros [y m d h mi s ns]. cbn. now intros ->. Qed.
Lemma l_minute : forall x s, n_ns x = 999999999 -> with_second 59 x = Some s -> s = last_of_period UMinute x.
Proof. intros x s N F. takes. destruct x as [y m d h mi s ns]. cbn in *. now subst. Qed.
Lemma l_hour : forall x a s, n_ns x = 999999999 -> with_minute 59 x = Some a -> with_second 59 a = Some s -> s = last_of_period UHour x.
Proof. intros x a s N F G. takes. destruct x as [y m d h mi s ns]. cbn in *. now subst. Qed.
Lemma l_day : forall x s, n_ns x = 999999999 -> s = day_end x -> s = last_of_period UDay x.
Proof. intros x s N ->. destruct x as [y m d h mi s ns]. cbn in *. now subst. Qed.
Lemma l_week : forall x a s h mi sc, n_ns x = 999999999 -> a = on_day (day_number (n_y x) (n_m x) (n_d x) + (6 - weekday x)) h mi sc (n_ns x) -> s = day_end a -> s = last_of_period UWeek x.
Proof. intros x a s h mi sc N -> ->. rewrite day_end_on, N. destruct x; reflexivity. Qed.
Lemma l_month : forall x a s, clock_ok x -> n_ns x = 999999999 -> with_day (mdays (n_y x) (n_m x)) x = Some a -> s = day_end a -> s = last_of_period UMonth x.
Proof. intros x a s K N F ->. takes. unfold day_end. cbn [n_y n_m n_d n_ns]. rewrite N. destruct x; reflexivity. Qed.
Lemma l_quarter : forall x a b s, clock_ok x -> n_ns x = 999999999 -> with_month (quarter x * 3) x = Some a -> with_day (mdays (n_y x) (quarter x * 3)) a = Some b -> s = day_end b -> s = last_of_period UQuarter x.
Proof.
  intros x a b s K N F G ->. takes. unfold day_end. cbn [n_y n_m n_d n_ns]. rewrite N. unfold quarter. destruct x as [y m dd h mi sc ns]. cbn [n_y n_m n_d n_h n_mi n_s n_ns last_of_period]. unfold third. replace (((m - 1) / 3 + 1) * 3) with (3 * ((m - 1) / 3) + 3) by lia. reflexivity.
Qed.
Lemma l_year : forall x a b s, clock_ok x -> n_ns x = 999999999 -> with_month 12 x = Some a -> with_day (mdays (n_y x) 12) a = Some b -> s = day_end b -> s = last_of_period UYear x.
Proof. intros x a b s K N F G ->. takes. unfold day_end. cbn [n_y n_m n_d n_ns]. rewrite N. destruct x; reflexivity. Qed.
(** In every zone, the start is the first reading of the period, and the end is the last. *)
Lemma start_local : forall u d s, zone_ok (dt_z d) -> start_of d u = Some s -> local s = first_of u (local d) /\ dt_z s = dt_z d.
Proof.
  intros u d s Z0 E. pose proof (local_clock d) as K. destruct u; cbn [start_of] in E.
  - apply map_step in E as [F Q]; auto with keep. split; [|exact Q]. exact (f_second _ _ F).
  - apply chain in E as (e1 & E1 & E2). apply map_step in E1 as [F1 Q1]; auto with keep. rewrite <- Q1 in Z0. apply map_step in E2 as [F2 Q2]; auto with keep. split; [|congruence]. exact (f_minute _ _ _ F1 F2).
  - apply chain in E as (e2 & E & E3). apply chain in E as (e1 & E1 & E2). apply map_step in E1 as [F1 Q1]; auto with keep. rewrite <- Q1 in Z0. apply map_step in E2 as [F2 Q2]; auto with keep. rewrite <- Q2 in Z0. apply map_step in E3 as [F3 Q3]; auto with keep.
    split; [|congruence]. exact (f_hour _ _ _ _ F1 F2 F3).
  - apply midnight_local in E as [E Q]; [|exact Z0]. split; [|exact Q]. exact (f_day _ _ E).
  - apply chain in E as (e1 & E1 & E2). apply add_days_local in E1 as [F1 Q1]; [|exact Z0]. rewrite <- Q1 in Z0. apply midnight_local in E2 as [F2 Q2]; [|exact Z0]. split; [|congruence]. exact (f_week _ _ _ _ _ _ _ F1 F2).
  - apply chain in E as (e1 & E1 & E2). apply map_step in E1 as [F1 Q1]; auto with keep. rewrite <- Q1 in Z0. apply midnight_local in E2 as [F2 Q2]; [|exact Z0]. split; [|congruence]. exact (f_month _ _ _ K F1 F2).
  - apply chain in E as (e2 & E & E3). apply chain in E as (e1 & E1 & E2). apply map_step in E1 as [F1 Q1]; auto with keep. rewrite <- Q1 in Z0. apply map_step in E2 as [F2 Q2]; auto with keep. rewrite <- Q2 in Z0. apply midnight_local in E3 as [F3 Q3]; [|exact Z0]. split; [|congruence].
    exact (f_quarter _ _ _ _ K F1 F2 F3).
  - apply chain in E as (e2 & E & E3). apply chain in E as (e1 & E1 & E2). apply map_step in E1 as [F1 Q1]; auto with keep. rewrite <- Q1 in Z0. apply map_step in E2 as [F2 Q2]; auto with keep. rewrite <- Q2 in Z0. apply midnight_local in E3 as [F3 Q3]; [|exact Z0]. split; [|congruence].
    exact (f_year _ _ _ _ K F1 F2 F3).
Qed.
Lemma end_local : forall u d s, zone_ok (dt_z d) -> end_of d u = Some s -> local s = last_of_period u (local d) /\ dt_z s = dt_z d.
Proof.
  intros u d s Z0 E. unfold end_of in E. apply chain in E as (a & Ea & E). apply map_step in Ea as [Fa Qa]; auto with keep. rewrite <- Qa in Z0 |- *. clear Qa. pose proof (local_clock a) as Ka.
  destruct (l_any u _ _ Fa) as [W N]. rewrite W. clear W Fa d. rename a into d. destruct u.
  - injection E as <-. split; [|reflexivity]. exact (l_second _ N).
  - apply map_step in E as [F Q]; auto with keep. split; [|exact Q]. exact (l_minute _ _ N F).
  - apply chain in E as (e1 & E1 & E2). apply map_step in E1 as [F1 Q1]; auto with keep. rewrite <- Q1 in Z0. apply map_step in E2 as [F2 Q2]; auto with keep. split; [|congruence]. exact (l_hour _ _ _ N F1 F2).
  - apply last_local in E as [E Q]; [|exact Z0]. split; [|exact Q]. exact (l_day _ _ N E).
  - apply chain in E as (e1 & E1 & E2). apply add_days_local in E1 as [F1 Q1]; [|exact Z0]. rewrite <- Q1 in Z0. apply last_local in E2 as [F2 Q2]; [|exact Z0]. split; [|congruence]. exact (l_week _ _ _ _ _ _ N F1 F2).
  - apply chain in E as (e1 & E1 & E2). apply map_step in E1 as [F1 Q1]; auto with keep. rewrite <- Q1 in Z0. apply last_local in E2 as [F2 Q2]; [|exact Z0]. split; [|congruence]. exact (l_month _ _ _ Ka N F1 F2).
  - cbn zeta in E. apply chain in E as (e2 & E & E3). apply chain in E as (e1 & E1 & E2). apply map_step in E1 as [F1 Q1]; auto with keep. rewrite <- Q1 in Z0. apply map_step in E2 as [F2 Q2]; auto with keep. rewrite <- Q2 in Z0. apply last_local in E3 as [F3 Q3]; [|exact Z0]. split; [|congruence].
    exact (l_quarter _ _ _ _ Ka N F1 F2 F3).
  - apply chain in E as (e2 & E & E3). apply chain in E as (e1 & E1 & E2). apply map_step in E1 as [F1 Q1]; auto with keep. rewrite <- Q1 in Z0. apply map_step in E2 as [F2 Q2]; auto with keep. rewrite <- Q2 in Z0. apply last_local in E3 as [F3 Q3]; [|exact Z0]. split; [|congruence].
    exact (l_year _ _ _ _ Ka N F1 F2 F3).
Qed.
(** ** The period. *)
Lemma stamp_le : forall x y, clock_ok x -> clock_ok y -> (stamp x <= stamp y <-> ~ earlier y x).
Proof. intros x y K K2. rewrite <- (stamp_lt y x K2 K). lia. Qed.
Lemma third_ok : forall m, 1 <= m <= 12 -> 0 <= third m < 4 /\ 3 * third m + 1 <= m <= 3 * third m + 3.
Proof. intros m M. unfold third. pose proof (Z.div_mod (m - 1) 3 ltac:(lia)). pose proof (Z.mod_pos_bound (m - 1) 3 ltac:(lia)). lia. Qed.
Lemma on_day_clock : forall n h mi s ns, 0 <= h < 24 -> 0 <= mi < 60 -> 0 <= s < 60 -> 0 <= ns < giga -> clock_ok (on_day n h mi s ns) /\ stamp (on_day n h mi s ns) = (n * day_secs + h * 3600 + mi * 60 + s) * giga + ns.
Proof.
  intros n h mi s ns A B C D. unfold on_day. destruct (civil n) as [[y m] d] eqn:E. destruct (number_civil _ _ _ _ E) as [K <-]. split; [apply clock_iff; cbn [n_y n_m n_d n_h n_mi n_s n_ns]; auto|]. rewrite stamp_eq. unfold naive_secs. cbn [n_y n_m n_d n_h n_mi n_s n_ns]. reflexivity.
Qed.
Lemma first_ok : forall u x, clock_ok x -> clock_ok (first_of u x).
Proof.
  intros u x K. apply clock_iff in K as ([M D] & H1 & H2 & H3 & H4). destruct x as [y m d h mi s ns]. cbn [n_y n_m n_d n_h n_mi n_s n_ns] in *. destruct u; cbn [first_of]; try (apply on_day_clock; unfold giga; lia);
    apply clock_iff; cbn [n_y n_m n_d n_h n_mi n_s n_ns]; (split; [split|unfold giga; lia]); try assumption; try lia; try (match goal with |- _ <= _ <= mdays ?a ?b => pose proof (mdays_bounds a b); lia end); pose proof (third_ok m M); lia.
Qed.
Lemma last_ok : forall u x, clock_ok x -> clock_ok (last_of_period u x).
Proof.
  intros u x K. apply clock_iff in K as ([M D] & H1 & H2 & H3 & H4). destruct x as [y m d h mi s ns]. cbn [n_y n_m n_d n_h n_mi n_s n_ns] in *. destruct u; cbn [last_of_period]; try (apply on_day_clock; unfold giga; lia);
    apply clock_iff; cbn [n_y n_m n_d n_h n_mi n_s n_ns]; (split; [split|unfold giga; lia]); try assumption; try lia; try (match goal with |- _ <= _ <= mdays ?a ?b => pose proof (mdays_bounds a b); lia end); try (pose proof (third_ok m M); lia).
  change (mdays y 12) with 31. lia.
Qed.
Lemma weekday_bounds : forall x, 0 <= weekday x < 7.
Proof. intros x. apply Z.mod_pos_bound. lia. Qed.
Lemma day_stamp : forall x, clock_ok x -> exists r, 0 <= r < day_secs * giga /\ stamp x = day_number (n_y x) (n_m x) (n_d x) * (day_secs * giga) + r.
Proof.
  intros x K. apply clock_iff in K as (_ & H1 & H2 & H3 & H4). exists ((n_h x * 3600 + n_mi x * 60 + n_s x) * giga + n_ns x). rewrite stamp_eq. unfold naive_secs. generalize (day_number (n_y x) (n_m x) (n_d x)). intros D. unfold day_secs, giga in *. lia.
Qed.
Lemma week_between : forall x t, clock_ok x -> clock_ok t -> (same_period UWeek x t <-> stamp (first_of UWeek x) <= stamp t <= stamp (last_of_period UWeek x)).
Proof.
  intros x t K Kt.
  pose proof (weekday_bounds x) as Bw. destruct (day_stamp t Kt) as (r & Br & Et). destruct x as [y m d h mi s ns] eqn:Ex. cbn [first_of last_of_period].
    rewrite (proj2 (on_day_clock _ 0 0 0 0 ltac:(lia) ltac:(lia) ltac:(lia) ltac:(unfold giga; lia))), (proj2 (on_day_clock _ 23 59 59 999999999 ltac:(lia) ltac:(lia) ltac:(lia) ltac:(unfold giga; lia))), Et. rewrite <- Ex in *.
    cbn [same_period]. replace (n_y x) with y by (now subst). replace (n_m x) with m by (now subst). replace (n_d x) with d by (now subst). set (Dx := day_number y m d). set (Dt := day_number (n_y t) (n_m t) (n_d t)) in *.
    assert (W : exists q, Dx + 3 = 7 * q + weekday x). { exists ((Dx + 3) / 7). unfold weekday. subst x. apply Z.div_mod. lia. }
    destruct W as (q & Eq). clearbody Dt Dx. generalize dependent (weekday x). intros w Bw Eq. clear -Br Bw Eq. unfold day_secs, giga in *. split.
    + intros (k & A & B). assert (k = q - 1) by lia. subst k. lia.
    + intros B. exists (q - 1). lia.
Qed.
Lemma period_between : forall u x t, clock_ok x -> clock_ok t -> (same_period u x t <-> stamp (first_of u x) <= stamp t <= stamp (last_of_period u x)).
Proof.
  intros u x t K Kt. pose proof (first_ok u x K) as Kf. pose proof (last_ok u x K) as Kl. destruct u.
  all: try exact (week_between x t K Kt).
  all: try (rewrite (stamp_le _ _ Kf Kt), (stamp_le _ _ Kt Kl); clear Kf Kl; apply clock_iff in K as ([M D] & H1 & H2 & H3 & H4); apply clock_iff in Kt as ([Mt Dt] & G1 & G2 & G3 & G4); unfold giga in *;
    destruct x as [y m d h mi s ns], t as [ty tm td th tmi ts tns]; unfold earlier; cbn [first_of last_of_period fields lex same_period firstn n_y n_m n_d n_h n_mi n_s n_ns] in *).
  - split; [intros E; injection E as -> -> -> -> -> ->; lia|]. intros E. assert (y = ty /\ m = tm /\ d = td /\ h = th /\ mi = tmi /\ s = ts) as (-> & -> & -> & -> & -> & ->) by lia. reflexivity.
  - split; [intros E; injection E as -> -> -> -> ->; lia|]. intros E. assert (y = ty /\ m = tm /\ d = td /\ h = th /\ mi = tmi) as (-> & -> & -> & -> & ->) by lia. reflexivity.
  - split; [intros E; injection E as -> -> -> ->; lia|]. intros E. assert (y = ty /\ m = tm /\ d = td /\ h = th) as (-> & -> & -> & ->) by lia. reflexivity.
  - split; [intros E; injection E as -> -> ->; lia|]. intros E. assert (y = ty /\ m = tm /\ d = td) as (-> & -> & ->) by lia. reflexivity.
  - split; [intros E; injection E as -> ->; lia|]. intros E. assert (y = ty /\ m = tm) as (-> & ->) by lia. reflexivity.
  - pose proof (third_ok m M) as T. split.
    + intros (<- & q & Q & Qm & Qt). assert (third m = q) by lia. assert (tm = 3 * third m + 3 -> mdays y tm = mdays y (3 * third m + 3)) by congruence. lia.
    + intros E. assert (y = ty) by lia. subst ty. split; [reflexivity|]. exists (third m). lia.
  - assert (tm = 12 -> mdays ty tm = 31) by (intros ->; reflexivity). split; [intros ->; lia|]. lia.
Qed.
(** ** Starts and ends exist, in a zone of fixed offset, away from the limits. *)
Lemma ymd_make : forall x y m d, date_ok y m d -> min_year <= y <= max_year -> with_ymd x y m d = Some (Naive y m d (n_h x) (n_mi x) (n_s x) (n_ns x)).
Proof. intros x y m d K B. unfold with_ymd. now rewrite (proj2 (ymd_iff y m d) (conj K B)). Qed.
Lemma near_year : forall y m d y2 m2 d2, date_ok y m d -> date_ok y2 m2 d2 -> -6 <= day_number y2 m2 d2 - day_number y m d <= 6 -> y - 1 <= y2 <= y + 1.
Proof.
  intros y m d y2 m2 d2 K K2 B. pose proof (day_in_year _ _ _ K) as A. pose proof (day_in_year _ _ _ K2) as A2. split.
  - destruct (Z.le_gt_cases (y - 1) y2) as [L|L]; [exact L|]. pose proof (year_mono y2 (y - 1) L). pose proof (year_next (y - 1)) as N. replace (y - 1 + 1) with y in N by lia. pose proof (year_days_pos (y - 1)). lia.
  - destruct (Z.le_gt_cases y2 (y + 1)) as [L|L]; [exact L|]. pose proof (year_mono (y + 1) y2 ltac:(lia)). pose proof (year_next (y + 1)) as N. pose proof (year_days_pos (y + 1)). lia.
Qed.
Lemma days_make : forall k d c, fixed (dt_z d) c -> mid_range d -> -6 <= k <= 6 -> exists e, add_days k d = Some e /\ dt_z e = dt_z d /\ min_year + 1 <= n_y (local e) <= max_year - 1.
Proof.
  intros k d c F B Bk. unfold add_days. destruct (k =? 0); [exists d; split; [reflexivity|]; split; [reflexivity|]; unfold mid_range in B; lia|].
  pose proof (local_clock d) as K. apply clock_iff in K as (K & _). destruct (civil_split (day_number (n_y (local d)) (n_m (local d)) (n_d (local d)) + k)) as (y & m & dd & E & Kd & N).
  pose proof (near_year _ _ _ _ _ _ K Kd ltac:(lia)) as By. unfold mid_range in B.
  destruct (map_make (move_days k) d c (Naive y m dd (n_h (local d)) (n_mi (local d)) (n_s (local d)) (n_ns (local d))) F ltac:(auto with keep)) as (e & Ee & L & Q).
  - unfold move_days. rewrite E. apply ymd_make; [exact Kd|lia].
  - cbn [n_y]. lia.
  - exists e. split; [exact Ee|]. split; [exact Q|]. rewrite L. cbn [n_y]. lia.
Qed.
Lemma set_make : forall f d c y m dd, fixed (dt_z d) c -> keeps f -> f (local d) = with_ymd (local d) y m dd -> date_ok y m dd -> min_year + 1 <= y <= max_year - 1 ->
  exists e, map_local f d = Some e /\ dt_z e = dt_z d /\ n_y (local e) = y /\ n_m (local e) = m /\ n_d (local e) = dd.
Proof.
  intros f d c y m dd F K E Kd B. destruct (map_make f d c (Naive y m dd (n_h (local d)) (n_mi (local d)) (n_s (local d)) (n_ns (local d))) F K) as (e & Ee & L & Q).
  - rewrite E. apply ymd_make; [exact Kd|lia].
  - cbn [n_y]. exact B.
  - exists e. split; [exact Ee|]. split; [exact Q|]. now rewrite L.
Qed.
Lemma first_date : forall y m, 1 <= m <= 12 -> date_ok y m 1.
Proof. intros y m M. split; [exact M|]. pose proof (mdays_bounds y m). lia. Qed.
Lemma last_date : forall y m, 1 <= m <= 12 -> date_ok y m (mdays y m).
Proof. intros y m M. split; [exact M|]. pose proof (mdays_bounds y m). lia. Qed.
Lemma quarter_third : forall x, quarter x = third (n_m x) + 1.
Proof. reflexivity. Qed.
Lemma third_days : forall y q d, 0 <= q < 4 -> d <= 30 -> d <= mdays y (3 * q + 1) /\ d <= mdays y (3 * q + 3).
Proof. intros y q d Q D. assert (q = 0 \/ q = 1 \/ q = 2 \/ q = 3) as [-> | [-> | [-> | ->]]] by lia; unfold mdays; cbn; lia. Qed.
Lemma start_make : forall u d c, fixed (dt_z d) c -> mid_range d -> (u = UQuarter -> n_d (local d) <= 30) -> exists s, start_of d u = Some s.
Proof.
  intros u d c F B Q31. pose proof B as B1. unfold mid_range in B1. assert (B2 : min_year + 1 <= n_y (local d) <= max_year - 1) by lia. pose proof (local_clock d) as K. apply clock_iff in K as (K & _). pose proof K as [M D].
  assert (Md : exists s, midnight d = Some s) by (destruct (midnight_make d c F ltac:(lia)) as (s & E & _); eauto).
  destruct u; cbn [start_of].
  - destruct (map_make (with_nano 0) d c _ F ltac:(auto with keep) eq_refl B2) as (e1 & -> & _). eauto.
  - destruct (map_make (with_second 0) d c _ F ltac:(auto with keep) eq_refl B2) as (e1 & -> & L1 & Q1). cbn [bind_o]. rewrite <- Q1 in F.
    destruct (map_make (with_nano 0) e1 c _ F ltac:(auto with keep) eq_refl ltac:(rewrite L1; exact B2)) as (e2 & -> & _). eauto.
  - destruct (map_make (with_minute 0) d c _ F ltac:(auto with keep) eq_refl B2) as (e1 & -> & L1 & Q1). cbn [bind_o]. rewrite <- Q1 in F.
    destruct (map_make (with_second 0) e1 c _ F ltac:(auto with keep) eq_refl ltac:(rewrite L1; exact B2)) as (e2 & -> & L2 & Q2). cbn [bind_o]. rewrite <- Q2 in F.
    destruct (map_make (with_nano 0) e2 c _ F ltac:(auto with keep) eq_refl ltac:(rewrite L2, L1; exact B2)) as (e3 & -> & _). eauto.
  - exact Md.
  - pose proof (weekday_bounds (local d)). destruct (days_make (- weekday (local d)) d c F B ltac:(lia)) as (e & -> & Qe & Be). cbn [bind_o]. rewrite <- Qe in F. destruct (midnight_make e c F Be) as (s & E & _). eauto.
  - destruct (set_make (with_day 1) d c (n_y (local d)) (n_m (local d)) 1 F ltac:(auto with keep) eq_refl (first_date _ _ M) ltac:(lia)) as (e & -> & Qe & Ey & _). cbn [bind_o]. rewrite <- Qe in F. destruct (midnight_make e c F ltac:(lia)) as (s & E & _). eauto.
  - destruct (third_ok _ M) as [T1 T2]. specialize (Q31 eq_refl). destruct (third_days (n_y (local d)) _ _ T1 Q31) as [D1 _]. rewrite quarter_third. replace ((third (n_m (local d)) + 1 - 1) * 3 + 1) with (3 * third (n_m (local d)) + 1) by lia.
    destruct (set_make (with_month (3 * third (n_m (local d)) + 1)) d c (n_y (local d)) (3 * third (n_m (local d)) + 1) (n_d (local d)) F ltac:(auto with keep) eq_refl ltac:(split; lia) ltac:(lia)) as (e & -> & Qe & Ey & Em & _). cbn [bind_o]. rewrite <- Qe in F.
    destruct (set_make (with_day 1) e c (n_y (local e)) (n_m (local e)) 1 F ltac:(auto with keep) eq_refl (first_date (n_y (local e)) (n_m (local e)) ltac:(lia)) ltac:(lia)) as (e2 & -> & Qe2 & Ey2 & _). cbn [bind_o]. rewrite <- Qe2 in F. destruct (midnight_make e2 c F ltac:(lia)) as (s & E & _). eauto.
  - destruct (set_make (with_month 1) d c (n_y (local d)) 1 (n_d (local d)) F ltac:(auto with keep) eq_refl) as (e & -> & Qe & Ey & Em & _); [split; [lia|change (mdays (n_y (local d)) 1) with 31; pose proof (mdays_bounds (n_y (local d)) (n_m (local d))); lia]|lia|]. cbn [bind_o]. rewrite <- Qe in F.
    destruct (set_make (with_day 1) e c (n_y (local e)) (n_m (local e)) 1 F ltac:(auto with keep) eq_refl (first_date (n_y (local e)) (n_m (local e)) ltac:(lia)) ltac:(lia)) as (e2 & -> & Qe2 & Ey2 & _). cbn [bind_o]. rewrite <- Qe2 in F. destruct (midnight_make e2 c F ltac:(lia)) as (s & E & _). eauto.
Qed.
Lemma end_make : forall u d c, fixed (dt_z d) c -> mid_range d -> (u = UQuarter -> n_d (local d) <= 30) -> exists s, end_of d u = Some s.
Proof.
  intros u d0 c F B0 Q31. unfold end_of. pose proof B0 as B1. unfold mid_range in B1. assert (B2 : min_year + 1 <= n_y (local d0) <= max_year - 1) by lia. destruct (map_make (with_nano 999999999) d0 c _ F ltac:(auto with keep) eq_refl B2) as (d & -> & L0 & Q0). cbn [bind_o]. rewrite <- Q0 in F. clear Q0.
  assert (Y : n_y (local d) = n_y (local d0) /\ n_d (local d) = n_d (local d0)) by (rewrite L0; auto). clear L0. destruct Y as [Y1 Y2]. rewrite <- Y2 in Q31. assert (B : mid_range d) by (unfold mid_range; rewrite Y1; exact B1). clear Y1 Y2 B0 B1 B2 d0. pose proof B as B1. unfold mid_range in B1. assert (B2 : min_year + 1 <= n_y (local d) <= max_year - 1) by lia.
  pose proof (local_clock d) as K. apply clock_iff in K as (K & _). pose proof K as [M D].
  destruct u.
  - eauto.
  - destruct (map_make (with_second 59) d c _ F ltac:(auto with keep) eq_refl B2) as (e1 & -> & _). eauto.
  - destruct (map_make (with_minute 59) d c _ F ltac:(auto with keep) eq_refl B2) as (e1 & -> & L1 & Q1). cbn [bind_o]. rewrite <- Q1 in F.
    destruct (map_make (with_second 59) e1 c _ F ltac:(auto with keep) eq_refl ltac:(rewrite L1; exact B2)) as (e2 & -> & _). eauto.
  - destruct (last_make d c F ltac:(lia)) as (s & E & _). eauto.
  - pose proof (weekday_bounds (local d)). destruct (days_make (6 - weekday (local d)) d c F B ltac:(lia)) as (e & -> & Qe & Be). cbn [bind_o]. rewrite <- Qe in F. destruct (last_make e c F Be) as (s & E & _). eauto.
  - destruct (set_make (with_day (mdays (n_y (local d)) (n_m (local d)))) d c (n_y (local d)) (n_m (local d)) _ F ltac:(auto with keep) eq_refl (last_date _ _ M) ltac:(lia)) as (e & -> & Qe & Ey & _). cbn [bind_o]. rewrite <- Qe in F. destruct (last_make e c F ltac:(lia)) as (s & E & _). eauto.
  - cbn zeta. destruct (third_ok _ M) as [T1 T2]. specialize (Q31 eq_refl). destruct (third_days (n_y (local d)) _ _ T1 Q31) as [_ D1]. rewrite quarter_third. replace ((third (n_m (local d)) + 1) * 3) with (3 * third (n_m (local d)) + 3) by lia.
    destruct (set_make (with_month (3 * third (n_m (local d)) + 3)) d c (n_y (local d)) (3 * third (n_m (local d)) + 3) (n_d (local d)) F ltac:(auto with keep) eq_refl ltac:(split; lia) ltac:(lia)) as (e & -> & Qe & Ey & Em & _). cbn [bind_o]. rewrite <- Qe in F. rewrite <- Em, <- Ey.
    destruct (set_make (with_day (mdays (n_y (local e)) (n_m (local e)))) e c (n_y (local e)) (n_m (local e)) _ F ltac:(auto with keep) eq_refl (last_date (n_y (local e)) (n_m (local e)) ltac:(lia)) ltac:(lia)) as (e2 & -> & Qe2 & Ey2 & _). cbn [bind_o]. rewrite <- Qe2 in F. destruct (last_make e2 c F ltac:(lia)) as (s & E & _). eauto.
  - destruct (set_make (with_month 12) d c (n_y (local d)) 12 (n_d (local d)) F ltac:(auto with keep) eq_refl) as (e & -> & Qe & Ey & Em & _); [split; [lia|change (mdays (n_y (local d)) 12) with 31; pose proof (mdays_bounds (n_y (local d)) (n_m (local d))); lia]|lia|]. cbn [bind_o]. rewrite <- Qe in F. rewrite <- Em, <- Ey.
    destruct (set_make (with_day (mdays (n_y (local e)) (n_m (local e)))) e c (n_y (local e)) (n_m (local e)) _ F ltac:(auto with keep) eq_refl (last_date (n_y (local e)) (n_m (local e)) ltac:(lia)) ltac:(lia)) as (e2 & -> & Qe2 & Ey2 & _). cbn [bind_o]. rewrite <- Qe2 in F. destruct (last_make e2 c F ltac:(lia)) as (s & E & _). eauto.
Qed.
