(** Differences of dates. *)
From Coq Require Import ZArith Bool List Lia String.
From Verif Require Import Base Dec Duration Dates DateSpec CalendarFacts DateFacts DatePeriods DateMath.
Import ListNotations.
Local Open Scope Z_scope.
Local Strategy 1000 [civil day_number naive_of local].

Lemma div_split : forall k t, 0 <= t < giga -> (k * giga + t) / 1000000 = k * 1000 + t / 1000000.
Proof. intros k t B. unfold giga in *. replace (k * 1000000000 + t) with (t + (k * 1000) * 1000000) by lia. rewrite Z.div_add by lia. lia. Qed.
Lemma clock_millis_stamp : forall x, clock_ok x -> clock_millis x = stamp x / 1000000.
Proof.
  intros x K. apply clock_iff in K. rewrite stamp_eq, div_split by apply K. unfold clock_millis, naive_secs, day_secs. lia.
Qed.
Lemma local_millis : forall d, clock_millis (local d) = millis d + offset d * 1000.
Proof.
  intros d. rewrite (clock_millis_stamp _ (local_clock d)), local_stamp. unfold millis.
  replace (dt_t d + offset d * giga) with (dt_t d + (offset d * 1000) * 1000000) by (unfold giga; lia). rewrite Z.div_add by lia. reflexivity.
Qed.
Lemma loc_diff : forall a b, millis a - millis b - (offset b - offset a) * 1000 = clock_millis (local a) - clock_millis (local b).
Proof. intros a b. rewrite !local_millis. lia. Qed.
Lemma time_parts : forall x y, same_time x y -> n_h x = n_h y /\ n_mi x = n_mi y /\ n_s x = n_s y /\ n_ns x = n_ns y.
Proof. intros x y T. unfold same_time, fields in T. cbn [skipn] in T. injection T. auto. Qed.
(** Two dates with the same day of the month and time of the day, [k] months apart. *)
Lemma month_diff_exact : forall e d c k, fixed (dt_z e) c -> dt_z d = dt_z e -> min_year + 1 <= n_y (local d) <= max_year - 1 ->
  n_d (local e) = n_d (local d) -> n_y (local e) * 12 + n_m (local e) = n_y (local d) * 12 + n_m (local d) + k -> same_time (local e) (local d) ->
  exists den, den <> 0 /\ month_diff e d = (k * den, den).
Proof.
  intros e d c k F Z R D I T. unfold month_diff. rewrite D, Z.ltb_irrefl. unfold month_diff1.
  assert (W : (n_y (local d) - n_y (local e)) * 12 + (n_m (local d) - n_m (local e)) = - k) by lia. rewrite W. cbv zeta.
  assert (X : month_to (- k) (local e) = local d).
  { pose proof (clock_date _ (local_clock d)) as [M DD]. unfold month_to. cbv zeta.
    replace (n_y (local e) * 12 + n_m (local e) - 1 + - k) with (n_y (local d) * 12 + n_m (local d) - 1) by lia. destruct (index_split (n_y (local d)) (n_m (local d)) M) as [-> ->].
    rewrite D, Z.min_l by apply DD. apply time_parts in T as (-> & -> & -> & ->). apply naive_eta. }
  assert (A : shift_months e (- k) = d).
  { unfold shift_months. destruct (add_months_make e c (- k) F) as (f & E & L & Zf); [rewrite X; exact R|]. rewrite E. apply (same_dt f d c); [rewrite Zf; exact F|congruence|congruence]. }
  rewrite A. rewrite Z.sub_diag. cbn [Z.ltb Z.compare]. set (den := millis (shift_months e (- k + 1)) - millis d). destruct (den =? 0) eqn:N.
  - exists 1. split; [lia|]. f_equal. lia.
  - apply Z.eqb_neq in N. exists den. split; [exact N|]. f_equal. lia.
Qed.
Lemma quot_exact : forall n den k, den <> 0 -> k <> 0 -> Z.quot (n * k * den) (den * k) = n.
Proof. intros n den k A B. replace (n * k * den) with (n * (den * k)) by lia. apply Z.quot_mul. lia. Qed.

(** ** Differences in months change their sign with the order of the dates. *)
Definition trunc_part (w r d k : Z) : Z := Z.quot (w * d + r) (d * k).
(** With [|r| < d], the quotient depends on the sign of [r] only. *)
Lemma quot_free : forall w r1 r2 d1 d2 k, 0 < d1 -> 0 < d2 -> 0 < k -> Z.abs r1 < d1 -> Z.abs r2 < d2 -> Z.sgn r1 = Z.sgn r2 -> Z.quot (w * d1 + r1) (d1 * k) = Z.quot (w * d2 + r2) (d2 * k).
Proof.
  intros w r1 r2 d1 d2 k P1 P2 Pk B1 B2 S1.
  assert (Pos : forall w r d, 0 < d -> 0 <= r < d -> 0 <= w -> Z.quot (w * d + r) (d * k) = w / k).
  { intros v r d Pd Br Pv. rewrite Z.quot_div_nonneg by nia. rewrite <- Z.div_div by lia. f_equal. symmetry. apply (Z.div_unique _ _ v r); [lia|lia]. }
  assert (Neg : forall w r d, 0 < d -> - d < r <= 0 -> w <= 0 -> Z.quot (w * d + r) (d * k) = - ((- w) / k)).
  { intros v r d Pd Br Pv. replace (v * d + r) with (- ((- v) * d + - r)) by lia. rewrite Z.quot_opp_l by nia. f_equal. apply Pos; lia. }
  assert (PN : forall w r d, 0 < d -> - d < r < 0 -> 0 < w -> Z.quot (w * d + r) (d * k) = (w - 1) / k).
  { intros v r d Pd Br Pv. replace (v * d + r) with ((v - 1) * d + (r + d)) by lia. apply Pos; lia. }
  assert (NP : forall w r d, 0 < d -> 0 < r < d -> w < 0 -> Z.quot (w * d + r) (d * k) = - ((- w - 1) / k)).
  { intros v r d Pd Br Pv. replace (v * d + r) with ((v + 1) * d + (r - d)) by lia. rewrite Neg by lia. f_equal. f_equal. lia. }
  destruct (Z.lt_trichotomy r1 0) as [L|[L|L]].
  - assert (r2 < 0) by (destruct r2; cbn in *; destruct r1; cbn in *; lia). destruct (Z.lt_ge_cases 0 w); [rewrite !PN by lia|rewrite !Neg by lia]; reflexivity.
  - assert (r2 = 0) by (destruct r2; cbn in *; subst r1; cbn in *; lia). destruct (Z.lt_ge_cases 0 w); [rewrite !Pos by lia|rewrite !Neg by lia]; reflexivity.
  - assert (0 < r2) by (destruct r2; cbn in *; destruct r1; cbn in *; lia). destruct (Z.lt_ge_cases w 0); [rewrite !NP by lia|rewrite !Pos by lia]; reflexivity.
Qed.

Definition tod (x : naive) : Z := ((n_h x * 60 + n_mi x) * 60 + n_s x) * 1000 + n_ns x / 1000000.
Lemma millis_day : forall x, clock_millis x = day_number (n_y x) (n_m x) (n_d x) * 86400000 + tod x. Proof. intros x. unfold clock_millis, tod. lia. Qed.
Lemma tod_bounds : forall x, clock_ok x -> 0 <= tod x < 86400000.
Proof.
  intros x K. apply clock_iff in K. destruct K as (_ & A & B & D & E). unfold giga in E. unfold tod. pose proof (Z.div_mod (n_ns x) 1000000 ltac:(lia)). pose proof (Z.mod_pos_bound (n_ns x) 1000000 ltac:(lia)). lia.
Qed.
Definition ym_days (i d : Z) : Z := day_number (i / 12) (i mod 12 + 1) (Z.min d (mdays (i / 12) (i mod 12 + 1))).
Lemma next_month_days : forall i d, 1 <= d <= 31 -> 28 <= ym_days (i + 1) d - ym_days i d.
Proof.
  intros i d B. unfold ym_days. pose proof (Z.div_mod i 12 ltac:(lia)) as E. pose proof (Z.mod_pos_bound i 12 ltac:(lia)) as M. set (y := i / 12) in *. set (m := i mod 12 + 1).
  destruct (Z.eq_dec m 12) as [L|L].
  - assert (A : (i + 1) / 12 = y + 1) by (symmetry; apply (Z.div_unique _ 12 (y + 1) 0); lia). assert (N : (i + 1) mod 12 = 0) by (pose proof (Z.div_mod (i + 1) 12 ltac:(lia)); lia).
    rewrite A, N, L. unfold day_number. rewrite (year_next y), <- (month_end y). change (0 + 1) with 1. rewrite month_first. pose proof (mdays_bounds (y + 1) 1). pose proof (mdays_bounds y 12).
    lia.
  - assert (A : (i + 1) / 12 = y) by (symmetry; apply (Z.div_unique _ 12 y m); lia). assert (N : (i + 1) mod 12 = m) by (pose proof (Z.div_mod (i + 1) 12 ltac:(lia)); lia).
    rewrite A, N. unfold day_number. rewrite (month_next y m) by lia. pose proof (mdays_bounds y m). pose proof (mdays_bounds y (m + 1)). lia.
Qed.
Definition idx (x : naive) : Z := n_y x * 12 + n_m x - 1.
Lemma month_to_millis : forall k x, clock_millis (month_to k x) = ym_days (idx x + k) (n_d x) * 86400000 + tod x. Proof. intros k x. rewrite millis_day. reflexivity. Qed.
Lemma idx_days : forall x, clock_ok x -> ym_days (idx x) (n_d x) = day_number (n_y x) (n_m x) (n_d x).
Proof.
  intros x K. apply clock_date in K as [M D]. unfold ym_days, idx. destruct (index_split (n_y x) (n_m x) M) as [-> ->]. rewrite Z.min_l by apply D. reflexivity.
Qed.
Lemma idx_year : forall i y, y * 12 <= i <= y * 12 + 11 -> i / 12 = y. Proof. intros i y B. symmetry. apply (Z.div_unique _ 12 y (i - y * 12)); lia. Qed.
Lemma shift_millis : forall a c k y, fixed (dt_z a) c -> y * 12 <= idx (local a) + k <= y * 12 + 11 -> min_year + 1 <= y <= max_year - 1 ->
  millis (shift_months a k) = ym_days (idx (local a) + k) (n_d (local a)) * 86400000 + tod (local a) - c * 1000.
Proof.
  intros a c k y F B R. unfold shift_months. destruct (add_months_make a c k F) as (e & E & L & Z).
  - unfold month_to. cbv zeta. cbn [n_y]. fold (idx (local a)). rewrite (idx_year _ y B). exact R.
  - rewrite E. pose proof (local_millis e) as X. rewrite L, month_to_millis in X. assert (O : offset e = c) by (unfold offset; rewrite Z; apply F). rewrite O in X. lia.
Qed.
(** On equal days of the month. *)
Lemma month_diff_equal : forall a b c, fixed (dt_z a) c -> dt_z b = dt_z a -> mid_range b -> n_d (local a) = n_d (local b) ->
  exists den, 86400000 < den /\ month_diff1 a b = ((idx (local b) - idx (local a)) * den + (tod (local b) - tod (local a)), den).
Proof.
  intros a b c F Z R D. unfold mid_range in R. pose proof (local_clock a) as Ka. pose proof (local_clock b) as Kb.
  pose proof (clock_date _ Kb) as [Mb Db]. unfold month_diff1.
  assert (W : (n_y (local b) - n_y (local a)) * 12 + (n_m (local b) - n_m (local a)) = idx (local b) - idx (local a)) by (unfold idx; lia). rewrite W. cbv zeta.
  set (w := idx (local b) - idx (local a)).
  assert (A : millis (shift_months a w) = ym_days (idx (local b)) (n_d (local b)) * 86400000 + tod (local a) - c * 1000).
  { rewrite (shift_millis a c w (n_y (local b)) F); [|unfold w, idx; lia|lia]. rewrite D. replace (idx (local a) + w) with (idx (local b)) by (unfold w; lia). reflexivity. }
  assert (M : millis b = ym_days (idx (local b)) (n_d (local b)) * 86400000 + tod (local b) - c * 1000).
  { rewrite (idx_days _ Kb). pose proof (local_millis b) as X. rewrite millis_day in X. assert (O : offset b = c) by (unfold offset; rewrite Z; apply F). rewrite O in X. lia. }
  rewrite A, M. set (B := ym_days (idx (local b)) (n_d (local b))) in *.
  replace (B * 86400000 + tod (local b) - c * 1000 - (B * 86400000 + tod (local a) - c * 1000)) with (tod (local b) - tod (local a)) by lia.
  assert (B31 : 1 <= n_d (local b) <= 31) by (pose proof (mdays_bounds (n_y (local b)) (n_m (local b))); lia).
  destruct (tod (local b) - tod (local a) <? 0).
  - set (y2 := (idx (local b) - 1) / 12).
    assert (Y : y2 * 12 <= idx (local b) - 1 <= y2 * 12 + 11) by (unfold y2; pose proof (Z.div_mod (idx (local b) - 1) 12 ltac:(lia)); pose proof (Z.mod_pos_bound (idx (local b) - 1) 12 ltac:(lia)); lia).
    rewrite (shift_millis a c (w + -1) y2 F); [|unfold w; lia|unfold idx in Y; lia]. rewrite D. replace (idx (local a) + (w + -1)) with (idx (local b) - 1) by (unfold w; lia).
    pose proof (next_month_days (idx (local b) - 1) (n_d (local b)) B31) as N. replace (idx (local b) - 1 + 1) with (idx (local b)) in N by lia. fold B in N.
    set (den := B * 86400000 + tod (local a) - c * 1000 - (ym_days (idx (local b) - 1) (n_d (local b)) * 86400000 + tod (local a) - c * 1000)).
    assert (P : 86400000 < den) by (unfold den; lia). exists den. split; [exact P|]. replace (den =? 0) with false; [reflexivity|]. symmetry. apply Z.eqb_neq. lia.
  - set (y2 := (idx (local b) + 1) / 12).
    assert (Y : y2 * 12 <= idx (local b) + 1 <= y2 * 12 + 11) by (unfold y2; pose proof (Z.div_mod (idx (local b) + 1) 12 ltac:(lia)); pose proof (Z.mod_pos_bound (idx (local b) + 1) 12 ltac:(lia)); lia).
    rewrite (shift_millis a c (w + 1) y2 F); [|unfold w; lia|unfold idx in Y; lia]. rewrite D. replace (idx (local a) + (w + 1)) with (idx (local b) + 1) by (unfold w; lia).
    pose proof (next_month_days (idx (local b)) (n_d (local b)) B31) as N. fold B in N.
    set (den := ym_days (idx (local b) + 1) (n_d (local b)) * 86400000 + tod (local a) - c * 1000 - (B * 86400000 + tod (local a) - c * 1000)).
    assert (P : 86400000 < den) by (unfold den; lia). exists den. split; [exact P|]. replace (den =? 0) with false; [reflexivity|]. symmetry. apply Z.eqb_neq. lia.
Qed.
Lemma quot_neg : forall a b, b <> 0 -> Z.quot (- a) b = - Z.quot a b. Proof. intros a b N. apply Z.quot_opp_l. exact N. Qed.
Lemma den_ok : forall a b, snd (month_diff1 a b) <> 0.
Proof. intros a b. unfold month_diff1. cbv zeta. match goal with |- snd (if ?d =? 0 then _ else _) <> 0 => destruct (d =? 0) eqn:E end; cbn [snd]; [lia|]. apply Z.eqb_neq in E. exact E. Qed.
Lemma months_anti : forall a b c k, fixed (dt_z a) c -> dt_z b = dt_z a -> mid_range a -> mid_range b -> 0 < k ->
  (let (n, d) := month_diff a b in Z.quot n (d * k)) = - (let (n, d) := month_diff b a in Z.quot n (d * k)).
Proof.
  intros a b c k F Z Ra Rb Pk. unfold month_diff. destruct (Z.lt_trichotomy (n_d (local a)) (n_d (local b))) as [L|[L|L]].
  - replace (n_d (local a) <? n_d (local b)) with true by (symmetry; apply Z.ltb_lt; lia). replace (n_d (local b) <? n_d (local a)) with false by (symmetry; apply Z.ltb_ge; lia).
    pose proof (den_ok b a) as N. destruct (month_diff1 b a) as [n d]. cbn [snd] in N. rewrite quot_neg by nia. lia.
  - rewrite L, Z.ltb_irrefl. destruct (month_diff_equal a b c F Z Rb L) as (d1 & P1 & E1). destruct (month_diff_equal b a c) as (d2 & P2 & E2); [rewrite Z; exact F|symmetry; exact Z|exact Ra|symmetry; exact L|].
    rewrite E1, E2. rewrite !quot_neg by nia. f_equal. rewrite <- quot_neg by nia.
    pose proof (tod_bounds _ (local_clock a)). pose proof (tod_bounds _ (local_clock b)).
    replace (- ((idx (local a) - idx (local b)) * d2 + (tod (local a) - tod (local b)))) with ((idx (local b) - idx (local a)) * d2 + (tod (local b) - tod (local a))) by lia.
    apply quot_free; lia.
  - replace (n_d (local a) <? n_d (local b)) with false by (symmetry; apply Z.ltb_ge; lia). replace (n_d (local b) <? n_d (local a)) with true by (symmetry; apply Z.ltb_lt; lia).
    pose proof (den_ok a b) as N. destruct (month_diff1 a b) as [n d]. cbn [snd] in N. rewrite quot_neg by nia. lia.
Qed.
(** ** Whole months, for days of the month up to the 28th. *)
Definition in_month (x : naive) : Z := (n_d x - 1) * 86400000 + tod x.
Lemma first_days : forall i d, 1 <= d <= 28 -> ym_days i d = ym_days i 1 + d - 1.
Proof.
  intros i d B. unfold ym_days. pose proof (mdays_bounds (i / 12) (i mod 12 + 1)). rewrite !Z.min_l by lia. unfold day_number. lia.
Qed.
Lemma month_place : forall x, clock_ok x -> n_d x <= 28 -> clock_millis x = ym_days (idx x) 1 * 86400000 + in_month x.
Proof.
  intros x K B. rewrite millis_day, <- (idx_days x K), first_days; [unfold in_month; lia|]. apply clock_date in K as [_ K]. lia.
Qed.
Lemma in_month_bounds : forall x, clock_ok x -> n_d x <= 28 -> 0 <= in_month x < 28 * 86400000.
Proof. intros x K B. pose proof (tod_bounds x K). apply clock_date in K as [_ K]. unfold in_month. lia. Qed.
Lemma month_diff_28 : forall a b c, fixed (dt_z a) c -> dt_z b = dt_z a -> mid_range b -> n_d (local a) <= 28 -> n_d (local b) <= 28 ->
  exists den, 28 * 86400000 <= den /\ month_diff1 a b = ((idx (local b) - idx (local a)) * den + (in_month (local b) - in_month (local a)), den).
Proof.
  intros a b c F Z R Da Db28. unfold mid_range in R. pose proof (local_clock a) as Ka. pose proof (local_clock b) as Kb.
  pose proof (clock_date _ Kb) as [Mb Db]. pose proof (clock_date _ Ka) as [Ma Daa]. unfold month_diff1.
  assert (W : (n_y (local b) - n_y (local a)) * 12 + (n_m (local b) - n_m (local a)) = idx (local b) - idx (local a)) by (unfold idx; lia). rewrite W. cbv zeta.
  set (w := idx (local b) - idx (local a)).
  assert (A : millis (shift_months a w) = ym_days (idx (local b)) 1 * 86400000 + in_month (local a) - c * 1000).
  { rewrite (shift_millis a c w (n_y (local b)) F); [|unfold w, idx; lia|lia]. rewrite first_days by lia. replace (idx (local a) + w) with (idx (local b)) by (unfold w; lia). unfold in_month. lia. }
  assert (M : millis b = ym_days (idx (local b)) 1 * 86400000 + in_month (local b) - c * 1000).
  { pose proof (local_millis b) as X. rewrite (month_place _ Kb Db28) in X. assert (O : offset b = c) by (unfold offset; rewrite Z; apply F). rewrite O in X. lia. }
  rewrite A, M. set (B := ym_days (idx (local b)) 1) in *. set (pa := in_month (local a)) in *. set (pb := in_month (local b)) in *.
  replace (B * 86400000 + pb - c * 1000 - (B * 86400000 + pa - c * 1000)) with (pb - pa) by lia.
  destruct (pb - pa <? 0).
  - set (y2 := (idx (local b) - 1) / 12).
    assert (Y : y2 * 12 <= idx (local b) - 1 <= y2 * 12 + 11) by (unfold y2; pose proof (Z.div_mod (idx (local b) - 1) 12 ltac:(lia)); pose proof (Z.mod_pos_bound (idx (local b) - 1) 12 ltac:(lia)); lia).
    rewrite (shift_millis a c (w + -1) y2 F); [|unfold w; lia|unfold idx in Y; lia]. rewrite first_days by lia. replace (idx (local a) + (w + -1)) with (idx (local b) - 1) by (unfold w; lia).
    pose proof (next_month_days (idx (local b) - 1) 1 ltac:(lia)) as N. replace (idx (local b) - 1 + 1) with (idx (local b)) in N by lia. fold B in N.
    set (den := B * 86400000 + pa - c * 1000 - ((ym_days (idx (local b) - 1) 1 + n_d (local a) - 1) * 86400000 + tod (local a) - c * 1000)).
    assert (P : 28 * 86400000 <= den) by (unfold den, pa, in_month; lia). exists den. split; [exact P|]. replace (den =? 0) with false; [reflexivity|]. symmetry. apply Z.eqb_neq. lia.
  - set (y2 := (idx (local b) + 1) / 12).
    assert (Y : y2 * 12 <= idx (local b) + 1 <= y2 * 12 + 11) by (unfold y2; pose proof (Z.div_mod (idx (local b) + 1) 12 ltac:(lia)); pose proof (Z.mod_pos_bound (idx (local b) + 1) 12 ltac:(lia)); lia).
    rewrite (shift_millis a c (w + 1) y2 F); [|unfold w; lia|unfold idx in Y; lia]. rewrite first_days by lia. replace (idx (local a) + (w + 1)) with (idx (local b) + 1) by (unfold w; lia).
    pose proof (next_month_days (idx (local b)) 1 ltac:(lia)) as N. fold B in N.
    set (den := (ym_days (idx (local b) + 1) 1 + n_d (local a) - 1) * 86400000 + tod (local a) - c * 1000 - (B * 86400000 + pa - c * 1000)).
    assert (P : 28 * 86400000 <= den) by (unfold den, pa, in_month; lia). exists den. split; [exact P|]. replace (den =? 0) with false; [reflexivity|]. symmetry. apply Z.eqb_neq. lia.
Qed.
Lemma month_diff_whole : forall a b c, fixed (dt_z a) c -> dt_z b = dt_z a -> mid_range a -> mid_range b -> n_d (local a) <= 28 -> n_d (local b) <= 28 ->
  exists den, 28 * 86400000 <= den /\ month_diff a b = ((idx (local a) - idx (local b)) * den + (in_month (local a) - in_month (local b)), den).
Proof.
  intros a b c F Z Ra Rb Da Db. unfold month_diff. destruct (n_d (local a) <? n_d (local b)).
  - apply (month_diff_28 b a c); [rewrite Z; exact F|symmetry; exact Z|exact Ra|exact Db|exact Da].
  - destruct (month_diff_28 a b c F Z Rb Da Db) as (den & P & E). exists den. split; [exact P|]. rewrite E. f_equal. lia.
Qed.
Lemma months_gap : forall j i, i < j -> ym_days i 1 + 28 <= ym_days j 1.
Proof.
  intros j i L. assert (X : forall n, (0 <= n)%Z -> ym_days i 1 + 28 <= ym_days (i + 1 + n) 1).
  { apply natlike_ind; [rewrite Z.add_0_r; pose proof (next_month_days i 1 ltac:(lia)); lia|]. intros n P H. replace (i + 1 + Z.succ n) with (i + 1 + n + 1) by lia.
    pose proof (next_month_days (i + 1 + n) 1 ltac:(lia)). lia. }
  specialize (X (j - i - 1) ltac:(lia)). replace (i + 1 + (j - i - 1)) with j in X by lia. exact X.
Qed.
Lemma later_place : forall k x y, n_d x <= 28 -> months_later k x y -> clock_millis y = ym_days (idx x + k) 1 * 86400000 + in_month x.
Proof.
  intros k x y B (K & I & D & T). rewrite (month_place y K) by lia. apply time_parts in T as (T1 & T2 & T3 & T4).
  replace (idx y) with (idx x + k) by (unfold idx; lia). replace (in_month y) with (in_month x); [reflexivity|]. unfold in_month, tod. rewrite D, T1, T2, T3, T4. reflexivity.
Qed.
Lemma whole_quot : forall w r den, 0 < den -> Z.abs r < den -> (0 <= r -> 0 <= w) -> (r < 0 -> 0 < w) -> Z.quot (w * den + r) (den * 1) = if r <? 0 then w - 1 else w.
Proof.
  intros w r den P B A D. rewrite Z.mul_1_r. destruct (r <? 0) eqn:L; [apply Z.ltb_lt in L|apply Z.ltb_ge in L].
  - specialize (D L). rewrite Z.quot_div_nonneg by nia. symmetry. apply (Z.div_unique _ _ (w - 1) (r + den)); lia.
  - specialize (A L). rewrite Z.quot_div_nonneg by nia. symmetry. apply (Z.div_unique _ _ w r); lia.
Qed.
Lemma months_between : forall a b c, fixed (dt_z a) c -> dt_z b = dt_z a -> mid_range a -> mid_range b -> n_d (local a) <= 28 -> n_d (local b) <= 28 ->
  clock_millis (local b) <= clock_millis (local a) -> let k := diff a b (Some UMonth) in 0 <= k /\
  (forall y, months_later k (local b) y -> clock_millis y <= clock_millis (local a)) /\ (forall y, months_later (k + 1) (local b) y -> clock_millis (local a) < clock_millis y).
Proof.
  intros a b c F Z Ra Rb Da Db O k. pose proof (local_clock a) as Ka. pose proof (local_clock b) as Kb.
  rewrite (month_place _ Ka Da), (month_place _ Kb Db) in O. rewrite (month_place _ Ka Da).
  pose proof (in_month_bounds _ Ka Da) as Ba. pose proof (in_month_bounds _ Kb Db) as Bb.
  destruct (month_diff_whole a b c F Z Ra Rb Da Db) as (den & P & E).
  set (ia := idx (local a)) in *. set (ib := idx (local b)) in *. set (pa := in_month (local a)) in *. set (pb := in_month (local b)) in *.
  assert (I : ib <= ia) by (destruct (Z.lt_ge_cases ia ib) as [L|L]; [pose proof (months_gap _ _ L); lia|lia]).
  assert (J : pa - pb < 0 -> ib < ia) by (intros L; destruct (Z.eq_dec ia ib) as [X|X]; [rewrite X in O; lia|lia]).
  assert (KE : k = if pa - pb <? 0 then ia - ib - 1 else ia - ib).
  { unfold k, diff. cbv zeta. rewrite E. apply whole_quot; lia. }
  assert (G : forall y q, months_later q (local b) y -> clock_millis y = ym_days (ib + q) 1 * 86400000 + pb) by (intros y q H; exact (later_place q (local b) y Db H)).
  destruct (pa - pb <? 0) eqn:L; [apply Z.ltb_lt in L; specialize (J L)|apply Z.ltb_ge in L]; rewrite KE; (split; [lia|]; split; intros y H; rewrite (G y _ H)).
  - replace (ib + (ia - ib - 1)) with (ia - 1) by lia. pose proof (months_gap ia (ia - 1) ltac:(lia)). lia.
  - replace (ib + (ia - ib - 1 + 1)) with ia by lia. lia.
  - replace (ib + (ia - ib)) with ia by lia. lia.
  - replace (ib + (ia - ib + 1)) with (ia + 1) by lia. pose proof (months_gap (ia + 1) ia ltac:(lia)). lia.
Qed.
