(** Sums of dates and durations, and differences of dates, in zones with a fixed offset. *)
From Coq Require Import ZArith Bool List Lia String.
From Verif Require Import Base Dec Duration Dates DateSpec CalendarFacts DateFacts DatePeriods.
Import ListNotations.
Local Open Scope Z_scope.
Local Strategy 1000 [civil day_number naive_of local].

Lemma same_dt : forall a b c, fixed (dt_z a) c -> dt_z a = dt_z b -> local a = local b -> a = b.
Proof.
  intros a b c F Z L. assert (T : dt_t a = dt_t b).
  { rewrite (fixed_stamp a c F), (fixed_stamp b c), L; [reflexivity|]. rewrite <- Z. exact F. }
  destruct a as [ta za], b as [tb zb]. cbn in Z, T. subst. reflexivity.
Qed.
Lemma naive_eta : forall x, Naive (n_y x) (n_m x) (n_d x) (n_h x) (n_mi x) (n_s x) (n_ns x) = x. Proof. intros []. reflexivity. Qed.
Lemma clock_date : forall x, clock_ok x -> date_ok (n_y x) (n_m x) (n_d x). Proof. intros x K. apply clock_iff in K. apply K. Qed.
Lemma index_split : forall y m, 1 <= m <= 12 -> (y * 12 + m - 1) / 12 = y /\ (y * 12 + m - 1) mod 12 + 1 = m.
Proof.
  intros y m K. assert (D : (y * 12 + m - 1) / 12 = y) by (symmetry; apply (Z.div_unique _ 12 y (m - 1)); lia).
  split; [exact D|]. pose proof (Z.div_mod (y * 12 + m - 1) 12 ltac:(lia)) as E. rewrite D in E. lia.
Qed.
Definition month_to (k : Z) (x : naive) : naive :=
  let i := n_y x * 12 + n_m x - 1 + k in Naive (i / 12) (i mod 12 + 1) (Z.min (n_d x) (mdays (i / 12) (i mod 12 + 1))) (n_h x) (n_mi x) (n_s x) (n_ns x).
Lemma month_to_date : forall k x, clock_ok x -> date_ok (n_y (month_to k x)) (n_m (month_to k x)) (n_d (month_to k x)).
Proof.
  intros k x K. apply clock_date in K. destruct K as [_ K]. cbn. split.
  - pose proof (Z.mod_pos_bound (n_y x * 12 + n_m x - 1 + k) 12 ltac:(lia)). lia.
  - pose proof (mdays_bounds ((n_y x * 12 + n_m x - 1 + k) / 12) ((n_y x * 12 + n_m x - 1 + k) mod 12 + 1)). lia.
Qed.
Lemma move_take : forall k x e, move_months k x = Some e -> e = month_to k x.
Proof. intros k x e. unfold move_months, with_ymd, month_to. cbv zeta. destruct (ymd_ok _ _ _); [|discriminate]. intros E. injection E as E. symmetry. exact E. Qed.
Lemma move_make : forall k x, clock_ok x -> min_year <= n_y (month_to k x) <= max_year -> move_months k x = Some (month_to k x).
Proof. intros k x K R. unfold move_months, month_to. cbv zeta. apply ymd_make; [apply (month_to_date k x K)|exact R]. Qed.
Lemma month_zero : forall x, clock_ok x -> month_to 0 x = x.
Proof.
  intros x K. apply clock_date in K. destruct K as [M D]. unfold month_to. cbv zeta. rewrite Z.add_0_r. destruct (index_split (n_y x) (n_m x) M) as [-> ->].
  rewrite Z.min_l by apply D. apply naive_eta.
Qed.
Lemma add_months_make : forall d c k, fixed (dt_z d) c -> min_year + 1 <= n_y (month_to k (local d)) <= max_year - 1 ->
  exists e, add_months k d = Some e /\ local e = month_to k (local d) /\ dt_z e = dt_z d.
Proof.
  intros d c k F R. unfold add_months. apply (map_make (move_months k) d c (month_to k (local d)) F (keeps_months k)); [|exact R].
  apply move_make; [apply local_clock|]. split; lia.
Qed.
Lemma add_months_zero : forall d c, fixed (dt_z d) c -> min_year + 1 <= n_y (local d) <= max_year - 1 -> add_months 0 d = Some d.
Proof.
  intros d c F R. destruct (add_months_make d c 0 F) as (e & E & L & Z).
  - rewrite (month_zero _ (local_clock d)). exact R.
  - rewrite (month_zero _ (local_clock d)) in L. rewrite E. f_equal. apply (same_dt e d c); [rewrite Z; exact F|exact Z|exact L].
Qed.
Definition year_to (k : Z) (x : naive) : naive := Naive (n_y x + k) (n_m x) (n_d x) (n_h x) (n_mi x) (n_s x) (n_ns x).
Lemma add_year_make : forall d c k, fixed (dt_z d) c -> date_ok (n_y (local d) + k) (n_m (local d)) (n_d (local d)) -> min_year + 1 <= n_y (local d) + k <= max_year - 1 ->
  exists e, map_local (with_year (n_y (local d) + k)) d = Some e /\ local e = year_to k (local d) /\ dt_z e = dt_z d.
Proof.
  intros d c k F K R. apply (map_make (with_year (n_y (local d) + k)) d c (year_to k (local d)) F (keeps_year _)); [|exact R].
  unfold with_year. apply ymd_make; [exact K|lia].
Qed.
Lemma year_fits : forall y, min_year + 1 <= y <= max_year - 1 -> (- 2 ^ 31 <=? y) && (y <? 2 ^ 31) = true.
Proof. unfold min_year, max_year. intros y R. apply andb_true_intro. split; [apply Z.leb_le|apply Z.ltb_lt]; lia. Qed.
Lemma add_year_zero : forall d c, fixed (dt_z d) c -> min_year + 1 <= n_y (local d) <= max_year - 1 -> map_local (with_year (n_y (local d) + 0)) d = Some d.
Proof.
  intros d c F R. destruct (add_year_make d c 0 F) as (e & E & L & Z).
  - rewrite Z.add_0_r. apply clock_date, local_clock.
  - rewrite Z.add_0_r. exact R.
  - rewrite E. f_equal. apply (same_dt e d c); [rewrite Z; exact F|exact Z|]. rewrite L. unfold year_to. rewrite Z.add_0_r. apply naive_eta.
Qed.
Lemma add_seconds_zero : forall d, in_utc (dt_t d) = true -> add_seconds 0 d = Some d.
Proof. intros [t z] I. unfold add_seconds. cbn in *. rewrite Z.add_0_r, I. reflexivity. Qed.
Lemma mid_in : forall d c, fixed (dt_z d) c -> min_year + 1 <= n_y (local d) <= max_year - 1 -> in_utc (dt_t d) = true.
Proof. intros d c F R. rewrite (fixed_stamp d c F). apply in_range; [apply local_clock|apply F|exact R]. Qed.
(** Seconds. *)
Lemma add_secs : forall d c k e, fixed (dt_z d) c -> min_year + 1 <= n_y (local d) <= max_year - 1 -> e = DateTime (dt_t d + k * giga) (dt_z d) ->
  min_year + 1 <= n_y (local e) <= max_year - 1 -> add_duration d (Dur k 0 0) = Some e.
Proof.
  intros d c k e F R E R2. assert (FE : fixed (dt_z e) c) by (subst e; exact F).
  unfold add_duration. cbn [du_seconds du_months du_years].
  assert (A : add_seconds k d = Some e).
  { pose proof (mid_in d c F R) as I1. pose proof (mid_in e c FE R2) as I2. unfold add_seconds. cbv zeta.
    assert (T : dt_t e = dt_t d + k * giga) by (rewrite E; reflexivity). rewrite <- T, I2.
    assert (B : Z.abs k <= (2 ^ 63 - 1) / 1000).
    { unfold in_utc in I1, I2. apply andb_prop in I1, I2. rewrite !Z.leb_le in I1, I2. rewrite T in I2.
      assert (X : max_utc - min_utc <= 20000000000000 * giga) by (vm_compute; discriminate).
      assert (Y : (2 ^ 63 - 1) / 1000 = 9223372036854775) by (vm_compute; reflexivity). rewrite Y. unfold giga in *. lia. }
    apply Z.leb_le in B. rewrite B. rewrite E. reflexivity. }
  rewrite A. unfold bind_o at 2. rewrite (add_months_zero e c FE R2). unfold bind_o. rewrite Z.add_0_r, (year_fits _ R2).
  pose proof (add_year_zero e c FE R2) as Y. rewrite Z.add_0_r in Y. exact Y.
Qed.
(** Months. *)
Lemma add_month : forall d c k, fixed (dt_z d) c -> min_year + 1 <= n_y (local d) <= max_year - 1 -> min_year + 1 <= n_y (month_to k (local d)) <= max_year - 1 ->
  exists e, add_duration d (Dur 0 k 0) = Some e /\ local e = month_to k (local d) /\ dt_z e = dt_z d.
Proof.
  intros d c k F R R2. destruct (add_months_make d c k F R2) as (e & E & L & Z). exists e. split; [|split; assumption].
  unfold add_duration. cbn [du_seconds du_months du_years]. rewrite (add_seconds_zero d (mid_in d c F R)). unfold bind_o at 2. rewrite E. unfold bind_o.
  rewrite <- L in R2. rewrite Z.add_0_r, (year_fits _ R2).
  pose proof (add_year_zero e c) as Y. rewrite Z.add_0_r in Y. apply Y; [rewrite Z; exact F|exact R2].
Qed.
(** Years. *)
Lemma add_year : forall d c k, fixed (dt_z d) c -> min_year + 1 <= n_y (local d) <= max_year - 1 -> min_year + 1 <= n_y (local d) + k <= max_year - 1 ->
  add_duration d (Dur 0 0 k) = map_local (with_year (n_y (local d) + k)) d.
Proof.
  intros d c k F R R2. unfold add_duration. cbn [du_seconds du_months du_years]. rewrite (add_seconds_zero d (mid_in d c F R)). unfold bind_o at 2.
  rewrite (add_months_zero d c F R). unfold bind_o. rewrite (year_fits _ R2). reflexivity.
Qed.
Lemma month_back : forall k x, clock_ok x -> n_d x <= 28 -> month_to (- k) (month_to k x) = x.
Proof.
  intros k x K D. unfold month_to. cbn [n_y n_m n_d n_h n_mi n_s n_ns]. set (i := n_y x * 12 + n_m x - 1 + k).
  assert (E : i / 12 * 12 + (i mod 12 + 1) - 1 + - k = n_y x * 12 + n_m x - 1).
  { pose proof (Z.div_mod i 12 ltac:(lia)). subst i. lia. }
  rewrite E. apply clock_date in K. destruct K as [M DD]. destruct (index_split (n_y x) (n_m x) M) as [-> ->].
  pose proof (mdays_bounds (i / 12) (i mod 12 + 1)). pose proof (mdays_bounds (n_y x) (n_m x)). rewrite (Z.min_l (n_d x)) by lia. rewrite Z.min_l by lia. apply naive_eta.
Qed.
