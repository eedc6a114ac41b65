(** The calendar. *)
From Coq Require Import String Ascii ZArith Lia Bool List Arith.
From Verif Require Import Base Dec Value Duration Dates.
Import ListNotations.
Local Open Scope Z_scope.

Lemma year_bounds : forall y, 146097 * (y - 1) - 699 <= 400 * year_start y <= 146097 * (y - 1) + 396.
Proof. intros y. unfold year_start. pose proof (Z.div_mod (y - 1) 4 ltac:(lia)). pose proof (Z.mod_pos_bound (y - 1) 4 ltac:(lia)). pose proof (Z.div_mod (y - 1) 100 ltac:(lia)). pose proof (Z.mod_pos_bound (y - 1) 100 ltac:(lia)).
  pose proof (Z.div_mod (y - 1) 400 ltac:(lia)). pose proof (Z.mod_pos_bound (y - 1) 400 ltac:(lia)). lia. Qed.
Definition year_days (y : Z) : Z := if leap y then 366 else 365.
Lemma div_step : forall y k, 0 < k -> y / k = (y - 1) / k + (if y mod k =? 0 then 1 else 0).
Proof.
  intros y k P. pose proof (Z.div_mod (y - 1) k ltac:(lia)) as E1. pose proof (Z.mod_pos_bound (y - 1) k P) as B1. pose proof (Z.div_mod y k ltac:(lia)) as E2. pose proof (Z.mod_pos_bound y k P) as B2.
  destruct (y mod k =? 0) eqn:Z0.
  - apply Z.eqb_eq in Z0. rewrite Z0 in E2. assert (k * ((y - 1) / k) + (y - 1) mod k = k * (y / k) - 1) by lia. assert ((y - 1) / k < y / k) by nia. assert (y / k - 1 <= (y - 1) / k) by nia. lia.
  - apply Z.eqb_neq in Z0. assert ((y - 1) / k = y / k); [|lia]. symmetry. apply Z.div_unique with (r := y mod k - 1); lia.
Qed.
Lemma year_next : forall y, year_start (y + 1) = year_start y + year_days y.
Proof.
  intros y. unfold year_start, year_days, leap. replace (y + 1 - 1) with y by lia. rewrite (div_step y 4), (div_step y 100), (div_step y 400) by lia.
  assert (H1 : y mod 100 = 0 -> y mod 4 = 0). { intros H. destruct (proj1 (Z.mod_divide y 100 ltac:(lia)) H) as [q ->]. replace (q * 100) with (q * 25 * 4) by lia. apply Z.mod_mul. lia. }
  assert (H2 : y mod 400 = 0 -> y mod 100 = 0). { intros H. destruct (proj1 (Z.mod_divide y 400 ltac:(lia)) H) as [q ->]. replace (q * 400) with (q * 4 * 100) by lia. apply Z.mod_mul. lia. }
  destruct (y mod 4 =? 0) eqn:E4, (y mod 100 =? 0) eqn:E100, (y mod 400 =? 0) eqn:E400; cbn [andb orb negb]; try lia; exfalso;
    repeat match goal with H : (_ =? _) = true |- _ => apply Z.eqb_eq in H | H : (_ =? _) = false |- _ => apply Z.eqb_neq in H end; tauto.
Qed.
Lemma year_days_pos : forall y, 365 <= year_days y <= 366.
Proof. intros y. unfold year_days. destruct (leap y); lia. Qed.
Lemma year_mono : forall y z, y < z -> year_start (y + 1) <= year_start z.
Proof.
  intros y z L. assert (E : z = y + 1 + Z.of_nat (Z.to_nat (z - y - 1))) by lia. rewrite E. generalize (Z.to_nat (z - y - 1)). intros n. clear E L z. induction n as [|n IH]; [replace (y + 1 + Z.of_nat 0) with (y + 1) by lia; lia|].
  replace (y + 1 + Z.of_nat (S n)) with (y + 1 + Z.of_nat n + 1) by lia. rewrite (year_next (y + 1 + Z.of_nat n)). pose proof (year_days_pos (y + 1 + Z.of_nat n)). lia.
Qed.
Lemma year_of_ok : forall n, year_start (year_of n) <= n + epoch_days < year_start (year_of n + 1).
Proof.
  intros n. unfold year_of. set (N := n + epoch_days). set (y := 400 * N / 146097 + 1).
  assert (B : 146097 * (y - 1) <= 400 * N < 146097 * y). { unfold y. pose proof (Z.div_mod (400 * N) 146097 ltac:(lia)). pose proof (Z.mod_pos_bound (400 * N) 146097 ltac:(lia)). lia. }
  pose proof (year_bounds y). pose proof (year_bounds (y + 1)). pose proof (year_next (y + 1)). pose proof (year_days_pos (y + 1)). pose proof (year_next y).
  destruct (year_start (y + 1) <=? N) eqn:E; [apply Z.leb_le in E; lia|]. apply Z.leb_gt in E. destruct (N <? year_start y) eqn:E2; [apply Z.ltb_lt in E2; lia|]. apply Z.ltb_ge in E2. lia.
Qed.
Lemma year_of_unique : forall n y, year_start y <= n + epoch_days < year_start (y + 1) -> year_of n = y.
Proof.
  intros n y B. pose proof (year_of_ok n) as C. destruct (Z.lt_trichotomy (year_of n) y) as [L|[L|L]]; [|exact L|].
  - pose proof (year_mono _ _ L). lia.
  - pose proof (year_mono _ _ L). lia.
Qed.
(** Months. *)
Lemma twelve : forall m, 1 <= m <= 12 -> m = 1 \/ m = 2 \/ m = 3 \/ m = 4 \/ m = 5 \/ m = 6 \/ m = 7 \/ m = 8 \/ m = 9 \/ m = 10 \/ m = 11 \/ m = 12.
Proof. lia. Qed.
Ltac months H := apply twelve in H; repeat (destruct H as [-> | H]); try subst.
Lemma month_next : forall y m, 1 <= m < 12 -> month_start y (m + 1) = month_start y m + mdays y m.
Proof. intros y m H. assert (H2 : 1 <= m <= 12) by lia. months H2; try lia; unfold month_start, mdays; cbn; destruct (leap y); reflexivity. Qed.
Lemma month_end : forall y, month_start y 12 + mdays y 12 = year_days y.
Proof. intros y. unfold month_start, mdays, year_days. cbn. destruct (leap y); reflexivity. Qed.
Lemma month_first : forall y, month_start y 1 = 0.
Proof. reflexivity. Qed.
Lemma mdays_bounds : forall y m, 28 <= mdays y m <= 31.
Proof. intros y m. unfold mdays. destruct (m =? 2), ((m =? 4) || (m =? 6) || (m =? 9) || (m =? 11)), (leap y); lia. Qed.
Lemma month_of_ok : forall y o, 0 <= o < year_days y -> 1 <= month_of y o <= 12 /\ month_start y (month_of y o) <= o < month_start y (month_of y o) + mdays y (month_of y o).
Proof.
  intros y o B. unfold month_of. unfold year_days in B.
  repeat match goal with |- context [o <? month_start y ?k] => let E := fresh "E" in destruct (o <? month_start y k) eqn:E; [apply Z.ltb_lt in E|apply Z.ltb_ge in E] end;
  (split; [lia|]); unfold month_start, mdays in *; cbn in *; destruct (leap y); lia.
Qed.
Lemma month_mono : forall y m k, 1 <= m -> m < k -> k <= 12 -> month_start y m + mdays y m <= month_start y k.
Proof.
  intros y m k H1 H2 H3. assert (E : k = m + 1 + Z.of_nat (Z.to_nat (k - m - 1))) by lia. rewrite E in *. revert H3. generalize (Z.to_nat (k - m - 1)). intros n. clear E H2. induction n as [|n IH]; intros H3.
  - replace (m + 1 + Z.of_nat 0) with (m + 1) by lia. rewrite month_next; lia.
  - replace (m + 1 + Z.of_nat (S n)) with (m + 1 + Z.of_nat n + 1) in * by lia. rewrite month_next by lia. pose proof (mdays_bounds y (m + 1 + Z.of_nat n)). specialize (IH ltac:(lia)). lia.
Qed.
Lemma month_of_unique : forall y o m, 1 <= m <= 12 -> month_start y m <= o < month_start y m + mdays y m -> month_of y o = m.
Proof.
  intros y o m M B. assert (Bo : 0 <= o < year_days y).
  { split; [destruct (Z.eq_dec m 1) as [->|N]; [rewrite month_first in B; lia|pose proof (month_mono y 1 m ltac:(lia) ltac:(lia) ltac:(lia)); pose proof (mdays_bounds y 1); rewrite month_first in *; lia]|].
    rewrite <- month_end. destruct (Z.eq_dec m 12) as [->|N]; [lia|]. pose proof (month_mono y m 12 ltac:(lia) ltac:(lia) ltac:(lia)). pose proof (mdays_bounds y 12). lia. }
  destruct (month_of_ok y o Bo) as [M2 B2]. destruct (Z.lt_trichotomy (month_of y o) m) as [L|[L|L]]; [|exact L|].
  - pose proof (month_mono y (month_of y o) m ltac:(lia) L ltac:(lia)). lia.
  - pose proof (month_mono y m (month_of y o) ltac:(lia) L ltac:(lia)). lia.
Qed.
(** Dates that exist. *)
Definition date_ok (y m d : Z) : Prop := 1 <= m <= 12 /\ 1 <= d <= mdays y m.
Lemma day_in_year : forall y m d, date_ok y m d -> year_start y <= day_number y m d + epoch_days < year_start (y + 1).
Proof.
  intros y m d [M D]. unfold day_number. rewrite year_next, <- month_end. assert (0 <= month_start y m) by (destruct (Z.eq_dec m 1) as [->|N]; [rewrite month_first; lia|pose proof (month_mono y 1 m ltac:(lia) ltac:(lia) ltac:(lia)); pose proof (mdays_bounds y 1); rewrite month_first in *; lia]).
  split; [lia|]. destruct (Z.eq_dec m 12) as [->|N]; [lia|]. pose proof (month_mono y m 12 ltac:(lia) ltac:(lia) ltac:(lia)). pose proof (mdays_bounds y 12). lia.
Qed.
Lemma civil_number : forall y m d, date_ok y m d -> civil (day_number y m d) = (y, m, d).
Proof.
  intros y m d K. pose proof (day_in_year y m d K) as B. destruct K as [M D]. unfold civil. rewrite (year_of_unique _ y B). replace (day_number y m d + epoch_days - year_start y) with (month_start y m + d - 1) by (unfold day_number; lia).
  rewrite (month_of_unique y (month_start y m + d - 1) m) by lia. f_equal. lia.
Qed.
Lemma number_civil : forall n y m d, civil n = (y, m, d) -> date_ok y m d /\ day_number y m d = n.
Proof.
  intros n y m d E. unfold civil in E. injection E as E1 E2 E3. pose proof (year_of_ok n) as B. rewrite year_next in B. destruct (month_of_ok (year_of n) (n + epoch_days - year_start (year_of n)) ltac:(lia)) as [M Bm].
  subst y. rewrite E2 in *. unfold day_number, date_ok. lia.
Qed.
(** The order of dates is the order of their numbers. *)
Lemma number_lt : forall y m d y2 m2 d2, date_ok y m d -> date_ok y2 m2 d2 -> (day_number y m d < day_number y2 m2 d2 <-> y < y2 \/ y = y2 /\ (m < m2 \/ m = m2 /\ d < d2)).
Proof.
  assert (G : forall y m d y2 m2 d2, date_ok y m d -> date_ok y2 m2 d2 -> (y < y2 \/ y = y2 /\ (m < m2 \/ m = m2 /\ d < d2)) -> day_number y m d < day_number y2 m2 d2).
  { intros y m d y2 m2 d2 K K2 [L|[-> [L|[-> L]]]].
    - pose proof (day_in_year _ _ _ K). pose proof (day_in_year _ _ _ K2). pose proof (year_mono _ _ L). lia.
    - destruct K as [M D], K2 as [M2 D2]. pose proof (month_mono y2 m m2 ltac:(lia) L ltac:(lia)). unfold day_number. lia.
    - unfold day_number. lia. }
  intros y m d y2 m2 d2 K K2. split; [|now apply G]. intros L. destruct (Z.lt_trichotomy y y2) as [Y|[Y|Y]]; [auto| |specialize (G _ _ _ _ _ _ K2 K (or_introl Y)); lia].
  right. split; [exact Y|]. subst y2. destruct (Z.lt_trichotomy m m2) as [Y|[Y|Y]]; [auto| |specialize (G _ _ _ _ _ _ K2 K (or_intror (conj eq_refl (or_introl Y)))); lia].
  right. split; [exact Y|]. subst m2. unfold day_number in L. lia.
Qed.
