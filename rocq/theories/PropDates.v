(** Dates: periods of the calendar (C56), comparisons (C57). *)
From Coq Require Import String Ascii ZArith Bool List Arith Lia.
From Verif Require Import Base Dec Value Ast Ops Funcs Duration DurationSpec Dates DateMethods DateSpec DateFacts DatePeriods DateMath DateCalls.
Import ListNotations.
Local Open Scope string_scope.
Local Open Scope list_scope.
Local Open Scope Z_scope.
Local Strategy 1000 [civil day_number naive_of local].

(** ** C56. The clock of a zone with a fixed offset shows the Gregorian calendar: the readings follow each other as the instants do, every reading that exists is shown, the instant zero is
    the start of 1970 in UTC, and a day of 86400 seconds later the clock shows the next day. *)
Theorem C56_clock : forall C tz c, fixed (zone_of C tz) c ->
  reading C (- c * 1000000000) tz = Naive 1970 1 1 0 0 0 0 /\
  (forall t, clock_ok (reading C t tz)) /\
  (forall x, clock_ok x -> exists t, reading C t tz = x) /\
  (forall t t2, t < t2 <-> earlier (reading C t tz) (reading C t2 tz)) /\
  (forall t, let x := reading C t tz in let y := reading C (t + 86400 * 1000000000) tz in next_day (n_y x, n_m x, n_d x) (n_y y, n_m y, n_d y) /\ same_time x y).
Proof.
  intros C tz c F. split; [exact (clock_epoch C tz c F)|]. split; [intros t; apply local_clock|]. split; [intros x K; exact (clock_shows C tz c x F K)|].
  split; [intros t t2; exact (fixed_lt (dt C t tz) (dt C t2 tz) c F eq_refl)|]. intros t. exact (clock_day C tz c t F).
Qed.
Print Assumptions C56_clock.
(** In every zone: if a period of a date has a start and an end, a reading of the clock is in the period just when it is neither before the start nor after the end. *)
Theorem C56_period : forall C tz t s u t1 t2, zone_ok (zone_of C tz) -> unit_named s = Some u ->
  date_method C "startOf" [dv t tz; VStr s] = Ok (dv t1 tz) -> date_method C "endOf" [dv t tz; VStr s] = Ok (dv t2 tz) ->
  forall x, clock_ok x -> (same_period u (reading C t tz) x <-> ~ earlier x (reading C t1 tz) /\ ~ earlier (reading C t2 tz) x).
Proof.
  intros C tz t s u t1 t2 K E A B x Kx. rewrite (call_start _ _ _ _ _ E) in A. rewrite (call_end _ _ _ _ _ E) in B.
  apply ret_dv in A as (d1 & A & T1). apply ret_dv in B as (d2 & B & T2).
  destruct (start_local u (dt C t tz) d1 K A) as [L1 Z1]. destruct (end_local u (dt C t tz) d2 K B) as [L2 Z2].
  assert (R1 : reading C t1 tz = local d1) by (unfold reading, dt; subst t1; destruct d1; cbn in Z1 |- *; rewrite Z1; reflexivity).
  assert (R2 : reading C t2 tz = local d2) by (unfold reading, dt; subst t2; destruct d2; cbn in Z2 |- *; rewrite Z2; reflexivity).
  rewrite R1, R2, L1, L2. pose proof (first_ok u _ (local_clock (dt C t tz))) as K1. pose proof (last_ok u _ (local_clock (dt C t tz))) as K2.
  rewrite (period_between u _ _ (local_clock (dt C t tz)) Kx), <- (stamp_le _ _ K1 Kx), <- (stamp_le _ _ Kx K2). reflexivity.
Qed.
Print Assumptions C56_period.
(** In a zone with a fixed offset, the start and the end exist, and the instants of the period are those between them. For a quarter, the day of the month must be at most 30. *)
Theorem C56_fixed : forall C tz c t s u, fixed (zone_of C tz) c -> unit_named s = Some u -> mid_range (dt C t tz) -> (u = UQuarter -> n_d (reading C t tz) <= 30) ->
  exists t1 t2, date_method C "startOf" [dv t tz; VStr s] = Ok (dv t1 tz) /\ date_method C "endOf" [dv t tz; VStr s] = Ok (dv t2 tz) /\ t1 <= t <= t2 /\
    forall x, t1 <= x <= t2 <-> same_period u (reading C t tz) (reading C x tz).
Proof.
  intros C tz c t s u F E M Q. destruct (start_make u (dt C t tz) c F M Q) as [d1 A]. destruct (end_make u (dt C t tz) c F M Q) as [d2 B].
  pose proof (fun x => period_instants u (dt C t tz) d1 d2 (dt C x tz) c F A B eq_refl) as P.
  exists (dt_t d1), (dt_t d2). rewrite (call_start _ _ _ _ _ E), (call_end _ _ _ _ _ E), A, B.
  split; [reflexivity|]. split; [reflexivity|]. split; [|exact P]. apply (P t), period_refl, local_clock.
Qed.
Print Assumptions C56_fixed.
(** The start of a start is the start, and the end of an end is the end. *)
Theorem C56_again : forall C tz c t s u t1 t2, fixed (zone_of C tz) c -> unit_named s = Some u -> mid_range (dt C t tz) -> (u = UQuarter -> n_d (reading C t tz) <= 30) ->
  (date_method C "startOf" [dv t tz; VStr s] = Ok (dv t1 tz) -> date_method C "startOf" [dv t1 tz; VStr s] = Ok (dv t2 tz) -> t2 = t1) /\
  (date_method C "endOf" [dv t tz; VStr s] = Ok (dv t1 tz) -> date_method C "endOf" [dv t1 tz; VStr s] = Ok (dv t2 tz) -> t2 = t1).
Proof.
  intros C tz c t s u t1 t2 F E M Q. pose proof (fixed_ok _ _ F) as K.
  rewrite !(call_start _ _ _ _ _ E), !(call_end _ _ _ _ _ E). split; intros A B; apply ret_dv in A as (d1 & A & T1); apply ret_dv in B as (d2 & B & T2).
  - exact (start_again C tz c t u t1 t2 d1 d2 F A T1 B T2).
  - exact (end_again C tz c t u t1 t2 d1 d2 F A T1 B T2).
Qed.
Print Assumptions C56_again.
(** The restriction on quarters is needed: on the 31st of May there is no start of the quarter, in any zone; and on the 31st of July or of August, as on the 31st of May, there is no end. *)
Theorem C56_quarter_refuted : forall C tz t s, unit_named s = Some UQuarter -> n_d (reading C t tz) = 31 ->
  (n_m (reading C t tz) = 5 -> date_method C "startOf" [dv t tz; VStr s] = Ok (invalid tz)) /\
  (zone_ok (zone_of C tz) -> In (n_m (reading C t tz)) [5; 7; 8] -> date_method C "endOf" [dv t tz; VStr s] = Ok (invalid tz)).
Proof.
  intros C tz t s E D. rewrite (call_start _ _ _ _ _ E), (call_end _ _ _ _ _ E). split.
  - intros M. rewrite (quarter_no_start (dt C t tz) D M). reflexivity.
  - intros K M. rewrite (quarter_no_end (dt C t tz) K D M). reflexivity.
Qed.
Print Assumptions C56_quarter_refuted.
(** A zone whose clock jumps from midnight to one o'clock (as America/Sao_Paulo did on 2018-11-04): the day has no start. *)
Definition jump (at_ : Z) : zone := Zone (fun t => if t <? at_ then 0 else 3600) (fun l => if l <? at_ then [l] else if l <? at_ + 3600 then [] else [l - 3600]).
Definition fall (at_ : Z) : zone := Zone (fun t => if t <? at_ then 3600 else 0) (fun l => if l <? at_ then [l - 3600] else if l <? at_ + 3600 then [l - 3600; l] else [l]).
Definition east (h : Z) : zone := Zone (fun _ => h * 3600) (fun l => [l - h * 3600]).
Definition demo_clock : clockwork := Clock (fun s => if s =? "UTC" then Some utc else if s =? "Jump" then Some (jump 1541289600) else if s =? "Fall" then Some (fall 1541289600)
  else if s =? "East" then Some (east 5) else None)%string "UTC" 1700000000000000000 (fun _ => None) (fun _ => None) (fun _ _ => "").
Theorem C56_jump_refuted : zone_ok (jump 1541289600) /\
  n_h (reading demo_clock 1541329200000000000 "Jump") = 12 /\ date_method demo_clock "startOf" [dv 1541329200000000000 "Jump"; VStr "day"] = Ok (invalid "Jump") /\
  date_method demo_clock "isSame" [dv 1541329200000000000 "Jump"; dv 1541329200000000000 "Jump"; VStr "day"] = Ok (VBool false).
Proof.
  split; [|vm_compute; auto]. intros l t. cbn [z_local z_off jump].
  destruct (l <? 1541289600) eqn:A; [|destruct (l <? 1541289600 + 3600) eqn:B; [discriminate|]]; intros E; injection E as E; subst t.
  - rewrite A. lia.
  - apply Z.ltb_ge in B. replace (l - 3600 <? 1541289600) with false; [lia|]. symmetry. apply Z.ltb_ge. lia.
Qed.
Print Assumptions C56_jump_refuted.
Example C56_case : fixed (zone_of demo_clock "East") 18000 /\ mid_range (dt demo_clock 1541329200000000000 "East") /\ n_d (reading demo_clock 1541329200000000000 "East") = 4 /\
  date_method demo_clock "startOf" [dv 1541329200000000000 "East"; VStr "week"] = Ok (dv 1540753200000000000 "East") /\
  date_method demo_clock "endOf" [dv 1541329200000000000 "East"; VStr "week"] = Ok (dv 1541357999999999999 "East") /\
  date_method demo_clock "startOf" [dv 1541329200000000000 "East"; VStr "quarter"] = Ok (dv 1538334000000000000 "East") /\
  reading demo_clock 1538334000000000000 "East" = Naive 2018 10 1 0 0 0 0.
Proof. split; [repeat split; intros; cbn; lia || reflexivity|]. split; [vm_compute; split; discriminate|]. vm_compute. auto 10. Qed.

(** ** C57. Comparing two dates of one zone by a unit: they are the same when they are in the same period; one is before the other when it is earlier and they are not the same. *)
Theorem C57_compare : forall C tz c t t2 s u, fixed (zone_of C tz) c -> unit_named s = Some u -> mid_range (dt C t tz) -> (u = UQuarter -> n_d (reading C t tz) <= 30) ->
  let x := reading C t tz in let y := reading C t2 tz in
  (exists b, date_method C "isSame" [dv t tz; dv t2 tz; VStr s] = Ok (VBool b) /\ (b = true <-> same_period u x y)) /\
  (exists b, date_method C "isBefore" [dv t tz; dv t2 tz; VStr s] = Ok (VBool b) /\ (b = true <-> earlier x y /\ ~ same_period u x y)) /\
  (exists b, date_method C "isAfter" [dv t tz; dv t2 tz; VStr s] = Ok (VBool b) /\ (b = true <-> earlier y x /\ ~ same_period u x y)) /\
  (exists b, date_method C "isSameOrBefore" [dv t tz; dv t2 tz; VStr s] = Ok (VBool b) /\ (b = true <-> earlier x y \/ same_period u x y)) /\
  (exists b, date_method C "isSameOrAfter" [dv t tz; dv t2 tz; VStr s] = Ok (VBool b) /\ (b = true <-> earlier y x \/ same_period u x y)).
Proof.
  intros C tz c t t2 s u F E M Q x y. pose proof (same_iff (dt C t tz) (dt C t2 tz) u c F eq_refl M Q) as PS. pose proof (before_iff (dt C t tz) (dt C t2 tz) u c F eq_refl M Q) as PB.
  pose proof (after_iff (dt C t tz) (dt C t2 tz) u c F eq_refl M Q) as PA. fold (reading C t tz) (reading C t2 tz) in PS, PB, PA. fold x y in PS, PB, PA.
  assert (Dec : same_period u x y \/ ~ same_period u x y) by (destruct (vm_cmp is_same (Some (dt C t tz)) (Some (dt C t2 tz)) (Some u)); [left; apply PS; reflexivity|right; intros H; apply PS in H; discriminate]).
  split; [eexists; split; [apply (call_cmp C "isSame" _ t tz t2 tz s u eq_refl E)|exact PS]|].
  split; [eexists; split; [apply (call_cmp C "isBefore" _ t tz t2 tz s u eq_refl E)|exact PB]|].
  split; [eexists; split; [apply (call_cmp C "isAfter" _ t tz t2 tz s u eq_refl E)|exact PA]|].
  split; eexists; (split; [first [apply (call_cmp C "isSameOrBefore" _ t tz t2 tz s u eq_refl E)|apply (call_cmp C "isSameOrAfter" _ t tz t2 tz s u eq_refl E)]|]);
    unfold same_or_before, same_or_after; rewrite orb_true_iff, PS, ?PB, ?PA; tauto.
Qed.
Print Assumptions C57_compare.
(** Just one of the three holds, and the first date is before the second just when the second is after the first. *)
Theorem C57_order : forall C tz c t t2 s u, fixed (zone_of C tz) c -> unit_named s = Some u -> mid_range (dt C t tz) -> mid_range (dt C t2 tz) ->
  (u = UQuarter -> n_d (reading C t tz) <= 30 /\ n_d (reading C t2 tz) <= 30) ->
  exists same before after, date_method C "isSame" [dv t tz; dv t2 tz; VStr s] = Ok (VBool same) /\ date_method C "isSame" [dv t2 tz; dv t tz; VStr s] = Ok (VBool same) /\
    date_method C "isBefore" [dv t tz; dv t2 tz; VStr s] = Ok (VBool before) /\ date_method C "isAfter" [dv t2 tz; dv t tz; VStr s] = Ok (VBool before) /\
    date_method C "isAfter" [dv t tz; dv t2 tz; VStr s] = Ok (VBool after) /\ date_method C "isBefore" [dv t2 tz; dv t tz; VStr s] = Ok (VBool after) /\
    In (same, before, after) [(true, false, false); (false, true, false); (false, false, true)].
Proof.
  intros C tz c t t2 s u F E M M2 Q.
  destruct (C57_compare C tz c t t2 s u F E M (fun H => proj1 (Q H))) as ((s1 & S1 & P1) & (b1 & B1 & P2) & (a1 & A1 & P3) & _).
  destruct (C57_compare C tz c t2 t s u F E M2 (fun H => proj2 (Q H))) as ((s2 & S2 & P4) & (b2 & B2 & P5) & (a2 & A2 & P6) & _).
  pose proof (period_sym u (reading C t tz) (reading C t2 tz)) as Y1. pose proof (period_sym u (reading C t2 tz) (reading C t tz)) as Y2.
  pose proof (fixed_lt (dt C t tz) (dt C t2 tz) c F eq_refl) as O1. pose proof (fixed_lt (dt C t2 tz) (dt C t tz) c F eq_refl) as O2. cbn [dt dt_t] in O1, O2.
  fold (dt C t tz) (dt C t2 tz) in O1, O2. fold (reading C t tz) (reading C t2 tz) in O1, O2.
  pose proof (period_refl u (reading C t tz) (local_clock _)) as R.
  assert (X : same_period u (reading C t tz) (reading C t2 tz) \/ ~ same_period u (reading C t tz) (reading C t2 tz)) by (destruct s1; [left; apply P1; reflexivity|right; intros H; apply P1 in H; discriminate]).
  assert (s2 = s1) by (apply Bool.eq_iff_eq_true; tauto). assert (a2 = b1) by (apply Bool.eq_iff_eq_true; tauto). assert (b2 = a1) by (apply Bool.eq_iff_eq_true; tauto). subst s2 a2 b2.
  exists s1, b1, a1. rewrite S1, S2, B1, A2, A1, B2. repeat (split; [reflexivity|]). clear S1 S2 B1 A2 A1 B2.
  destruct (Z.lt_trichotomy t t2) as [L|[L|L]].
  - assert (N : ~ t2 < t) by lia. destruct s1, b1, a1; cbn; intuition congruence.
  - subst t2. assert (N : ~ t < t) by lia. destruct s1, b1, a1; cbn; intuition congruence.
  - assert (N : ~ t < t2) by lia. destruct s1, b1, a1; cbn; intuition congruence.
Qed.
Print Assumptions C57_order.
(** Without a unit, [isBefore] and [isAfter] compare instants, in any zones, and [isSame] compares milliseconds. *)
Theorem C57_instants : forall C tz tz2 t t2,
  date_method C "isBefore" [dv t tz; dv t2 tz2] = Ok (VBool (t <? t2)) /\ date_method C "isAfter" [dv t tz; dv t2 tz2] = Ok (VBool (t2 <? t)) /\
  date_method C "isSame" [dv t tz; dv t2 tz2] = Ok (VBool (t / 1000000 =? t2 / 1000000)).
Proof. intros. repeat split. Qed.
Print Assumptions C57_instants.
(** So two dates can be the same and one before the other. *)
Theorem C57_instants_refuted : exists t t2, forall C tz, date_method C "isSame" [dv t tz; dv t2 tz] = Ok (VBool true) /\ date_method C "isBefore" [dv t tz; dv t2 tz] = Ok (VBool true).
Proof. exists 0, 1. intros C tz. split; reflexivity. Qed.
Print Assumptions C57_instants_refuted.
(** With two zones, the period is that of the zone of the first date: [isSame] depends on the order. *)
Theorem C57_zones_refuted : exists t t2, date_method demo_clock "isSame" [dv t "UTC"; dv t2 "East"; VStr "day"] = Ok (VBool true) /\
  date_method demo_clock "isSame" [dv t2 "East"; dv t "UTC"; VStr "day"] = Ok (VBool false).
Proof. exists 0, 72000000000000. vm_compute. auto. Qed.
Print Assumptions C57_zones_refuted.
(** An invalid date is neither the same, nor before, nor after. *)
Theorem C57_invalid : forall C tz tz2 t d k, In k ["isSame"; "isBefore"; "isAfter"; "isSameOrBefore"; "isSameOrAfter"] ->
  date_method C k [invalid tz; d] = Ok (VBool false) /\ date_method C k [dv t tz; invalid tz2] = Ok (VBool false).
Proof. intros C tz tz2 t d k K. repeat (destruct K as [<-|K]; [split; reflexivity|]). destruct K. Qed.
Print Assumptions C57_invalid.
Example C57_case : date_method demo_clock "isSame" [dv 1541329200000000000 "East"; dv 1540753200000000000 "East"; VStr "week"] = Ok (VBool true) /\
  date_method demo_clock "isBefore" [dv 1540753200000000000 "East"; dv 1541329200000000000 "East"; VStr "month"] = Ok (VBool true) /\
  date_method demo_clock "isSame" [dv 1540753200000000000 "East"; dv 1541329200000000000 "East"; VStr "quarter"] = Ok (VBool true).
Proof. vm_compute. auto. Qed.
