(** Calls of the methods of dates, and what the functions of Dates.v then compute. *)
From Coq Require Import String Ascii ZArith Bool List Arith Lia.
From Verif Require Import Base Dec Value Ast Ops Funcs Duration DurationSpec DurationFacts Dates DateMethods DateSpec CalendarFacts DateFacts DatePeriods DateMath.
Import ListNotations.
Local Open Scope string_scope.
Local Open Scope list_scope.
Local Open Scope Z_scope.
Local Strategy 1000 [civil day_number naive_of local].

(** A valid date, and what the clock of its zone shows. *)
Definition dv (t : Z) (tz : string) : value := VDyn (DDate (VmDate (Some t) tz)).
Definition invalid (tz : string) : value := VDyn (DDate (VmDate None tz)).
Definition dt (C : clockwork) (t : Z) (tz : string) : datetime := DateTime t (zone_of C tz).
Definition reading (C : clockwork) (t : Z) (tz : string) : naive := local (dt C t tz).
Definition ret (tz : string) (o : vm_date) : res value := match o with Some d => Ok (dv (dt_t d) tz) | None => Ok (invalid tz) end.

Lemma ret_is : forall tz o, ret_date tz o = ret tz o. Proof. intros tz [d|]; reflexivity. Qed.
Lemma ret_dv : forall tz o t, ret tz o = Ok (dv t tz) -> exists d, o = Some d /\ dt_t d = t.
Proof. intros tz [d|] t; cbn; unfold dv, invalid; intros E; [|discriminate]. injection E as E. exists d. split; [reflexivity|exact E]. Qed.
Lemma unit_arg : forall v s u, unit_named s = Some u -> arg_unit [v; VStr s] 1 = Ok u.
Proof. intros v s u E. unfold arg_unit. cbn [arg_str nth_error bind]. rewrite parse_named, E. reflexivity. Qed.
Lemma ounit_arg : forall v w s u, unit_named s = Some u -> arg_ounit [v; w; VStr s] 2 = Ok (Some u).
Proof. intros v w s u E. unfold arg_ounit. cbn [arg_ostr nth_error bind]. rewrite parse_named, E. reflexivity. Qed.
Section Calls.
  Context (C : clockwork).
  Lemma call_start : forall t tz s u, unit_named s = Some u -> date_method C "startOf" [dv t tz; VStr s] = ret tz (start_of (dt C t tz) u).
  Proof.
    intros t tz s u E. change (date_method C "startOf" [dv t tz; VStr s]) with (do u <- arg_unit [dv t tz; VStr s] 1; ret_date tz (start_of (dt C t tz) u)).
    rewrite (unit_arg _ _ _ E). cbn [bind]. apply ret_is.
  Qed.
  Lemma call_end : forall t tz s u, unit_named s = Some u -> date_method C "endOf" [dv t tz; VStr s] = ret tz (end_of (dt C t tz) u).
  Proof.
    intros t tz s u E. change (date_method C "endOf" [dv t tz; VStr s]) with (do u <- arg_unit [dv t tz; VStr s] 1; ret_date tz (end_of (dt C t tz) u)).
    rewrite (unit_arg _ _ _ E). cbn [bind]. apply ret_is.
  Qed.
  Lemma call_cmp : forall k f t tz t2 tz2 s u, comparison k = Some f -> unit_named s = Some u ->
    date_method C k [dv t tz; dv t2 tz2; VStr s] = Ok (VBool (f (Some (dt C t tz)) (Some (dt C t2 tz2)) (Some u))).
  Proof.
    intros k f t tz t2 tz2 s u K E.
    assert (D : date_method C k [dv t tz; dv t2 tz2; VStr s] = do u <- arg_ounit [dv t tz; dv t2 tz2; VStr s] 2; Ok (VBool (f (Some (dt C t tz)) (Some (dt C t2 tz2)) u))).
    { unfold comparison in K. destruct (String.eqb_spec k "isSame"); [subst k; injection K as K; subst f; reflexivity|].
      destruct (String.eqb_spec k "isBefore"); [subst k; injection K as K; subst f; reflexivity|].
      destruct (String.eqb_spec k "isAfter"); [subst k; injection K as K; subst f; reflexivity|].
      destruct (String.eqb_spec k "isSameOrBefore"); [subst k; injection K as K; subst f; reflexivity|].
      destruct (String.eqb_spec k "isSameOrAfter"); [subst k; injection K as K; subst f; reflexivity|discriminate]. }
    rewrite D, (ounit_arg _ _ _ _ E). reflexivity.
  Qed.
  Lemma call_cmp2 : forall k f t tz t2 tz2, comparison k = Some f ->
    date_method C k [dv t tz; dv t2 tz2] = Ok (VBool (f (Some (dt C t tz)) (Some (dt C t2 tz2)) None)).
  Proof.
    intros k f t tz t2 tz2 K.
    unfold comparison in K. destruct (String.eqb_spec k "isSame"); [subst k; injection K as K; subst f; reflexivity|].
    destruct (String.eqb_spec k "isBefore"); [subst k; injection K as K; subst f; reflexivity|].
    destruct (String.eqb_spec k "isAfter"); [subst k; injection K as K; subst f; reflexivity|].
    destruct (String.eqb_spec k "isSameOrBefore"); [subst k; injection K as K; subst f; reflexivity|].
    destruct (String.eqb_spec k "isSameOrAfter"); [subst k; injection K as K; subst f; reflexivity|discriminate].
  Qed.
  Definition scaled (n : Z) (d : duration) : duration := Dur (n * du_seconds d) (n * du_months d) (n * du_years d).
  Definition small (n : Z) (d : duration) : Prop := - 2 ^ 63 < n * du_seconds d < 2 ^ 63 /\ - 2 ^ 31 < n * du_months d < 2 ^ 31 /\ - 2 ^ 31 < n * du_years d < 2 ^ 31.
  Lemma i64_fits : forall n, - 2 ^ 63 < n < 2 ^ 63 -> dec_to_i64 (Dec n 0) = Some n.
  Proof. intros n B. unfold dec_to_i64, dec_trunc. cbn [mant scale pow10]. change (pow10 0) with 1. rewrite Z.quot_1_r. replace ((- 2 ^ 63 <=? n) && (n <? 2 ^ 63)) with true; [reflexivity|]. symmetry. apply andb_true_intro. split; [apply Z.leb_le|apply Z.ltb_lt]; lia. Qed.
  Lemma i32_fits : forall n, - 2 ^ 31 < n < 2 ^ 31 -> (- 2 ^ 31 <=? n) && (n <? 2 ^ 31) = true.
  Proof. intros n B. apply andb_true_intro. split; [apply Z.leb_le|apply Z.ltb_lt]; lia. Qed.
  Lemma from_unit_ok : forall n u, small n (unit_size u) -> from_unit (dec_of_Z n) u = Ok (Some (scaled n (unit_size u))).
  Proof.
    intros n u (A & B & D). unfold from_unit, dec_of_Z. cbn [mant scale].
    destruct u; cbn [as_secs unit_size scaled du_seconds du_months du_years] in *; unfold scaled; cbn [du_seconds du_months du_years]; rewrite ?Z.mul_0_r;
      try (rewrite i64_fits by (change (86400 * 7) with 604800; lia); change (86400 * 7) with 604800; cbn [option_map]; rewrite ?Z.mul_1_r; reflexivity);
      rewrite (i64_fits n) by lia; rewrite (i32_fits n) by lia; rewrite ?(i32_fits (n * 3)) by lia; rewrite ?Z.mul_1_r; reflexivity.
  Qed.
  Lemma duration_arg : forall v n s u, unit_named s = Some u -> small n (unit_size u) -> arg_duration [v; num n; VStr s] 1 = Ok (scaled n (unit_size u)).
  Proof.
    intros v n s u E B. unfold arg_duration, num. cbn [arg nth_error of_option bind]. unfold arg_unit. cbn [Nat.add arg_str nth_error bind]. rewrite parse_named, E. cbn [of_option bind].
    rewrite (from_unit_ok n u B). reflexivity.
  Qed.
  Lemma call_add : forall t tz n s u, unit_named s = Some u -> small n (unit_size u) ->
    date_method C "add" [dv t tz; num n; VStr s] = ret tz (add_duration (dt C t tz) (scaled n (unit_size u))).
  Proof.
    intros t tz n s u E B. change (date_method C "add" [dv t tz; num n; VStr s]) with (do w <- arg_duration [dv t tz; num n; VStr s] 1; ret_date tz (add_duration (dt C t tz) w)).
    rewrite (duration_arg _ _ _ _ E B). cbn [bind]. apply ret_is.
  Qed.
  Lemma call_sub : forall t tz n s u, unit_named s = Some u -> small n (unit_size u) ->
    date_method C "sub" [dv t tz; num n; VStr s] = ret tz (add_duration (dt C t tz) (scaled (- n) (unit_size u))).
  Proof.
    intros t tz n s u E B. change (date_method C "sub" [dv t tz; num n; VStr s]) with (do w <- arg_duration [dv t tz; num n; VStr s] 1; ret_date tz (add_duration (dt C t tz) (dur_neg w))).
    rewrite (duration_arg _ _ _ _ E B). cbn [bind].
    replace (dur_neg (scaled n (unit_size u))) with (scaled (- n) (unit_size u)); [apply ret_is|]. unfold dur_neg, scaled. cbn [du_seconds du_months du_years]. rewrite !Z.mul_opp_l. reflexivity.
  Qed.
  Lemma call_diff : forall t tz t2 tz2 s u, unit_named s = Some u -> date_method C "diff" [dv t tz; dv t2 tz2; VStr s] = Ok (num (diff (dt C t tz) (dt C t2 tz2) (Some u))).
  Proof.
    intros t tz t2 tz2 s u E.
    change (date_method C "diff" [dv t tz; dv t2 tz2; VStr s]) with (do u <- arg_ounit [dv t tz; dv t2 tz2; VStr s] 2; Ok (num (diff (dt C t tz) (dt C t2 tz2) u))).
    rewrite (ounit_arg _ _ _ _ E). reflexivity.
  Qed.
  Lemma call_diff2 : forall t tz t2 tz2, date_method C "diff" [dv t tz; dv t2 tz2] = Ok (num (t / 1000000 - t2 / 1000000)).
  Proof. reflexivity. Qed.
End Calls.

(** ** Periods. *)
Lemma period_refl : forall u x, clock_ok x -> same_period u x x.
Proof.
  intros u x K. apply clock_date in K. destruct u; cbn [same_period]; try reflexivity.
  - exists ((day_number (n_y x) (n_m x) (n_d x) - 4) / 7). pose proof (Z.div_mod (day_number (n_y x) (n_m x) (n_d x) - 4) 7 ltac:(lia)). pose proof (Z.mod_pos_bound (day_number (n_y x) (n_m x) (n_d x) - 4) 7 ltac:(lia)).
    cbv zeta. lia.
  - split; [reflexivity|]. exists (third (n_m x)). destruct (third_ok (n_m x) (proj1 K)). lia.
Qed.
Lemma period_sym : forall u x y, same_period u x y -> same_period u y x.
Proof.
  intros u x y. destruct u; cbn [same_period]; try (intros E; symmetry; exact E).
  - intros (w & A & B). exists w. cbv zeta. split; assumption.
  - intros (A & q & Q & B & D). split; [symmetry; exact A|]. exists q. auto.
Qed.
Lemma period_trans : forall u x y z, same_period u x y -> same_period u y z -> same_period u x z.
Proof.
  intros u x y z. destruct u; cbn [same_period]; try (intros A B; etransitivity; eassumption).
  - intros (w & A & B) (v & D & E). exists w. cbv zeta in *. assert (w = v) by lia. subst v. split; assumption.
  - intros (A & q & Q & B & D) (E & r & R & F & G). assert (q = r) by lia. subst r. split; [congruence|]. exists q. auto.
Qed.
(** In a zone with a fixed offset, the instants of a period are those between its start and its end. *)
Lemma fixed_le : forall a b c, fixed (dt_z a) c -> dt_z b = dt_z a -> (dt_t a <= dt_t b <-> stamp (local a) <= stamp (local b)).
Proof. intros a b c F Z. rewrite (fixed_stamp a c F), (fixed_stamp b c); [lia|rewrite Z; exact F]. Qed.
Lemma fixed_lt : forall a b c, fixed (dt_z a) c -> dt_z b = dt_z a -> (dt_t a < dt_t b <-> earlier (local a) (local b)).
Proof. intros a b c F Z. rewrite (fixed_stamp a c F), (fixed_stamp b c); [|rewrite Z; exact F]. rewrite <- (stamp_lt _ _ (local_clock a) (local_clock b)). lia. Qed.
Lemma period_instants : forall u d s e b c, fixed (dt_z d) c -> start_of d u = Some s -> end_of d u = Some e -> dt_z b = dt_z d ->
  (dt_t s <= dt_t b <= dt_t e <-> same_period u (local d) (local b)).
Proof.
  intros u d s e b c F Hs He Z. pose proof (fixed_ok _ _ F) as K. destruct (start_local u d s K Hs) as [Ls Zs]. destruct (end_local u d e K He) as [Le Ze].
  rewrite (period_between u _ _ (local_clock d) (local_clock b)), <- Ls, <- Le.
  rewrite (fixed_le s b c); [|rewrite Zs; exact F|congruence]. rewrite (fixed_le b e c); [|rewrite Z; exact F|congruence]. reflexivity.
Qed.
(** In a zone with a fixed offset the clock shows every reading. *)
Lemma reading_of : forall C tz c x, fixed (zone_of C tz) c -> clock_ok x -> reading C (stamp x - c * giga) tz = x.
Proof.
  intros C tz c x F K. apply stamp_inj; [apply local_clock|exact K|]. pose proof (fixed_stamp (dt C (stamp x - c * giga) tz) c F) as T.
  unfold reading. set (d := dt C (stamp x - c * giga) tz) in *. assert (U : dt_t d = stamp x - c * giga) by reflexivity. lia.
Qed.
Lemma clock_shows : forall C tz c x, fixed (zone_of C tz) c -> clock_ok x -> exists t, reading C t tz = x.
Proof. intros C tz c x F K. exists (stamp x - c * giga). exact (reading_of C tz c x F K). Qed.
Lemma epoch_ok : clock_ok (Naive 1970 1 1 0 0 0 0) /\ stamp (Naive 1970 1 1 0 0 0 0) = 0.
Proof. split; [|vm_compute; reflexivity]. apply clock_iff. cbn. unfold date_ok, giga. cbn. lia. Qed.
Lemma clock_epoch : forall C tz c, fixed (zone_of C tz) c -> reading C (- c * 1000000000) tz = Naive 1970 1 1 0 0 0 0.
Proof. intros C tz c F. destruct epoch_ok as [K T]. pose proof (reading_of C tz c _ F K) as R. rewrite T in R. rewrite <- R. f_equal. unfold giga. lia. Qed.
Lemma next_stamp : forall x, clock_ok x -> let '(y, m, d) := civil (day_number (n_y x) (n_m x) (n_d x) + 1) in
  let z := Naive y m d (n_h x) (n_mi x) (n_s x) (n_ns x) in clock_ok z /\ stamp z = stamp x + 86400 * giga /\ next_day (n_y x, n_m x, n_d x) (y, m, d).
Proof.
  intros x K. pose proof (civil_step (day_number (n_y x) (n_m x) (n_d x))) as S1. rewrite (civil_number _ _ _ (clock_date x K)) in S1.
  destruct (civil_split (day_number (n_y x) (n_m x) (n_d x) + 1)) as (y & m & d & E & O & N). rewrite E in *. cbv zeta. split; [|split; [|exact S1]].
  - apply clock_iff in K. apply clock_iff. cbn [n_y n_m n_d n_h n_mi n_s n_ns]. split; [exact O|apply K].
  - rewrite !stamp_eq. unfold naive_secs, day_secs, giga. cbn [n_y n_m n_d n_h n_mi n_s n_ns]. rewrite N. lia.
Qed.
Lemma clock_day : forall C tz c t, fixed (zone_of C tz) c -> let x := reading C t tz in let y := reading C (t + 86400 * 1000000000) tz in
  next_day (n_y x, n_m x, n_d x) (n_y y, n_m y, n_d y) /\ same_time x y.
Proof.
  intros C tz c t F x y. pose proof (local_clock (dt C t tz)) as K. fold (reading C t tz) in K. fold x in K. pose proof (next_stamp x K) as N.
  destruct (civil (day_number (n_y x) (n_m x) (n_d x) + 1)) as [[a b] d]. cbv zeta in N. destruct N as (Kz & T & S1). set (z := Naive a b d (n_h x) (n_mi x) (n_s x) (n_ns x)) in *.
  assert (E : y = z).
  { pose proof (fixed_stamp (dt C t tz) c F) as T1. fold (reading C t tz) in T1. fold x in T1. cbn [dt dt_t] in T1.
    pose proof (reading_of C tz c z F Kz) as R. rewrite T in R. unfold y. rewrite <- R. f_equal. unfold giga in *. lia. }
  rewrite E. split; [exact S1|reflexivity].
Qed.
(** Starts of starts. *)
Lemma dt_is : forall C tz d, dt_z d = zone_of C tz -> dt C (dt_t d) tz = d. Proof. intros C tz [t z] E. unfold dt. cbn in *. rewrite E. reflexivity. Qed.
Lemma start_again : forall C tz c t u t1 t2 d1 d2, fixed (zone_of C tz) c -> start_of (dt C t tz) u = Some d1 -> dt_t d1 = t1 -> start_of (dt C t1 tz) u = Some d2 -> dt_t d2 = t2 -> t2 = t1.
Proof.
  intros C tz c t u t1 t2 d1 d2 F A T1 B T2. pose proof (fixed_ok _ _ F) as K. destruct (start_local u (dt C t tz) d1 K A) as [L1 Z1]. subst t1. rewrite (dt_is C tz d1 Z1) in B.
  assert (K1 : zone_ok (dt_z d1)) by (rewrite Z1; exact K). destruct (start_local u _ d2 K1 B) as [L2 Z2]. subst t2.
  assert (F1 : fixed (dt_z d1) c) by (rewrite Z1; exact F).
  pose proof (local_clock (dt C t tz)) as Kx. pose proof (first_ok u _ Kx) as Kf. rewrite <- L1 in Kf.
  pose proof (proj1 (period_between u _ _ Kf Kf) (period_refl u _ Kf)) as P1. rewrite <- L2 in P1.
  assert (Q : same_period u (local (dt C t tz)) (local d1)).
  { apply (period_between u _ _ Kx Kf). rewrite <- L1. pose proof (proj1 (period_between u _ _ Kx Kx) (period_refl u _ Kx)) as P. rewrite <- L1 in P. lia. }
  assert (Q2 : same_period u (local d1) (local d2)).
  { apply (period_between u _ _ Kf (local_clock d2)). rewrite <- L2. pose proof (proj1 (period_between u _ _ Kf Kf) (period_refl u _ Kf)) as P. rewrite <- L2 in P. lia. }
  pose proof (proj1 (period_between u _ _ Kx (local_clock d2)) (period_trans u _ _ _ Q Q2)) as P3. rewrite <- L1 in P3.
  rewrite (fixed_stamp d1 c F1), (fixed_stamp d2 c); [lia|rewrite Z2; exact F1].
Qed.
Lemma end_again : forall C tz c t u t1 t2 d1 d2, fixed (zone_of C tz) c -> end_of (dt C t tz) u = Some d1 -> dt_t d1 = t1 -> end_of (dt C t1 tz) u = Some d2 -> dt_t d2 = t2 -> t2 = t1.
Proof.
  intros C tz c t u t1 t2 d1 d2 F A T1 B T2. pose proof (fixed_ok _ _ F) as K. destruct (end_local u (dt C t tz) d1 K A) as [L1 Z1]. subst t1. rewrite (dt_is C tz d1 Z1) in B.
  assert (K1 : zone_ok (dt_z d1)) by (rewrite Z1; exact K). destruct (end_local u _ d2 K1 B) as [L2 Z2]. subst t2.
  assert (F1 : fixed (dt_z d1) c) by (rewrite Z1; exact F).
  pose proof (local_clock (dt C t tz)) as Kx. pose proof (last_ok u _ Kx) as Kf. rewrite <- L1 in Kf.
  pose proof (proj1 (period_between u _ _ Kf Kf) (period_refl u _ Kf)) as P1. rewrite <- L2 in P1.
  assert (Q : same_period u (local (dt C t tz)) (local d1)).
  { apply (period_between u _ _ Kx Kf). rewrite <- L1. pose proof (proj1 (period_between u _ _ Kx Kx) (period_refl u _ Kx)) as P. rewrite <- L1 in P. lia. }
  assert (Q2 : same_period u (local d1) (local d2)).
  { apply (period_between u _ _ Kf (local_clock d2)). rewrite <- L2. pose proof (proj1 (period_between u _ _ Kf Kf) (period_refl u _ Kf)) as P. rewrite <- L2 in P. lia. }
  pose proof (proj1 (period_between u _ _ Kx (local_clock d2)) (period_trans u _ _ _ Q Q2)) as P3. rewrite <- L1 in P3.
  rewrite (fixed_stamp d1 c F1), (fixed_stamp d2 c); [lia|rewrite Z2; exact F1].
Qed.
(** On the 31st. *)
Lemma no_day : forall x m, clock_ok x -> n_d x = 31 -> In m [2; 4; 6; 9; 11] -> with_month m x = None.
Proof.
  intros x m K D M. unfold with_month, with_ymd. destruct (ymd_ok (n_y x) m (n_d x)) eqn:E; [|reflexivity]. apply ymd_iff in E. destruct E as [[_ E] _]. exfalso.
  rewrite D in E. cbn [In] in M. unfold mdays in E.
  repeat (destruct M as [<-|M]; [cbn in E; try destruct (leap (n_y x)); lia|]). destruct M.
Qed.
Lemma quarter_no_start : forall d, n_d (local d) = 31 -> n_m (local d) = 5 -> start_of d UQuarter = None.
Proof.
  intros d D M. unfold start_of, map_local at 1. rewrite quarter_third, M. change ((third 5 + 1 - 1) * 3 + 1) with 4. rewrite (no_day (local d) 4 (local_clock d) D); [reflexivity|cbn; auto].
Qed.
Lemma quarter_no_end : forall d, zone_ok (dt_z d) -> n_d (local d) = 31 -> In (n_m (local d)) [5; 7; 8] -> end_of d UQuarter = None.
Proof.
  intros d K D M. unfold end_of. destruct (map_local (with_nano 999999999) d) as [e|] eqn:E; [|reflexivity]. unfold bind_o at 1. cbv zeta.
  destruct (map_step _ _ _ K (keeps_nano _) E) as [N _]. unfold with_nano in N. change ((0 <=? 999999999) && (999999999 <? giga)) with true in N. apply some_inj in N.
  assert (De : n_d (local e) = 31) by (rewrite <- N; exact D). assert (Me : n_m (local e) = n_m (local d)) by (rewrite <- N; reflexivity).
  unfold map_local at 1. rewrite quarter_third, Me. rewrite (no_day (local e) _ (local_clock e) De); [reflexivity|].
  repeat (destruct M as [<-|M]; [cbn; auto 10|]). destruct M.
Qed.
(** Comparisons. *)
Section Compare.
  Context (a b : datetime) (u : dunit) (c : Z).
  Hypothesis (F : fixed (dt_z a) c) (Z1 : dt_z b = dt_z a) (M : mid_range a) (Q : u = UQuarter -> n_d (local a) <= 30).
  Lemma same_iff : vm_cmp is_same (Some a) (Some b) (Some u) = true <-> same_period u (local a) (local b).
  Proof.
    destruct (start_make u a c F M Q) as [s A]. destruct (end_make u a c F M Q) as [e B]. unfold vm_cmp, is_same, bind_o. rewrite A, B.
    rewrite andb_true_iff, !Z.leb_le. exact (period_instants u a s e b c F A B Z1).
  Qed.
  Lemma own_period : forall s e, start_of a u = Some s -> end_of a u = Some e -> dt_t s <= dt_t a <= dt_t e.
  Proof. intros s e A B. apply (period_instants u a s e a c F A B eq_refl), period_refl, local_clock. Qed.
  Lemma before_iff : vm_cmp is_before (Some a) (Some b) (Some u) = true <-> earlier (local a) (local b) /\ ~ same_period u (local a) (local b).
  Proof.
    destruct (start_make u a c F M Q) as [s A]. destruct (end_make u a c F M Q) as [e B]. unfold vm_cmp, is_before, bind_o. rewrite B, Z.ltb_lt.
    pose proof (own_period s e A B) as P. rewrite <- (period_instants u a s e b c F A B Z1), <- (fixed_lt a b c F Z1). lia.
  Qed.
  Lemma after_iff : vm_cmp is_after (Some a) (Some b) (Some u) = true <-> earlier (local b) (local a) /\ ~ same_period u (local a) (local b).
  Proof.
    destruct (start_make u a c F M Q) as [s A]. destruct (end_make u a c F M Q) as [e B]. unfold vm_cmp, is_after, bind_o. rewrite A, Z.ltb_lt.
    pose proof (own_period s e A B) as P. rewrite <- (period_instants u a s e b c F A B Z1). rewrite <- (fixed_lt b a c); [lia|rewrite Z1; exact F|symmetry; exact Z1].
  Qed.
End Compare.
