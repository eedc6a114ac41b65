(** What the older functions of dates give. *)
From Coq Require Import String Ascii ZArith Bool List Arith Lia.
From Verif Require Import Base Dec Value Ast Ops Funcs Duration DurationSpec DurationFacts Dates DateMethods DateSpec CalendarFacts DateFacts DatePeriods DateMath DateCalls OldDates.
Import ListNotations.
Local Open Scope string_scope.
Local Open Scope list_scope.
Local Open Scope Z_scope.
Local Strategy 1000 [civil day_number naive_of local].

Lemma utc_reading : forall C tz s, fixed (zone_of C tz) 0 -> reading C (s * 1000000000) tz = naive_of s 0.
Proof.
  intros C tz s [F _]. unfold reading, dt, local, offset, dt_secs, dt_ns. cbn [dt_t dt_z]. change 1000000000 with giga. rewrite Z.div_mul, Z.mod_mul by (unfold giga; lia). rewrite F, Z.add_0_r. reflexivity.
Qed.
Lemma secs_fit : forall k, in_utc (k * giga) = true -> - 2 ^ 63 < k < 2 ^ 63.
Proof.
  intros k E. unfold in_utc in E. apply andb_true_iff in E as [A B]. apply Z.leb_le in A, B. assert (P : min_utc = -8334601228800 * giga /\ max_utc < 8334601228800 * giga) by (split; vm_compute; reflexivity). destruct P as [P1 P2].
  rewrite P1 in A. unfold giga in *. lia.
Qed.
Lemma mid_in : forall x, clock_ok x -> min_year + 1 <= n_y x <= max_year - 1 -> in_utc (naive_secs x * giga) = true.
Proof.
  intros x K B. pose proof (in_range (Naive (n_y x) (n_m x) (n_d x) (n_h x) (n_mi x) (n_s x) 0) 0) as R. unfold stamp in R. cbn [n_y n_ns] in R.
  replace (naive_secs (Naive (n_y x) (n_m x) (n_d x) (n_h x) (n_mi x) (n_s x) 0)) with (naive_secs x) in R by reflexivity. replace (naive_secs x * giga + 0 - 0 * giga) with (naive_secs x * giga) in R by lia.
  apply R; [|lia|exact B]. apply clock_iff in K as (K & H1 & H2 & H3 & H4). apply clock_iff. cbn [n_y n_m n_d n_h n_mi n_s n_ns]. unfold giga. repeat split; try apply K; lia.
Qed.
Lemma read_secs : forall O s, min_year + 1 <= n_y (naive_of s 0) <= max_year - 1 -> old_read O (num s) = Ok (naive_of s 0).
Proof.
  intros O s B. destruct (naive_of_ok s 0 ltac:(unfold giga; lia)) as (K & S & _). pose proof (mid_in _ K B) as I. rewrite S in I. cbn [old_read num]. unfold dec_of_Z. rewrite (i64_fits s (secs_fit _ I)). cbn [of_option bind]. rewrite I. reflexivity.
Qed.

Lemma first_ns : forall u x, n_ns (first_of u x) = 0.
Proof. intros u [y m d h mi s ns]. destruct u; cbn [first_of n_ns]; reflexivity. Qed.
Lemma last_ns : forall u x, n_ns (last_of_period u x) = 999999999.
Proof. intros u [y m d h mi s ns]. destruct u; cbn [last_of_period n_ns]; reflexivity. Qed.
Lemma secs_between : forall u x t, clock_ok x -> (naive_secs (first_of u x) <= t <= naive_secs (last_of_period u x) <-> same_period u x (naive_of t 0)).
Proof.
  intros u x t K. destruct (naive_of_ok t 0 ltac:(unfold giga; lia)) as (Kt & S & N). rewrite (period_between u x _ K Kt). unfold stamp. rewrite S, N, first_ns, last_ns. unfold giga. lia.
Qed.
Lemma next_first : forall y m, 1 <= m < 12 -> day_number y (m + 1) 1 - day_number y m 1 = mdays y m.
Proof. intros y m M. unfold day_number, month_start, mdays. assert (m = 1 \/ m = 2 \/ m = 3 \/ m = 4 \/ m = 5 \/ m = 6 \/ m = 7 \/ m = 8 \/ m = 9 \/ m = 10 \/ m = 11) as C by lia. repeat (destruct C as [->|C]; [cbn; destruct (leap y); lia|]). subst m. cbn. destruct (leap y); lia. Qed.
Lemma next_jan : forall y, day_number (y + 1) 1 1 - day_number y 12 1 = mdays y 12.
Proof. intros y. unfold day_number. rewrite year_next, <- month_end, month_first. lia. Qed.
Lemma month_days_is : forall x, clock_ok x -> min_year <= n_y x <= max_year - 1 -> month_days x = Some (mdays (n_y x) (n_m x)).
Proof.
  intros x K B. apply clock_iff in K as ([M D] & _). unfold month_days.
  assert (O1 : ymd_ok (n_y x) (n_m x) 1 = true) by (apply ymd_iff; split; [split; [exact M|pose proof (mdays_bounds (n_y x) (n_m x)); lia]|unfold max_year in *; lia]). rewrite O1, andb_true_r.
  destruct (n_m x =? 12) eqn:E.
  - apply Z.eqb_eq in E. rewrite E. rewrite (proj2 (ymd_iff (n_y x + 1) 1 1)) by (split; [split; [lia|pose proof (mdays_bounds (n_y x + 1) 1); lia]|unfold max_year in *; lia]). now rewrite next_jan.
  - apply Z.eqb_neq in E. rewrite (proj2 (ymd_iff (n_y x) (n_m x + 1) 1)) by (split; [split; [lia|pose proof (mdays_bounds (n_y x) (n_m x + 1)); lia]|unfold max_year in *; lia]). rewrite next_first by lia. reflexivity.
Qed.
Lemma move_make : forall k x, clock_ok x -> min_year + 1 <= n_y x <= max_year - 1 -> -6 <= k <= 6 ->
  move_days k x = Some (on_day (day_number (n_y x) (n_m x) (n_d x) + k) (n_h x) (n_mi x) (n_s x) (n_ns x)).
Proof.
  intros k x K B Bk. apply clock_iff in K as (K & _). unfold move_days, on_day. destruct (civil_split (day_number (n_y x) (n_m x) (n_d x) + k)) as (y & m & d & E & Kd & N). rewrite E.
  apply ymd_make; [exact Kd|]. pose proof (near_year _ _ _ _ _ _ K Kd ltac:(lia)). lia.
Qed.
Lemma on_day_secs : forall n h mi s a b, naive_secs (on_day n h mi s a) = naive_secs (on_day n h mi s b).
Proof. intros. unfold on_day. destruct (civil n) as [[y m] d]. reflexivity. Qed.
Lemma weekday_range : forall x, 0 <= weekday x < 7. Proof. intros x. unfold weekday. apply Z.mod_pos_bound. lia. Qed.
Lemma timed : forall x h mi s, clock_ok x -> 0 <= h < 24 -> 0 <= mi < 60 -> 0 <= s < 60 -> clock_ok (Naive (n_y x) (n_m x) (n_d x) h mi s (n_ns x)).
Proof. intros x h mi s K. apply clock_iff in K as (K & _ & _ & _ & N). intros. apply clock_iff. cbn [n_y n_m n_d n_h n_mi n_s n_ns]. auto. Qed.
Lemma old_start_is : forall u x, clock_ok x -> min_year + 2 <= n_y x <= max_year - 2 -> u <> UQuarter -> exists r, old_start x u = Some r /\ naive_secs r = naive_secs (first_of u x).
Proof.
  intros u x K B Nq. pose proof K as K0. apply clock_iff in K0 as ([M D] & _).
  assert (T : with_second 0 x >>= with_minute 0 >>= with_hour 0 = Some (Naive (n_y x) (n_m x) (n_d x) 0 0 0 (n_ns x))) by reflexivity.
  assert (Kt : clock_ok (Naive (n_y x) (n_m x) (n_d x) 0 0 0 (n_ns x))) by (apply timed; auto; lia).
  pose proof (mdays_bounds (n_y x) (n_m x)). pose proof (mdays_bounds (n_y x) 1).
  destruct u; cbn [old_start]; try (rewrite T; cbn [bind_o]); try congruence.
  all: try (destruct x as [y0 m0 d0 h0 i0 s0 e0]; eexists; split; reflexivity).
  - rewrite (move_make _ _ Kt) by (cbn [n_y]; try (pose proof (weekday_range x)); lia). eexists. split; [reflexivity|]. destruct x as [y0 m0 d0 h0 i0 s0 e0]. cbn [first_of n_y n_m n_d n_h n_mi n_s n_ns]. rewrite <- Z.add_opp_r. apply on_day_secs.
  - unfold with_day. cbn [n_y n_m n_d n_h n_mi n_s n_ns]. rewrite ymd_make by (try (split; lia); lia). eexists. split; [reflexivity|]. destruct x as [y0 m0 d0 h0 i0 s0 e0]. reflexivity.
  - unfold with_day. cbn [n_y n_m n_d n_h n_mi n_s n_ns]. rewrite ymd_make by (try (split; lia); lia). cbn [bind_o]. unfold with_month. cbn [n_y n_m n_d n_h n_mi n_s n_ns]. rewrite ymd_make by (try (split; lia); lia). eexists. split; [reflexivity|]. destruct x as [y0 m0 d0 h0 i0 s0 e0]. reflexivity.
Qed.
Lemma old_end_is : forall u x, clock_ok x -> min_year + 2 <= n_y x <= max_year - 2 -> u <> UQuarter -> u <> UYear -> exists r, old_end x u = Some r /\ naive_secs r = naive_secs (last_of_period u x).
Proof.
  intros u x K B Nq Ny. pose proof K as K0. apply clock_iff in K0 as ([M D] & _).
  assert (T : with_second 59 x >>= with_minute 59 >>= with_hour 23 = Some (Naive (n_y x) (n_m x) (n_d x) 23 59 59 (n_ns x))) by reflexivity.
  assert (Kt : clock_ok (Naive (n_y x) (n_m x) (n_d x) 23 59 59 (n_ns x))) by (apply timed; auto; lia).
  pose proof (mdays_bounds (n_y x) (n_m x)).
  destruct u; cbn [old_end]; try (rewrite T; cbn [bind_o]); try congruence.
  all: try (destruct x as [y0 m0 d0 h0 i0 s0 e0]; eexists; split; reflexivity).
  - rewrite (move_make _ _ Kt) by (cbn [n_y]; try (pose proof (weekday_range x)); lia). eexists. split; [reflexivity|]. destruct x as [y0 m0 d0 h0 i0 s0 e0]. cbn [last_of_period n_y n_m n_d n_h n_mi n_s n_ns]. apply on_day_secs.
  - rewrite month_days_is by (auto; lia). cbn [bind_o]. unfold with_day. cbn [n_y n_m n_d n_h n_mi n_s n_ns]. rewrite ymd_make by (try (split; lia); lia). eexists. split; [reflexivity|]. destruct x as [y0 m0 d0 h0 i0 s0 e0]. reflexivity.
Qed.
Lemma old_end_year : forall x, clock_ok x -> min_year + 2 <= n_y x <= max_year - 2 -> old_end x UYear = Some (Naive (n_y x) 12 (mdays (n_y x) (n_m x)) 23 59 59 (n_ns x)).
Proof.
  intros x K B. pose proof K as K0. apply clock_iff in K0 as ([M D] & _). cbn [old_end].
  assert (T : with_second 59 x >>= with_minute 59 >>= with_hour 23 = Some (Naive (n_y x) (n_m x) (n_d x) 23 59 59 (n_ns x))) by reflexivity. rewrite T. cbn [bind_o]. rewrite month_days_is by (auto; lia). cbn [bind_o].
  pose proof (mdays_bounds (n_y x) (n_m x)). unfold with_day. cbn [n_y n_m n_d n_h n_mi n_s n_ns]. rewrite ymd_make by (try (split; lia); lia). cbn [bind_o]. unfold with_month. cbn [n_y n_m n_d n_h n_mi n_s n_ns].
  assert (mdays (n_y x) 12 = 31) by reflexivity. rewrite ymd_make by (try (split; lia); lia). reflexivity.
Qed.
Lemma month_31 : forall y m, 1 <= m <= 12 -> mdays y m = 31 <-> In m [1; 3; 5; 7; 8; 10; 12].
Proof.
  intros y m M. unfold mdays. assert (m = 1 \/ m = 2 \/ m = 3 \/ m = 4 \/ m = 5 \/ m = 6 \/ m = 7 \/ m = 8 \/ m = 9 \/ m = 10 \/ m = 11 \/ m = 12) as C by lia.
  repeat (destruct C as [->|C]; [cbn; destruct (leap y); split; intros H; try lia; try (repeat (destruct H as [H|H]; [lia|]); contradiction); auto 12|]). subst m. cbn. split; auto 12.
Qed.

Section Calls.
  Context (O : oldclock).
  Lemma call_bound : forall k f v s u x, In (k, f) [("startOf", old_start); ("endOf", old_end)] -> old_read O v = Ok x -> old_unit s = Some u ->
    old_call O k [v; VStr s] = do r <- of_option (f x u) (EOp "Failed to calculate period"); Ok (num (naive_secs r)).
  Proof.
    intros k f v s u x I E U. assert (Q : old_call O k [v; VStr s] = old_bound O f [v; VStr s]) by (destruct I as [I|[I|[]]]; injection I as <- <-; reflexivity).
    rewrite Q. unfold old_bound. cbn [arg arg_str nth_error of_option bind]. rewrite E. cbn [bind]. rewrite U. reflexivity.
  Qed.
  Definition field_names : list string := ["year"; "dayOfWeek"; "dayOfMonth"; "dayOfYear"; "weekOfYear"; "monthOfYear"; "monthString"; "weekdayString"].
  Lemma call_field : forall k, In k field_names -> exists f, (forall v, old_call O k [v] = do x <- old_read O v; Ok (f x)) /\ forall x ns, f (Naive (n_y x) (n_m x) (n_d x) (n_h x) (n_mi x) (n_s x) ns) = f x.
  Proof.
    intros k I. cbn [In field_names] in I.
    destruct I as [<-|[<-|[<-|[<-|[<-|[<-|[<-|[<-|[]]]]]]]]]; eexists; (split; [intros v; reflexivity|reflexivity]).
  Qed.
  Lemma start_secs : forall x ns u, option_map naive_secs (old_start (Naive (n_y x) (n_m x) (n_d x) (n_h x) (n_mi x) (n_s x) ns) u) = option_map naive_secs (old_start x u).
  Proof.
    intros [y m d h mi s e] ns u. destruct u; cbn [old_start n_y n_m n_d n_h n_mi n_s]; try reflexivity.
    - change (with_second 0 (Naive y m d h mi s ns) >>= with_minute 0 >>= with_hour 0) with (Some (Naive y m d 0 0 0 ns)). change (with_second 0 (Naive y m d h mi s e) >>= with_minute 0 >>= with_hour 0) with (Some (Naive y m d 0 0 0 e)). cbn [bind_o].
      change (weekday (Naive y m d h mi s ns)) with (weekday (Naive y m d h mi s e)). unfold move_days. cbn [n_y n_m n_d]. destruct (civil _) as [[a b] c]. unfold with_ymd. destruct (ymd_ok a b c); reflexivity.
    - unfold with_second, with_minute, with_hour, with_day, with_ymd. cbn. destruct (ymd_ok y m 1); reflexivity.
    - unfold with_second, with_minute, with_hour, with_day, with_month, with_ymd. cbn. destruct (ymd_ok y m 1); [cbn|reflexivity]. destruct (ymd_ok y 1 1); reflexivity.
  Qed.
  Lemma end_secs : forall x ns u, option_map naive_secs (old_end (Naive (n_y x) (n_m x) (n_d x) (n_h x) (n_mi x) (n_s x) ns) u) = option_map naive_secs (old_end x u).
  Proof.
    intros [y m d h mi s e] ns u. destruct u; cbn [old_end n_y n_m n_d n_h n_mi n_s]; try reflexivity.
    - change (with_second 59 (Naive y m d h mi s ns) >>= with_minute 59 >>= with_hour 23) with (Some (Naive y m d 23 59 59 ns)). change (with_second 59 (Naive y m d h mi s e) >>= with_minute 59 >>= with_hour 23) with (Some (Naive y m d 23 59 59 e)). cbn [bind_o].
      change (weekday (Naive y m d h mi s ns)) with (weekday (Naive y m d h mi s e)). unfold move_days. cbn [n_y n_m n_d]. destruct (civil _) as [[a b] c]. unfold with_ymd. destruct (ymd_ok a b c); reflexivity.
    - change (month_days (Naive y m d h mi s ns)) with (month_days (Naive y m d h mi s e)). unfold with_second, with_minute, with_hour, with_day, with_ymd. cbn -[month_days]. destruct (month_days _) as [k|]; [cbn|reflexivity]. destruct (ymd_ok y m k); reflexivity.
    - change (month_days (Naive y m d h mi s ns)) with (month_days (Naive y m d h mi s e)). unfold with_second, with_minute, with_hour, with_day, with_month, with_ymd. cbn -[month_days]. destruct (month_days _) as [k|]; [cbn|reflexivity]. destruct (ymd_ok y m k); [cbn|reflexivity]. destruct (ymd_ok y 12 k); reflexivity.
  Qed.
  Lemma bound_secs : forall (o1 o2 : option naive) e, option_map naive_secs o1 = option_map naive_secs o2 -> (do r <- of_option o1 e; Ok (num (naive_secs r))) = (do r <- of_option o2 e; Ok (num (naive_secs r))).
  Proof. intros [a|] [b|] e H; cbn in *; try discriminate; [|reflexivity]. injection H as H. now rewrite H. Qed.
  (** A reading without its fraction of a second. *)
  Lemma call_same : forall k v w a s x ns, In k ("startOf" :: "endOf" :: field_names) -> old_read O v = Ok x -> old_read O w = Ok (Naive (n_y x) (n_m x) (n_d x) (n_h x) (n_mi x) (n_s x) ns) ->
    a = (if existsb (String.eqb k) ["startOf"; "endOf"] then [VStr s] else []) -> old_call O k (v :: a) = old_call O k (w :: a).
  Proof.
    intros k v w a s x ns I E1 E2 A. destruct I as [<-|[<-|I]].
    - cbn in A. subst a. destruct (old_unit s) as [u|] eqn:U.
      + rewrite (call_bound "startOf" old_start v s u x ltac:(cbn; auto) E1 U), (call_bound "startOf" old_start w s u _ ltac:(cbn; auto) E2 U). apply bound_secs. symmetry. apply start_secs.
      + unfold old_call. cbn. unfold old_bound. cbn [arg arg_str nth_error of_option bind]. rewrite E1, E2, U. reflexivity.
    - cbn in A. subst a. destruct (old_unit s) as [u|] eqn:U.
      + rewrite (call_bound "endOf" old_end v s u x ltac:(cbn; auto) E1 U), (call_bound "endOf" old_end w s u _ ltac:(cbn; auto) E2 U). apply bound_secs. symmetry. apply end_secs.
      + unfold old_call. cbn. unfold old_bound. cbn [arg arg_str nth_error of_option bind]. rewrite E1, E2, U. reflexivity.
    - destruct (call_field k I) as (f & Hf & Hn). assert (a = []) as ->. { rewrite A. cbn [In field_names] in I. destruct I as [<-|[<-|[<-|[<-|[<-|[<-|[<-|[<-|[]]]]]]]]]; reflexivity. }
      rewrite !Hf, E1, E2. cbn [bind]. now rewrite Hn.
  Qed.
End Calls.
Lemma secs_naive : forall x, clock_ok x -> naive_of (naive_secs x) 0 = Naive (n_y x) (n_m x) (n_d x) (n_h x) (n_mi x) (n_s x) 0.
Proof.
  intros x K. pose proof (timed x (n_h x) (n_mi x) (n_s x) K) as T. apply clock_iff in K as (Kd & H1 & H2 & H3 & H4).
  assert (K0 : clock_ok (Naive (n_y x) (n_m x) (n_d x) (n_h x) (n_mi x) (n_s x) 0)) by (apply clock_iff; cbn [n_y n_m n_d n_h n_mi n_s n_ns]; unfold giga; repeat split; try apply Kd; lia).
  exact (naive_back _ K0).
Qed.
Lemma unit_table : forall s, old_unit s = None \/ exists u, old_unit s = Some u /\ u <> UQuarter.
Proof. intros s. unfold old_unit. repeat (match goal with |- context [if ?b then _ else _] => destruct b end; [right; eexists; split; [reflexivity|discriminate]|]). now left. Qed.
From Verif Require ContentFacts.
(** These functions do not look inside arrays and objects, and give texts and numbers. *)
Lemma shape_eq : forall a b, ContentFacts.same_shape a b -> a = b \/ (forall s, a <> VStr s /\ b <> VStr s) /\ (forall n, a <> VNum n /\ b <> VNum n).
Proof. intros a b S. destruct a, b; cbn in S; try contradiction; try (left; congruence); right; split; intros; split; discriminate. Qed.
Lemma old_shape : forall O k a b, Forall2 ContentFacts.same_shape a b -> old_call O k a = old_call O k b.
Proof.
  intros O k a b S.
  assert (F : forall (A : Type) (g : value -> res A), (forall v w, ContentFacts.same_shape v w -> g v = g w) -> (do v <- arg a 0; g v) = (do v <- arg b 0; g v)).
  { intros A g G. destruct S as [|v w a b S1 _]; [reflexivity|]. unfold arg. cbn [nth_error of_option bind]. now apply G. }
  assert (T : arg_str a 1 = arg_str b 1). { destruct S as [|v w a b _ S]; [reflexivity|]. destruct S as [|v2 w2 a b S2 _]; [reflexivity|]. unfold arg_str. cbn [nth_error]. destruct (shape_eq _ _ S2) as [->|[H _]]; [reflexivity|]. destruct v2, w2; try reflexivity; try (destruct (H s) as [H1 H2]; congruence). }
  assert (D : forall v w, ContentFacts.same_shape v w -> old_read O v = old_read O w /\ old_date O v = old_date O w /\ old_time O v = old_time O w /\ old_duration O v = old_duration O w).
  { intros v w S2. destruct (shape_eq _ _ S2) as [->|[H G]]; [auto|]. destruct v; try (destruct (H s) as [H1 _]; congruence); try (destruct (G d) as [H1 _]; congruence); destruct w; try (destruct (H s) as [_ H1]; congruence); try (destruct (G d) as [_ H1]; congruence); try (destruct (G d0) as [_ H1]; congruence); auto. }
  unfold old_call, old_field, old_bound. rewrite T. repeat match goal with |- (if ?c then _ else _) = (if ?c then _ else _) => destruct c end; try reflexivity; apply F; intros v w S2; destruct (D v w S2) as (D1 & D2 & D3 & D4); rewrite ?D1, ?D2, ?D3, ?D4; reflexivity.
Qed.
Lemma plain_old : forall O L, ContentFacts.plain_lib L -> ContentFacts.plain_lib (with_old O L).
Proof.
  intros O L [H1 H2 H3 H4 H5]. split; cbn [with_old l_date l_deprecated l_method]; auto; [apply old_shape|].
  intros k a v E. unfold old_call, old_field, old_bound in E.
  repeat (match type of E with (if ?c then _ else _) = _ => destruct c end; [unfold old_date, old_time, old_duration in E; repeat match type of E with
    | bind ?x _ = _ => destruct x; cbn [bind] in E; [|discriminate]
    | match ?x with _ => _ end = _ => destruct x; try discriminate
    end; injection E as <-; exact I|]). discriminate.
Qed.
