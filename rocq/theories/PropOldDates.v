(** C77: the older functions of dates. [reading C (s * 1000000000) tz], in a zone whose clock is that of UTC, is what the clock shows at second [s] (C56_clock says what a clock shows). *)
From Coq Require Import String Ascii ZArith Bool List Arith Lia.
From Verif Require Import Base Dec Value Ast Heap Ops Funcs Eval Duration DurationSpec Dates DateMethods DateSpec CalendarFacts DateFacts DatePeriods DateCalls PropDates OldDates OldDatesFacts.
Import ListNotations.
Local Open Scope string_scope.
Local Open Scope list_scope.
Local Open Scope Z_scope.
Local Strategy 1000 [civil day_number naive_of local].

(** The names of the units. *)
Definition unit_words : list (dunit * list string) :=
  [(USecond, ["s"; "second"; "seconds"]); (UMinute, ["m"; "minute"; "minutes"]); (UHour, ["h"; "hour"; "hours"]); (UDay, ["d"; "day"; "days"]); (UWeek, ["w"; "week"; "weeks"]);
   (UMonth, ["M"; "month"; "months"]); (UYear, ["y"; "year"; "years"])].
Definition names_unit (s : string) (u : dunit) : Prop := exists l, In (u, l) unit_words /\ In s l.
Lemma names_iff : forall s u, names_unit s u <-> old_unit s = Some u.
Proof.
  intros s u. split.
  - intros (l & I & J). cbn [unit_words In] in I. repeat (destruct I as [I|I]; [injection I as <- <-; cbn [In] in J; destruct J as [<-|[<-|[<-|[]]]]; reflexivity|]). destruct I.
  - unfold old_unit. intros E.
    assert (G : forall l, existsb (String.eqb s) l = true -> In s l) by (intros l H; apply existsb_exists in H as (z & J & H); apply String.eqb_eq in H; congruence).
    repeat (match type of E with (if existsb (String.eqb s) ?l then _ else _) = _ => let F := fresh in destruct (existsb (String.eqb s) l) eqn:F; [apply G in F; injection E as <-; exists l; split; [cbn; auto 12|exact F]|clear F] end). discriminate.
Qed.

(** The fields: those of the date that [d()] gives for the same instant, on the clock of UTC. *)
Theorem C77_fields : forall O C tz s, fixed (zone_of C tz) 0 -> mid_range (dt C (s * 1000000000) tz) ->
  forall f g, In (f, g) [("year", "year"); ("monthOfYear", "month"); ("dayOfMonth", "day"); ("dayOfWeek", "weekday"); ("dayOfYear", "dayOfYear"); ("weekOfYear", "week")] ->
  old_call O f [num s] = date_method C g [dv (s * 1000000000) tz].
Proof.
  intros O C tz s F M f g I. unfold mid_range in M. fold (reading C (s * 1000000000) tz) in M. pose proof (utc_reading C tz s F) as R. rewrite R in M.
  pose proof (read_secs O s ltac:(lia)) as E.
  assert (P : forall h : naive -> value, (do x <- old_read O (num s); Ok (h x)) = Ok (h (reading C (s * 1000000000) tz))) by (intros h; rewrite E, R; reflexivity).
  cbn [In] in I. repeat (destruct I as [I|I]; [injection I as <- <-; exact (P _)|]). destruct I.
Qed.
Print Assumptions C77_fields.
(** The names of months and of days of the week. *)
Theorem C77_names : forall O C tz s, fixed (zone_of C tz) 0 -> mid_range (dt C (s * 1000000000) tz) ->
  (forall m t, In (m, t) [(1, "Jan"); (2, "Feb"); (3, "Mar"); (4, "Apr"); (5, "May"); (6, "Jun"); (7, "Jul"); (8, "Aug"); (9, "Sep"); (10, "Oct"); (11, "Nov"); (12, "Dec")] ->
    old_call O "monthOfYear" [num s] = Ok (num m) -> old_call O "monthString" [num s] = Ok (VStr t)) /\
  (forall w t, In (w, t) [(1, "Mon"); (2, "Tue"); (3, "Wed"); (4, "Thu"); (5, "Fri"); (6, "Sat"); (7, "Sun")] ->
    old_call O "dayOfWeek" [num s] = Ok (num w) -> old_call O "weekdayString" [num s] = Ok (VStr t)).
Proof.
  intros O C tz s F M. unfold mid_range in M. fold (reading C (s * 1000000000) tz) in M. rewrite (utc_reading C tz s F) in M. pose proof (read_secs O s ltac:(lia)) as E.
  assert (P : forall h : naive -> value, (do x <- old_read O (num s); Ok (h x)) = Ok (h (naive_of s 0))) by (intros h; rewrite E; reflexivity). set (x := naive_of s 0) in *. clearbody x.
  split; intros m t I.
  - change (old_call O "monthOfYear" [num s]) with (do x <- old_read O (num s); Ok (num (n_m x))). change (old_call O "monthString" [num s]) with (do x <- old_read O (num s); Ok (VStr (nth (Z.to_nat (n_m x - 1)) month_names ""))). rewrite !P.
    intros Q. injection Q as Q. rewrite Q. cbn [In] in I. repeat (destruct I as [I|I]; [injection I as <- <-; reflexivity|]). destruct I.
  - change (old_call O "dayOfWeek" [num s]) with (do x <- old_read O (num s); Ok (num (weekday x + 1))). change (old_call O "weekdayString" [num s]) with (do x <- old_read O (num s); Ok (VStr (nth (Z.to_nat (weekday x)) day_names ""))). rewrite !P.
    intros Q. injection Q as Q. replace (weekday x) with (m - 1) by lia. cbn [In] in I. repeat (destruct I as [I|I]; [injection I as <- <-; reflexivity|]). destruct I.
Qed.
Print Assumptions C77_names.
(** A text is read once: [date] gives the second the text tells, and every other function gives for the text what it gives for that number. *)
Theorem C77_text : forall O C tz s x, fixed (zone_of C tz) 0 -> (s = "now" /\ x = o_now O \/ s <> "now" /\ o_text O s = Some x) -> clock_ok x -> min_year + 2 <= n_y x <= max_year - 2 ->
  exists k, old_call O "date" [VStr s] = Ok (num k) /\ firstn 6 (fields (reading C (k * 1000000000) tz)) = firstn 6 (fields x) /\ old_call O "date" [num k] = Ok (num k) /\
    (forall f, In f ["year"; "dayOfWeek"; "dayOfMonth"; "dayOfYear"; "weekOfYear"; "monthOfYear"; "monthString"; "weekdayString"] -> old_call O f [VStr s] = old_call O f [num k]) /\
    (forall f u, In f ["startOf"; "endOf"] -> old_call O f [VStr s; VStr u] = old_call O f [num k; VStr u]).
Proof.
  intros O C tz s x F T K B. assert (E : old_text O s = Some x) by (unfold old_text; destruct T as [[-> ->]|[N T]]; [reflexivity|apply String.eqb_neq in N; now rewrite N]).
  assert (E1 : old_read O (VStr s) = Ok x) by (cbn [old_read]; now rewrite E). pose proof (secs_naive x K) as S.
  assert (E2 : old_read O (num (naive_secs x)) = Ok (Naive (n_y x) (n_m x) (n_d x) (n_h x) (n_mi x) (n_s x) 0)) by (rewrite <- S; apply read_secs; rewrite S; cbn [n_y]; lia).
  exists (naive_secs x). split; [change (old_call O "date" [VStr s]) with (do x <- of_option (old_text O s) (EOp "ParseDateTime"); Ok (num (naive_secs x))); rewrite E; reflexivity|].
  split; [rewrite (utc_reading C tz _ F), S; reflexivity|].
  split; [change (old_call O "date" [num (naive_secs x)]) with (do k <- of_option (dec_to_i64 (Dec (naive_secs x) 0)) (EOp "Number overflow"); Ok (num k)); rewrite i64_fits by (apply secs_fit, mid_in; [exact K|lia]); reflexivity|].
  split.
  - intros f I. apply (call_same O f _ _ [] "" x 0); [right; right; exact I|exact E1|exact E2|]. cbn [In] in I. destruct I as [<-|[<-|[<-|[<-|[<-|[<-|[<-|[<-|[]]]]]]]]]; reflexivity.
  - intros f u I. apply (call_same O f _ _ [VStr u] u x 0); [cbn [In] in I; destruct I as [<-|[<-|[]]]; cbn; auto|exact E1|exact E2|]. cbn [In] in I. destruct I as [<-|[<-|[]]]; reflexivity.
Qed.
Print Assumptions C77_text.
(** A number with a fraction counts without it. *)
Theorem C77_fraction : forall O k r e, 0 <= r < Z.of_nat (10 ^ e) -> 0 <= k < 2 ^ 63 ->
  forall f a, In f ["date"; "time"; "duration"; "year"; "dayOfWeek"; "dayOfMonth"; "dayOfYear"; "weekOfYear"; "monthOfYear"; "monthString"; "dateString"; "weekdayString"; "startOf"; "endOf"] ->
  old_call O f (VNum (Dec (k * Z.of_nat (10 ^ e) + r) e) :: a) = old_call O f (num k :: a).
Proof.
  intros O k r e R K f a I.
  assert (P : pow10 e = Z.of_nat (10 ^ e)). { unfold pow10. now rewrite Nat2Z.inj_pow. }
  assert (Q : dec_trunc (Dec (k * Z.of_nat (10 ^ e) + r) e) = k). { unfold dec_trunc. cbn [mant scale]. rewrite P. symmetry. apply (Z.quot_unique _ _ k r); [nia|lia|lia]. }
  assert (Q0 : dec_trunc (dec_of_Z k) = k) by apply dec_trunc_of_Z.
  assert (D1 : dec_to_i64 (Dec (k * Z.of_nat (10 ^ e) + r) e) = dec_to_i64 (dec_of_Z k)) by (unfold dec_to_i64; now rewrite Q, Q0).
  assert (D2 : dec_to_usize (Dec (k * Z.of_nat (10 ^ e) + r) e) = dec_to_usize (dec_of_Z k)).
  { unfold dec_to_usize. rewrite Q, Q0. cbn [mant dec_of_Z]. replace (k * Z.of_nat (10 ^ e) + r <? 0) with false by (symmetry; apply Z.ltb_ge; nia). replace (k <? 0) with false by (symmetry; apply Z.ltb_ge; lia). reflexivity. }
  assert (D3 : dec_to_u32 (Dec (k * Z.of_nat (10 ^ e) + r) e) = dec_to_u32 (dec_of_Z k)) by (unfold dec_to_u32; now rewrite D2).
  assert (E1 : old_read O (VNum (Dec (k * Z.of_nat (10 ^ e) + r) e)) = old_read O (num k)) by (cbn [old_read num]; now rewrite D1).
  set (d := Dec (k * Z.of_nat (10 ^ e) + r) e) in *. clearbody d.
  cbn [In] in I. repeat (destruct I as [<-|I]; [unfold old_call; cbn [String.eqb Ascii.eqb Bool.eqb]; unfold old_field, old_bound; cbn [arg arg_str nth_error of_option bind]; first [rewrite E1; reflexivity|cbn [old_date old_time old_duration num]; first [rewrite D1; reflexivity|rewrite D3; reflexivity|rewrite D2; reflexivity]]|]). destruct I.
Qed.
Print Assumptions C77_fraction.
(** [startOf] and [endOf], for every unit but the year: the first and the last second of the period around the given one. *)
Theorem C77_period : forall O C tz s w u, fixed (zone_of C tz) 0 -> mid_range (dt C (s * 1000000000) tz) -> names_unit w u -> u <> UYear ->
  exists s1 s2, old_call O "startOf" [num s; VStr w] = Ok (num s1) /\ old_call O "endOf" [num s; VStr w] = Ok (num s2) /\
    forall t, s1 <= t <= s2 <-> same_period u (reading C (s * 1000000000) tz) (reading C (t * 1000000000) tz).
Proof.
  intros O C tz s w u F M W Ny. apply names_iff in W. assert (Nq : u <> UQuarter) by (destruct (unit_table w) as [Q|(v & Q & N)]; congruence).
  unfold mid_range in M. fold (reading C (s * 1000000000) tz) in M. rewrite (utc_reading C tz s F) in *. destruct (naive_of_ok s 0 ltac:(unfold giga; lia)) as (K & _ & _). pose proof (read_secs O s ltac:(lia)) as E.
  destruct (old_start_is u _ K M Nq) as (r1 & A1 & B1). destruct (old_end_is u _ K M Nq Ny) as (r2 & A2 & B2). exists (naive_secs r1), (naive_secs r2).
  split; [rewrite (call_bound O "startOf" old_start _ w u _ ltac:(cbn; auto) E W), A1; reflexivity|]. split; [rewrite (call_bound O "endOf" old_end _ w u _ ltac:(cbn; auto) E W), A2; reflexivity|].
  intros t. rewrite (utc_reading C tz t F), B1, B2. apply secs_between. exact K.
Qed.
Print Assumptions C77_period.
(** The year: [startOf] gives its first second; [endOf] its last one just when the month of the given date has 31 days, and otherwise the last second of the day of December numbered by the
    length of that month. *)
Theorem C77_year_refuted : forall O C tz s w, fixed (zone_of C tz) 0 -> mid_range (dt C (s * 1000000000) tz) -> names_unit w UYear -> let x := reading C (s * 1000000000) tz in
  exists s1 s2 n, old_call O "startOf" [num s; VStr w] = Ok (num s1) /\ old_call O "endOf" [num s; VStr w] = Ok (num s2) /\ month_length (n_y x) (n_m x) n /\
    (forall t, s1 <= t -> t <= s -> same_period UYear x (reading C (t * 1000000000) tz)) /\ ~ same_period UYear x (reading C ((s1 - 1) * 1000000000) tz) /\
    reading C (s2 * 1000000000) tz = Naive (n_y x) 12 n 23 59 59 0 /\
    ((forall t, s1 <= t <= s2 <-> same_period UYear x (reading C (t * 1000000000) tz)) <-> n = 31).
Proof.
  intros O C tz s w F M W. apply names_iff in W. unfold mid_range in M. fold (reading C (s * 1000000000) tz) in M. rewrite (utc_reading C tz s F) in *. intros x. destruct (naive_of_ok s 0 ltac:(unfold giga; lia)) as (K & Sx & Nx). fold x in K, M, Sx, Nx. pose proof (read_secs O s ltac:(fold x; lia)) as E. fold x in E.
  destruct (old_start_is UYear _ K M ltac:(discriminate)) as (r1 & A1 & B1). pose proof (old_end_year x K M) as A2. set (r2 := Naive (n_y x) 12 (mdays (n_y x) (n_m x)) 23 59 59 (n_ns x)) in *.
  assert (K2 : clock_ok r2). { pose proof K as K0. apply clock_iff in K0 as ([Mm D] & _). apply clock_iff. unfold r2. cbn [n_y n_m n_d n_h n_mi n_s n_ns]. rewrite Nx. pose proof (mdays_bounds (n_y x) (n_m x)). assert (mdays (n_y x) 12 = 31) by reflexivity. unfold giga. repeat split; lia. }
  pose proof K as K0. destruct K0 as ((n & Ln & Dn) & _). assert (Nm : n = mdays (n_y x) (n_m x)) by (symmetry; apply mdays_iff; [exact (length_month _ _ _ Ln)|exact Ln]).
  exists (naive_secs r1), (naive_secs r2), n.
  split; [rewrite (call_bound O "startOf" old_start _ w UYear _ ltac:(cbn; auto) E W), A1; reflexivity|]. split; [rewrite (call_bound O "endOf" old_end _ w UYear _ ltac:(cbn; auto) E W), A2; reflexivity|].
  split; [exact Ln|]. pose proof (fun t => secs_between UYear x t K) as Bt.
  assert (Px : naive_secs (first_of UYear x) <= s <= naive_secs (last_of_period UYear x)) by (apply Bt; reflexivity).
  split; [intros t H1 H2; rewrite (utc_reading C tz t F); apply Bt; lia|].
  split; [rewrite (utc_reading C tz _ F); intros H; apply Bt in H; lia|].
  split; [rewrite (utc_reading C tz _ F), (secs_naive r2 K2); unfold r2; cbn [n_y n_m n_d n_h n_mi n_s]; congruence|].
  assert (Lx : naive_secs (last_of_period UYear x) = naive_secs r2 + (31 - n) * 86400). { unfold r2. rewrite <- Nm. destruct x as [y m d h mi sc ns]. cbn [last_of_period n_y n_m n_d n_h n_mi n_s n_ns]. unfold naive_secs. cbn [n_y n_m n_d n_h n_mi n_s n_ns]. unfold day_number, day_secs. lia. }
  assert (N31 : n <= 31) by (inversion Ln; lia).
  split.
  - intros H. specialize (H (naive_secs (last_of_period UYear x))). rewrite (utc_reading C tz _ F) in H. destruct H as [_ H]. destruct H as [H1 H2]; [apply Bt; lia|]. lia.
  - intros -> t. rewrite (utc_reading C tz _ F), <- Bt. lia.
Qed.
Print Assumptions C77_year_refuted.
(** What is an error: a value that is no text and no number, a text that cannot be read, and a unit without a name in the table. *)
Theorem C77_errors : forall O,
  (forall f v a, In f ["date"; "time"; "duration"; "year"; "dayOfWeek"; "dayOfMonth"; "dayOfYear"; "weekOfYear"; "monthOfYear"; "monthString"; "dateString"; "weekdayString"; "startOf"; "endOf"] ->
    (forall s, v <> VStr s) -> (forall n, v <> VNum n) -> exists e, old_call O f (v :: a) = Err e) /\
  (forall f s a, In f ["date"; "year"; "dayOfWeek"; "dayOfMonth"; "dayOfYear"; "weekOfYear"; "monthOfYear"; "monthString"; "dateString"; "weekdayString"; "startOf"; "endOf"] ->
    s <> "now" -> o_text O s = None -> exists e, old_call O f (VStr s :: a) = Err e) /\
  (forall f v w, In f ["startOf"; "endOf"] -> (forall u, ~ names_unit w u) -> exists e, old_call O f [v; VStr w] = Err e).
Proof.
  intros O. split; [|split].
  - intros f v a I N1 N2. assert (E : exists e, old_read O v = Err e) by (destruct v; try (eexists; reflexivity); [destruct (N2 d); reflexivity|destruct (N1 s); reflexivity]). destruct E as [e E].
    cbn [In] in I. repeat (destruct I as [<-|I]; [unfold old_call; cbn [String.eqb Ascii.eqb Bool.eqb]; unfold old_field, old_bound; cbn [arg arg_str nth_error of_option bind];
      first [rewrite E; eexists; reflexivity | destruct v; first [eexists; reflexivity | exfalso; eapply N1; reflexivity | exfalso; eapply N2; reflexivity] | destruct a as [|[] a]; rewrite ?E; eexists; reflexivity]|]). destruct I.
  - intros f s a I N T. assert (E : old_text O s = None) by (unfold old_text; apply String.eqb_neq in N; now rewrite N). assert (E1 : old_read O (VStr s) = Err (EOp "ParseDateTime")) by (cbn [old_read]; now rewrite E).
    cbn [In] in I. repeat (destruct I as [<-|I]; [unfold old_call; cbn [String.eqb Ascii.eqb Bool.eqb]; unfold old_field, old_bound; cbn [arg arg_str nth_error of_option bind];
      first [rewrite E1; eexists; reflexivity | cbn [old_date]; rewrite E; eexists; reflexivity | destruct a as [|[] a]; rewrite ?E1; eexists; reflexivity]|]). destruct I.
  - intros f v w I N. assert (U : old_unit w = None) by (destruct (old_unit w) as [u|] eqn:U; [destruct (N u); apply names_iff; exact U|reflexivity]).
    cbn [In] in I. destruct I as [<-|[<-|[]]]; unfold old_call; cbn [String.eqb Ascii.eqb Bool.eqb]; unfold old_bound; cbn [arg arg_str nth_error of_option bind]; destruct (old_read O v); cbn [bind]; rewrite ?U; eexists; reflexivity.
Qed.
Print Assumptions C77_errors.
(** 2023-02-10 12:00:00 and its periods; the end of its year is 2023-12-28. *)
Definition demo_old : oldclock := Old (Naive 2023 11 14 22 13 20 0) (fun s => if String.eqb s "2023-02-10" then Some (Naive 2023 2 10 0 0 0 0) else None) (fun _ => None) (fun _ => None) (fun _ => "").
Example C77_case : fixed (zone_of demo_clock "UTC") 0 /\ mid_range (dt demo_clock (1676030400 * 1000000000) "UTC") /\ names_unit "M" UMonth /\ names_unit "y" UYear /\
  old_call demo_old "weekdayString" [num 1676030400] = Ok (VStr "Fri") /\ old_call demo_old "date" [VStr "2023-02-10"] = Ok (num 1675987200) /\
  old_call demo_old "endOf" [num 1676030400; VStr "M"] = Ok (num 1677628799) /\
  old_call demo_old "endOf" [VStr "2023-02-10"; VStr "year"] = Ok (num 1703807999) /\ reading demo_clock (1703807999 * 1000000000) "UTC" = Naive 2023 12 28 23 59 59 0.
Proof.
  split; [split; [reflexivity|split; [intros l; cbn; now rewrite Z.sub_0_r|lia]]|]. split; [vm_compute; split; discriminate|]. split; [eexists; split; [cbn; auto 12|cbn; auto]|]. split; [eexists; split; [cbn; auto 12|cbn; auto]|].
  repeat split; vm_compute; reflexivity.
Qed.
(** In an expression: [year('2023-02-10') + 1]. *)
Example C77_expression : exists h, evaluate (std_ext (with_old demo_old demo_lib)) (NBinary (NCall (FDeprecated "year") [NString "2023-02-10"]) (OpArith AAdd) (NNumber (dec_of_Z 1))) (scope_new VNull) [] = (Ok (num 2024), h).
Proof. eexists. vm_compute. reflexivity. Qed.
