(** Duration texts (C44). *)
From Coq Require Import String Ascii ZArith Lia Bool List Arith.
From Verif Require Import Base Dec Table Duration DurationSpec DurationFacts.
Import ListNotations.
Local Open Scope string_scope.
Local Open Scope list_scope.
Local Open Scope Z_scope.

(** ** C44. A text of several terms is the sum of its terms: always for the units of fixed length, and for months (months and quarters) and for years when the text has at
    most one term of that kind. *)
Theorem C44_sum : forall s ts trail, list_ascii_of_string s = dur_text ts trail -> ts <> [] -> (forall t, In t ts -> term_ok t) -> spaces trail -> fits ts ->
  once KMonths ts -> once KYears ts -> dparse s = Ok (Dur (total du_seconds ts) (total du_months ts) (total du_years ts)).
Proof.
  intros s ts trail E N K Sp F OM OY. apply dparse_ok. exists ts, trail. repeat (split; [assumption|]).
  rewrite (latest_once KMonths du_months ts), (latest_once KYears du_years ts); [reflexivity| |exact OY| |exact OM]; intros t Nt; [apply (proj2 (other_kind KYears t ltac:(discriminate))); auto|apply (proj1 (other_kind KMonths t ltac:(discriminate))); auto].
Qed.
Print Assumptions C44_sum.
(** In every text that is read, the seconds are the sum over the terms of fixed length, and the months and the years are those of the last term of their kind. *)
Theorem C44_last : forall s d, dparse s = Ok d -> exists ts trail, list_ascii_of_string s = dur_text ts trail /\ ts <> [] /\ (forall t, In t ts -> term_ok t) /\ spaces trail /\ fits ts /\
  du_seconds d = total du_seconds ts /\
  (forall t, last_of KMonths ts t -> du_months d = du_months (term_size t)) /\ ((forall t, In t ts -> ~ of_kind KMonths t) -> du_months d = 0) /\
  (forall t, last_of KYears ts t -> du_years d = du_years (term_size t)) /\ ((forall t, In t ts -> ~ of_kind KYears t) -> du_years d = 0).
Proof.
  intros s d E. apply dparse_ok in E as (ts & trail & Et & N & K & Sp & F & ->). exists ts, trail. repeat (split; [assumption|]). cbn [du_seconds du_months du_years].
  split; [reflexivity|]. split; [intros t L; now apply latest_last|]. split; [intros L; now apply latest_none|]. split; [intros t L; now apply latest_last|intros L; now apply latest_none].
Qed.
Print Assumptions C44_last.
(** A text that is not a list of terms, or whose numbers do not fit, is refused. *)
Theorem C44_refused : forall s, (forall ts trail, list_ascii_of_string s = dur_text ts trail -> ts <> [] -> (forall t, In t ts -> term_ok t) -> spaces trail -> ~ fits ts) -> exists e, dparse s = Err e.
Proof. intros s N. destruct (dparse s) as [d|e] eqn:E; [|eauto]. apply dparse_ok in E as (ts & trail & Et & Nt & K & Sp & F & _). elim (N ts trail Et Nt K Sp F). Qed.
Print Assumptions C44_refused.
Definition t_week : term := Term [] [("1"%char, [])] ["w"%char].
Definition t_days : term := Term [] [("1"%char, []); ("2"%char, [])] ["d"; "a"; "y"; "s"]%char.
Definition t_month : term := Term [" "%char] [("5"%char, [" "%char])] ["m"; "o"]%char.
Definition t_year : term := Term [" "%char] [("2"%char, [])] ["y"%char].
Definition four : list term := [t_week; t_days; t_month; t_year].
Example C44_sum_case : list_ascii_of_string "1w12days 5 mo 2y " = dur_text four [" "%char] /\ (forall t, In t four -> term_ok t) /\ fits four /\ once KMonths four /\ once KYears four /\
  dparse "1w12days 5 mo 2y " = Ok (Dur 1641600 5 2).
Proof.
  split; [reflexivity|]. split.
  { intros t [<-|[<-|[<-|[<-|[]]]]]; (split; [reflexivity|]; split; [discriminate|]; split; [|split; [discriminate|reflexivity]]); intros c sp I0; cbn in I0; repeat destruct I0 as [[= <- <-]|I0]; try contradiction; split; vm_compute; congruence. }
  split. { split; [|reflexivity]. intros t [<-|[<-|[<-|[<-|[]]]]]; eexists; split; reflexivity. }
  assert (On : forall k, k <> KFixed -> once k four).
  { intros k Nk a t b u E Kt I0 Ku. apply is_kind_ok in Kt, Ku. unfold four in E.
    destruct a as [|t1 a]; cbn [app] in E; [injection E as <- <-|injection E as <- E; destruct a as [|t2 a]; cbn [app] in E; [injection E as <- <-|injection E as <- E; destruct a as [|t3 a]; cbn [app] in E;
      [injection E as <- <-|injection E as <- E; destruct a as [|t4 a]; cbn [app] in E; [injection E as <- <-|destruct a; discriminate]]]];
    cbn [app In] in I0; repeat destruct I0 as [<-|I0]; try contradiction; destruct k; vm_compute in Kt, Ku; try discriminate; congruence. }
  split; [apply On; discriminate|]. split; [apply On; discriminate|]. vm_compute. reflexivity.
Qed.
(** Two terms in months do not add up: the last one wins. The same holds for years. *)
Theorem C44_sum_refuted : dparse "1mo 1mo" = Ok (Dur 0 1 0) /\ dparse "1 quarter 1 month" = Ok (Dur 0 1 0) /\ dparse "1y 1y" = Ok (Dur 0 0 1).
Proof. vm_compute. auto. Qed.
Print Assumptions C44_sum_refuted.
(** Spaces inside a number are dropped: this is twelve seconds. *)
Theorem C44_spaces_refuted : dparse "1 2s" = Ok (Dur 12 0 0).
Proof. vm_compute. reflexivity. Qed.
Print Assumptions C44_spaces_refuted.
(** A number and a unit: months, quarters and years take the whole part of the number; for the other units the seconds are the whole part of the product. *)
Theorem C44_number : forall n u d, from_unit n u = Ok (Some d) -> let part z := Z.quot z (10 ^ Z.of_nat (scale n)) in
  d = Dur (part (mant n * du_seconds (unit_size u))) (part (mant n) * du_months (unit_size u)) (part (mant n) * du_years (unit_size u)).
Proof.
  intros n u d E. unfold from_unit, dec_to_i64, dec_trunc in E. cbn [mant scale] in E. cbn zeta. change (10 ^ Z.of_nat (scale n)) with (pow10 (scale n)).
  pose proof (pow10_pos (scale n)). destruct u; cbn [as_secs option_map unit_size du_seconds du_months du_years] in *; rewrite ?Z.mul_0_r, ?Z.mul_1_r, ?Z.quot_0_l in * by lia;
    repeat match goal with E : context [if ?b then _ else _] |- _ => destruct b; cbn [option_map] in E end; try discriminate; injection E as <-; f_equal; try reflexivity; lia.
Qed.
Print Assumptions C44_number.
(** Every whole number is taken, as long as the result fits: 64 bits for seconds, 32 bits for months and years. *)
Theorem C44_number_taken : forall k u, let s := unit_size u in - 2 ^ 63 <= k * du_seconds s < 2 ^ 63 -> - 2 ^ 31 <= k * du_months s < 2 ^ 31 -> - 2 ^ 31 <= k * du_years s < 2 ^ 31 ->
  from_unit (dec_of_Z k) u = Ok (Some (Dur (k * du_seconds s) (k * du_months s) (k * du_years s))).
Proof.
  intros k u s A B C. unfold s in *. clear s. unfold from_unit, dec_to_i64, dec_trunc, dec_of_Z. cbn [mant scale pow10].
  assert (Q : forall z, Z.quot z (pow10 0) = z) by (intros z; apply Z.quot_1_r). rewrite !Q.
  assert (I64 : forall z, - 2 ^ 63 <= z < 2 ^ 63 -> (- 2 ^ 63 <=? z) && (z <? 2 ^ 63) = true) by (intros z Bz; apply andb_true_intro; split; [apply Z.leb_le|apply Z.ltb_lt]; lia).
  assert (I32 : forall z, - 2 ^ 31 <= z < 2 ^ 31 -> (- 2 ^ 31 <=? z) && (z <? 2 ^ 31) = true) by (intros z Bz; apply andb_true_intro; split; [apply Z.leb_le|apply Z.ltb_lt]; lia).
  destruct u; cbn [as_secs unit_size du_seconds du_months du_years] in *; rewrite ?Z.mul_0_r, ?Z.mul_1_r in *.
  all: rewrite ?Q; rewrite I64 by lia; cbn [option_map]; rewrite ?I32 by lia; reflexivity.
Qed.
Print Assumptions C44_number_taken.
Example C44_number_case : from_unit (Dec 15 1) UDay = Ok (Some (Dur 129600 0 0)) /\ from_unit (Dec 19 1) UQuarter = Ok (Some (Dur 0 3 0)) /\ from_unit (dec_of_Z (-7)) UWeek = Ok (Some (Dur (-4233600) 0 0)).
Proof. vm_compute. repeat split. Qed.
