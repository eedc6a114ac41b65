(** Proofs about number covers: C30. *)
From Coq Require Import String Ascii ZArith QArith Qfield Lia Lqa Bool List Arith Permutation Sorted.
From Verif Require Import Base Dec Value Ast OpFacts Discriminant CoverSpec.
Import ListNotations.
Local Open Scope list_scope.

(** *** Comparisons of bounds *)
Lemma dec_cmp_dec : forall x y, match dec_cmp x y with
  | Lt => (dec_val x < dec_val y)%Q | Eq => (dec_val x == dec_val y)%Q | Gt => (dec_val y < dec_val x)%Q end.
Proof. exact dec_cmp_spec. Qed.
Ltac cmps := repeat match goal with
  | |- context[dec_cmp ?x ?y] => let H := fresh "K" in pose proof (dec_cmp_dec x y) as H; destruct (dec_cmp x y)
  | H0 : context[dec_cmp ?x ?y] |- _ => let H := fresh "K" in pose proof (dec_cmp_dec x y) as H; destruct (dec_cmp x y)
  end.
(** A lower bound that does not rank above another lets through everything the other does. *)
Lemma lo_le : forall a b x, lo_cmp a b <> Gt -> over b x -> over a x.
Proof. intros [|n|n] [|m|m] x C O; cbn in *; auto; try congruence; cmps; cbn in *; try congruence; try lra. Qed.
Lemma lo_total : forall a b, lo_cmp a b = Gt -> lo_cmp b a <> Gt.
Proof. intros [|n|n] [|m|m] C; cbn in *; try congruence; cmps; cbn in *; try congruence; try lra. Qed.
Lemma lo_trans : forall a b c, lo_cmp a b <> Gt -> lo_cmp b c <> Gt -> lo_cmp a c <> Gt.
Proof. intros [|n|n] [|m|m] [|k|k] C D; cbn in *; try congruence; cmps; cbn in *; try congruence; try lra. Qed.
Lemma hi_le : forall a b x, hi_cmp a b <> Gt -> under a x -> under b x.
Proof. intros [|n|n] [|m|m] x C O; cbn in *; auto; try congruence; cmps; cbn in *; try congruence; try lra. Qed.
Lemma hi_total : forall a b, hi_cmp a b = Gt -> hi_cmp b a <> Gt.
Proof. intros [|n|n] [|m|m] C; cbn in *; try congruence; cmps; cbn in *; try congruence; try lra. Qed.
Lemma hi_lt_le : forall a b, hi_cmp a b = Lt -> hi_cmp a b <> Gt.
Proof. congruence. Qed.
Lemma hi_ge : forall a b, hi_cmp a b <> Lt -> hi_cmp b a <> Gt.
Proof. intros [|n|n] [|m|m] C; cbn in *; try congruence; cmps; cbn in *; try congruence; try lra. Qed.
Lemma lo_ge : forall a b, lo_cmp a b <> Lt -> lo_cmp b a <> Gt.
Proof. intros [|n|n] [|m|m] C; cbn in *; try congruence; cmps; cbn in *; try congruence; try lra. Qed.
Lemma tighter_lo_ok : forall a b x, over (tighter_lo a b) x <-> over a x /\ over b x.
Proof.
  intros a b x. assert (G : over (match lo_cmp a b with Lt => b | _ => a end) x <-> over a x /\ over b x).
  { destruct (lo_cmp a b) eqn:C; split; try tauto; intros H; split; auto; eapply lo_le; eauto; try congruence; apply lo_ge; congruence. }
  destruct a, b; cbn [tighter_lo]; try exact G; cbn [over]; tauto.
Qed.
Lemma tighter_hi_ok : forall a b x, under (tighter_hi a b) x <-> under a x /\ under b x.
Proof.
  intros a b x. assert (G : under (match hi_cmp a b with Gt => b | _ => a end) x <-> under a x /\ under b x).
  { destruct (hi_cmp a b) eqn:C; split; try tauto; intros H; split; auto; eapply hi_le; eauto; try congruence. now apply hi_total. }
  destruct a, b; cbn [tighter_hi]; try exact G; cbn [under]; tauto.
Qed.
Lemma wider_hi_ok : forall a b x, under (wider_hi a b) x <-> under a x \/ under b x.
Proof.
  intros a b x. assert (G : under (match hi_cmp a b with Lt => b | _ => a end) x <-> under a x \/ under b x).
  { destruct (hi_cmp a b) eqn:C; split; try tauto; intros [H|H]; auto; eapply hi_le; eauto; try congruence; apply hi_ge; congruence. }
  destruct a, b; cbn [wider_hi]; try exact G; cbn [under]; tauto.
Qed.

(** *** Sorting *)
Definition lo_sorted (l : cover) : Prop := StronglySorted (fun a b => lo_cmp (sg_lo a) (sg_lo b) <> Gt) l.
Lemma insert_in : forall x l y, In y (insert_seg x l) <-> y = x \/ In y l.
Proof.
  intros x l y. induction l as [|z l IH]; cbn; [intuition|]. destruct (lo_cmp (sg_lo x) (sg_lo z)); cbn; rewrite ?IH; intuition.
Qed.
Lemma insert_sorted : forall x l, lo_sorted l -> lo_sorted (insert_seg x l).
Proof.
  intros x l S. induction S as [|y l S IH F]; cbn; [repeat constructor|]. destruct (lo_cmp (sg_lo x) (sg_lo y)) eqn:C.
  1,2: constructor; [constructor; auto|]; constructor; [congruence|]; rewrite Forall_forall in *; intros z Iz; eapply lo_trans; [|apply F, Iz]; congruence.
  constructor; [exact IH|]. apply Forall_forall. intros z Iz. apply insert_in in Iz as [->|Iz]; [now apply lo_total|]. rewrite Forall_forall in F. now apply F.
Qed.
Lemma sort_in : forall c y, In y (sort_segs c) <-> In y c.
Proof. induction c as [|x c IH]; intros y; cbn; [tauto|]. rewrite insert_in, IH. intuition. Qed.
Lemma sort_sorted : forall c, lo_sorted (sort_segs c).
Proof. induction c as [|x c IH]; cbn; [constructor|now apply insert_sorted]. Qed.

(** *** Witnesses: decimals are dense and unbounded. *)
Lemma pow10_val : forall n, (inject_Z (pow10 n) > 0)%Q.
Proof. intros. pose proof (pow10_pos n). change 0%Q with (inject_Z 0). rewrite <- Zlt_Qlt. lia. Qed.
Lemma dec_val_eq : forall a, (dec_val a * inject_Z (pow10 (scale a)) == inject_Z (mant a))%Q.
Proof.
  intros a. unfold dec_val. rewrite (Qmake_Qdiv (mant a)), pos_pow10. pose proof (pow10_val (scale a)). field. lra.
Qed.
Lemma pow10_add : forall a b, pow10 (a + b) = (pow10 a * pow10 b)%Z.
Proof. intros. unfold pow10. rewrite Nat2Z.inj_add. apply Z.pow_add_r; lia. Qed.
Lemma dec_sum : forall a b, exists c, (dec_val c == dec_val a + dec_val b)%Q.
Proof.
  intros a b. exists (Dec (mant a * pow10 (scale b) + mant b * pow10 (scale a)) (scale a + scale b)).
  pose proof (dec_val_eq (Dec (mant a * pow10 (scale b) + mant b * pow10 (scale a)) (scale a + scale b))) as E. cbn [mant scale] in E.
  rewrite pow10_add, inject_Z_plus, !inject_Z_mult, <- !dec_val_eq in E. pose proof (pow10_val (scale a)) as Pa. pose proof (pow10_val (scale b)) as Pb.
  set (v := dec_val (Dec _ _)) in *. set (pa := inject_Z (pow10 (scale a))) in *. set (pb := inject_Z (pow10 (scale b))) in *.
  assert (Pab : ~ (pa * pb == 0)%Q) by (intros Z0; apply Qmult_integral in Z0 as [Z0|Z0]; lra).
  apply (Qmult_inj_r _ _ (pa * pb)%Q); [exact Pab|]. rewrite E. ring.
Qed.
Lemma dec_half : forall a, exists c, (dec_val c + dec_val c == dec_val a)%Q.
Proof.
  intros a. exists (Dec (5 * mant a) (S (scale a))). pose proof (dec_val_eq (Dec (5 * mant a) (S (scale a)))) as E. cbn [mant scale] in E.
  change (S (scale a)) with (1 + scale a)%nat in *. rewrite pow10_add, !inject_Z_mult, <- dec_val_eq in E. pose proof (pow10_val (scale a)) as Pa.
  set (v := dec_val (Dec _ _)) in *. set (pa := inject_Z (pow10 (scale a))) in *. change (inject_Z (pow10 1)) with (10 # 1) in E. change (inject_Z 5) with (5 # 1) in E.
  apply (Qmult_inj_r _ _ pa); [lra|]. transitivity ((1 # 5) * (v * ((10 # 1) * pa)))%Q; [field|]. rewrite E. field.
Qed.
Lemma dec_between : forall a b, (dec_val a < dec_val b)%Q -> exists c, (dec_val a < dec_val c /\ dec_val c < dec_val b)%Q.
Proof. intros a b H. destruct (dec_sum a b) as (s & Es). destruct (dec_half s) as (c & Ec). exists c. split; lra. Qed.
Lemma dec_below : forall a, exists c, (dec_val c < dec_val a)%Q.
Proof. intros a. destruct (dec_sum a (dec_of_Z (-1))) as (c & E). exists c. rewrite dec_of_Z_val in E. change (inject_Z (-1)) with (-1 # 1) in E. lra. Qed.
Lemma dec_above : forall a, exists c, (dec_val a < dec_val c)%Q.
Proof. intros a. destruct (dec_sum a (dec_of_Z 1)) as (c & E). exists c. rewrite dec_of_Z_val in E. change (inject_Z 1) with (1 # 1) in E. lra. Qed.

(** *** The sweep *)
(** Everything up to the frontier is covered; then it decides whether everything above is, too. *)
Lemma connects_ok : forall f l x, connects f l = true -> under f x \/ over l x.
Proof.
  intros [|f|f] [|l|l] x C; cbn in *; auto; unfold dec_ltb in C; cmps; try discriminate;
    destruct (Q_dec (dec_val x) (dec_val f)) as [[Q|Q]|Q]; try (right; lra); try (left; lra).
Qed.
Lemma gap : forall f l, connects f l = false -> exists x, ~ under f x /\ ~ over l x.
Proof.
  intros [|f|f] [|l|l] C; cbn in C; try discriminate; unfold dec_ltb in C; cmps; try discriminate; cbn [under over].
  all: try (match goal with K : (dec_val ?a < dec_val ?b)%Q |- _ => destruct (dec_between a b K) as (x & B1 & B2); exists x; split; lra end).
  exists f. split; lra.
Qed.
Lemma sweep_total : forall l f x, sweep f l = true -> under f x \/ covered l x.
Proof.
  induction l as [|s l IH]; intros f x S.
  - destruct f; try discriminate. now left.
  - assert (Sw : f = Unbounded \/ connects f (sg_lo s) = true /\ sweep (wider_hi f (sg_hi s)) l = true).
    { destruct f as [|n|n]; [now left|right..]; cbn [sweep] in S; match type of S with context[if ?b then _ else _] => destruct b end; auto; discriminate. }
    destruct Sw as [->|[C Sw]]; [left; exact I|]. destruct (IH _ x Sw) as [U|(s' & I1 & I2)].
    + apply wider_hi_ok in U as [U|U]; auto. destruct (connects_ok _ _ x C) as [V|V]; auto. right. exists s. split; [now left|auto].
    + right. exists s'. split; [now right|auto].
Qed.
Lemma not_under : forall f, f <> Unbounded -> exists x, ~ under f x.
Proof. intros [|n|n] N; [congruence| |]; cbn; destruct (dec_above n) as (c & E); exists c; lra. Qed.
Lemma sweep_gap : forall l f, lo_sorted l -> sweep f l = false -> exists x, ~ under f x /\ ~ covered l x.
Proof.
  induction l as [|s l IH]; intros f S Sw.
  - destruct f as [|n|n]; [discriminate| |]; match goal with |- exists x, ~ under ?b x /\ _ => destruct (not_under b) as (x & N); [discriminate|] end; exists x; (split; [exact N|intros (s & [] & _)]).
  - inversion S as [|? ? S' F]; subst. assert (C : connects f (sg_lo s) = false \/ connects f (sg_lo s) = true /\ sweep (wider_hi f (sg_hi s)) l = false).
    { destruct f as [|n|n]; [discriminate| |]; cbn [sweep] in Sw; match type of Sw with context[if ?b then _ else _] => destruct b end; auto. }
    destruct C as [C|[C Sw']].
    + destruct (gap _ _ C) as (x & N1 & N2). exists x. split; [exact N1|]. intros (s' & [<-|I'] & O & _); [contradiction|].
      rewrite Forall_forall in F. apply N2. eapply lo_le; [apply F, I'|exact O].
    + destruct (IH _ S' Sw') as (x & N1 & N2). rewrite wider_hi_ok in N1. exists x. split; [tauto|]. intros (s' & [<-|I'] & O & U); [tauto|]. apply N2. exists s'. auto.
Qed.
Theorem total_exact : forall c, is_total c = true <-> forall x, covered c x.
Proof.
  intros c. assert (Cv : forall x, covered c x <-> covered (sort_segs c) x) by (intros x; split; intros (s & I1 & I2); exists s; split; auto; now apply sort_in).
  unfold is_total. pose proof (sort_sorted c) as S. split.
  - intros T x. apply Cv. destruct (sort_segs c) as [|s l]; [discriminate|]. destruct (sg_lo s) eqn:Lo; try discriminate.
    destruct (sweep_total _ _ x T) as [U|(s' & I1 & I2)]; [exists s|exists s']; (split; [cbn; auto|]); auto. rewrite Lo. split; [exact I|exact U].
  - intros A. destruct (sort_segs c) as [|s l] eqn:E.
    + destruct (proj1 (Cv dec_zero) (A dec_zero)) as (s & [] & _).
    + inversion S as [|? ? S' F]; subst. assert (Lo : sg_lo s = Unbounded).
      { destruct (sg_lo s) as [|n|n] eqn:Lo; [reflexivity| |]; exfalso; destruct (dec_below n) as (x & B);
          destruct (proj1 (Cv x) (A x)) as (s' & [<-|I'] & O & _); [rewrite Lo in O; cbn in O; lra| |rewrite Lo in O; cbn in O; lra|];
          (rewrite Forall_forall in F; specialize (F _ I'); pose proof (lo_le _ _ x F O) as O'; cbn in O'; lra). }
      rewrite Lo. destruct (sweep (sg_hi s) l) eqn:Sw; [reflexivity|]. destruct (sweep_gap _ _ S' Sw) as (x & N1 & N2).
      destruct (proj1 (Cv x) (A x)) as (s' & [<-|I'] & O & U); [contradiction|]. exfalso. apply N2. exists s'. auto.
Qed.

(** *** Points, intersections, unions *)
Lemma covered_app : forall a b x, covered (a ++ b) x <-> covered a x \/ covered b x.
Proof.
  intros a b x. split.
  - intros (s & I & O). apply in_app_or in I as [I|I]; [left|right]; exists s; auto.
  - intros [(s & I & O)|(s & I & O)]; exists s; (split; [apply in_or_app; auto|auto]).
Qed.
Lemma covered_point : forall n x, covered (point n) x <-> (dec_val x == dec_val n)%Q.
Proof.
  intros n x. split.
  - intros (s & [<-|[]] & O & U). cbn in *. lra.
  - intros E. exists (Seg (Inclusive n) (Inclusive n)). cbn. split; [auto|]. split; lra.
Qed.
Lemma covered_points : forall c l x, points c = Some l -> (covered c x <-> exists n, In n l /\ dec_eqb n x = true).
Proof.
  induction c as [|[lo hi] c IH]; intros l x P; cbn in P.
  - injection P as <-. split; [intros (s & [] & _)|intros (n & [] & _)].
  - destruct lo as [|a|a]; try discriminate. destruct hi as [|b|b]; try discriminate. destruct (dec_eqb a b) eqn:E; [|discriminate].
    destruct (points c) as [l'|]; [|discriminate]. cbn in P. injection P as <-. change (Seg (Inclusive a) (Inclusive b) :: c) with ([Seg (Inclusive a) (Inclusive b)] ++ c).
    rewrite covered_app, (IH l' x eq_refl). apply dec_eqb_val in E. split.
    + intros [(s & [<-|[]] & O & U)|(n & I & D)]; [exists a|exists n; cbn; auto]. cbn in O, U. split; [now left|]. apply dec_eqb_val. lra.
    + intros (n & [<-|I] & D); [left|right; eauto]. apply dec_eqb_val in D. exists (Seg (Inclusive a) (Inclusive b)). cbn. split; [auto|]. split; lra.
Qed.
Lemma covered_intersect : forall a b c x, intersect a b = Some c -> (covered c x <-> covered a x /\ covered b x).
Proof.
  intros [|x1 [|]] [|y1 [|]] c x E; try discriminate. cbn in E. injection E as <-. split.
  - intros (s & [<-|[]] & O & U). cbn [sg_lo sg_hi] in *. apply tighter_lo_ok in O as [O1 O2]. apply tighter_hi_ok in U as [U1 U2].
    split; [exists x1|exists y1]; cbn; auto.
  - intros [(s & [<-|[]] & O & U) (s' & [<-|[]] & O' & U')]. eexists. split; [left; reflexivity|]. cbn [sg_lo sg_hi].
    split; [now apply tighter_lo_ok|now apply tighter_hi_ok].
Qed.
