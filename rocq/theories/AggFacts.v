(** Aggregate functions against their specification on lists of numbers. *)
From Coq Require Import String Ascii ZArith QArith Lia Bool List Arith Permutation Lqa.
From Verif Require Import Base Dec Value Heap Ast Ops Compiler Vm Eval CompilerFacts VmFacts ExprFacts Funcs
  HeapSpec HeapFacts PureFacts RunSpec FuncSpec.
Import ListNotations.
Local Open Scope nat_scope.

Lemma all_nums_map : forall ns, all_nums (map VNum ns) = Some ns.
Proof. induction ns as [|x ns IH]; cbn; auto. now rewrite IH. Qed.

(** *** min and max *)
Lemma min_by_spec : forall l x, (min_by dec_cmp x l = x \/ In (min_by dec_cmp x l) l) /\
  (dec_val (min_by dec_cmp x l) <= dec_val x)%Q /\
  forall y, In y l -> (dec_val (min_by dec_cmp x l) <= dec_val y)%Q.
Proof.
  induction l as [|y l IH]; intros x; cbn.
  - split; auto. split; [apply Qle_refl|easy].
  - rewrite dec_cmp_val. destruct (Qcompare_spec (dec_val y) (dec_val x)) as [E|E|E].
    + destruct (IH x) as (A & B & C). split; [tauto|]. split; auto. intros z [->|Hz]; auto. lra.
    + destruct (IH y) as (A & B & C). split; [right; destruct A as [->|A]; auto|]. split; [lra|].
      intros z [->|Hz]; auto.
    + destruct (IH x) as (A & B & C). split; [tauto|]. split; auto. intros z [->|Hz]; auto. lra.
Qed.
Lemma max_by_spec : forall l x, (max_by dec_cmp x l = x \/ In (max_by dec_cmp x l) l) /\
  (dec_val x <= dec_val (max_by dec_cmp x l))%Q /\
  forall y, In y l -> (dec_val y <= dec_val (max_by dec_cmp x l))%Q.
Proof.
  induction l as [|y l IH]; intros x; cbn.
  - split; auto. split; [apply Qle_refl|easy].
  - rewrite dec_cmp_val. destruct (Qcompare_spec (dec_val y) (dec_val x)) as [E|E|E].
    + destruct (IH y) as (A & B & C). split; [right; destruct A as [->|A]; auto|]. split; [lra|].
      intros z [->|Hz]; auto.
    + destruct (IH x) as (A & B & C). split; [tauto|]. split; auto. intros z [->|Hz]; auto. lra.
    + destruct (IH y) as (A & B & C). split; [right; destruct A as [->|A]; auto|]. split; [lra|].
      intros z [->|Hz]; auto.
Qed.
Lemma f_min_least : forall ns, ns <> [] -> exists m, f_min dec_cmp ns = Ok m /\ least ns m.
Proof.
  intros [|x l] H; [easy|]. exists (min_by dec_cmp x l). split; auto.
  destruct (min_by_spec l x) as (A & B & C). split.
  - destruct A as [->|A]; [now left|now right].
  - intros y [<-|Hy]; auto.
Qed.
Lemma f_max_greatest : forall ns, ns <> [] -> exists m, f_max dec_cmp ns = Ok m /\ greatest ns m.
Proof.
  intros [|x l] H; [easy|]. exists (max_by dec_cmp x l). split; auto.
  destruct (max_by_spec l x) as (A & B & C). split.
  - destruct A as [->|A]; [now left|now right].
  - intros y [<-|Hy]; auto.
Qed.
Lemma least_perm : forall ns ms a b, Permutation ns ms -> least ns a -> least ms b -> (dec_val a == dec_val b)%Q.
Proof.
  intros ns ms a b P [A1 A2] [B1 B2]. apply Qle_antisym.
  - apply A2. eapply Permutation_in; [symmetry; eauto|auto].
  - apply B2. eapply Permutation_in; eauto.
Qed.
Lemma greatest_perm : forall ns ms a b, Permutation ns ms -> greatest ns a -> greatest ms b -> (dec_val a == dec_val b)%Q.
Proof.
  intros ns ms a b P [A1 A2] [B1 B2]. apply Qle_antisym.
  - apply B2. eapply Permutation_in; eauto.
  - apply A2. eapply Permutation_in; [symmetry; eauto|auto].
Qed.

(** *** sum *)
Lemma sum_from_exact : forall L ns acc, exact_sums (l_add L) acc ns ->
  exists s, sum_from L acc ns = Some s /\ (dec_val s == dec_val acc + qsum (map dec_val ns))%Q.
Proof.
  intros L. induction ns as [|x ns IH]; intros acc E; cbn [sum_from exact_sums map] in *; unfold qsum in *;
    cbn [fold_right] in *.
  - exists acc. split; auto. ring.
  - destruct E as (s & A & B & C). rewrite A. destruct (IH s C) as (t & D & F). exists t. split; auto.
    rewrite F, B. ring.
Qed.
Lemma qsum_perm : forall a b, Permutation a b -> (qsum a == qsum b)%Q.
Proof.
  induction 1; cbn; [reflexivity|now rewrite IHPermutation|ring|etransitivity; eauto].
Qed.
Lemma f_sum_exact : forall L ns, exact_sums (l_add L) dec_zero ns ->
  exists s, f_sum L ns = Ok s /\ (dec_val s == qsum (map dec_val ns))%Q.
Proof.
  intros L ns E. destruct (sum_from_exact L ns _ E) as (s & A & B). exists s. unfold f_sum. rewrite A. split; auto.
  rewrite B. setoid_replace (dec_val dec_zero) with 0%Q by reflexivity. ring.
Qed.

(** *** sorting *)
Lemma insert_perm : forall x l, Permutation (x :: l) (insert_sorted x l).
Proof.
  induction l as [|y l IH]; cbn; auto. destruct (dec_leb x y); auto.
  etransitivity; [apply perm_swap|]. auto.
Qed.
Lemma sort_perm : forall l, Permutation l (sort_decs l).
Proof.
  induction l as [|x l IH]; cbn; auto. etransitivity; [|apply insert_perm]. auto.
Qed.
Fixpoint ordered (l : list dec) : Prop :=
  match l with
  | [] => True
  | x :: r => (forall y, In y r -> (dec_val x <= dec_val y)%Q) /\ ordered r
  end.
Lemma insert_ordered : forall x l, ordered l -> ordered (insert_sorted x l).
Proof.
  induction l as [|y l IH]; intros O; cbn in *; [split; [easy|auto]|]. destruct O as [A B].
  destruct (dec_leb x y) eqn:E; cbn.
  - apply dec_leb_val in E. split; [|auto]. intros z [<-|Hz]; auto. specialize (A z Hz). lra.
  - split; auto. intros z Hz. apply (Permutation_in _ (Permutation_sym (insert_perm x l))) in Hz.
    destruct Hz as [<-|Hz]; auto. destruct (dec_leb_total x y) as [T|T]; [congruence|]. now apply dec_leb_val in T.
Qed.
Lemma sort_ordered : forall l, ordered (sort_decs l).
Proof. induction l as [|x l IH]; cbn; auto. now apply insert_ordered. Qed.
Lemma ordered_sorted : forall l, ordered l -> sorted_by_value l.
Proof.
  induction l as [|x l IH]; intros O i j a b Hij Ha Hb; [destruct i; discriminate|]. destruct O as [A B].
  destruct j as [|j]; [lia|]. cbn in Hb. destruct i as [|i]; cbn in Ha.
  - injection Ha as <-. apply A. eapply nth_error_In; eauto.
  - apply (IH B i j); auto. lia.
Qed.
Lemma sorted_ordered : forall l, sorted_by_value l -> ordered l.
Proof.
  induction l as [|x l IH]; intros S; cbn; auto. split.
  - intros y Hy. apply In_nth_error in Hy as [j Hj]. apply (S 0 (Datatypes.S j)); auto; lia.
  - apply IH. intros i j a b Hij Ha Hb. apply (S (Datatypes.S i) (Datatypes.S j)); auto; lia.
Qed.
Lemma insert_congr : forall x l l', Forall2 by_value l l' -> Forall2 by_value (insert_sorted x l) (insert_sorted x l').
Proof.
  intros x l l' F. induction F as [|y y' l l' E F IH]; cbn.
  - repeat constructor. 
  - rewrite (dec_leb_eq_r x y y') by now apply dec_eqb_val.
    destruct (dec_leb x y'); repeat constructor; auto. 
Qed.
Lemma by_value_refl : forall l, Forall2 by_value l l.
Proof. induction l; constructor; auto. unfold by_value. reflexivity. Qed.
Lemma by_value_trans : forall a b c, Forall2 by_value a b -> Forall2 by_value b c -> Forall2 by_value a c.
Proof.
  intros a b c F. revert c. induction F as [|x y a b E F IH]; intros c G; inversion G; subst; constructor.
  - unfold by_value in *. etransitivity; eauto.
  - auto.
Qed.
Lemma by_value_sym : forall a b, Forall2 by_value a b -> Forall2 by_value b a.
Proof. intros a b F. induction F; constructor; auto. unfold by_value in *. now symmetry. Qed.
Lemma insert_swap : forall x y l, Forall2 by_value (insert_sorted x (insert_sorted y l)) (insert_sorted y (insert_sorted x l)).
Proof.
  intros x y. induction l as [|z l IH]; cbn.
  - destruct (dec_leb x y) eqn:A, (dec_leb y x) eqn:B; try apply by_value_refl.
    + pose proof (dec_leb_antisym _ _ A B) as E. apply dec_eqb_val in E.
      repeat constructor; unfold by_value; [auto|now symmetry].
    + destruct (dec_leb_total x y); congruence.
  - assert (T : forall a b, dec_leb a b = false -> dec_leb b a = true).
    { intros a b H. destruct (dec_leb_total a b); congruence. }
    destruct (dec_leb y z) eqn:Yz, (dec_leb x z) eqn:Xz; cbn.
    + destruct (dec_leb x y) eqn:A, (dec_leb y x) eqn:B; rewrite ?Yz, ?Xz; try apply by_value_refl.
      * pose proof (dec_leb_antisym _ _ A B) as E. apply dec_eqb_val in E.
        constructor; [exact E|]. constructor; [now apply Qeq_sym|apply by_value_refl].
      * pose proof (T _ _ A). congruence.
    + destruct (dec_leb x y) eqn:A.
      * pose proof (dec_leb_trans _ _ _ A Yz). congruence.
      * rewrite Xz, Yz. apply by_value_refl.
    + destruct (dec_leb y x) eqn:A.
      * pose proof (dec_leb_trans _ _ _ A Xz). congruence.
      * rewrite Xz, Yz. apply by_value_refl.
    + rewrite Xz, Yz. constructor; [unfold by_value; reflexivity|exact IH].
Qed.
Lemma sort_perm_value : forall a b, Permutation a b -> Forall2 by_value (sort_decs a) (sort_decs b).
Proof.
  induction 1; cbn.
  - constructor.
  - now apply insert_congr.
  - apply insert_swap.
  - eapply by_value_trans; eauto.
Qed.
Lemma sort_id : forall l, ordered l -> sort_decs l = l.
Proof.
  induction l as [|x l IH]; intros O; cbn; auto. cbn in O. destruct O as [A B]. rewrite (IH B).
  destruct l as [|y l]; auto. cbn. assert (E : dec_leb x y = true). { apply dec_leb_val. apply A. now left. }
  now rewrite E.
Qed.
Lemma by_value_nth : forall a b, Forall2 by_value a b -> forall k x, nth_error a k = Some x ->
  exists y, nth_error b k = Some y /\ (dec_val x == dec_val y)%Q.
Proof.
  intros a b F. induction F as [|x y a b E F IH]; intros [|k] z H; try discriminate; cbn in *.
  - injection H as <-. eauto.
  - eauto.
Qed.

(** *** median *)
Lemma is_median_perm : forall ns ms p q, Permutation ns ms -> is_median ns p -> is_median ms q -> (p == q)%Q.
Proof.
  intros ns ms p q P (s & Ps & Ss & Ms) (t & Pt & St & Mt).
  assert (V : Forall2 by_value s t).
  { apply sorted_ordered in Ss, St. rewrite <- (sort_id s Ss), <- (sort_id t St). apply sort_perm_value.
    transitivity ns; [now symmetry|]. transitivity ms; auto. }
  assert (Len : length s = length t). { clear -V. induction V; cbn; auto. }
  destruct Ms as [(k & m & A & B & C)|(k & a & b & A & B & C & D)], Mt as [(k' & m' & A' & B' & C')|(k' & a' & b' & A' & B' & C' & D')]; try lia.
  - replace k' with k in * by lia. destruct (by_value_nth _ _ V _ _ B) as (y & Y1 & Y2). rewrite B' in Y1. injection Y1 as ->.
    now rewrite C, C', Y2.
  - replace k' with k in * by lia. destruct (by_value_nth _ _ V _ _ B) as (y & Y1 & Y2). rewrite B' in Y1. injection Y1 as ->.
    destruct (by_value_nth _ _ V _ _ C) as (z & Z1 & Z2). rewrite C' in Z1. injection Z1 as ->.
    now rewrite D, D', Y2, Z2.
Qed.
Lemma is_median_within : forall ns q, is_median ns q -> within ns q.
Proof.
  intros ns q (s & P & S & [(k & m & A & B & C)|(k & a & b & A & B & C & D)]).
  - exists m, m. assert (In m ns). { eapply Permutation_in; [symmetry; eauto|]. eapply nth_error_In; eauto. }
    repeat split; auto; rewrite C; apply Qle_refl.
  - exists a, b. assert (In a ns /\ In b ns) as [].
    { split; (eapply Permutation_in; [symmetry; eauto|]; eapply nth_error_In; eauto). }
    pose proof (S k (k + 1) a b ltac:(lia) B C) as H1.
    repeat split; auto; rewrite D; unfold Qdiv; change (/ inject_Z 2)%Q with (1 # 2)%Q; lra.
Qed.
Lemma f_median_spec : forall L ns, ns <> [] -> exact_means (l_add L) (l_div L) ns ->
  exists m, f_median L ns = Ok m /\ is_median ns (dec_val m).
Proof.
  intros L ns Hne Ex. unfold f_median. set (s := sort_decs ns).
  assert (P : Permutation ns s) by apply sort_perm. assert (S : sorted_by_value s) by apply ordered_sorted, sort_ordered.
  assert (Hl : length s <> 0). { destruct s as [|z s']; [symmetry in P; apply Permutation_nil in P; congruence|discriminate]. }
  destruct (Nat.eqb_spec (length s mod 2) 1) as [Od|Ev].
  - pose proof (Nat.div_mod (length s) 2 ltac:(lia)) as Dm. rewrite Od in Dm.
    destruct (nth_error s (length s / 2)) as [m|] eqn:E; [|apply nth_error_None in E; lia].
    exists m. split; auto. exists s. split; auto. split; auto. left. exists (length s / 2), m. repeat split; auto.
  - pose proof (Nat.div_mod (length s) 2 ltac:(lia)) as Dm.
    assert (E0 : length s mod 2 = 0). { pose proof (Nat.mod_upper_bound (length s) 2 ltac:(lia)). lia. }
    rewrite E0 in Dm. destruct (length s / 2) as [|c] eqn:Ec; [lia|].
    destruct (nth_error s c) as [a|] eqn:Ea; [|apply nth_error_None in Ea; lia].
    destruct (nth_error s (Datatypes.S c)) as [b|] eqn:Eb; [|apply nth_error_None in Eb; lia].
    destruct (Ex a b) as (t & m & A & B & C).
    { eapply Permutation_in; [symmetry; eauto|]. eapply nth_error_In; eauto. }
    { eapply Permutation_in; [symmetry; eauto|]. eapply nth_error_In; eauto. }
    exists m. cbn [of_option bind]. rewrite A. cbn [of_option bind]. rewrite B. split; auto. exists s. split; auto. split; auto. right.
    exists c, a, b. replace (c + 1) with (Datatypes.S c) by lia. repeat split; auto. lia.
Qed.

(** *** mode *)
Definition counted (seen : list dec) (m : list (dec * nat)) : Prop :=
  (forall y c, In (y, c) m -> In y seen /\ c = occurrences y seen) /\
  (forall x, In x seen -> exists y c, In (y, c) m /\ (dec_val x == dec_val y)%Q).
Fixpoint keys_up (m : list (dec * nat)) : Prop :=
  match m with
  | [] => True
  | (x, _) :: r => (forall y c, In (y, c) r -> (dec_val x < dec_val y)%Q) /\ keys_up r
  end.
Lemma dec_eqb_false : forall a b, ~ (dec_val a == dec_val b)%Q -> dec_eqb a b = false.
Proof. intros a b H. destruct (dec_eqb a b) eqn:E; auto. apply dec_eqb_val in E. contradiction. Qed.
Lemma occ_snoc : forall y seen x, occurrences y (seen ++ [x]) =
  occurrences y seen + (if dec_eqb y x then 1 else 0).
Proof.
  intros. unfold occurrences. rewrite filter_app, app_length. cbn. now destruct (dec_eqb y x).
Qed.
Lemma occ_eq : forall x y seen, (dec_val x == dec_val y)%Q -> occurrences x seen = occurrences y seen.
Proof.
  intros x y seen E. unfold occurrences. f_equal. apply filter_ext. intros z. apply eq_true_iff_eq.
  rewrite !dec_eqb_val. now rewrite E.
Qed.
Lemma bump_in : forall x m y c, keys_up m -> In (y, c) (bump x m) ->
  (In (y, c) m /\ ~ (dec_val x == dec_val y)%Q) \/
  (exists c0, In (y, c0) m /\ c = S c0 /\ (dec_val x == dec_val y)%Q) \/
  (y = x /\ c = 1 /\ forall z d, In (z, d) m -> ~ (dec_val x == dec_val z)%Q).
Proof.
  intros x. induction m as [|[z d] m IH]; intros y c K H; cbn in *.
  - destruct H as [E|[]]. injection E as <- <-. right; right. repeat split; auto.
  - destruct K as [K1 K2]. rewrite dec_cmp_val in H. destruct (Qcompare_spec (dec_val x) (dec_val z)) as [E|E|E].
    + destruct H as [H|H].
      * injection H as <- <-. right; left. exists d. auto.
      * left. split; auto. specialize (K1 _ _ H). lra.
    + destruct H as [H|[H|H]].
      * injection H as <- <-. right; right. repeat split; auto. intros w e [G|G]; [injection G as <- <-; lra|].
        specialize (K1 _ _ G). lra.
      * injection H as <- <-. left. split; auto. lra.
      * left. split; auto. specialize (K1 _ _ H). lra.
    + destruct H as [H|H].
      * injection H as <- <-. left. split; auto. lra.
      * destruct (IH _ _ K2 H) as [[A B]|[(c0 & A & B & C)|(A & B & C)]]; [left; auto|right; left; eauto|].
        right; right. repeat split; auto. intros w e [G|G]; [injection G as <- <-; lra|eauto].
Qed.
Lemma bump_keys : forall x m, keys_up m -> keys_up (bump x m) /\
  (forall y c, In (y, c) (bump x m) -> (exists d, In (y, d) m) \/ y = x).
Proof.
  intros x. induction m as [|[z d] m IH]; intros K; cbn in *.
  - split; [easy|]. intros y c [E|[]]. injection E as <- <-. auto.
  - destruct K as [K1 K2]. rewrite dec_cmp_val. destruct (Qcompare_spec (dec_val x) (dec_val z)) as [E|E|E].
    + split; [split; auto|]. intros y c [G|G]; [injection G as <- <-; left; eauto|left; eauto].
    + split; [cbn; split; auto|].
      * intros y c [G|G]; [injection G as <- <-; auto|]. specialize (K1 _ _ G). lra.
      * intros y c [G|[G|G]]; [injection G as <- <-; auto|injection G as <- <-; left; eauto|left; eauto].
    + destruct (IH K2) as [A B]. split; [cbn; split; auto|].
      * intros y c G. destruct (B _ _ G) as [[e F]| ->]; eauto.
      * intros y c [G|G]; [injection G as <- <-; left; eauto|]. destruct (B _ _ G) as [[e F]| ->]; eauto.
Qed.
Lemma bump_has : forall x m, exists y c, In (y, c) (bump x m) /\ (dec_val x == dec_val y)%Q.
Proof.
  intros x. induction m as [|[z d] m IH]; cbn.
  - exists x, 1. split; [now left|reflexivity].
  - rewrite dec_cmp_val. destruct (Qcompare_spec (dec_val x) (dec_val z)) as [E|E|E].
    + exists z, (S d). split; [now left|auto].
    + exists x, 1. split; [now left|reflexivity].
    + destruct IH as (y & c & A & B). exists y, c. split; [now right|auto].
Qed.
Lemma bump_keeps : forall x m y c, In (y, c) m -> exists c', In (y, c') (bump x m).
Proof.
  intros x. induction m as [|[z d] m IH]; intros y c H; cbn in *; [easy|].
  destruct (dec_cmp x z).
  - destruct H as [H|H]; [injection H as <- <-; eexists; now left|eexists; right; eauto].
  - exists c. right. auto.
  - destruct H as [H|H]; [injection H as <- <-; eexists; now left|]. destruct (IH _ _ H) as [c' A]. exists c'. now right.
Qed.
Lemma count_inv : forall l seen m, keys_up m -> counted seen m ->
  let m' := fold_left (fun m x => bump x m) l m in keys_up m' /\ counted (seen ++ l) m'.
Proof.
  induction l as [|x l IH]; intros seen m K C; cbn.
  - rewrite app_nil_r. auto.
  - replace (seen ++ x :: l) with ((seen ++ [x]) ++ l) by now rewrite <- app_assoc.
    apply IH; [now apply bump_keys|]. destruct C as [C1 C2]. split.
    + intros y c H. rewrite occ_snoc. destruct (bump_in _ _ _ _ K H) as [[A B]|[(c0 & A & -> & B)|(-> & -> & B)]].
      * destruct (C1 _ _ A) as [I ->]. split; [apply in_or_app; auto|].
        rewrite dec_eqb_false; [lia|]. intros E. apply B. now symmetry.
      * destruct (C1 _ _ A) as [I ->]. split; [apply in_or_app; auto|].
        replace (dec_eqb y x) with true; [lia|]. symmetry. apply dec_eqb_val. now symmetry.
      * split; [apply in_or_app; right; now left|]. rewrite dec_eqb_refl.
        replace (occurrences x seen) with 0; auto. unfold occurrences.
        assert (F : forall w, In w seen -> dec_eqb x w = false).
        { intros w Hw. destruct (C2 w Hw) as (y & c & Hy & E). apply dec_eqb_false. intros E2. apply (B _ _ Hy). now rewrite E2. }
        clear -F. induction seen as [|w seen IH]; cbn; auto. rewrite F by now left. apply IH. intros. apply F. now right.
    + intros w Hw. apply in_app_or in Hw as [Hw|[<-|[]]].
      * destruct (C2 _ Hw) as (y & c & A & B). destruct (bump_keeps x _ _ _ A) as [c' D]. eauto.
      * apply bump_has.
Qed.
Lemma max_count : forall (m : list (dec * nat)) x, keys_up (x :: m) ->
  let r := max_by (fun a b => Nat.compare (snd a) (snd b)) x m in
  In r (x :: m) /\ forall y, In y (x :: m) -> snd y < snd r \/ (snd y = snd r /\ (dec_val (fst y) <= dec_val (fst r))%Q).
Proof.
  induction m as [|[z d] m IH]; intros [x c] K; cbn.
  - split; auto. intros y [<-|[]]. right. split; auto. apply Qle_refl.
  - cbn in K. destruct K as [K1 [K2 K3]]. assert (Hxz : (dec_val x < dec_val z)%Q) by (eapply K1; now left).
    destruct (Nat.compare_spec d c) as [E|E|E].
    + destruct (IH (z, d)) as [A B]; [cbn; auto|]. cbn in A, B. split; [tauto|].
      intros y [<-|[<-|Hy]]; [|apply B; now left|apply B; now right].
      destruct (B (z, d) (or_introl eq_refl)) as [F|[F G]]; cbn in *; [left; lia|right; split; [lia|lra]].
    + destruct (IH (x, c)) as [A B]; [cbn; split; auto; intros; eapply K1; right; eauto|]. cbn in A, B. split; [tauto|].
      intros y [<-|[<-|Hy]]; [apply B; now left| |apply B; now right].
      destruct (B (x, c) (or_introl eq_refl)) as [F|[F G]]; cbn in *; left; lia.
    + destruct (IH (z, d)) as [A B]; [cbn; auto|]. cbn in A, B. split; [tauto|].
      intros y [<-|[<-|Hy]]; [|apply B; now left|apply B; now right].
      destruct (B (z, d) (or_introl eq_refl)) as [F|[F G]]; cbn in *; left; lia.
Qed.
Lemma f_mode_spec : forall ns, ns <> [] -> exists m, f_mode ns = Ok m /\ is_mode ns m.
Proof.
  intros ns Hne. unfold f_mode.
  destruct (count_inv ns [] []) as [K [C1 C2]]; [exact I|split; easy|]. cbn [app] in *. fold (count_decs ns) in *.
  destruct (count_decs ns) as [|x r] eqn:E.
  - destruct ns as [|n ns]; [easy|]. destruct (C2 n (or_introl eq_refl)) as (? & ? & [] & _).
  - eexists. split; [reflexivity|].
    destruct (max_count r x K) as [A B]. cbv zeta in A, B.
    destruct (max_by _ x r) as [m c] eqn:Em. destruct (C1 _ _ A) as [I1 I2]. split; [exact I1|].
    intros w Hw. destruct (C2 w Hw) as (y & d & Hy & Ew). destruct (C1 _ _ Hy) as [J1 J2].
    cbn [fst]. rewrite (occ_eq _ _ ns Ew), <- J2, <- I2.
    destruct (B _ Hy) as [F|[F G]]; cbn in *; [now left|]. right. split; auto. now rewrite Ew.
Qed.
Lemma occ_perm : forall x a b, Permutation a b -> occurrences x a = occurrences x b.
Proof.
  intros x a b P. unfold occurrences. induction P; cbn; auto; try congruence.
  - destruct (dec_eqb x x0); cbn; auto.
  - destruct (dec_eqb x x0), (dec_eqb x y); auto.
Qed.
Lemma is_mode_perm : forall ns ms a b, Permutation ns ms -> is_mode ns a -> is_mode ms b -> (dec_val a == dec_val b)%Q.
Proof.
  intros ns ms a b P [A1 A2] [B1 B2].
  assert (Hb : In b ns) by (eapply Permutation_in; [symmetry; eauto|auto]).
  assert (Ha : In a ms) by (eapply Permutation_in; eauto).
  specialize (A2 _ Hb). specialize (B2 _ Ha). rewrite !(occ_perm _ _ _ P) in A2.
  destruct A2 as [F|[F G]], B2 as [F'|[F' G']]; try lia. now apply Qle_antisym.
Qed.

(** *** Calls *)
Section Calls.
  Variable L : lib.
  Let X := std_ext L.
  Variables (na : node) (root : scope) (h h1 : heap) (l : loc) (ns : list dec).
  Hypothesis Na : no_assign na = true.
  Hypothesis Ya : yields X na root h (Ok (VArr l)) h1.
  Hypothesis Hl : hget h1 l = Some (CArr (map VNum ns)).
  Let Hl' : harr h1 l = Some (map VNum ns) := proj2 (harr_hget _ _ _) Hl.

  Lemma agg_call : forall f r, internal_arity f = (1, 1) -> call_internal L f [VArr l] h1 = (h1, r) ->
    yields X (agg f na) root h
      (match r with Ok v => Ok v | Err (EPanic w) => Err (EPanic w) | Err _ => Err (EOp "CallFunction") end) h1.
  Proof.
    intros f r Ar E.
    assert (C : compiles X (agg f na)).
    { apply compiles_call1; [eapply yields_compiles; eauto| |discriminate].
      change (Some (internal_arity f) = Some (1, 1)). now rewrite Ar. }
    assert (Ev : eval X root [] [] (agg f na) root h =
      hlift root (h1, match r with Ok v => Ok v | Err (EPanic w) => Err (EPanic w) | Err _ => Err (EOp "CallFunction") end)).
    { unfold agg. cbn [eval eval_seq]. rewrite (yields_eval _ _ _ _ _ _ Na Ya). cbn [obind].
      unfold op_call. change (x_arity X (FInternal f)) with (Some (internal_arity f)).
      change (x_call X (FInternal f) [VArr l] h1) with (call_internal L f [VArr l] h1). rewrite E.
      destruct r as [v|[]]; reflexivity. }
    pose proof (eval_yields _ _ _ _ _ C Ev) as Y. now destruct r as [v|[]].
  Qed.
  Lemma nums_arg : arg_nums h1 [VArr l] 0 = Ok ns.
  Proof. unfold arg_nums, arg_arr. cbn [nth_error]. rewrite Hl'. cbn [of_option bind]. now rewrite all_nums_map. Qed.
  Lemma nums_dates_arg : ns <> [] -> arg_nums_or_dates h1 [VArr l] 0 = Ok (inl ns).
  Proof.
    intros Hn. unfold arg_nums_or_dates, arg_arr. cbn [nth_error]. rewrite Hl'. cbn [of_option bind].
    destruct ns as [|n r]; [easy|]. cbn [map]. rewrite <- map_cons. now rewrite all_nums_map.
  Qed.
  Lemma min_yields : ns <> [] -> exists m, yields X (agg FMin na) root h (Ok (VNum m)) h1 /\ least ns m.
  Proof.
    intros Hn. destruct (f_min_least ns Hn) as (m & E & S). exists m. split; auto. apply (agg_call _ (Ok (VNum m))); auto.
    cbn [call_internal]. rewrite (nums_dates_arg Hn). cbn [bind]. now rewrite E.
  Qed.
  Lemma max_yields : ns <> [] -> exists m, yields X (agg FMax na) root h (Ok (VNum m)) h1 /\ greatest ns m.
  Proof.
    intros Hn. destruct (f_max_greatest ns Hn) as (m & E & S). exists m. split; auto. apply (agg_call _ (Ok (VNum m))); auto.
    cbn [call_internal]. rewrite (nums_dates_arg Hn). cbn [bind]. now rewrite E.
  Qed.
  Lemma empty_yields : ns = [] -> forall f, In f [FMin; FMax; FMode] ->
    yields X (agg f na) root h (Err (EOp "CallFunction")) h1.
  Proof.
    intros E0 f Hf. pose proof nums_arg as N1. pose proof Hl' as N2. rewrite E0 in N1, N2. cbn [map] in N2.
    destruct Hf as [<-|[<-|[<-|[]]]]; apply (agg_call _ (Err (EOp "Empty array"))); auto;
      cbn [call_internal]; unfold arg_nums_or_dates, arg_arr; cbn [nth_error]; rewrite ?N1, ?N2; reflexivity.
  Qed.
  Lemma empty_median : ns = [] ->
    yields X (agg FMedian na) root h (Err (EPanic "attempt to subtract with overflow")) h1.
  Proof.
    intros E0. pose proof nums_arg as N1. rewrite E0 in N1.
    apply (agg_call _ (Err (EPanic "attempt to subtract with overflow"))); auto.
    cbn [call_internal]; rewrite N1; reflexivity.
  Qed.
  Lemma sum_yields : exact_sums (l_add L) dec_zero ns ->
    exists s, yields X (agg FSum na) root h (Ok (VNum s)) h1 /\ (dec_val s == qsum (map dec_val ns))%Q.
  Proof.
    intros Ex. destruct (f_sum_exact L ns Ex) as (s & E & S). exists s. split; auto. apply (agg_call _ (Ok (VNum s))); auto.
    cbn [call_internal]. rewrite nums_arg. cbn [bind]. now rewrite E.
  Qed.
  Lemma sum_overflow_yields : overflows (l_add L) dec_zero ns ->
    yields X (agg FSum na) root h (Err (EOp "CallFunction")) h1.
  Proof.
    intros O. assert (E : f_sum L ns = Err (EOp "Number overflow")).
    { unfold f_sum. replace (sum_from L dec_zero ns) with (@None dec); auto. clear -O. revert O. generalize dec_zero.
      intros d O. induction O; cbn; [now rewrite H|now rewrite H]. }
    apply (agg_call _ (Err (EOp "Number overflow"))); auto. cbn [call_internal]. rewrite nums_arg. cbn [bind]. now rewrite E.
  Qed.
  Lemma avg_yields : ns <> [] -> exact_sums (l_add L) dec_zero ns ->
    (forall s, (dec_val s == qsum (map dec_val ns))%Q -> exists m, l_div L s (dec_of_nat (length ns)) = Some m /\ (dec_val m == dec_val s / inject_Z (Z.of_nat (length ns)))%Q) ->
    exists m, yields X (agg FAvg na) root h (Ok (VNum m)) h1 /\
      (dec_val m == qsum (map dec_val ns) / inject_Z (Z.of_nat (length ns)))%Q.
  Proof.
    intros Hn Ex Hd. destruct (f_sum_exact L ns Ex) as (s & E & S). destruct (Hd s S) as (m & Em & Vm).
    exists m. split; [|now rewrite Vm, S]. apply (agg_call _ (Ok (VNum m))); auto.
    cbn [call_internal]. rewrite nums_arg. cbn [bind]. unfold f_avg. rewrite E. cbn [bind]. now rewrite Em.
  Qed.
  Lemma median_yields : ns <> [] -> exact_means (l_add L) (l_div L) ns ->
    exists m, yields X (agg FMedian na) root h (Ok (VNum m)) h1 /\ is_median ns (dec_val m).
  Proof.
    intros Hn Ex. destruct (f_median_spec L ns Hn Ex) as (s & E & S). exists s. split; auto. apply (agg_call _ (Ok (VNum s))); auto.
    cbn [call_internal]. rewrite nums_arg. cbn [bind]. now rewrite E.
  Qed.
  Lemma mode_yields : ns <> [] -> exists m, yields X (agg FMode na) root h (Ok (VNum m)) h1 /\ is_mode ns m.
  Proof.
    intros Hn. destruct (f_mode_spec ns Hn) as (m & E & S). exists m. split; auto. apply (agg_call _ (Ok (VNum m))); auto.
    cbn [call_internal]. rewrite nums_arg. cbn [bind]. now rewrite E.
  Qed.
End Calls.
