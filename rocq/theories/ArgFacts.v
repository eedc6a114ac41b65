(** Proofs about the arguments of calls and the results of methods, for C69. *)
From Coq Require Import String ZArith Bool List Arith Lia.
From Verif Require Import Base Dec Value Heap Ast Ops Eval Funcs Dates DateMethods VarType TypeSpec TypeFacts Infer InferSpec InferFits InferOps InferFacts.
Import ListNotations.
Local Open Scope string_scope.
Local Open Scope list_scope.

Lemma fits_text : forall t v, satisfies t KString = true -> t <> KAny -> fits t v -> is_text v.
Proof. intros t v S1 N H. unfold fits in H; destruct t; try discriminate S1; try contradiction; cbn [member] in H; first [exact H | (subst v; eexists; reflexivity) | destruct H as [x [E _]]; subst v; eexists; reflexivity]. Qed.
Lemma fits_number : forall t v, satisfies t KNumber = true -> t <> KAny -> fits t v -> is_number v.
Proof. intros t v S1 N H. destruct (sat_number _ S1) as [->| ->]; [contradiction|exact H]. Qed.
Lemma fits_list : forall t u v, satisfies t (KArray u) = true -> t <> KAny -> fits t v -> exists w, t = KArray w /\ satisfies w u = true /\ list_of (fits w) v.
Proof. intros t u v S1 N H. apply sat_arr in S1. destruct S1 as [->|[w [-> S1]]]; [contradiction|]. exists w. auto. Qed.
Lemma list_more : forall (P Q : tree -> Prop) v, list_of P v -> (forall x, P x -> Q x) -> list_of Q v.
Proof. intros P Q v [l [E H]] PQ. exists l. auto. Qed.
Lemma fits_nums : forall t v, satisfies t numbers = true -> told t -> fits t v -> list_of is_number v.
Proof. intros t v S1 T H. apply told_both in T. destruct T as [N1 N2]. destruct (fits_list _ _ _ S1 N1 H) as [w [-> [S2 L]]]. eapply list_more; [exact L|]. intros x. apply fits_number; auto. intros ->. now apply N2. Qed.
Lemma fits_texts : forall t v, satisfies t strings = true -> told t -> fits t v -> list_of is_text v.
Proof. intros t v S1 T H. apply told_both in T. destruct T as [N1 N2]. destruct (fits_list _ _ _ S1 N1 H) as [w [-> [S2 L]]]. eapply list_more; [exact L|]. intros x. apply fits_text; auto. intros ->. now apply N2. Qed.
Lemma fits_dates : forall t v, satisfies t (KArray KDate) = true -> told t -> fits t v -> list_of is_number v \/ list_of (either is_date is_text) v.
Proof.
  intros t v S1 T H. apply told_both in T. destruct T as [N1 N2]. destruct (fits_list _ _ _ S1 N1 H) as [w [-> [S2 L]]]. destruct w; try discriminate S2; [now elim N2| | | | |].
  all: first [left; exact L | right; eapply list_more; [exact L|]; intros x X; unfold fits in X; cbn [member] in X; first [left; exact X | right; exact X | right; subst x; eexists; reflexivity | right; destruct X as [y [E _]]; subst x; eexists; reflexivity]].
Qed.
Lemma fits_listed : forall t v, satisfies t anys = true -> t <> KAny -> fits t v -> list_of whatever v.
Proof. intros t v S1 N H. destruct (fits_list _ _ _ S1 N H) as [w [-> [_ L]]]. eapply list_more; [exact L|]. intros; exact I. Qed.
Lemma fits_fields : forall t v, satisfies t (KObject []) = true -> t <> KAny -> fits t v -> is_record v.
Proof. intros t v S1 N H. destruct t; try discriminate S1; try contradiction. destruct H as [o [-> _]]. eexists. reflexivity. Qed.

Lemma fits_base : forall t v, fits t v -> v = TNull \/ fits (base t) v.
Proof. intros t v H. destruct t; try (right; exact H). exact H. Qed.
Lemma iterated : forall t e v, iterator t = Some e -> fits t v -> v = TNull \/ e = KNumber \/ list_of (fits e) v.
Proof.
  induction t as [| | | | | | |t IH|m IH|s|n l|t IH] using vtype_ind'; intros e v E H; cbn [iterator] in E; try discriminate E.
  - injection E as <-. auto.
  - injection E as <-. right. right. exact H.
  - destruct H as [->|H]; [now left|]. exact (IH _ _ E H).
Qed.
Ltac one_of := constructor; [|constructor].
Ltac known_kinds := match goal with
  | H : fits ?a ?v |- is_text ?v => apply (fits_text a v); [assumption| |exact H]
  | H : fits ?a ?v |- is_number ?v => apply (fits_number a v); [assumption| |exact H]
  | H : fits ?a ?v |- list_of is_number ?v => apply (fits_nums a v); [assumption| |exact H]
  | H : fits ?a ?v |- list_of is_text ?v => apply (fits_texts a v); [assumption| |exact H]
  | H : fits ?a ?v |- is_record ?v => apply (fits_fields a v); [assumption| |exact H]
  | H : fits ?a ?v |- list_of whatever ?v => apply (fits_listed a v); [assumption| |exact H]
  end; match goal with N : forall t, In t _ -> ?P t |- ?P _ => apply N | N : forall t, In t _ -> _ <> _ |- _ => apply N end; cbn; auto; fail.
Lemma arguments_taken : forall f ts args, Forall2 fits ts args -> (forall t, In t ts -> told t) -> clean (snd (check_call true (FInternal f) ts)) -> taken f args.
Proof.
  intros f ts args F To Cl. assert (Not : forall t, In t ts -> t <> KAny) by (intros t T; apply (told_both _ (To t T))).
  destruct f; cbn [check_call own_check internal_def] in Cl; unfold Infer.one in Cl; unfold taken; cbn [ways].
  all: try (apply static_args in Cl;
       repeat match goal with H : Forall2 _ _ [] |- _ => inversion H; clear H; subst | H : Forall2 _ _ (_ :: _) |- _ => inversion H; clear H; subst | H : Forall2 _ [] _ |- _ => inversion H; clear H; subst | H : Forall2 _ (_ :: _) _ |- _ => inversion H; clear H; subst end;
       eexists; (split; [left; reflexivity|]); repeat constructor; known_kinds; fail).
  all: try (apply composite_args in Cl; destruct Cl as [[s [Is M]] Len]; cbn in Len;
    destruct F as [|a v ts vs H1 F1]; [cbn in Len; try lia|destruct F1 as [|a2 v2 ts vs H2 F2]; [cbn in Len; try lia|destruct F2; [cbn in Len; try lia|cbn in Len; lia]]]).
  all: try (destruct Is as [<-|[<-|[]]]; cbn [fst args_match] in M; repeat (apply andb_true_iff in M; let M1 := fresh "M" in destruct M as [M1 M]);
    solve [eexists; (split; [left; reflexivity|]); repeat constructor; known_kinds | eexists; (split; [right; left; reflexivity|]); repeat constructor; known_kinds]).
  all: try (unfold check_own in Cl; destruct F as [|a v ts vs H1 F1]; [exfalso; eapply clean_one; exact Cl|]; destruct F1; [|exfalso; eapply clean_one; exact Cl]; specialize (To a ltac:(now left)); clear Not).
  - destruct (iterator a) as [e|] eqn:Ie; [|exfalso; eapply clean_one; exact Cl]. cbn [snd] in Cl. apply clean_unless in Cl. destruct a; try discriminate Ie; try discriminate Cl; eexists; (split; [left; reflexivity|]); one_of; [right; exact H1|left].
    eapply list_more; [exact H1|]. intros; exact I.
  - destruct (iterator a) as [e|] eqn:Ie; [|exfalso; eapply clean_one; exact Cl]. destruct (iterated _ _ _ Ie H1) as [->|[I1|L]]; [eexists; (split; [left; reflexivity|]); one_of; now left| |].
    + exfalso. subst e. eapply clean_one; exact Cl.
    + unfold merge_kind in Cl. destruct (base e) eqn:B; try (exfalso; eapply clean_one; exact Cl).
      * exfalso. exact (proj2 To _ Ie B).
      * eexists. split; [left; reflexivity|]. one_of. right. eapply list_more; [exact L|]. intros x X. apply fits_base in X. destruct X as [->|X]; [now left|]. rewrite B in X. left. exact X.
      * eexists. split; [right; left; reflexivity|]. one_of. right. eapply list_more; [exact L|]. intros x X. apply fits_base in X. destruct X as [->|X]; [now left|]. rewrite B in X. right. destruct X as [q [-> _]]. exists q. split; [reflexivity|intros; exact I].
      * eexists. split; [left; reflexivity|]. one_of. right. eapply list_more; [exact L|]. intros x X. apply fits_base in X. destruct X as [->|X]; [now left|]. rewrite B in X. right. destruct X as [q [-> _]]. exists q. reflexivity.
  - destruct (iterator a) as [e|] eqn:Ie; [|exfalso; eapply clean_one; exact Cl]. destruct (iterated _ _ _ Ie H1) as [->|[I1|L]]; [eexists; (split; [left; reflexivity|]); one_of; now left| |].
    + exfalso. subst e. eapply clean_one; exact Cl.
    + unfold merge_deep_kind in Cl. destruct (base e) eqn:B; try (exfalso; eapply clean_one; exact Cl).
      * exfalso. exact (proj2 To _ Ie B).
      * eexists. split; [left; reflexivity|]. one_of. right. eapply list_more; [exact L|]. intros x X. apply fits_base in X. destruct X as [->|X]; [now left|]. rewrite B in X. left. exact X.
      * eexists. split; [left; reflexivity|]. one_of. right. eapply list_more; [exact L|]. intros x X. apply fits_base in X. destruct X as [->|X]; [now left|]. rewrite B in X. right. destruct X as [q [-> _]]. exists q. reflexivity.
  - destruct Is as [<-|[<-|[]]]; cbn [fst args_match] in M; apply andb_true_iff in M; destruct M as [M _]; [eexists; (split; [left; reflexivity|]); one_of; eapply fits_nums; eauto; apply To; now left|].
    destruct (fits_dates _ _ M (To a ltac:(now left)) H1); [eexists; (split; [left; reflexivity|])|eexists; (split; [right; left; reflexivity|])]; one_of; assumption.
  - destruct Is as [<-|[<-|[]]]; cbn [fst args_match] in M; apply andb_true_iff in M; destruct M as [M _]; [eexists; (split; [left; reflexivity|]); one_of; eapply fits_nums; eauto; apply To; now left|].
    destruct (fits_dates _ _ M (To a ltac:(now left)) H1); [eexists; (split; [left; reflexivity|])|eexists; (split; [right; left; reflexivity|])]; one_of; assumption.
  - assert (B : base a <> KAny) by exact (proj1 To).
    eexists. split; [left; reflexivity|]. one_of. apply fits_base in H1. destruct H1 as [->|H1]; [now left|]. destruct (base a); try (exfalso; eapply clean_one; exact Cl); [contradiction|]. right. destruct H1 as [q [-> _]]. exists q. reflexivity.
  - eexists. split; [right; right; left; reflexivity|]. repeat constructor.
Qed.

(** ** Methods *)
Definition listed_methods : list mkind := ["diff"; "second"; "minute"; "hour"; "day"; "weekday"; "dayOfYear"; "week"; "month"; "quarter"; "year"; "timestamp"; "isYesterday"; "isToday"; "isTomorrow"; "isLeapYear"; "offsetName"].
Lemma methods_split : forall k d, method_def k = Some d -> In k reliable \/ In k listed_methods.
Proof.
  assert (Ex : forall k l, existsb (String.eqb k) l = true -> In k l) by (intros k l E; apply existsb_exists in E; destruct E as [x [I1 E]]; apply String.eqb_eq in E; now subst x).
  assert (Sp : forall k l, In k l -> forallb (fun x => existsb (String.eqb x) reliable || existsb (String.eqb x) listed_methods) l = true -> In k reliable \/ In k listed_methods).
  { intros k l I1 F. rewrite forallb_forall in F. specialize (F k I1). apply orb_true_iff in F. destruct F; eauto. }
  intros k d E. unfold method_def in E.
  repeat match type of E with
         | (if existsb (String.eqb k) ?l then _ else _) = _ => let B := fresh "B" in destruct (existsb (String.eqb k) l) eqn:B; [apply (Sp k l); [now apply Ex|vm_compute; reflexivity]|]
         | (if String.eqb k ?x then _ else _) = _ => let B := fresh "B" in destruct (String.eqb k x) eqn:B; [apply String.eqb_eq in B; apply (Sp k [x]); [subst k; now left|vm_compute; reflexivity]|]
         end. discriminate E.
Qed.
Lemma ok_same : forall A (a b : A), Ok a = Ok b -> b = a.
Proof. congruence. Qed.
Ltac right_kind E :=
  unfold comparison in E; cbn [String.eqb Ascii.eqb Bool.eqb] in E; match type of E with match ?x with _ => _ end = _ => destruct x end; [|left; now apply ok_same in E];
  unfold getter in E; cbv zeta in E; cbn [String.eqb Ascii.eqb Bool.eqb of_option] in E; apply ok_same in E; subst; right; cbn [check_types fst hfits]; unfold num; eauto.
Lemma method_fits : forall C k d ts args h v, method_def k = Some d -> clean (snd (check_types d ts)) -> date_method C k args = Ok v ->
  exists t, repr h v t /\ (t = TNull \/ fits (fst (check_types d ts)) t).
Proof.
  intros C k d ts args h v M Cl E. assert (R : exists t, repr h v t).
  { pose proof (method_plain C k args v E) as P. destruct v; cbn in P; try contradiction; eexists; constructor. }
  destruct R as [t R]. exists t. split; [exact R|]. assert (Q : v = VNull \/ hfits h (fst (check_types d ts)) v).
  { destruct (methods_split _ _ M) as [I1|I1].
    - right. pose proof (method_sound C k ts args h v I1) as Q. rewrite M in Q. now apply Q.
    - unfold date_method in E. destruct (arg_date args 0) as [this|]; [|discriminate E]. cbn [bind] in E. cbv zeta in E.
      unfold listed_methods in I1. repeat (destruct I1 as [<-|I1]; [|]); try contradiction;
        (match type of M with method_def ?s = _ => let x := eval vm_compute in (method_def s) in change (method_def s) with x in M end; injection M as <-).
      + rewrite (composite_same _ _ KNumber Cl) by (intros s S1; repeat (destruct S1 as [<-|S1]; [reflexivity|]); contradiction). cbn [String.eqb Ascii.eqb Bool.eqb] in E. split_do E.
        match goal with |- context [vm_diff ?a ?b ?c] => destruct (vm_diff a b c) end; [right; unfold num; cbn; eauto|now left].
      + right_kind E.
      + right_kind E.
      + right_kind E.
      + right_kind E.
      + right_kind E.
      + right_kind E.
      + right_kind E.
      + right_kind E.
      + right_kind E.
      + right_kind E.
      + right_kind E.
      + right_kind E.
      + right_kind E.
      + right_kind E.
      + right_kind E.
      + right_kind E. }
  destruct Q as [->|Q]; [left; inversion R; reflexivity|right]. now apply (proj1 (hfits_repr _ _ _ _ R)).
Qed.

(** ** The operator [in] *)
Lemma rounded_includes : forall i x, rounded i -> exists r, interval_includes i x = Some r.
Proof. intros [lb rb l r] x [H1 H2]. cbn in H1, H2. unfold interval_includes. cbn [iv_lb iv_rb]. destruct lb; try contradiction; destruct rb; try contradiction; eauto. Qed.
Lemma in_decided : forall h A B a b, hfits h A a -> hfits h B b -> A <> KAny -> B <> KAny -> scalar_type A \/ A = KDate -> (forall i, b = VDyn (DInterval i) -> rounded i) ->
  clean (snd (check_in A B)) -> exists r, op_in h a b = Ok (VBool r).
Proof.
  intros h A B a b Ha Hb Na Nb Sc Ro Cl. assert (As : a = VNull \/ (exists x, a = VBool x) \/ (exists x, a = VNum x) \/ (exists x, a = VStr x) \/ exists x, a = VDyn (DDate x)).
  { destruct Sc as [Sc| ->]; [|destruct Ha as [x ->]; eauto 6]. unfold scalar_type in Sc. apply hfits_base in Ha. destruct Ha as [Ha|[_ ->]]; [|now left].
    destruct (base A); try contradiction; cbn [hfits] in Ha; repeat match goal with H : exists _, _ |- _ => destruct H | H : _ /\ _ |- _ => destruct H end; subst a; eauto 6. }
  assert (Bs : (exists l, b = VArr l) \/ (exists i, b = VDyn (DInterval i) /\ (A = KNumber \/ A = KDate)) \/ exists l, b = VObj l /\ widen A = KString).
  { unfold check_in in Cl. destruct B; try contradiction; cbn [widen] in Cl.
    all: try (destruct (widen A) eqn:Wa; try (exfalso; eapply clean_one; exact Cl); try (exfalso; destruct A; try discriminate Wa; contradiction)).
    all: cbn [hfits] in Hb; repeat match goal with H : exists _, _ |- _ => destruct H | H : _ /\ _ |- _ => destruct H end; subst.
    all: try (left; eauto; fail).
    all: try (right; left; eexists; split; [reflexivity|]; destruct A; try discriminate Wa; auto; fail).
    all: try (right; right; eauto; fail). }
  destruct Bs as [[l ->]|[[i [-> K]]|[l [-> K]]]].
  - destruct As as [->|[[x ->]|[[x ->]|[[x ->]|[x ->]]]]]; cbn [op_in]; eauto.
  - destruct (rounded_includes i (match a with VNum x => INum x | VDyn (DDate x) => IDate x | _ => INum dec_zero end) (Ro i eq_refl)) as [r E]. destruct K as [->| ->]; destruct Ha as [x ->]; cbn [op_in]; rewrite E; cbn; eauto.
  - destruct A; try discriminate K; cbn [hfits] in Ha; repeat match goal with H : exists _, _ |- _ => destruct H | H : _ /\ _ |- _ => destruct H end; subst a; cbn [op_in]; eauto.
Qed.
