(** Types and the values they have: facts used by PropTypes.v. *)
From Coq Require Import String ZArith Bool List Arith Lia.
From Verif Require Import Base Dec Value Json Convert ConvertSpec ConvertFacts VarType TypeSpec TypeFacts.
Import ListNotations.
Local Open Scope string_scope.
Local Open Scope list_scope.
Local Set Warnings "-unused-intro-pattern".

Section Flags.
  Variables n c : bool.
  Lemma member_obj : forall m t, NoDup (map fst m) -> (member n c (KObject m) t <->
    exists o, t = TObj o /\ (c = true -> forall k, In k (map fst o) -> In k (map fst m)) /\
      forall k T, aget k m = Some T -> match aget k o with Some x => member n c T x | None => n = true -> member n c T TNull end).
  Proof.
    intros m t N. cbn [member].
    assert (G : forall o, (fix go m := match m with
                     | [] => True
                     | (k, T) :: r => match aget k o with Some x => member n c T x | None => n = true -> member n c T TNull end /\ go r
                     end) m <-> forall k T, In (k, T) m -> match aget k o with Some x => member n c T x | None => n = true -> member n c T TNull end).
    { intros o. clear N. induction m as [|[k T] r IH]; cbn [In].
      - split; [intros _ k T []|auto].
      - rewrite IH. split.
        + intros [H1 H2] k1 T1 [E|E]; [injection E as <- <-; exact H1|now apply H2].
        + intros H. split; [apply H; now left|intros k1 T1 E; apply H; now right]. }
    split; intros [o [E [K H]]]; exists o; (split; [exact E|split; [exact K|]]).
    - intros k T A. apply (proj1 (G o) H). now apply aget_Some_in.
    - apply G. intros k T A. apply H. now apply aget_in_nodup.
  Qed.
  Lemma member_wrap : forall f t v, member n c (wrap f t) v <-> member n c t v \/ (f = true /\ v = TNull).
  Proof.
    intros f t v. unfold wrap. destruct f; cbn [andb].
    - destruct t; cbn [negb member]; intuition auto.
    - intuition discriminate.
  Qed.
  Lemma member_base : forall t v, member n c t v <-> member n c (base t) v \/ (nullable t = true /\ v = TNull).
  Proof. intros t v. destruct t; cbn [base nullable]; try (intuition discriminate). cbn [member]. intuition auto. Qed.

  Lemma merge_swap : forall b a v, wft a -> wft b -> (member n c (mg b a) v <-> member n c (mg a b) v).
  Proof.
    assert (Lift : forall a b v, (member n c (core (base a) (base b)) v <-> member n c (core (base b) (base a)) v) -> (member n c (mg b a) v <-> member n c (mg a b) v)).
    { intros a b v H. rewrite !mg_eq, !member_wrap, H. rewrite (orb_comm (nullable b)). reflexivity. }
    induction b as [| | | | | | |t IH|w IH|s|nm l|t IH] using vtype_ind'; intros a v Wa Wb; apply Lift; cbn [base]; apply wft_base in Wa.
    1-11: generalize dependent (base a); clear a; intros a Wa; destruct a as [| | | | | | |u|m|s1|n1 l1|u]; cbn [core]; try reflexivity.
    - apply wft_arr in Wa, Wb. assert (Q : (u = KAny \/ t = KAny) \/ (core (KArray u) (KArray t) = KArray (mg t u) /\ core (KArray t) (KArray u) = KArray (mg u t))).
      { destruct u; try (left; left; reflexivity); destruct t; try (left; right; reflexivity); right; split; reflexivity. }
      destruct Q as [[-> | ->] | [Q1 Q2]].
      + destruct t; reflexivity.
      + destruct u; reflexivity.
      + cbn [core] in Q1, Q2. rewrite Q1, Q2. cbn [member].
        split; intros [l [E H]]; exists l; (split; [exact E|]); intros x X; apply (IH u x Wa Wb); auto.
    - assert (Wa0 := Wa). assert (Wb0 := Wb). apply wft_obj in Wa, Wb. destruct Wa as [N1 Wa], Wb as [N2 Wb]. rewrite Forall_forall in IH.
      rewrite !member_obj by (now apply mobj_keys).
      assert (K : forall k, In k (map fst (mobj w m)) <-> In k (map fst (mobj m w))).
      { intros k. rewrite !in_get. rewrite !mobj_get by assumption. destruct (aget k m), (aget k w); split; intros [x X]; eauto. }
      assert (H : forall k x, (forall T, aget k (mobj w m) = Some T -> member n c T x) <-> (forall T, aget k (mobj m w) = Some T -> member n c T x)).
      { intros k x. rewrite !mobj_get by assumption. destruct (aget k m) as [X|] eqn:EX, (aget k w) as [Y|] eqn:EY; try reflexivity.
        assert (Q := IH (k, Y) (aget_Some_in _ _ _ EY) X x (Wa _ _ EX) (Wb _ _ EY)). cbn [snd] in Q.
        split; intros H T [= <-]; apply Q; now apply H. }
      split; intros [o [E [C P]]]; exists o; (split; [exact E|]); (split; [intros Cc k I1; apply K, C; assumption|]); intros k T G.
      + destruct (aget k o) as [x|] eqn:O; [|intros Nn]; (apply (proj1 (H k _)); [|exact G]); intros T1 G1; specialize (P k T1 G1); rewrite O in P; auto.
      + destruct (aget k o) as [x|] eqn:O; [|intros Nn]; (apply (proj2 (H k _)); [|exact G]); intros T1 G1; specialize (P k T1 G1); rewrite O in P; auto.
    - destruct (String.eqb s1 s) eqn:E.
      + apply String.eqb_eq in E. subst s1. rewrite String.eqb_refl. reflexivity.
      + rewrite String.eqb_sym, E. cbn [member In]. split; intros [x [X Y]]; exists x; intuition auto.
    - cbn [member]. split; intros [x [X Y]]; exists x; (split; [exact X|]); rewrite pushes_in in *; tauto.
    - apply wft_null in Wb. generalize dependent (base a). clear a. intros a Wa. destruct (nullable a || nullable t) eqn:E.
      + destruct a, t; try discriminate E; reflexivity.
      + apply orb_false_iff in E. destruct E as [E1 E2]. rewrite <- (mg_plain t a E1 E2), <- (mg_plain a t E2 E1). now apply IH.
  Qed.
End Flags.

(** The values of the first type are values of the merged one. *)
Definition no_any_array (a : vtype) : Prop := ~ occurs a (eq (KArray KAny)).
Lemma occurs_arr : forall t P, occurs t P -> occurs (KArray t) P.
Proof. intros t P [p [x [X Y]]]. exists (Elem :: p), x. auto. Qed.
Lemma occurs_obj : forall m k t P, aget k m = Some t -> occurs t P -> occurs (KObject m) P.
Proof. intros m k t P G [p [x [X Y]]]. exists (Field k :: p), x. cbn [at_place bare]. rewrite G. auto. Qed.
Lemma occurs_null : forall t P, occurs t P -> occurs (KNullable t) P.
Proof. intros t P [p [x [X Y]]]. exists p, x. rewrite place_null. auto. Qed.
Lemma occurs_base : forall t P, occurs (base t) P -> occurs t P.
Proof. intros t P H. destruct t; try exact H. now apply occurs_null. Qed.
Lemma occurs_here : forall t (P : vtype -> Prop), nullable t = false -> P t -> occurs t P.
Proof. intros t P N H. exists [], t. destruct t; try discriminate N; auto. Qed.
Lemma merge_keeps : forall b a v, wft a -> wft b -> no_any_array a -> loosely a v -> loosely (mg b a) v.
Proof.
  unfold loosely.
  assert (Lift : forall a b v, (member false true (base a) v -> member false true (core (base a) (base b)) v) -> member false true a v -> member false true (mg b a) v).
  { intros a b v H M. rewrite mg_eq. apply member_wrap. apply member_base in M. destruct M as [M | [M1 M2]]; [left; auto|right]. rewrite M1. auto. }
  induction b as [| | | | | | |t IH|w IH|s|nm l|t IH] using vtype_ind'; intros a v Wa Wb Na; apply Lift; cbn [base]; apply wft_base in Wa;
    assert (Nb : no_any_array (base a)) by (intros H; apply Na, occurs_base, H).
  1-11: generalize dependent (base a); clear a Na; intros a Wa Na M; destruct a as [| | | | | | |u|m|s1|n1 l1|u]; cbn [core]; try exact I; try exact M; try (right; exact M); try (left; exact M);
    try (cbn [member] in *; first [solve [eauto] | destruct M as [? [? ?]]; solve [eauto]]).
  - apply wft_arr in Wa, Wb. assert (Q : (u = KAny \/ t = KAny) \/ core (KArray u) (KArray t) = KArray (mg t u)).
    { destruct u; try (left; left; reflexivity); destruct t; try (left; right; reflexivity); right; reflexivity. }
    destruct Q as [[-> | ->]|Q].
    + exfalso. apply Na. now apply occurs_here.
    + destruct u; exact M.
    + cbn [core] in Q. rewrite Q. destruct M as [l [E H]]. exists l. split; [exact E|]. intros x X. apply IH; auto. intros G. apply Na. now apply occurs_arr.
  - assert (Wa0 := Wa). apply wft_obj in Wa, Wb. destruct Wa as [N1 Wa], Wb as [N2 Wb]. rewrite Forall_forall in IH.
    rewrite member_obj in * by (first [exact N1 | now apply mobj_keys]). destruct M as [o [E [C P]]]. exists o. split; [exact E|].
    split; [intros _ k I1; specialize (C eq_refl k I1); rewrite in_get in *; destruct C as [X C]; rewrite mobj_get, C by exact N2; destruct (aget k w); eauto|].
    intros k T G. rewrite mobj_get in G by exact N2. destruct (aget k o) as [x|] eqn:O; [|discriminate].
    destruct (aget k m) as [X|] eqn:EX.
    + assert (Q := P k X EX). rewrite O in Q. destruct (aget k w) as [Y|] eqn:EY; injection G as <-; [|exact Q].
      apply (IH (k, Y) (aget_Some_in _ _ _ EY)); eauto. intros H. apply Na. eapply occurs_obj; eauto.
    + exfalso. assert (I1 : In k (map fst o)) by (apply in_get; eauto). specialize (C eq_refl k I1). rewrite in_get in C. destruct C as [X C]. congruence.
  - destruct (String.eqb s1 s) eqn:E; [exact M|]. cbn [member In] in *. eauto.
  - cbn [member] in *. destruct M as [x [E H]]. exists x. split; [exact E|]. apply push_in. now left.
  - cbn [member] in *. exists s1. split; [exact M|]. apply push_in. now right.
  - cbn [member] in *. destruct M as [x [E H]]. exists x. split; [exact E|]. apply pushes_in. now left.
  - apply wft_null in Wb. intros M. generalize dependent (base a). clear a Na. intros a Wa Na M. destruct (nullable a || nullable t) eqn:E.
    + destruct a, t; try discriminate E; cbn [core]; first [exact I | right; exact M | left; exact M].
    + apply orb_false_iff in E. destruct E as [E1 E2]. rewrite <- (mg_plain t a E1 E2). now apply IH.
Qed.

(** Satisfying a type means having fewer values. *)
Definition literal (t : vtype) : Prop := match t with KConst _ | KEnum _ _ => True | _ => False end.
Lemma sat_sound : forall T a v, wft a -> wft T -> ~ occurs a (eq KAny) -> ~ occurs T (eq KDate) -> (~ occurs a (eq KString) \/ ~ occurs T literal) ->
  sat T a = true -> exactly a v -> fits T v.
Proof.
  unfold exactly, fits. induction T as [| | | | | | |T IH|m IH|s|nm l|T IH] using vtype_ind'; intros a v Wa WT Na Nd Nl S1 M.
  - exact I.
  - destruct a; try discriminate S1; [exfalso; apply Na; now apply occurs_here|exact M].
  - destruct a; try discriminate S1; [exfalso; apply Na; now apply occurs_here|exact M].
  - destruct a; try discriminate S1; [exfalso; apply Na; now apply occurs_here|exact M|cbn [member] in *; eauto|destruct M as [x [E _]]; cbn [member]; eauto].
  - destruct a; try discriminate S1; [exfalso; apply Na; now apply occurs_here|exact M].
  - exfalso. apply Nd. now apply occurs_here.
  - destruct a; try discriminate S1; [exfalso; apply Na; now apply occurs_here|exact M].
  - apply sat_arr in S1. destruct S1 as [-> | [u [-> S1]]]; [exfalso; apply Na; now apply occurs_here|]. destruct M as [x [E M]]. exists x. split; [exact E|].
    intros y Y. apply wft_arr in Wa, WT. apply (IH u); auto.
    + intros H. apply Na. now apply occurs_arr.
    + intros H. apply Nd. now apply occurs_arr.
    + destruct Nl as [H|H]; [left|right]; intros G; apply H; now apply occurs_arr.
  - destruct a as [| | | | | | |u|w|s1|n1 l1|u]; try discriminate S1; [exfalso; apply Na; now apply occurs_here|]. apply wft_obj in Wa, WT. destruct Wa as [N1 Wa], WT as [N2 WT].
    rewrite sat_obj in S1. rewrite member_obj in * by assumption. destruct M as [o [E [C P]]]. exists o. split; [exact E|]. split; [discriminate|]. rewrite Forall_forall in IH.
    intros k T G. assert (S2 := S1 k T (aget_Some_in _ _ _ G)). destruct (aget k w) as [A|] eqn:EA.
    + assert (H : forall x, member true true A x -> member true false T x).
      { intros x X. apply (IH (k, T) (aget_Some_in _ _ _ G) A); eauto.
        - intros H. apply Na. eapply occurs_obj; eauto.
        - intros H. apply Nd. eapply occurs_obj; eauto.
        - destruct Nl as [H|H]; [left|right]; intros Q; apply H; eapply occurs_obj; eauto. }
      specialize (P k A EA). destruct (aget k o); [auto|]. intros _. auto.
    + destruct (aget k o) as [x|] eqn:O.
      * exfalso. assert (I1 : In k (map fst o)) by (apply in_get; eauto). specialize (C eq_refl k I1). rewrite in_get in C. destruct C as [X C]. congruence.
      * intros _. destruct T; try discriminate S2; cbn [member]; auto.
  - destruct a; try discriminate S1; [exfalso; apply Na; now apply occurs_here|exfalso; destruct Nl as [H|H]; apply H; now apply occurs_here| |]; cbn [sat] in S1.
    + apply String.eqb_eq in S1. now subst s0.
    + destruct M as [x [E M]]. cbn [member]. rewrite forallb_forall in S1. specialize (S1 x M). apply String.eqb_eq in S1. now subst x.
  - destruct a; try discriminate S1; [exfalso; apply Na; now apply occurs_here|exfalso; destruct Nl as [H|H]; apply H; now apply occurs_here| |]; cbn [sat] in S1.
    + apply contains_in in S1. cbn [member] in *. eauto.
    + destruct M as [x [E M]]. cbn [member]. rewrite forallb_forall in S1. specialize (S1 x M). apply contains_in in S1. eauto.
  - rewrite sat_null in S1. apply member_base in M. destruct M as [M | [_ ->]]; [right|left; reflexivity]. apply wft_null in WT. apply wft_base in Wa. apply (IH (base a)); auto.
    + intros H. apply Na. now apply occurs_base.
    + intros H. apply Nd. now apply occurs_null.
    + destruct Nl as [H|H]; [left|right]; intros G; apply H; [now apply occurs_base|now apply occurs_null].
Qed.

(** Merging a type with itself. *)
Definition named (t : vtype) : Prop := match t with KEnum (Some _) _ => True | _ => False end.
Lemma aset_same : forall V (m : list (string * V)) k v, aget k m = Some v -> aset k v m = m.
Proof.
  intros V. induction m as [|[k1 v1] r IH]; cbn [aget aset]; intros k v H; [discriminate|].
  destruct (String.eqb k1 k); [injection H as ->; reflexivity|now rewrite IH].
Qed.
Lemma mobj_same : forall w m, (forall k v, In (k, v) w -> aget k m = Some v /\ mg v v = v) -> mobj w m = m.
Proof.
  unfold mobj. induction w as [|[k v] r IH]; intros m H; [reflexivity|].
  destruct (H k v (or_introl eq_refl)) as [G E]. rewrite G, E, aset_same by exact G. apply IH. intros k1 v1 I1. apply H. now right.
Qed.
Lemma pushes_same : forall b a, (forall x, In x b -> In x a) -> fold_left push b a = a.
Proof.
  induction b as [|x b IH]; intros a H; [reflexivity|]. cbn [fold_left]. unfold push at 2. replace (contains a x) with true.
  - apply IH. intros y Y. apply H. now right.
  - symmetry. apply contains_in. apply H. now left.
Qed.
Lemma mg_same : forall t, wft t -> proper t -> ~ occurs t named -> mg t t = t.
Proof.
  induction t as [| | | | | | |t IH|m IH|s|nm l|t IH] using vtype_ind'; intros W P N; try reflexivity.
  - apply wft_arr in W. apply prop_arr in P. assert (E : mg t t = t) by (apply IH; auto; intros H; apply N; now apply occurs_arr).
    rewrite mg_plain by reflexivity. cbn [core]. destruct t; try reflexivity; now rewrite E.
  - apply wft_obj in W. destruct W as [Nd W]. rewrite mg_plain by reflexivity. cbn [core]. f_equal. apply mobj_same. intros k v H. assert (G := aget_in_nodup _ _ _ Nd H).
    split; [exact G|]. rewrite Forall_forall in IH. apply (IH (k, v) H); [eauto|now apply (prop_obj m k)|]. intros Q. apply N. eapply occurs_obj; eauto.
  - rewrite mg_plain by reflexivity. cbn [core]. now rewrite String.eqb_refl.
  - destruct nm as [nm|]; [exfalso; apply N; now apply occurs_here|]. rewrite mg_plain by reflexivity. cbn [core]. now rewrite pushes_same.
  - apply prop_null in P. destruct P as [P Q]. apply wft_null in W. assert (E : mg t t = t) by (apply IH; auto; intros H; apply N; now apply occurs_null).
    rewrite mg_eq. cbn [nullable base orb]. assert (Nt : nullable t = false) by (destruct t; try reflexivity; contradiction). rewrite <- (mg_plain t t Nt Nt), E.
    unfold wrap. destruct t; try contradiction; reflexivity.
Qed.

(** Documents. *)
Lemma means_arr : forall l t, means (JArr l) t -> exists ts, t = TArr ts /\ length ts = length l /\ forall i x y, nth_error l i = Some x -> nth_error ts i = Some y -> means x y.
Proof.
  intros l t M. destruct (M []) as [ts [-> L]]. exists ts. split; [reflexivity|]. split; [exact L|]. intros i x y X Y p. specialize (M (At i :: p)). cbn [jget tget] in M. now rewrite X, Y in M.
Qed.
Lemma means_obj : forall m t, means (JObj m) t -> exists o, t = TObj o /\ forall k, match aget k m, aget k o with Some x, Some y => means x y | None, None => True | _, _ => False end.
Proof.
  intros m t M. destruct (M []) as [o [-> L]]. exists o. split; [reflexivity|]. intros k. assert (K := L k). rewrite !in_get in K.
  destruct (aget k m) as [x|] eqn:X, (aget k o) as [y|] eqn:Y; auto.
  - intros p. specialize (M (Key k :: p)). cbn [jget tget] in M. now rewrite X, Y in M.
  - destruct (proj1 K (ex_intro _ _ eq_refl)). discriminate.
  - destruct (proj2 K (ex_intro _ _ eq_refl)). discriminate.
Qed.
Lemma means_leaf : forall j t, means j t -> match j with JNull => t = TNull | JBool b => t = TBool b | JNum _ => exists d, t = TNum d | JStr s => t = TStr s | _ => True end.
Proof. intros j t M. specialize (M []). cbn [jget tget] in M. destruct j; cbn [alike] in M; auto. destruct M as [d [q [E _]]]. eauto. Qed.
Definition fold_types (l : list json) (acc : option vtype) : option vtype :=
  (fix go l acc := match l with
                   | [] => acc
                   | x :: r => go r (Some match acc with Some a => merge a (infer x) | None => infer x end)
                   end) l acc.
Lemma infer_arr : forall l, infer (JArr l) = match fold_types l None with Some t => KArray t | None => KArray KAny end.
Proof. reflexivity. Qed.
Lemma infer_plain : forall j, nullable (infer j) = false.
Proof. destruct j; try reflexivity. rewrite infer_arr. destruct (fold_types l None); reflexivity. Qed.
Lemma fold_all : forall (P : vtype -> Prop) l acc, (forall a b, P a -> P b -> P (mg b a)) -> (forall x, In x l -> P (infer x)) -> match acc with Some a => P a | None => True end ->
  match fold_types l acc with Some a => P a | None => True end.
Proof.
  intros P. induction l as [|x r IH]; intros acc H1 H2 H3; [exact H3|]. apply IH; auto.
  - intros y Y. apply H2. now right.
  - destruct acc; [apply H1; [exact H3|]|]; apply H2; now left.
Qed.
Lemma wft_infer : forall j, wf_json j -> wft (infer j).
Proof.
  induction j as [| | | |l IH|m IH] using json_ind'; intros W; try (apply WLeaf; exact I).
  - rewrite infer_arr. rewrite Forall_forall in IH. assert (H := wf_parts _ W). cbn in H.
    assert (Q := fold_all wft l None (fun a b A B => wft_mg b a B A) (fun x X => IH x X (H x X)) I).
    destruct (fold_types l None); apply WArray; [exact Q|apply WLeaf; exact I].
  - rewrite Forall_forall in IH. assert (H := wf_parts _ W). cbn in H. destruct H as [N H]. cbn [infer]. apply WObject.
    + rewrite map_map. cbn [fst]. exact N.
    + intros k t G. rewrite aget_map in G. destruct (aget k m) as [x|] eqn:X; [|discriminate]. injection G as <-. apply aget_Some_in in X. apply (IH (k, x) X). exact (H k x X).
Qed.
(** A document without null that has a type: its inferred type satisfies it. *)
Lemma means_null : forall j, means j TNull -> j = JNull.
Proof.
  intros j M. specialize (M []). cbn [jget tget] in M. destruct j; cbn [alike] in M; try discriminate M; [reflexivity|..].
  - destruct M as [d [q [E _]]]. discriminate.
  - destruct M as [d [E _]]. discriminate.
  - destruct M as [d [E _]]. discriminate.
Qed.
Lemma infer_sat : forall j, wf_json j -> (forall p, jget p j <> Some JNull) -> forall T t, wft T -> means j t -> fits T t -> sat T (infer j) = true.
Proof.
  unfold fits.
  assert (Lift : forall j, (forall p, jget p j <> Some JNull) -> (forall T t, nullable T = false -> wft T -> means j t -> member true false T t -> sat T (infer j) = true) ->
            forall T t, wft T -> means j t -> member true false T t -> sat T (infer j) = true).
  { intros j N H. induction T as [| | | | | | |T IH|w IH|s|nm l|T IH] using vtype_ind'; intros t W M F; try (eapply H; eauto; reflexivity).
    rewrite sat_null. replace (base (infer j)) with (infer j) by (assert (Q := infer_plain j); destruct (infer j); try reflexivity; discriminate).
    apply (IH t); auto using wft_null. destruct F as [-> |F]; [|exact F]. apply means_null in M. subst j. exfalso. apply (N []). reflexivity. }
  induction j as [|b|nu|s|l IH|m IH] using json_ind'; intros Wj N; apply Lift; try exact N; intros T t NT W M F.
  - exfalso. apply (N []). reflexivity.
  - apply means_leaf in M. subst t. destruct T; try reflexivity; try discriminate NT; first [discriminate F | destruct F as [? F]; discriminate F | destruct F as [? [F _]]; discriminate F].
  - apply means_leaf in M. destruct M as [d ->]. destruct T; try reflexivity; try discriminate NT; first [discriminate F | destruct F as [? F]; discriminate F | destruct F as [? [F _]]; discriminate F].
  - apply means_leaf in M. subst t. destruct T; try reflexivity; try discriminate NT; first [discriminate F | destruct F as [? F]; discriminate F | destruct F as [? [F _]]; discriminate F].
  - apply means_arr in M. destruct M as [ts [-> [L M]]].
    destruct T as [| | | | | | |T|w|s1|nm l1|T]; try discriminate NT; try (first [discriminate F | destruct F as [? F]; discriminate F | destruct F as [? [F _]]; discriminate F]); [apply sat_top|].
    destruct F as [x [E F]]. injection E as <-. apply wft_arr in W. rewrite Forall_forall in IH. assert (Wp := wf_parts _ Wj). cbn in Wp.
    assert (Q := fold_all (fun u => wft u /\ sat T u = true) l None).
    assert (Q1 : match fold_types l None with Some a => wft a /\ sat T a = true | None => True end).
    { apply Q; [| |exact I].
      - intros a b [A1 A2] [B1 B2]. split; [now apply wft_mg|now apply sat_least].
      - intros y Y. split; [now apply wft_infer, Wp|]. destruct (In_nth_error _ _ Y) as [i Hi].
        destruct (nth_error ts i) as [z|] eqn:Z; [|apply nth_error_None in Z; assert (nth_error l i <> None) by congruence; apply nth_error_Some in H; lia].
        apply (IH y Y) with (t := z); [now apply Wp| |exact W|exact (M i y z Hi Z)|apply F; eapply nth_error_In; eauto].
        intros p P. apply (N (At i :: p)). cbn [jget]. now rewrite Hi. }
    rewrite infer_arr. destruct (fold_types l None); cbn [sat]; [apply Q1|apply sat_any].
  - apply means_obj in M. destruct M as [o [-> M]].
    destruct T as [| | | | | | |T|w|s1|nm l1|T]; try discriminate NT; try (first [discriminate F | destruct F as [? F]; discriminate F | destruct F as [? [F _]]; discriminate F]); [apply sat_top|].
    apply wft_obj in W. destruct W as [Nw W]. rewrite member_obj in F by exact Nw. destruct F as [x [E [_ F]]]. injection E as <-. rewrite Forall_forall in IH. assert (Wp := wf_parts _ Wj). cbn in Wp.
    cbn [infer]. apply sat_obj. intros k v H. assert (G := aget_in_nodup _ _ _ Nw H). specialize (F k v G). specialize (M k). rewrite aget_map.
    destruct (aget k m) as [jx|] eqn:J, (aget k o) as [z|] eqn:Z; try contradiction; cbn [option_map].
    + apply (IH (k, jx) (aget_Some_in _ _ _ J)) with (t := z); [apply (proj2 Wp k); now apply aget_Some_in| |now apply (W k)|exact M|exact F].
      intros p P. apply (N (Key k :: p)). cbn [jget]. now rewrite J.
    + specialize (F eq_refl). destruct v; try reflexivity; first [discriminate F | destruct F as [? F]; discriminate F | destruct F as [? [F _]]; discriminate F].
Qed.

(** Inference for documents that have a type without "any". The unknown element type of an empty array stands for no value. *)
Fixpoint strictly (T : vtype) (t : tree) : Prop :=
  match T with
  | KAny => False
  | KNull => t = TNull
  | KBool => exists b, t = TBool b
  | KString => exists s, t = TStr s
  | KNumber => exists d, t = TNum d
  | KArray T => exists l, t = TArr l /\ forall x, In x l -> strictly T x
  | KObject m =>
      exists o, t = TObj o /\ (forall k, In k (map fst o) -> In k (map fst m)) /\
        (fix go m := match m with
                     | [] => True
                     | (k, T) :: r => match aget k o with Some x => strictly T x | None => True end /\ go r
                     end) m
  | KNullable T => t = TNull \/ strictly T t
  | _ => False
  end.
Lemma strictly_obj : forall m t, NoDup (map fst m) -> (strictly (KObject m) t <->
    exists o, t = TObj o /\ (forall k, In k (map fst o) -> In k (map fst m)) /\ forall k T x, aget k m = Some T -> aget k o = Some x -> strictly T x).
Proof.
  intros m t N. cbn [strictly].
  assert (G : forall o, (fix go m := match m with
                   | [] => True
                   | (k, T) :: r => match aget k o with Some x => strictly T x | None => True end /\ go r
                   end) m <-> forall k T x, In (k, T) m -> aget k o = Some x -> strictly T x).
  { intros o. clear N. induction m as [|[k T] r IH]; cbn [In].
    - split; [intros _ k T x []|auto].
    - rewrite IH. split.
      + intros [H1 H2] k1 T1 x [E|E] X; [injection E as <- <-; now rewrite X in H1|eauto].
      + intros H. split; [|intros k1 T1 x E; apply H; now right]. destruct (aget k o) eqn:E; [|exact I]. apply (H k); auto. }
  split; intros [o [E [K H]]]; exists o; (split; [exact E|split; [exact K|]]).
  - intros k T x A. apply (proj1 (G o) H). now apply aget_Some_in.
  - apply G. intros k T x A. apply H. now apply aget_in_nodup.
Qed.
Lemma strictly_loosely : forall T t, wft T -> strictly T t -> loosely T t.
Proof.
  unfold loosely. induction T as [| | | | | | |T IH|w IH|s|nm l|T IH] using vtype_ind'; intros t W H; try exact H; try contradiction.
  - destruct H as [l [E H]]. exists l. split; [exact E|]. apply wft_arr in W. auto.
  - apply wft_obj in W. destruct W as [N W]. rewrite strictly_obj in H by exact N. apply member_obj; [exact N|]. destruct H as [o [E [C P]]]. exists o. split; [exact E|]. split; [auto|].
    intros k T G. rewrite Forall_forall in IH. destruct (aget k o) as [x|] eqn:O; [|discriminate]. apply (IH (k, T) (aget_Some_in _ _ _ G)); eauto.
  - apply wft_null in W. destruct H as [H|H]; [now left|right; auto].
Qed.
(** [t] is a type that documents of type [T] may be given. *)
Fixpoint under (T t : vtype) : Prop :=
  match T with
  | KNull => t = KNull
  | KBool => t = KBool
  | KNumber => t = KNumber
  | KString | KConst _ | KEnum _ _ => t = KString
  | KArray T => exists u, t = KArray u /\ (u = KAny \/ under T u)
  | KObject m => exists w, t = KObject w /\ NoDup (map fst w) /\ forall k x, aget k w = Some x ->
      (fix go m := match m with [] => False | (k1, T) :: r => k1 = k /\ under T x \/ go r end) m
  | KNullable T => t = KNull \/ under T (base t)
  | _ => False
  end.
Lemma under_obj : forall m t, NoDup (map fst m) -> (under (KObject m) t <->
  exists w, t = KObject w /\ NoDup (map fst w) /\ forall k x, aget k w = Some x -> exists T, aget k m = Some T /\ under T x).
Proof.
  intros m t N. cbn [under].
  assert (G : forall k x, (fix go m := match m with [] => False | (k1, T) :: r => k1 = k /\ under T x \/ go r end) m <-> exists T, In (k, T) m /\ under T x).
  { intros k x. clear N. induction m as [|[k1 T] r IH]; cbn [In].
    - split; [contradiction|intros [T [[] _]]].
    - rewrite IH. split.
      + intros [[-> H]|[T1 [H1 H2]]]; [exists T; auto|exists T1; auto].
      + intros [T1 [[E|E] H]]; [injection E as -> ->; auto|right; eauto]. }
  split; intros [w [E [K H]]]; exists w; (split; [exact E|split; [exact K|]]); intros k x A.
  - apply H in A. apply G in A. destruct A as [T [A B]]. exists T. split; [now apply aget_in_nodup|exact B].
  - apply G. destruct (H k x A) as [T [B C]]. exists T. split; [now apply aget_Some_in|exact C].
Qed.
Lemma under_plain : forall T t, proper T -> nullable T = false -> under T t -> nullable t = false /\ t <> KAny.
Proof.
  intros T t P N H. destruct T; try discriminate N; cbn [under] in H; try contradiction; try (subst t; split; [reflexivity|discriminate]).
  - destruct H as [u [-> _]]. split; [reflexivity|discriminate].
  - destruct H as [u [-> _]]. split; [reflexivity|discriminate].
Qed.
Lemma under_null : forall T, proper (KNullable T) -> ~ under T KNull.
Proof. intros T P H. apply prop_null in P. destruct P as [_ P]. destruct T; try contradiction; cbn [under] in H; try discriminate; destruct H as [? [? _]]; discriminate. Qed.
Lemma under_merge : forall T a b, wft T -> proper T -> under T a -> under T b ->
  under T (mg b a) /\ (forall v, strictly a v -> strictly (mg b a) v) /\ (forall v, strictly b v -> strictly (mg b a) v).
Proof.
  induction T as [| | | | | | |T IH|m IH|s|nm l|T IH] using vtype_ind'; intros a b W P A B; cbn [under] in A, B; try contradiction;
    try (subst a b; split; [reflexivity|split; intros v V; exact V]).
  - apply wft_arr in W. apply prop_arr in P. destruct A as [u [-> A]], B as [w [-> B]]. rewrite mg_plain by reflexivity.
    assert (Q : (u = KAny \/ w = KAny) \/ u <> KAny /\ w <> KAny /\ core (KArray u) (KArray w) = KArray (mg w u)).
    { destruct u; try (left; left; reflexivity); destruct w; try (left; right; reflexivity); right; (split; [discriminate|split; [discriminate|reflexivity]]). }
    assert (Z : forall x v, strictly (KArray KAny) v -> strictly (KArray x) v).
    { intros x v [l [E H]]. exists l. split; [exact E|]. intros y Y. destruct (H y Y). }
    destruct Q as [[-> | ->]|[U1 [W1 Q]]].
    + cbn [core]. split; [cbn [under]; eauto|]. split; [apply Z|auto].
    + replace (core (KArray u) (KArray KAny)) with (KArray u) by (destruct u; reflexivity). split; [cbn [under]; eauto|]. split; [auto|apply Z].
    + rewrite Q. destruct A as [-> |A]; [|destruct B as [-> |B]].
      * contradiction.
      * contradiction.
      * destruct (IH u w W P A B) as [H1 [H2 H3]]. split; [cbn [under]; eauto|]. split; intros v [l [E H]]; exists l; (split; [exact E|]); auto.
  - apply wft_obj in W. destruct W as [N W]. apply (under_obj m) in A; [|exact N]. apply (under_obj m) in B; [|exact N]. destruct A as [u [-> [Nu A]]], B as [w [-> [Nw B]]].
    rewrite mg_plain by reflexivity. cbn [core]. rewrite Forall_forall in IH.
    assert (H : forall k T x y, aget k m = Some T -> under T x -> under T y -> under T (mg y x) /\ (forall v, strictly x v -> strictly (mg y x) v) /\ (forall v, strictly y v -> strictly (mg y x) v)).
    { intros k T x y G X Y. apply (IH (k, T) (aget_Some_in _ _ _ G)); eauto using prop_obj. }
    assert (Nm : NoDup (map fst (mobj w u))) by (now apply mobj_keys).
    assert (J : forall k x y, aget k u = Some x -> aget k w = Some y -> exists T, aget k m = Some T /\ under T x /\ under T y).
    { intros k x y X Y. destruct (A k x X) as [T [G1 G2]], (B k y Y) as [T1 [G3 G4]]. assert (T1 = T) by congruence. subst T1. eauto. }
    split; [|split].
    + apply under_obj; [exact N|]. exists (mobj w u). split; [reflexivity|]. split; [exact Nm|]. intros k x. rewrite mobj_get by exact Nw.
      destruct (aget k u) as [x1|] eqn:X, (aget k w) as [y1|] eqn:Y; intros [= <-]; eauto. destruct (J k x1 y1 X Y) as [T [G [G1 G2]]]. exists T. split; [exact G|]. now apply (H k).
    + intros v. rewrite !strictly_obj by assumption. intros [o [E [C Q]]]. exists o. split; [exact E|]. split.
      * intros k K. apply C in K. apply in_get in K. destruct K as [x K]. apply in_get. rewrite mobj_get, K by exact Nw. destruct (aget k w); eauto.
      * intros k T x G X. rewrite mobj_get in G by exact Nw. destruct (aget k u) as [x1|] eqn:X1.
        -- destruct (aget k w) as [y1|] eqn:Y; injection G as <-; [|eauto]. destruct (J k x1 y1 X1 Y) as [T [G [G1 G2]]]. destruct (H k T x1 y1 G G1 G2) as [_ [H1 _]]. eauto.
        -- exfalso. assert (K : In k (map fst o)) by (apply in_get; eauto). apply C in K. apply in_get in K. destruct K. congruence.
    + intros v. rewrite !strictly_obj by assumption. intros [o [E [C Q]]]. exists o. split; [exact E|]. split.
      * intros k K. apply C in K. apply in_get in K. destruct K as [x K]. apply in_get. rewrite mobj_get, K by exact Nw. destruct (aget k u); eauto.
      * intros k T x G X. rewrite mobj_get in G by exact Nw. destruct (aget k w) as [y1|] eqn:Y.
        -- destruct (aget k u) as [x1|] eqn:X1; injection G as <-; [|eauto]. destruct (J k x1 y1 X1 Y) as [T [G [G1 G2]]]. destruct (H k T x1 y1 G G1 G2) as [_ [_ H1]]. eauto.
        -- exfalso. assert (K : In k (map fst o)) by (apply in_get; eauto). apply C in K. apply in_get in K. destruct K. congruence.
  - apply wft_null in W. assert (P0 := P). apply prop_null in P. destruct P as [P Q]. assert (Nt : nullable T = false) by (destruct T; try reflexivity; contradiction).
    assert (Wr : forall f t v, strictly t v -> strictly (wrap f t) v).
    { intros f t v V. unfold wrap. destruct (f && _); [right|]; exact V. }
    assert (Wn : forall t, t <> KAny -> forall v, v = TNull -> strictly (wrap true t) v).
    { intros t Ht v ->. unfold wrap. cbn [andb]. destruct t; try contradiction; cbn [negb strictly]; auto. }
    assert (Sb : forall t v, strictly t v -> strictly (base t) v \/ (nullable t = true /\ v = TNull)).
    { intros t v V. destruct t; auto. destruct V as [V|V]; auto. }
    assert (Case : forall A B, (A = KNull \/ under T A) -> (B = KNull \/ under T B) -> (nullable A = false /\ nullable B = false /\ core A B <> KAny) /\
      (core A B = KNull \/ under T (base (core A B))) /\ (forall v, strictly A v -> strictly (core A B) v) /\ (forall v, strictly B v -> strictly (core A B) v)).
    { intros x y [-> |X] [-> |Y].
      - cbn. repeat split; auto; discriminate.
      - destruct (under_plain T y P Nt Y) as [Y1 Y2]. assert (C : core KNull y = KNullable y \/ y = KNull) by (destruct y; auto; contradiction).
        destruct C as [C | ->]; [|exfalso; eapply under_null; eauto]. rewrite C. cbn [base]. repeat split; auto; try discriminate; intros v V; [now left|now right].
      - destruct (under_plain T x P Nt X) as [X1 X2]. assert (C : core x KNull = KNullable x \/ x = KNull) by (destruct x; auto; contradiction).
        destruct C as [C | ->]; [|exfalso; eapply under_null; eauto]. rewrite C. cbn [base]. repeat split; auto; try discriminate; intros v V; [now right|now left].
      - destruct (under_plain T x P Nt X) as [X1 X2], (under_plain T y P Nt Y) as [Y1 Y2]. rewrite <- (mg_plain y x X1 Y1). destruct (IH x y W P X Y) as [H1 [H2 H3]].
        destruct (under_plain T _ P Nt H1) as [Z1 Z2]. repeat split; auto. right. replace (base (mg y x)) with (mg y x) by (destruct (mg y x); try reflexivity; discriminate). exact H1. }
    assert (A1 : base a = KNull \/ under T (base a)) by (destruct A as [-> |A]; auto).
    assert (B1 : base b = KNull \/ under T (base b)) by (destruct B as [-> |B]; auto).
    destruct (Case (base a) (base b) A1 B1) as [[C1 [C2 C3]] [C4 [C5 C6]]]. rewrite mg_eq. split; [|split].
    + cbn [under]. rewrite base_wrap. destruct C4 as [C4|C4]; [|now right]. rewrite C4. left. unfold wrap. now rewrite andb_false_r.
    + intros v V. destruct (Sb a v V) as [V1|[V1 V2]]; [apply Wr; auto|]. rewrite V1. cbn [orb]. now apply Wn.
    + intros v V. destruct (Sb b v V) as [V1|[V1 V2]]; [apply Wr; auto|]. rewrite V1, orb_true_r. now apply Wn.
Qed.
Lemma infer_under : forall j, wf_json j -> forall T t, wft T -> proper T -> ~ occurs T (eq KAny) -> means j t -> loosely T t -> under T (infer j) /\ strictly (infer j) t.
Proof.
  unfold loosely.
  assert (Lift : forall j, (forall T t, nullable T = false -> wft T -> proper T -> ~ occurs T (eq KAny) -> means j t -> member false true T t -> under T (infer j) /\ strictly (infer j) t) ->
            forall T t, wft T -> proper T -> ~ occurs T (eq KAny) -> means j t -> member false true T t -> under T (infer j) /\ strictly (infer j) t).
  { intros j H. intros T t W P N M F. destruct (nullable T) eqn:E; [|auto]. destruct T; try discriminate E. apply wft_null in W. apply prop_null in P. destruct P as [P Q].
    destruct F as [-> |F].
    - apply means_null in M. subst j. cbn. auto.
    - destruct (H T t) as [H1 H2]; auto.
      + destruct T; try reflexivity; contradiction.
      + intros G. apply N. now apply occurs_null.
      + split; [|exact H2]. cbn [under]. right. replace (base (infer j)) with (infer j) by (assert (Z := infer_plain j); destruct (infer j); try reflexivity; discriminate). exact H1. }
  induction j as [|b|nu|s|l IH|m IH] using json_ind'; intros Wj; apply Lift; intros T t NT W P N M F.
  - apply means_leaf in M. subst t. destruct T; try discriminate NT; cbn; auto; try (exfalso; apply N; now apply occurs_here); first [discriminate F | destruct F as [? F]; discriminate F | destruct F as [? [F _]]; discriminate F].
  - apply means_leaf in M. subst t. destruct T; try discriminate NT; cbn; eauto; try (exfalso; apply N; now apply occurs_here); first [discriminate F | destruct F as [? F]; discriminate F | destruct F as [? [F _]]; discriminate F].
  - apply means_leaf in M. destruct M as [d ->]. destruct T; try discriminate NT; cbn; eauto; try (exfalso; apply N; now apply occurs_here); first [discriminate F | destruct F as [? F]; discriminate F | destruct F as [? [F _]]; discriminate F].
  - apply means_leaf in M. subst t. destruct T; try discriminate NT; cbn; eauto; try (exfalso; apply N; now apply occurs_here); first [discriminate F | destruct F as [? F]; discriminate F | destruct F as [? [F _]]; discriminate F].
  - apply means_arr in M. destruct M as [ts [-> [L M]]].
    destruct T as [| | | | | | |T|w|s1|nm l1|T]; try discriminate NT; try (exfalso; apply N; now apply occurs_here); try (first [discriminate F | destruct F as [? F]; discriminate F | destruct F as [? [F _]]; discriminate F]).
    destruct F as [x [E F]]. injection E as <-. apply wft_arr in W. apply prop_arr in P. rewrite Forall_forall in IH. assert (Wp := wf_parts _ Wj). cbn in Wp.
    assert (N1 : ~ occurs T (eq KAny)) by (intros G; apply N; now apply occurs_arr).
    assert (Each : forall i y z, nth_error l i = Some y -> nth_error ts i = Some z -> under T (infer y) /\ strictly (infer y) z).
    { intros i y z Y Z. assert (I1 := nth_error_In _ _ Y). apply IH; auto; [eauto|]. apply F. eapply nth_error_In; eauto. }
    rewrite infer_arr.
    assert (Q : forall l ts acc, length ts = length l -> (forall i y z, nth_error l i = Some y -> nth_error ts i = Some z -> under T (infer y) /\ strictly (infer y) z) ->
      match acc with Some a => under T a | None => True end ->
      match fold_types l acc with
      | Some a => under T a /\ (forall z, In z ts -> strictly a z) /\ (forall a0 z, acc = Some a0 -> strictly a0 z -> strictly a z)
      | None => acc = None /\ ts = []
      end).
    { clear - W P. induction l as [|y r IH]; intros ts acc L E A.
      - destruct ts; [|discriminate]. cbn. destruct acc; [|auto]. split; [exact A|]. split; [intros z []|]. intros a0 z [= <-]. auto.
      - destruct ts as [|z ts]; [discriminate|]. injection L as L. destruct (E 0%nat y z eq_refl eq_refl) as [E1 E2].
        change (fold_types (y :: r) acc) with (fold_types r (Some match acc with Some a => merge a (infer y) | None => infer y end)).
        assert (A2 : under T match acc with Some a => merge a (infer y) | None => infer y end).
        { destruct acc; [|exact E1]. apply under_merge; assumption. }
        specialize (IH ts (Some match acc with Some a => merge a (infer y) | None => infer y end) L (fun i => E (Datatypes.S i)) A2).
        destruct (fold_types r _) as [a|] eqn:Fo; [|destruct IH; discriminate]. destruct IH as [I1 [I2 I3]]. split; [exact I1|]. split.
        + intros z1 [<- |Z]; [|auto]. apply (I3 _ z eq_refl). destruct acc; [|exact E2]. destruct (under_merge T v (infer y) W P A E1) as [_ [_ H1]]. now apply H1.
        + intros a0 z1 -> S0. apply (I3 _ z1 eq_refl). destruct (under_merge T a0 (infer y) W P A E1) as [_ [H1 _]]. now apply H1. }
    specialize (Q l ts None L Each I). destruct (fold_types l None) as [a|].
    + destruct Q as [Q1 [Q2 _]]. split; [cbn [under]; eauto|]. exists ts. auto.
    + destruct Q as [_ ->]. split; [cbn [under]; eauto|]. exists []. split; [reflexivity|]. intros x [].
  - apply means_obj in M. destruct M as [o [-> M]].
    destruct T as [| | | | | | |T|w|s1|nm l1|T]; try discriminate NT; try (exfalso; apply N; now apply occurs_here); try (first [discriminate F | destruct F as [? F]; discriminate F | destruct F as [? [F _]]; discriminate F]).
    apply wft_obj in W. destruct W as [Nw W]. rewrite member_obj in F by exact Nw. destruct F as [x [E [C F]]]. injection E as <-. rewrite Forall_forall in IH. assert (Wp := wf_parts _ Wj). cbn in Wp. destruct Wp as [Nm Wp].
    assert (Each : forall k y, aget k m = Some y -> exists T z, aget k w = Some T /\ aget k o = Some z /\ under T (infer y) /\ strictly (infer y) z).
    { intros k y Y. specialize (M k). rewrite Y in M. destruct (aget k o) as [z|] eqn:Z; [|contradiction].
      assert (K : In k (map fst o)) by (apply in_get; eauto). apply (C eq_refl) in K. apply in_get in K. destruct K as [T G]. exists T, z. specialize (F k T G). rewrite Z in F.
      split; [exact G|]. split; [reflexivity|]. apply (IH (k, y) (aget_Some_in _ _ _ Y)); auto.
      - apply (Wp k). now apply aget_Some_in.
      - now apply (W k).
      - now apply (prop_obj w k).
      - intros Q. apply N. eapply occurs_obj; eauto. }
    assert (Nk : NoDup (map fst (map (fun e => (fst e, infer (snd e))) m))) by (rewrite map_map; exact Nm).
    cbn [infer]. split.
    + apply under_obj; [exact Nw|]. eexists. split; [reflexivity|]. split; [exact Nk|]. intros k x G. rewrite aget_map in G. destruct (aget k m) as [y|] eqn:Y; [|discriminate]. injection G as <-.
      destruct (Each k y Y) as [T [z [G1 [_ [G2 _]]]]]. eauto.
    + apply strictly_obj; [exact Nk|]. exists o. split; [reflexivity|]. split.
      * intros k K. apply in_get in K. destruct K as [z K]. apply in_get. rewrite aget_map. specialize (M k). rewrite K in M. destruct (aget k m); [cbn; eauto|contradiction].
      * intros k T x G X. rewrite aget_map in G. destruct (aget k m) as [y|] eqn:Y; [|discriminate]. injection G as <-. destruct (Each k y Y) as [T [z [_ [G1 [_ G2]]]]]. congruence.
Qed.

(** Parts. *)
Lemma widen_fits : forall T t, fits T t -> fits (widen T) t.
Proof.
  unfold fits. induction T as [| | | | | | |T IH|w IH|s|nm l|T IH] using vtype_ind'; intros t F; cbn [widen]; try exact F.
  - cbn [member] in *. eauto.
  - destruct F as [s [E _]]. cbn [member]. eauto.
  - destruct F as [F|F]; [now left|right; auto].
Qed.
Lemma widen_sat : forall T, wft T -> sat (widen T) T = true.
Proof.
  induction T as [| | | | | | |T IH|w IH|s|nm l|T IH] using vtype_ind'; intros W; cbn [widen]; try reflexivity; try (now apply sat_refl).
  rewrite sat_null. cbn [base]. apply IH. now apply wft_null.
Qed.
Lemma get_fits : forall T t o k, wft T -> bare T <> KAny -> fits T t -> t = TObj o -> fits (type_get T k) match aget k o with Some x => x | None => TNull end.
Proof.
  unfold fits. induction T as [| | | | | | |T IH|w IH|s|nm l|T IH] using vtype_ind'; intros t o k W B F E; subst t.
  1-8, 10-11: try (exfalso; apply B; reflexivity); first [discriminate F | destruct F as [? F]; discriminate F | destruct F as [? [F _]]; discriminate F].
  - apply wft_obj in W. destruct W as [N W]. rewrite member_obj in F by exact N. destruct F as [x [E [_ F]]]. injection E as <-. cbn [type_get]. destruct (aget k w) as [T|] eqn:G; [|exact I].
    specialize (F k T G). destruct (aget k o); auto.
  - apply wft_null in W. cbn [type_get]. destruct F as [F|F]; [discriminate|]. now apply (IH (TObj o)).
Qed.
Lemma iterator_fits : forall T U l, iterator T = Some U -> fits T (TArr l) -> forall x, In x l -> fits U x.
Proof.
  unfold fits. induction T as [| | | | | | |T IH|w IH|s|nm l0|T IH] using vtype_ind'; intros U l E F x X; try discriminate E.
  - destruct F as [i F]. discriminate.
  - injection E as <-. destruct F as [y [Y F]]. injection Y as <-. auto.
  - cbn [iterator] in E. destruct F as [F|F]; [discriminate|]. now apply (IH U l).
Qed.
