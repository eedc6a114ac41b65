(** Values of a type in a heap: facts used by InferFacts.v. *)
From Coq Require Import String ZArith Bool List Arith Lia.
From Verif Require Import Base Dec Value Heap Ast Ops Json VarType TypeSpec TypeFacts TypeMembers Infer InferSpec.
Import ListNotations.
Local Open Scope string_scope.
Local Open Scope list_scope.
Local Set Warnings "-unused-intro-pattern".

(** [fits], read off the heap. *)
Fixpoint hfits (h : heap) (T : vtype) (v : value) : Prop :=
  match T with
  | KAny => True
  | KNull => v = VNull
  | KBool => exists b, v = VBool b
  | KString => exists s, v = VStr s
  | KNumber => exists d, v = VNum d
  | KDate => exists d, v = VDyn (DDate d)
  | KInterval => exists i, v = VDyn (DInterval i)
  | KArray T => exists l a, v = VArr l /\ harr h l = Some a /\ forall x, In x a -> hfits h T x
  | KObject m =>
      exists l o, v = VObj l /\ hobj h l = Some o /\
        (fix go m := match m with [] => True | (k, T) :: r => hfits h T (or_null (aget k o)) /\ go r end) m
  | KConst s => v = VStr s
  | KEnum _ l => exists s, v = VStr s /\ In s l
  | KNullable T => v = VNull \/ hfits h T v
  end.
Lemma go_all : forall h o m, (fix go m := match m with [] => True | (k, T) :: r => hfits h T (or_null (aget k o)) /\ go r end) m <->
  forall k T, In (k, T) m -> hfits h T (or_null (aget k o)).
Proof.
  intros h o m. induction m as [|[k T] r IH]; cbn [In].
  - split; [intros _ k T []|auto].
  - rewrite IH. split.
    + intros [H1 H2] k1 T1 [E|E]; [injection E as <- <-; exact H1|now apply H2].
    + intros H. split; [apply H; now left|intros k1 T1 E; apply H; now right].
Qed.
Lemma hfits_obj : forall h m v, NoDup (map fst m) -> (hfits h (KObject m) v <->
  exists l o, v = VObj l /\ hobj h l = Some o /\ forall k T, aget k m = Some T -> hfits h T (or_null (aget k o))).
Proof.
  intros h m v N. cbn [hfits]. split; intros [l [o [E [G H]]]]; exists l, o; (split; [exact E|split; [exact G|]]).
  - intros k T A. apply (proj1 (go_all h o m) H). now apply aget_Some_in.
  - apply go_all. intros k T A. apply H. now apply aget_in_nodup.
Qed.
Lemma hfits_mono : forall T h h1 v, hext h h1 -> hfits h T v -> hfits h1 T v.
Proof.
  induction T as [| | | | | | |t IH|m IH|s|n l|t IH] using vtype_ind'; intros h h1 v X H; try exact H.
  - destruct H as [l [a [E [G H]]]]. exists l, a. split; [exact E|]. split; [|intros x Y; eapply IH; eauto].
    unfold harr in *. destruct (hget h l) eqn:Q; [|discriminate G]. now rewrite (hext_get _ _ _ _ X Q).
  - destruct H as [l [o [E [G H]]]]. exists l, o. split; [exact E|]. split.
    + unfold hobj in *. destruct (hget h l) eqn:Q; [|discriminate G]. now rewrite (hext_get _ _ _ _ X Q).
    + apply go_all. intros k T Y. rewrite Forall_forall in IH. eapply (IH (k, T) Y); [exact X|]. now apply (proj1 (go_all h o m) H).
  - destruct H as [H|H]; [now left|right; eapply IH; eauto].
Qed.
Lemma repr_get : forall h m ts k, Forall2 (fun kv kt => fst kv = fst kt /\ repr h (snd kv) (snd kt)) m ts ->
  match aget k ts with Some t => exists v, aget k m = Some v /\ repr h v t | None => aget k m = None end.
Proof.
  intros h m ts k F. induction F as [|[k1 v1] [k2 t2] m ts [E R] F IH]; cbn [aget]; [reflexivity|]. cbn [fst snd] in E, R. subst k2.
  destruct (String.eqb k1 k); [exists v1; auto|exact IH].
Qed.
Lemma hfits_repr : forall T h v t, repr h v t -> (hfits h T v <-> fits T t).
Proof.
  unfold fits. induction T as [| | | | | | |T IH|m IH|s|n l|T IH] using vtype_ind'; intros h v t R; cbn [hfits member].
  - tauto.
  - inversion R; subst; split; congruence.
  - inversion R; subst; split; intros [? E]; inversion E; eauto.
  - inversion R; subst; split; intros [? E]; inversion E; eauto.
  - inversion R; subst; split; intros [? E]; inversion E; eauto.
  - inversion R; subst; split; intros [? E]; inversion E; eauto.
  - inversion R; subst; split; intros [? E]; inversion E; eauto.
  - split.
    + intros [l [a [E [G H]]]]. subst v. inversion R as [| | | |l0 a0 ts G0 F| |]; subst. exists ts. split; [reflexivity|].
      unfold harr in G. rewrite G0 in G. injection G as ->. clear R G0. induction F as [|x t a ts Rx F IH1]; intros y Y; [destruct Y|].
      destruct Y as [<-|Y]; [apply (IH h x t Rx), H; now left|apply IH1; [|exact Y]]. intros z Z. apply H. now right.
    + intros [ts [E H]]. subst t. inversion R as [| | | |l0 a0 ts0 G0 F| |]; subst. exists l0, a0. split; [reflexivity|]. split; [unfold harr; now rewrite G0|].
      clear R G0. induction F as [|x t a ts Rx F IH1]; intros y Y; [destruct Y|].
      destruct Y as [<-|Y]; [apply (IH h x t Rx), H; now left|apply IH1; [|exact Y]]. intros z Z. apply H. now right.
  - rewrite Forall_forall in IH. split.
    + intros [l [o [E [G H]]]]. subst v. inversion R as [| | | | |l0 a0 ts G0 F|]; subst. exists ts. split; [reflexivity|]. split; [discriminate|].
      unfold hobj in G. rewrite G0 in G. injection G as ->. assert (H0 := proj1 (go_all h o m) H). clear H.
      induction m as [|[k T] r IH1]; [exact I|]. split; [|apply IH1; [intros x X; apply IH; now right|intros k1 T1 X; apply H0; now right]].
      assert (Q := repr_get h o ts k F). assert (H1 := H0 k T (or_introl eq_refl)). destruct (aget k ts) as [x|].
      * destruct Q as [w [Q1 Q2]]. rewrite Q1 in H1. apply (IH (k, T) (or_introl eq_refl) h w x Q2). exact H1.
      * rewrite Q in H1. intros _. apply (IH (k, T) (or_introl eq_refl) h VNull TNull (RNull h)). exact H1.
    + intros [ts [E [_ H]]]. subst t. inversion R as [| | | | |l0 o ts0 G0 F|]; subst. exists l0, o. split; [reflexivity|]. split; [unfold hobj; now rewrite G0|].
      induction m as [|[k T] r IH1]; [exact I|]. destruct H as [H H0]. split; [|apply IH1; [intros x X; apply IH; now right|exact H0]].
      assert (Q := repr_get h o ts k F). destruct (aget k ts) as [x|].
      * destruct Q as [w [Q1 Q2]]. rewrite Q1. apply (IH (k, T) (or_introl eq_refl) h w x Q2). exact H.
      * rewrite Q. apply (IH (k, T) (or_introl eq_refl) h VNull TNull (RNull h)). auto.
  - inversion R; subst; split; congruence.
  - inversion R; subst; split; intros [? [E ?]]; inversion E; eauto.
  - rewrite (IH h v t R). inversion R; subst; split; (intros [E|E]; [inversion E|right; exact E]); now left.
Qed.

(** ** Merging *)
Lemma hfits_wrap : forall h f t v, hfits h (wrap f t) v <-> hfits h t v \/ (f = true /\ v = VNull).
Proof.
  intros h f t v. unfold wrap. destruct f; cbn [andb].
  - destruct t; cbn [negb hfits]; intuition auto.
  - intuition discriminate.
Qed.
Lemma hfits_base : forall h t v, hfits h t v <-> hfits h (base t) v \/ (nullable t = true /\ v = VNull).
Proof. intros h t v. destruct t; cbn [base nullable]; try (intuition discriminate). cbn [hfits]. intuition auto. Qed.
Lemma agree_base : forall a b, agree a b -> agree (base a) (base b).
Proof. intros a b A p x y X Y. rewrite place_base in X, Y. exact (A p x y X Y). Qed.
Lemma agree_arr : forall a b, agree (KArray a) (KArray b) -> agree a b.
Proof. intros a b A p x y X Y. exact (A (Elem :: p) x y X Y). Qed.
Lemma agree_obj : forall m n k a b, agree (KObject m) (KObject n) -> aget k m = Some a -> aget k n = Some b -> agree a b.
Proof. intros m n k a b A G1 G2 p x y X Y. apply (A (Field k :: p)); cbn [at_place bare]; [now rewrite G1|now rewrite G2]. Qed.
Lemma merge_both : forall b a h v, wft a -> wft b -> agree a b -> hfits h a v \/ hfits h b v -> hfits h (mg b a) v.
Proof.
  assert (Lift : forall a b h v, (hfits h (base a) v \/ hfits h (base b) v -> hfits h (core (base a) (base b)) v) -> hfits h a v \/ hfits h b v -> hfits h (mg b a) v).
  { intros a b h v H M. rewrite mg_eq. apply hfits_wrap. rewrite (hfits_base h a), (hfits_base h b) in M.
    destruct M as [[M | [M1 M2]]|[M | [M1 M2]]]; [left; auto|right; rewrite M1; auto|left; auto|right; rewrite M1, orb_true_r; auto]. }
  induction b as [| | | | | | |t IH|w IH|s|nm l|t IH] using vtype_ind'; intros a h v Wa Wb Ag; apply Lift; cbn [base]; apply wft_base in Wa; apply agree_base in Ag; cbn [base] in Ag.
  1-11: generalize dependent (base a); clear a; intros a Wa Ag M; destruct a as [| | | | | | |u|m|s1|n1 l1|u]; cbn [core]; try exact I;
    try (destruct M as [M|M]; solve [exact M | right; exact M | left; exact M | cbn [hfits] in *; first [solve [eauto] | destruct M as [? [? ?]]; solve [eauto]]]).
  - apply wft_arr in Wa, Wb. assert (Q : (u = KAny \/ t = KAny) \/ core (KArray u) (KArray t) = KArray (mg t u)).
    { destruct u; try (left; left; reflexivity); destruct t; try (left; right; reflexivity); right; reflexivity. }
    destruct Q as [Q|Q].
    + assert (E := Ag [] (KArray u) (KArray t) eq_refl eq_refl). cbn iota in E. assert (E1 : u = KAny /\ t = KAny) by tauto. destruct E1 as [-> ->]. destruct M as [M|M]; exact M.
    + cbn [core] in Q. rewrite Q. apply agree_arr in Ag.
      destruct M as [M|M]; destruct M as [l [x [E [G H]]]]; exists l, x; (split; [exact E|]); (split; [exact G|]); intros y Y; apply IH; auto.
  - assert (Ag0 := Ag [] (KObject m) (KObject w) eq_refl eq_refl). cbn iota in Ag0.
    apply wft_obj in Wa, Wb. destruct Wa as [N1 Wa], Wb as [N2 Wb]. rewrite Forall_forall in IH.
    rewrite (hfits_obj h m v N1), (hfits_obj h w v N2) in M. apply hfits_obj; [now apply mobj_keys|].
    assert (K : forall l o, v = VObj l -> hobj h l = Some o ->
      ((forall k T, aget k m = Some T -> hfits h T (or_null (aget k o))) \/ (forall k T, aget k w = Some T -> hfits h T (or_null (aget k o)))) ->
      exists l o, v = VObj l /\ hobj h l = Some o /\ forall k T, aget k (mobj w m) = Some T -> hfits h T (or_null (aget k o))).
    { intros l o E G H. exists l, o. split; [exact E|]. split; [exact G|]. intros k T A. rewrite mobj_get in A by exact N2. specialize (Ag0 k). rewrite !in_get in Ag0.
      destruct (aget k m) as [X|] eqn:EX, (aget k w) as [Y|] eqn:EY; try discriminate A.
      - injection A as <-. apply (IH (k, Y) (aget_Some_in _ _ _ EY)); eauto using agree_obj. destruct H as [H|H]; [left|right]; eauto.
      - exfalso. destruct Ag0 as [A1 _]. destruct A1 as [? A1]; [eauto|discriminate A1].
      - exfalso. destruct Ag0 as [_ A1]. destruct A1 as [? A1]; [eauto|discriminate A1]. }
    destruct M as [[l [o [E [G H]]]]|[l [o [E [G H]]]]]; eapply K; eauto.
  - destruct (String.eqb s1 s) eqn:E; [apply String.eqb_eq in E; subst s1; destruct M as [M|M]; exact M|]. cbn [hfits In] in *. destruct M as [M|M]; eauto.
  - cbn [hfits] in *. destruct M as [[x [E H]]|M]; [exists x|exists s]; (split; [assumption|]); apply push_in; auto.
  - cbn [hfits] in *. destruct M as [M|[x [E H]]]; [exists s1|exists x]; (split; [assumption|]); apply push_in; auto.
  - cbn [hfits] in *. destruct M as [[x [E H]]|[x [E H]]]; exists x; (split; [assumption|]); apply pushes_in; auto.
  - apply wft_null in Wb. intros M. generalize dependent (base a). clear a. intros a Wa Ag M. destruct (nullable a || nullable t) eqn:E.
    + destruct a, t; try discriminate E; cbn [core]; first [exact I | destruct M as [M|M]; first [exact M | right; exact M | left; exact M]].
    + apply orb_false_iff in E. destruct E as [E1 E2]. rewrite <- (mg_plain t a E1 E2). now apply IH.
Qed.
Lemma merge_all : forall l acc h v, wft acc -> Forall wft l -> agree_with acc l -> (hfits h acc v \/ exists t, In t l /\ hfits h t v) -> hfits h (fold_left merge l acc) v.
Proof.
  induction l as [|t r IH]; intros acc h v Wa Wl Ag H; cbn [fold_left].
  - destruct H as [H|[t [[] _]]]. exact H.
  - inversion Wl as [|? ? W1 W2]; subst. destruct Ag as [A1 A2]. apply IH; auto; [now apply wft_mg|].
    destruct H as [H|[x [[<-|X] H]]]; [left|left|right; eauto]; apply merge_both; auto.
Qed.
