(** Facts about types; used by PropTypes.v. *)
From Coq Require Import String ZArith Bool List Arith Lia.
From Verif Require Import Base Value Json VarType TypeSpec.
Import ListNotations.
Local Open Scope string_scope.
Local Open Scope list_scope.

Definition mobj (o2 o1 : list (string * vtype)) : list (string * vtype) :=
  (fix go o acc := match o with
                   | [] => acc
                   | (k, v) :: r => go r (aset k match aget k acc with Some cur => mg v cur | None => v end acc)
                   end) o2 o1.
Definition core (A B : vtype) : vtype :=
  match A, B with
  | KAny, _ => KAny
  | _, KAny => KAny
  | KNull, KNull => KNull
  | KNull, other => KNullable other
  | other, KNull => KNullable other
  | KBool, KBool => KBool
  | KString, KString => KString
  | KNumber, KNumber => KNumber
  | KDate, KDate => KDate
  | KInterval, KInterval => KInterval
  | KArray a1, KArray a2 => match a1, a2 with KAny, other => KArray other | other, KAny => KArray other | x, y => KArray (mg y x) end
  | KObject o1, KObject o2 => KObject (mobj o2 o1)
  | KConst c, KEnum _ values => KEnum None (push values c)
  | KConst c1, KConst c2 => if String.eqb c1 c2 then KConst c1 else KEnum None [c1; c2]
  | KConst _, KString | KString, KConst _ => KString
  | KEnum n1 a, KEnum n2 b => KEnum (match n1, n2 with Some x, Some y => Some (x ++ " | " ++ y)%string | _, _ => None end) (fold_left push b a)
  | KEnum _ values, KConst c => KEnum None (push values c)
  | KEnum _ _, KString | KString, KEnum _ _ => KString
  | _, _ => KAny
  end.
Definition wrap (f : bool) (t : vtype) : vtype := if f && negb match t with KAny | KNull | KNullable _ => true | _ => false end then KNullable t else t.
Lemma mg_eq : forall r l, mg r l = wrap (nullable l || nullable r) (core (base l) (base r)).
Proof.
  intros r l. destruct r, l; try reflexivity.
  all: match goal with |- context [KNullable ?x] => destruct x; try reflexivity end.
  all: match goal with x : vtype |- _ => destruct x; try reflexivity end.
Qed.
Lemma mg_plain : forall r l, nullable l = false -> nullable r = false -> mg r l = core l r.
Proof. intros r l L R. rewrite mg_eq, L, R. destruct l; try discriminate; destruct r; try discriminate; reflexivity. Qed.
Lemma base_wrap : forall f t, base (wrap f t) = base t.
Proof. intros f t. unfold wrap. destruct f; cbn [andb]; [|reflexivity]. destruct t; reflexivity. Qed.

Lemma contains_in : forall l s, contains l s = true <-> In s l.
Proof.
  intros l s. unfold contains. rewrite existsb_exists. split.
  - intros [x [X E]]. apply String.eqb_eq in E. now subst x.
  - intros X. exists s. split; [exact X|apply String.eqb_refl].
Qed.
Lemma push_in : forall l s x, In x (push l s) <-> In x l \/ x = s.
Proof.
  intros l s x. unfold push. destruct (contains l s) eqn:E.
  - apply contains_in in E. split; [auto|]. intros [H | ->]; assumption.
  - rewrite in_app_iff. cbn. intuition congruence.
Qed.
Lemma pushes_in : forall b a x, In x (fold_left push b a) <-> In x a \/ In x b.
Proof.
  induction b as [|s b IH]; intros a x; cbn [fold_left]; [cbn; tauto|].
  rewrite IH, push_in. cbn. intuition congruence.
Qed.
Lemma mobj_get : forall o2 o1 k, NoDup (map fst o2) ->
  aget k (mobj o2 o1) = match aget k o1, aget k o2 with Some a, Some b => Some (mg b a) | Some a, None => Some a | None, o => o end.
Proof.
  unfold mobj. induction o2 as [|[k1 v] r IH]; intros o1 k N.
  - cbn. destruct (aget k o1); reflexivity.
  - inversion N as [|? ? N1 N2]; subst. rewrite IH by exact N2. cbn [aget].
    destruct (String.eqb k1 k) eqn:E.
    + apply String.eqb_eq in E. subst k1. rewrite aget_aset_eq.
      destruct (aget k r) eqn:R; [exfalso; apply N1; apply aget_Some_in in R; apply (in_map fst) in R; exact R|].
      destruct (aget k o1); reflexivity.
    + apply String.eqb_neq in E. rewrite aget_aset_ne by exact E. reflexivity.
Qed.
Lemma mobj_keys : forall o2 o1, NoDup (map fst o1) -> NoDup (map fst (mobj o2 o1)).
Proof.
  unfold mobj. induction o2 as [|[k1 v] r IH]; intros o1 N; [exact N|].
  apply IH. now apply aset_nodup.
Qed.
Lemma in_get : forall V (m : list (string * V)) k, In k (map fst m) <-> exists v, aget k m = Some v.
Proof.
  intros V m k. split.
  - intros H. destruct (aget k m) eqn:E; [eauto|]. apply aget_None_notin in E. contradiction.
  - intros [v E]. apply aget_Some_in in E. apply (in_map fst) in E. exact E.
Qed.

(** Types whose objects list a key once. *)
Inductive wft : vtype -> Prop :=
| WLeaf : forall t, match t with KArray _ | KObject _ | KNullable _ => False | _ => True end -> wft t
| WArray : forall t, wft t -> wft (KArray t)
| WObject : forall m, NoDup (map fst m) -> (forall k t, aget k m = Some t -> wft t) -> wft (KObject m)
| WNullable : forall t, wft t -> wft (KNullable t).
Lemma distinct_wft : forall t, distinct t -> wft t.
Proof.
  induction t as [| | | | | | |t IH|m IH|s|n l|t IH] using vtype_ind'; intros D; try (apply WLeaf; exact I).
  - apply WArray. apply IH. intros p m H. apply (D (Elem :: p)). exact H.
  - apply WObject; [exact (D [] m eq_refl)|]. intros k t G. rewrite Forall_forall in IH. apply (IH (k, t) (aget_Some_in _ _ _ G)).
    intros p m1 H. apply (D (Field k :: p)). cbn [at_place bare]. now rewrite G.
  - apply WNullable. apply IH. intros p m H. apply (D p m). destruct p as [|[|k] p]; exact H.
Qed.
Lemma wft_arr : forall t, wft (KArray t) -> wft t.
Proof. intros t W. inversion W as [? H| | |]; subst; [contradiction|assumption]. Qed.
Lemma wft_null : forall t, wft (KNullable t) -> wft t.
Proof. intros t W. inversion W as [? H| | |]; subst; [contradiction|assumption]. Qed.
Lemma wft_obj : forall m, wft (KObject m) -> NoDup (map fst m) /\ forall k t, aget k m = Some t -> wft t.
Proof. intros m W. inversion W as [? H| | |]; subst; [contradiction|auto]. Qed.
Lemma wft_base : forall t, wft t -> wft (base t).
Proof. intros t W. destruct t; try exact W. now apply wft_null. Qed.
Lemma wft_wrap : forall f t, wft t -> wft (wrap f t).
Proof. intros f t W. unfold wrap. destruct (f && _); [now apply WNullable|exact W]. Qed.
Lemma wft_mg : forall r l, wft r -> wft l -> wft (mg r l).
Proof.
  assert (L : forall t, match t with KArray _ | KObject _ | KNullable _ => False | _ => True end -> wft t) by exact WLeaf.
  induction r as [| | | | | | |t IH|m IH|s|n l0|t IH] using vtype_ind'; intros l R W; rewrite mg_eq; apply wft_wrap; apply wft_base in W; cbn [base].
  1-11: try (generalize dependent (base l); clear l; intros l W; destruct l as [| | | | | | |u|w|s1|n1 l1|u]; cbn [core]; first [apply L; exact I | apply WNullable; first [assumption | apply L; exact I] |
    destruct (String.eqb _ _); apply L; exact I | idtac]).
  - apply wft_arr in W. apply wft_arr in R. destruct u; try (apply WArray; first [exact W | exact R]); destruct t; apply WArray; first [exact W | apply IH; assumption].
  - apply wft_obj in W. apply wft_obj in R. destruct W as [W1 W2], R as [R1 R2]. rewrite Forall_forall in IH. apply WObject; [now apply mobj_keys|].
    intros k t. rewrite mobj_get by exact R1. destruct (aget k w) as [v|] eqn:A; destruct (aget k m) as [v0|] eqn:B; intros [= <-].
    + exact (IH (k, v0) (aget_Some_in _ _ _ B) v (R2 _ _ B) (W2 _ _ A)).
    + exact (W2 _ _ A).
    + exact (R2 _ _ B).
  - apply wft_null in R. generalize dependent (base l). clear l. intros l W. destruct (nullable l || nullable t) eqn:E.
    + destruct l, t; try discriminate E; cbn [core]; first [apply L; exact I | apply WNullable; first [assumption | apply L; exact I]].
    + apply orb_false_iff in E. destruct E as [E1 E2]. rewrite <- (mg_plain t l E1 E2). now apply IH.
Qed.

(** [sat]. *)
Definition missing_ok (t : vtype) : bool := match t with KAny | KNull | KNullable _ => true | _ => false end.
Lemma sat_obj : forall o2 o1, sat (KObject o2) (KObject o1) = true <-> forall k v, In (k, v) o2 -> match aget k o1 with Some tv => sat v tv | None => missing_ok v end = true.
Proof.
  intros o2 o1. cbn [sat]. induction o2 as [|[k v] r IH]; cbn [In].
  - split; [intros _ k v []|reflexivity].
  - rewrite andb_true_iff, IH. clear IH. split.
    + intros [H1 H2] k1 v1 [E|E]; [injection E as <- <-|now apply H2]. destruct (aget k o1); [exact H1|]. destruct v; exact H1.
    + intros H. split; [|intros k1 v1 E; apply H; now right]. specialize (H k v (or_introl eq_refl)). destruct (aget k o1); [exact H|]. destruct v; exact H.
Qed.
Lemma sat_any : forall c, sat c KAny = true. Proof. destruct c; reflexivity. Qed.
Lemma sat_top : forall t, sat KAny t = true. Proof. destruct t; reflexivity. Qed.
Lemma sat_null : forall c t, sat (KNullable c) t = sat c (base t).
Proof. intros c t. destruct t; try reflexivity. cbn [base]. now rewrite !sat_any. Qed.
Lemma sat_refl : forall t, wft t -> sat t t = true.
Proof.
  induction t as [| | | | | | |t IH|m IH|s|n l|t IH] using vtype_ind'; intros W; try reflexivity.
  - cbn [sat]. apply IH. now apply wft_arr.
  - apply wft_obj in W. destruct W as [N W]. apply sat_obj. intros k v H. rewrite (aget_in_nodup _ _ _ N H). rewrite Forall_forall in IH. apply (IH (k, v) H).
    apply (W k). now apply aget_in_nodup.
  - cbn [sat]. apply String.eqb_refl.
  - cbn [sat]. apply forallb_forall. intros x X. now apply contains_in.
  - cbn [sat]. apply IH. now apply wft_null.
Qed.
Lemma sat_arr : forall c t, sat (KArray c) t = true -> t = KAny \/ exists u, t = KArray u /\ sat c u = true.
Proof. intros c t H. destruct t; try discriminate H; [now left|right; eauto]. Qed.
Lemma sat_nonnull : forall c t, nullable c = false -> c <> KAny -> sat c t = true -> nullable t = false.
Proof. intros c t N A H. destruct t; try reflexivity. destruct c; try discriminate; contradiction. Qed.

Lemma sat_least : forall T a b, wft a -> wft b -> sat T a = true -> sat T b = true -> sat T (mg b a) = true.
Proof.
  assert (E1 : forall l c x, In x l -> forallb (fun i => String.eqb i c) l = true -> x = c)
    by (intros l c x X H; rewrite forallb_forall in H; now apply String.eqb_eq, H).
  assert (E2 : forall l c, (forall x, In x l -> x = c) -> forallb (fun i => String.eqb i c) l = true)
    by (intros l c H; apply forallb_forall; intros x X; apply String.eqb_eq; auto).
  assert (E3 : forall l e x, In x l -> forallb (contains e) l = true -> In x e)
    by (intros l e x X H; rewrite forallb_forall in H; now apply contains_in, H).
  assert (E4 : forall l e, (forall x, In x l -> In x e) -> forallb (contains e) l = true)
    by (intros l e H; apply forallb_forall; intros x X; apply contains_in; auto).
  induction T as [| | | | | | |T IH|m IH|s|n l|T IH] using vtype_ind'; intros a b Wa Wb A B.
  - apply sat_top.
  - destruct a; try discriminate A; destruct b; try discriminate B; reflexivity.
  - destruct a; try discriminate A; destruct b; try discriminate B; reflexivity.
  - destruct a; try discriminate A; destruct b; try discriminate B; try reflexivity. rewrite mg_plain by reflexivity. cbn [core]. destruct (String.eqb s s0); reflexivity.
  - destruct a; try discriminate A; destruct b; try discriminate B; reflexivity.
  - destruct a; try discriminate A; destruct b; try discriminate B; try reflexivity. rewrite mg_plain by reflexivity. cbn [core]. destruct (String.eqb s s0); reflexivity.
  - destruct a; try discriminate A; destruct b; try discriminate B; reflexivity.
  - apply sat_arr in A. apply sat_arr in B. destruct A as [-> | [u [-> A]]]; [destruct b; reflexivity|]. destruct B as [-> | [v [-> B]]]; [reflexivity|].
    apply wft_arr in Wa. apply wft_arr in Wb. rewrite mg_plain by reflexivity. cbn [core]. destruct u; try exact B; destruct v; try exact A; cbn [sat]; apply IH; assumption.
  - destruct a; try discriminate A; [destruct b; reflexivity|]. destruct b; try discriminate B; [reflexivity|]. rewrite mg_plain by reflexivity. cbn [core].
    rewrite sat_obj in A, B. apply sat_obj. intros k v H. specialize (A k v H). specialize (B k v H). apply wft_obj in Wa. apply wft_obj in Wb. destruct Wa as [_ Wa], Wb as [N Wb].
    rewrite mobj_get by exact N. destruct (aget k m0) eqn:X, (aget k m1) eqn:Y; try assumption.
    rewrite Forall_forall in IH. apply (IH (k, v) H); eauto.
  - destruct a; try discriminate A; [destruct b; reflexivity| | |]; (destruct b; try discriminate B; try reflexivity); rewrite mg_plain by reflexivity; cbn [core]; cbn [sat] in A, B.
    + apply String.eqb_eq in A, B. subst s0 s1. rewrite String.eqb_refl. cbn [sat]. apply String.eqb_refl.
    + apply String.eqb_eq in A. subst s0. cbn [sat]. apply E2. intros x X. apply push_in in X. destruct X as [X | ->]; eauto.
    + apply String.eqb_eq in B. subst s0. cbn [sat]. apply E2. intros x X. apply push_in in X. destruct X as [X | ->]; eauto.
    + cbn [sat]. apply E2. intros x X. apply pushes_in in X. destruct X as [X|X]; eauto.
  - destruct a; try discriminate A; [destruct b; reflexivity| | |]; (destruct b; try discriminate B; try reflexivity); rewrite mg_plain by reflexivity; cbn [core]; cbn [sat] in A, B.
    + destruct (String.eqb s s0) eqn:E; [exact A|]. cbn [sat forallb]. now rewrite A, B.
    + cbn [sat]. apply E4. intros x X. apply push_in in X. destruct X as [X | ->]; [eauto|]. now apply contains_in.
    + cbn [sat]. apply E4. intros x X. apply push_in in X. destruct X as [X | ->]; [eauto|]. now apply contains_in.
    + cbn [sat]. apply E4. intros x X. apply pushes_in in X. destruct X as [X|X]; eauto.
  - rewrite sat_null in *. rewrite mg_eq, base_wrap. apply wft_base in Wa, Wb. generalize dependent (base a). generalize dependent (base b). clear a b. intros b Wb B a Wa A.
    destruct (nullable a || nullable b) eqn:N.
    + destruct a, b; try discriminate N; cbn [core base]; first [apply sat_any | assumption].
    + apply orb_false_iff in N. destruct N as [N1 N2]. rewrite <- (mg_plain b a N1 N2). specialize (IH a b Wa Wb A B). rewrite (mg_plain b a N1 N2) in *.
      destruct a as [| | | | | | |u|w|s|n1 l1|u]; try discriminate N1; destruct b as [| | | | | | |v|w1|s0|n2 l2|v]; try discriminate N2; cbn [core base] in *; try assumption.
      * destruct u; try assumption; destruct v; assumption.
      * destruct (String.eqb s s0); assumption.
Qed.

(** [proper], [side_by_side]. *)
Lemma prop_arr : forall t, proper (KArray t) -> proper t.
Proof. intros t P. inversion P as [? H| | |]; subst; [contradiction|assumption]. Qed.
Lemma prop_null : forall t, proper (KNullable t) -> proper t /\ match t with KNull | KAny | KNullable _ => False | _ => True end.
Proof. intros t P. inversion P as [? H| | |]; subst; [contradiction|auto]. Qed.
Lemma prop_obj : forall m k t, proper (KObject m) -> aget k m = Some t -> proper t.
Proof. intros m k t P G. inversion P as [? H| |? H|]; subst; [contradiction|]. apply (H k). now apply aget_Some_in. Qed.
Lemma prop_base : forall t, proper t -> proper (base t) /\ nullable (base t) = false.
Proof. intros t P. destruct t; try (split; [exact P|reflexivity]). apply prop_null in P. destruct P as [P N]. split; [exact P|]. destruct t; try reflexivity. contradiction. Qed.
Lemma place_null : forall p t, at_place p (KNullable t) = at_place p t.
Proof. intros p t. destruct p as [|[|k] p]; reflexivity. Qed.
Lemma place_base : forall p t, at_place p (base t) = at_place p t.
Proof. intros p t. destruct t; try reflexivity. cbn [base]. now rewrite place_null. Qed.
Lemma side_base : forall a b, side_by_side a b -> side_by_side (base a) (base b).
Proof. intros a b S1 p x y X Y. rewrite place_base in X, Y. exact (S1 p x y X Y). Qed.
Lemma side_arr : forall a b, side_by_side (KArray a) (KArray b) -> side_by_side a b.
Proof. intros a b S1 p x y X Y. exact (S1 (Elem :: p) x y X Y). Qed.
Lemma side_obj : forall m n k a b, side_by_side (KObject m) (KObject n) -> aget k m = Some a -> aget k n = Some b -> side_by_side a b.
Proof. intros m n k a b S1 A B p x y X Y. apply (S1 (Field k :: p) x y); cbn [at_place bare]; [now rewrite A|now rewrite B]. Qed.
Lemma sat_leaf : forall t, match t with KArray _ | KObject _ | KNullable _ => False | _ => True end -> sat t t = true.
Proof. intros t H. apply sat_refl. now apply WLeaf. Qed.
Lemma sat_upper : forall b a, wft a -> wft b -> proper a -> proper b -> side_by_side a b -> sat (mg b a) a = true /\ sat (mg b a) b = true.
Proof.
  assert (E4 : forall l e, (forall x, In x l -> In x e) -> forallb (contains e) l = true)
    by (intros l e H; apply forallb_forall; intros x X; apply contains_in; auto).
  assert (Lift : forall a b, proper a -> proper b -> side_by_side a b -> (sat (core (base a) (base b)) (base a) = true /\ sat (core (base a) (base b)) (base b) = true) ->
    sat (mg b a) a = true /\ sat (mg b a) b = true).
  { intros a b Pa Pb S1 [H1 H2]. rewrite mg_eq. unfold wrap. destruct (nullable a || nullable b) eqn:N; cbn [andb].
    - destruct (core (base a) (base b)) as [| | | | | | |cu|cw|cs|cn cl|cu] eqn:C; cbn [negb]; rewrite ?sat_null; try (split; assumption); try (split; apply sat_top).
      + exfalso. destruct a; try discriminate H1; cbn [base] in *.
        * destruct b; discriminate C.
        * destruct b; cbn [base] in *; try discriminate C; try discriminate N. apply prop_null in Pb. destruct Pb as [_ Pb]. destruct b; try discriminate C. contradiction.
        * apply prop_null in Pa. destruct Pa as [_ Pa]. destruct a; try contradiction; discriminate H1.
      + exfalso. specialize (S1 [] _ _ eq_refl eq_refl). apply prop_base in Pa. apply prop_base in Pb. destruct Pa as [_ Pa], Pb as [_ Pb].
        assert (Ba : forall t, nullable (base t) = false -> bare t = base t) by (intros t Hn; destruct t; try reflexivity; cbn [base bare] in *; destruct t; try reflexivity; discriminate).
        rewrite (Ba a Pa), (Ba b Pb) in S1. destruct (base a) as [| | | | | | |u|w|s|n1 l1|u]; destruct (base b) as [| | | | | | |v1|w1|s0|n2 l2|v1]; try discriminate C; try contradiction; try discriminate Pa; try discriminate Pb.
        * cbn [core] in C. destruct u; [discriminate|..]; destruct v1; discriminate.
        * cbn [core] in C. destruct (String.eqb s s0); discriminate.
    - apply orb_false_iff in N. destruct N as [N1 N2]. destruct a; try discriminate N1; destruct b; try discriminate N2; split; assumption. }
  induction b as [| | | | | | |t IH|n IH|s|nm l|t IH] using vtype_ind'; intros a Wa Wb Pa Pb S1; apply Lift; try assumption; cbn [base];
    assert (S2 := side_base _ _ S1); cbn [base] in S2; destruct (prop_base _ Pa) as [Pa2 Na]; apply wft_base in Wa.
  1-11: generalize dependent (base a); clear a Pa S1; intros a Wa S1 Pa Na; assert (S0 := S1 [] _ _ eq_refl eq_refl); cbn [bare] in S0;
    destruct a as [| | | | | | |u|m|s1|n1 l1|u]; try contradiction; try discriminate Na; cbn [core];
    try (split; first [reflexivity | apply sat_any | apply sat_top | apply sat_leaf; exact I]).
  - assert (Q : (u = KAny \/ t = KAny) \/ core (KArray u) (KArray t) = KArray (mg t u)).
    { destruct u; try (left; left; reflexivity); destruct t; try (left; right; reflexivity); right; reflexivity. }
    apply wft_arr in Wa, Wb. apply prop_arr in Pa, Pb. apply side_arr in S1. destruct Q as [[-> | ->]|Q].
    + cbn [sat]. split; [apply sat_any|now apply sat_refl].
    + replace (match u with KAny => KArray KAny | _ => KArray u end) with (KArray u) by (destruct u; reflexivity).
      split; [now apply sat_refl, WArray|apply sat_any].
    + cbn [core] in Q. rewrite Q. cbn [sat]. now apply IH.
  - apply wft_obj in Wa, Wb. destruct Wa as [N1 Wa], Wb as [N2 Wb]. rewrite Forall_forall in IH.
    assert (K : forall k v, In (k, v) (mobj n m) -> exists x y, aget k m = Some x /\ aget k n = Some y /\ v = mg y x).
    { intros k v H. apply aget_in_nodup in H; [|now apply mobj_keys]. rewrite mobj_get in H by exact N2.
      specialize (S0 k). rewrite !in_get in S0. destruct (aget k m) as [x|] eqn:X, (aget k n) as [y|] eqn:Y; try discriminate H.
      - injection H as <-. eauto.
      - destruct (proj1 S0 (ex_intro _ _ eq_refl)). discriminate.
      - destruct (proj2 S0 (ex_intro _ _ eq_refl)). discriminate. }
    assert (H : forall k x y, aget k m = Some x -> aget k n = Some y -> sat (mg y x) x = true /\ sat (mg y x) y = true).
    { intros k x y X Y. apply (IH (k, y) (aget_Some_in _ _ _ Y)); eauto using prop_obj, side_obj. }
    split; apply sat_obj; intros k v G; destruct (K k v G) as [x [y [X [Y ->]]]]; [rewrite X|rewrite Y]; now apply (H k).
  - destruct (String.eqb s1 s) eqn:E; cbn [sat contains existsb]; rewrite ?String.eqb_refl, ?orb_true_r; cbn [orb]; [|auto]. apply String.eqb_eq in E. subst. now rewrite String.eqb_refl.
  - cbn [sat]. split; [apply E4; intros x X; apply push_in; now left|apply contains_in, push_in; now right].
  - cbn [sat]. split; [apply contains_in, push_in; now right|apply E4; intros x X; apply push_in; now left].
  - cbn [sat]. split; apply E4; intros x X; apply pushes_in; auto.
  - apply wft_null in Wb. apply prop_null in Pb. destruct Pb as [Pb Nb]. assert (Nt : nullable t = false) by (destruct t; try reflexivity; contradiction).
    rewrite <- (mg_plain t (base a) Na Nt). now apply IH.
Qed.
