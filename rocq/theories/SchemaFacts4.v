(** Where the type says all that a schema asks; used by PropSchema.v. *)
From Coq Require Import String Ascii ZArith Bool List Arith Lia.
From Verif Require Import Base Value Json VarType TypeSpec TypeFacts TypeMembers ConvertSpec ConvertFacts Schema SchemaSpec SchemaFacts SchemaFacts2.
Import ListNotations.
Local Open Scope string_scope.
Local Open Scope nat_scope.
Local Open Scope list_scope.

Lemma mg_null : forall T, ~ fits T TNull -> mg KNull T = KNullable T.
Proof. intros T H. destruct T; try reflexivity; exfalso; apply H; cbn; auto. Qed.
Lemma str_means : forall s, means (JStr s) (TStr s).
Proof. intros s [|[k|i] p]; cbn; auto. Qed.
Lemma strs_map : forall l, strs (map JStr l) = l.
Proof. induction l as [|s l IH]; [reflexivity|]. cbn. now rewrite IH. Qed.
Lemma optional_dec : forall m k, optional m k \/ ~ optional m k.
Proof. intros m k. rewrite optional_iff. destruct (contains (required m) k); [right; discriminate|left; reflexivity]. Qed.
Section D.
  Variable dicts : string -> option vtype.
  Variable dict : string -> tree -> Prop.
  Hypothesis Hd : forall name t, dict name t <-> exists T, dicts name = Some T /\ fits T t.
  Hypothesis Hs : forall name, exists T, dicts name = Some T.
  Hypothesis Hn : forall name, ~ dict name TNull.
  Definition exact (b : bool) (j : json) : Prop := (forall t, valid dict j t <-> fits (ty dicts j) t) /\ (fits (ty dicts j) TNull <-> b = true).
  (** From the type of one kind to that of the kind or null. *)
  Lemma with_null : forall b m kind T, free m -> of_type b m kind -> typed m (items_of dicts m) (props_of dicts m) kind = T -> kind <> "null" ->
    (forall t, fits T t -> of_kind kind t) ->
    (forall t, of_kind kind t ->
      (fits T t <->
       (forall p o k s x, aget "properties" m = Some (JObj p) -> t = TObj o -> aget k p = Some s -> aget k o = Some x -> valid dict s x) /\
       (forall l o k, aget "required" m = Some (JArr l) -> t = TObj o -> In (JStr k) l -> In k (map fst o)) /\
       (forall s l x, aget "items" m = Some s -> t = TArr l -> In x l -> valid dict s x))) ->
    exact b (JObj m).
  Proof.
    intros b m kind T (F1 & F2 & F3 & F4) Ty E Nk K H.
    assert (NN : ~ fits T TNull) by (intros X; apply K in X; cbn in X; contradiction).
    assert (Et : ty dicts (JObj m) = if b then KNullable T else T).
    { rewrite ty_obj. unfold get_str, enum_of, get_arr, case_key. rewrite F1, F2, F3, F4, Ty. destruct b; [|exact E]. cbn [strs map]. rewrite E. cbn [reduce fold_left]. unfold merge.
      assert (En : typed m (items_of dicts m) (props_of dicts m) "null" = KNull) by reflexivity. rewrite En. now apply mg_null. }
    unfold exact. rewrite Et. split.
    - intros t. split.
      + intros V. inversion V as [|m0 t0 Vd Va Vo Ve Vt Vl Vp Vr Vi]; subst m0 t0. destruct b.
        * destruct (Vl _ Ty) as (k1 & Ik & Kk). destruct Ik as [Ik|[Ik|[]]]; injection Ik as <-.
          -- right. apply (H t Kk). auto.
          -- left. destruct t; cbn in Kk; try discriminate; auto; try (destruct Kk; discriminate); destruct Kk.
        * specialize (Vt _ Ty). apply (H t Vt). auto.
      + intros Ft. assert (C : (b = true /\ t = TNull) \/ fits T t) by (destruct b; [destruct Ft as [X|X]; auto|auto]). clear Ft.
        assert (G : (forall p o k s x, aget "properties" m = Some (JObj p) -> t = TObj o -> aget k p = Some s -> aget k o = Some x -> valid dict s x) /\
           (forall l o k, aget "required" m = Some (JArr l) -> t = TObj o -> In (JStr k) l -> In k (map fst o)) /\
           (forall s l x, aget "items" m = Some s -> t = TArr l -> In x l -> valid dict s x)).
        { destruct C as [[_ ->]|C]; [split; [|split]; intros; discriminate|]. apply (H t (K t C)). exact C. }
        destruct G as (G1 & G2 & G3).
        apply VObj; try (rewrite ?F1, ?F2, ?F3, ?F4; intros; discriminate); auto.
        * intros k1 Ek. rewrite Ty in Ek. destruct b; [discriminate|]. injection Ek as <-. destruct C as [[X _]|C]; [discriminate|]. now apply K.
        * intros ks Ek. rewrite Ty in Ek. destruct b; [|discriminate]. injection Ek as <-. destruct C as [[_ ->]|C].
          -- exists "null". split; [right; now left|reflexivity].
          -- exists kind. split; [now left|]. now apply K.
    - destruct b; [split; [reflexivity|intros _; now left]|split; [intros X; contradiction|discriminate]].
  Qed.
  Lemma strict_exact : forall b j, strict b j -> exact b j.
  Proof.
    induction 1 as [b m kind F Ty Ik Fm|b b1 m s F Ty G S IH|b m p F Ty G Np Rq S1 IH1 S2 IH2|l Nl|name|key c Kc S IH].
    - cbn in Ik. destruct Ik as [<-|[<-|[<-|[<-|[]]]]]; eapply (with_null b m _ _ F Ty); try reflexivity; try discriminate; unfold typed, get_str; rewrite ?Fm; cbn [String.eqb Ascii.eqb Bool.eqb orb].
      all: try (intros t [x ->]; cbn; auto).
      all: intros t Kt; destruct t; cbn in Kt; try discriminate; try contradiction; try (destruct Kt; discriminate).
      all: split; [intros _; split; [|split]; intros; discriminate|intros _; eexists; reflexivity].
    - destruct IH as [IH _]. eapply (with_null b m "array" _ F Ty); try reflexivity; try discriminate; unfold typed; cbn [String.eqb Ascii.eqb Bool.eqb orb].
      + intros t (l & -> & _). reflexivity.
      + intros t Kt. destruct t as [| | | |l| |]; cbn in Kt; try discriminate; try contradiction; try (destruct Kt; discriminate). unfold items_of. rewrite G. split.
        * intros (l0 & E & Hl). injection E as <-. split; [|split]; try (intros; discriminate). intros s0 l0 x Es El Ix. injection Es as <-. injection El as <-. apply IH. now apply Hl.
        * intros (_ & _ & Hi). exists l. split; [reflexivity|]. intros x Ix. apply IH. eapply Hi; eauto.
    - eapply (with_null b m "object" _ F Ty); try reflexivity; try discriminate; unfold typed; cbn [String.eqb Ascii.eqb Bool.eqb orb]; unfold props_of; rewrite G.
      + intros t (o & -> & _). reflexivity.
      + intros t Kt. destruct t as [| | | | |o|]; cbn in Kt; try discriminate; try contradiction; try (destruct Kt; discriminate). rewrite map_map. cbn [fst snd]. unfold fits. rewrite member_obj by (rewrite map_map; exact Np).
        assert (Gm : forall k T, aget k (map (fun e : string * json => (fst e, if contains (required m) (fst e) then ty dicts (snd e) else wrap_optional (ty dicts (snd e)))) p) = Some T <->
                     exists s, aget k p = Some s /\ T = if contains (required m) k then ty dicts s else wrap_optional (ty dicts s)).
        { intros k T. clear - p. induction p as [|[k1 s1] p IHp]; cbn; [split; [discriminate|intros (s & E & _); discriminate]|]. destruct (String.eqb k1 k) eqn:E; [|exact IHp].
          apply String.eqb_eq in E. subst. split; [intros X; injection X as <-; eauto|intros (s & X & ->); injection X as ->; reflexivity]. }
        split.
        * intros (o1 & E & _ & Hk). injection E as <-. split; [|split]; [| |intros; discriminate].
          -- intros p0 o0 k s x Ep Eo Gk Go. injection Ep as <-. injection Eo as <-. specialize (Hk k _ (proj2 (Gm k _) (ex_intro _ s (conj Gk eq_refl)))). rewrite Go in Hk.
             destruct (optional_dec m k) as [O|O].
             ++ destruct (IH1 k s Gk O) as [Ex Nu]. apply Ex. apply optional_iff in O. rewrite O in Hk. assert (Z : fits (ty dicts s) TNull) by (now apply Nu). destruct (ty dicts s); try exact Hk; destruct Hk as [->|Hk]; assumption.
             ++ destruct (IH2 k s Gk O) as [Ex Nu]. apply Ex. rewrite optional_iff, not_false_iff_true in O. rewrite O in Hk. exact Hk.
          -- intros l o0 k El Eo Il. injection Eo as <-. destruct (aget k o) as [x|] eqn:Go; [apply TypeFacts.in_get; eauto|]. exfalso.
             assert (O : ~ optional m k) by (intros O; exact (O l El Il)). pose proof (Rq l k El Il) as Ip. apply TypeFacts.in_get in Ip as [s Gk]. specialize (Hk k _ (proj2 (Gm k _) (ex_intro _ s (conj Gk eq_refl)))). rewrite Go in Hk.
             destruct (IH2 k s Gk O) as [Ex Nu]. rewrite optional_iff, not_false_iff_true in O. rewrite O in Hk. apply Nu in Hk; [discriminate|reflexivity].
        * intros (Hp & Hr & _). exists o. split; [reflexivity|]. split; [discriminate|]. intros k T GT. apply Gm in GT as (s & Gk & ->).
          destruct (aget k o) as [x|] eqn:Go.
          -- pose proof (Hp p o k s x eq_refl eq_refl Gk Go) as V. destruct (optional_dec m k) as [O|O].
             ++ destruct (IH1 k s Gk O) as [Ex Nu]. apply optional_iff in O. rewrite O. apply optional_fits. left. now apply Ex.
             ++ destruct (IH2 k s Gk O) as [Ex Nu]. rewrite optional_iff, not_false_iff_true in O. rewrite O. now apply Ex.
          -- intros _. destruct (contains (required m) k) eqn:C; [|apply optional_fits; now right]. exfalso. apply contains_in, required_in in C as (l & El & Il). apply aget_None_notin in Go. apply Go. eapply Hr; eauto.
    - assert (Et : ty dicts (JObj [("enum", JArr (map JStr l))]) = KEnum None l).
      { rewrite ty_obj. unfold enum_of, get_arr, get_str, case_key. cbn [aget String.eqb Ascii.eqb Bool.eqb]. rewrite strs_map, map_length, Nat.eqb_refl. destruct l; [contradiction|]. reflexivity. }
      unfold exact. rewrite Et. split.
      + intros t. split.
        * intros V. inversion V as [|m0 t0 Vd Va Vo Ve Vt Vl Vp Vr Vi]; subst. destruct (Ve _ eq_refl) as (c & Ic & Mc). apply in_map_iff in Ic as (s & <- & Is). apply means_str in Mc. subst. exists s. auto.
        * intros (s & -> & Is). apply VObj; cbn; try (intros; discriminate). intros l0 E. injection E as <-. exists (JStr s). split; [now apply in_map|apply str_means].
      + split; [intros (s & E & _); discriminate|discriminate].
    - destruct (Hs name) as [T ET]. assert (Et : ty dicts (JObj [("$dictionary", JStr name)]) = T) by (rewrite ty_obj; unfold get_str; cbn [aget String.eqb Ascii.eqb Bool.eqb]; now rewrite ET).
      assert (DT : forall t, dict name t <-> fits T t) by (intros t; rewrite Hd; split; [intros (T1 & E & X); rewrite ET in E; injection E as <-; exact X|eauto]).
      unfold exact. rewrite Et. split.
      + intros t. rewrite <- DT. split.
        * intros V. inversion V as [|m0 t0 Vd Va Vo Ve Vt Vl Vp Vr Vi]; subst. destruct (Vd _ eq_refl) as (n1 & E & X). injection E as <-. exact X.
        * intros X. apply VObj; cbn; try (intros; discriminate). intros d E. injection E as <-. eauto.
      + rewrite <- DT. split; [intros X; destruct (Hn name X)|discriminate].
    - destruct IH as [Ex Nu]. assert (NN : ~ fits (ty dicts c) TNull) by (rewrite Nu; discriminate).
      assert (Et : ty dicts (JObj [(key, JArr [c; JObj [("type", JStr "null")]])]) = KNullable (ty dicts c)).
      { rewrite ty_obj. destruct Kc as [-> | ->]; unfold enum_of, get_arr, get_str, case_key; cbn [aget String.eqb Ascii.eqb Bool.eqb map reduce fold_left]; unfold merge; (assert (E : ty dicts (JObj [("type", JStr "null")]) = KNull) by reflexivity); rewrite E; now apply mg_null. }
      unfold exact. rewrite Et. split; [|split; [reflexivity|intros _; now left]].
      intros t. split.
      + intros V. inversion V as [|m0 t0 Vd Va Vo Ve Vt Vl Vp Vr Vi]; subst.
        assert (X : exists x, In x [c; JObj [("type", JStr "null")]] /\ valid dict x t) by (destruct Kc as [-> | ->]; [apply Va|apply Vo]; reflexivity).
        destruct X as (x & [<-|[<-|[]]] & Vx); [right; now apply Ex|]. left. inversion Vx as [|m1 t1 _ _ _ _ Ut Ul Up Ur Ui]; subst. specialize (Ut _ eq_refl). destruct t; cbn in Ut; try discriminate; try (destruct Ut; discriminate); auto; destruct Ut.
      + intros Ft. assert (X : exists x, In x [c; JObj [("type", JStr "null")]] /\ valid dict x t).
        { destruct Ft as [->|Ft]; [exists (JObj [("type", JStr "null")]); split; [right; now left|]; apply VObj; cbn; try (intros; discriminate); intros k E; injection E as <-; reflexivity|]. exists c. split; [now left|]. now apply Ex. }
        destruct Kc as [-> | ->]; apply VObj; cbn; try (intros; discriminate); intros l0 E; injection E as <-; exact X.
  Qed.
End D.
