(** The built-in functions return only what they were given and what they made: KeepFacts.v for the function library. *)
From Coq Require Import String Ascii ZArith Lia Bool List Arith.
From Verif Require Import Base Dec Value Heap Ast Ops Compiler Vm Eval Funcs HeapSpec TreeFacts HeapFacts PureFacts.
From Verif Require ContentFacts.
From Verif Require Import KeepFacts.
Import ListNotations.
Local Open Scope nat_scope.
Notation same_shape := ContentFacts.same_shape.
Notation plain := ContentFacts.plain.
Notation plain_lib := ContentFacts.plain_lib.

Section KeepLib.
Variable bad : loc -> Prop.
Notation clear := (clear bad).
Notation old := (old bad).
Notation alike := (alike bad).
Notation kalike := (kalike bad).
Notation oalike := (oalike bad).
Notation ralike := (ralike bad).
Notation halike := (halike bad).
Notation aview := (aview bad).
Notation content_ext := (content_ext bad).

Lemma alike_shape : forall h1 h2 a b, alike h1 h2 a b -> same_shape a b.
Proof. intros h1 h2 a b A. apply alike_view in A. destruct A; cbn; auto. Qed.
Lemma F2_shape : forall h1 h2 a b, Forall2 (alike h1 h2) a b -> Forall2 same_shape a b.
Proof. induction 1; constructor; eauto using alike_shape. Qed.
Lemma plain_alike : forall h1 h2 v, plain v -> alike h1 h2 v v.
Proof. intros h1 h2 [] H; cbn in H; try contradiction; apply view_alike; constructor. Qed.

Lemma insert_all_alike : forall h1 h2 a1 a2 m1 m2, Forall2 (kalike h1 h2) a1 a2 -> Forall2 (kalike h1 h2) m1 m2 ->
  Forall2 (kalike h1 h2) (insert_all a1 m1) (insert_all a2 m2).
Proof. intros. unfold insert_all. now apply fold_aset_alike. Qed.

Definition mr (h1 h2 : heap) (a b : heap * res value) : Prop := halike a b /\ hext h1 (fst a) /\ hext h2 (fst b).
Lemma deep_merge_alike : forall n1 n2 h1 h2 b1 b2 p1 p2 tp,
  old h1 -> alike h1 h2 b1 b2 -> repr h1 p1 tp -> repr h2 p2 tp -> clear h1 p1 -> height tp < n1 -> height tp < n2 ->
  mr h1 h2 (deep_merge n1 h1 b1 p1) (deep_merge n2 h2 b2 p2).
Proof.
  induction n1 as [|n1 IH]; intros [|n2] h1 h2 b1 b2 p1 p2 tp Od B P1 P2 Cl H1 H2; try lia.
  assert (PA : alike h1 h2 p1 p2) by (eexists; eauto).
  assert (Keep : mr h1 h2 (h1, Ok p1) (h2, Ok p2)) by (split; [exact PA|split; apply hext_refl]).
  cbn [deep_merge]. pose proof B as B0. apply alike_view in B.
  destruct B as [|b|d|s|d|l1 l2 a1 a2 A1 A2 AF NB|l1 l2 m1 m2 M1 M2 MF NB];
    try exact Keep.
  - pose proof PA as PA0. apply alike_view in PA. destruct PA as [| | | | |l3 l4 c1 c2 C1 C2 CF NC|]; try exact Keep.
    rewrite A1, A2, C1, C2. split.
    + apply (new_arr_alike bad h1 h2 (a1 ++ c1) (a2 ++ c2) Od). now apply Forall2_app.
    + split; apply hext_new_arr.
  - inversion P1 as [| | | |la aa tsa Ga Fa|la m ts Ga Fa|]; subst;
      inversion P2 as [| | | |lb ab tsb Gb Fb|lb m0 tsb Gb Fb|]; subst; try exact Keep.
    rewrite M1, M2, (proj2 (hobj_hget _ _ _) Ga), (proj2 (hobj_hget _ _ _) Gb).
    match goal with |- context [match ?f h1 (insert_all m1 []) m with _ => _ end] => set (go1 := f) end.
    match goal with |- context [match ?f h2 (insert_all m2 []) m0 with _ => _ end] => set (go2 := f) end.
    assert (Hht : forall k x, In (k, x) ts -> height x < n1 /\ height x < n2)
      by (intros k x Hx; apply height_obj in Hx; lia).
    assert (Cm : forall k x, In (k, x) m -> clear h1 x).
    { intros k x Hx l0 N0 R0. apply (Cl l0 N0). eapply reachl_obj; eauto. }
    assert (G : forall ts m m0, (forall k x, In (k, x) m -> clear h1 x) -> (forall k x, In (k, x) ts -> height x < n1 /\ height x < n2) ->
      forall g1 g2 c1 c2, hext h1 g1 -> hext h2 g2 ->
      Forall2 (fun kv kt => fst kv = fst kt /\ repr h1 (snd kv) (snd kt)) m ts ->
      Forall2 (fun kv kt => fst kv = fst kt /\ repr h2 (snd kv) (snd kt)) m0 ts ->
      Forall2 (kalike g1 g2) c1 c2 ->
      match go1 g1 c1 m, go2 g2 c2 m0 with
      | (k1, Ok x), (k2, Ok y) => Forall2 (kalike k1 k2) x y /\ hext g1 k1 /\ hext g2 k2
      | (k1, Err e), (k2, Err f) => e = f /\ hext g1 k1 /\ hext g2 k2
      | _, _ => False
      end).
    { clear - IH Od. induction ts as [|[k t] ts IHt]; intros m m0 Cm Hht g1 g2 c1 c2 E1 E2 F1 F2 C.
      - inversion F1; subst; inversion F2; subst. cbn. repeat split; auto using hext_refl.
      - inversion F1 as [|[k1 x] ? r1 ? [Ek1 R1] Fr1]; subst; inversion F2 as [|[k2 y] ? r2 ? [Ek2 R2] Fr2]; subst.
        cbn [fst snd] in *. subst k1 k2.
        assert (R1' : repr g1 x t) by (eapply repr_hext; eauto). assert (R2' : repr g2 y t) by (eapply repr_hext; eauto).
        assert (Cx : clear g1 x).
        { intros l0 N0 R0. eapply (Cm k x ltac:(now left) l0 N0). eapply reachl_back; eauto. }
        assert (Cr : forall k0 x0, In (k0, x0) r1 -> clear h1 x0) by (intros; eapply Cm; right; eauto).
        cbn [go1 go2]. fold go1. fold go2.
        pose proof (aget_alike _ _ _ _ _ k C) as O. destruct (aget k c1) as [x1|], (aget k c2) as [x2|]; cbn in O; try contradiction.
        + destruct (Hht k t ltac:(cbn; auto)) as [Ht1 Ht2].
          pose proof (IH n2 g1 g2 x1 x2 x y t (old_hext _ _ _ E1 Od) O R1' R2' Cx Ht1 Ht2) as (Q & Q1 & Q2).
          destruct (deep_merge n1 g1 x1 x) as [k1 [v1|e1]], (deep_merge n2 g2 x2 y) as [k2 [v2|e2]]; cbn in Q, Q1, Q2; try contradiction.
          * pose proof (IHt r1 r2 Cr ltac:(intros; eapply Hht; cbn; eauto) k1 k2 (aset k v1 c1) (aset k v2 c2)
              (hext_trans _ _ _ E1 Q1) (hext_trans _ _ _ E2 Q2) Fr1 Fr2) as Z.
            specialize (Z ltac:(apply aset_alike; auto; eapply K2_hext; eauto)).
            destruct (go1 k1 (aset k v1 c1) r1) as [z1 [y1|e1]], (go2 k2 (aset k v2 c2) r2) as [z2 [y2|e2]]; try contradiction;
              intuition eauto using hext_trans.
          * auto.
        + pose proof (IHt r1 r2 Cr ltac:(intros; eapply Hht; cbn; eauto) g1 g2 (aset k x c1) (aset k y c2) E1 E2 Fr1 Fr2) as Z.
          specialize (Z ltac:(apply aset_alike; auto; eexists; eauto)). exact Z. }
    specialize (G ts m m0 Cm Hht h1 h2 (insert_all m1 []) (insert_all m2 []) (hext_refl _) (hext_refl _) Fa Fb).
    specialize (G ltac:(apply insert_all_alike; auto)).
    destruct (go1 h1 (insert_all m1 []) m) as [k1 [x|e]], (go2 h2 (insert_all m2 []) m0) as [k2 [y|f]]; try contradiction.
    + destruct G as (G & E1 & E2). split; [apply (new_obj_alike bad k1 k2 x y (old_hext _ _ _ E1 Od) G)|]. cbn. split; eapply hext_trans; eauto using hext_alloc.
    + destruct G as (-> & E1 & E2). repeat split; auto.
Qed.
Lemma items_alike : forall n1 n2 is1 is2 h1 h2 g1 g2 a1 a2, old h1 -> hext h1 g1 -> hext h2 g2 -> Forall2 (alike h1 h2) is1 is2 ->
  length h1 < n1 -> length h2 < n2 -> alike g1 g2 a1 a2 ->
  halike (merge_deep_items n1 g1 a1 is1) (merge_deep_items n2 g2 a2 is2).
Proof.
  intros n1 n2 is1 is2 h1 h2 g1 g2 a1 a2 Od E1 E2 F L1 L2. revert g1 g2 a1 a2 E1 E2.
  induction F as [|x y ? ? A F IH]; intros g1 g2 a1 a2 E1 E2 B; [exact B|].
  destruct A as (t & R1 & R2 & Cx). pose proof (ContentFacts.height_le _ _ _ R1) as Q1. pose proof (ContentFacts.height_le _ _ _ R2) as Q2.
  pose proof (repr_hext _ _ _ _ E1 R1) as R1'. pose proof (repr_hext _ _ _ _ E2 R2) as R2'.
  assert (Cx' : clear g1 x) by (intros l0 N0 R0; apply (Cx l0 N0); eapply reachl_back; eauto).
  assert (V : aview h1 h2 x y) by (apply alike_view; eexists; eauto).
  destruct V; cbn [merge_deep_items]; try (cbn; reflexivity).
  - now apply IH.
  - pose proof (deep_merge_alike n1 n2 g1 g2 a1 a2 (VObj l1) (VObj l2) t (old_hext _ _ _ E1 Od) B R1' R2' Cx' ltac:(lia) ltac:(lia)) as (Z & Z1 & Z2).
    destruct (deep_merge n1 g1 a1 (VObj l1)) as [k1 [v1|e1]], (deep_merge n2 g2 a2 (VObj l2)) as [k2 [v2|e2]]; cbn in Z, Z1, Z2; try contradiction.
    + apply IH; eauto using hext_trans.
    + exact Z.
Qed.

Section Lib.
  Variable L : lib.
  Hypothesis HL : plain_lib L.

  Section At.
    Variables h1 h2 : heap.
    Variables a1 a2 : list value.
    Hypothesis HA : Forall2 (alike h1 h2) a1 a2.
    Hypothesis Od : old h1.

    Lemma arg_alike : forall i, ralike h1 h2 (arg a1 i) (arg a2 i).
    Proof.
      intros i. unfold arg. pose proof (nth_alike _ _ _ _ _ i HA) as N.
      destruct (nth_error a1 i), (nth_error a2 i); cbn in *; try contradiction; auto.
    Qed.
    Lemma arg_str_alike : forall i, arg_str a1 i = arg_str a2 i.
    Proof.
      intros i. unfold arg_str. pose proof (nth_alike _ _ _ _ _ i HA) as N.
      destruct (nth_error a1 i), (nth_error a2 i); cbn in N; try contradiction; auto.
      apply alike_view in N. destruct N; auto.
    Qed.
    Lemma arg_num_alike : forall i, arg_num a1 i = arg_num a2 i.
    Proof.
      intros i. unfold arg_num. pose proof (nth_alike _ _ _ _ _ i HA) as N.
      destruct (nth_error a1 i), (nth_error a2 i); cbn in N; try contradiction; auto.
      apply alike_view in N. destruct N; auto.
    Qed.
    Lemma arg_onum_alike : forall i, arg_onum a1 i = arg_onum a2 i.
    Proof.
      intros i. unfold arg_onum. pose proof (nth_alike _ _ _ _ _ i HA) as N.
      destruct (nth_error a1 i), (nth_error a2 i); cbn in N; try contradiction; auto.
      apply alike_view in N. destruct N; auto.
    Qed.
    Definition lrel (x y : res (list value)) : Prop :=
      match x, y with Ok a, Ok b => Forall2 (alike h1 h2) a b | Err e, Err f => e = f | _, _ => False end.
    Lemma arg_arr_alike : forall i, lrel (arg_arr h1 a1 i) (arg_arr h2 a2 i).
    Proof.
      intros i. unfold arg_arr. pose proof (nth_alike _ _ _ _ _ i HA) as N.
      destruct (nth_error a1 i), (nth_error a2 i); cbn in N; try contradiction; cbn; auto.
      apply alike_view in N. destruct N; cbn; auto. now rewrite H, H0.
    Qed.
    Lemma all_nums_alike : forall a b, Forall2 (alike h1 h2) a b -> all_nums a = all_nums b.
    Proof. induction 1 as [|x y xs ys A F IH]; auto. apply alike_view in A. destruct A; cbn; auto. now rewrite IH. Qed.
    Lemma all_dates_alike : forall a b, Forall2 (alike h1 h2) a b -> all_dates a = all_dates b.
    Proof. induction 1 as [|x y xs ys A F IH]; auto. apply alike_view in A. destruct A; cbn; auto. destruct d; cbn; auto. now rewrite IH. Qed.
    Lemma arg_nums_alike : forall i, arg_nums h1 a1 i = arg_nums h2 a2 i.
    Proof.
      intros i. unfold arg_nums. pose proof (arg_arr_alike i) as A.
      destruct (arg_arr h1 a1 i), (arg_arr h2 a2 i); cbn in *; try contradiction; try congruence.
      now rewrite (all_nums_alike _ _ A).
    Qed.
    Lemma arg_nd_alike : forall i, arg_nums_or_dates h1 a1 i = arg_nums_or_dates h2 a2 i.
    Proof.
      intros i. unfold arg_nums_or_dates. pose proof (arg_arr_alike i) as A.
      destruct (arg_arr h1 a1 i) as [x|], (arg_arr h2 a2 i) as [y|]; cbn in *; try contradiction; try congruence.
      rewrite (all_nums_alike _ _ A), (all_dates_alike _ _ A).
      destruct A as [|u v ? ? A]; auto. apply alike_view in A. destruct A; auto.
    Qed.
    Lemma ret_arr_alike : forall x y, lrel x y -> halike (ret_arr h1 x) (ret_arr h2 y).
    Proof.
      intros [x|e] [y|f] A; cbn [lrel] in A; try contradiction; unfold ret_arr.
      - apply (new_arr_alike _ _ _ _ _ Od A).
      - exact A.
    Qed.
    Lemma map_same : forall (B : Type) (f : B -> value) l, (forall b, plain (f b)) -> Forall2 (alike h1 h2) (map f l) (map f l).
    Proof. intros B f l H. induction l; cbn; constructor; auto using plain_alike. Qed.
    Lemma same_ok : forall r, match r with Ok v => plain v | Err _ => True end -> halike (pure h1 r) (pure h2 r).
    Proof. intros [v|e] H; cbn; auto. now apply plain_alike. Qed.
    Lemma same_list : forall r, match r with Ok v => Forall plain v | Err _ => True end -> lrel r r.
    Proof. intros [v|e] H; cbn; auto. induction H; constructor; auto using plain_alike. Qed.

    Lemma merge_arrays_alike : forall x y, Forall2 (alike h1 h2) x y -> lrel (merge_arrays h1 x) (merge_arrays h2 y).
    Proof.
      induction 1 as [|x y xs ys A F IH]; cbn; auto. apply alike_view in A.
      destruct A as [| | | | |l1 l2 c1 c2 C1 C2 CF NB|]; cbn; auto. rewrite C1, C2.
      destruct (merge_arrays h1 xs), (merge_arrays h2 ys); cbn in *; try contradiction; auto. now apply Forall2_app.
    Qed.
    Lemma merge_objects_alike : forall x y, Forall2 (alike h1 h2) x y -> forall c1 c2, Forall2 (kalike h1 h2) c1 c2 ->
      match merge_objects h1 x c1, merge_objects h2 y c2 with
      | Ok a, Ok b => Forall2 (kalike h1 h2) a b | Err e, Err f => e = f | _, _ => False
      end.
    Proof.
      induction 1 as [|x y xs ys A F IH]; intros c1 c2 C; cbn; auto. apply alike_view in A.
      destruct A as [| | | | | |l1 l2 m1 m2 M1 M2 MF NB]; cbn; try reflexivity; [now apply IH|]. rewrite M1, M2.
      apply IH. now apply insert_all_alike.
    Qed.
    Lemma merge_alike : forall x y, Forall2 (alike h1 h2) x y -> halike (f_merge h1 x) (f_merge h2 y).
    Proof.
      intros x y H. unfold f_merge.
      assert (N : oalike h1 h2 (first_non_null x) (first_non_null y)).
      { unfold first_non_null. induction H; cbn; auto. pose proof H as A. apply alike_view in A. destruct A; auto. }
      destruct (first_non_null x) as [u|], (first_non_null y) as [v|]; cbn in N; try contradiction.
      - apply alike_view in N. destruct N; try (cbn; reflexivity).
        + pose proof (merge_arrays_alike _ _ H) as M. destruct (merge_arrays h1 x), (merge_arrays h2 y); cbn in M; try contradiction.
          * apply (new_arr_alike _ _ _ _ _ Od M).
          * exact M.
        + pose proof (merge_objects_alike _ _ H [] [] (Forall2_nil _)) as M.
          destruct (merge_objects h1 x []), (merge_objects h2 y []); try contradiction.
          * apply (new_obj_alike _ _ _ _ _ Od M).
          * exact M.
      - apply (new_obj_alike bad h1 h2 [] [] Od). constructor.
    Qed.
    Lemma merge_deep_alike : forall x y, Forall2 (alike h1 h2) x y -> halike (f_merge_deep h1 x) (f_merge_deep h2 y).
    Proof.
      intros x y H. unfold f_merge_deep. pose proof (new_obj_alike bad h1 h2 [] [] Od (Forall2_nil _)) as N.
      pose proof (hext_new_obj h1 []) as E1. pose proof (hext_new_obj h2 []) as E2.
      destruct (new_obj h1 []) as [g1 o1], (new_obj h2 []) as [g2 o2]. cbn [fst snd] in *.
      eapply items_alike; [exact Od|exact E1|exact E2|exact H|lia|lia|exact N].
    Qed.
    Lemma contains_alike : forall x y u v, alike h1 h2 x y -> alike h1 h2 u v -> f_contains h1 x u = f_contains h2 y v.
    Proof.
      intros x y u v A B. unfold f_contains. pose proof B as B0. apply alike_view in A, B. destruct A; auto.
      - destruct B; auto.
      - rewrite H, H0. f_equal. transitivity (existsb (fun e => same_scalar e u) a3).
        + eapply any_alike; [|exact H1]. intros p q Pq. apply alike_view in Pq. destruct Pq, B; reflexivity.
        + clear H0 H1. induction a3; cbn; auto. rewrite IHa3. f_equal. destruct a, B; reflexivity.
    Qed.
    Lemma fuzzy_alike : forall x y s, alike h1 h2 x y -> halike (f_fuzzy L h1 x s) (f_fuzzy L h2 y s).
    Proof.
      intros x y s A. apply alike_view in A. unfold f_fuzzy. destruct A; try (cbn; reflexivity).
      - cbn. apply view_alike; constructor.
      - rewrite H, H0, (all_strs_alike _ _ _ _ _ H1). destruct (all_strs a3) as [ss|]; [|cbn; reflexivity].
        apply (new_arr_alike bad h1 h2 (map (fun s0 => VNum (l_similarity L s0 s)) ss) (map (fun s0 => VNum (l_similarity L s0 s)) ss) Od). apply map_same. cbn; auto.
    Qed.

    Definition okp (r : res value) : Prop := match r with Ok v => plain v | Err _ => True end.
    Definition okps (r : res (list value)) : Prop := match r with Ok v => Forall plain v | Err _ => True end.
    Lemma bind_okp : forall {A} (r : res A) f, (forall a, okp (f a)) -> okp (bind r f).
    Proof. intros A [a|e] f H; cbn; auto. Qed.
    Lemma bind_okps : forall {A} (r : res A) f, (forall a, okps (f a)) -> okps (bind r f).
    Proof. intros A [a|e] f H; cbn; auto. Qed.
    Lemma map_plain : forall {B} (f : B -> value) l, (forall b, plain (f b)) -> Forall plain (map f l).
    Proof. intros B f l H. induction l; cbn; constructor; auto. Qed.
    Lemma call_internal_alike : forall f, halike (call_internal L f a1 h1) (call_internal L f a2 h2).
    Proof.
      intros f. pose proof (arg_alike 0) as A0. pose proof (arg_alike 1) as A1. pose proof (arg_arr_alike 0) as R0.
      unfold call_internal, arg_places.
      destruct f; rewrite ?arg_str_alike, ?arg_num_alike, ?arg_onum_alike, ?arg_nums_alike, ?arg_nd_alike.
      (* functions of plain arguments *)
      all: try (apply (same_ok _); repeat (apply bind_okp; intros); cbn; auto; fail).
      all: try (apply ret_arr_alike, (same_list _); repeat (apply bind_okps; intros); apply map_plain; cbn; auto; fail).
      all: try (destruct (arg a1 0) as [u|e], (arg a2 0) as [v|e2]; cbn [ralike] in A0; try contradiction; cbn [bind]; [|exact A0];
                apply alike_view in A0; destruct A0; apply (same_ok _); repeat (apply bind_okp; intros); cbn; auto; fail).
      all: try (destruct (arg_arr h1 a1 0) as [u|e], (arg_arr h2 a2 0) as [v|e2]; cbn [lrel] in R0; try contradiction; cbn [bind]; [|exact R0]).
      - destruct (arg a1 0) as [u|e], (arg a2 0) as [v|e2]; cbn [ralike] in A0; try contradiction; cbn [bind]; [|exact A0].
        exact (len_alike _ _ _ _ _ A0).
      - destruct (arg a1 0) as [u|e], (arg a2 0) as [v|e2]; cbn [ralike] in A0; try contradiction; cbn [bind]; [|exact A0].
        destruct (arg a1 1) as [u1|e], (arg a2 1) as [v1|e2]; cbn [ralike] in A1; try contradiction; cbn [bind]; [|exact A1].
        rewrite (contains_alike _ _ _ _ A0 A1). apply (same_ok _). apply bind_okp. cbn. auto.
      - apply ret_arr_alike. cbn. now apply flatten1_alike.
      - now apply merge_alike.
      - now apply merge_deep_alike.
      - destruct (arg a1 0) as [u|e], (arg a2 0) as [v|e2]; cbn [ralike] in A0; try contradiction; cbn [bind]; [|exact A0].
        destruct (arg_str a2 1); cbn [bind]; [|cbn; reflexivity]. now apply fuzzy_alike.
      - apply (same_ok _). apply bind_okp. intros [x|x]; apply bind_okp; cbn; auto.
      - apply (same_ok _). apply bind_okp. intros [x|x]; apply bind_okp; cbn; auto.
      - apply ret_arr_alike.
        destruct (arg a1 0) as [u|e], (arg a2 0) as [v|e2]; cbn [ralike] in A0; try contradiction; cbn [bind]; [|exact A0].
        apply alike_view in A0. destruct A0 as [| | | | |l1 l2 c1 c2 C1 C2 CF NB|l1 l2 m1 m2 M1 M2 MF NB]; try (cbn; reflexivity).
        + rewrite C1, C2. cbn [of_option bind]. rewrite (Forall2_len _ _ _ CF). apply (same_list (Ok _)). apply map_plain. cbn; auto.
        + rewrite M1, M2. cbn [of_option bind].
          replace (akeys m1) with (akeys m2); [apply (same_list (Ok _)); apply map_plain; cbn; auto|].
          clear -MF. unfold akeys. induction MF as [|? ? ? ? [E _]]; cbn; congruence.
      - apply ret_arr_alike. unfold arg_obj. pose proof (nth_alike _ _ _ _ _ 0 HA) as N.
        destruct (nth_error a1 0), (nth_error a2 0); cbn in N; try contradiction; try (cbn; reflexivity).
        apply alike_view in N. destruct N as [| | | | | |l1 l2 m1 m2 M1 M2 MF NB]; try (cbn; reflexivity).
        rewrite M1, M2. cbn [of_option bind lrel]. clear -MF. induction MF as [|? ? ? ? [_ A]]; cbn; constructor; auto.
      - rewrite (ContentFacts.pl_date _ HL _ _ (F2_shape _ _ _ _ HA)). apply (same_ok _). apply bind_okp. cbn. auto.
    Qed.
  End At.

  Lemma std_content : content_ext (std_ext L).
  Proof.
    split; intros k h1 h2 a1 a2 Od A; cbn.
    - destruct k as [f|n|c]; [now apply call_internal_alike| |cbn; reflexivity].
      rewrite (ContentFacts.pl_dep _ HL n _ _ (F2_shape _ _ _ _ A)). unfold halike. cbn.
      destruct (l_deprecated L n a2) as [v|e] eqn:E; cbn; auto. apply plain_alike. eapply ContentFacts.pl_dep_out; eauto.
    - rewrite (ContentFacts.pl_met _ HL k _ _ (F2_shape _ _ _ _ A)). unfold halike. cbn.
      destruct (l_method L k a2) as [v|e] eqn:E; cbn; auto. apply plain_alike. eapply ContentFacts.pl_met_out; eauto.
  Qed.
End Lib.

(** *** Statement on whole expressions *)
Definition same_outcome (o1 o2 : res value * heap) : Prop :=
  match o1, o2 with
  | (Ok v1, h1), (Ok v2, h2) => alike h1 h2 v1 v2
  | (Err e1, _), (Err e2, _) => e1 = e2
  | _, _ => False
  end.
Lemma evaluate_clear : forall L P full n s1 s2 h1 h2, plain_lib L -> no_assign n = true -> reads P full n = true ->
  ealike bad P full h1 h2 s1 s2 -> same_outcome (evaluate (std_ext L) n s1 h1) (evaluate (std_ext L) n s2 h2).
Proof.
  intros L P full n s1 s2 h1 h2 HL Hn Hr E.
  pose proof (eval_alike bad (std_ext L) (std_content L HL) (std_pure L) P full s1 s2 n Hn Hr [] [] [] s1 s2 h1 h2 E E (Forall2_nil _)) as R.
  unfold evaluate. destruct (eval (std_ext L) s1 [] [] n s1 h1), (eval (std_ext L) s2 [] [] n s2 h2); cbn in *; tauto.
Qed.
End KeepLib.
