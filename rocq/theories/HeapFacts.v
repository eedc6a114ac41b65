(** Facts about the shared-value operations of Heap.v. *)
From Coq Require Import String Ascii ZArith Lia Bool List Arith Permutation.
From Verif Require Import Base Dec Value Heap HeapSpec TreeFacts.
Import ListNotations.
Local Open Scope nat_scope.

(** ** Heights *)
Lemma height_arr : forall a x, In x a -> height x < height (TArr a).
Proof.
  intros a x Hin. cbn. apply Nat.lt_succ_r. induction a as [|y r IH]; [contradiction|].
  destruct Hin as [->|Hin]; [lia|]. specialize (IH Hin). lia.
Qed.
Lemma height_obj : forall m k x, In (k, x) m -> height x < height (TObj m).
Proof.
  intros m k x Hin. cbn. apply Nat.lt_succ_r. induction m as [|[k' y] r IH]; [contradiction|].
  destruct Hin as [E|Hin]; [injection E as <- <-; lia|]. specialize (IH Hin). lia.
Qed.

Lemma Forall2_in_l : forall {A B} (R : A -> B -> Prop) l l' x, Forall2 R l l' -> In x l ->
  exists y, In y l' /\ R x y.
Proof.
  intros A B R l l' x F. induction F; intros Hin; [contradiction|].
  destruct Hin as [->|Hin]; [exists y; cbn; auto|]. destruct (IHF Hin) as (z & ? & ?). exists z. cbn; auto.
Qed.
Lemma Forall2_in_r : forall {A B} (R : A -> B -> Prop) l l' y, Forall2 R l l' -> In y l' ->
  exists x, In x l /\ R x y.
Proof.
  intros A B R l l' y F. induction F; intros Hin; [contradiction|].
  destruct Hin as [->|Hin]; [exists x; cbn; auto|]. destruct (IHF Hin) as (z & ? & ?). exists z. cbn; auto.
Qed.
Lemma Forall2_len : forall {A B} (R : A -> B -> Prop) l l', Forall2 R l l' -> length l = length l'.
Proof. intros A B R l l' F. induction F; cbn; auto. Qed.

(** ** Reachability *)
Lemma reach_trans : forall h a b c, reach h a b -> reach h b c -> reach h a c.
Proof.
  intros h a b c H. induction H; intros H'; auto.
  - eapply reach_arr; eauto.
  - eapply reach_obj; eauto.
Qed.
Lemma reach_hext : forall h h1 v w, hext h h1 -> reach h v w -> reach h1 v w.
Proof.
  intros h h1 v w He H. induction H.
  - constructor.
  - eapply reach_arr; eauto using hext_get.
  - eapply reach_obj; eauto using hext_get.
Qed.
Lemma reach_back : forall h h1 v t w, repr h v t -> hext h h1 -> reach h1 v w -> reach h v w.
Proof.
  intros h h1 v t w R He. revert w. induction R using repr_ind'; intros w' HR;
    try (inversion HR; subst; constructor).
  - inversion HR as [|? a' x ? G' Hin Hr|]; subst; [constructor|].
    rewrite (hext_get _ _ _ _ He H) in G'. injection G' as <-.
    destruct (Forall2_in_l _ _ _ _ H1 Hin) as (y & _ & IH). eapply reach_arr; eauto.
  - inversion HR as [| |? m' k x ? G' Hin Hr]; subst; [constructor|].
    rewrite (hext_get _ _ _ _ He H) in G'. injection G' as <-.
    destruct (Forall2_in_l _ _ _ _ H1 Hin) as ([k' y] & _ & _ & IH). cbn [fst snd] in *. eapply reach_obj; eauto.
Qed.
Lemma repr_reach : forall h v t w, repr h v t -> reach h v w -> exists t', repr h w t' /\ height t' <= height t.
Proof.
  intros h v t w R HR. revert t R. induction HR; intros t R.
  - exists t. auto.
  - inversion R as [| | | |? ? ? G F|? ? ? G F|]; subst. rewrite H in G. injection G as <-.
    destruct (Forall2_in_l _ _ _ _ F H0) as (y & Hy & Ry). destruct (IHHR _ Ry) as (t' & ? & ?).
    exists t'. split; auto. apply height_arr in Hy. lia.
  - inversion R as [| | | |? ? ? G F|? ? ? G F|]; subst. rewrite H in G. injection G as <-.
    destruct (Forall2_in_l _ _ _ _ F H0) as ([k' y] & Hy & _ & Ry). cbn [fst snd] in *.
    destruct (IHHR _ Ry) as (t' & ? & ?).
    exists t'. split; auto. apply height_obj in Hy. lia.
Qed.
Lemma reachl_lt : forall h v t l, repr h v t -> reachl h v l -> l < length h.
Proof.
  intros h v t l R [H|H]; destruct (repr_reach _ _ _ _ R H) as (t' & R' & _); inversion R'; subst;
    eauto using hget_lt.
Qed.
Lemma reachl_trans : forall h a b l, reach h a b -> reachl h b l -> reachl h a l.
Proof. intros h a b l H [H1|H1]; [left|right]; eapply reach_trans; eauto. Qed.
Lemma reachl_arr : forall h l a x l0, hget h l = Some (CArr a) -> In x a -> reachl h x l0 ->
  reachl h (VArr l) l0.
Proof. intros h l a x l0 H H1 [H2|H2]; [left|right]; eapply reach_arr; eauto. Qed.
Lemma reachl_obj : forall h l m k x l0, hget h l = Some (CObj m) -> In (k, x) m -> reachl h x l0 ->
  reachl h (VObj l) l0.
Proof. intros h l m k x l0 H H1 [H2|H2]; [left|right]; eapply reach_obj; eauto. Qed.
Lemma reachl_scalar : forall h v l, (forall x, v <> VArr x) -> (forall x, v <> VObj x) -> ~ reachl h v l.
Proof. intros h v l N1 N2 [H|H]; inversion H; subst; eauto; (eapply N1 + eapply N2); reflexivity. Qed.

(** A finite value does not contain itself. *)
Lemma acyclic_arr : forall h l t a x, repr h (VArr l) t -> hget h l = Some (CArr a) -> In x a -> ~ reachl h x l.
Proof.
  intros h l t a x R G Hin HR. inversion R as [| | | |? ? ? G' F|? ? ? G' F|]; subst.
  rewrite G in G'. injection G' as <-. destruct (Forall2_in_l _ _ _ _ F Hin) as (y & Hy & Ry).
  apply height_arr in Hy. destruct HR as [HR|HR]; destruct (repr_reach _ _ _ _ Ry HR) as (t' & R' & L).
  - rewrite (repr_fun _ _ _ R' _ R) in L. lia.
  - inversion R'; congruence.
Qed.
Lemma acyclic_obj : forall h l t m k x, repr h (VObj l) t -> hget h l = Some (CObj m) -> In (k, x) m ->
  ~ reachl h x l.
Proof.
  intros h l t m k x R G Hin HR. inversion R as [| | | |? ? ? G' F|? ? ? G' F|]; subst.
  rewrite G in G'. injection G' as <-. destruct (Forall2_in_l _ _ _ _ F Hin) as ([k' y] & Hy & _ & Ry). cbn [fst snd] in *.
  apply height_obj in Hy. destruct HR as [HR|HR]; destruct (repr_reach _ _ _ _ Ry HR) as (t' & R' & L).
  - inversion R'; congruence.
  - rewrite (repr_fun _ _ _ R' _ R) in L. lia.
Qed.

(** ** Framing: changing cells a value does not reach *)
Definition agree (h h1 : heap) (P : loc -> Prop) : Prop := forall l, P l -> hget h1 l = hget h l.

Lemma reach_agree : forall h h1 v w, agree h h1 (reachl h v) -> reach h v w -> reach h1 v w.
Proof.
  intros h h1 v w A H. revert A. induction H; intros A.
  - constructor.
  - eapply reach_arr; [rewrite A by (left; constructor); eauto|eauto|].
    apply IHreach. intros l0 H2. apply A. eapply reachl_arr; eauto.
  - eapply reach_obj; [rewrite A by (right; constructor); eauto|eauto|].
    apply IHreach. intros l0 H2. apply A. eapply reachl_obj; eauto.
Qed.
Lemma reach_agree_back : forall h h1 v t w, repr h v t -> agree h h1 (reachl h v) -> reach h1 v w -> reach h v w.
Proof.
  intros h h1 v t w R. revert w. induction R using repr_ind'; intros w' A HR;
    try (inversion HR; subst; constructor).
  - inversion HR as [|? a' x ? G' Hin Hr|]; subst; [constructor|].
    rewrite A, H in G' by (left; constructor). injection G' as <-.
    destruct (Forall2_in_l _ _ _ _ H1 Hin) as (y & _ & IH). eapply reach_arr; eauto. apply IH; auto.
    intros l0 H2. apply A. eapply reachl_arr; eauto.
  - inversion HR as [| |? m' k x ? G' Hin Hr]; subst; [constructor|].
    rewrite A, H in G' by (right; constructor). injection G' as <-.
    destruct (Forall2_in_l _ _ _ _ H1 Hin) as ([k' y] & _ & _ & IH). cbn [fst snd] in *. eapply reach_obj; eauto.
    apply IH; auto.
    intros l0 H2. apply A. eapply reachl_obj; eauto.
Qed.
Lemma repr_agree : forall h h1 v t, repr h v t -> agree h h1 (reachl h v) -> repr h1 v t.
Proof.
  intros h h1 v t R. induction R using repr_ind'; intros A; try constructor.
  - eapply RArr; [rewrite A by (left; constructor); eauto|].
    assert (Hs : forall x, In x a -> agree h h1 (reachl h x)).
    { intros x Hx l0 H2. apply A. eapply reachl_arr; eauto. }
    clear - H1 Hs. induction H1; constructor; [apply H|apply IHForall2]; intros; try apply Hs; cbn; auto.
  - eapply RObj; [rewrite A by (right; constructor); eauto|].
    assert (Hs : forall x, In x m -> agree h h1 (reachl h (snd x))).
    { intros [k x] Hx l0 H2. apply A. eapply reachl_obj; eauto. }
    clear - H1 Hs. induction H1 as [|? ? ? ? [E F]]; constructor; [split; auto; apply F|apply IHForall2];
      intros; try apply Hs; cbn; auto.
Qed.
Lemma agree_hset : forall h l c (P : loc -> Prop), ~ P l -> agree h (hset h l c) P.
Proof. intros h l c P N l' H. apply hget_hset_ne. intros ->. auto. Qed.
Lemma agree_hext : forall h h1 v t, repr h v t -> hext h h1 -> agree h h1 (reachl h v).
Proof.
  intros h h1 v t R E l H. pose proof (reachl_lt _ _ _ _ R H) as L.
  destruct (hget h l) eqn:G; [eapply hext_get; eauto|]. apply nth_error_None in G. lia.
Qed.

(** ** Equality on shared values *)
Lemma existsb_false : forall l lk, ~ In l lk -> existsb (Nat.eqb l) lk = false.
Proof.
  intros l lk N. destruct (existsb (Nat.eqb l) lk) eqn:E; auto.
  apply existsb_exists in E as (x & Hx & E). apply Nat.eqb_eq in E. subst. contradiction.
Qed.

Lemma veq_teq : forall n lk h a b ta tb, repr h a ta -> repr h b tb -> wf_tree ta -> wf_tree tb ->
  (forall l, In l lk -> ~ reachl h a l /\ ~ reachl h b l) ->
  height ta < n -> veq n lk h a b = Some (Ok (teq ta tb)).
Proof.
  induction n as [|n IH]; intros lk h a b ta tb Ra Rb Wa Wb Hlk Hh; [lia|].
  destruct Ra; destruct Rb; try reflexivity.
  - (* arrays *)
    cbn [veq]. destruct (Nat.eqb_spec l l0) as [->|Hne].
    { rewrite H in H1. injection H1 as <-. do 2 f_equal. symmetry.
      assert (E : repr h (VArr l0) (TArr ts)) by (eapply RArr; eauto).
      assert (E2 : repr h (VArr l0) (TArr ts0)) by (eapply RArr; eauto).
      pose proof (repr_fun _ _ _ E _ E2) as E3. injection E3 as <-. now apply teq_refl. }
    rewrite !existsb_false; cbn [orb].
    2:{ intros HI. apply Hlk in HI as [_ HI]. apply HI. left. constructor. }
    2:{ intros HI. apply Hlk in HI as [HI _]. apply HI. left. constructor. }
    rewrite (proj2 (harr_hget _ _ _) H), (proj2 (harr_hget _ _ _) H1).
    rewrite (Forall2_len _ _ _ H0), (Forall2_len _ _ _ H2).
    assert (Hsub : forall x y, In x a -> In y a0 -> forall l1, In l1 lk -> ~ reachl h x l1 /\ ~ reachl h y l1).
    { intros x y Hx Hy l1 H3. apply Hlk in H3 as [A B]. split; intros C; [apply A|apply B];
      (eapply reachl_arr; eauto). }
    assert (Hht : forall x, In x ts -> height x < n).
    { intros x Hx. apply height_arr in Hx. lia. }
    inversion Wa as [| | | | |? Wa'|]; inversion Wb as [| | | | |? Wb'|]; subst.
    clear Hh Wa Wb H H1 Hlk Hne. revert a0 ts0 H2 Wb' Hsub.
    induction H0 as [|x tx a ts Rx Ra IHa]; intros a0 ts0 H2 Wb' Hsub; destruct H2 as [|y ty a0 ts0 Ry Ra0];
      try reflexivity.
    cbn [length Nat.eqb]. inversion Wa'; inversion Wb'; subst.
    specialize (IHa ltac:(intros; apply Hht; cbn; auto) ltac:(auto) a0 ts0 Ra0 ltac:(auto)
      ltac:(intros; eapply Hsub; cbn; eauto)).
    cbn [teq]. destruct (Nat.eqb_spec (length ts) (length ts0)) as [El|El].
    + rewrite (IH lk h x y tx ty); auto; [|apply Hsub; cbn; auto|apply Hht; cbn; auto].
      cbn. destruct (teq tx ty); cbn; auto.
    + do 2 f_equal. symmetry. apply andb_false_iff. right.
      destruct ((fix go (x0 y0 : list tree) {struct x0} : bool :=
        match x0 with [] => match y0 with [] => true | _ :: _ => false end
        | a1 :: x' => match y0 with [] => false | b :: y' => teq a1 b && go x' y' end end) ts ts0) eqn:E; auto.
      exfalso. apply (teq_arr ts ts0) in E. apply Forall2_len in E. lia.
  - (* objects *)
    cbn [veq].
    rewrite !existsb_false; cbn [orb].
    2:{ intros HI. apply Hlk in HI as [_ HI]. apply HI. right. constructor. }
    2:{ intros HI. apply Hlk in HI as [HI _]. apply HI. right. constructor. }
    rewrite (proj2 (hobj_hget _ _ _) H), (proj2 (hobj_hget _ _ _) H1).
    rewrite (Forall2_len _ _ _ H0), (Forall2_len _ _ _ H2).
    cbn [teq]. destruct (Nat.eqb_spec (length ts) (length ts0)) as [El|El]; [|reflexivity]. cbn [andb].
    assert (Hsub : forall k x k' y, In (k, x) m -> In (k', y) m0 ->
      forall l1, In l1 lk -> ~ reachl h x l1 /\ ~ reachl h y l1).
    { intros k x k' y Hx Hy l1 H3. apply Hlk in H3 as [A B]. split; intros C; [apply A|apply B];
      (eapply reachl_obj; eauto). }
    assert (Hht : forall k x, In (k, x) ts -> height x < n).
    { intros k x Hx. apply height_obj in Hx. lia. }
    inversion Wa as [| | | | | |? _ Wa']; inversion Wb as [| | | | | |? _ Wb']; subst.
    rewrite Forall_forall in Wb'.
    clear Hh Wa Wb H H1 Hlk El.
    assert (Hg : forall k, match aget k m0, aget k ts0 with
                  | Some y, Some ty => repr h y ty /\ In (k, y) m0 /\ In (k, ty) ts0
                  | None, None => True
                  | _, _ => False
                  end).
    { clear - H2. intros k. induction H2 as [|[k1 y] [k2 ty] m0 ts0 [E R] F IH]; cbn; auto.
      cbn in E, R. subst. destruct (String.eqb_spec k2 k) as [->|]; [cbn; auto|].
      destruct (aget k m0), (aget k ts0); cbn; tauto. }
    induction H0 as [|[k1 x] [k2 tx] m ts [E R] F IHm]; [reflexivity|].
    cbn in E, R. subst. inversion Wa'; subst. specialize (Hg k2) as Hg2.
    destruct (aget k2 m0) as [y|], (aget k2 ts0) as [ty|]; try contradiction; auto.
    destruct Hg2 as (Ry & Hiny & Hinty).
    rewrite (IH lk h x y tx ty); auto.
    + destruct (teq tx ty); cbn [andb]; auto. apply IHm; auto.
      * intros. eapply Hsub; cbn; eauto.
      * intros. eapply Hht. cbn; eauto.
    + apply (Wb' (k2, ty)); auto.
    + eapply Hsub; cbn; eauto.
    + eapply Hht. cbn; eauto.
Qed.

(** ** deep_clone *)
Definition all_fresh (h h1 : heap) (v : value) : Prop := forall l, reachl h1 v l -> length h <= l.

Lemma reachl_back : forall h h1 v t l, repr h v t -> hext h h1 -> reachl h1 v l -> reachl h v l.
Proof. intros h h1 v t l R E [H|H]; [left|right]; eapply reach_back; eauto. Qed.

Lemma disj_hext_arr : forall h h1 vs ts, hext h h1 -> Forall2 (repr h) vs ts ->
  ForallOrdPairs (disj h) vs -> ForallOrdPairs (disj h1) vs.
Proof.
  intros h h1 vs ts E F P. induction F; inversion P; subst; constructor; auto.
  rewrite Forall_forall in *. intros z Hz lz A B.
  destruct (Forall2_in_l _ _ _ _ F Hz) as (? & _ & ?).
  apply (H2 z Hz lz); eapply reachl_back; eauto.
Qed.
Lemma disj_hext_obj : forall h h1 vs ts, hext h h1 ->
  Forall2 (fun (kv : string * value) (kt : string * tree) => fst kv = fst kt /\ repr h (snd kv) (snd kt)) vs ts ->
  ForallOrdPairs (disj h) (map snd vs) -> ForallOrdPairs (disj h1) (map snd vs).
Proof.
  intros h h1 vs ts E F P.
  assert (F' : Forall2 (repr h) (map snd vs) (map snd ts)).
  { clear P. induction F as [|? ? ? ? [_ R]]; cbn; constructor; auto. }
  eapply disj_hext_arr; eauto.
Qed.
Lemma tshape_hext : forall h h1 v t, repr h v t -> hext h h1 -> tshape h v -> tshape h1 v.
Proof.
  intros h h1 v t R E. induction R using repr_ind'; intros S; inversion S as [| | | | |? ? G P F|? ? G P F];
    subst; try constructor.
  - rewrite H in G. injection G as <-. eapply SArr; [eapply hext_get; eauto| |].
    + eapply disj_hext_arr; eauto.
    + clear - H1 F. induction H1; inversion F; subst; constructor; auto.
  - rewrite H in G. injection G as <-. eapply SObj; [eapply hext_get; eauto| |].
    + eapply disj_hext_obj; eauto.
    + clear - H1 F. induction H1 as [|? ? ? ? [_ IH]]; inversion F; subst; constructor; auto.
Qed.
Lemma tshape_hext_arr : forall h h1 vs ts, hext h h1 -> Forall2 (repr h) vs ts ->
  Forall (tshape h) vs -> Forall (tshape h1) vs.
Proof. intros h h1 vs ts E F P. induction F; inversion P; subst; constructor; eauto using tshape_hext. Qed.
Lemma tshape_hext_obj : forall h h1 vs ts, hext h h1 ->
  Forall2 (fun (kv : string * value) (kt : string * tree) => fst kv = fst kt /\ repr h (snd kv) (snd kt)) vs ts ->
  Forall (fun kv => tshape h (snd kv)) vs -> Forall (fun kv => tshape h1 (snd kv)) vs.
Proof.
  intros h h1 vs ts E F P. induction F as [|? ? ? ? [_ R]]; inversion P; subst; constructor;
    eauto using tshape_hext.
Qed.

Lemma deep_clone_ok : forall n h v t, repr h v t -> height t < n ->
  exists h1 v1, deep_clone n h v = Some (h1, v1) /\ hext h h1 /\ repr h1 v1 t /\ all_fresh h h1 v1 /\
    tshape h1 v1.
Proof.
  induction n as [|n IH]; intros h v t R Hn; [lia|].
  assert (Hs : forall w, (forall l, w <> VArr l) -> (forall l, w <> VObj l) -> all_fresh h h w)
    by (intros w N1 N2 l HR; exfalso; eapply reachl_scalar; eauto).
  destruct R; cbn [deep_clone];
    try (eexists; eexists; split; [reflexivity|]; split; [apply hext_refl|]; split; [constructor|];
         split; [apply Hs; congruence|constructor]).
  - rewrite (proj2 (harr_hget _ _ _) H).
    match goal with |- context [match ?f h a with _ => _ end] => set (go := f) end.
    assert (G : forall h0, hext h h0 -> exists h1 vs, go h0 a = Some (h1, vs) /\ hext h0 h1 /\
      Forall2 (repr h1) vs ts /\ (forall x, In x vs -> all_fresh h0 h1 x) /\
      ForallOrdPairs (disj h1) vs /\ Forall (tshape h1) vs).
    { assert (Hht : forall x, In x ts -> height x < n) by (intros x Hx; apply height_arr in Hx; lia).
      clear H Hn. induction H0 as [|x tx a ts Rx Ra IHa]; intros h0 He.
      - exists h0, []. repeat split; try constructor; try apply hext_refl. intros ? [].
      - destruct (IH h0 x tx) as (h1 & y & E1 & X1 & R1 & F1 & T1);
          [eapply repr_hext; eauto|apply Hht; cbn; auto|].
        destruct (IHa ltac:(intros; apply Hht; cbn; auto) h1) as (h2 & ys & E2 & X2 & R2 & F2 & P2 & T2);
          [eapply hext_trans; eauto|].
        exists h2, (y :: ys). unfold go. cbn. rewrite E1. fold go. rewrite E2.
        split; [reflexivity|]. split; [eapply hext_trans; eauto|].
        split; [constructor; auto; eapply repr_hext; eauto|].
        split.
        { intros z [<-|Hz] lz HR.
          - eapply F1. eapply reachl_back; eauto.
          - specialize (F2 z Hz lz HR). apply hext_length in X1. lia. }
        split.
        { constructor; auto. rewrite Forall_forall. intros z Hz lz HR1 HR2.
          specialize (F2 z Hz lz HR2).
          eapply reachl_back in HR1; eauto. eapply reachl_lt in HR1; eauto. lia. }
        constructor; auto. eapply tshape_hext; eauto. }
    destruct (G h (hext_refl _)) as (h1 & vs & E & X & F & Fr & P & T). rewrite E. clear go G E.
    unfold new_arr, halloc. eexists; eexists; split; [reflexivity|].
    assert (RR : repr (h1 ++ [CArr vs]) (VArr (length h1)) (TArr ts)).
    { eapply RArr; [apply hget_alloc_new|]. eapply Forall2_imp; [|exact F].
      intros; eapply repr_hext; eauto using hext_alloc. }
    split; [eapply hext_trans; eauto using hext_alloc|]. split; [exact RR|]. split.
    + intros lz HR.
      assert (D : lz = length h1 \/ exists x, In x vs /\ reachl (h1 ++ [CArr vs]) x lz).
      { destruct HR as [HR|HR]; inversion HR as [|? a' x ? G' Hin Hr|]; subst; auto;
          rewrite hget_alloc_new in G'; injection G' as <-; right; exists x; split; auto;
          [left|right]; auto. }
      destruct D as [->|(x & Hx & HR')]; [apply hext_length in X; lia|].
      destruct (Forall2_in_l _ _ _ _ F Hx) as (tx & _ & Rx).
      eapply reachl_back in HR'; eauto using hext_alloc. eapply Fr; eauto.
    + eapply SArr; [apply hget_alloc_new| |].
      * eapply disj_hext_arr; eauto using hext_alloc.
      * eapply tshape_hext_arr; eauto using hext_alloc.
  - rewrite (proj2 (hobj_hget _ _ _) H).
    match goal with |- context [match ?f h m with _ => _ end] => set (go := f) end.
    assert (G : forall h0, hext h h0 -> exists h1 vs, go h0 m = Some (h1, vs) /\ hext h0 h1 /\
      Forall2 (fun kv kt => fst kv = fst kt /\ repr h1 (snd kv) (snd kt)) vs ts /\
      (forall k x, In (k, x) vs -> all_fresh h0 h1 x) /\
      ForallOrdPairs (disj h1) (map snd vs) /\ Forall (fun kv => tshape h1 (snd kv)) vs).
    { assert (Hht : forall k x, In (k, x) ts -> height x < n) by (intros k x Hx; apply height_obj in Hx; lia).
      clear H Hn. induction H0 as [|[k x] [k2 tx] m ts [Ek Rx] Ra IHa]; intros h0 He.
      - exists h0, []. repeat split; try constructor; try apply hext_refl. intros ? ? [].
      - cbn in Ek, Rx. subst k2. destruct (IH h0 x tx) as (h1 & y & E1 & X1 & R1 & F1 & T1);
          [eapply repr_hext; eauto|eapply Hht; cbn; eauto|].
        destruct (IHa ltac:(intros; eapply Hht; cbn; eauto) h1) as (h2 & ys & E2 & X2 & R2 & F2 & P2 & T2);
          [eapply hext_trans; eauto|].
        exists h2, ((k, y) :: ys). unfold go. cbn. rewrite E1. fold go. rewrite E2.
        split; [reflexivity|]. split; [eapply hext_trans; eauto|].
        split; [constructor; auto; cbn; split; auto; eapply repr_hext; eauto|].
        split.
        { intros k' z [Ez|Hz] lz HR.
          - injection Ez as <- <-. eapply F1. eapply reachl_back; eauto.
          - specialize (F2 k' z Hz lz HR). apply hext_length in X1. lia. }
        split.
        { constructor; auto. rewrite Forall_forall. intros z Hz lz HR1 HR2.
          apply in_map_iff in Hz as ([k' z'] & <- & Hz). cbn in HR2.
          specialize (F2 k' z' Hz lz HR2).
          eapply reachl_back in HR1; eauto. eapply reachl_lt in HR1; eauto. lia. }
        constructor; auto. cbn. eapply tshape_hext; eauto. }
    destruct (G h (hext_refl _)) as (h1 & vs & E & X & F & Fr & P & T). rewrite E. clear go G E.
    unfold new_obj, halloc. eexists; eexists; split; [reflexivity|].
    assert (RR : repr (h1 ++ [CObj vs]) (VObj (length h1)) (TObj ts)).
    { eapply RObj; [apply hget_alloc_new|]. eapply Forall2_imp; [|exact F].
      intros ? ? [? ?]; split; auto; eapply repr_hext; eauto using hext_alloc. }
    split; [eapply hext_trans; eauto using hext_alloc|]. split; [exact RR|]. split.
    + intros lz HR.
      assert (D : lz = length h1 \/ exists k x, In (k, x) vs /\ reachl (h1 ++ [CObj vs]) x lz).
      { destruct HR as [HR|HR]; inversion HR as [| |? a' k x ? G' Hin Hr]; subst; auto;
          rewrite hget_alloc_new in G'; injection G' as <-; right; exists k, x; split; auto;
          [left|right]; auto. }
      destruct D as [->|(k & x & Hx & HR')]; [apply hext_length in X; lia|].
      destruct (Forall2_in_l _ _ _ _ F Hx) as (tx & _ & _ & Rx). cbn in Rx.
      eapply reachl_back in HR'; eauto using hext_alloc. eapply Fr; eauto.
    + eapply SObj; [apply hget_alloc_new| |].
      * eapply disj_hext_obj; eauto using hext_alloc.
      * eapply tshape_hext_obj; eauto using hext_alloc.
Qed.

(** ** merge_clone *)
(** Entries of a heap object against the entries of a specification object, up to equality. *)
Definition rel (h : heap) (m : amap value) (tm : list (string * tree)) : Prop :=
  Forall2 (fun kv kt => fst kv = fst kt /\
    exists t, repr h (snd kv) t /\ wf_tree t /\ teq t (snd kt) = true) m tm.
Definition entries (h : heap) (m : amap value) (ts : list (string * tree)) : Prop :=
  Forall2 (fun kv kt => fst kv = fst kt /\ repr h (snd kv) (snd kt)) m ts.

Lemma rel_hext : forall h h1 m tm, hext h h1 -> rel h m tm -> rel h1 m tm.
Proof.
  intros h h1 m tm E. apply Forall2_imp. intros a b [E1 (t & R & W & T)]. split; auto.
  exists t. eauto using repr_hext.
Qed.
Lemma rel_keys : forall h m tm, rel h m tm -> map fst m = map fst tm.
Proof. intros h m tm R. induction R as [|? ? ? ? [E _]]; cbn; congruence. Qed.
Lemma entries_keys : forall h m tm, entries h m tm -> map fst m = map fst tm.
Proof. intros h m tm R. induction R as [|? ? ? ? [E _]]; cbn; congruence. Qed.
Lemma rel_entries : forall h m tm, rel h m tm -> exists ts, entries h m ts /\ same_entries ts tm /\
  Forall (fun kv => wf_tree (snd kv)) ts.
Proof.
  intros h m tm R. induction R as [|[k x] [k2 y] m tm [E (t & R1 & W & T)] R (ts & A & B & C)].
  - exists []. repeat constructor.
  - cbn in *. subst. exists ((k2, t) :: ts). repeat split; constructor; cbn; auto.
Qed.
Lemma entries_rel : forall h m ts, wf_tree (TObj ts) -> entries h m ts -> rel h m ts.
Proof.
  intros h m ts W E. inversion W as [| | | | | |? _ F]; subst. clear W.
  induction E as [|? y ? ? [E R] E' IH]; [constructor|]. inversion F; subst. constructor.
  - split; auto. exists (snd y). auto using teq_refl.
  - now apply IH.
Qed.
Lemma rel_aset : forall h m tm k v t t', rel h m tm -> repr h v t -> wf_tree t -> teq t t' = true ->
  rel h (aset k v m) (aset k t' tm).
Proof.
  intros h m tm k v t t' R Rv W T.
  induction R as [|[k1 x] [k2 y] m tm [E (u & R1 & W1 & T1)] R IH].
  - constructor; [|constructor]. cbn. eauto.
  - cbn in *. subst. destruct (String.eqb k2 k) eqn:E; constructor; cbn; eauto.
Qed.
Lemma rel_adel : forall h m tm k, rel h m tm -> rel h (adel k m) (adel k tm).
Proof.
  intros h m tm k R. induction R as [|[k1 x] [k2 y] m tm [E (u & R1 & W1 & T1)] R IH].
  - constructor.
  - cbn in *. subst. destruct (String.eqb k2 k) eqn:E; auto. constructor; cbn; eauto.
Qed.
Lemma entries_get : forall h m ts k, entries h m ts ->
  match aget k m, aget k ts with
  | Some x, Some t => repr h x t /\ In (k, x) m /\ In (k, t) ts
  | None, None => True
  | _, _ => False
  end.
Proof.
  intros h m ts k E. induction E as [|[k1 x] [k2 y] m tm [E1 R1] E IH]; cbn; auto.
  cbn in *. subst. destruct (String.eqb_spec k2 k) as [->|]; [cbn; auto|].
  destruct (aget k m), (aget k tm); cbn; tauto.
Qed.
Lemma repr_rel : forall h l m tm, hget h l = Some (CObj m) -> NoDup (map fst tm) -> rel h m tm ->
  exists t, repr h (VObj l) t /\ wf_tree t /\ teq t (TObj tm) = true.
Proof.
  intros h l m tm G N R. destruct (rel_entries _ _ _ R) as (ts & E & S & W).
  exists (TObj ts). pose proof (same_keys _ _ S) as K.
  split; [eapply RObj; eauto|]. split; [constructor; auto; congruence|]. apply teq_same; auto. congruence.
Qed.

Lemma value_null_dec : forall x, x = VNull \/ x <> VNull.
Proof. destruct x; auto; right; congruence. Qed.
Lemma share_ok_sub : forall h h0 ld lp m pm k k' x y td tp, repr h (VObj ld) td -> repr h (VObj lp) tp ->
  hext h h0 -> share_ok h (VObj ld) (VObj lp) -> hget h ld = Some (CObj m) -> hget h lp = Some (CObj pm) ->
  In (k, x) m -> In (k', y) pm -> share_ok h0 x y.
Proof.
  intros h h0 ld lp m pm k k' x y td tp Rd Rp E S Gd Gp Hx Hy l t H1 H2 R.
  assert (exists tx, repr h x tx) as [tx Rx].
  { inversion Rd as [| | | | |? ? ? G F|]; subst. rewrite Gd in G. injection G as <-.
    destruct (Forall2_in_l _ _ _ _ F Hx) as ([? tx] & _ & _ & ?). eauto. }
  assert (exists ty, repr h y ty) as [ty Ry].
  { inversion Rp as [| | | | |? ? ? G F|]; subst. rewrite Gp in G. injection G as <-.
    destruct (Forall2_in_l _ _ _ _ F Hy) as ([? ty] & _ & _ & ?). eauto. }
  apply (reach_back _ _ _ _ _ Rx E) in H1. apply (reach_back _ _ _ _ _ Ry E) in H2.
  destruct (repr_reach _ _ _ _ Rx H1) as (t1 & R1 & _).
  rewrite <- (repr_fun _ _ _ (repr_hext _ _ _ _ E R1) _ R).
  eapply S; eauto; eapply reach_obj; eauto.
Qed.
Lemma share_ok_null : forall h y, share_ok h VNull y.
Proof. intros h y l t H. inversion H. Qed.

Lemma merge_cow_ok : forall n h doc patch td tp top,
  repr h doc td -> repr h patch tp -> wf_tree td -> wf_tree tp -> share_ok h doc patch ->
  S (height td + height tp) < n ->
  exists h1 v c t', merge_cow n h doc patch top = Some (h1, v, c) /\ hext h h1 /\ repr h1 v t' /\
    wf_tree t' /\ teq t' (if top then tmerge_top td tp else tmerge td tp) = true /\ (c = false -> v = doc).
Proof.
  induction n as [|n IH]; intros h doc patch td tp top Rd Rp Wd Wp Sh Hn; [lia|].
  assert (Hkeep : forall X, teq td X = true ->
    exists h1 v c t', Some (h, doc, false) = Some (h1, v, c) /\ hext h h1 /\ repr h1 v t' /\ wf_tree t' /\
      teq t' X = true /\ (c = false -> v = doc)).
  { intros X HX. exists h, doc, false, td. repeat split; auto using hext_refl. }
  assert (Hrep : exists h1 v c t', Some (h, patch, true) = Some (h1, v, c) /\ hext h h1 /\ repr h1 v t' /\
      wf_tree t' /\ teq t' tp = true /\ (c = false -> v = doc)).
  { exists h, patch, true, tp. repeat split; auto using hext_refl, teq_refl. congruence. }
  assert (Hveq : forall X, tp = X -> exists h1 v c t',
     match veq n [] h doc patch with
     | Some (Ok true) => Some (h, doc, false)
     | Some (Ok false) => Some (h, patch, true)
     | _ => None
     end = Some (h1, v, c) /\ hext h h1 /\ repr h1 v t' /\ wf_tree t' /\
      teq t' X = true /\ (c = false -> v = doc)).
  { intros X <-. rewrite (veq_teq n [] h doc patch td tp Rd Rp Wd Wp); [| intros ? [] | lia].
    destruct (teq td tp) eqn:Et; auto. }
  assert (Hnull : forall dv, repr h dv td -> True) by auto.
  destruct patch as [| | | |lp|lp|].
  - inversion Rp; subst. destruct top; cbn [merge_cow]; [apply Hkeep, teq_refl; auto|].
    destruct doc; apply Hveq; reflexivity.
  - inversion Rp; subst. destruct top; cbn [merge_cow]; [apply Hkeep, teq_refl; auto|].
    destruct doc; apply Hveq; reflexivity.
  - inversion Rp; subst. destruct top; cbn [merge_cow]; [apply Hkeep, teq_refl; auto|].
    destruct doc; apply Hveq; reflexivity.
  - inversion Rp; subst. destruct top; cbn [merge_cow]; [apply Hkeep, teq_refl; auto|].
    destruct doc; apply Hveq; reflexivity.
  - inversion Rp; subst. destruct top; cbn [merge_cow]; [exact Hrep|].
    destruct doc; apply Hveq; reflexivity.
  - inversion Rp as [| | | | |? pm tpm Gp Ep|]; subst.
    assert (Hspec : (if top then tmerge_top td (TObj tpm) else tmerge td (TObj tpm)) = tmerge td (TObj tpm))
      by (destruct top; reflexivity).
    rewrite Hspec. clear Hspec. cbn [merge_cow].
    destruct doc as [| | | | |ld|];
      try (inversion Rd; subst; destruct top; apply Hveq; reflexivity).
    assert (Hc : exists h1 v c t',
      (if Nat.eqb ld lp then Some (h, VObj ld, false) else
              match hobj h ld, hobj h lp with
              | Some dm, Some pm =>
                  match (fix go h m changed pm :=
                     match pm with
                     | [] => Some (h, m, changed)
                     | (k, VNull) :: r =>
                         go h (adel k m) (changed || amem k m) r
                     | (k, x) :: r =>
                         let entry := match aget k m with Some e => e | None => VNull end in
                         match merge_cow n h entry x false with
                         | Some (h1, e', c) => go h1 (aset k e' m) (changed || c) r
                         | None => None
                         end
                     end) h dm false pm with
                  | Some (h1, m', true) =>
                      let (h2, v) := new_obj h1 m' in Some (h2, v, true)
                  | Some (h1, _, false) => Some (h1, VObj ld, false)
                  | None => None
                  end
              | _, _ => None
              end) = Some (h1, v, c) /\ hext h h1 /\ repr h1 v t' /\
       wf_tree t' /\ teq t' (tmerge td (TObj tpm)) = true /\ (c = false -> v = VObj ld)).
    2:{ destruct top; exact Hc. }
    destruct (Nat.eqb_spec ld lp) as [->|Hne].
    { pose proof (repr_fun _ _ _ Rd _ Rp) as ->. apply Hkeep.
      rewrite tmerge_self; auto using teq_refl.
      eapply Sh; eauto; constructor. }
    inversion Rd as [| | | | |? dm tdm Gd Ed|]; subst.
    rewrite (proj2 (hobj_hget _ _ _) Gd), (proj2 (hobj_hget _ _ _) Gp). rewrite tmerge_obj.
    match goal with |- context [match ?f h dm false pm with _ => _ end] => set (go := f) end.
    assert (Loop : forall r tr h0 m changed tm, entries h r tr -> incl r pm -> incl tr tpm ->
      hext h h0 -> rel h0 m tm -> wf_tree (TObj tm) -> NoDup (map fst tr) -> (changed = false -> m = dm) ->
      (forall k, In k (map fst tr) -> aget k m = aget k dm /\ aget k tm = aget k tdm) ->
      exists h1 m' c', go h0 m changed r = Some (h1, m', c') /\ hext h0 h1 /\
        rel h1 m' (tmerge_entries tr tm) /\ (c' = false -> m' = dm)).
    { clear Hkeep Hrep Hveq.
      induction r as [|[k x] r IHr]; intros tr h0 m changed tm Er Ir Itr He Rm Wm Nr Hc Hun;
        inversion Er as [|? [k2 p] ? tr' [Ek Rx] Er']; subst.
      - exists h0, m, changed. repeat split; auto using hext_refl.
      - cbn in Ek, Rx. subst k2. inversion Nr as [|? ? Nk Nr']; subst. cbn [map fst] in *.
        assert (Hxin : In (k, x) pm) by (apply Ir; cbn; auto).
        assert (Hpin : In (k, p) tpm) by (apply Itr; cbn; auto).
        assert (Ir' : incl r pm) by (intros z Hz; apply Ir; cbn; auto).
        assert (Itr' : incl tr' tpm) by (intros z Hz; apply Itr; cbn; auto).
        destruct (Hun k (or_introl eq_refl)) as [Hk1 Hk2].
        destruct (value_null_dec x) as [->|Hxn].
        + inversion Rx; subst. cbn [tmerge_entries].
          destruct (IHr tr' h0 (adel k m) (changed || amem k m)%bool (adel k tm)) as (h1 & m' & c' & A & B & C & D);
            auto using rel_adel, wf_adel.
          * intros Hcc. apply orb_false_iff in Hcc as [C1 C2]. rewrite (Hc C1) in *.
            unfold amem in C2. destruct (aget k dm) eqn:E; [discriminate|]. now apply adel_noop.
          * intros k' Hk'. assert (k <> k') by (intros ->; contradiction).
            rewrite !aget_adel_ne by auto. apply Hun. now right.
          * exists h1, m', c'. auto.
        + assert (Hpn : p <> TNull) by (intros ->; inversion Rx; subst; congruence).
          set (entry := match aget k m with Some e => e | None => VNull end).
          set (te := or_tnull (aget k tdm)).
          pose proof (entries_get _ _ _ k Ed) as Hg.
          assert (Hentry : repr h entry te /\ wf_tree te /\ height te <= pred (height (TObj tdm)) /\ share_ok h0 entry x).
          { unfold entry, te. rewrite Hk1. destruct (aget k dm) as [e|], (aget k tdm) as [et|] eqn:Et; try contradiction.
            - destruct Hg as (A & B & C). cbn [or_tnull]. split; auto.
              split; [eapply wf_get; eauto|]. split; [apply height_obj in C; lia|].
              apply (share_ok_sub h h0 ld lp dm pm k k e x _ _ Rd Rp He Sh Gd Gp B Hxin).
            - cbn. split; [constructor|]. split; [constructor|]. split; [lia|apply share_ok_null]. }
          destruct Hentry as (Re & We & He1 & Se).
          destruct (IH h0 entry x te p false) as (h1 & e' & c & t' & E & X & R1 & W1 & T1 & C1);
            eauto using repr_hext.
          { inversion Wp as [| | | | | |? ? F]; subst. rewrite Forall_forall in F. apply (F (k, p)); auto. }
          { apply height_obj in Hpin. assert (0 < height (TObj tdm)) by (cbn; lia). lia. }
          destruct (IHr tr' h1 (aset k e' m) (changed || c)%bool (aset k (tmerge te p) tm))
            as (h2 & m' & c' & A & B & C & D); auto.
          * eapply hext_trans; eauto.
          * eapply rel_aset; eauto using rel_hext.
          * apply wf_aset; auto. apply wf_tmerge; auto.
            inversion Wp as [| | | | | |? ? F]; subst. rewrite Forall_forall in F. apply (F (k, p)); auto.
          * intros Hcc. apply orb_false_iff in Hcc as [C1' C2']. rewrite (C1 C2'). pose proof (Hc C1'). subst m.
            unfold entry. destruct (aget k dm) eqn:Eg; [now apply aset_same|].
            (* a missing key cannot be unchanged *)
            exfalso. unfold entry in *. clear - E Hxn C2' Rx. subst c.
            destruct n; [discriminate|]. destruct x; cbn in E; try congruence;
              destruct n; cbn in E; congruence.
          * intros k' Hk'. assert (k <> k') by (intros ->; contradiction).
            rewrite !aget_aset_ne by auto. apply Hun. now right.
          * exists h2, m', c'. split; [|split; [eapply hext_trans; eauto|split; [|auto]]].
            -- rewrite <- A. unfold go at 1. fold go. fold entry.
               destruct x; try congruence; rewrite E; reflexivity.
            -- cbn [tmerge_entries]. rewrite Hk2. fold te.
               destruct p; try congruence; exact C. }
    destruct (Loop pm tpm h dm false tdm) as (h1 & m' & c' & A & B & C & D); auto using incl_refl, hext_refl.
    { now apply entries_rel. }
    { inversion Wp; auto. }
    rewrite A. destruct c'.
    + unfold new_obj, halloc.
      assert (Nd : NoDup (map fst (tmerge_entries tpm tdm))).
      { pose proof (wf_tmerge (TObj tpm) (TObj tdm) Wd Wp) as W2. rewrite tmerge_obj in W2. now inversion W2. }
      destruct (repr_rel (h1 ++ [CObj m']) (length h1) m' _ (hget_alloc_new _ _) Nd) as (t & R & W & T).
      { eapply rel_hext; eauto using hext_alloc. }
      exists (h1 ++ [CObj m']), (VObj (length h1)), true, t. split; [reflexivity|].
      split; [eapply hext_trans; eauto using hext_alloc|]. repeat split; auto. congruence.
    + exists h1, (VObj ld), false, (TObj tdm). specialize (D eq_refl). subst m'.
      split; [reflexivity|]. split; [auto|]. split; [eapply repr_hext; eauto|]. split; [auto|]. split; [|auto].
      destruct (rel_entries _ _ _ C) as (ts & F & S & W).
      assert (Rts : repr h1 (VObj ld) (TObj ts)) by (eapply RObj; eauto using hext_get).
      assert (Rtd : repr h1 (VObj ld) (TObj tdm)) by (eapply repr_hext; eauto).
      pose proof (repr_fun _ _ _ Rts _ Rtd) as E2. injection E2 as ->.
      apply teq_same; auto. inversion Wd; auto.
  - inversion Rp; subst. destruct top; cbn [merge_cow]; [apply Hkeep, teq_refl; auto|].
    destruct doc; apply Hveq; reflexivity.
Qed.

(** ** In-place merge *)
Lemma reachl_agree : forall h h1 v l, agree h h1 (reachl h v) -> reachl h v l -> reachl h1 v l.
Proof. intros h h1 v l A [H|H]; [left|right]; eapply reach_agree; eauto. Qed.
Lemma reachl_agree_back : forall h h1 v t l, repr h v t -> agree h h1 (reachl h v) -> reachl h1 v l -> reachl h v l.
Proof. intros h h1 v t l R A [H|H]; [left|right]; eapply reach_agree_back; eauto. Qed.
Lemma tshape_agree : forall h h1 v t, repr h v t -> agree h h1 (reachl h v) -> tshape h v -> tshape h1 v.
Proof.
  intros h h1 v t R. induction R using repr_ind'; intros A S; inversion S as [| | | | |? ? G P F|? ? G P F];
    subst; try constructor.
  - rewrite H in G. injection G as <-.
    assert (Hs : forall x, In x a -> agree h h1 (reachl h x)).
    { intros x Hx l0 H2. apply A. eapply reachl_arr; eauto. }
    eapply SArr; [rewrite A by (left; constructor); eauto| |].
    + clear - P H0 Hs. induction H0; inversion P; subst; constructor; auto.
      * rewrite Forall_forall in *. intros z Hz lz B C.
        destruct (Forall2_in_l _ _ _ _ H0 Hz) as (? & _ & ?).
        apply (H3 z Hz lz); eapply reachl_agree_back; eauto; apply Hs; cbn; auto.
      * apply IHForall2; auto. intros; apply Hs; cbn; auto.
    + clear - H1 F Hs. induction H1; inversion F; subst; constructor; auto.
      * apply H; auto. apply Hs. cbn; auto.
      * apply IHForall2; auto. intros; apply Hs; cbn; auto.
  - rewrite H in G. injection G as <-.
    assert (Hs : forall x, In x m -> agree h h1 (reachl h (snd x))).
    { intros [k x] Hx l0 H2. apply A. eapply reachl_obj; eauto. }
    eapply SObj; [rewrite A by (right; constructor); eauto| |].
    + clear - P H0 Hs. induction H0 as [|? ? ? ? [_ R] H0 IHF]; cbn [map] in *; inversion P as [|? ? H3 P']; subst; constructor; auto.
      * rewrite Forall_forall in *. intros z Hz lz B C.
        pose proof Hz as Hz0. apply in_map_iff in Hz as (z' & <- & Hz).
        destruct (Forall2_in_l _ _ _ _ H0 Hz) as (? & _ & _ & ?).
        apply (H3 _ Hz0 lz); eapply reachl_agree_back; eauto; apply Hs; cbn; auto.
      * apply IHF; auto. intros; apply Hs; cbn; auto.
    + clear - H1 F Hs. induction H1 as [|? ? ? ? [_ H] H1 IHF]; inversion F; subst; constructor; auto.
      * apply H; auto. apply Hs. cbn; auto.
      * apply IHF; auto. intros; apply Hs; cbn; auto.
Qed.

Lemma disj_sym : forall h a b, disj h a b -> disj h b a.
Proof. intros h a b D l H1 H2. eapply D; eauto. Qed.
Lemma pairs_disj : forall h (m : amap value) k x k' y, NoDup (map fst m) -> ForallOrdPairs (disj h) (map snd m) ->
  In (k, x) m -> In (k', y) m -> k <> k' -> disj h x y.
Proof.
  induction m as [|[k0 z] r IH]; intros k x k' y N P Hx Hy Hne; [contradiction|].
  inversion N; inversion P as [|? ? F P']; subst. cbn in *. rewrite Forall_forall in F.
  assert (Hin : forall k1 w, In (k1, w) r -> In w (map snd r)).
  { intros k1 w Hw. change w with (snd (k1, w)). now apply in_map. }
  destruct Hx as [Ex|Hx], Hy as [Ey|Hy].
  - congruence.
  - injection Ex as <- <-. apply F; eauto.
  - injection Ey as <- <-. apply disj_sym. apply F; eauto.
  - eapply IH; eauto.
Qed.

Lemma rel_frame : forall h h2 (m : amap value) tm,
  (forall k x, In (k, x) m -> agree h h2 (reachl h x)) -> rel h m tm -> rel h2 m tm.
Proof.
  intros h h2 m tm Hf R. induction R as [|[k1 x] [k2 y] m tm [E (t & R1 & W & T)] R IH]; constructor.
  - split; auto. exists t. split; auto. eapply repr_agree; eauto. eapply Hf. cbn; eauto.
  - apply IH. intros. eapply Hf. cbn; eauto.
Qed.
Lemma rel_aset_frame : forall h h2 (m : amap value) tm k v t t', NoDup (map fst m) ->
  (forall k' x, In (k', x) m -> k' <> k -> agree h h2 (reachl h x)) -> rel h m tm ->
  repr h2 v t -> wf_tree t -> teq t t' = true -> rel h2 (aset k v m) (aset k t' tm).
Proof.
  intros h h2 m tm k v t t' N Hf R Rv W T.
  induction R as [|[k1 x] [k2 y] m tm [E (u & R1 & W1 & T1)] R IH].
  - constructor; [|constructor]. cbn. eauto.
  - cbn in E. subst k2. inversion N; subst. cbn in *.
    destruct (String.eqb_spec k1 k) as [->|Hne].
    + constructor; [cbn; eauto|]. eapply rel_frame; [|exact R].
      intros k' x' Hin. eapply Hf; eauto. intros ->. apply H1. now apply in_keys in Hin.
    + constructor.
      * cbn. split; auto. exists u. split; auto. eapply repr_agree; eauto.
      * apply IH; auto. intros. eapply Hf; eauto.
Qed.
Lemma rel_adel_frame : forall h h2 (m : amap value) tm k, NoDup (map fst m) ->
  (forall k' x, In (k', x) m -> k' <> k -> agree h h2 (reachl h x)) -> rel h m tm ->
  rel h2 (adel k m) (adel k tm).
Proof.
  intros h h2 m tm k N Hf R.
  induction R as [|[k1 x] [k2 y] m tm [E (u & R1 & W1 & T1)] R IH].
  - constructor.
  - cbn in E. subst k2. inversion N; subst. cbn in *.
    destruct (String.eqb_spec k1 k) as [->|Hne].
    + eapply rel_frame; [|exact R].
      intros k' x' Hin. eapply Hf; eauto. intros ->. apply H1. now apply in_keys in Hin.
    + constructor.
      * cbn. split; auto. exists u. split; auto. eapply repr_agree; eauto.
      * apply IH; auto. intros. eapply Hf; eauto.
Qed.
Lemma aset_aset : forall {V} k (a b : V) m, aset k b (aset k a m) = aset k b m.
Proof.
  induction m as [|[k' v] r IH]; cbn.
  - now rewrite String.eqb_refl.
  - destruct (String.eqb k' k) eqn:E; cbn; rewrite E; congruence.
Qed.
Lemma rel_in : forall h m tm k x, rel h m tm -> In (k, x) m -> exists t, repr h x t.
Proof.
  intros h m tm k x R H. destruct (Forall2_in_l _ _ _ _ R H) as (y & _ & _ & t & ? & _). eauto.
Qed.
Lemma aset_in_ne : forall {V} k (v : V) m k' x, NoDup (map fst m) ->
  In (k', x) (aset k v m) -> (k' = k /\ x = v) \/ (k' <> k /\ In (k', x) m).
Proof.
  intros V k v m k' x N H. induction m as [|[k0 v0] r IH]; cbn in *.
  - destruct H as [E|[]]. injection E as <- <-. auto.
  - inversion N; subst. destruct (String.eqb_spec k0 k) as [->|Hne].
    + destruct H as [E|H]; [injection E as <- <-; auto|]. right. split; auto.
      intros ->. apply in_keys in H. contradiction.
    + destruct H as [E|H]; [injection E as <- <-; auto|].
      destruct (IH H3 H) as [?|[? ?]]; auto.
Qed.
Lemma adel_in_ne : forall {V} k (m : amap V) k' x, NoDup (map fst m) ->
  In (k', x) (adel k m) -> k' <> k /\ In (k', x) m.
Proof.
  intros V k m k' x N H. split; [|eapply adel_in; eauto]. intros ->.
  apply in_keys in H. pose proof (aget_adel_eq k m N) as G. apply aget_None_notin in G. contradiction.
Qed.

Lemma merge_ip_ok : forall n lk sh h doc patch td tp top,
  repr h doc td -> repr h patch tp -> wf_tree td -> wf_tree tp -> tshape h doc -> disj h doc patch ->
  (forall l, In l lk -> ~ reachl h doc l /\ ~ reachl h patch l) ->
  (forall l, In l sh -> ~ reachl h doc l) ->
  S (height td + height tp) < n ->
  exists h1 v c t', merge_ip n lk sh h doc patch top = Some (Ok (h1, v, c)) /\ length h1 = length h /\
    (forall l, ~ reachl h doc l -> hget h1 l = hget h l) /\
    repr h1 v t' /\ wf_tree t' /\ teq t' (if top then tmerge_top td tp else tmerge td tp) = true /\
    (forall l, reachl h1 v l -> reachl h doc l \/ reachl h patch l).
Proof.
  induction n as [|n IH]; intros lk sh h doc patch td tp top Rd Rp Wd Wp Ts Dj Hlk Hsh Hn; [lia|].
  assert (Hkeep : forall X, teq td X = true ->
    exists h1 v c t', Some (Ok (h, doc, false)) = Some (Ok (h1, v, c)) /\ length h1 = length h /\
      (forall l, ~ reachl h doc l -> hget h1 l = hget h l) /\ repr h1 v t' /\ wf_tree t' /\
      teq t' X = true /\ (forall l, reachl h1 v l -> reachl h doc l \/ reachl h patch l)).
  { intros X HX. exists h, doc, false, td. repeat split; auto. }
  assert (Hrep : exists h1 v c t', Some (Ok (h, patch, true)) = Some (Ok (h1, v, c)) /\ length h1 = length h /\
      (forall l, ~ reachl h doc l -> hget h1 l = hget h l) /\ repr h1 v t' /\
      wf_tree t' /\ teq t' tp = true /\ (forall l, reachl h1 v l -> reachl h doc l \/ reachl h patch l)).
  { exists h, patch, true, tp. repeat split; auto using teq_refl. }
  assert (Hveq : forall X, tp = X -> exists h1 v c t',
     match veq n lk h doc patch with
     | Some (Ok true) => Some (Ok (h, doc, false))
     | Some (Ok false) => Some (Ok (h, patch, true))
     | Some (Err e) => Some (Err e)
     | None => None
     end = Some (Ok (h1, v, c)) /\ length h1 = length h /\
      (forall l, ~ reachl h doc l -> hget h1 l = hget h l) /\ repr h1 v t' /\ wf_tree t' /\
      teq t' X = true /\ (forall l, reachl h1 v l -> reachl h doc l \/ reachl h patch l)).
  { intros X <-. rewrite (veq_teq n lk h doc patch td tp Rd Rp Wd Wp Hlk); [|lia].
    destruct (teq td tp) eqn:Et; auto. }
  destruct patch as [| | | |lp|lp|].
  - inversion Rp; subst. destruct top; cbn [merge_ip]; [apply Hkeep, teq_refl; auto|].
    destruct doc; apply Hveq; reflexivity.
  - inversion Rp; subst. destruct top; cbn [merge_ip]; [apply Hkeep, teq_refl; auto|].
    destruct doc; apply Hveq; reflexivity.
  - inversion Rp; subst. destruct top; cbn [merge_ip]; [apply Hkeep, teq_refl; auto|].
    destruct doc; apply Hveq; reflexivity.
  - inversion Rp; subst. destruct top; cbn [merge_ip]; [apply Hkeep, teq_refl; auto|].
    destruct doc; apply Hveq; reflexivity.
  - inversion Rp; subst. destruct top; cbn [merge_ip]; [exact Hrep|].
    destruct doc; apply Hveq; reflexivity.
  - inversion Rp as [| | | | |? pm tpm Gp Ep|]; subst.
    assert (Hspec : (if top then tmerge_top td (TObj tpm) else tmerge td (TObj tpm)) = tmerge td (TObj tpm))
      by (destruct top; reflexivity).
    rewrite Hspec. clear Hspec. cbn [merge_ip].
    destruct doc as [| | | | |ld|];
      try (inversion Rd; subst; destruct top; apply Hveq; reflexivity).
    assert (Rld : reachl h (VObj ld) ld) by (right; constructor).
    assert (Rlp : reachl h (VObj lp) lp) by (right; constructor).
    assert (Hne : ld <> lp) by (intros ->; eapply Dj; eauto).
    rewrite (proj2 (Nat.eqb_neq _ _) Hne).
    rewrite !existsb_false.
    2:{ intros [E|E]; [congruence|]. eapply Hsh; eauto. }
    2:{ intros E. apply Hlk in E as [E _]. auto. }
    2:{ intros E. apply Hlk in E as [_ E]. auto. }
    cbn [orb]. rewrite (proj2 (hobj_hget _ _ _) Gp).
    match goal with |- context [match ?f h pm with _ => _ end] => set (go := f) end.
    inversion Rd as [| | | | |? dm tdm Gd Ed|]; subst. rewrite tmerge_obj.
    inversion Ts as [| | | | | |? dm0 Gd0 Pd Fd]; subst. rewrite Gd in Gd0. injection Gd0 as <-.
    assert (Nd : NoDup (map fst dm)).
    { rewrite (entries_keys _ _ _ Ed). inversion Wd; auto. }
    assert (Hld : ld < length h) by (eapply hget_lt; eauto).
    assert (Hacy : forall k x, In (k, x) dm -> ~ reachl h x ld) by (intros; eapply acyclic_obj; eauto).
    assert (Hsubp : forall k x l, In (k, x) pm -> reachl h x l -> reachl h (VObj lp) l)
      by (intros; eapply reachl_obj; eauto).
    assert (Hsubd : forall k x l, In (k, x) dm -> reachl h x l -> reachl h (VObj ld) l)
      by (intros; eapply reachl_obj; eauto).
    assert (Loop : forall r tr h0 m tm, entries h r tr -> incl r pm -> incl tr tpm ->
      length h0 = length h -> (forall l, ~ reachl h (VObj ld) l -> hget h0 l = hget h l) ->
      hget h0 ld = Some (CObj m) -> rel h0 m tm -> wf_tree (TObj tm) -> NoDup (map fst tr) ->
      (forall k x l, In (k, x) m -> reachl h0 x l -> l <> ld /\ (reachl h (VObj ld) l \/ reachl h (VObj lp) l)) ->
      (forall k, In k (map fst tr) -> aget k m = aget k dm /\ aget k tm = aget k tdm /\
         forall e, aget k dm = Some e -> agree h h0 (reachl h e) /\
           forall k' x l, In (k', x) m -> k' <> k -> reachl h e l -> ~ reachl h0 x l) ->
      exists h1 m', go h0 r = Some (Ok h1) /\ length h1 = length h /\
        (forall l, ~ reachl h (VObj ld) l -> hget h1 l = hget h l) /\
        hget h1 ld = Some (CObj m') /\ rel h1 m' (tmerge_entries tr tm) /\
        (forall k x l, In (k, x) m' -> reachl h1 x l -> l <> ld /\ (reachl h (VObj ld) l \/ reachl h (VObj lp) l))).
    { clear Hkeep Hrep Hveq.
      induction r as [|[k x] r IHr]; intros tr h0 m tm Er Ir Itr Hlen Hout Gm Rm Wm Nr Hb Hun;
        inversion Er as [|? [k2 p] ? tr' [Ek Rx] Er']; subst.
      - exists h0, m. repeat split; auto; eapply Hb; eauto.
      - cbn in Ek, Rx. subst k2. inversion Nr as [|? ? Nk Nr']; subst. cbn [map fst] in *.
        assert (Hxin : In (k, x) pm) by (apply Ir; cbn; auto).
        assert (Hpin : In (k, p) tpm) by (apply Itr; cbn; auto).
        assert (Ir' : incl r pm) by (intros z Hz; apply Ir; cbn; auto).
        assert (Itr' : incl tr' tpm) by (intros z Hz; apply Itr; cbn; auto).
        assert (Nm : NoDup (map fst m)) by (rewrite (rel_keys _ _ _ Rm); inversion Wm; auto).
        destruct (Hun k (or_introl eq_refl)) as (Hk1 & Hk2 & Hk3).
        assert (Hm0 : hobj h0 ld = Some m) by now apply hobj_hget.
        destruct (value_null_dec x) as [->|Hxn].
        + inversion Rx; subst. cbn [tmerge_entries]. unfold go. fold go. rewrite Hm0.
          set (h1 := hset h0 ld (CObj (adel k m))).
          assert (Fr : forall k' x, In (k', x) m -> agree h0 h1 (reachl h0 x)).
          { intros k' x Hin l Hl. apply hget_hset_ne. intros <-. eapply Hb in Hl as [? _]; eauto. }
          apply IHr with (m := adel k m); auto.
          * unfold h1. now rewrite hset_length.
          * intros l Hl. unfold h1. rewrite hget_hset_ne; auto. intros <-. auto.
          * apply hget_hset_eq. lia.
          * eapply rel_adel_frame; eauto.
          * now apply wf_adel.
          * intros k' x l Hin Hl. apply adel_in_ne in Hin as [_ Hin]; auto.
            destruct (rel_in _ _ _ _ _ Rm Hin) as (t & Rt).
            eapply Hb; eauto. eapply reachl_agree_back; eauto.
          * intros k' Hk'. assert (Hkk : k <> k') by (intros ->; contradiction).
            rewrite !aget_adel_ne by auto. destruct (Hun k' (or_intror Hk')) as (U1 & U2 & U3).
            split; auto. split; auto. intros e He. destruct (U3 e He) as [V1 V2]. split.
            -- intros l Hl. unfold h1. rewrite hget_hset_ne; auto. intros <-.
               apply aget_Some_in in He. eapply Hacy; eauto.
            -- intros k'' x l Hin Hne2 Hl Hl2. apply adel_in_ne in Hin as [_ Hin]; auto.
               destruct (rel_in _ _ _ _ _ Rm Hin) as (t & Rt).
               eapply V2; eauto. eapply reachl_agree_back; eauto.
        + assert (Hpn : p <> TNull) by (intros ->; inversion Rx; subst; congruence).
          set (entry := match aget k m with Some e => e | None => VNull end).
          set (te := or_tnull (aget k tdm)).
          set (h0' := hset h0 ld (CObj (aset k entry m))).
          pose proof (entries_get _ _ _ k Ed) as Hg.
          assert (Hentry : repr h entry te /\ wf_tree te /\ height te <= pred (height (TObj tdm)) /\
            tshape h entry /\ agree h h0' (reachl h entry) /\ ~ reachl h entry ld /\
            (forall l, reachl h entry l -> reachl h (VObj ld) l) /\
            (forall k' x l, In (k', x) m -> k' <> k -> reachl h entry l -> ~ reachl h0 x l) /\
            (forall k' e', k' <> k -> aget k' dm = Some e' -> disj h entry e')).
          { unfold entry, te. rewrite Hk1. destruct (aget k dm) as [e|] eqn:Ee, (aget k tdm) as [et|] eqn:Et; try contradiction.
            - destruct Hg as (A & B & C). cbn [or_tnull]. destruct (Hk3 e eq_refl) as [V1 V2]. split; auto.
              split; [eapply wf_get; eauto|]. split; [apply height_obj in C; lia|].
              split; [rewrite Forall_forall in Fd; apply (Fd (k, e)); auto|].
              split.
              { intros l Hl. unfold h0'. rewrite hget_hset_ne; auto. intros <-. eapply Hacy; eauto. }
              split; [eapply Hacy; eauto|]. split; [intros; eapply Hsubd; eauto|]. split; [exact V2|].
              intros k' e' Hkk He'. apply aget_Some_in in He'. eapply (pairs_disj h dm k e k' e'); eauto.
            - cbn [or_tnull].
              assert (N : forall l, ~ reachl h VNull l) by (intros; apply reachl_scalar; congruence).
              split; [constructor|]. split; [constructor|]. split; [cbn; lia|]. split; [constructor|].
              split; [intros l Hl; exfalso; eapply N; eauto|].
              split; [apply N|]. split; [intros l Hl; exfalso; eapply N; eauto|].
              split; [intros ? ? l ? ? Hl; exfalso; eapply N; eauto|].
              intros ? ? ? ? l Hl. exfalso; eapply N; eauto. }
          destruct Hentry as (Re & We & He1 & Te & Ae & Ne & Se & De & Oe).
          assert (Hlen' : length h0' = length h) by (unfold h0'; now rewrite hset_length).
          assert (Hout' : forall l, ~ reachl h (VObj ld) l -> hget h0' l = hget h l).
          { intros l Hl. unfold h0'. rewrite hget_hset_ne; auto. intros <-. auto. }
          assert (Ax : agree h h0' (reachl h x)).
          { intros l Hl. apply Hout'. intros C. eapply Dj; eauto. }
          assert (Ex : forall l, reachl h0' entry l -> reachl h entry l) by (intros; eapply reachl_agree_back; eauto).
          assert (Exx : forall l, reachl h0' x l -> reachl h x l) by (intros; eapply reachl_agree_back; eauto).
          destruct (IH (ld :: lk) (lp :: sh) h0' entry x te p false) as (h1 & e' & c & t' & E & L1 & O1 & R1 & W1 & T1 & B1).
          { eapply repr_agree; eauto. }
          { eapply repr_agree; eauto. }
          { auto. }
          { inversion Wp as [| | | | | |? ? F]; subst. rewrite Forall_forall in F. apply (F (k, p)); auto. }
          { eapply tshape_agree; eauto. }
          { intros l A B. apply Ex in A. apply Exx in B. eapply Dj; [apply Se; eauto|]. eapply Hsubp; eauto. }
          { intros l [<-|Hl].
            - split; intros A; [apply Ex in A; auto|]. apply Exx in A. eapply Dj; eauto.
            - apply Hlk in Hl as [X Y]. split; intros A; [apply Ex in A; auto|]. apply Exx in A.
              apply Y. eapply Hsubp; eauto. }
          { intros l [<-|Hl] A; apply Ex in A; apply Se in A; [eapply Dj; eauto|]. eapply Hsh; eauto. }
          { apply height_obj in Hpin. assert (0 < height (TObj tdm)) by (cbn; lia). lia. }
          assert (G1 : hget h1 ld = Some (CObj (aset k entry m))).
          { rewrite O1; [apply hget_hset_eq; lia|]. intros A. apply Ex in A. auto. }
          set (h2 := hset h1 ld (CObj (aset k e' (aset k entry m)))).
          assert (Fr : forall k' z, In (k', z) m -> k' <> k -> agree h0 h2 (reachl h0 z)).
          { intros k' z Hin Hkk l Hl.
            assert (Hl1 : l <> ld) by (eapply Hb in Hl as [? _]; eauto).
            unfold h2. rewrite hget_hset_ne by auto. rewrite O1.
            - unfold h0'. now rewrite hget_hset_ne by auto.
            - intros A. apply Ex in A. eapply De; eauto. }
          assert (Be : forall l, reachl h1 e' l -> reachl h entry l \/ reachl h x l).
          { intros l Hl. apply B1 in Hl as [Hl|Hl]; auto. }
          assert (Ne' : ~ reachl h1 e' ld).
          { intros A. apply Be in A as [A|A]; auto. eapply Dj; eauto. }
          assert (Fe : agree h1 h2 (reachl h1 e')) by (now apply agree_hset).
          assert (Be2 : forall l, reachl h2 e' l -> reachl h entry l \/ reachl h x l).
          { intros l Hl. apply Be. eapply reachl_agree_back; eauto. }
          destruct (IHr tr' h2 (aset k e' m) (aset k (tmerge te p) tm)) as (h3 & m3 & S1 & S2 & S3 & S4 & S5 & S6); auto.
          * unfold h2. rewrite hset_length. lia.
          * intros l Hl. unfold h2. rewrite hget_hset_ne by (intros <-; auto). rewrite O1; auto.
          * unfold h2. rewrite aset_aset. apply hget_hset_eq. lia.
          * eapply rel_aset_frame; eauto. eapply repr_agree; eauto.
          * apply wf_aset; auto. apply wf_tmerge; auto.
            inversion Wp as [| | | | | |? ? F]; subst. rewrite Forall_forall in F. apply (F (k, p)); auto.
          * intros k' z l Hin Hl. apply aset_in_ne in Hin as [[-> ->]|[Hkk Hin]]; auto.
            -- apply Be2 in Hl as [Hl|Hl].
               ++ split; [intros ->; auto|left; auto].
               ++ split; [intros ->; eapply Dj; eauto|right; eapply Hsubp; eauto].
            -- destruct (rel_in _ _ _ _ _ Rm Hin) as (t & Rt).
               eapply Hb; eauto. eapply reachl_agree_back; eauto.
          * intros k' Hk'. assert (Hkk : k <> k') by (intros ->; contradiction).
            rewrite !aget_aset_ne by auto. destruct (Hun k' (or_intror Hk')) as (U1 & U2 & U3).
            split; auto. split; auto. intros e He. destruct (U3 e He) as [V1 V2].
            assert (Hde : disj h entry e) by (eapply Oe; eauto).
            pose proof He as He0. apply aget_Some_in in He0.
            split.
            -- intros l Hl. assert (l <> ld) by (intros ->; eapply Hacy; eauto).
               unfold h2. rewrite hget_hset_ne by auto. rewrite O1.
               ++ unfold h0'. rewrite hget_hset_ne by auto. auto.
               ++ intros A. apply Ex in A. eapply Hde; eauto.
            -- intros k'' z l Hin Hne2 Hl Hl2. apply aset_in_ne in Hin as [[-> ->]|[Hkk2 Hin]]; auto.
               ++ apply Be2 in Hl2 as [A|A]; [eapply Hde; eauto|]. eapply Dj; [|eapply Hsubp; eauto].
                  eapply Hsubd; eauto.
               ++ destruct (rel_in _ _ _ _ _ Rm Hin) as (t & Rt).
                  eapply V2; eauto. eapply reachl_agree_back; eauto.
          * exists h3, m3. split; [|split; [auto|split; [auto|split; [auto|split; [|auto]]]]].
            -- rewrite <- S1. unfold go at 1. fold go. rewrite Hm0. fold entry. fold h0'.
               destruct x; try congruence; rewrite E, (proj2 (hobj_hget _ _ _) G1); reflexivity.
            -- cbn [tmerge_entries]. rewrite Hk2. fold te. destruct p; try congruence; exact S5. }
    assert (Hc : exists h1 v c t', match go h pm with
                  | Some (Ok h1) => Some (Ok (h1, VObj ld, true))
                  | Some (Err e) => Some (Err e)
                  | None => None
                  end = Some (Ok (h1, v, c)) /\ length h1 = length h /\
      (forall l, ~ reachl h (VObj ld) l -> hget h1 l = hget h l) /\
      repr h1 v t' /\ wf_tree t' /\ teq t' (TObj (tmerge_entries tpm tdm)) = true /\
      (forall l, reachl h1 v l -> reachl h (VObj ld) l \/ reachl h (VObj lp) l)).
    2:{ destruct top; exact Hc. }
    destruct (Loop pm tpm h dm tdm) as (h1 & m' & A & B & C & D & E & F); auto using incl_refl.
    { now apply entries_rel. }
    { inversion Wp; auto. }
    { intros k x l Hin Hl. split; [intros ->; eapply Hacy; eauto|left; eapply Hsubd; eauto]. }
    { intros k Hk. split; auto. split; auto. intros e He. split; [intros l Hl; auto|].
      intros k' x l Hin Hkk Hl Hl2. apply aget_Some_in in He.
      eapply (pairs_disj h dm k e k' x); eauto. }
    rewrite A.
    assert (Nd2 : NoDup (map fst (tmerge_entries tpm tdm))).
    { pose proof (wf_tmerge (TObj tpm) (TObj tdm) Wd Wp) as W2. rewrite tmerge_obj in W2. now inversion W2. }
    destruct (repr_rel h1 ld m' _ D Nd2 E) as (t & R & W & T).
    exists h1, (VObj ld), true, t. repeat split; auto.
    intros l Hl. assert (Dl : l = ld \/ exists k x, In (k, x) m' /\ reachl h1 x l).
    { destruct Hl as [HR|HR]; inversion HR as [| |? a' k x ? G' Hin Hr]; subst; auto;
        rewrite D in G'; injection G' as <-; right; exists k, x; split; auto; [left|right]; auto. }
    destruct Dl as [->|(k & x & Hin & Hl')]; auto. eapply F in Hl' as [_ ?]; eauto.
  - inversion Rp; subst. destruct top; cbn [merge_ip]; [apply Hkeep, teq_refl; auto|].
    destruct doc; apply Hveq; reflexivity.
Qed.
