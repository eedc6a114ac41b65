(** Removing a dotted path. *)
From Coq Require Import String Ascii ZArith Lia Bool List Arith.
From Verif Require Import Base Dec Value Heap HeapSpec TreeFacts HeapFacts DotFacts.
Import ListNotations.
Local Open Scope nat_scope.

Definition drop_parts (h : heap) (v : value) (parts : list string) : heap * option value :=
  match split_last parts with
  | None => (h, None)
  | Some (front, last) =>
      match dot_walk h v front with
      | (h1, Some (VObj l)) =>
          match hobj h1 l with
          | Some m => (hset h1 l (CObj (adel last m)), aget last m)
          | None => (h1, None)
          end
      | (h1, _) => (h1, None)
      end
  end.
Lemma dot_remove_drop : forall h v key, dot_remove h v key = drop_parts h v (split_dot key).
Proof. reflexivity. Qed.
(** [dot_remove] by recursion on the path. *)
Lemma drop_one : forall h l k, drop_parts h (VObj l) [k] =
  match hobj h l with Some m => (hset h l (CObj (adel k m)), aget k m) | None => (h, None) end.
Proof. reflexivity. Qed.
Lemma drop_nonobj : forall h v p, p <> [] -> (forall l, v <> VObj l) -> drop_parts h v p = (h, None).
Proof.
  intros h v p Hp Hv. unfold drop_parts. destruct (split_last_some p Hp) as (i & z & -> & _).
  destruct i; destruct v; cbn; auto; exfalso; eapply Hv; eauto.
Qed.
Lemma drop_cons : forall h l k r, r <> [] -> drop_parts h (VObj l) (k :: r) =
  match hobj h l with
  | None => (h, None)
  | Some m =>
      match aget k m with
      | Some y => drop_parts h y r
      | None => drop_parts (hset (h ++ [CObj []]) l (CObj (aset k (VObj (length h)) m)))
                  (VObj (length h)) r
      end
  end.
Proof.
  intros h l k r Hr. unfold drop_parts. rewrite split_last_cons by auto.
  destruct (split_last_some r Hr) as (i & z & -> & _).
  cbn [dot_walk]. destruct (hobj h l) as [m|] eqn:E; auto.
  destruct (aget k m); reflexivity.
Qed.

(** Removing below a fresh empty object. *)
Lemma drop_chain : forall r h l h1 o, r <> [] -> hget h l = Some (CObj []) ->
  drop_parts h (VObj l) r = (h1, o) ->
  length h <= length h1 /\ (forall l', l' < length h -> l' <> l -> hget h1 l' = hget h l') /\
  dot_parts h1 (VObj l) r = None /\
  (forall s w, dot_parts h1 (VObj l) s = Some w -> is_prefix s r \/ is_prefix r s).
Proof.
  induction r as [|k r IH]; intros h l h1 o Hr G E; [congruence|].
  destruct r as [|k2 r].
  - rewrite drop_one in E. rewrite (proj2 (hobj_hget _ _ _) G) in E. cbn in E.
    injection E as <- <-. assert (L : l < length h) by (eapply hget_lt; eauto).
    assert (G1 : hobj (hset h l (CObj [])) l = Some []) by (apply hobj_hget; now apply hget_hset_eq).
    rewrite hset_length. split; [lia|]. split; [intros; apply hget_hset_ne; auto|].
    cbn. rewrite G1. cbn. split; auto.
    intros [|k' s] w Hs; [left; exists [k]; auto|]. cbn in Hs. rewrite G1 in Hs. discriminate.
  - assert (L : l < length h) by (eapply hget_lt; eauto).
    rewrite drop_cons in E by congruence. rewrite (proj2 (hobj_hget _ _ _) G) in E.
    cbn [aget aset] in E.
    set (h0 := hset (h ++ [CObj []]) l (CObj [(k, VObj (length h))])) in *.
    assert (L0 : length h0 = S (length h)) by (unfold h0; rewrite hset_length, app_length; cbn; lia).
    assert (G0 : hget h0 (length h) = Some (CObj [])).
    { unfold h0. rewrite hget_hset_ne by lia. apply hget_alloc_new. }
    apply IH in E as (A & B & C & D); [|congruence|auto].
    assert (Gl : hobj h1 l = Some [(k, VObj (length h))]).
    { apply hobj_hget. rewrite B by lia. unfold h0. apply hget_hset_eq. rewrite app_length; cbn; lia. }
    split; [lia|]. split.
    { intros l' Hl Hne. rewrite B by lia. unfold h0. rewrite hget_hset_ne by auto.
      unfold hget. now rewrite nth_error_app1. }
    split.
    { change (dot_parts h1 (VObj l) (k :: k2 :: r)) with
        (match hobj h1 l with Some m => match aget k m with Some y => dot_parts h1 y (k2 :: r) | None => None end
         | None => None end). rewrite Gl. cbn [aget]. rewrite String.eqb_refl. exact C. }
    intros [|k' s] w Hs; [left; eexists; reflexivity|]. cbn [dot_parts] in Hs. rewrite Gl in Hs. cbn [aget] in Hs.
    destruct (String.eqb_spec k k') as [->|]; [|discriminate].
    apply D in Hs as [[z Hz]|[z Hz]]; [left|right]; exists z; cbn in *; congruence.
Qed.

(** Only containers reachable from the target are written. *)
Lemma drop_modifies : forall p h v h1 o, p <> [] -> drop_parts h v p = (h1, o) ->
  length h <= length h1 /\ forall l, l < length h -> ~ reachl h v l -> hget h1 l = hget h l.
Proof.
  induction p as [|k r IH]; intros h v h1 o Hp E; [congruence|].
  destruct v as [| | | | |l|]; try (rewrite drop_nonobj in E by congruence; injection E as <- <-; auto).
  destruct r as [|k2 r].
  - rewrite drop_one in E. destruct (hobj h l) eqn:G; injection E as <- <-; auto.
    rewrite hset_length. split; auto. intros. apply hget_hset_ne. intros ->. apply H0. right. constructor.
  - rewrite drop_cons in E by congruence. destruct (hobj h l) as [m|] eqn:G; [|injection E as <- <-; auto].
    destruct (aget k m) as [y|] eqn:Ek.
    + apply IH in E as [A B]; [|congruence]. split; auto. intros l' Hl Hr. apply B; auto. intros C. apply Hr.
      apply hobj_hget in G. apply aget_Some_in in Ek. eapply reachl_obj; eauto.
    + assert (Hll : l < length h) by (apply hobj_hget in G; eapply hget_lt; eauto).
      apply drop_chain in E as (A & B & _ & _).
      * rewrite hset_length, app_length in A; cbn in A. split; [lia|]. intros l' Hl Hr.
        assert (l <> l') by (intros ->; apply Hr; right; constructor).
        rewrite B by (rewrite ?hset_length, ?app_length; cbn; lia).
        rewrite hget_hset_ne by auto. unfold hget. now rewrite nth_error_app1.
      * congruence.
      * rewrite hget_hset_ne by lia. apply hget_alloc_new.
Qed.

(** The write is rejected exactly when it is blocked, and then nothing changes. *)
Lemma drop_blocked : forall p h v, p <> [] -> wf_heap h -> wf_val h v -> blocked h v p ->
  drop_parts h v p = (h, None) /\ dot_parts h v p = None.
Proof.
  induction p as [|k r IH]; intros h v Hp W Wv B; [congruence|].
  destruct (value_obj_dec v) as [[l ->]|N]; [|split; [now apply drop_nonobj|now apply dot_nonobj]].
  destruct Wv as [m G]. pose proof (proj2 (hobj_hget _ _ _) G) as Gm.
  destruct r as [|k2 r].
  - exfalso. destruct B as (q & s & w & E1 & E2 & E3 & E4). destruct q as [|k' q].
    + cbn in E3. injection E3 as <-. eapply E4; eauto.
    + cbn in E1. injection E1 as <- E1. symmetry in E1. apply app_eq_nil in E1 as [-> ->]. congruence.
  - destruct (aget k m) as [y|] eqn:Ek.
    + rewrite drop_cons by congruence. cbn [dot_parts]. rewrite Gm, Ek.
      apply (blocked_cons _ _ _ _ _ _ Gm Ek) in B; [|congruence]. apply IH; auto; [congruence|].
      apply W in G. destruct G as [_ F]. rewrite Forall_forall in F. apply aget_Some_in in Ek. apply (F (k, y) Ek).
    + exfalso. destruct B as (q & s & w & E1 & E2 & E3 & E4). destruct q as [|k' q].
      * cbn in E3. injection E3 as <-. eapply E4; eauto.
      * cbn in E1. injection E1 as <- E1. cbn in E3. rewrite Gm, Ek in E3. discriminate.
Qed.

Lemma drop_reads : forall p h v t h1 o, p <> [] -> repr h v t ->
  wf_tree t -> drop_parts h v p = (h1, o) -> dot_parts h1 v p = None.
Proof.
  induction p as [|k r IH]; intros h v t h1 o Hp R W E; [congruence|].
  destruct (value_obj_dec v) as [[l ->]|N].
  2:{ rewrite drop_nonobj in E by congruence. injection E as <- <-. now apply dot_nonobj. }
  inversion R as [| | | | |? m ts G F|]; subst. pose proof (proj2 (hobj_hget _ _ _) G) as Gm.
  assert (Hll : l < length h) by (eapply hget_lt; eauto).
  destruct r as [|k2 r].
  - rewrite drop_one, Gm in E. injection E as <- <-. cbn [dot_parts].
    rewrite (proj2 (hobj_hget _ _ (adel k m))) by now apply hget_hset_eq. rewrite aget_adel_eq; auto.
    unfold akeys. rewrite (entries_keys _ _ _ F). inversion W; auto.
  - rewrite drop_cons, Gm in E by congruence. destruct (aget k m) as [y|] eqn:Ek.
    + pose proof (aget_Some_in _ _ _ Ek) as Hin.
      destruct (Forall2_in_l _ _ _ _ F Hin) as ([k0 ty] & Hty & Ek0 & Ry). cbn in Ek0, Ry. subst k0.
      assert (Gl : hobj h1 l = Some m).
      { apply hobj_hget. rewrite <- G. eapply drop_modifies; [|eauto|auto|]; [congruence|].
        eapply acyclic_obj; eauto. }
      change (dot_parts h1 (VObj l) (k :: k2 :: r)) with
        (match hobj h1 l with Some m => match aget k m with Some y => dot_parts h1 y (k2 :: r) | None => None end
         | None => None end). rewrite Gl, Ek.
      eapply (IH h y ty); eauto; [congruence|].
      inversion W as [| | | | | |? ? Fw]; subst. rewrite Forall_forall in Fw. apply (Fw (k, ty)); auto.
    + apply drop_chain in E as (A & C & D & _).
      * assert (Gl : hobj h1 l = Some (aset k (VObj (length h)) m)).
        { apply hobj_hget. rewrite C by (rewrite ?hset_length, ?app_length; cbn; lia).
          apply hget_hset_eq. rewrite app_length; cbn; lia. }
        change (dot_parts h1 (VObj l) (k :: k2 :: r)) with
        (match hobj h1 l with Some m => match aget k m with Some y => dot_parts h1 y (k2 :: r) | None => None end
         | None => None end). rewrite Gl, aget_aset_eq. exact D.
      * congruence.
      * rewrite hget_hset_ne by lia. apply hget_alloc_new.
Qed.

Lemma drop_frame : forall p h v t h1 o q, p <> [] -> repr h v t -> wf_tree t -> tshape h v ->
  drop_parts h v p = (h1, o) -> diverge p q ->
  dot_parts h1 v q = dot_parts h v q /\
  (forall w tw, dot_parts h v q = Some w -> repr h w tw -> repr h1 w tw).
Proof.
  induction p as [|k r IH]; intros h v t h1 o q Hp R W T E D; [congruence|].
  destruct (value_obj_dec v) as [[l ->]|N].
  2:{ rewrite drop_nonobj in E by auto. injection E as <- <-. auto. }
  inversion R as [| | | | |? m ts G F|]; subst. pose proof (proj2 (hobj_hget _ _ _) G) as Gm.
  inversion T as [| | | | | |? m0 G0 P Fs]; subst. rewrite G in G0. injection G0 as <-.
  assert (Nd : NoDup (map fst m)) by (rewrite (entries_keys _ _ _ F); inversion W; auto).
  assert (Hll : l < length h) by (eapply hget_lt; eauto).
  destruct q as [|k' s]; [exfalso; eapply diverge_nil; eauto|].
  assert (Hkid : forall y, In (k', y) m -> exists ty, repr h y ty /\ In (k', ty) ts).
  { intros y Hy. destruct (Forall2_in_l _ _ _ _ F Hy) as ([? ?] & A & B & ?). cbn in *. subst. eauto. }
  (* a sibling subtree is left alone *)
  assert (Sib : k' <> k -> (forall y, In (k', y) m -> agree h h1 (reachl h y)) ->
     (exists m', hobj h1 l = Some m' /\ aget k' m' = aget k' m) ->
     dot_parts h1 (VObj l) (k' :: s) = dot_parts h (VObj l) (k' :: s) /\
     (forall w tw, dot_parts h (VObj l) (k' :: s) = Some w -> repr h w tw -> repr h1 w tw)).
  { intros Hne Ha (m' & G1 & E1). cbn [dot_parts]. rewrite G1, Gm, E1.
    destruct (aget k' m) as [y|] eqn:Ey; [|split; [auto|discriminate]].
    apply aget_Some_in in Ey. specialize (Ha y Ey). split; [now apply dot_agree|].
    intros w tw Hw Rw. eapply repr_agree; eauto. intros l' Hl'. apply Ha.
    clear - Hw Hl'. revert y Hw. induction s as [|k0 s IHs]; intros y Hw; cbn in Hw; [injection Hw as <-; auto|].
    destruct y; try discriminate. destruct (hobj h l) as [mm|] eqn:Gg; [|discriminate].
    destruct (aget k0 mm) as [z|] eqn:Ez; [|discriminate]. apply hobj_hget in Gg. apply aget_Some_in in Ez.
    eapply reachl_obj; eauto. }
  destruct r as [|k2 r].
  - rewrite drop_one, Gm in E. injection E as <- <-.
    assert (Hne : k' <> k). { intros ->. destruct D as [D1 _]. apply D1. exists s. reflexivity. }
    apply Sib; auto.
    + intros y Hy. apply agree_hset. eapply acyclic_obj; eauto.
    + exists (adel k m). split; [apply hobj_hget; now apply hget_hset_eq|]. apply aget_adel_ne. auto.
  - rewrite drop_cons, Gm in E by congruence. destruct (aget k m) as [y|] eqn:Ek.
    + pose proof (aget_Some_in _ _ _ Ek) as Hin.
      destruct (Forall2_in_l _ _ _ _ F Hin) as ([k0 ty] & Hty & Ek0 & Ry). cbn in Ek0, Ry. subst k0.
      destruct (drop_modifies _ _ _ _ _ (ltac:(congruence) : k2 :: r <> []) E) as [L M].
      assert (Gl : hobj h1 l = Some m).
      { apply hobj_hget. rewrite <- G. apply M; auto. eapply acyclic_obj; eauto. }
      destruct (String.eqb_spec k' k) as [->|Hne].
      * apply diverge_cons in D. cbn [dot_parts]. rewrite Gl, Gm, Ek.
        eapply (IH h y ty); eauto; [congruence| |].
        -- inversion W as [| | | | | |? ? Fw]; subst. rewrite Forall_forall in Fw. apply (Fw (k, ty)); auto.
        -- rewrite Forall_forall in Fs. apply (Fs (k, y)); auto.
      * apply Sib; auto; [|eauto]. intros z Hz l' Hl'. destruct (Hkid z Hz) as (tz & Rz & _). apply M.
        -- eapply reachl_lt; eauto.
        -- intros C. eapply (pairs_disj h m k y k' z); eauto.
    + assert (G0 : hget (hset (h ++ [CObj []]) l (CObj (aset k (VObj (length h)) m))) (length h) = Some (CObj [])).
      { rewrite hget_hset_ne by lia. apply hget_alloc_new. }
      apply drop_chain in E as (A & C & _ & D4); [|congruence|exact G0].
      rewrite hset_length, app_length in *; cbn [length] in *.
      assert (Gl : hobj h1 l = Some (aset k (VObj (length h)) m)).
      { apply hobj_hget. rewrite C by lia. apply hget_hset_eq. rewrite app_length; cbn; lia. }
      destruct (String.eqb_spec k' k) as [->|Hne].
      * apply diverge_cons in D. cbn [dot_parts]. rewrite Gl, Gm, Ek, aget_aset_eq.
        split; [|discriminate]. destruct (dot_parts h1 (VObj (length h)) s) eqn:Es; auto.
        apply D4 in Es as [?|?]; destruct D; contradiction.
      * apply Sib; auto.
        -- intros z Hz l' Hl'. destruct (Hkid z Hz) as (tz & Rz & _).
           assert (l' < length h) by (eapply reachl_lt; eauto).
           assert (l <> l') by (intros ->; eapply acyclic_obj; eauto).
           rewrite C by lia. rewrite hget_hset_ne by auto. unfold hget. now rewrite nth_error_app1.
        -- eexists. split; [exact Gl|]. apply aget_aset_ne. auto.
Qed.


(** Both return what the path held. *)
Lemma drop_empty : forall r h l h1 o, r <> [] -> hget h l = Some (CObj []) -> drop_parts h (VObj l) r = (h1, o) -> o = None.
Proof.
  induction r as [|k r IH]; intros h l h1 o Hr G E; [congruence|]. destruct r as [|k2 r].
  - rewrite drop_one, (proj2 (hobj_hget _ _ _) G) in E. cbn in E. congruence.
  - assert (L : l < length h) by (eapply hget_lt; eauto).
    rewrite drop_cons, (proj2 (hobj_hget _ _ _) G) in E by congruence. cbn [aget aset] in E.
    eapply IH; [|
      |exact E]; [congruence|]. rewrite hget_hset_ne by lia. apply hget_alloc_new.
Qed.
Lemma drop_returns : forall p h v h1 o, p <> [] -> wf_heap h -> wf_val h v -> drop_parts h v p = (h1, o) -> o = dot_parts h v p.
Proof.
  induction p as [|k r IH]; intros h v h1 o Hp W Wv E; [congruence|].
  destruct (value_obj_dec v) as [[l ->]|N].
  2:{ rewrite drop_nonobj in E by congruence. injection E as <- <-. symmetry. now apply dot_nonobj. }
  destruct Wv as [m G]. pose proof (proj2 (hobj_hget _ _ _) G) as Gm.
  assert (Hll : l < length h) by (eapply hget_lt; eauto).
  destruct r as [|k2 r].
  - rewrite drop_one, Gm in E. injection E as <- <-. cbn. rewrite Gm. now destruct (aget k m).
  - rewrite drop_cons, Gm in E by congruence. cbn [dot_parts]. rewrite Gm. destruct (aget k m) as [y|] eqn:Ek.
    + eapply IH in E; eauto; [congruence|].
      apply W in G. destruct G as [_ F]. rewrite Forall_forall in F. apply aget_Some_in in Ek. apply (F (k, y) Ek).
    + eapply drop_empty; [|
        |exact E]; [congruence|]. rewrite hget_hset_ne by lia. apply hget_alloc_new.
Qed.
Lemma insert_drop_same : forall p h v x, snd (dot_insert_parts h v p x) = snd (drop_parts h v p).
Proof.
  intros. unfold dot_insert_parts, drop_parts. destruct (split_last p) as [[f z]|]; auto.
  destruct (dot_walk h v f) as [h1 [[]|]]; auto. destruct (hobj h1 l); auto.
Qed.
