(** Dotted paths: reading, writing, detached writing. *)
From Coq Require Import String Ascii ZArith Lia Bool List Arith.
From Verif Require Import Base Dec Value Heap HeapSpec TreeFacts HeapFacts.
Import ListNotations.
Local Open Scope nat_scope.

Lemma split_last_cons : forall p r, r <> [] -> split_last (p :: r) =
  match split_last r with Some (i, z) => Some (p :: i, z) | None => None end.
Proof. intros p [|x r] H; [congruence|reflexivity]. Qed.
Lemma split_last_some : forall r, r <> [] -> exists i z, split_last r = Some (i, z) /\ r = i ++ [z].
Proof.
  induction r as [|p r IH]; intros H; [congruence|]. destruct r as [|q r].
  - exists [], p. auto.
  - destruct IH as (i & z & E1 & E2); [congruence|]. exists (p :: i), z.
    rewrite split_last_cons by congruence. rewrite E1. cbn. split; auto. now rewrite E2.
Qed.

(** [dot_insert] by recursion on the path. *)
Lemma dot_insert_one : forall h l k x, dot_insert_parts h (VObj l) [k] x =
  match hobj h l with Some m => (hset h l (CObj (aset k x m)), aget k m) | None => (h, None) end.
Proof. reflexivity. Qed.
Lemma dot_insert_nonobj : forall h v p x, p <> [] -> (forall l, v <> VObj l) -> dot_insert_parts h v p x = (h, None).
Proof.
  intros h v p x Hp Hv. unfold dot_insert_parts. destruct (split_last_some p Hp) as (i & z & -> & _).
  destruct i; destruct v; cbn; auto; exfalso; eapply Hv; eauto.
Qed.
Lemma dot_insert_cons : forall h l k r x, r <> [] -> dot_insert_parts h (VObj l) (k :: r) x =
  match hobj h l with
  | None => (h, None)
  | Some m =>
      match aget k m with
      | Some y => dot_insert_parts h y r x
      | None => dot_insert_parts (hset (h ++ [CObj []]) l (CObj (aset k (VObj (length h)) m)))
                  (VObj (length h)) r x
      end
  end.
Proof.
  intros h l k r x Hr. unfold dot_insert_parts. rewrite split_last_cons by auto.
  destruct (split_last_some r Hr) as (i & z & -> & _).
  cbn [dot_walk]. destruct (hobj h l) as [m|] eqn:E; auto.
  destruct (aget k m); reflexivity.
Qed.

Lemma hobj_app : forall h l m c, hobj h l = Some m -> hobj (h ++ [c]) l = Some m.
Proof. intros h l m c H. apply hobj_hget in H. apply hobj_hget. now apply hget_app_l. Qed.

(** Inserting below a fresh empty object. *)
Lemma insert_chain : forall r h l x h1 o, r <> [] -> hget h l = Some (CObj []) ->
  dot_insert_parts h (VObj l) r x = (h1, o) ->
  length h <= length h1 /\ (forall l', l' < length h -> l' <> l -> hget h1 l' = hget h l') /\
  dot_parts h1 (VObj l) r = Some x /\
  (forall s w, dot_parts h1 (VObj l) s = Some w -> is_prefix s r \/ is_prefix r s).
Proof.
  induction r as [|k r IH]; intros h l x h1 o Hr G E; [congruence|].
  destruct r as [|k2 r].
  - rewrite dot_insert_one in E. rewrite (proj2 (hobj_hget _ _ _) G) in E. cbn in E.
    injection E as <- <-. assert (L : l < length h) by (eapply hget_lt; eauto).
    assert (G1 : hobj (hset h l (CObj [(k, x)])) l = Some [(k, x)]) by (apply hobj_hget; now apply hget_hset_eq).
    rewrite hset_length. split; [lia|]. split; [intros; apply hget_hset_ne; auto|].
    cbn. rewrite G1. cbn. rewrite String.eqb_refl. split; auto.
    intros [|k' s] w Hs; [left; exists [k]; auto|]. cbn in Hs. rewrite G1 in Hs. cbn in Hs.
    destruct (String.eqb_spec k k') as [->|]; [right; exists s; auto|discriminate].
  - assert (L : l < length h) by (eapply hget_lt; eauto).
    rewrite dot_insert_cons in E by congruence. rewrite (proj2 (hobj_hget _ _ _) G) in E.
    cbn [aget aset] in E.
    set (h0 := hset (h ++ [CObj []]) l (CObj [(k, VObj (length h))])) in *.
    assert (L0 : length h0 = S (length h)) by (unfold h0; rewrite hset_length, app_length; cbn; lia).
    assert (G0 : hget h0 (length h) = Some (CObj [])).
    { unfold h0. rewrite hget_hset_ne by lia. apply hget_alloc_new. }
    apply IH in E as (A & B & C & D); [|congruence|auto].
    assert (Gl : hobj h1 l = Some [(k, VObj (length h))]).
    { apply hobj_hget. rewrite B by lia. unfold h0. apply hget_hset_eq. rewrite app_length; cbn; lia. }
    split; [lia|]. split.
    { intros l' Hl Hne. rewrite B by lia. unfold h0. rewrite hget_hset_ne by auto.
      unfold hget. now rewrite nth_error_app1. }
    split.
    { change (dot_parts h1 (VObj l) (k :: k2 :: r)) with
        (match hobj h1 l with Some m => match aget k m with Some y => dot_parts h1 y (k2 :: r) | None => None end
         | None => None end). rewrite Gl. cbn [aget]. rewrite String.eqb_refl. exact C. }
    intros [|k' s] w Hs; [left; eexists; reflexivity|]. cbn [dot_parts] in Hs. rewrite Gl in Hs. cbn [aget] in Hs.
    destruct (String.eqb_spec k k') as [->|]; [|discriminate].
    apply D in Hs as [[z Hz]|[z Hz]]; [left|right]; exists z; cbn in *; congruence.
Qed.

Lemma dot_agree : forall q h h1 v, agree h h1 (reachl h v) -> dot_parts h1 v q = dot_parts h v q.
Proof.
  induction q as [|k q IH]; intros h h1 v A; auto. cbn. destruct v; auto.
  assert (E : hobj h1 l = hobj h l) by (unfold hobj; now rewrite A by (right; constructor)).
  rewrite E. destruct (hobj h l) as [m|] eqn:G; auto. destruct (aget k m) eqn:Ek; auto.
  apply IH. intros l' H. apply A. apply hobj_hget in G. apply aget_Some_in in Ek. eapply reachl_obj; eauto.
Qed.

(** Only containers reachable from the target are written. *)
Lemma insert_modifies : forall p h v x h1 o, p <> [] -> dot_insert_parts h v p x = (h1, o) ->
  length h <= length h1 /\ forall l, l < length h -> ~ reachl h v l -> hget h1 l = hget h l.
Proof.
  induction p as [|k r IH]; intros h v x h1 o Hp E; [congruence|].
  destruct v as [| | | | |l|]; try (rewrite dot_insert_nonobj in E by congruence; injection E as <- <-; auto).
  destruct r as [|k2 r].
  - rewrite dot_insert_one in E. destruct (hobj h l) eqn:G; injection E as <- <-; auto.
    rewrite hset_length. split; auto. intros. apply hget_hset_ne. intros ->. apply H0. right. constructor.
  - rewrite dot_insert_cons in E by congruence. destruct (hobj h l) as [m|] eqn:G; [|injection E as <- <-; auto].
    destruct (aget k m) as [y|] eqn:Ek.
    + apply IH in E as [A B]; [|congruence]. split; auto. intros l' Hl Hr. apply B; auto. intros C. apply Hr.
      apply hobj_hget in G. apply aget_Some_in in Ek. eapply reachl_obj; eauto.
    + assert (Hll : l < length h) by (apply hobj_hget in G; eapply hget_lt; eauto).
      apply insert_chain in E as (A & B & _ & _).
      * rewrite hset_length, app_length in A; cbn in A. split; [lia|]. intros l' Hl Hr.
        assert (l <> l') by (intros ->; apply Hr; right; constructor).
        rewrite B by (rewrite ?hset_length, ?app_length; cbn; lia).
        rewrite hget_hset_ne by auto. unfold hget. now rewrite nth_error_app1.
      * congruence.
      * rewrite hget_hset_ne by lia. apply hget_alloc_new.
Qed.

Lemma dot_nonobj : forall h v p, p <> [] -> (forall l, v <> VObj l) -> dot_parts h v p = None.
Proof. intros h v [|k p] H N; [congruence|]. destruct v; cbn; auto. exfalso. eapply N; eauto. Qed.

Lemma blocked_cons : forall h l m k r y, hobj h l = Some m -> aget k m = Some y -> r <> [] ->
  (blocked h (VObj l) (k :: r) <-> blocked h y r).
Proof.
  intros h l m k r y G E Hr. split.
  - intros (q & s & w & E1 & E2 & E3 & E4). destruct q as [|k' q].
    + cbn in E3. injection E3 as <-. exfalso. eapply E4; eauto.
    + cbn in E1. injection E1 as <- ->. cbn in E3. rewrite G, E in E3. exists q, s, w. auto.
  - intros (q & s & w & -> & E2 & E3 & E4). exists (k :: q), s, w. cbn. rewrite G, E. auto.
Qed.

Lemma value_obj_dec : forall v, (exists l, v = VObj l) \/ (forall l, v <> VObj l).
Proof. destruct v; eauto; right; congruence. Qed.

(** The write is rejected exactly when it is blocked, and then nothing changes. *)
Lemma insert_blocked : forall p h v x, p <> [] -> wf_heap h -> wf_val h v -> blocked h v p ->
  dot_insert_parts h v p x = (h, None) /\ dot_parts h v p = None.
Proof.
  induction p as [|k r IH]; intros h v x Hp W Wv B; [congruence|].
  destruct (value_obj_dec v) as [[l ->]|N]; [|split; [now apply dot_insert_nonobj|now apply dot_nonobj]].
  destruct Wv as [m G]. pose proof (proj2 (hobj_hget _ _ _) G) as Gm.
  destruct r as [|k2 r].
  - exfalso. destruct B as (q & s & w & E1 & E2 & E3 & E4). destruct q as [|k' q].
    + cbn in E3. injection E3 as <-. eapply E4; eauto.
    + cbn in E1. injection E1 as <- E1. symmetry in E1. apply app_eq_nil in E1 as [-> ->]. congruence.
  - destruct (aget k m) as [y|] eqn:Ek.
    + rewrite dot_insert_cons by congruence. cbn [dot_parts]. rewrite Gm, Ek.
      apply (blocked_cons _ _ _ _ _ _ Gm Ek) in B; [|congruence]. apply IH; auto; [congruence|].
      apply W in G. destruct G as [_ F]. rewrite Forall_forall in F. apply aget_Some_in in Ek. apply (F (k, y) Ek).
    + exfalso. destruct B as (q & s & w & E1 & E2 & E3 & E4). destruct q as [|k' q].
      * cbn in E3. injection E3 as <-. eapply E4; eauto.
      * cbn in E1. injection E1 as <- E1. cbn in E3. rewrite Gm, Ek in E3. discriminate.
Qed.

Lemma insert_reads_back : forall p h v t x h1 o, p <> [] -> repr h v t -> ~ blocked h v p ->
  dot_insert_parts h v p x = (h1, o) -> dot_parts h1 v p = Some x.
Proof.
  induction p as [|k r IH]; intros h v t x h1 o Hp R B E; [congruence|].
  destruct (value_obj_dec v) as [[l ->]|N].
  2:{ exfalso. apply B. exists [], (k :: r), v. repeat split; auto. }
  inversion R as [| | | | |? m ts G F|]; subst. pose proof (proj2 (hobj_hget _ _ _) G) as Gm.
  assert (Hll : l < length h) by (eapply hget_lt; eauto).
  destruct r as [|k2 r].
  - rewrite dot_insert_one, Gm in E. injection E as <- <-. cbn [dot_parts].
    rewrite (proj2 (hobj_hget _ _ (aset k x m))) by now apply hget_hset_eq. now rewrite aget_aset_eq.
  - rewrite dot_insert_cons, Gm in E by congruence. destruct (aget k m) as [y|] eqn:Ek.
    + pose proof (aget_Some_in _ _ _ Ek) as Hin.
      assert (exists ty, repr h y ty) as [ty Ry].
      { destruct (Forall2_in_l _ _ _ _ F Hin) as (? & _ & _ & ?). eauto. }
      assert (Gl : hobj h1 l = Some m).
      { apply hobj_hget. rewrite <- G. eapply insert_modifies; [|eauto|auto|]; [congruence|].
        eapply acyclic_obj; eauto. }
      change (dot_parts h1 (VObj l) (k :: k2 :: r)) with
        (match hobj h1 l with Some m => match aget k m with Some y => dot_parts h1 y (k2 :: r) | None => None end
         | None => None end). rewrite Gl, Ek.
      eapply IH; eauto; [congruence|]. intros C. apply B. eapply blocked_cons; eauto. congruence.
    + apply insert_chain in E as (A & C & D & _).
      * assert (Gl : hobj h1 l = Some (aset k (VObj (length h)) m)).
        { apply hobj_hget. rewrite C by (rewrite ?hset_length, ?app_length; cbn; lia).
          apply hget_hset_eq. rewrite app_length; cbn; lia. }
        change (dot_parts h1 (VObj l) (k :: k2 :: r)) with
        (match hobj h1 l with Some m => match aget k m with Some y => dot_parts h1 y (k2 :: r) | None => None end
         | None => None end). rewrite Gl, aget_aset_eq. exact D.
      * congruence.
      * rewrite hget_hset_ne by lia. apply hget_alloc_new.
Qed.

Lemma diverge_cons : forall k p q, diverge (k :: p) (k :: q) -> diverge p q.
Proof. intros k p q [A B]. split; intros [r Hr]; [apply A|apply B]; exists r; cbn; congruence. Qed.
Lemma diverge_nil : forall q p, diverge p q -> q <> [].
Proof. intros q p [_ B] ->. apply B. exists p. reflexivity. Qed.

Lemma insert_frame : forall p h v t x h1 o q, p <> [] -> repr h v t -> wf_tree t -> tshape h v ->
  dot_insert_parts h v p x = (h1, o) -> diverge p q ->
  dot_parts h1 v q = dot_parts h v q /\
  (forall w tw, dot_parts h v q = Some w -> repr h w tw -> repr h1 w tw).
Proof.
  induction p as [|k r IH]; intros h v t x h1 o q Hp R W T E D; [congruence|].
  destruct (value_obj_dec v) as [[l ->]|N].
  2:{ rewrite dot_insert_nonobj in E by auto. injection E as <- <-. auto. }
  inversion R as [| | | | |? m ts G F|]; subst. pose proof (proj2 (hobj_hget _ _ _) G) as Gm.
  inversion T as [| | | | | |? m0 G0 P Fs]; subst. rewrite G in G0. injection G0 as <-.
  assert (Nd : NoDup (map fst m)) by (rewrite (entries_keys _ _ _ F); inversion W; auto).
  assert (Hll : l < length h) by (eapply hget_lt; eauto).
  destruct q as [|k' s]; [exfalso; eapply diverge_nil; eauto|].
  assert (Hkid : forall y, In (k', y) m -> exists ty, repr h y ty /\ In (k', ty) ts).
  { intros y Hy. destruct (Forall2_in_l _ _ _ _ F Hy) as ([? ?] & A & B & ?). cbn in *. subst. eauto. }
  (* a sibling subtree is left alone *)
  assert (Sib : k' <> k -> (forall y, In (k', y) m -> agree h h1 (reachl h y)) ->
     (exists m', hobj h1 l = Some m' /\ aget k' m' = aget k' m) ->
     dot_parts h1 (VObj l) (k' :: s) = dot_parts h (VObj l) (k' :: s) /\
     (forall w tw, dot_parts h (VObj l) (k' :: s) = Some w -> repr h w tw -> repr h1 w tw)).
  { intros Hne Ha (m' & G1 & E1). cbn [dot_parts]. rewrite G1, Gm, E1.
    destruct (aget k' m) as [y|] eqn:Ey; [|split; [auto|discriminate]].
    apply aget_Some_in in Ey. specialize (Ha y Ey). split; [now apply dot_agree|].
    intros w tw Hw Rw. eapply repr_agree; eauto. intros l' Hl'. apply Ha.
    clear - Hw Hl'. revert y Hw. induction s as [|k0 s IHs]; intros y Hw; cbn in Hw; [injection Hw as <-; auto|].
    destruct y; try discriminate. destruct (hobj h l) as [mm|] eqn:Gg; [|discriminate].
    destruct (aget k0 mm) as [z|] eqn:Ez; [|discriminate]. apply hobj_hget in Gg. apply aget_Some_in in Ez.
    eapply reachl_obj; eauto. }
  destruct r as [|k2 r].
  - rewrite dot_insert_one, Gm in E. injection E as <- <-.
    assert (Hne : k' <> k). { intros ->. destruct D as [D1 _]. apply D1. exists s. reflexivity. }
    apply Sib; auto.
    + intros y Hy. apply agree_hset. eapply acyclic_obj; eauto.
    + exists (aset k x m). split; [apply hobj_hget; now apply hget_hset_eq|]. apply aget_aset_ne. auto.
  - rewrite dot_insert_cons, Gm in E by congruence. destruct (aget k m) as [y|] eqn:Ek.
    + pose proof (aget_Some_in _ _ _ Ek) as Hin.
      destruct (Forall2_in_l _ _ _ _ F Hin) as ([k0 ty] & Hty & Ek0 & Ry). cbn in Ek0, Ry. subst k0.
      destruct (insert_modifies _ _ _ _ _ _ (ltac:(congruence) : k2 :: r <> []) E) as [L M].
      assert (Gl : hobj h1 l = Some m).
      { apply hobj_hget. rewrite <- G. apply M; auto. eapply acyclic_obj; eauto. }
      destruct (String.eqb_spec k' k) as [->|Hne].
      * apply diverge_cons in D. cbn [dot_parts]. rewrite Gl, Gm, Ek.
        eapply (IH h y ty); eauto; [congruence| |].
        -- inversion W as [| | | | | |? ? Fw]; subst. rewrite Forall_forall in Fw. apply (Fw (k, ty)); auto.
        -- rewrite Forall_forall in Fs. apply (Fs (k, y)); auto.
      * apply Sib; auto; [|eauto]. intros z Hz l' Hl'. destruct (Hkid z Hz) as (tz & Rz & _). apply M.
        -- eapply reachl_lt; eauto.
        -- intros C. eapply (pairs_disj h m k y k' z); eauto.
    + assert (G0 : hget (hset (h ++ [CObj []]) l (CObj (aset k (VObj (length h)) m))) (length h) = Some (CObj [])).
      { rewrite hget_hset_ne by lia. apply hget_alloc_new. }
      apply insert_chain in E as (A & C & _ & D4); [|congruence|exact G0].
      rewrite hset_length, app_length in *; cbn [length] in *.
      assert (Gl : hobj h1 l = Some (aset k (VObj (length h)) m)).
      { apply hobj_hget. rewrite C by lia. apply hget_hset_eq. rewrite app_length; cbn; lia. }
      destruct (String.eqb_spec k' k) as [->|Hne].
      * apply diverge_cons in D. cbn [dot_parts]. rewrite Gl, Gm, Ek, aget_aset_eq.
        split; [|discriminate]. destruct (dot_parts h1 (VObj (length h)) s) eqn:Es; auto.
        apply D4 in Es as [?|?]; destruct D; contradiction.
      * apply Sib; auto.
        -- intros z Hz l' Hl'. destruct (Hkid z Hz) as (tz & Rz & _).
           assert (l' < length h) by (eapply reachl_lt; eauto).
           assert (l <> l') by (intros ->; eapply acyclic_obj; eauto).
           rewrite C by lia. rewrite hget_hset_ne by auto. unfold hget. now rewrite nth_error_app1.
        -- eexists. split; [exact Gl|]. apply aget_aset_ne. auto.
Qed.

(** Without any assumption on sharing: exactly one existing object gains or replaces one key. *)
Lemma insert_one_cell : forall p h v x h1 o, p <> [] -> wf_heap h -> wf_val h v -> ~ blocked h v p ->
  dot_insert_parts h v p x = (h1, o) ->
  exists q k r l m y, p = q ++ k :: r /\ dot_parts h v q = Some (VObj l) /\ hget h l = Some (CObj m) /\
    hget h1 l = Some (CObj (aset k y m)) /\ (forall l', l' < length h -> l' <> l -> hget h1 l' = hget h l') /\
    (r = [] -> y = x) /\ (r <> [] -> aget k m = None /\ y = VObj (length h)).
Proof.
  induction p as [|k r IH]; intros h v x h1 o Hp W Wv B E; [congruence|].
  destruct (value_obj_dec v) as [[l ->]|N].
  2:{ exfalso. apply B. exists [], (k :: r), v. repeat split; auto. }
  destruct Wv as [m G]. pose proof (proj2 (hobj_hget _ _ _) G) as Gm.
  assert (Hll : l < length h) by (eapply hget_lt; eauto).
  destruct r as [|k2 r].
  - rewrite dot_insert_one, Gm in E. injection E as <- <-. exists [], k, [], l, m, x.
    split; auto. split; auto. split; auto. split; [now apply hget_hset_eq|].
    split; [intros; apply hget_hset_ne; auto|]. split; auto. congruence.
  - rewrite dot_insert_cons, Gm in E by congruence. destruct (aget k m) as [y|] eqn:Ek.
    + apply IH in E as (q & k' & r' & l' & m' & y' & E1 & E2 & E3); auto; [|congruence| |].
      * exists (k :: q), k', r', l', m', y'. split; [cbn; congruence|]. split; [|exact E3].
        cbn. now rewrite Gm, Ek.
      * apply W in G. destruct G as [_ F]. rewrite Forall_forall in F. apply aget_Some_in in Ek. apply (F (k, y) Ek).
      * intros C. apply B. eapply blocked_cons; eauto. congruence.
    + apply insert_chain in E as (A & C & _ & _); [|congruence|rewrite hget_hset_ne by lia; apply hget_alloc_new].
      rewrite hset_length, app_length in *; cbn [length] in *.
      exists [], k, (k2 :: r), l, m, (VObj (length h)). split; auto. split; auto. split; auto.
      split; [rewrite C by lia; apply hget_hset_eq; rewrite app_length; cbn; lia|].
      split; [|split; [congruence|auto]].
      intros l' H1 H2. rewrite C by lia. rewrite hget_hset_ne by auto. unfold hget. now rewrite nth_error_app1.
Qed.

(** ** Detached insert *)
Definition det_ins (h : heap) (v : value) (parts : list string) (x : value) : heap * bool :=
  match split_last parts with
  | None => (h, false)
  | Some (front, last) =>
      match detach_walk h v front with
      | (h1, Some (VObj l)) =>
          match hobj h1 l with
          | Some m => (hset h1 l (CObj (aset last x m)), true)
          | None => (h1, false)
          end
      | (h1, _) => (h1, false)
      end
  end.
Lemma detached_det : forall h v parts x, dot_insert_detached_parts h v parts x =
  match split_last parts with
  | None => (h, None)
  | _ => let (h0, c) := depth_clone1 h v in
         let (h1, b) := det_ins h0 c parts x in (h1, if b then Some c else None)
  end.
Proof.
  intros. unfold dot_insert_detached_parts, det_ins. destruct (split_last parts) as [[f z]|]; auto.
  destruct (depth_clone1 h v) as [h0 c]. destruct (detach_walk h0 c f) as [h1 [[]|]]; auto.
  destruct (hobj h1 l); auto.
Qed.
Definition det_child (h : heap) (o : option value) : cell :=
  match o with
  | Some (VObj l) => match hobj h l with Some m => CObj m | None => CObj [] end
  | _ => CObj []
  end.
Lemma det_ins_cons : forall h l m k r x, r <> [] -> hobj h l = Some m ->
  (forall l', aget k m = Some (VObj l') -> exists m', hobj h l' = Some m') ->
  det_ins h (VObj l) (k :: r) x =
  det_ins (hset (h ++ [det_child h (aget k m)]) l (CObj (aset k (VObj (length h)) m))) (VObj (length h)) r x.
Proof.
  intros h l m k r x Hr Gm Hw. unfold det_ins. rewrite split_last_cons by auto.
  destruct (split_last_some r Hr) as (i & z & -> & _).
  cbn [detach_walk]. rewrite Gm.
  destruct (aget k m) as [y|] eqn:Ek; [|reflexivity].
  destruct y; try reflexivity. cbn [depth_clone1 det_child]. destruct (Hw _ eq_refl) as [m' E]. rewrite E. reflexivity.
Qed.

Lemma det_ins_ok : forall p h l m x t, p <> [] -> hget h l = Some (CObj m) -> repr h (VObj l) t ->
  exists h1, det_ins h (VObj l) p x = (h1, true) /\ length h <= length h1 /\
    (forall l', l' < length h -> l' <> l -> hget h1 l' = hget h l') /\
    dot_parts h1 (VObj l) p = Some x /\
    (forall q, diverge p q -> dot_parts h1 (VObj l) q = dot_parts h (VObj l) q).
Proof.
  induction p as [|k r IH]; intros h l m x t Hp G R; [congruence|].
  assert (Hll : l < length h) by (eapply hget_lt; eauto).
  pose proof (proj2 (hobj_hget _ _ _) G) as Gm.
  inversion R as [| | | | |? m0 ts G0 F|]; subst. rewrite G in G0. injection G0 as <-.
  assert (Hkid : forall k' y, In (k', y) m -> exists ty, repr h y ty).
  { intros k' y Hy. destruct (Forall2_in_l _ _ _ _ F Hy) as ([? ?] & A & B & ?). eauto. }
  assert (Sib : forall h1 k' s, k' <> k ->
     (exists y', hobj h1 l = Some (aset k y' m)) ->
     (forall l', l' < length h -> l' <> l -> hget h1 l' = hget h l') ->
     dot_parts h1 (VObj l) (k' :: s) = dot_parts h (VObj l) (k' :: s)).
  { intros h1 k' s Hne (y' & G1) Ha. cbn [dot_parts]. rewrite G1, Gm, aget_aset_ne by auto.
    destruct (aget k' m) as [y|] eqn:Ey; auto. apply aget_Some_in in Ey. apply dot_agree.
    destruct (Hkid _ _ Ey) as [ty Ry].
    intros l' Hl'. apply Ha; [eapply reachl_lt; eauto|]. intros ->. eapply acyclic_obj; eauto. }
  destruct r as [|k2 r].
  - exists (hset h l (CObj (aset k x m))). unfold det_ins. cbn [split_last detach_walk]. rewrite Gm.
    assert (G1 : hobj (hset h l (CObj (aset k x m))) l = Some (aset k x m)) by (apply hobj_hget; now apply hget_hset_eq).
    rewrite hset_length. split; auto. split; auto. split; [intros; apply hget_hset_ne; auto|].
    split; [cbn [dot_parts]; now rewrite G1, aget_aset_eq|].
    intros [|k' s] D; [exfalso; eapply diverge_nil; eauto|].
    apply Sib; eauto. { intros ->. destruct D as [D1 _]. apply D1. exists s. reflexivity. }
    intros; apply hget_hset_ne; auto.
  - rewrite (det_ins_cons h l m); auto; [|congruence|].
    2:{ intros l' E. apply aget_Some_in in E. apply Hkid in E as [ty E]. inversion E; subst.
        eexists. apply hobj_hget. eauto. }
    set (c := det_child h (aget k m)).
    set (h0 := hset (h ++ [c]) l (CObj (aset k (VObj (length h)) m))).
    assert (L0 : length h0 = S (length h)) by (unfold h0; rewrite hset_length, app_length; cbn; lia).
    assert (O0 : forall l', l' < length h -> l' <> l -> hget h0 l' = hget h l').
    { intros l' H1 H2. unfold h0. rewrite hget_hset_ne by auto. unfold hget. now rewrite nth_error_app1. }
    assert (N0 : hget h0 (length h) = Some c) by (unfold h0; rewrite hget_hset_ne by lia; apply hget_alloc_new).
    (* the fresh copy reads like the old child *)
    assert (Hc : exists mc tc, c = CObj mc /\ repr h0 (VObj (length h)) tc /\
      forall k' s, dot_parts h0 (VObj (length h)) (k' :: s) =
        match aget k m with Some y => dot_parts h y (k' :: s) | None => None end).
    { assert (Hempty : c = CObj [] -> (forall k' s, match aget k m with Some y => dot_parts h y (k' :: s) | None => None end = None) ->
        exists mc tc, c = CObj mc /\ repr h0 (VObj (length h)) tc /\
      forall k' s, dot_parts h0 (VObj (length h)) (k' :: s) =
        match aget k m with Some y => dot_parts h y (k' :: s) | None => None end).
      { intros Ec Hn. exists [], (TObj []). split; auto. split; [eapply RObj; [rewrite N0, Ec; reflexivity|constructor]|].
        intros k' s. rewrite Hn. cbn [dot_parts]. unfold hobj. rewrite N0, Ec. reflexivity. }
      unfold c in *. destruct (aget k m) as [y|] eqn:Ek; [|apply Hempty; auto].
      destruct y; try (solve [apply Hempty; auto]). clear Hempty.
      apply aget_Some_in in Ek. destruct (Hkid _ _ Ek) as [ty Ry]. inversion Ry as [| | | | |? mc tc Gc Fc|]; subst.
      cbn [det_child] in *. rewrite (proj2 (hobj_hget _ _ _) Gc) in *.
      assert (Ac : agree h h0 (reachl h (VObj l0))).
      { intros l' Hl'. apply O0; [eapply reachl_lt; eauto|]. intros ->. 
        exact (acyclic_obj h l _ m k (VObj l0) R G Ek Hl'). }
      exists mc, (TObj tc). split; auto. split.
      - pose proof (repr_agree _ _ _ _ Ry Ac) as R0. inversion R0 as [| | | | |? mc' ? G' F'|]; subst.
        rewrite Ac, Gc in G' by (right; constructor). injection G' as <-.
        eapply RObj; eauto.
      - intros k' s. rewrite <- (dot_agree (k' :: s) _ _ _ Ac). cbn [dot_parts].
        rewrite (proj2 (hobj_hget h0 (length h) mc) N0).
        rewrite (proj2 (hobj_hget h0 l0 mc)); [reflexivity|].
        rewrite Ac by (right; constructor). auto. }
    destruct Hc as (mc & tc & Ec & Rc & Dc).
    destruct (IH h0 (length h) mc x tc) as (h1 & E1 & L1 & O1 & D1 & D2); [congruence| |auto|].
    { now rewrite N0, Ec. }
    exists h1. split; auto. split; [lia|].
    assert (Gl : hobj h1 l = Some (aset k (VObj (length h)) m)).
    { apply hobj_hget. rewrite O1 by lia. unfold h0. apply hget_hset_eq. rewrite app_length; cbn; lia. }
    assert (Oall : forall l', l' < length h -> l' <> l -> hget h1 l' = hget h l').
    { intros l' H1 H2. rewrite O1 by lia. auto. }
    split; auto. split.
    { change (dot_parts h1 (VObj l) (k :: k2 :: r)) with
        (match hobj h1 l with Some m => match aget k m with Some y => dot_parts h1 y (k2 :: r) | None => None end
         | None => None end). rewrite Gl, aget_aset_eq. exact D1. }
    intros [|k' s] D; [exfalso; eapply diverge_nil; eauto|].
    destruct (String.eqb_spec k' k) as [->|Hne]; [|now apply Sib; eauto].
    apply diverge_cons in D. destruct s as [|k3 s]; [exfalso; eapply diverge_nil; eauto|].
    transitivity (dot_parts h1 (VObj (length h)) (k3 :: s)).
    { change (dot_parts h1 (VObj l) (k :: k3 :: s)) with
        (match hobj h1 l with Some m => match aget k m with Some y => dot_parts h1 y (k3 :: s) | None => None end
         | None => None end). now rewrite Gl, aget_aset_eq. }
    rewrite D2 by auto. rewrite Dc.
    change (dot_parts h (VObj l) (k :: k3 :: s)) with
        (match hobj h l with Some m => match aget k m with Some y => dot_parts h y (k3 :: s) | None => None end
         | None => None end). now rewrite Gm.
Qed.

Lemma detached_ok : forall p h l x t, p <> [] -> repr h (VObj l) t ->
  exists h1 c, dot_insert_detached_parts h (VObj l) p x = (h1, Some c) /\ hext h h1 /\
    dot_parts h1 c p = Some x /\ (forall q, diverge p q -> dot_parts h1 c q = dot_parts h (VObj l) q).
Proof.
  intros p h l x t Hp R. inversion R as [| | | | |? m ts G F|]; subst.
  rewrite detached_det. destruct (split_last_some p Hp) as (i & z & -> & _).
  cbn [depth_clone1]. rewrite (proj2 (hobj_hget _ _ _) G). unfold new_obj, halloc.
  set (h0 := h ++ [CObj m]).
  assert (R0 : repr h0 (VObj (length h)) (TObj ts)).
  { eapply RObj; [apply hget_alloc_new|]. eapply Forall2_imp; [|exact F].
    intros ? ? [? ?]; split; auto. eapply repr_hext; eauto using hext_alloc. }
  destruct (det_ins_ok p h0 (length h) m x _ Hp (hget_alloc_new _ _) R0) as (h1 & E & L & O & D1 & D2).
  rewrite E. exists h1, (VObj (length h)). split; auto.
  assert (Hx : hext h h1).
  { exists (skipn (length h) h1). rewrite <- (firstn_skipn (length h) h1) at 1. f_equal.
    assert (Hf : forall (A : Type) (a b : list A), length a <= length b ->
       (forall i, i < length a -> nth_error b i = nth_error a i) -> firstn (length a) b = a).
    { induction a as [|u a IHa]; intros b Hl Hi; [reflexivity|]. destruct b as [|w b]; [cbn in Hl; lia|].
      pose proof (Hi 0 ltac:(cbn; lia)) as H0. cbn in H0. injection H0 as ->. cbn. f_equal. apply IHa.
      - cbn in Hl; lia.
      - intros j Hj. apply (Hi (S j)). cbn; lia. }
    apply Hf; [unfold h0 in L; rewrite app_length in L; lia|].
    intros j Hj. fold (hget h1 j).
    assert (Hj0 : j < length h0) by (unfold h0; rewrite app_length; lia).
    rewrite O by lia. unfold h0, hget. now rewrite nth_error_app1. }
  split; auto. split; auto. intros q D. rewrite D2 by auto.
  destruct q as [|k s]; [exfalso; eapply diverge_nil; eauto|].
  cbn [dot_parts]. rewrite (proj2 (hobj_hget h0 (length h) m)) by apply hget_alloc_new.
  rewrite (proj2 (hobj_hget _ _ _) G). destruct (aget k m) as [y|] eqn:Ek; auto.
  apply aget_Some_in in Ek. destruct (Forall2_in_l _ _ _ _ F Ek) as ([? ?] & _ & _ & Ry).
  apply dot_agree. eapply agree_hext; eauto. apply hext_alloc.
Qed.
Lemma detached_nonobj : forall p h v x, p <> [] -> (forall l, v <> VObj l) -> wf_val h v ->
  exists h1, dot_insert_detached_parts h v p x = (h1, None) /\ hext h h1.
Proof.
  intros p h v x Hp Hv W. unfold dot_insert_detached_parts.
  destruct (split_last_some p Hp) as (i & z & -> & _).
  assert (K : forall h' w, (forall l, w <> VObj l) -> match detach_walk h' w i with
    | (h1, Some (VObj l)) => match hobj h1 l with
          | Some m => (hset h1 l (CObj (aset z x m)), Some w) | None => (h1, None) end
    | (h1, _) => (h1, None) end = (h', None)).
  { intros h' w Hw. destruct i; destruct w; cbn; auto; exfalso; eapply Hw; reflexivity. }
  destruct v; cbn [depth_clone1]; try (exfalso; eapply Hv; reflexivity);
    try (rewrite K by congruence; eexists; split; [reflexivity|apply hext_refl]).
  destruct W as [a Ga]. rewrite (proj2 (harr_hget _ _ _) Ga). unfold new_arr, halloc.
  rewrite K by congruence. eexists; split; [reflexivity|apply hext_alloc].
Qed.
