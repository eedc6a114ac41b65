(** Facts about references by id. *)
From Coq Require Import String Ascii Bool List Arith Lia.
From Verif Require Import Base Value Heap DotFacts Validate ValidateSpec ValidateFacts HydrateSpec.
Import ListNotations.
Local Open Scope string_scope.
Local Open Scope list_scope.

(** Pools. *)
Lemma stands_iff h input t id o : aget id (pool h input t) = Some o <-> stands_for h input t id o.
Proof.
  unfold pool, stands_for. destruct (dot h input t) as [v |]; [| split; [discriminate | intros [l [a [b [H _]]]]; discriminate]].
  destruct v as [| b0 | n | s | l | l | d]; try (split; [discriminate | intros [l' [a [b [H _]]]]; discriminate]).
  destruct (harr h l) as [a |] eqn:Ea; [| split; [discriminate | intros [l' [a [b [H [H2 _]]]]]; inversion H; subst; congruence]].
  assert (G : forall a p, aget id (fold_left (fun p v => match item_id h v with Some id => aset id v p | None => p end) a p) = Some o <->
    (exists x y, a = x ++ o :: y /\ dot h o "id" = Some (VStr id) /\ forall z, In z y -> dot h z "id" <> Some (VStr id)) \/
    (aget id p = Some o /\ forall z, In z a -> dot h z "id" <> Some (VStr id))).
  { clear a Ea. induction a as [| v a IH]; intro p; cbn [fold_left].
    - split; [intro H; right; split; [exact H | intros z []] |]. intros [[x [y [H _]]] | [H _]]; [destruct x; discriminate | exact H].
    - rewrite IH. split.
      + intros [[x [y [-> [H1 H2]]]] | [H1 H2]].
        * left. exists (v :: x), y. auto.
        * destruct (item_id h v) as [k |] eqn:Ek.
          -- apply item_id_iff in Ek. destruct (string_dec k id) as [-> | Hne].
             ++ rewrite aget_aset_eq in H1. inversion H1; subst v. left. exists [], a. auto.
             ++ rewrite aget_aset_ne in H1 by exact Hne. right. split; [exact H1 |]. intros z [<- | Hz]; [congruence | apply H2, Hz].
          -- right. split; [exact H1 |]. intros z [<- | Hz]; [| apply H2, Hz]. intro H. apply item_id_iff in H. congruence.
      + intros [[x [y [H0 [H1 H2]]]] | [H1 H2]].
        * destruct x as [| x0 x]; cbn [app] in H0; inversion H0; subst.
          -- right. assert (Ek := proj2 (item_id_iff h o id) H1). rewrite Ek. split; [apply aget_aset_eq | exact H2].
          -- left. exists x, y. auto.
        * right. split; [| intros z Hz; apply H2; right; exact Hz]. destruct (item_id h v) as [k |] eqn:Ek; [| exact H1].
          apply item_id_iff in Ek. rewrite aget_aset_ne; [exact H1 |]. intros ->. apply (H2 v); [left; reflexivity | exact Ek]. }
  rewrite G. split.
  - intros [[x [y [-> [H1 H2]]]] | [H _]]; [exists l, x, y; auto | discriminate].
  - intros [l' [x [y [H0 [H1 [H2 H3]]]]]]. inversion H0; subst l'. rewrite Ea in H1. inversion H1; subst a. left. exists x, y. auto.
Qed.
Lemma stands_obj h input t id o : stands_for h input t id o -> exists l, o = VObj l.
Proof. intros [l [a [b [_ [_ [H _]]]]]]. unfold dot in H. destruct o as [| | | | | lo |]; try discriminate. exists lo. reflexivity. Qed.
Lemma stands_slot h input t id o : stands_for h input t id o -> exists s, slot_get h s = Some o.
Proof.
  intros [l [a [b [_ [Ha _]]]]]. exists (SAt l (length a)). cbn [slot_get]. rewrite Ha. rewrite nth_error_app2 by lia. rewrite Nat.sub_diag. reflexivity.
Qed.

(** The declared fields. *)
Lemma plain_two a b : plain a -> plain b -> split_dot (a ++ "." ++ b)%string = [a; b].
Proof.
  unfold plain, split_dot. intros Ha Hb.
  assert (G : forall a, split_on dot_char a = [a] -> split_on dot_char (a ++ "." ++ b)%string = a :: split_on dot_char b).
  { clear a Ha. induction a as [| c a IH]; intro H; [reflexivity |].
    cbn [String.append split_on] in *. destruct (Ascii.eqb c dot_char) eqn:E.
    - exfalso. destruct (split_on dot_char a); inversion H.
    - destruct (split_on dot_char a) as [| x r] eqn:Es.
      + exfalso. destruct a; cbn [split_on] in Es; [discriminate | destruct (Ascii.eqb a dot_char); [discriminate | destruct (split_on dot_char a0); discriminate]].
      + inversion H; subst. rewrite IH by reflexivity. reflexivity. }
  rewrite G by exact Ha. rewrite Hb. reflexivity.
Qed.
Lemma field_iff models f : plain_names models -> In f (reference_fields models) -> ref_declared models (split_dot (f_path f)) (f_target f) (f_array f).
Proof.
  intros Hp H. unfold reference_fields in H. apply in_flat_map in H. destruct H as [m [Hm H]]. apply in_flat_map in H. destruct H as [p [Hin H]].
  destruct (p_kind p) as [| | | | | | t] eqn:Ek; try destruct H; try contradiction. subst f. cbn [f_path f_target f_array]. exists m, p. split; [exact Hm |]. split; [exact Hin |]. split; [exact Ek |]. split; [reflexivity |].
  destruct (Hp m Hm) as [H1 H2]. destruct (m_global m); [exact (H2 p Hin) | apply plain_two; [exact H1 | exact (H2 p Hin)]].
Qed.
Lemma field_ex models path t b : plain_names models -> ref_declared models path t b -> exists f, In f (reference_fields models) /\ split_dot (f_path f) = path /\ f_target f = t /\ f_array f = b.
Proof.
  intros Hp [m [p [Hm [Hin [Hk [Ha ->]]]]]]. exists (RefField (if m_global m then p_name p else m_name m ++ "." ++ p_name p)%string t (p_array p)). cbn [f_path f_target f_array]. split.
  - apply in_flat_map. exists m. split; [exact Hm |]. apply in_flat_map. exists p. split; [exact Hin |]. rewrite Hk. left. reflexivity.
  - split; [| auto]. destruct (Hp m Hm) as [H1 H2]. destruct (m_global m); [exact (H2 p Hin) | apply plain_two; [exact H1 | exact (H2 p Hin)]].
Qed.

Section Hydrate.
  Variable pools : string -> option (amap value).
  Hypothesis pool_obj : forall t p id o, pools t = Some p -> aget id p = Some o -> exists l, o = VObj l.
  Definition item (id : string) (o : value) : Prop := exists t p, pools t = Some p /\ aget id p = Some o.
  (** Slots change only from an id to the item it stands for. *)
  Definition grown (h h' : heap) : Prop := forall s, slot_get h' s = slot_get h s \/ exists id o, slot_get h s = Some (VStr id) /\ slot_get h' s = Some o /\ item id o.
  Lemma grown_refl h : grown h h. Proof. intro s. left. reflexivity. Qed.
  Lemma grown_trans a b c : grown a b -> grown b c -> grown a c.
  Proof.
    intros H1 H2 s. destruct (H2 s) as [E | [id [o [E1 [E2 Hi]]]]].
    - rewrite E. apply H1.
    - right. destruct (H1 s) as [F | [id' [o' [F1 [F2 [t [p [Ht Hg]]]]]]]].
      + exists id, o. rewrite F in E1. auto.
      + destruct (pool_obj t p id' o' Ht Hg) as [l ->]. congruence.
  Qed.
  Lemma grown_keeps h h' s v : grown h h' -> slot_get h s = Some v -> (forall id, v <> VStr id) -> slot_get h' s = Some v.
  Proof. intros H E Hv. destruct (H s) as [F | [id [o [F _]]]]; [congruence | exfalso; apply (Hv id); congruence]. Qed.
  Lemma grown_back h h' s v : grown h h' -> slot_get h' s = Some v -> (forall l, v <> VObj l) -> slot_get h s = Some v.
  Proof.
    intros H E Hv. destruct (H s) as [F | [id [o [_ [F [t [p [Ht Hg]]]]]]]]; [congruence |]. destruct (pool_obj t p id o Ht Hg) as [l ->]. exfalso. apply (Hv l). congruence.
  Qed.
  (** An insertion where something already is. *)
  Lemma insert_slot parts : forall h v x old, parts <> [] -> dot_parts h v parts = Some old -> exists l k, slot_get h (SKey l k) = Some old /\
    (exists front, parts = front ++ [k] /\ dot_parts h v front = Some (VObj l)) /\
    (forall s, slot_get (fst (dot_insert_parts h v parts x)) s = if match s with SKey l' k' => Nat.eqb l l' && String.eqb k k' | _ => false end then Some x else slot_get h s).
  Proof.
    induction parts as [| k r IH]; intros h v x old Hne Hd; [congruence |].
    destruct v as [| | | | | l |]; try discriminate. cbn [dot_parts] in Hd. destruct (hobj h l) as [m |] eqn:Em; [| discriminate].
    destruct (aget k m) as [y |] eqn:Ek; [| discriminate]. destruct r as [| k2 r].
    - cbn [dot_parts] in Hd. inversion Hd; subst y. exists l, k. cbn [slot_get]. rewrite Em, Ek. split; [reflexivity |]. split; [exists []; auto |].
      intro s. rewrite dot_insert_one, Em. cbn [fst]. assert (Hlt : l < length h) by (apply hobj_hget in Em; apply hget_lt in Em; exact Em).
      assert (Hh : hget (hset h l (CObj (aset k x m))) l = Some (CObj (aset k x m))) by (apply hget_hset_eq, Hlt).
      destruct s as [l' k' | l' i]; cbn [slot_get].
      + destruct (Nat.eqb_spec l l') as [<- | Hl]; cbn [andb].
        * assert (Ho := proj2 (hobj_hget _ _ _) Hh). rewrite Ho. destruct (String.eqb_spec k k') as [<- | Hk]; [apply aget_aset_eq | rewrite aget_aset_ne by exact Hk; rewrite Em; reflexivity].
        * unfold hobj. rewrite hget_hset_ne by exact Hl. reflexivity.
      + unfold harr. destruct (Nat.eqb_spec l l') as [<- | Hl]; [rewrite Hh; apply hobj_hget in Em; rewrite Em; reflexivity | rewrite hget_hset_ne by exact Hl; reflexivity].
    - destruct (IH h y x old ltac:(discriminate) Hd) as [l1 [k1 [H1 [[front [Hf1 Hf2]] H3]]]]. exists l1, k1. split; [exact H1 |]. split.
      + exists (k :: front). split; [rewrite Hf1; reflexivity |]. cbn [dot_parts]. rewrite Em, Ek. exact Hf2.
      + intro s. rewrite dot_insert_cons by discriminate. rewrite Em, Ek. apply H3.
  Qed.
  Definition swap (p : amap value) (x : value) : value := match x with VStr id => match aget id p with Some o => o | None => x end | _ => x end.
  Lemma array_slot h l a p : harr h l = Some a -> forall s, slot_get (hset h l (CArr (map (swap p) a))) s =
    match s with SAt l' i => if Nat.eqb l l' then option_map (swap p) (nth_error a i) else slot_get h s | _ => slot_get h s end.
  Proof.
    intro Ea. assert (Hlt : l < length h) by (apply harr_hget in Ea; apply hget_lt in Ea; exact Ea).
    assert (Hh := hget_hset_eq h l (CArr (map (swap p) a)) Hlt). intros [l' k | l' i]; cbn [slot_get].
    - unfold hobj. destruct (Nat.eq_dec l l') as [<- | Hl]; [rewrite Hh; apply harr_hget in Ea; rewrite Ea; reflexivity | rewrite hget_hset_ne by exact Hl; reflexivity].
    - unfold harr. destruct (Nat.eqb_spec l l') as [<- | Hl]; [rewrite Hh; apply nth_error_map | rewrite hget_hset_ne by exact Hl; reflexivity].
  Qed.
  Lemma split_dot_nonnil s : split_dot s <> [].
  Proof. unfold split_dot. induction s as [| c s IH]; cbn [split_on]; [discriminate |]. destruct (Ascii.eqb c dot_char); [discriminate |]. destruct (split_on dot_char s); [contradiction | discriminate]. Qed.
  (** What one field does. *)
  Inductive effect (store : value) (h : heap) (f : ref_field) : heap -> Prop :=
  | ENone : (forall p, pools (f_target f) = Some p -> match dot h store (f_path f) with
        | Some (VStr id) => f_array f = true \/ aget id p = None
        | Some (VArr l) => f_array f = false \/ harr h l = None
        | _ => True end) -> effect store h f h
  | EOne : forall p id o l k front h', pools (f_target f) = Some p -> aget id p = Some o -> slot_get h (SKey l k) = Some (VStr id) -> split_dot (f_path f) = front ++ [k] ->
      dot_parts h store front = Some (VObj l) -> dot h store (f_path f) = Some (VStr id) ->
      (forall s, slot_get h' s = if match s with SKey l' k' => Nat.eqb l l' && String.eqb k k' | _ => false end then Some o else slot_get h s) -> effect store h f h'
  | EMany : forall p l a h', pools (f_target f) = Some p -> harr h l = Some a -> dot h store (f_path f) = Some (VArr l) ->
      (forall s, slot_get h' s = match s with SAt l' i => if Nat.eqb l l' then option_map (swap p) (nth_error a i) else slot_get h s | _ => slot_get h s end) -> effect store h f h'.
  Lemma field_effect store h f : effect store h f (hydrate_field pools store h f).
  Proof.
    unfold hydrate_field. destruct (pools (f_target f)) as [p |] eqn:Ep; [| apply ENone; intros p H; congruence].
    destruct (dot h store (f_path f)) as [v |] eqn:Ed; [| apply ENone; intros q H; rewrite Ed; exact Logic.I].
    destruct (f_array f) eqn:Ea.
    - destruct v as [| | | id | l | |]; try (apply ENone; intros q H; rewrite Ed; first [exact Logic.I | left; exact Ea]).
      destruct (harr h l) as [a |] eqn:El; [| apply ENone; intros q H; rewrite Ed; right; exact El].
      apply (EMany store h f p l a); auto. apply array_slot, El.
    - destruct v as [| | | id | l | |]; try (apply ENone; intros q H; rewrite Ed; first [exact Logic.I | left; exact Ea]).
      destruct (aget id p) as [o |] eqn:Eo; [| apply ENone; intros q H; rewrite Ed; right; congruence].
      destruct (insert_slot (split_dot (f_path f)) h store o (VStr id) (split_dot_nonnil _) Ed) as [l [k [H1 [[front [H2 H3]] H4]]]].
      apply (EOne store h f p id o l k front); auto.
  Qed.
  Lemma effect_grown store h f h' : effect store h f h' -> grown h h'.
  Proof.
    intros [H | p id o l k front h1 Hp Hg Hs Hf Hd Hdd Hh | p l a h1 Hp Ha Hd Hh].
    - apply grown_refl.
    - intros s. rewrite Hh. destruct s as [l' k' | l' i]; [| left; reflexivity].
      destruct (Nat.eqb_spec l l') as [<- | Hl]; [| left; reflexivity]. destruct (String.eqb_spec k k') as [<- | Hk]; [| left; reflexivity].
      right. exists id, o. split; [exact Hs |]. split; [reflexivity | exists (f_target f), p; auto].
    - intros s. rewrite Hh. destruct s as [l' k' | l' i]; [left; reflexivity |]. destruct (Nat.eqb_spec l l') as [<- | Hl]; [| left; reflexivity].
      cbn [slot_get]. rewrite Ha. destruct (nth_error a i) as [v |]; [| left; reflexivity]. cbn [option_map]. unfold swap.
      destruct v as [| | | id | | |]; try (left; reflexivity). destruct (aget id p) as [o |] eqn:Eo; [| left; reflexivity].
      right. exists id, o. split; [reflexivity |]. split; [reflexivity | exists (f_target f), p; auto].
  Qed.
  Lemma hydrate_grown store fs : forall h, grown h (fold_left (hydrate_field pools store) fs h).
  Proof.
    induction fs as [| f fs IH]; intro h; cbn [fold_left]; [apply grown_refl |]. apply (grown_trans _ (hydrate_field pools store h f)); [| apply IH]. apply (effect_grown store h f), field_effect.
  Qed.

  (** The store is an object nothing points to. *)
  Variable l0 : loc.
  Hypothesis item_away : forall id o, item id o -> o <> VObj l0.
  Definition away (h : heap) : Prop := forall s, slot_get h s <> Some (VObj l0).
  Lemma grown_away h h' : grown h h' -> away h -> away h'.
  Proof. intros H Ha s E. destruct (H s) as [F | [id [o [_ [F Hi]]]]]; [apply (Ha s); congruence | apply (item_away id o Hi); congruence]. Qed.
  Variable fs : list ref_field.
  Hypothesis shape : forall f, In f fs -> (exists p, split_dot (f_path f) = [p]) \/ exists e p, split_dot (f_path f) = [e; p].
  Hypothesis fapart : forall f g e p, In f fs -> In g fs -> split_dot (f_path f) = [e] -> split_dot (f_path g) <> [e; p].
  (** The entities of the store stay. *)
  Lemma entity_stays e p g : In g fs -> split_dot (f_path g) = [e; p] -> forall fs', incl fs' fs -> forall h, away h ->
    slot_get (fold_left (hydrate_field pools (VObj l0)) fs' h) (SKey l0 e) = slot_get h (SKey l0 e).
  Proof.
    intros Hg Hsg. induction fs' as [| f fs' IH]; intros Hinc h Ha; cbn [fold_left]; [reflexivity |].
    assert (Hf : In f fs) by (apply Hinc; left; reflexivity). assert (He := field_effect (VObj l0) h f). assert (Hgr := effect_grown _ _ _ _ He).
    rewrite IH; [| intros x Hx; apply Hinc; right; exact Hx | exact (grown_away _ _ Hgr Ha)].
    destruct He as [_ | p1 id o l k front h1 Hp Hgt Hs Hsp Hd Hdd Hh | p1 l a h1 Hp Hat Hd Hh]; [reflexivity | | rewrite Hh; reflexivity].
    rewrite Hh. destruct (Nat.eqb_spec l l0) as [Hl | Hl]; [| reflexivity]. destruct (String.eqb_spec k e) as [Hk | Hk]; [| reflexivity]. exfalso. subst l k.
    destruct (shape f Hf) as [[q Hq] | [e2 [q Hq]]].
    - apply (fapart f g e p Hf Hg); [| exact Hsg]. rewrite Hq in Hsp. destruct front as [| x front]; cbn in Hsp; [congruence |]. destruct front; discriminate.
    - rewrite Hq in Hsp. destruct front as [| x [| y front]]; cbn in Hsp; [discriminate | | destruct front; discriminate]. inversion Hsp; subst.
      cbn [dot_parts] in Hd. destruct (hobj h l0) as [m |] eqn:Em; [| discriminate]. destruct (aget x m) as [y |] eqn:Ex; [| discriminate]. inversion Hd; subst y.
      apply (Ha (SKey l0 x)). cbn [slot_get]. rewrite Em. exact Ex.
  Qed.
  (** The place of a field. *)
  Lemma field_slot h f v : In f fs -> dot h (VObj l0) (f_path f) = Some v ->
    (exists p, split_dot (f_path f) = [p] /\ slot_get h (SKey l0 p) = Some v) \/
    (exists e p l, split_dot (f_path f) = [e; p] /\ slot_get h (SKey l0 e) = Some (VObj l) /\ slot_get h (SKey l p) = Some v).
  Proof.
    intros Hf Hd. unfold dot in Hd. destruct (shape f Hf) as [[p Hp] | [e [p Hp]]]; rewrite Hp in Hd |- *; cbn [dot_parts] in Hd.
    - left. exists p. split; [reflexivity |]. cbn [slot_get]. destruct (hobj h l0); [| discriminate]. destruct (aget p a); [congruence | discriminate].
    - right. cbn [slot_get]. destruct (hobj h l0) as [m |]; [| discriminate]. destruct (aget e m) as [x |] eqn:Ee; [| discriminate]. destruct x as [| | | | | l |]; try discriminate.
      destruct (hobj h l) as [m' |] eqn:El; [| discriminate]. destruct (aget p m') as [y |] eqn:Ey; [| discriminate]. inversion Hd; subst y. exists e, p, l. split; [reflexivity |]. split; [exact Ee |]. cbn [slot_get]. rewrite El. exact Ey.
  Qed.
  Lemma slot_field h f v : In f fs -> ((exists p, split_dot (f_path f) = [p] /\ slot_get h (SKey l0 p) = Some v) \/
    (exists e p l, split_dot (f_path f) = [e; p] /\ slot_get h (SKey l0 e) = Some (VObj l) /\ slot_get h (SKey l p) = Some v)) -> dot h (VObj l0) (f_path f) = Some v.
  Proof.
    intros Hf H. unfold dot. destruct H as [[p [-> H]] | [e [p [l [-> [H1 H2]]]]]]; cbn [dot_parts slot_get] in *.
    - destruct (hobj h l0); [| discriminate]. rewrite H. reflexivity.
    - destruct (hobj h l0) as [m |]; [| discriminate]. rewrite H1. destruct (hobj h l); [| discriminate]. rewrite H2. reflexivity.
  Qed.
  (** What a field holds at the end, before it was an object, it held all along. *)
  Lemma field_back f v : In f fs -> (forall l, v <> VObj l) -> forall fs', incl fs' fs -> forall h, away h ->
    dot (fold_left (hydrate_field pools (VObj l0)) fs' h) (VObj l0) (f_path f) = Some v -> dot h (VObj l0) (f_path f) = Some v.
  Proof.
    intros Hf Hv fs' Hinc h Ha Hd. assert (Hgr := hydrate_grown (VObj l0) fs' h). apply (field_slot _ f v Hf) in Hd. apply slot_field; [exact Hf |].
    destruct Hd as [[p [Hp Hs]] | [e [p [l [Hp [Hs1 Hs2]]]]]].
    - left. exists p. split; [exact Hp |]. exact (grown_back _ _ _ _ Hgr Hs Hv).
    - right. exists e, p, l. split; [exact Hp |]. rewrite (entity_stays e p f Hf Hp fs' Hinc h Ha) in Hs1. split; [exact Hs1 | exact (grown_back _ _ _ _ Hgr Hs2 Hv)].
  Qed.
  Lemma resolved_one f p id : In f fs -> f_array f = false -> pools (f_target f) = Some p -> forall fs', incl fs' fs -> In f fs' -> forall h, away h ->
    dot (fold_left (hydrate_field pools (VObj l0)) fs' h) (VObj l0) (f_path f) = Some (VStr id) -> aget id p = None.
  Proof.
    intros Hf Hone Hp. induction fs' as [| g fs' IH]; intros Hinc Hin h Ha Hd; [destruct Hin |]. cbn [fold_left] in Hd.
    assert (He := field_effect (VObj l0) h g). assert (Hgr := effect_grown _ _ _ _ He). assert (Ha' := grown_away _ _ Hgr Ha).
    assert (Hinc' : incl fs' fs) by (intros x Hx; apply Hinc; right; exact Hx).
    destruct Hin as [-> | Hin]; [| exact (IH Hinc' Hin _ Ha' Hd)].
    apply (field_back f (VStr id) Hf ltac:(discriminate) fs' Hinc' _ Ha') in Hd. revert Hd Hgr.
    destruct He as [H | p1 id1 o l k front h1 Hp1 Hgt Hs Hsp Hdp Hdd Hh | p1 l a h1 Hp1 Hat Hd1 Hh]; intros Hd Hgr.
    - specialize (H p Hp). rewrite Hd in H. destruct H as [H | H]; [congruence | exact H].
    - exfalso. destruct (pool_obj _ _ _ _ Hp1 Hgt) as [lo ->]. apply (field_slot _ f _ Hf) in Hd. destruct Hd as [[q [Hq Hs1]] | [e [q [l2 [Hq [Hs1 Hs2]]]]]].
      + rewrite Hq in Hsp. destruct front as [| x front]; cbn in Hsp; [| destruct front; discriminate]. inversion Hsp; subst q. cbn [dot_parts] in Hdp. inversion Hdp; subst l.
        rewrite Hh in Hs1. rewrite Nat.eqb_refl, String.eqb_refl in Hs1. discriminate.
      + rewrite Hq in Hsp. destruct front as [| x [| y front]]; cbn in Hsp; [discriminate | | destruct front; discriminate]. inversion Hsp; subst.
        assert (Hse : slot_get h (SKey l0 x) = Some (VObj l)).
        { cbn [dot_parts] in Hdp. cbn [slot_get]. destruct (hobj h l0) as [m |]; [| discriminate]. destruct (aget x m) as [y |] eqn:Ex; [| discriminate]. congruence. }
        assert (l2 = l).
        { rewrite (grown_keeps _ _ _ _ Hgr Hse ltac:(discriminate)) in Hs1. congruence. }
        subst l2. rewrite Hh in Hs2. rewrite Nat.eqb_refl, String.eqb_refl in Hs2. discriminate.
    - exfalso. apply (field_slot _ f _ Hf) in Hd. assert (Hd2 := field_slot _ f _ Hf Hd1).
      destruct Hd as [[q [Hq Hs1]] | [e [q [l2 [Hq [Hs1 Hs2]]]]]]; destruct Hd2 as [[q' [Hq' Hs1']] | [e' [q' [l2' [Hq' [Hs1' Hs2']]]]]]; rewrite Hq in Hq'; inversion Hq'; subst; rewrite Hh in *; congruence.
  Qed.
  Lemma resolved_many f p la i id : In f fs -> f_array f = true -> pools (f_target f) = Some p -> forall fs', incl fs' fs -> In f fs' -> forall h, away h ->
    dot (fold_left (hydrate_field pools (VObj l0)) fs' h) (VObj l0) (f_path f) = Some (VArr la) ->
    slot_get (fold_left (hydrate_field pools (VObj l0)) fs' h) (SAt la i) = Some (VStr id) -> aget id p = None.
  Proof.
    intros Hf Hone Hp. induction fs' as [| g fs' IH]; intros Hinc Hin h Ha Hd Hs; [destruct Hin |]. cbn [fold_left] in Hd, Hs.
    assert (He := field_effect (VObj l0) h g). assert (Hgr := effect_grown _ _ _ _ He). assert (Ha' := grown_away _ _ Hgr Ha).
    assert (Hinc' : incl fs' fs) by (intros x Hx; apply Hinc; right; exact Hx).
    destruct Hin as [-> | Hin]; [| exact (IH Hinc' Hin _ Ha' Hd Hs)].
    apply (field_back f (VArr la) Hf ltac:(discriminate) fs' Hinc' _ Ha') in Hd.
    apply (grown_back _ _ _ _ (hydrate_grown (VObj l0) fs' _)) in Hs; [| discriminate].
    assert (Hd0 : dot h (VObj l0) (f_path f) = Some (VArr la)) by (apply (field_back f (VArr la) Hf ltac:(discriminate) [f]); [intros x [<- | []]; exact Hf | exact Ha | exact Hd]).
    revert Hd Hs.
    destruct He as [H | p1 id1 o l k front h1 Hp1 Hgt Hs Hsp Hdp Hdd Hh | p1 l a h1 Hp1 Hat Hd1 Hh]; intros Hd Hsl.
    - specialize (H p Hp). rewrite Hd0 in H. destruct H as [H | H]; [congruence |]. cbn [slot_get] in Hsl. rewrite H in Hsl. discriminate.
    - exfalso. congruence.
    - rewrite Hd0 in Hd1. inversion Hd1; subst l. rewrite Hh, Nat.eqb_refl in Hsl. destruct (nth_error a i) as [v |]; [| discriminate]. cbn [option_map] in Hsl.
      inversion Hsl as [Hw]. assert (p1 = p) by congruence. subst p1. unfold swap in Hw. destruct v as [| | | id2 | | |]; try discriminate.
      destruct (aget id2 p) as [o |] eqn:Eo; [destruct (pool_obj _ _ _ _ Hp Eo) as [lo ->]; discriminate | congruence].
  Qed.
End Hydrate.

(** The store. *)
Lemma dot_app : forall q h c v, wf_heap h -> wf_val h v -> dot_parts (h ++ [c]) v q = dot_parts h v q.
Proof.
  induction q as [| k q IH]; intros h c v Hw Hv; [reflexivity |]. cbn [dot_parts]. destruct v as [| | | | | l |]; try reflexivity.
  destruct Hv as [m Hm]. assert (Hm' := hget_app_l h [c] l _ Hm). apply hobj_hget in Hm, Hm'. rewrite Hm, Hm'. destruct (aget k m) as [x |] eqn:Ex; [| reflexivity].
  apply IH; [exact Hw |]. apply hobj_hget in Hm. destruct (Hw l _ Hm) as [_ Hf]. rewrite Forall_forall in Hf. apply aget_Some_in in Ex. exact (Hf _ Ex).
Qed.
Lemma dot_wf : forall q h v x, wf_heap h -> wf_val h v -> dot_parts h v q = Some x -> wf_val h x.
Proof.
  induction q as [| k q IH]; intros h v x Hw Hv Hd; cbn [dot_parts] in Hd; [inversion Hd; subst; exact Hv |]. destruct v as [| | | | | l |]; try discriminate.
  destruct (hobj h l) as [m |] eqn:Em; [| discriminate]. destruct (aget k m) as [y |] eqn:Ey; [| discriminate]. apply (IH h y x Hw); [| exact Hd].
  apply hobj_hget in Em. destruct (Hw l _ Em) as [_ Hf]. rewrite Forall_forall in Hf. apply aget_Some_in in Ey. exact (Hf _ Ey).
Qed.
Section Store.
  Variable models : list model.
  Variable h : heap.
  Variable l : loc.
  Variable m : amap value.
  Hypothesis Hw : wf_heap h.
  Hypothesis Hm : hget h l = Some (CObj m).
  Notation h0 := (h ++ [CObj m]).
  Notation l0 := (length h).
  Lemma clone_eq : depth_clone1 h (VObj l) = (h0, VObj l0).
  Proof. cbn [depth_clone1]. rewrite (proj2 (hobj_hget _ _ _) Hm). reflexivity. Qed.
  Lemma store_obj : hobj h0 l0 = Some m.
  Proof. apply hobj_hget, hget_alloc_new. Qed.
  Lemma store_dot key : dot h0 (VObj l0) key = dot h (VObj l) key.
  Proof.
    unfold dot. assert (Hn := split_dot_nonnil key). destruct (split_dot key) as [| k r]; [contradiction |]. cbn [dot_parts]. rewrite store_obj.
    rewrite (proj2 (hobj_hget _ _ _) Hm). destruct (aget k m) as [x |] eqn:Ex; [| reflexivity]. apply dot_app; [exact Hw |].
    destruct (Hw l _ Hm) as [_ Hf]. rewrite Forall_forall in Hf. apply aget_Some_in in Ex. exact (Hf _ Ex).
  Qed.
  Lemma harr_app la : wf_val h (VArr la) -> harr h0 la = harr h la.
  Proof. intros [a Ha]. assert (Ha' := hget_app_l h [CObj m] la _ Ha). apply harr_hget in Ha, Ha'. congruence. Qed.
  Lemma store_stands t id o : stands_for h0 (VObj l0) t id o <-> stands_for h (VObj l) t id o.
  Proof.
    unfold stands_for. setoid_rewrite store_dot. assert (Hi : wf_val h (VObj l)) by (exists m; exact Hm).
    assert (G : forall la a, dot h (VObj l) t = Some (VArr la) -> harr h0 la = Some a -> harr h la = Some a /\ forall x, In x a -> dot h0 x "id" = dot h x "id").
    { intros la a Hd Ha. assert (Hwa := dot_wf _ _ _ _ Hw Hi Hd). rewrite (harr_app la Hwa) in Ha. split; [exact Ha |]. intros x Hx. apply dot_app; [exact Hw |].
      apply harr_hget in Ha. assert (Hc := Hw la _ Ha). cbn [wf_cell] in Hc. rewrite Forall_forall in Hc. exact (Hc x Hx). }
    split; intros [la [a [b [H1 [H2 [H3 H4]]]]]]; exists la, a, b.
    - destruct (G la _ H1 H2) as [G1 G2]. split; [exact H1 |]. split; [exact G1 |]. split; [rewrite <- G2; [exact H3 | apply in_or_app; right; left; reflexivity] |].
      intros x Hx. rewrite <- G2; [exact (H4 x Hx) | apply in_or_app; right; right; exact Hx].
    - assert (H2' : harr h0 la = Some (a ++ o :: b)) by (rewrite (harr_app la (dot_wf _ _ _ _ Hw Hi H1)); exact H2).
      destruct (G la _ H1 H2') as [G1 G2]. split; [exact H1 |]. split; [exact H2' |]. split; [rewrite G2; [exact H3 | apply in_or_app; right; left; reflexivity] |].
      intros x Hx. rewrite G2; [exact (H4 x Hx) | apply in_or_app; right; right; exact Hx].
  Qed.
  Lemma slot_wf s v : slot_get h s = Some v -> wf_val h v.
  Proof.
    destruct s as [a k | a i]; cbn [slot_get]; intro H.
    - destruct (hobj h a) as [ma |] eqn:Ea; [| discriminate]. apply hobj_hget in Ea. destruct (Hw a _ Ea) as [_ Hf]. rewrite Forall_forall in Hf. apply aget_Some_in in H. exact (Hf _ H).
    - destruct (harr h a) as [ma |] eqn:Ea; [| discriminate]. apply harr_hget in Ea. assert (Hc := Hw a _ Ea). cbn [wf_cell] in Hc. rewrite Forall_forall in Hc. apply nth_error_In in H. exact (Hc _ H).
  Qed.
  Lemma slot_h0 s : slot_get h0 s = match s with SKey a k => if Nat.eqb a l0 then aget k m else slot_get h s | SAt a i => slot_get h s end.
  Proof.
    destruct s as [a k | a i]; cbn [slot_get].
    - destruct (Nat.eqb_spec a l0) as [-> | Hne]; [rewrite store_obj; reflexivity |]. unfold hobj, hget.
      destruct (Nat.lt_ge_cases a l0) as [Hlt | Hge]; [rewrite nth_error_app1 by exact Hlt; reflexivity |].
      rewrite (proj2 (nth_error_None h0 a)) by (rewrite app_length; cbn; lia). rewrite (proj2 (nth_error_None h a)) by lia. reflexivity.
    - unfold harr, hget. destruct (Nat.lt_ge_cases a l0) as [Hlt | Hge]; [rewrite nth_error_app1 by exact Hlt; reflexivity |].
      rewrite (proj2 (nth_error_None h a)) by lia. destruct (Nat.eq_dec a l0) as [-> | Hne].
      + assert (Hx := hget_alloc_new h (CObj m)). unfold hget in Hx. rewrite Hx. reflexivity.
      + rewrite (proj2 (nth_error_None h0 a)) by (rewrite app_length; cbn; lia). reflexivity.
  Qed.
  Lemma store_away : away l0 h0.
  Proof.
    assert (G2 : forall s, slot_get h s <> Some (VObj l0)) by (intros s H; apply slot_wf in H; destruct H as [c Hc]; apply hget_lt in Hc; lia).
    intros s H. rewrite slot_h0 in H. destruct s as [a k | a i]; [| exact (G2 _ H)]. destruct (Nat.eqb a l0); [| exact (G2 _ H)].
    apply (G2 (SKey l k)). cbn [slot_get]. rewrite (proj2 (hobj_hget _ _ _) Hm). exact H.
  Qed.
  Definition spools (t : string) : option (amap value) := if existsb (fun f => String.eqb (f_target f) t) (reference_fields models) then Some (pool h0 (VObj l0) t) else None.
  Lemma open_eq : open_store models h (VObj l) = (fold_left (hydrate_field spools (VObj l0)) (reference_fields models) h0, VObj l0).
  Proof. unfold open_store. rewrite clone_eq. reflexivity. Qed.
  Lemma spools_obj t p id o : spools t = Some p -> aget id p = Some o -> exists lo, o = VObj lo.
  Proof. unfold spools. destruct (existsb _ _); [| discriminate]. intros H Hg. inversion H; subst p. apply stands_iff, stands_obj in Hg. exact Hg. Qed.
  Lemma item_stands id o : item spools id o -> exists f, In f (reference_fields models) /\ stands_for h (VObj l) (f_target f) id o.
  Proof.
    intros [t [p [Hp Hg]]]. unfold spools in Hp. destruct (existsb (fun f => String.eqb (f_target f) t) (reference_fields models)) eqn:E; [| discriminate].
    apply existsb_exists in E. destruct E as [f [Hf Et]]. apply String.eqb_eq in Et. subst t. inversion Hp; subst p. exists f. split; [exact Hf |]. apply store_stands, stands_iff, Hg.
  Qed.
  Lemma items_away id o : item spools id o -> o <> VObj l0.
  Proof. intros H. apply item_stands in H. destruct H as [f [_ H]]. apply stands_slot in H. destruct H as [s Hs]. intros ->. apply slot_wf in Hs. destruct Hs as [c Hc]. apply hget_lt in Hc. lia. Qed.
  Lemma spools_field f : In f (reference_fields models) -> spools (f_target f) = Some (pool h0 (VObj l0) (f_target f)).
  Proof. intro Hf. unfold spools. replace (existsb _ _) with true; [reflexivity |]. symmetry. apply existsb_exists. exists f. split; [exact Hf | apply String.eqb_refl]. Qed.
End Store.
