(** Facts about the check of inputs. *)
From Coq Require Import String Ascii Bool List Arith Lia.
From Verif Require Import Base Value Heap Validate ValidateSpec.
Import ListNotations.
Local Open Scope string_scope.
Local Open Scope list_scope.

Lemma smem_iff s l : smem s l = true <-> In s l.
Proof. unfold smem. rewrite existsb_exists. split; [intros [x [H1 H2]]; apply String.eqb_eq in H2; subst; exact H1 | intro H; exists s; split; [exact H | apply String.eqb_refl]]. Qed.
Lemma smem_false s l : smem s l = false <-> ~ In s l.
Proof. rewrite <- smem_iff. destruct (smem s l); split; intro H; congruence. Qed.
Lemma targets_iff rel g l t : In t (targets rel g l) <->
  exists m p, In m l /\ In p (m_props m) /\ if rel then p_kind p = PRelation t /\ m_global m = g else p_kind p = PReference t.
Proof.
  unfold targets. rewrite in_flat_map. split.
  - intros [m [Hm H]]. apply in_flat_map in H. destruct H as [p [Hp H]]. exists m, p. split; [exact Hm |]. split; [exact Hp |].
    destruct (p_kind p) as [| vs | | | | u | u]; try destruct H; destruct rel; cbn [andb] in H; try destruct H.
    + destruct (Bool.eqb (m_global m) g) eqn:E; [| destruct H]. apply Bool.eqb_prop in E. destruct H as [-> | []]. auto.
    + destruct H; subst; reflexivity.
    + contradiction.
  - intros [m [p [Hm [Hp H]]]]. exists m. split; [exact Hm |]. apply in_flat_map. exists p. split; [exact Hp |].
    destruct rel; [destruct H as [-> ->]; rewrite Bool.eqb_reflx; left; reflexivity | rewrite H; left; reflexivity].
Qed.
Lemma refs_iff S t : smem t (ref_targets (s_models S)) = true <-> declared_ref S t.
Proof. rewrite smem_iff. unfold ref_targets. rewrite targets_iff. reflexivity. Qed.
Lemma nested_iff S t : In t (nested (s_models S)) <-> held S t.
Proof.
  unfold nested. rewrite !in_app_iff, filter_In, andb_true_iff, !negb_true_iff, !smem_false. unfold ref_targets. rewrite !targets_iff. unfold held. split.
  - intros [[m [p [Hm [Hp [Hk _]]]]] | [[m [p [Hm [Hp Hk]]]] | [[m [p [Hm [Hp [Hk _]]]]] _]]]; exists m, p; auto.
  - intros [m [p [Hm [Hp [Hk | Hk]]]]].
    + right. left. exists m, p. auto.
    + destruct (in_dec string_dec t (targets true false (s_models S))) as [H1 | H1]; [left; exact (proj1 (targets_iff _ _ _ _) H1) |].
      destruct (in_dec string_dec t (targets false false (s_models S))) as [H2 | H2]; [right; left; exact (proj1 (targets_iff _ _ _ _) H2) |].
      right. right. rewrite !targets_iff in *. split; [| auto]. exists m, p. split; [exact Hm |]. split; [exact Hp |]. split; [exact Hk |].
      destruct (m_global m) eqn:Eg; [reflexivity |]. exfalso. apply H1. exists m, p. auto.
Qed.
Lemma roots_iff S e : smem e (roots (s_models S)) = true <-> root_entity S e.
Proof.
  rewrite smem_iff. unfold roots, root_entity. rewrite filter_In, negb_true_iff, smem_false, nested_iff, in_map_iff. split.
  - intros [[m [Hn Hm]] Hh]. apply filter_In in Hm. destruct Hm as [Hm Hg]. apply negb_true_iff in Hg. split; [exists m; auto | exact Hh].
  - intros [[m [Hm [Hg Hn]]] Hh]. split; [| exact Hh]. exists m. split; [exact Hn |]. apply filter_In. rewrite Hg. auto.
Qed.
Lemma refs_false S t : smem t (ref_targets (s_models S)) = false <-> ~ declared_ref S t.
Proof. rewrite <- refs_iff. destruct (smem t (ref_targets (s_models S))); split; intro H; congruence. Qed.
Lemma roots_false S t : smem t (roots (s_models S)) = false <-> ~ root_entity S t.
Proof. rewrite <- roots_iff. destruct (smem t (roots (s_models S))); split; intro H; congruence. Qed.

(** The pools. *)
Lemma pool_fold h id a : forall p, aget id (fold_left (fun p v => match item_id h v with Some k => aset k v p | None => p end) a p) <> None <->
  aget id p <> None \/ exists v, In v a /\ item_id h v = Some id.
Proof.
  induction a as [| v a IH]; intro p; cbn [fold_left].
  - split; [auto | intros [H | [v [[] _]]]; exact H].
  - rewrite IH. destruct (item_id h v) as [k |] eqn:E.
    + destruct (string_dec k id) as [-> | Hne].
      * split; [intros _; right; exists v; split; [left; reflexivity | exact E] | intros _; left; rewrite aget_aset_eq; discriminate].
      * rewrite aget_aset_ne by exact Hne. split.
        -- intros [H | [w [Hw Hi]]]; [auto | right; exists w; split; [right; exact Hw | exact Hi]].
        -- intros [H | [w [[<- | Hw] Hi]]]; [auto | congruence | right; exists w; auto].
    + split.
      * intros [H | [w [Hw Hi]]]; [auto | right; exists w; split; [right; exact Hw | exact Hi]].
      * intros [H | [w [[<- | Hw] Hi]]]; [auto | congruence | right; exists w; auto].
Qed.
Lemma item_id_iff h v id : item_id h v = Some id <-> dot h v "id" = Some (VStr id).
Proof. unfold item_id. destruct (dot h v "id") as [[| | | s | | |] |]; split; intro H; try discriminate; congruence. Qed.
Lemma pool_iff h input t id : aget id (pool h input t) <> None <-> pooled h input t id.
Proof.
  unfold pool, pooled. destruct (dot h input t) as [v |]; [| split; [intros []; reflexivity | intros [l [a [x [H _]]]]; discriminate]].
  destruct v as [| b | n | s | l | l | d]; try (split; [intros []; reflexivity | intros [l' [a [x [H _]]]]; discriminate]).
  destruct (harr h l) as [a |] eqn:Ea.
  - rewrite pool_fold. split.
    + intros [[] | [v [Hv Hi]]]; [reflexivity |]. exists l, a, v. apply item_id_iff in Hi. auto.
    + intros [l' [a' [v [H1 [H2 [H3 H4]]]]]]. inversion H1; subst l'. rewrite Ea in H2. inversion H2; subst a'. right. exists v. split; [exact H3 | apply item_id_iff, H4].
  - split; [intros []; reflexivity | intros [l' [a [x [H [H2 _]]]]]; inversion H; subst; congruence].
Qed.

Lemma null_false v : is_null v = false <-> v <> VNull.
Proof. destruct v; cbn; split; intro H; congruence. Qed.
Lemma find_prop props k p : find (fun q => String.eqb (p_name q) k) props = Some p <-> has_prop props k p.
Proof.
  split.
  - induction props as [| q r IH]; cbn [find]; [discriminate |]. destruct (String.eqb (p_name q) k) eqn:E.
    + intro H. inversion H; subst q. apply String.eqb_eq in E. exists [], r. split; [reflexivity |]. split; [exact E | intros x []].
    + intro H. destruct (IH H) as [l1 [l2 [-> [H1 H2]]]]. apply String.eqb_neq in E. exists (q :: l1), l2. split; [reflexivity |]. split; [exact H1 |].
      intros x [<- | Hx]; [exact E | apply H2, Hx].
  - intros [l1 [l2 [-> [H1 H2]]]]. induction l1 as [| q l1 IH]; cbn [app find]; [rewrite H1, String.eqb_refl; reflexivity |].
    assert (E : p_name q <> k) by (apply H2; left; reflexivity). apply String.eqb_neq in E. rewrite E. apply IH. intros x Hx. apply H2. right. exact Hx.
Qed.
Lemma each_item_iff f path l : forall i e, In e (each_item f path i l) <-> exists j v, nth_error l j = Some v /\ v <> VNull /\ In e (f (path ++ index_text (i + j))%string v).
Proof.
  induction l as [| v l IH]; intros i e; cbn [each_item].
  - split; [intros [] | intros [j [v [H _]]]; destruct j; discriminate].
  - rewrite in_app_iff, IH. split.
    + intros [H | [j [w [H1 [H2 H3]]]]].
      * exists 0, v. destruct (is_null v) eqn:En; [destruct H |]. rewrite Nat.add_0_r. split; [reflexivity |]. split; [apply null_false, En | exact H].
      * exists (S j), w. split; [exact H1 |]. split; [exact H2 |]. replace (i + S j) with (i + 1 + j) by lia. exact H3.
    + intros [[| j] [w [H1 [H2 H3]]]]; cbn [nth_error] in H1.
      * left. inversion H1; subst w. apply null_false in H2. rewrite H2. rewrite Nat.add_0_r in H3. exact H3.
      * right. exists j, w. split; [exact H1 |]. split; [exact H2 |]. replace (i + 1 + j) with (i + S j) by lia. exact H3.
Qed.

Section Claims.
  Variable S : schema.
  Variable h : heap.
  Variable input : value.
  Definition ip (t id : string) : bool := smem t (ref_targets (s_models S)) && match aget id (pool h input t) with Some _ => true | None => false end.
  Lemma ip_iff t id : ip t id = true <-> declared_ref S t /\ pooled h input t id.
  Proof.
    unfold ip. rewrite andb_true_iff, refs_iff, <- pool_iff. destruct (aget id (pool h input t)); split; intros [H1 H2]; split; auto; congruence.
  Qed.
  Notation centity := (check_entity S h ip).
  Definition check_want (n : nat) (w : want) (path : string) (v : value) : list verror :=
    match w with
    | WKind k => check_kind S ip (centity n) k path v
    | WList p => match v with
                 | VArr l => match harr h l with Some a => each_item (check_kind S ip (centity n) (p_kind p)) path 0 a | None => [] end
                 | _ => [VError path ("array of " ++ kind_text (p_kind p))%string (type_name v)]
                 end
    | WEntity e => centity n e path v
    | WEntities e => check_entities h (centity n) e path v
    end.
  Lemma check_prop_want n p path v : check_prop S h ip (centity n) p path v = check_want n (prop_want p) path v.
  Proof. unfold check_prop, prop_want. destruct (p_array p); reflexivity. Qed.
  Lemma max_32 : max_depth = 32. Proof. reflexivity. Qed.

  Definition top_entry (e : string * value) : list verror :=
    let '(key, v) := e in
    if is_null v then []
    else if smem key (ref_targets (s_models S)) then check_entities h (centity max_depth) key key v
    else if smem key (roots (s_models S)) then centity max_depth key key v
    else match aget key (s_globals S) with Some p => check_prop S h ip (centity max_depth) p key v | None => [] end.
  Lemma validate_obj l m : input = VObj l -> hobj h l = Some m -> validate S h input = flat_map top_entry m.
  Proof.
    intros Hi Hm. unfold validate. cbv zeta.
    change (fun t id : string => smem t (ref_targets (s_models S)) && match aget id (pool h input t) with Some _ => true | None => false end) with ip.
    rewrite Hi, Hm. reflexivity.
  Qed.

  (** Whatever a due place finds wrong is reported. *)
  Lemma reported path w v d : due S h input path w v d -> d <= 32 /\ incl (check_want (32 - d) w path v) (validate S h input).
  Proof.
    intro H. induction H as [l m key v Hi Hm Hin Hv Hr | l m key v Hi Hm Hin Hv Hr | l m key v p Hi Hm Hin Hv Hr1 Hr2 Hg
      | path p l a i v d Hd IH Ha Hn Hv | path e l a i v d Hd IH Ha Hn Hv | path e l m props p v d Hd IH Hlt He Hm Hin Hv Hp | path t v d Hd IH Ht].
    - split; [lia |]. intros x Hx. rewrite (validate_obj l m Hi Hm). apply in_flat_map. exists (key, v). split; [exact Hin |].
      cbn [top_entry]. apply null_false in Hv. rewrite Hv. apply refs_iff in Hr. rewrite Hr. exact Hx.
    - split; [lia |]. intros x Hx. rewrite (validate_obj l m Hi Hm). apply in_flat_map. exists (key, v). split; [exact Hin |].
      cbn [top_entry]. apply null_false in Hv. rewrite Hv.
      assert (Hnr : ~ declared_ref S key). { intros [m0 [p [H1 [H2 H3]]]]. apply (proj2 Hr). exists m0, p. auto. }
      apply refs_false in Hnr. rewrite Hnr. apply roots_iff in Hr. rewrite Hr. exact Hx.
    - split; [lia |]. intros x Hx. rewrite (validate_obj l m Hi Hm). apply in_flat_map. exists (key, v). split; [exact Hin |].
      cbn [top_entry]. apply null_false in Hv. rewrite Hv. apply refs_false in Hr1. rewrite Hr1. apply roots_false in Hr2. rewrite Hr2, Hg.
      rewrite check_prop_want. exact Hx.
    - destruct IH as [Hle Hinc]. split; [exact Hle |]. intros x Hx. apply Hinc. cbn [check_want]. rewrite Ha. apply each_item_iff. exists i, v. auto.
    - destruct IH as [Hle Hinc]. split; [exact Hle |]. intros x Hx. apply Hinc. cbn [check_want]. unfold check_entities. rewrite Ha. apply each_item_iff. exists i, v. auto.
    - destruct IH as [Hle Hinc]. split; [lia |]. intros x Hx. apply Hinc. cbn [check_want]. replace (32 - d) with (Datatypes.S (31 - d)) by lia. cbn [check_entity].
      rewrite He, Hm. apply in_flat_map. exists (p_name p, v). split; [exact Hin |]. cbn [fst snd]. apply null_false in Hv. rewrite Hv.
      apply find_prop in Hp. rewrite Hp. rewrite check_prop_want. replace (32 - (d + 1)) with (31 - d) in Hx by lia. exact Hx.
    - destruct IH as [Hle Hinc]. split; [exact Hle |]. intros x Hx. apply Hinc. cbn [check_want check_kind].
      destruct Ht as [Ht | Ht].
      + destruct (aget t (s_entities S)); [exact Hx | congruence].
      + rewrite Ht. destruct (aget t (s_entities S)); exact Hx.
  Qed.
  Lemma prefix_app s t : String.prefix s (s ++ t)%string = true.
  Proof. induction s as [| c s IH]; cbn; [destruct t; reflexivity |]. destruct (ascii_dec c c) as [_ | H]; [exact IH | congruence]. Qed.
  Lemma prefix_refl s : String.prefix s s = true.
  Proof. induction s as [| c s IH]; cbn; [reflexivity |]. destruct (ascii_dec c c) as [_ | H]; [exact IH | congruence]. Qed.
  Lemma enum_iff v l path e w d : In e (check_enum v l path) <-> ~ text_in v l /\ e = hd e (check_enum v l path) /\ e_path e = path /\ names_value (e_got e) w v d /\ check_enum v l path <> [].
  Proof.
    unfold check_enum, text_in. destruct v as [| b | n | s | lo | lo | dy];
      try (split; [intros [<- | []]; split; [intros [s [H _]]; discriminate |]; split; [reflexivity |]; split; [reflexivity |]; split; [left; reflexivity | discriminate]
                  | intros [_ [He _]]; cbn in He; left; symmetry; exact He]).
    destruct (smem s l) eqn:E.
    - split; [intros [] | intros [_ [_ [_ [_ H]]]]; congruence].
    - apply smem_false in E. split.
      + intros [<- | []]. split; [intros [x [H1 H2]]; inversion H1; subst; contradiction |]. split; [reflexivity |]. split; [reflexivity |]. split; [| discriminate].
        right. left. exists s. split; [reflexivity | apply prefix_refl].
      + intros [_ [He _]]. left. symmetry. exact He.
  Qed.
  Lemma enum_err v l path w d : ~ text_in v l -> exists e, In e (check_enum v l path) /\ e_path e = path /\ names_value (e_got e) w v d.
  Proof.
    intro H. destruct (check_enum v l path) as [| e r] eqn:E.
    - exfalso. unfold check_enum in E. destruct v; try discriminate. destruct (smem s l) eqn:M; [| discriminate]. apply H. exists s. split; [reflexivity | apply smem_iff, M].
    - exists e. assert (Hin : In e (check_enum v l path)) by (rewrite E; left; reflexivity). apply (enum_iff v l path e w d) in Hin. split; [left; reflexivity | tauto].
  Qed.
  Lemma wrong_err w path v d : wrong S h input w v d -> d <= 32 -> exists e, In e (check_want (32 - d) w path v) /\ e_path e = path /\ names_value (e_got e) w v d.
  Proof.
    intros Hw Hd. destruct w as [k | p | en | en]; cbn [check_want wrong] in *.
    - destruct k as [| vs | | | | t | t]; cbn [check_kind] in *.
      + destruct v; try (eexists; split; [left; reflexivity |]; split; [reflexivity | left; reflexivity]). exfalso. apply Hw. exists s. reflexivity.
      + apply (enum_err _ _ _ (WKind (PEnum vs)) d), Hw.
      + destruct v; try (eexists; split; [left; reflexivity |]; split; [reflexivity | left; reflexivity]). exfalso. exact (Hw d0 eq_refl).
      + destruct v; try (eexists; split; [left; reflexivity |]; split; [reflexivity | left; reflexivity]). exfalso. exact (Hw b eq_refl).
      + destruct v; try (eexists; split; [left; reflexivity |]; split; [reflexivity | left; reflexivity]). exfalso. apply Hw. exists s. reflexivity.
      + destruct Hw as [He [l [Hl Ht]]]. rewrite He, Hl. apply (enum_err _ _ _ (WKind (PRelation t)) d), Ht.
      + unfold check_ref. destruct v; try (eexists; split; [left; reflexivity |]; split; [reflexivity | left; reflexivity]).
        destruct (ip t s) eqn:E; [exfalso; apply Hw; exists s; split; [reflexivity | apply ip_iff, E] |].
        eexists; split; [left; reflexivity |]; split; [reflexivity |]. right. left. exists s. split; [reflexivity |]. cbn [e_got]. unfold quote. apply prefix_app.
    - destruct v; try (eexists; split; [left; reflexivity |]; split; [reflexivity | left; reflexivity]). exfalso. exact (Hw l eq_refl).
    - destruct (32 - d) as [| n] eqn:En; cbn [check_entity].
      + eexists; split; [left; reflexivity |]; split; [reflexivity | right; right; split; [eexists; reflexivity | split; [lia | reflexivity]]].
      + destruct Hw as [Hw | Hw]; [lia |]. destruct v; try (eexists; split; [left; reflexivity |]; split; [reflexivity | left; reflexivity]). exfalso. exact (Hw l eq_refl).
    - unfold check_entities. destruct v; try (eexists; split; [left; reflexivity |]; split; [reflexivity | left; reflexivity]). exfalso. exact (Hw l eq_refl).
  Qed.

  (** Only what is wrong is reported. *)
  Definition just (e : verror) : Prop := exists w v d, due S h input (e_path e) w v d /\ wrong S h input w v d /\ names_value (e_got e) w v d.
  Lemma sound_level n d : n + d = 32 -> (forall path en v, due S h input path (WEntity en) v d -> forall e, In e (centity n en path v) -> just e) ->
    forall w path v, due S h input path w v d -> forall e, In e (check_want n w path v) -> just e.
  Proof.
    intros Hnd IH w path v Hdue e He. assert (HK : forall k path v, due S h input path (WKind k) v d -> forall e, In e (check_kind S ip (centity n) k path v) -> just e).
    { clear w path v Hdue e He. intros k path v Hdue e He.
      assert (Hp : forall (ok : bool), In e (if ok then [] else [VError path (kind_text k) (type_name v)]) -> ok = false /\ e_path e = path /\ names_value (e_got e) (WKind k) v d).
      { intros [|] H; [destruct H |]. destruct H as [<- | []]. split; [reflexivity |]. split; [reflexivity | left; reflexivity]. }
      destruct k as [| vs | | | | t | t]; cbn [check_kind] in He.
      - apply Hp in He. destruct He as [Hok [Hpath Hg]]. exists (WKind PString), v, d. rewrite Hpath. split; [exact Hdue |]. split; [| exact Hg]. intros [s Hs]. subst v. discriminate.
      - apply (enum_iff _ _ _ _ (WKind (PEnum vs)) d) in He. destruct He as [Ht [_ [Hpath [Hg _]]]]. exists (WKind (PEnum vs)), v, d. rewrite Hpath. auto.
      - apply Hp in He. destruct He as [Hok [Hpath Hg]]. exists (WKind PNumber), v, d. rewrite Hpath. split; [exact Hdue |]. split; [| exact Hg]. intros s Hs. subst v. discriminate.
      - apply Hp in He. destruct He as [Hok [Hpath Hg]]. exists (WKind PBoolean), v, d. rewrite Hpath. split; [exact Hdue |]. split; [| exact Hg]. intros s Hs. subst v. discriminate.
      - apply Hp in He. destruct He as [Hok [Hpath Hg]]. exists (WKind PDate), v, d. rewrite Hpath. split; [exact Hdue |]. split; [| exact Hg]. intros [s Hs]. subst v. discriminate.
      - destruct (aget t (s_entities S)) as [ps |] eqn:Ee.
        + apply (IH path t v); [| exact He]. apply DueRelation; [exact Hdue | left; congruence].
        + destruct (aget t (s_dicts S)) as [vs |] eqn:Ed.
          * apply (enum_iff _ _ _ _ (WKind (PRelation t)) d) in He. destruct He as [Ht [_ [Hpath [Hg _]]]]. exists (WKind (PRelation t)), v, d. rewrite Hpath. split; [exact Hdue |]. split; [| exact Hg].
            split; [exact Ee | exists vs; auto].
          * apply (IH path t v); [| exact He]. apply DueRelation; [exact Hdue | right; exact Ed].
      - exists (WKind (PReference t)), v, d. unfold check_ref in He. destruct v as [| b | nn | s | lo | lo | dy];
          try (destruct He as [<- | []]; split; [exact Hdue |]; split; [intros [id [H _]]; discriminate | left; reflexivity]).
        destruct (ip t s) eqn:E; [destruct He |]. destruct He as [<- | []]. split; [exact Hdue |]. split.
        + intros [id [Hid H]]. inversion Hid; subst id. apply ip_iff in H. congruence.
        + right. left. exists s. split; [reflexivity |]. cbn [e_got]. unfold quote. apply prefix_app. }
    destruct w as [k | p | en | en]; cbn [check_want] in He.
    - exact (HK k path v Hdue e He).
    - destruct v as [| b | nn | s | lo | lo | dy];
        try (destruct He as [<- | []]; exists (WList p); eexists; exists d; split; [exact Hdue |]; split; [intros l0 H; discriminate | left; reflexivity]).
      destruct (harr h lo) as [a |] eqn:Ea; [| destruct He]. apply each_item_iff in He. destruct He as [j [x [H1 [H2 H3]]]].
      apply (HK (p_kind p) (path ++ index_text (0 + j))%string x); [| exact H3]. apply (DueItem S h input path p lo a j x d); assumption.
    - exact (IH path en v Hdue e He).
    - unfold check_entities in He. destruct v as [| b | nn | s | lo | lo | dy];
        try (destruct He as [<- | []]; exists (WEntities en); eexists; exists d; split; [exact Hdue |]; split; [intros l0 H; discriminate | left; reflexivity]).
      destruct (harr h lo) as [a |] eqn:Ea; [| destruct He]. apply each_item_iff in He. destruct He as [j [x [H1 [H2 H3]]]].
      apply (IH (path ++ index_text (0 + j))%string en x); [| exact H3]. apply (DueMember S h input path en lo a j x d); assumption.
  Qed.
  Lemma sound_entity n : forall d, n + d = 32 -> forall path en v, due S h input path (WEntity en) v d -> forall e, In e (centity n en path v) -> just e.
  Proof.
    induction n as [| n IH]; intros d Hnd path en v Hdue e He; cbn [check_entity] in He.
    - destruct He as [<- | []]. exists (WEntity en), v, d. split; [exact Hdue |]. split; [left; lia | right; right; split; [eexists; reflexivity | split; [lia | reflexivity]]].
    - destruct v as [| b | nn | s | lo | lo | dy];
        try (destruct He as [<- | []]; exists (WEntity en); eexists; exists d; split; [exact Hdue |]; split; [right; intros l0 H; discriminate | left; reflexivity]).
      destruct (aget en (s_entities S)) as [props |] eqn:Ee; [| destruct He]. destruct (hobj h lo) as [m |] eqn:Em; [| destruct He].
      apply in_flat_map in He. destruct He as [[k x] [Hin He]]. cbn [fst snd] in He. destruct (is_null x) eqn:En; [destruct He |]. apply null_false in En.
      destruct (find (fun p => String.eqb (p_name p) k) props) as [p |] eqn:Ef; [| destruct He]. apply find_prop in Ef.
      assert (Hk : k = p_name p) by (destruct Ef as [l1 [l2 [_ [Hk _]]]]; auto). subst k. rewrite check_prop_want in He.
      apply (sound_level n (d + 1)) with (w := prop_want p) (path := (path ++ "." ++ p_name p)%string) (v := x); [lia | | | exact He].
      + apply IH. lia.
      + apply (DueField S h input path en lo m props p x d); auto. lia.
  Qed.
  Lemma sound_top e : In e (validate S h input) -> just e \/ (e_path e = "" /\ e_got e = type_name input /\ input <> VNull /\ forall l, input <> VObj l).
  Proof.
    intro He. destruct (match input with VObj l => Some l | _ => None end) as [lo |] eqn:Ei.
    - assert (Hi : input = VObj lo) by (destruct input; try discriminate; congruence). clear Ei. left. destruct (hobj h lo) as [m |] eqn:Em.
      2:{ exfalso. unfold validate in He. rewrite Hi, Em in He. destruct He. }
      rewrite (validate_obj lo m Hi Em) in He.
      apply in_flat_map in He. destruct He as [[key v] [Hin He]]. cbn [top_entry] in He. destruct (is_null v) eqn:En; [destruct He |]. apply null_false in En.
      assert (Hent := sound_entity 32 0 eq_refl).
      destruct (smem key (ref_targets (s_models S))) eqn:Er.
      + apply refs_iff in Er. apply (sound_level 32 0 eq_refl Hent (WEntities key) key v); [apply (DuePool S h input lo m key v); auto | exact He].
      + apply refs_false in Er. destruct (smem key (roots (s_models S))) eqn:Eo.
        * apply roots_iff in Eo. apply (sound_level 32 0 eq_refl Hent (WEntity key) key v); [apply (DueRoot S h input lo m key v); auto | exact He].
        * apply roots_false in Eo. destruct (aget key (s_globals S)) as [p |] eqn:Eg; [| destruct He]. rewrite check_prop_want in He.
          apply (sound_level 32 0 eq_refl Hent (prop_want p) key v); [apply (DueGlobal S h input lo m key v p); auto | exact He].
    - right. unfold validate in He. destruct input; try discriminate; try (destruct He; fail);
        (destruct He as [<- | []]; split; [reflexivity |]; split; [reflexivity |]; split; [discriminate | intros l0 H; discriminate]).
  Qed.
End Claims.
