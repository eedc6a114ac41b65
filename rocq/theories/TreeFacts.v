(** Equality and merge on trees. *)
From Coq Require Import String Ascii ZArith Lia Bool List Arith Permutation.
From Verif Require Import Base Dec Value Heap HeapSpec.
Import ListNotations.
Local Open Scope nat_scope.

Lemma bracket_eqb_refl : forall a, bracket_eqb a a = true.
Proof. destruct a; auto. Qed.
Lemma bracket_eqb_eq : forall a b, bracket_eqb a b = true <-> a = b.
Proof. destruct a, b; cbn; split; congruence. Qed.

Lemma vmdate_eqb_iff : forall a b, vmdate_eqb a b = true <-> vd_instant a = vd_instant b.
Proof.
  intros [x tx] [y ty]. unfold vmdate_eqb, vmdate_cmp. cbn.
  destruct x as [x|], y as [y|]; try (split; congruence).
  destruct (Z.compare_spec x y); split; intros E; try congruence; injection E; lia.
Qed.
Lemma idata_eqb_refl : forall a, idata_eqb a a = true.
Proof. destruct a; cbn; [apply dec_eqb_refl|now apply vmdate_eqb_iff]. Qed.
Lemma idata_eqb_sym : forall a b, idata_eqb a b = true -> idata_eqb b a = true.
Proof.
  destruct a, b; cbn; auto; intros.
  - now rewrite dec_eqb_sym.
  - apply vmdate_eqb_iff. symmetry. now apply vmdate_eqb_iff.
Qed.
Lemma idata_eqb_trans : forall a b c, idata_eqb a b = true -> idata_eqb b c = true -> idata_eqb a c = true.
Proof.
  destruct a, b, c; cbn; try discriminate; intros.
  - eapply dec_eqb_trans; eauto.
  - rewrite vmdate_eqb_iff in *. congruence.
Qed.
Lemma dyn_eqb_refl : forall a, dyn_eqb a a = true.
Proof.
  destruct a; cbn; [now apply vmdate_eqb_iff|]. now rewrite !bracket_eqb_refl, !idata_eqb_refl.
Qed.
Lemma dyn_eqb_sym : forall a b, dyn_eqb a b = true -> dyn_eqb b a = true.
Proof.
  destruct a, b; cbn; try discriminate; intros.
  - rewrite vmdate_eqb_iff in *. congruence.
  - rewrite !andb_true_iff in *. intuition; try (apply bracket_eqb_eq; symmetry; now apply bracket_eqb_eq);
    now apply idata_eqb_sym.
Qed.
Lemma dyn_eqb_trans : forall a b c, dyn_eqb a b = true -> dyn_eqb b c = true -> dyn_eqb a c = true.
Proof.
  destruct a, b, c; cbn; try discriminate; intros.
  - rewrite vmdate_eqb_iff in *. congruence.
  - rewrite !andb_true_iff, !bracket_eqb_eq in *. intuition; try congruence; eapply idata_eqb_trans; eauto.
Qed.

(** ** Unfoldings of [teq] *)
Lemma teq_arr : forall x y, teq (TArr x) (TArr y) = true <-> Forall2 (fun a b => teq a b = true) x y.
Proof.
  induction x as [|a x IH]; destruct y as [|b y]; cbn; split; intros H; try discriminate; auto.
  - inversion H.
  - inversion H.
  - apply andb_true_iff in H as [H1 H2]. constructor; auto. now apply IH.
  - inversion H; subst. apply andb_true_iff. split; auto. now apply IH.
Qed.

Lemma teq_obj : forall x y, teq (TObj x) (TObj y) = true <->
  length x = length y /\
  Forall (fun kv => exists w, aget (fst kv) y = Some w /\ teq (snd kv) w = true) x.
Proof.
  intros x y. cbn. rewrite andb_true_iff, Nat.eqb_eq.
  match goal with |- _ /\ ?f x = true <-> _ =>
    assert (E : f x = true <-> Forall (fun kv => exists w, aget (fst kv) y = Some w /\ teq (snd kv) w = true) x) end.
  { induction x as [|[k v] x IH]; [split; auto|]. split.
    - intros H. destruct (aget k y) as [w|] eqn:E; [|discriminate].
      apply andb_true_iff in H as [H1 H2]. constructor; [cbn; eauto|]. now apply IH.
    - intros H. inversion H as [|? ? [w [E1 E2]] H2]; subst. cbn in *. rewrite E1, E2. cbn. now apply IH. }
  rewrite E. tauto.
Qed.

Lemma aget_in_keys : forall {V} k (m : amap V), In k (map fst m) -> exists v, aget k m = Some v.
Proof.
  intros V k m H. destruct (aget k m) eqn:E; eauto. apply aget_None_notin in E. contradiction.
Qed.
Lemma in_keys : forall {V} k (v : V) (m : amap V), In (k, v) m -> In k (map fst m).
Proof. intros. change k with (fst (k, v)). now apply in_map. Qed.

Lemma teq_refl : forall t, wf_tree t -> teq t t = true.
Proof.
  induction t using tree_ind'; intros W.
  - reflexivity.
  - apply Bool.eqb_reflx.
  - apply dec_eqb_refl.
  - apply String.eqb_refl.
  - apply teq_arr. inversion W; subst. clear W. induction H; constructor; inversion H1; auto.
  - apply teq_obj. split; auto. inversion W; subst. rewrite Forall_forall in *.
    intros [k v] Hin. cbn. exists v. split; [now apply aget_in_nodup|].
    apply (H (k, v)); auto.
  - apply dyn_eqb_refl.
Qed.

Lemma teq_sym : forall a b, wf_tree a -> wf_tree b -> teq a b = true -> teq b a = true.
Proof.
  induction a using tree_ind'; intros b' Wa Wb E.
  - destruct b'; cbn in *; auto.
  - destruct b'; cbn in *; auto. apply Bool.eqb_prop in E. subst. apply Bool.eqb_reflx.
  - destruct b'; cbn in *; auto. now rewrite dec_eqb_sym.
  - destruct b'; cbn in *; auto. apply String.eqb_eq in E. subst. apply String.eqb_refl.
  - destruct b'; try discriminate. apply teq_arr in E. apply teq_arr.
    inversion Wa; inversion Wb; subst. clear Wa Wb.
    induction E; constructor; inversion H; inversion H1; inversion H3; subst; auto.
  - destruct b' as [| | | | |m'|]; try discriminate. apply teq_obj in E as [L E]. apply teq_obj. split; auto.
    inversion Wa as [| | | | | |? N1 F1]; inversion Wb as [| | | | | |? N2 F2]; subst.
    rewrite Forall_forall in *. intros [k w] Hin. cbn.
    assert (Hk : In k (map fst m)).
    { assert (Hincl : incl (map fst m') (map fst m)).
      { apply NoDup_length_incl; auto.
        - rewrite !map_length. lia.
        - intros x Hx. apply in_map_iff in Hx as ([k' v'] & <- & Hx). cbn.
          destruct (E _ Hx) as (w' & A & _). cbn in A. apply aget_Some_in in A. now apply in_keys in A. }
      apply Hincl. now apply in_keys in Hin. }
    destruct (aget_in_keys _ _ Hk) as [v Hv]. exists v. split; auto.
    apply aget_Some_in in Hv. destruct (E _ Hv) as (w' & A & B). cbn in *.
    rewrite (aget_in_nodup _ _ _ N2 Hin) in A. injection A as <-.
    apply (H (k, v)); auto. apply (F2 (k, w)); auto.
  - destruct b'; cbn in *; try discriminate. now apply dyn_eqb_sym.
Qed.

Lemma teq_trans : forall a b c, teq a b = true -> teq b c = true -> teq a c = true.
Proof.
  induction a using tree_ind'; intros b' c E1 E2.
  - destruct b', c; cbn in *; congruence.
  - destruct b', c; cbn in *; try congruence. apply Bool.eqb_prop in E1, E2. subst. apply Bool.eqb_reflx.
  - destruct b', c; cbn in *; try congruence. eapply dec_eqb_trans; eauto.
  - destruct b', c; cbn in *; try congruence. apply String.eqb_eq in E1, E2. subst. apply String.eqb_refl.
  - destruct b', c; try discriminate. apply teq_arr in E1, E2. apply teq_arr.
    revert a1 E2. induction E1; intros c2 E2; inversion E2; subst; constructor; inversion H; subst; eauto.
  - destruct b' as [| | | | |m1|], c as [| | | | |m2|]; try discriminate.
    apply teq_obj in E1 as [L1 E1]. apply teq_obj in E2 as [L2 E2]. apply teq_obj.
    split; [congruence|]. rewrite Forall_forall in *. intros [k v] Hin.
    destruct (E1 _ Hin) as (w & A & B). cbn in *. apply aget_Some_in in A.
    destruct (E2 _ A) as (u & C & D). cbn in *. exists u. split; auto.
    apply (H (k, v) Hin w u); auto.
  - destruct b', c; cbn in *; try congruence. eapply dyn_eqb_trans; eauto.
Qed.

(** Key order does not matter. *)
Lemma teq_perm : forall m m', wf_tree (TObj m) -> Permutation m m' -> teq (TObj m) (TObj m') = true.
Proof.
  intros m m' W P. apply teq_obj. split; [now apply Permutation_length|].
  inversion W; subst. rewrite Forall_forall in *. intros [k v] Hin. cbn. exists v. split.
  - apply aget_in_nodup.
    + eapply Permutation_NoDup; [apply Permutation_map; eauto|auto].
    + eapply Permutation_in; eauto.
  - apply teq_refl. apply (H1 (k, v)); auto.
Qed.

(** Point-wise equal objects with the same key list. *)
Definition same_entries (m m' : list (string * tree)) : Prop :=
  Forall2 (fun a b => fst a = fst b /\ teq (snd a) (snd b) = true) m m'.
Lemma same_keys : forall m m', same_entries m m' -> map fst m = map fst m'.
Proof. induction 1 as [|? ? ? ? [H _]]; cbn; congruence. Qed.
Lemma teq_same : forall m m', NoDup (map fst m) -> same_entries m m' -> teq (TObj m) (TObj m') = true.
Proof.
  intros m m' N S. pose proof (same_keys _ _ S) as K. apply teq_obj.
  split; [rewrite <- (map_length fst), K; apply map_length|]. rewrite K in N.
  rewrite Forall_forall. intros [k v] Hin. apply In_nth_error in Hin as [i Hi].
  destruct (Forall2_nth _ _ _ S _ _ Hi) as ([k' w] & Hj & [E1 E2]). cbn in *. subst.
  exists w. split; auto. apply aget_in_nodup; auto. eapply nth_error_In; eauto.
Qed.

(** ** Well-formedness *)
Lemma repr_wf : forall h v t, wf_heap h -> repr h v t -> wf_tree t.
Proof.
  intros h v t W R. induction R using repr_ind'; constructor.
  - clear - H1. induction H1; constructor; auto.
  - apply W in H. cbn in H. destruct H as [N _].
    replace (map fst ts) with (akeys m); auto. clear -H0. unfold akeys.
    induction H0 as [|? ? ? ? [E _]]; cbn; congruence.
  - clear - H1. induction H1 as [|? ? ? ? [_ E]]; constructor; auto.
Qed.

Lemma wf_aset : forall k t m, wf_tree (TObj m) -> wf_tree t -> wf_tree (TObj (aset k t m)).
Proof.
  intros k t m W Wt. inversion W; subst. constructor; [now apply aset_nodup|].
  rewrite Forall_forall in *. intros x Hx. apply aset_in in Hx as [->|Hx]; auto.
Qed.
Lemma wf_adel : forall k m, wf_tree (TObj m) -> wf_tree (TObj (adel k m)).
Proof.
  intros k m W. inversion W; subst. constructor; [now apply adel_nodup|].
  rewrite Forall_forall in *. intros x Hx. apply adel_in in Hx; auto.
Qed.
Lemma wf_get : forall k m t, wf_tree (TObj m) -> aget k m = Some t -> wf_tree t.
Proof.
  intros k m t W E. inversion W; subst. rewrite Forall_forall in *. apply aget_Some_in in E.
  apply (H1 (k, t)); auto.
Qed.

(** ** Merge on trees *)
Definition or_tnull (o : option tree) : tree := match o with Some d => d | None => TNull end.
Fixpoint tmerge_entries (pm dm : list (string * tree)) : list (string * tree) :=
  match pm with
  | [] => dm
  | (k, p) :: r =>
      tmerge_entries r (match p with
                        | TNull => adel k dm
                        | _ => aset k (tmerge (or_tnull (aget k dm)) p) dm
                        end)
  end.
Lemma tmerge_obj : forall pm dm, tmerge (TObj dm) (TObj pm) = TObj (tmerge_entries pm dm).
Proof.
  intros. cbn. f_equal. revert dm. induction pm as [|[k p] r IH]; intros; cbn; auto.
  destruct p; cbn; rewrite <- IH; auto.
Qed.

Lemma wf_tmerge : forall p d, wf_tree d -> wf_tree p -> wf_tree (tmerge d p).
Proof.
  induction p using tree_ind'; intros d' Wd Wp; try exact Wp.
  destruct d'; try exact Wp. rewrite tmerge_obj.
  inversion Wp as [| | | | | |? _ F]; subst. clear Wp.
  revert m0 Wd. induction H as [|[k p] r Hp Hr IH]; intros; cbn; auto.
  inversion F as [|? ? Wk Fr]; subst. cbn in *.
  assert (Wn : wf_tree (or_tnull (aget k m0))).
  { destruct (aget k m0) eqn:E; cbn; [eapply wf_get; eauto|constructor]. }
  apply IH; auto.
  destruct p; try (now apply wf_adel); apply wf_aset; auto.
Qed.

(** What the merged object holds at each key. *)
Lemma tmerge_entries_get : forall pm dm k, NoDup (map fst pm) -> NoDup (map fst dm) ->
  aget k (tmerge_entries pm dm) =
  match aget k pm with
  | None => aget k dm
  | Some TNull => None
  | Some p => Some (tmerge (or_tnull (aget k dm)) p)
  end.
Proof.
  induction pm as [|[k0 p] r IH]; intros dm k N Nd; cbn [tmerge_entries aget]; auto.
  inversion N as [|? ? Hk Nr]; subst. cbn in Hk. apply aget_None_notin in Hk.
  rewrite IH; auto.
  2:{ destruct p; try (now apply adel_nodup); now apply aset_nodup. }
  destruct (String.eqb_spec k0 k) as [->|Hne].
  - rewrite Hk. destruct p; try (now apply aget_adel_eq); now rewrite aget_aset_eq.
  - destruct p; (rewrite aget_adel_ne by auto) || (rewrite aget_aset_ne by auto); reflexivity.
Qed.

(** Merging a null-free object into itself changes nothing. *)
Lemma aset_same : forall {V} k (v : V) m, aget k m = Some v -> aset k v m = m.
Proof.
  induction m as [|[k' v'] r IH]; cbn; [discriminate|].
  destruct (String.eqb_spec k' k) as [->|]; intros E; [congruence|]. now rewrite IH.
Qed.
Lemma tmerge_self : forall t, wf_tree t -> nonull t -> tmerge t t = t.
Proof.
  induction t using tree_ind'; intros W N; try reflexivity.
  rewrite tmerge_obj. f_equal.
  inversion W as [| | | | | |? Nd F]; subst.
  inversion N as [? FN|? Hno]; subst; [|exfalso; eapply Hno; eauto].
  assert (G : forall r, Forall (fun kv => wf_tree (snd kv) -> nonull (snd kv) -> tmerge (snd kv) (snd kv) = snd kv) r ->
    Forall (fun kv => wf_tree (snd kv)) r -> Forall (fun kv => snd kv <> TNull /\ nonull (snd kv)) r ->
    incl r m -> tmerge_entries r m = m).
  { induction 1 as [|[k p] r Hp Hr IH]; intros F1 F2 I; cbn [tmerge_entries]; auto.
    inversion F1; inversion F2 as [|? ? [P1 P2] ?]; subst. cbn in *.
    assert (E : aget k m = Some p) by (apply aget_in_nodup; auto; apply I; now left).
    rewrite E. cbn [or_tnull].
    assert (E3 : aset k p m = m) by now apply aset_same.
    rewrite Hp, E3 by auto.
    assert (E4 : forall A (a b : A), (match p with TNull => a | _ => b end) = b)
      by (intros; destruct p; congruence).
    rewrite E4. apply IH; auto. intros x Hx. apply I. now right. }
  apply G; auto. apply incl_refl.
Qed.
