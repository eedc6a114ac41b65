(** * What the list of conflicts holds *)
From Coq Require Import String List Bool Arith NArith Lia Relations.
Import ListNotations.
From Verif Require Import Base Convert Workspace WorkspaceSpec WorkspaceMaps WorkspaceFacts WorkspaceRun Conflicts.
Local Open Scope nat_scope.
Local Open Scope list_scope.

Definition held {A} (x : path) (m : amap (list A)) : list A := match aget x m with Some l => l | None => [] end.
Lemma push_held : forall m w x, held x (push m w) = held x m ++ (if String.eqb (fst w) x then [snd w] else []).
Proof.
  intros m [k v] x. unfold push, held. cbn [fst snd]. destruct (String.eqb_spec k x) as [->|N]; [now rewrite aget_aset_eq|]. rewrite aget_aset_ne by exact N. now rewrite app_nil_r.
Qed.
Lemma pushes_held : forall l m x, held x (fold_left push l m) = held x m ++ map snd (filter (fun w => String.eqb (fst w) x) l).
Proof.
  induction l as [|w l IH]; intros m x; cbn [fold_left filter map]; [now rewrite app_nil_r|]. rewrite IH, push_held. unfold path in *. destruct (String.eqb (fst w) x); [rewrite <- app_assoc; reflexivity|rewrite app_nil_r; reflexivity].
Qed.
Lemma pushes_nodup : forall l m, NoDup (akeys m) -> NoDup (akeys (fold_left push l m)).
Proof. induction l as [|w l IH]; intros m N; [exact N|]. cbn [fold_left]. apply IH. unfold push. now apply aset_nodup. Qed.
Lemma two_distinct : forall l : list nat, (length (nodup Nat.eq_dec l) <? 2) = false <-> exists a b, In a l /\ In b l /\ a <> b.
Proof.
  intros l. rewrite Nat.ltb_ge. pose proof (NoDup_nodup Nat.eq_dec l) as N. pose proof (nodup_In Nat.eq_dec l) as I. remember (nodup Nat.eq_dec l) as d eqn:E. clear E. split.
  - intros H. destruct d as [|a [|b d]]; cbn in H; try lia. exists a, b. split; [apply I; now left|]. split; [apply I; right; now left|]. intros ->. inversion N; subst. match goal with H : ~ In _ _ |- _ => apply H; now left end.
  - intros (a & b & A & B & D). apply I in A, B. destruct d as [|x [|y d]]; cbn; [destruct A| |lia]. destruct A as [<-|[]], B as [<-|[]]. congruence.
Qed.
Lemma sorted_in : forall {V} (m : amap V) k v, NoDup (map fst m) -> (In (k, v) (sort_map m) <-> In (k, v) m).
Proof.
  intros V m k v N. pose proof (by_path_nodup _ (sort_map_by m)) as N2. split; intros I.
  - apply aget_Some_in. rewrite <- sort_map_get by exact N. now apply aget_nodup.
  - apply aget_Some_in. rewrite sort_map_get by exact N. now apply aget_nodup.
Qed.
Section Facts.
  Context {RU : Type}.
  Variable rw : RU -> list path.
  Variable cs : list (list path).
  Variable rules : amap (list RU).
  Definition wrote (x p : path) (c : nat) : Prop := exists rs r, In (p, rs) rules /\ In r rs /\ In x (rw r) /\ x <> ""%string /\ comp_index p cs 0 = Some c.
  Lemma writes_in : forall x p c, In (x, (p, c)) (all_writes rw cs rules) <-> wrote x p c.
  Proof.
    intros x p c. unfold all_writes. rewrite in_flat_map. split.
    - intros ([q rs] & I & J). cbn [fst snd] in J. destruct (comp_index q cs 0) as [d|] eqn:E; [|destruct J]. apply in_flat_map in J as (r & R & J). apply in_map_iff in J as (y & Q & J). injection Q as <- <- <-.
      apply filter_In in J as [J Z]. apply negb_true_iff, String.eqb_neq in Z. exists rs, r. auto.
    - intros (rs & r & I & R & X & Z & E). exists (p, rs). split; [exact I|]. cbn [fst snd]. rewrite E. apply in_flat_map. exists r. split; [exact R|]. apply in_map_iff. exists x. split; [reflexivity|]. apply filter_In. split; [exact X|]. now apply negb_true_iff, String.eqb_neq.
  Qed.
  Lemma conflict_in : forall x ps, In (x, ps) (conflict_list rw cs rules) <->
    exists l, ps = sort_paths (map fst l) /\ (forall p c, In (p, c) l <-> wrote x p c) /\ exists p c q d, In (p, c) l /\ In (q, d) l /\ c <> d.
  Proof.
    intros x ps. unfold conflict_list. set (m := fold_left push (all_writes rw cs rules) []).
    assert (N : NoDup (akeys m)) by (apply pushes_nodup; constructor).
    assert (H : forall y, held y m = map snd (filter (fun w => String.eqb (fst w) y) (all_writes rw cs rules))) by (intros y; unfold m; rewrite pushes_held; reflexivity).
    assert (Hw : forall y p c, In (p, c) (held y m) <-> wrote y p c).
    { intros y p c. rewrite H, <- writes_in, in_map_iff. split.
      - intros ([z [p1 c1]] & E & I). cbn in E. injection E as -> ->. apply filter_In in I as [I E]. cbn in E. apply String.eqb_eq in E. now subst z.
      - intros I. exists (y, (p, c)). split; [reflexivity|]. apply filter_In. split; [exact I|]. apply String.eqb_refl. }
    assert (Nd : NoDup (map fst (flat_map (fun e => if length (nodup Nat.eq_dec (map snd (snd e))) <? 2 then [] else [(fst e, sort_paths (map fst (snd e)))]) m))).
    { clear H Hw. revert N. generalize m. clear m. induction m as [|[k l] m IH]; intros N; [constructor|]. unfold akeys in N. cbn in N. apply NoDup_cons_iff in N as [N1 N2]. cbn [flat_map fst snd]. destruct (_ <? 2); [now apply IH|].
      cbn [app map fst]. constructor; [|now apply IH]. intros I. apply N1. apply in_map_iff in I as ([k1 l1] & E & I). cbn in E. subst k1. apply in_flat_map in I as ([k2 l2] & I & J). cbn [fst snd] in J. destruct (_ <? 2); [destruct J|]. destruct J as [J|[]]. injection J as -> _. exact (in_map fst _ _ I). }
    rewrite (sorted_in _ _ _ Nd), in_flat_map. split.
    - intros ([k l] & I & J). cbn [fst snd] in J. destruct (length (nodup Nat.eq_dec (map snd l)) <? 2) eqn:E; [destruct J|]. destruct J as [J|[]]. injection J as -> <-. apply two_distinct in E as (a & b & A & B & D).
      assert (L : held x m = l) by (unfold held; now rewrite (aget_in_nodup _ _ _ N I)).
      exists l. split; [reflexivity|]. split; [intros p c; rewrite <- L; apply Hw|]. apply in_map_iff in A as ([p a1] & E1 & A). apply in_map_iff in B as ([q b1] & E2 & B). cbn in E1, E2. subst. exists p, a, q, b. auto.
    - intros (l & -> & L & (p & c & q & d & A & B & D)).
      assert (K : exists l1, aget x m = Some l1 /\ l1 = held x m). { apply L, Hw in A. unfold held in *. destruct (aget x m) as [l1|]; [eauto|destruct A]. } destruct K as (l1 & K & E1).
      assert (Q : forall z w, In (z, w) l1 <-> In (z, w) l) by (intros z w; rewrite E1, Hw, <- L; reflexivity).
      exists (x, l1). split; [now apply aget_Some_in|]. cbn [fst snd].
      assert (E : (length (nodup Nat.eq_dec (map snd l1)) <? 2) = false) by (apply two_distinct; exists c, d; split; [apply in_map_iff; exists (p, c); split; [reflexivity|now apply Q]|split; [apply in_map_iff; exists (q, d); split; [reflexivity|now apply Q]|exact D]]).
      rewrite E. left. f_equal.
      assert (R : forall z, In z (map fst l1) <-> In z (map fst l)) by (intros z; rewrite !in_map_iff; split; intros ([a b] & E2 & I); exists (a, b); split; auto; now apply Q).
      pose proof (sort_map_by (map (fun p => (p, tt)) (map fst l1))) as S1. pose proof (sort_map_by (map (fun p => (p, tt)) (map fst l))) as S2. unfold sort_paths. f_equal. apply by_path_eq; auto.
      intros k. assert (G : forall l0 : list path, aget k (sort_map (map (fun p => (p, tt)) l0)) = if pmem k l0 then Some tt else None).
      { intros l0. destruct (pmem k l0) eqn:P.
        - apply pmem_in in P. assert (I : In k (map fst (sort_map (map (fun p => (p, tt)) l0)))) by (apply sort_keys; rewrite map_map, map_id; exact P). apply aget_in in I as ([] & I). exact I.
        - apply pmem_not in P. apply aget_None_notin. intros I. apply P. change (In k (sort_paths l0)) in I. exact (proj1 (sort_paths_in _ _) I). }
      rewrite !G. destruct (pmem k (map fst l1)) eqn:P1, (pmem k (map fst l)) eqn:P2; try reflexivity; exfalso; [apply pmem_in, R, pmem_in in P1; congruence|apply pmem_in, R, pmem_in in P2; congruence].
  Qed.
  Lemma conflicts_by : by_path (conflict_list rw cs rules). Proof. apply sort_map_by. Qed.
End Facts.

Section World.
  Context {PD GC PP SC RU UN EN SG AN DG AR FT DI : Type}.
  Variable T : @tools PD GC PP SC RU UN EN SG AN DG AR FT DI.
  Variable M : @arcs PD GC.
  Variable rw : RU -> list path.
  Hypothesis SF : scope_free T.
  Variable w : world (PD := PD) (GC := GC).
  Variable pv : amap PP.
  Hypothesis HP : policies T w pv.
  Lemma first_index : forall p cs i j, comp_index p cs i = Some j -> forall k, i + k < j -> ~ In p (nth k cs []).
  Proof.
    intros p cs. induction cs as [|c cs IH]; intros i j E k L; [discriminate|]. cbn [comp_index] in E. destruct (pmem p c) eqn:P; [injection E as <-; lia|]. destruct k as [|k]; cbn [nth]; [now apply pmem_not|]. apply (IH (S i) j E). lia.
  Qed.
  Lemma index_some : forall p, (exists v, policy_in T w p v) -> exists i, comp_index p (comps T pv) 0 = Some i /\ component_of (comps T pv) p = nth i (comps T pv) [].
  Proof.
    intros p K. assert (I : In p (component_of (comps T pv) p)) by (apply (component_spec T w pv HP); split; [exact K|]; split; [exact K|apply rst_refl]).
    unfold component_of in *. destruct (comp_index p (comps T pv) 0) as [i|]; [eauto|destruct I].
  Qed.
  Lemma index_some_iff : forall p, (exists i, comp_index p (comps T pv) 0 = Some i) -> exists v, policy_in T w p v.
  Proof.
    intros p (i & E). assert (I : In p (component_of (comps T pv) p)). { unfold component_of. rewrite E. apply comp_index_ok in E as (_ & c & E & I). rewrite Nat.sub_0_r in E. rewrite (nth_error_nth _ _ [] E). exact I. }
    apply (component_spec T w pv HP) in I as (K & _). exact K.
  Qed.
  Lemma same_index : forall p q i j, comp_index p (comps T pv) 0 = Some i -> comp_index q (comps T pv) 0 = Some j -> (i = j <-> connected T w p q).
  Proof.
    intros p q i j Ei Ej. assert (Kp : exists v, policy_in T w p v) by (apply index_some_iff; eauto). assert (Kq : exists v, policy_in T w q v) by (apply index_some_iff; eauto).
    assert (Cp : component_of (comps T pv) p = nth i (comps T pv) []) by (unfold component_of; now rewrite Ei). assert (Cq : component_of (comps T pv) q = nth j (comps T pv) []) by (unfold component_of; now rewrite Ej).
    split.
    - intros ->. assert (I : In q (component_of (comps T pv) p)) by (rewrite Cp, <- Cq; apply (component_spec T w pv HP); split; [exact Kq|]; split; [exact Kq|apply rst_refl]). apply (component_spec T w pv HP) in I. tauto.
    - intros C. assert (I1 : In q (nth i (comps T pv) [])) by (rewrite <- Cp; apply (component_spec T w pv HP); auto). assert (I2 : In p (nth j (comps T pv) [])) by (rewrite <- Cq; apply (component_spec T w pv HP); split; [exact Kq|]; split; [exact Kp|now apply rst_sym]).
      destruct (Nat.lt_trichotomy i j) as [L|[E|L]]; [|exact E|].
      + exfalso. exact (first_index _ _ _ _ Ej i ltac:(lia) I1).
      + exfalso. exact (first_index _ _ _ _ Ei j ltac:(lia) I2).
  Qed.
End World.
