(** * C78: properties written by policies that do not know each other *)
From Coq Require Import String List Bool Arith NArith Lia Relations.
Import ListNotations.
From Verif Require Import Base Convert Workspace WorkspaceSpec WorkspaceMaps WorkspaceFacts WorkspaceRun PropWorkspace Conflicts ConflictsFacts.
Local Open Scope string_scope.
Local Open Scope nat_scope.
Local Open Scope list_scope.

Section Claims.
  Context {PD GC PP SC RU UN EN SG AN DG AR FT DI : Type}.
  Variable T : @tools PD GC PP SC RU UN EN SG AN DG AR FT DI.
  Variable M : @arcs PD GC.
  Variable rw : RU -> list path.
  (** Policy [p], one of the documents, has a rule that writes [x]. *)
  Definition writes (w : world) (p x : path) : Prop := exists v r, policy_in T w p v /\ In r (rules_of T p v) /\ In x (rw r).
  (** The list, in path order, has a property exactly if two policies that no imports connect write it; with it come all its writers, in path order. *)
  Theorem C78_conflicts : scope_free T -> forall h, let w := world_of M h in let l := write_conflicts rw T M (after T M h) in
    by_path l /\
    forall x ps, In (x, ps) l <->
      x <> "" /\ ordered ps /\ (forall p, In p ps <-> writes w p x) /\ exists p q, In p ps /\ In q ps /\ ~ connected T w p q.
  Proof.
    intros SF h w l. split; [apply conflicts_by|]. intros x ps.
    destruct (after_good T M SF h) as [(al & G) _]. destruct (snapshot T M (after T M h)) as [s b1] eqn:E. destruct (snapshot_ok T M SF _ _ _ _ G E) as (al1 & _ & _ & _ & _ & _ & SO).
    set (inputs := b_inputs (after T M h)) in *. pose proof (pvals_policies T M inputs (g_nodup _ _ _ _ G)) as HP. set (pv := pvals T M inputs) in *.
    assert (Ew : forall p, world_in M inputs p = w p) by (intros p; apply after_world; exact SF).
    assert (Hc : forall p q, connected T (world_in M inputs) p q <-> connected T w p q) by (intros p q; split; apply connected_same; auto).
    assert (Hp : forall p v, policy_in T (world_in M inputs) p v <-> policy_in T w p v) by (intros p v; split; apply policy_same; auto).
    unfold l, write_conflicts. rewrite E. cbn [fst]. rewrite (so_comps _ _ _ _ _ _ SO), (so_shallow _ _ _ _ _ _ SO). fold pv. rewrite conflict_in.
    assert (W : forall p c, wrote rw (comps T pv) (map (fun e => (fst e, rules_of T (fst e) (snd e))) pv) x p c <-> x <> "" /\ writes w p x /\ comp_index p (comps T pv) 0 = Some c).
    { intros p c. unfold wrote, writes. split.
      - intros (rs & r & I & R & X & Z & C). apply in_map_iff in I as ([p1 v] & Q & I). cbn [fst snd] in Q. injection Q as <- <-. split; [exact Z|]. split; [|exact C]. exists v, r. split; [|auto].
        apply Hp, (proj2 HP). apply aget_nodup; [apply by_path_nodup; exact (proj1 HP)|exact I].
      - intros (Z & (v & r & P & R & X) & C). apply Hp, (proj2 HP) in P. apply aget_Some_in in P. exists (rules_of T p v), r. split; [apply in_map_iff; exists (p, v); auto|]. auto. }
    assert (Ix : forall p, writes w p x -> exists c, comp_index p (comps T pv) 0 = Some c).
    { intros p (v & r & P & _). destruct (index_some T _ pv HP p) as (i & Q & _); [exists v; now apply Hp|eauto]. }
    split.
    - intros (lst & -> & L & (p & c & q & d & A & B & D)). pose proof (proj1 (W p c) (proj1 (L p c) A)) as (Z & Wp & Cp). pose proof (proj1 (W q d) (proj1 (L q d) B)) as (_ & Wq & Cq).
      split; [exact Z|]. split; [apply sort_paths_ordered|].
      assert (Ps : forall y, In y (sort_paths (map fst lst)) <-> writes w y x).
      { intros y. rewrite sort_paths_in, in_map_iff. split.
        - intros ([y1 c1] & Q & I). cbn in Q. subst y1. apply L, W in I. tauto.
        - intros Wy. destruct (Ix y Wy) as (c1 & C1). exists (y, c1). split; [reflexivity|]. apply L, W. auto. }
      split; [exact Ps|]. exists p, q. rewrite !Ps. split; [exact Wp|]. split; [exact Wq|]. rewrite <- Hc. rewrite <- (same_index T _ pv HP p q c d Cp Cq). exact D.
    - intros (Z & O & Ps & (p & q & Ip & Iq & N)).
      exists (flat_map (fun y => match comp_index y (comps T pv) 0 with Some c => [(y, c)] | None => [] end) ps).
      assert (L : forall y c, In (y, c) (flat_map (fun y => match comp_index y (comps T pv) 0 with Some c => [(y, c)] | None => [] end) ps) <-> In y ps /\ comp_index y (comps T pv) 0 = Some c).
      { intros y c. rewrite in_flat_map. split.
        - intros (z & I & J). destruct (comp_index z (comps T pv) 0) as [c1|] eqn:C1; [|destruct J]. destruct J as [J|[]]. injection J as -> ->. auto.
        - intros [I C]. exists y. split; [exact I|]. rewrite C. now left. }
      split; [|split].
      + assert (F : map fst (flat_map (fun y => match comp_index y (comps T pv) 0 with Some c => [(y, c)] | None => [] end) ps) = ps).
        { assert (K : forall y, In y ps -> exists c, comp_index y (comps T pv) 0 = Some c) by (intros y I; apply Ix; now apply Ps). clear - K. induction ps as [|y ps IH]; [reflexivity|]. cbn [flat_map]. destruct (K y (or_introl eq_refl)) as (c & C). rewrite C. cbn [app map fst]. f_equal. apply IH. intros z I. apply K. now right. }
        rewrite F. clear - O. unfold sort_paths.
        assert (B0 : by_path (map (fun p => (p, tt)) ps)) by (apply by_path_ordered; rewrite map_map, map_id; exact O).
        rewrite (by_path_eq (sort_map (map (fun p => (p, tt)) ps)) (map (fun p => (p, tt)) ps)); [now rewrite map_map, map_id|apply sort_map_by|exact B0|]. intros k. apply sort_map_get. now apply by_path_nodup.
      + intros y c. rewrite L, W, Ps. tauto.
      + destruct (Ix p (proj1 (Ps p) Ip)) as (c & C). destruct (Ix q (proj1 (Ps q) Iq)) as (d & D). exists p, c, q, d. rewrite !L. split; [auto|]. split; [auto|]. intros H. apply N. apply Hc. now apply (same_index T _ pv HP p q c d C D).
  Qed.
  (** So when nothing is listed, policies that write the same property are connected by imports. *)
  Theorem C78_none : scope_free T -> forall h, write_conflicts rw T M (after T M h) = [] -> forall p q x, x <> "" -> writes (world_of M h) p x -> writes (world_of M h) q x -> connected T (world_of M h) p q.
  Proof.
    intros SF h E p q x Z Wp Wq. destruct (C78_conflicts SF h) as [_ H]. rewrite E in H.
    destruct (after_good T M SF h) as [(al & G) _]. pose proof (pvals_policies T M (b_inputs (after T M h)) (g_nodup _ _ _ _ G)) as HP.
    assert (Ew : forall p, world_in M (b_inputs (after T M h)) p = world_of M h p) by (intros y; apply after_world; exact SF).
    destruct (pmem q (component_of (comps T (pvals T M (b_inputs (after T M h)))) p)) eqn:C; [apply pmem_in, (component_spec T _ _ HP) in C as (_ & _ & C); eapply connected_same; [exact Ew|exact C]|].
    assert (N : ~ connected T (world_of M h) p q).
    { intros K. apply pmem_not in C. apply C. apply (component_spec T _ _ HP). destruct Wp as (v & _ & P & _), Wq as (u & _ & Q & _). split; [exists v; eapply policy_same; [intros; symmetry; apply Ew|exact P]|]. split; [exists u; eapply policy_same; [intros; symmetry; apply Ew|exact Q]|]. eapply connected_same; [intros; symmetry; apply Ew|exact K]. }
    exfalso.
    set (names := filter (fun y => existsb (fun r => pmem x (rw r)) (match aget y (pvals T M (b_inputs (after T M h))) with Some v => rules_of T y v | None => [] end)) (map fst (pvals T M (b_inputs (after T M h))))).
    assert (In_n : forall y, In y names <-> writes (world_of M h) y x).
    { intros y. unfold names. rewrite filter_In, existsb_exists. split.
      - intros (K & r & R & X). apply pmem_in in X. destruct (aget y (pvals T M (b_inputs (after T M h)))) as [v|] eqn:V; [|destruct R]. exists v, r. split; [|auto]. apply (proj2 HP) in V. eapply policy_same; [exact Ew|exact V].
      - intros (v & r & P & R & X). assert (V : aget y (pvals T M (b_inputs (after T M h))) = Some v) by (apply (proj2 HP); eapply policy_same; [intros; symmetry; apply Ew|exact P]). split; [apply aget_in; eauto|]. rewrite V. exists r. split; [exact R|]. now apply pmem_in. }
    apply (proj2 (H x (sort_paths names))). split; [exact Z|]. split; [apply sort_paths_ordered|]. split; [intros y; rewrite sort_paths_in; apply In_n|]. exists p, q. rewrite !sort_paths_in, !In_n. auto.
  Qed.
End Claims.
Print Assumptions C78_conflicts.
Print Assumptions C78_none.

(** Policies a (which imports b), b and c; all write [total], and c writes a property inside the [user] that b writes. *)
Definition ws_writes (r : string * N) : list path := match snd r with 1%N => ["total"] | 2%N => ["total"; "user"] | 3%N => ["total"; "user.name"] | _ => [] end.
Example C78_case : scope_free ws_tools /\ write_conflicts ws_writes ws_tools ws_arcs (after ws_tools ws_arcs [ESet "c" 3; ESet "b" 2; ESet "a" 1]) = [("total", ["a"; "b"; "c"])] /\
  write_conflicts ws_writes ws_tools ws_arcs (after ws_tools ws_arcs [ESet "c" 3; ESet "b" 2; ESet "a" 1; ERemove "c"]) = [].
Proof. split; [exact ws_scope_free|]. split; vm_compute; reflexivity. Qed.
(** A policy that writes an object and one that writes a property inside it are not seen to conflict. *)
Theorem C78_inside_refuted : exists (h : list (@event N)) p q, let w := world_of ws_arcs h in
  writes ws_tools ws_writes w p "user" /\ writes ws_tools ws_writes w q "user.name" /\ ~ connected ws_tools w p q /\
  forall x ps, In (x, ps) (write_conflicts ws_writes ws_tools ws_arcs (after ws_tools ws_arcs h)) -> x <> "user" /\ x <> "user.name".
Proof.
  exists [ESet "c" 3; ESet "b" 2], "b", "c". split; [|split; [|split]].
  - exists ([], 2%N), ("b", 2%N). split; [exists ([], 2%N); auto|]. split; [now left|cbn; auto].
  - exists ([], 3%N), ("c", 3%N). split; [exists ([], 3%N); auto|]. split; [now left|cbn; auto].
  - assert (H : forall x y, connected ws_tools (world_of ws_arcs ([ESet "c" 3; ESet "b" 2] : list (@event N))) x y -> x = y).
    { intros x y C. induction C as [x y (v & u & (d & W & ->) & _ & I)|x|x y C IH|x y z C1 IH1 C2 IH2]; try congruence. exfalso. apply world_cases in W as (e & K & S0). cbn in K, I. destruct K as [K|[K|[]]]; injection K as <- <-; cbn in S0; injection S0 as ->; destruct I. }
    intros C. apply H in C. discriminate.
  - intros x ps I. vm_compute in I. destruct I as [I|[]]. injection I as <- _. split; discriminate.
Qed.
Print Assumptions C78_inside_refuted.
