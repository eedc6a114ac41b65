(** * Along a history, a workspace's answers are right *)
From Coq Require Import String List Bool Arith NArith Lia Relations.
Import ListNotations.
From Verif Require Import Base Convert Workspace WorkspaceSpec WorkspaceMaps WorkspaceFacts WorkspaceGraphs.
Local Open Scope nat_scope.
Local Open Scope list_scope.

Section Run.
  Context {PD GC PP SC RU UN EN SG AN DG AR FT DI : Type}.
  Let tools := @tools PD GC PP SC RU UN EN SG AN DG AR FT DI.
  Let arcs := @arcs PD GC.
  Variable T : tools.
  Variable M : arcs.
  Hypothesis SF : scope_free T.
  Let db := @db PP RU UN EN AN DG AR FT.
  Let snap := @snap PP RU DG AR.
  Let world := @world PD GC.
  Let good := good T M.
  Let event := @event FT.
  Let ftypes := N -> option (@fentry FT).

  Lemma pick_keys : forall {V} ms (m : amap V), (forall q, In q ms -> In q (map fst m)) -> map fst (pick ms m) = ms.
  Proof.
    intros V ms m. unfold pick. induction ms as [|p ms IH]; intros H; [reflexivity|]. cbn [flat_map]. assert (P : In p (map fst m)) by (apply H; now left). apply aget_in in P as (v & P). rewrite P. cbn [app map fst]. f_equal. apply IH. intros q I. apply H. now right.
  Qed.
  Lemma map_get : forall {V X} (f : path -> V -> X) (m : amap V) p, aget p (map (fun e => (fst e, f (fst e) (snd e))) m) = option_map (f p) (aget p m).
  Proof. intros V X f m p. induction m as [|[k x] m IH]; [reflexivity|]. cbn [map aget fst snd]. destruct (String.eqb_spec k p) as [->|]; [reflexivity|exact IH]. Qed.

  (** ** Worlds that agree everywhere *)
  Section Same.
    Variables w w1 : world.
    Hypothesis E : forall p, w p = w1 p.
    Lemma policy_same : forall p v, policy_in T w p v -> policy_in T w1 p v.
    Proof. intros p v (d & A & B). exists d. rewrite <- E. auto. Qed.
    Lemma connected_same : forall p q, connected T w p q -> connected T w1 p q.
    Proof.
      intros p q C. induction C as [x y (v & u & A & B & I)|x|x y C IH|x y z C1 IH1 C2 IH2]; [apply rst_step|apply rst_refl|now apply rst_sym|eapply rst_trans; eauto].
      exists v, u. auto using policy_same.
    Qed.
    Lemma calls_same : forall p q, clos_trans path (calls T w) p q -> clos_trans path (calls T w1) p q.
    Proof.
      intros p q C. induction C as [x y (g & ds & ks & A & B)|x y z C1 IH1 C2 IH2]; [apply t_step|eapply t_trans; eauto]. exists g, ds, ks. rewrite <- E. auto.
    Qed.
  End Same.
  Lemma group_same : forall w w1 : world, (forall p, w p = w1 p) -> forall p g, group T w p g -> group T w1 p g.
  Proof.
    intros w w1 E p g [B H]. assert (E1 : forall p, w1 p = w p) by auto. split; [exact B|]. intros q v. rewrite H. split; intros [A C]; split; eauto using policy_same, connected_same.
  Qed.
  Lemma no_cycle_same : forall w w1 : world, (forall p, w p = w1 p) -> no_cycle T w -> no_cycle T w1.
  Proof. intros w w1 E H p C. apply (H p). apply (calls_same w1 w); auto. Qed.
  Lemma same_group_same : forall w w1 u u1 : world, (forall p, w p = w1 p) -> (forall p, u p = u1 p) -> same_group T w u -> same_group T w1 u1.
  Proof.
    intros w w1 u u1 E F H p v P A q C. apply (connected_same w w1 E). apply (H p v).
    - apply (policy_same w1 w); auto.
    - intros x X. rewrite F, E. apply A. now apply (connected_same w w1).
    - apply (connected_same u1 u); auto.
  Qed.
  Lemma sees_same : forall w w1 : world, (forall p, w p = w1 p) -> forall q a b c d e, sees_dicts T w q a b c d e -> sees_dicts T w1 q a b c d e.
  Proof. intros w w1 E q a b c d e H. eapply sees_moves; eauto. Qed.
  Lemma means_same : forall (w w1 : world) (f f1 : ftypes), (forall p, w p = w1 p) -> (forall k, f k = f1 k) -> forall p a, means T w f p a -> means T w1 f1 p a.
  Proof.
    intros w w1 f f1 E F. apply (means_ind2 _ _ _ _ _ _ _ _ _ _ _ _ _ T w f (fun p a => means T w1 f1 p a) (fun q a => answers T w1 f1 q a)).
    - intros p g a vis ds A B _ IH. apply means_graph with g vis ds; [now rewrite <- E|eapply sees_same; eauto|]. rewrite (kind_moves w w1); auto.
    - intros a. constructor.
    - intros key k b a _ A _ B. eapply an_graph; eauto.
    - intros key k v g a P G _ B. eapply an_policy; [eapply policy_same; eauto|eapply group_same; eauto|exact B].
    - intros key k a P _ B. apply an_missing; [now rewrite <- E|exact B].
    - intros key k t a P _ B. eapply an_typed; [rewrite <- F; exact P|exact B].
    - intros key k a P _ B. apply an_unresolved; [now rewrite <- F|exact B].
    - intros key k a P _ B. apply an_unknown; [now rewrite <- F|exact B].
  Qed.
  Lemma policies_same : forall w w1 : world, (forall p, w p = w1 p) -> forall g, policies T w g -> policies T w1 g.
  Proof. intros w w1 E g [B H]. split; [exact B|]. intros q v. rewrite H. split; intros P; eauto using policy_same. Qed.
  Lemma graphs_same : forall w w1 : world, (forall p, w p = w1 p) -> forall g, graphs w g -> graphs w1 g.
  Proof. intros w w1 E g [B H]. split; [exact B|]. intros q c. rewrite H, E. tauto. Qed.
  Lemma right_same : forall (w w1 : world) (f f1 : ftypes), (forall p, w p = w1 p) -> (forall k, f k = f1 k) -> forall q a, right_answer T w f q a -> right_answer T w1 f1 q a.
  Proof.
    intros w w1 f f1 E F q a H. assert (E1 : forall p, w1 p = w p) by auto.
    destruct H as [p o H|p o H|p g H|p g H|p g H|p g H|p a H|p H|p g ps gs N H P G|p a H].
    - constructor. intros v. rewrite H. split; intros P; eauto using policy_same.
    - constructor. intros rs. rewrite H. split; intros (v & P & R); exists v; eauto using policy_same.
    - constructor. eauto using group_same.
    - constructor. eauto using group_same.
    - constructor. eauto using group_same.
    - constructor. eauto using group_same.
    - constructor. eauto using means_same.
    - constructor. intros g. now rewrite E1.
    - constructor; eauto using group_same, policies_same, graphs_same. intros x. now rewrite E1.
    - constructor. eauto using means_same.
  Qed.
  Lemma map_unique : forall {V} (P : path -> V -> Prop) (a b : amap V), by_path a -> by_path b -> (forall q v, aget q a = Some v <-> P q v) -> (forall q v, aget q b = Some v <-> P q v) -> a = b.
  Proof.
    intros V P a b A B H K. apply by_path_eq; auto. intros k. destruct (aget k a) as [v|] eqn:E.
    - symmetry. apply K, H, E.
    - destruct (aget k b) as [v|] eqn:E1; [|reflexivity]. apply K, H in E1. congruence.
  Qed.
  (** There is at most one right answer. *)
  Lemma right_fun : forall (w : world) (f : ftypes) q a a1, right_answer T w f q a -> right_answer T w f q a1 -> a = a1.
  Proof.
    intros w f q a a1 H K. destruct H as [p o H|p o H|p g H|p g H|p g H|p g H|p a H|p H|p g ps gs N H P G|p a H]; inversion K as [p1 o1 H1|p1 o1 H1|p1 g1 H1|p1 g1 H1|p1 g1 H1|p1 g1 H1|p1 b H1|p1 H1|p1 g1 ps1 gs1 N1 H1 P1 G1|p1 b H1]; subst.
    - f_equal. destruct o as [v|]; [symmetry; apply H1, H; reflexivity|]. destruct o1 as [v|]; [apply H, H1; reflexivity|reflexivity].
    - f_equal. destruct o as [v|]; [symmetry; apply H1, H; reflexivity|]. destruct o1 as [v|]; [apply H, H1; reflexivity|reflexivity].
    - now rewrite (group_unique T _ _ _ _ H H1).
    - now rewrite (group_unique T _ _ _ _ H H1).
    - now rewrite (group_unique T _ _ _ _ H H1).
    - now rewrite (group_unique T _ _ _ _ H H1).
    - now rewrite (means_fun T _ _ _ _ H _ H1).
    - inversion H; subst. exfalso. eapply H1; eauto.
    - inversion H1; subst. exfalso. eapply H; eauto.
    - reflexivity.
    - rewrite (group_unique T _ _ _ _ H H1). rewrite (map_unique _ _ _ (proj1 P) (proj1 P1) (proj2 P) (proj2 P1)). rewrite (map_unique _ _ _ (proj1 G) (proj1 G1) (proj2 G) (proj2 G1)). reflexivity.
    - inversion H1; subst. exfalso. eapply N; eauto.
    - inversion H; subst. exfalso. eapply N1; eauto.
    - now rewrite (means_fun T _ _ _ _ H _ H1).
  Qed.

  (** ** Questions about policies *)
  Lemma art_kept : forall b al p, good b al -> good (set_snap_artifact b p (art_of T M (b_inputs b) p)) al.
  Proof.
    intros b al p G. unfold set_snap_artifact. destruct (b_snap b) as [s|] eqn:S0; [|exact G]. destruct G. constructor; auto. intros s1 E. cbn in E. injection E as <-. destruct (g_snap s S0). constructor; auto.
    intros q v V. cbn in V. destruct (string_dec p q) as [->|Ne]; [rewrite aget_aset_eq in V; injection V as <-; reflexivity|]. rewrite aget_aset_ne in V by exact Ne. auto.
  Qed.
  Lemma art_quiet : forall (b : db) p v, quiet b (set_snap_artifact b p v).
  Proof.
    intros b p v. unfold set_snap_artifact. destruct (b_snap b) as [s|] eqn:S0; [|apply quiet_refl]. constructor; auto. intros s1 E. cbn in E. injection E as <-. cbn. intros q u V. eauto.
  Qed.
  Lemma diag_kept : forall b al p v, good b al -> ((forall g, world_in M (b_inputs b) p <> Some (SGraph g)) -> v = pdiag_of T M (b_inputs b) p) -> good (set_snap_diag b p v) al.
  Proof.
    intros b al p v G H. unfold set_snap_diag. destruct (b_snap b) as [s|] eqn:S0; [|exact G]. destruct G. constructor; auto. intros s1 E. cbn in E. injection E as <-. destruct (g_snap s S0). constructor; auto.
    intros q u V. cbn in V. destruct (string_dec p q) as [->|Ne]; [rewrite aget_aset_eq in V; injection V as <-; exact H|]. rewrite aget_aset_ne in V by exact Ne. auto.
  Qed.
  Lemma artifact_ok : forall b al p v b1, good b al -> eval_artifact T M b p = (v, b1) -> v = art_of T M (b_inputs b) p /\ exists al1, good b1 al1 /\ quiet b b1.
  Proof.
    intros b al p v b1 G E. unfold eval_artifact in E. destruct (snapshot T M b) as [s b2] eqn:Sn. destruct (snapshot_ok T M SF _ _ _ _ G Sn) as (al2 & G2 & X2 & Q2 & U2 & S2 & SO).
    destruct (aget p (s_artifacts s)) as [v0|] eqn:A.
    - injection E as <- <-. split; [eapply so_arts; eauto|eauto].
    - destruct (unit T M b2 p) as [id b3] eqn:U. destruct (unit_ok T M SF _ _ _ _ _ G2 U) as (al3 & G3 & _ & Q3 & _ & S3 & U3). rewrite (q_inputs _ _ Q2) in U3.
      destruct (unit_at_ok T _ _ _ U3) as [Ua Ub]. rewrite Ua, Ub, (so_values _ _ _ _ _ _ SO), (picked_rules T M _ _ _ _ _ SO) in E.
      assert (PK : pick (map fst (grp T M (b_inputs b) p)) (pvals T M (b_inputs b)) = grp T M (b_inputs b) p) by apply pick_again. rewrite PK in E.
      injection E as <- <-. split; [reflexivity|]. exists al3. split.
      + assert (I3 : b_inputs b3 = b_inputs b) by (rewrite (q_inputs _ _ Q3); exact (q_inputs _ _ Q2)). change (t_artifact T (unit_of T (grp T M (b_inputs b) p)) (grp T M (b_inputs b) p) (group_rules T (grp T M (b_inputs b) p))) with (art_of T M (b_inputs b) p). rewrite <- I3. now apply art_kept.
      + eapply quiet_trans; [exact Q2|]. eapply quiet_trans; [exact Q3|]. apply art_quiet.
  Qed.

  Lemma graphs_at : forall inputs, NoDup (map fst inputs) -> exists gs, graphs (world_in M inputs) gs /\ map fst gs = map fst (graphs_of M (sort_map inputs)).
  Proof.
    intros inputs N. pose proof (sort_map_by inputs) as B. set (m := sort_map inputs) in *.
    exists (flat_map (fun e => match a_content M (snd e) with CGraph g => [(fst e, g)] | CPolicy _ => [] end) m).
    assert (K : map fst (flat_map (fun e => match a_content M (snd e) with CGraph g => [(fst e, g)] | CPolicy _ => [] end) m) = map fst (graphs_of M m)).
    { clear. unfold graphs_of. induction m as [|[k d] m IH]; [reflexivity|]. cbn [flat_map fst snd]. rewrite !map_app, IH. destruct (a_content M d); reflexivity. }
    assert (Gp : forall l q c, NoDup (map fst l) -> aget q (flat_map (fun e => match a_content M (snd e) with CGraph g => [(fst e, g)] | CPolicy _ => [] end) l) = Some c <-> exists d, aget q l = Some d /\ a_content M d = CGraph c).
    { clear. induction l as [|[k d] l IH]; intros q c N; [cbn; split; [discriminate|intros (d & A & _); discriminate A]|]. cbn in N. apply NoDup_cons_iff in N as [N1 N2]. specialize (IH q c N2). cbn [flat_map fst snd aget].
      destruct (String.eqb_spec k q) as [->|Ne].
      - destruct (a_content M d) as [i|g] eqn:C; cbn [app aget].
        + rewrite IH. apply aget_None_notin in N1. split; [intros (x & A & _); congruence|intros (x & A & D); congruence].
        + rewrite String.eqb_refl. split; [intros Z; injection Z as <-; eauto|intros (x & A & D); congruence].
      - destruct (a_content M d) as [i|g] eqn:C; cbn [app aget]; [exact IH|]. destruct (String.eqb_spec k q); [contradiction|exact IH]. }
    split; [|exact K]. split.
    - apply by_path_ordered. rewrite K. apply by_path_ordered. clear - B. unfold graphs_of. induction m as [|[k d] m IH]; [exact I|]. cbn [by_path] in B. destruct B as [B1 B2]. cbn [flat_map fst snd]. destruct (a_content M d); cbn [app]; [now apply IH|]. cbn [by_path]. split; [|now apply IH].
      rewrite Forall_forall in *. intros [q x] I1. apply in_flat_map in I1 as ([k1 d1] & I1 & I2). cbn in I2. destruct (a_content M d1); [destruct I2|]. destruct I2 as [I2|[]]. injection I2 as <- <-. exact (B1 _ I1).
    - intros q c. rewrite Gp by (apply by_path_nodup; exact B). unfold m. rewrite sort_map_get by exact N. unfold world_in, shows. destruct (aget q inputs) as [d|]; cbn; [|split; [intros (d & A & _); discriminate A|discriminate]].
      split; [intros (x & A & C); injection A as <-; now rewrite C|]. intros A. exists d. split; [reflexivity|]. destruct (a_content M d); congruence.
  Qed.
  Lemma grp_group : forall inputs p, NoDup (map fst inputs) -> group T (world_in M inputs) p (grp T M inputs p).
  Proof.
    intros inputs p N. pose proof (pvals_policies T M inputs N) as HP. split; [apply pick_by, (component_ordered T _ _ HP)|]. intros q u. unfold grp. rewrite pick_get by apply (component_ordered T _ _ HP). destruct (pmem q (component_of (comps T (pvals T M inputs)) p)) eqn:E.
    - apply pmem_in, (component_spec T _ _ HP) in E. rewrite (proj2 HP). tauto.
    - apply pmem_not in E. split; [discriminate|]. intros [Q C]. exfalso. apply E. apply (component_spec T _ _ HP). split; [|eauto].
      assert (H : forall x y, connected T (world_in M inputs) x y -> x = y \/ (exists u, policy_in T (world_in M inputs) x u) /\ exists u, policy_in T (world_in M inputs) y u).
      { clear. intros x y C. induction C as [x y (v0 & u & A1 & A2 & _)|x|x y C IH|x y z C1 IH1 C2 IH2]; [right; eauto|now left| |].
        - destruct IH as [->|[A1 A2]]; [now left|]. right. auto.
        - destruct IH1 as [->|[A1 A2]]; [exact IH2|]. destruct IH2 as [<-|[B1 B2]]; right; auto. }
      destruct (H p q C) as [->|[Hp _]]; eauto.
  Qed.
  Lemma component_group : forall inputs p, NoDup (map fst inputs) -> component_of (comps T (pvals T M inputs)) p = map fst (grp T M inputs p).
  Proof.
    intros inputs p N. pose proof (pvals_policies T M inputs N) as HP. unfold grp. symmetry. apply pick_keys. intros q I. apply (component_spec T _ _ HP) in I as (_ & (v & P) & _). apply (proj2 HP) in P. apply aget_in. eauto.
  Qed.

  Lemma ask_policies : forall b al q a b1 f, good b al -> about_policies (world_in M (b_inputs b)) q -> ask T M b q = (a, b1) ->
    right_answer T (world_in M (b_inputs b)) f q a /\ exists al1, good b1 al1 /\
      b_inputs b1 = b_inputs b /\ b_stack b1 = b_stack b /\ b_frames b1 = b_frames b /\ b_ftypes b1 = b_ftypes b /\ b_resolver b1 = b_resolver b /\
      (forall p x, aget p (c_graphs (b_cache b1)) = Some x -> aget p (c_graphs (b_cache b)) = Some x) /\
      (forall s1, b_snap b1 = Some s1 -> forall p v g, aget p (s_diags s1) = Some v -> world_in M (b_inputs b) p = Some (SGraph g) -> exists s, b_snap b = Some s /\ aget p (s_diags s) = Some v).
  Proof.
    intros b al q a b1 f G A E. set (w := world_in M (b_inputs b)) in *. pose proof (g_nodup _ _ _ _ G) as N.
    assert (Qt : forall al2 b2, good b2 al2 -> quiet b b2 -> exists al1, good b2 al1 /\
      b_inputs b2 = b_inputs b /\ b_stack b2 = b_stack b /\ b_frames b2 = b_frames b /\ b_ftypes b2 = b_ftypes b /\ b_resolver b2 = b_resolver b /\
      (forall p x, aget p (c_graphs (b_cache b2)) = Some x -> aget p (c_graphs (b_cache b)) = Some x) /\
      (forall s1, b_snap b2 = Some s1 -> forall p v g, aget p (s_diags s1) = Some v -> w p = Some (SGraph g) -> exists s, b_snap b = Some s /\ aget p (s_diags s) = Some v)).
    { intros al2 b2 G2 Q2. exists al2. destruct Q2. repeat (split; [assumption|]). eauto. }
    pose proof (pvals_policies T M (b_inputs b) N) as HP. fold w in HP.
    destruct q as [p|p|p|p|p|p|p|p]; cbn [ask] in E.
    - destruct (snapshot T M b) as [s b2] eqn:Sn. destruct (snapshot_ok T M SF _ _ _ _ G Sn) as (al2 & G2 & X2 & Q2 & U2 & S2 & SO). injection E as <- <-. split; [|eapply Qt; eauto].
      constructor. intros v. rewrite <- values_get, (so_values _ _ _ _ _ _ SO). apply (proj2 HP).
    - destruct (snapshot T M b) as [s b2] eqn:Sn. destruct (snapshot_ok T M SF _ _ _ _ G Sn) as (al2 & G2 & X2 & Q2 & U2 & S2 & SO). injection E as <- <-. split; [|eapply Qt; eauto].
      constructor. intros rs. rewrite (so_shallow _ _ _ _ _ _ SO). rewrite (map_get (fun p v => rules_of T p v)). destruct (aget p (pvals T M (b_inputs b))) as [v|] eqn:Ap; cbn.
      + split; [intros Z; injection Z as <-; exists v; split; [now apply (proj2 HP)|reflexivity]|]. intros (v1 & P & ->). apply (proj2 HP) in P. congruence.
      + split; [discriminate|]. intros (v1 & P & ->). apply (proj2 HP) in P. congruence.
    - destruct (snapshot T M b) as [s b2] eqn:Sn. destruct (snapshot_ok T M SF _ _ _ _ G Sn) as (al2 & G2 & X2 & Q2 & U2 & S2 & SO). injection E as <- <-. split; [|eapply Qt; eauto].
      rewrite (so_comps _ _ _ _ _ _ SO), component_group by exact N. constructor. now apply grp_group.
    - destruct (unit T M b p) as [id b2] eqn:U. destruct (unit_ok T M SF _ _ _ _ _ G U) as (al2 & G2 & _ & Q2 & _ & S2 & U2). destruct (unit_at_ok T _ _ _ U2) as [Ua Ub]. rewrite Ua, Ub in E. injection E as <- <-. split; [|eapply Qt; eauto].
      constructor. now apply grp_group.
    - destruct (unit T M b p) as [id b2] eqn:U. destruct (unit_ok T M SF _ _ _ _ _ G U) as (al2 & G2 & _ & Q2 & _ & S2 & U2). rewrite <- (q_inputs _ _ Q2) in U2.
      destruct (enriched_of_unit T M b2 id) as [e b3] eqn:En. destruct (enriched_ok T M SF _ _ _ _ _ _ G2 U2 En) as (-> & al3 & G3 & _ & Q3 & _ & _). injection E as <- <-. split; [|eapply Qt; [eauto|eapply quiet_trans; eauto]].
      rewrite (q_inputs _ _ Q2). constructor. now apply grp_group.
    - destruct (eval_artifact T M b p) as [v b2] eqn:Ev. destruct (artifact_ok _ _ _ _ _ G Ev) as (-> & al2 & G2 & Q2). injection E as <- <-. split; [|eapply Qt; eauto]. unfold art_of. constructor. now apply grp_group.
    - destruct A.
    - cbn in A. destruct (policy_diagnostics T M b p) as [v b2] eqn:D. injection E as <- <-.
      assert (Rt : right_answer T w f (QDiag p) (ADiag (pdiag_of T M (b_inputs b) p))).
      { unfold pdiag_of. destruct (graphs_at (b_inputs b) N) as (gs & Hg & <-). eapply ra_diag; eauto. now apply grp_group. }
      unfold policy_diagnostics in D. destruct (snapshot T M b) as [s b3] eqn:Sn. destruct (snapshot_ok T M SF _ _ _ _ G Sn) as (al2 & G2 & X2 & Q2 & U2 & S2 & SO).
      destruct (aget p (s_diags s)) as [v0|] eqn:Ad.
      + injection D as <- <-. rewrite (so_diags _ _ _ _ _ _ SO _ _ Ad A). split; [exact Rt|]. eapply Qt; eauto.
      + pose proof (snap_world T M _ _ _ _ p N SO) as SW. fold w in SW. assert (Ng : amem p (s_graphs s) = false).
        { unfold amem. destruct (w p) as [[d|g]|] eqn:Wp; [destruct SW as [-> _]; reflexivity|exfalso; now apply (A g)|destruct SW as [-> _]; reflexivity]. }
        rewrite Ng in D. destruct (unit T M b3 p) as [id b4] eqn:U. destruct (unit_ok T M SF _ _ _ _ _ G2 U) as (al4 & G4 & _ & Q4 & _ & S4 & U4). rewrite <- (q_inputs _ _ Q4) in U4.
        destruct (enriched_of_unit T M b4 id) as [e b5] eqn:En. destruct (enriched_ok T M SF _ _ _ _ _ _ G4 U4 En) as (-> & al5 & G5 & _ & Q5 & Gr5 & S5). apply Gr5 in U4. destruct (unit_at_ok T _ _ _ U4) as [Ua _].
        assert (I4 : b_inputs b4 = b_inputs b) by (rewrite (q_inputs _ _ Q4); exact (q_inputs _ _ Q2)).
        rewrite Ua, I4, (so_values _ _ _ _ _ _ SO), (so_graphs _ _ _ _ _ _ SO) in D. injection D as <- <-. fold (pdiag_of T M (b_inputs b) p). split; [exact Rt|].
        assert (Q25 : quiet b b5) by (eapply quiet_trans; [exact Q2|]; eapply quiet_trans; eauto). assert (I5 : b_inputs b5 = b_inputs b) by exact (q_inputs _ _ Q25).
        exists al5. split; [apply diag_kept; [exact G5|]; intros _; now rewrite I5|].
        destruct (Qt _ _ G5 Q25) as (_ & _ & A1 & A2 & A3 & A4 & A5 & A6 & A7). unfold set_snap_diag. destruct (b_snap b5) as [s5|] eqn:S5'; [|repeat (split; [assumption|]); rewrite S5'; intros s1 Z; discriminate Z].
        repeat (split; [assumption|]). intros s1 Z q u g V Wq. cbn in Z. injection Z as <-. cbn in V. destruct (string_dec p q) as [->|Ne]; [exfalso; now apply (A g)|]. rewrite aget_aset_ne in V by exact Ne. eapply A7; eauto.
  Qed.

  (** ** Histories *)
  Lemma fold_snoc : forall {A B} (f : A -> B -> A) l x a, fold_left f (l ++ [x]) a = f (fold_left f l a) x.
  Proof. intros A B f l x a. now rewrite fold_left_app. Qed.
  Lemma after_snoc : forall h e, after T M (h ++ [e]) = step T M (after T M h) e.
  Proof. intros h e. unfold after. now rewrite fold_snoc. Qed.
  Lemma doc_left_snoc : forall (h : list event) e p, doc_left (h ++ [e]) p = match e with ESet q d => if String.eqb q p then Some d else doc_left h p | ERemove q => if String.eqb q p then None else doc_left h p | _ => doc_left h p end.
  Proof. intros h e p. unfold doc_left. rewrite fold_snoc. destruct e; reflexivity. Qed.
  Lemma type_left_snoc : forall (h : list event) e k, type_left (h ++ [e]) k = match e with EFunction j t => if N.eqb j k then Some t else type_left h k | _ => type_left h k end.
  Proof. intros h e k. unfold type_left. rewrite fold_snoc. destruct e; reflexivity. Qed.

  Lemma ask_good : forall b al q, good b al -> (exists al1, good (snd (ask T M b q)) al1) /\ b_inputs (snd (ask T M b q)) = b_inputs b.
  Proof.
    intros b al q G. assert (An : forall p b2 al2, good b2 al2 -> kept T M b2 (snd (analyse_graph T M b2 p))) by (intros p b2 al2 G2; unfold analyse_graph; eapply analysis_kept; eauto).
    assert (Pol : about_policies (world_in M (b_inputs b)) q -> (exists al1, good (snd (ask T M b q)) al1) /\ b_inputs (snd (ask T M b q)) = b_inputs b).
    { intros A. destruct (ask T M b q) as [a b1] eqn:E. destruct (ask_policies b al q a b1 (fun _ => None) G A E) as (_ & al1 & G1 & I1 & _). cbn. eauto. }
    destruct q as [p|p|p|p|p|p|p|p]; try (apply Pol; exact I).
    - cbn [ask]. pose proof (An p b al G) as (H & I1 & _). destruct (analyse_graph T M b p) as [v b1]. cbn in *. auto.
    - destruct (world_in M (b_inputs b) p) as [[d|g]|] eqn:Wp; try (apply Pol; cbn; intros g0; congruence). clear Pol.
      cbn [ask]. unfold policy_diagnostics. destruct (snapshot T M b) as [s b2] eqn:Sn. destruct (snapshot_ok T M SF _ _ _ _ G Sn) as (al2 & G2 & X2 & Q2 & U2 & S2 & SO).
      pose proof (q_inputs _ _ Q2) as I2. destruct (aget p (s_diags s)) as [v|]; [cbn; eauto|].
      pose proof (snap_world T M _ _ _ _ p (g_nodup _ _ _ _ G) SO) as SW. rewrite Wp in SW. destruct SW as (d & Sg & _). unfold amem. rewrite Sg. pose proof (An p b2 al2 G2) as ((al3 & G3) & I3 & _).
      destruct (analyse_graph T M b2 p) as [[a|] b3]; cbn [snd] in *; (split; [exists al3; apply diag_kept; [exact G3|]; intros N; exfalso; apply (N g); rewrite I3, I2; exact Wp|]);
        unfold set_snap_diag; destruct (b_snap b3); cbn; congruence.
  Qed.
  Lemma good_new : good new_db (fun _ => None).
  Proof. constructor; cbn; try (intros; discriminate); [constructor|auto]. Qed.
  Lemma edit_good : forall b al i st fr f r, good b al -> NoDup (map fst i) ->
    good {| b_inputs := i; b_snap := None; b_cache := b_cache b; b_units := b_units b; b_next := b_next b; b_stack := st; b_frames := fr; b_ftypes := f; b_resolver := r |} al.
  Proof. intros b al i st fr f r G N. destruct G. constructor; cbn; auto. intros s Z. discriminate Z. Qed.
  Lemma after_good : forall h, (exists al, good (after T M h) al) /\ forall p, aget p (b_inputs (after T M h)) = doc_left h p.
  Proof.
    intros h. induction h as [|e h [(al & G) IH]] using rev_ind; [split; [exists (fun _ => None); apply good_new|reflexivity]|]. rewrite after_snoc.
    pose proof (g_nodup _ _ _ _ G) as N. destruct e as [p d|p|k t|r|q]; cbn [step].
    - split; [exists al; apply edit_good; [exact G|now apply aset_nodup]|]. intros x. rewrite doc_left_snoc. cbn. destruct (String.eqb_spec p x) as [->|Ne]; [apply aget_aset_eq|]. rewrite aget_aset_ne by exact Ne. apply IH.
    - unfold remove_document. destruct (amem p (b_inputs (after T M h))) eqn:A.
      + split; [exists al; apply edit_good; [exact G|now apply adel_nodup]|]. intros x. rewrite doc_left_snoc. cbn. destruct (String.eqb_spec p x) as [->|Ne]; [now apply aget_adel_eq|]. rewrite aget_adel_ne by exact Ne. apply IH.
      + split; [eauto|]. intros x. rewrite doc_left_snoc. destruct (String.eqb_spec p x) as [->|Ne]; [|apply IH]. rewrite amem_get in A. destruct (aget x (b_inputs (after T M h))); [discriminate A|reflexivity].
    - split; [exists al; apply (edit_good (after T M h)); [exact G|exact N]|]. intros x. rewrite doc_left_snoc. apply IH.
    - split; [exists al; apply (edit_good (after T M h)); [exact G|exact N]|]. intros x. rewrite doc_left_snoc. apply IH.
    - destruct (ask_good _ _ q G) as [H I1]. split; [exact H|]. intros x. rewrite doc_left_snoc, I1. apply IH.
  Qed.
  Lemma after_world : forall h p, world_in M (b_inputs (after T M h)) p = world_of M h p.
  Proof. intros h p. unfold world_in, world_of. now rewrite (proj2 (after_good h)). Qed.

  Theorem policies_right : forall h q f, about_policies (world_of M h) q -> right_answer T (world_of M h) f q (fst (ask T M (after T M h) q)).
  Proof.
    intros h q f A. destruct (after_good h) as [(al & G) _]. destruct (ask T M (after T M h) q) as [a b1] eqn:E.
    apply (right_same (world_in M (b_inputs (after T M h))) _ f f); [apply after_world|reflexivity|]. refine (proj1 (ask_policies _ al q a b1 f G _ E)).
    destruct q as [p|p|p|p|p|p|p|p]; try exact A. cbn in *. intros g. rewrite after_world. apply A.
  Qed.

  (** ** Questions about graphs *)
  Section Behaved.
    Variable h0 : list event.
    Hypothesis WB : well_behaved T M h0.
    Hypothesis HI : forall t t1, t_hash T t = t_hash T t1 -> t = t1.
    Definition seen (w : world) : Prop := exists h1, asked h0 h1 /\ forall p, world_of M h1 p = w p.
    Lemma seen_acyclic : forall w, seen w -> no_cycle T w.
    Proof. intros w (h1 & A & E). apply (no_cycle_same _ _ E). now apply (proj1 (proj2 WB)). Qed.
    Lemma seen_steady : forall w w1, seen w -> seen w1 -> same_group T w w1.
    Proof. intros w w1 (h1 & A & E) (h2 & B & F). apply (same_group_same _ _ _ _ E F). now apply (proj2 (proj2 WB)). Qed.
    Let types (b : db) : ftypes := fun k => fget k (b_ftypes b).
    Record sane (b : db) : Prop := {
      sn_sound : sound T M seen b;
      sn_stack : b_stack b = [];
      sn_frames : b_frames b = [];
      sn_resolver : b_resolver b = None;
      sn_diags : forall s, b_snap b = Some s -> forall p v g, aget p (s_diags s) = Some v -> world_in M (b_inputs b) p = Some (SGraph g) ->
        exists a, means T (world_in M (b_inputs b)) (types b) p a /\ v = t_gdiag T a
    }.
    Lemma still_sane : forall b b1 D F, sane b -> still T M seen b b1 D F -> sane b1.
    Proof.
      intros b b1 D F S0 R. destruct S0, R. constructor; try congruence.
      - exact st_sound.
      - rewrite st_frames, sn_frames0. reflexivity.
      - intros s E p v g V Wp. rewrite st_inputs in *. destruct (st_diags _ E _ _ V) as (s0 & E0 & V0). unfold types. rewrite st_ftypes. eapply sn_diags0; eauto.
    Qed.
    Lemma analyse_right : forall b al p o b1, good b al -> sane b -> seen (world_in M (b_inputs b)) -> analyse_graph T M b p = (o, b1) ->
      (exists al1, good b1 al1) /\ sane b1 /\ b_inputs b1 = b_inputs b /\ b_ftypes b1 = b_ftypes b /\
      match world_in M (b_inputs b) p with Some (SGraph _) => exists a, o = Some a /\ means T (world_in M (b_inputs b)) (types b) p a | _ => o = None end.
    Proof.
      intros b al p o b1 G S0 Sn E. unfold analyse_graph in E.
      destruct (analysis_ok T M SF seen seen_acyclic seen_steady HI (S (length (b_inputs b))) b al p o b1 G (sn_sound _ S0) Sn (sn_resolver _ S0)) with (3 := E) as (D & F & R & St & H).
      - rewrite (sn_stack _ S0). split; [constructor|]. split; intros s [].
      - rewrite (sn_stack _ S0). cbn. lia.
      - split; [exact (st_good _ _ _ _ _ _ _ R)|]. split; [eapply still_sane; eauto|]. split; [exact (st_inputs _ _ _ _ _ _ _ R)|]. split; [exact (st_ftypes _ _ _ _ _ _ _ R)|].
        destruct (world_in M (b_inputs b) p) as [[d|g]|]; auto. destruct H as (a & -> & H). exists a. split; [reflexivity|]. apply H; auto.
    Qed.
    Lemma ask_right : forall b al q a b1, good b al -> sane b -> seen (world_in M (b_inputs b)) -> ask T M b q = (a, b1) ->
      right_answer T (world_in M (b_inputs b)) (types b) q a /\ sane b1 /\ b_ftypes b1 = b_ftypes b.
    Proof.
      intros b al q a b1 G S0 Sn E.
      assert (Pol : about_policies (world_in M (b_inputs b)) q -> right_answer T (world_in M (b_inputs b)) (types b) q a /\ sane b1 /\ b_ftypes b1 = b_ftypes b).
      { intros A. destruct (ask_policies b al q a b1 (types b) G A E) as (R & al1 & G1 & A1 & A2 & A3 & A4 & A5 & A6 & A7). split; [exact R|]. split; [|exact A4]. destruct S0. constructor; try congruence.
        - intros p ds x H. apply A6 in H. exact (sn_sound0 _ _ _ H).
        - intros s Z p v g V Wp. rewrite A1 in *. destruct (A7 _ Z _ _ _ V Wp) as (s0 & E0 & V0). unfold types. rewrite A4. eapply sn_diags0; eauto. }
      destruct q as [p|p|p|p|p|p|p|p]; try (apply Pol; exact I).
      - cbn [ask] in E. destruct (analyse_graph T M b p) as [v b2] eqn:Ea. injection E as <- <-. destruct (analyse_right _ _ _ _ _ G S0 Sn Ea) as (_ & S1 & _ & F1 & H). split; [|auto].
        destruct (world_in M (b_inputs b) p) as [[d|g]|] eqn:Wp; [subst v; constructor; intros g; congruence| |subst v; constructor; intros g; congruence]. destruct H as (x & -> & H). now constructor.
      - destruct (world_in M (b_inputs b) p) as [[d|g]|] eqn:Wp; try (apply Pol; cbn; intros g0; congruence). clear Pol.
        cbn [ask] in E. unfold policy_diagnostics in E. destruct (snapshot T M b) as [s b2] eqn:Sp. destruct (snapshot_ok T M SF _ _ _ _ G Sp) as (al2 & G2 & X2 & Q2 & U2 & S2 & SO).
        pose proof (q_inputs _ _ Q2) as I2. pose proof (q_ftypes _ _ Q2) as F2. assert (Sa2 : sane b2) by (eapply still_sane; [exact S0|]; eapply quiet_still; [exact (sn_sound _ S0)|exact Q2|exact G2]).
        destruct (aget p (s_diags s)) as [v|] eqn:Ad.
        + injection E as <- <-. rewrite <- I2 in Wp. destruct (sn_diags _ Sa2 _ S2 _ _ _ Ad Wp) as (x & Mx & ->). rewrite I2 in Mx. unfold types in Mx. rewrite F2 in Mx. split; [now constructor|]. auto.
        + pose proof (snap_world T M _ _ _ _ p (g_nodup _ _ _ _ G) SO) as SW. rewrite Wp in SW. destruct SW as (d & Sg & _). unfold amem in E. rewrite Sg in E.
          destruct (analyse_graph T M b2 p) as [o b3] eqn:Ea. rewrite <- I2 in Sn. destruct (analyse_right _ _ _ _ _ G2 Sa2 Sn Ea) as ((al3 & G3) & S3 & I3 & F3 & H). rewrite I2, Wp in H. destruct H as (x & -> & H).
          injection E as <- <-. assert (Mx : means T (world_in M (b_inputs b)) (types b) p x) by (unfold types in *; rewrite <- F2; exact H). split; [now constructor|]. split.
          * unfold set_snap_diag. destruct (b_snap b3) as [s3|] eqn:Z3; [|exact S3]. destruct S3. constructor; auto. intros s1 Z q v g1 V Wq. cbn in Z. injection Z as <-. cbn in V, Wq. cbn [with_snap b_inputs]. unfold types in *. cbn [with_snap b_ftypes].
            destruct (string_dec p q) as [<-|Ne].
            -- rewrite aget_aset_eq in V. injection V as <-. exists x. split; [|reflexivity]. rewrite I3, I2, F3, F2. exact Mx.
            -- rewrite aget_aset_ne in V by exact Ne. eapply sn_diags0; eauto.
          * unfold set_snap_diag. destruct (b_snap b3); cbn; congruence.
    Qed.
    Lemma edit_sane : forall b i f, sane b ->
      sane {| b_inputs := i; b_snap := None; b_cache := b_cache b; b_units := b_units b; b_next := b_next b; b_stack := b_stack b; b_frames := b_frames b; b_ftypes := f; b_resolver := b_resolver b |}.
    Proof. intros b i f S0. destruct S0. constructor; auto. cbn. intros s Z. discriminate Z. Qed.
    Lemma after_sane : forall h r, h0 = h ++ r -> sane (after T M h) /\ forall k, fget k (b_ftypes (after T M h)) = type_left h k.
    Proof.
      intros h. induction h as [|e h IH] using rev_ind; intros r E.
      { split; [|reflexivity]. constructor; cbn; auto; [intros p ds a Z; discriminate Z|intros s Z; discriminate Z]. }
      rewrite <- app_assoc in E. cbn in E. destruct (IH _ E) as [S0 F0]. rewrite after_snoc. destruct e as [p d|p|k t|rs|q]; cbn [step].
      - split; [now apply edit_sane|]. intros k. rewrite type_left_snoc. apply F0.
      - unfold remove_document. destruct (amem p (b_inputs (after T M h))); (split; [try exact S0; now apply edit_sane|]); intros k; rewrite type_left_snoc; apply F0.
      - split; [apply (edit_sane (after T M h)); exact S0|]. intros j. rewrite type_left_snoc. cbn. destruct (N.eqb k j); [reflexivity|apply F0].
      - exfalso. apply (proj1 WB rs). rewrite E. apply in_or_app. right. now left.
      - destruct (after_good h) as [(al & G) _]. assert (Sn : seen (world_in M (b_inputs (after T M h)))) by (exists h; split; [exists q, r; exact E|]; intros p; symmetry; apply after_world).
        destruct (ask T M (after T M h) q) as [a b1] eqn:Ea. destruct (ask_right _ _ _ _ _ G S0 Sn Ea) as (_ & S1 & F1). cbn [snd]. split; [exact S1|]. intros k. rewrite F1, type_left_snoc. apply F0.
    Qed.
  End Behaved.

  Theorem answers_right : forall h q, (forall t t1, t_hash T t = t_hash T t1 -> t = t1) -> well_behaved T M (h ++ [EAsk q]) ->
    right_answer T (world_of M h) (type_left h) q (fst (ask T M (after T M h) q)).
  Proof.
    intros h q HI WB. destruct (after_good h) as [(al & G) _]. destruct (after_sane _ WB HI h [EAsk q] eq_refl) as [S0 F0].
    destruct (ask T M (after T M h) q) as [a b1] eqn:E. assert (Sn : seen (h ++ [EAsk q]) (world_in M (b_inputs (after T M h)))) by (exists h; split; [exists q, []; reflexivity|]; intros p; symmetry; apply after_world).
    destruct (ask_right _ WB HI _ _ _ _ _ G S0 Sn E) as (R & _ & _). eapply right_same; [apply after_world|exact F0|exact R].
  Qed.
End Run.
