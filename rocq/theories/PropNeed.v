(** C70: a goal depends only on the inputs that are reported for it, and a request without one of them is refused. *)
From Coq Require Import String ZArith Bool List Arith Lia Relations Sorted.
From Verif Require Import Base Dec Value Heap Ast Ops Compiler Eval Funcs Samples HeapSpec HeapFacts Isolate Session PureFacts Deps DepsSpec Driver DriverSpec DriverFacts Blocks BlocksSpec
  BlocksFacts ContentFacts PropNodes PropBlocks PolicyRun PolicySpec SolveFacts SolveTwo PropSolve PGraph NeedSpec NeedFacts NeedClaims.
Import ListNotations.
Local Open Scope string_scope.
Local Open Scope nat_scope.
Local Open Scope list_scope.

(** The inputs reported for the goals are what the goals depend on and the unit does not compute. *)
Theorem C70_reported : forall dm sources rules members goals q,
  In q (reachable_inputs dm sources rules members goals) <-> is_needed dm sources rules members goals q.
Proof. exact inputs_iff. Qed.
Print Assumptions C70_reported.

(** The outputs are what the unit computes and is not part of something else that is computed; with goals, only what they depend on. *)
Theorem C70_outputs : forall dm sources rules members goals q, In q (outputs dm sources rules members goals) <->
  computed_here dm rules members q /\ (forall a, above a q -> a <> q -> ~ computed dm rules a) /\
  (goals = [] \/ exists g, In g goals /\ mentioned dm rules g /\ depends_on dm sources rules g q).
Proof. exact outputs_iff. Qed.
Print Assumptions C70_outputs.

(** A path into a collection is a path into its entity: the longest collection counts, again and again until the path goes into none, or 32 times. *)
Theorem C70_entities : forall sources p, match entity_rewrite sources p with
  | Some q => exists k, 1 <= k <= 32 /\ entities_replaced sources k p q /\ (k = 32 \/ forall src e rest, ~ goes_into sources q src e rest)
  | None => forall src e rest, ~ goes_into sources p src e rest
  end.
Proof. exact entity_rewrite_spec. Qed.
Print Assumptions C70_entities.
Example C70_entities_case : let s := [("item", "orders.items"); ("order", "orders"); ("tag", "item.tags")] in
  entity_rewrite s "orders.items.tags.name" = Some "tag.name" /\ entity_rewrite s "ordersx.items" = None /\ goes_into s "orders.items.tags.name" "orders.items" "item" "tags.name".
Proof. cbv zeta. split; [vm_compute; reflexivity|]. split; [vm_compute; reflexivity|]. split; [now left|]. split; [discriminate|reflexivity]. Qed.

(** Two inputs that agree on what is reported for the goals: both evaluations fail, or both succeed with the same value for every goal. What
    else is in the inputs does not matter. For a request without goals, the goals are the sinks. *)
Theorem C70_inputs : forall L parse noticed dm sources p members optional xa xb fa fb goals va vb ha hb la lb Ta Tb sa sb ra rb,
  plain_lib L -> sound_policy parse dm p -> circle_free parse (entity_rewrite sources) (recovered_paths noticed sources) dm p ->
  declared_entities dm sources -> undotted parse p ->
  (forall g, In g goals -> exists b k, In (b, k) p /\ g = block_key k) ->
  is_input ha la -> is_input hb lb -> repr ha (VObj la) Ta -> repr hb (VObj lb) Tb ->
  let asked := roots dm sources (rules_of parse noticed p) members goals in
  (forall q, In q (reachable_inputs dm sources (rules_of parse noticed p) members asked) -> at_path Ta (split_dot q) = at_path Tb (split_dot q)) ->
  evaluate_request (std_ext L) parse noticed dm sources p members optional xa fa goals va (VObj la) ha = inr (Some (sa, ra)) ->
  evaluate_request (std_ext L) parse noticed dm sources p members optional xb fb goals vb (VObj lb) hb = inr (Some (sb, rb)) ->
  match ra, rb with
  | inl _, inl _ => forall g t, In g asked -> (shows (heap_after sa) (VObj la) g t <-> shows (heap_after sb) (VObj lb) g t)
  | inr _, inr _ => True
  | _, _ => False
  end.
Proof.
  intros L parse noticed dm sources p members optional xa xb fa fb goals va vb ha hb la lb Ta Tb sa sb ra rb HL HP Ac HE HU HG (Wa & _ & Na) (Wb & _ & Nb) Ra Rb asked Same Ea Eb.
  assert (Ea' : evaluate_policy (std_ext L) parse (entity_rewrite sources) (recovered_paths noticed sources) dm p xa fa asked (VObj la) ha = Some (sa, ra)).
  { unfold evaluate_request in Ea. destruct (check_request _ _ _ _ _ _ va _ _); [discriminate Ea|]. injection Ea as Ea. exact Ea. }
  assert (Eb' : evaluate_policy (std_ext L) parse (entity_rewrite sources) (recovered_paths noticed sources) dm p xb fb asked (VObj lb) hb = Some (sb, rb)).
  { unfold evaluate_request in Eb. destruct (check_request _ _ _ _ _ _ vb _ _); [discriminate Eb|]. injection Eb as Eb. exact Eb. }
  assert (HA : forall g, In g asked -> exists b k, In (b, k) p /\ g = block_key k).
  { intros g Hg. subst asked. unfold roots in Hg. destruct goals as [|g0 gs]; [|now apply HG]. apply sinks_iff in Hg as ((b & (l1 & ws & l2 & El & T & _) & _) & _).
    apply (computed_key parse noticed dm p HP). assert (H : In (b, ws) (map (fun s => (sh_block s, sh_writes s)) (rules_of parse noticed p))) by (rewrite El; apply in_app_iff; right; now left).
    apply in_map_iff in H as (s & Es & Hs). injection Es as <- <-. exists s. auto. }
  assert (S1 : forall q, is_needed dm sources (rules_of parse noticed p) members asked q -> at_path Ta (split_dot q) = at_path Tb (split_dot q)) by (intros q Hq; apply Same; now apply inputs_iff).
  assert (S2 : forall q, is_needed dm sources (rules_of parse noticed p) members asked q -> at_path Tb (split_dot q) = at_path Ta (split_dot q)) by (intros q Hq; symmetry; auto).
  destruct (inputs_settle L HL parse noticed dm sources p HP HE HU asked HA Ac members ha hb la lb Ta Tb xa xb fa fb sa sb ra rb Wa Wb Ra Rb Na Nb S1 Ea' Eb') as [Aa Ag].
  destruct (inputs_settle L HL parse noticed dm sources p HP HE HU asked HA Ac members hb ha lb la Tb Ta xb xa fb fa sb sa rb ra Wb Wa Rb Ra Nb Na S2 Eb' Ea') as [Ab _].
  destruct ra as [ua|ea].
  - destruct (Aa ua eq_refl) as ((ub & ->) & _). intros g t Hg. destruct (HA g Hg) as (b & k & Hk & ->). apply (Ag b k t); auto.
    + apply (one_goals L parse (entity_rewrite sources) (recovered_paths noticed sources) dm p ha la xa fa asked sa (inl ua) Ea' ua eq_refl (block_key k)); auto.
      * apply longest_feeds. exact (SolveRun.head_feeds parse dm p HP b k [] Hk).
      * eapply SolveRun.known_in; eauto.
    + apply (one_goals L parse (entity_rewrite sources) (recovered_paths noticed sources) dm p hb lb xb fb asked sb (inl ub) Eb' ub eq_refl (block_key k)); auto.
      * apply longest_feeds. exact (SolveRun.head_feeds parse dm p HP b k [] Hk).
      * eapply SolveRun.known_in; eauto.
  - destruct rb as [ub|eb]; auto. destruct (Ab ub eq_refl) as ((u & Q) & _). discriminate Q.
Qed.
Print Assumptions C70_inputs.

(** When a request is accepted: the goals are known, the input is valid and everything that the goals need is optional or there. *)
Theorem C70_accepted : forall dm sources rules members optional goals valid h v,
  check_request dm sources rules members optional goals valid h v = None <->
  (forall g, In g goals -> mentioned dm rules g) /\ valid = true /\
  (goals = [] \/ forall q, is_needed dm sources rules members goals q -> (exists o, In o optional /\ above o q) \/ supplied sources h v q).
Proof.
  intros dm sources rules members optional goals valid h v. unfold check_request. destruct (find (fun g => negb (smem g (graph_nodes dm rules))) goals) as [g|] eqn:F.
  - apply find_some in F as [Hg E]. apply Bool.negb_true_iff, smem_false in E. split; [discriminate|]. intros (A & _). exfalso. apply E. apply nodes_iff. auto.
  - assert (M : forall g, In g goals -> mentioned dm rules g).
    { intros g Hg. pose proof (find_none _ _ F g Hg) as E. apply nodes_iff, smem_iff. now apply Bool.negb_false_iff in E. }
    destruct valid; [|split; [discriminate|intros (_ & A & _); discriminate A]]. destruct goals as [|g0 gs]; [split; auto|].
    assert (K : forall q, In q (missing_inputs dm sources rules members optional (g0 :: gs) h v) <->
       is_needed dm sources rules members (g0 :: gs) q /\ ~ (exists o, In o optional /\ above o q) /\ ~ supplied sources h v q).
    { intros q. unfold missing_inputs. rewrite dedup_in, filter_In, inputs_iff, andb_true_iff, !Bool.negb_true_iff.
      assert (A : is_optional optional q = true <-> exists o, In o optional /\ above o q).
      { unfold is_optional. rewrite existsb_exists. split; intros (o & Ho & E); exists o; (split; [exact Ho|now apply extends_iff]). }
      pose proof (input_satisfied_iff sources h v q) as B.
      assert (A' : is_optional optional q = false <-> ~ exists o, In o optional /\ above o q) by (rewrite <- A; destruct (is_optional optional q); split; intros; congruence).
      assert (B' : input_satisfied sources h v q = false <-> ~ supplied sources h v q) by (rewrite <- B; destruct (input_satisfied sources h v q); split; intros; congruence).
      rewrite A', B'. tauto. }
    destruct (missing_inputs dm sources rules members optional (g0 :: gs) h v) as [|q0 l] eqn:E.
    + split; auto. intros _. split; auto. split; auto. right. intros q Hq.
      destruct (is_optional optional q) eqn:Eo.
      { left. unfold is_optional in Eo. apply existsb_exists in Eo as (o & Ho & Eo). exists o. split; auto. now apply extends_iff. }
      destruct (input_satisfied sources h v q) eqn:Es; [right; now apply input_satisfied_iff|]. exfalso. apply (proj2 (K q)). split; auto. split.
      * intros (o & Ho & A). apply extends_iff in A. assert (is_optional optional q = true) by (apply existsb_exists; eauto). congruence.
      * intros A. apply input_satisfied_iff in A. congruence.
    + split; [discriminate|]. intros (_ & _ & [A|A]); [discriminate A|]. exfalso. destruct (proj1 (K q0) (or_introl eq_refl)) as (Hn & No & Ns). destruct (A q0 Hn); auto.
Qed.
Print Assumptions C70_accepted.

(** What is reported as missing: exactly what the goals need and the input lacks, in order and once. *)
Theorem C70_missing : forall dm sources rules members optional goals valid h v l,
  check_request dm sources rules members optional goals valid h v = Some (MissingInputs l) ->
  l <> [] /\ Sorted (fun a b => String.compare a b = Lt) l /\
  forall q, In q l <-> is_needed dm sources rules members goals q /\ ~ (exists o, In o optional /\ above o q) /\ ~ supplied sources h v q.
Proof.
  intros dm sources rules members optional goals valid h v l H. unfold check_request in H. destruct (find _ goals); [discriminate H|]. destruct valid; [|discriminate H].
  destruct goals as [|g0 gs]; [discriminate H|].
  assert (E : l = missing_inputs dm sources rules members optional (g0 :: gs) h v /\ l <> []).
  { destruct (missing_inputs dm sources rules members optional (g0 :: gs) h v) as [|q r]; [discriminate H|]. injection H as <-. split; [reflexivity|discriminate]. }
  destruct E as [-> N]. split; auto. split; [apply dedup_sorted|]. intros q. unfold missing_inputs. rewrite dedup_in, filter_In, inputs_iff, andb_true_iff, !Bool.negb_true_iff.
  assert (A : is_optional optional q = true <-> exists o, In o optional /\ above o q).
  { unfold is_optional. rewrite existsb_exists. split; intros (o & Ho & E); exists o; (split; [exact Ho|now apply extends_iff]). }
  pose proof (input_satisfied_iff sources h v q) as B.
  assert (A' : is_optional optional q = false <-> ~ exists o, In o optional /\ above o q) by (rewrite <- A; destruct (is_optional optional q); split; intros; congruence).
  assert (B' : input_satisfied sources h v q = false <-> ~ supplied sources h v q) by (rewrite <- B; destruct (input_satisfied sources h v q); split; intros; congruence).
  rewrite A', B'. tauto.
Qed.
Print Assumptions C70_missing.

(** A goal is refused as unknown exactly if no block mentions it; the first such goal is named. *)
Theorem C70_unknown_goal : forall dm sources rules members optional goals valid h v g,
  check_request dm sources rules members optional goals valid h v = Some (GoalNotFound g) <->
  exists l1 l2, goals = l1 ++ g :: l2 /\ ~ mentioned dm rules g /\ forall x, In x l1 -> mentioned dm rules x.
Proof.
  intros dm sources rules members optional goals valid h v g.
  assert (K : check_request dm sources rules members optional goals valid h v = Some (GoalNotFound g) <-> find (fun g => negb (smem g (graph_nodes dm rules))) goals = Some g).
  { unfold check_request. destruct (find _ goals) as [x|]; [split; intros E; injection E as ->; reflexivity|]. split; [|discriminate].
    destruct valid; [|discriminate]. destruct goals as [|g0 gs]; [discriminate|]. destruct (missing_inputs _ _ _ _ _ _ _ _); discriminate. }
  rewrite K. clear K. induction goals as [|x r IH]; cbn [find].
  - split; [discriminate|]. intros (l1 & l2 & E & _). destruct l1; discriminate E.
  - destruct (smem x (graph_nodes dm rules)) eqn:E; cbn [negb].
    + apply smem_iff, nodes_iff in E. rewrite IH. split.
      * intros (l1 & l2 & -> & N & A). exists (x :: l1), l2. split; [reflexivity|]. split; auto. intros y [<-|Hy]; auto.
      * intros (l1 & l2 & El & N & A). destruct l1 as [|y l1]; injection El as <- ->; [contradiction|]. exists l1, l2. split; auto. split; auto. intros z Hz. apply A. now right.
    + apply smem_false in E. assert (N : ~ mentioned dm rules x) by (intros C; apply E; now apply nodes_iff). split.
      * intros H. injection H as <-. exists [], r. split; [reflexivity|]. split; [exact N|intros y []].
      * intros (l1 & l2 & El & Ng & A). destruct l1 as [|y l1]; injection El as <- ->; [reflexivity|]. exfalso. apply N, A. now left.
Qed.
Print Assumptions C70_unknown_goal.

(** The goals of a request without goals are what nothing depends on. If nothing depends on itself, every computed property is one of them,
    or one of them depends on it. *)
Theorem C70_sinks : forall dm sources rules members,
  (forall q, In q (terminal_sinks dm sources rules members) <-> computed_here dm rules members q /\ forall q', ~ depends dm sources rules q' q) /\
  ((forall s, In s rules -> In (fst (sh_block s)) members) -> (forall q, ~ clos_trans _ (depends dm sources rules) q q) ->
   forall q, computed dm rules q -> exists s, In s (terminal_sinks dm sources rules members) /\ depends_on dm sources rules s q).
Proof.
  intros dm sources rules members. split; [apply sinks_iff|]. intros HM Ac q Hq.
  assert (Own : forall q, computed dm rules q -> computed_here dm rules members q).
  { intros x Hx. apply own_writer_iff. apply written_iff in Hx. unfold is_written, own_writer in *. destruct (aget x (graph_written dm rules)) as [b|] eqn:E; [|discriminate Hx].
    apply smem_iff. unfold graph_written, found_writers in E. rewrite aget_found in E. cbn [aget get_or] in E. apply first_block_iff in E as (l1 & ws & l2 & El & _).
    assert (H : In (b, ws) (map (fun s => (sh_block s, sh_writes s)) rules)) by (rewrite El; apply in_app_iff; right; now left).
    apply in_map_iff in H as (s & Es & Hs). injection Es as <- _. auto. }
  assert (Dc : forall a b, depends dm sources rules a b -> computed dm rules a).
  { intros a b H. destruct H as [s r Hs Hw Nr Na A Ne|s r Hs Hw Na Hr A|s r x Hs Hw Na Hx A Ne C B|s r x Hs Hw Na Hx Er M Ne]; exists s; (split; [exact Hs|]); (split; [exact Na|]);
      [exists r; auto| | |]; exists a; (split; [exact Hw|]); (split; [exact Na|apply above_refl]). }
  assert (Tr : forall x y, clos_trans _ (fun a b => In (a, b) (graph_edges dm sources rules)) x y -> clos_trans _ (depends dm sources rules) y x).
  { intros x y H. induction H as [x y H|x y z _ IH1 _ IH2]; [apply t_step; now apply edges_iff|eapply t_trans; eauto]. }
  assert (Rt : forall x y, clos_refl_trans _ (fun a b => In (a, b) (graph_edges dm sources rules)) x y -> depends_on dm sources rules y x).
  { intros x y H. induction H as [x y H|x|x y z _ IH1 _ IH2]; [apply rt_step; now apply edges_iff|apply rt_refl|eapply rt_trans; eauto]. }
  destruct (ends_somewhere string String.string_dec (graph_edges dm sources rules)) with (x := q) as (e & P & N).
  { intros x H. exact (Ac x (Tr x x H)). }
  exists e. split; [|now apply Rt]. apply sinks_iff. split; [|intros q' Hd; apply (N q'); now apply edges_iff]. apply Own.
  apply Rt in P. apply clos_rt_rt1n in P. inversion P as [|y z H _]; subst; auto. eapply Dc; eauto.
Qed.
Print Assumptions C70_sinks.

(** A policy: [total] adds a fee to the prices of the orders; [note] is about something else. *)
Definition nd_policy : policy :=
  [(("m", "1"), BExpression "total" "sum(map(orders as o, o.price)) + fee"); (("m", "2"), BMatch "fee" [MArm "x" "customer.vip" "0"; MArm "y" "" "base"]);
   (("m", "3"), BExpression "base" "region.rate * 2"); (("m", "4"), BExpression "note" "customer.name")].
Definition nd_model : list string := ["order.price"; "orders"; "customer.vip"; "customer.name"; "region.rate"].
Definition nd_sources : entity_sources := [("order", "orders")].
Definition nd_rules : list shallow := rules_of p0 (fun _ => []) nd_policy.
Definition nd_heap (name : string) (vip : bool) : heap :=
  [CObj [("orders", VArr 1); ("customer", VObj 3); ("region", VObj 4)]; CArr [VObj 2]; CObj [("price", num 10%Z)]; CObj [("vip", VBool vip); ("name", VStr name)]; CObj [("rate", num 3%Z)]].
Definition nd_tree (name : string) (vip : bool) : tree :=
  TObj [("orders", TArr [TObj [("price", TNum (dec_of_Z 10%Z))]]); ("customer", TObj [("vip", TBool vip); ("name", TStr name)]); ("region", TObj [("rate", TNum (dec_of_Z 3%Z))])].
Lemma nd_sound : sound_policy p0 nd_model nd_policy.
Proof.
  split.
  - repeat constructor; cbn; intuition discriminate.
  - repeat constructor; cbn; intuition discriminate.
  - intros b k H. cbn in H. repeat (destruct H as [H|H]; [injection H as <- <-; repeat split; vm_compute; congruence|]). destruct H.
  - intros b k H. apply in_model_false. cbn in H. repeat (destruct H as [H|H]; [injection H as <- <-; vm_compute; reflexivity|]). destruct H.
  - intros b k H. cbn in H. repeat (destruct H as [H|H]; [injection H as <- <-; split;
      [intros e He; cbn in He; repeat (destruct He as [<-|He]; [closed_tac|]); destruct He
      |cbn; try discriminate; try (intros c Hc; repeat (destruct Hc as [<-|Hc]; [discriminate|]); destruct Hc); try (repeat constructor; cbn; intuition discriminate)]|]).
    destruct H.
Qed.
Definition nd_rank (x : bref) : nat := if String.eqb (snd x) "1" then 3 else if String.eqb (snd x) "2" then 2 else if String.eqb (snd x) "3" then 1 else 0.
Lemma nd_circle_free : circle_free p0 (entity_rewrite nd_sources) (recovered_paths (fun _ => []) nd_sources) nd_model nd_policy.
Proof.
  set (rw := entity_rewrite nd_sources). set (rc := recovered_paths (fun _ => []) nd_sources).
  assert (H1 : forall x y, wants nd_model (p_blocks nd_policy) (p_known nd_policy) (p_always p0 rw rc nd_policy) (p_reads p0 rw rc nd_policy) x y -> nd_rank y < nd_rank x).
  { intros x y (Hk & q & Hq & Hf). apply longest_feeds in Hf.
    assert (Hx : In x (map fst nd_policy)).
    { unfold p_known, block_of in Hk. destruct (find (fun e => beqb (fst e) x) nd_policy) as [e|] eqn:F; [|discriminate]. apply find_some in F as [F E]. apply beqb_iff in E. subst x. now apply in_map. }
    assert (Hr : In q (p_always p0 rw rc nd_policy x) \/ In q ["base"] /\ x = ("m", "2")).
    { destruct Hq as [Hq|(pk & Hq)]; [now left|right]. unfold p_reads in Hq. destruct (block_of nd_policy x) as [k|] eqn:Bk; [|destruct Hq].
      apply SolveRun.block_of_in in Bk. destruct Bk as [Bk|[Bk|[Bk|[Bk|[]]]]]; injection Bk as <- <-; cbn [plan_reads] in Hq; try (destruct Hq; fail).
      split; [|reflexivity]. destruct pk as [[id|]|]; try (destruct Hq; fail). cbn [find ma_id] in Hq. destruct (String.eqb "x" id); [vm_compute in Hq; destruct Hq|].
      destruct (String.eqb "y" id); [vm_compute in Hq; destruct Hq as [<-|[]]; now left|destruct Hq]. }
    cbn in Hx. destruct Hr as [Hr|[Hr ->]].
    - destruct Hx as [<-|[<-|[<-|[<-|[]]]]]; vm_compute in Hr; repeat (destruct Hr as [<-|Hr]; [vm_compute in Hf; repeat (destruct Hf as [<-|Hf]; [vm_compute; lia|]); destruct Hf|]); destruct Hr.
    - destruct Hr as [<-|[]]; vm_compute in Hf; destruct Hf as [<-|[]]; vm_compute; lia. }
  assert (H2 : forall x y, clos_trans _ (wants nd_model (p_blocks nd_policy) (p_known nd_policy) (p_always p0 rw rc nd_policy) (p_reads p0 rw rc nd_policy)) x y -> nd_rank y < nd_rank x).
  { intros x y H. induction H as [x y H|x y z Ha IHa Hb IHb]; [now apply H1|lia]. }
  intros x H. apply H2 in H. lia.
Qed.
Lemma nd_repr : forall name vip, repr (nd_heap name vip) (VObj 0) (nd_tree name vip).
Proof.
  intros name vip. eapply RObj; [reflexivity|]. constructor; [split; [reflexivity|]|constructor; [split; [reflexivity|]|constructor; [split; [reflexivity|]|constructor]]].
  - eapply RArr; [reflexivity|]. constructor; [|constructor]. eapply RObj; [reflexivity|]. repeat constructor.
  - eapply RObj; [reflexivity|]. repeat constructor.
  - eapply RObj; [reflexivity|]. repeat constructor.
Qed.
Lemma nd_input : forall name vip, is_input (nd_heap name vip) 0.
Proof.
  intros name vip. split; [|split; [exists (nd_tree name vip); apply nd_repr|intros t (v & E & _); vm_compute in E; discriminate]].
  intros l c H. destruct l as [|[|[|[|[|[|]]]]]]; cbn in H; try discriminate; injection H as <-; try (split; [repeat constructor; cbn; intuition discriminate|]); repeat constructor; vm_compute; eauto.
Qed.
(** The name of the customer is not reported for [total]; two customers with different names pay the same. *)
Example C70_inputs_case : sound_policy p0 nd_model nd_policy /\ circle_free p0 (entity_rewrite nd_sources) (recovered_paths (fun _ => []) nd_sources) nd_model nd_policy /\
  declared_entities nd_model nd_sources /\ undotted p0 nd_policy /\ reachable_inputs nd_model nd_sources nd_rules ["m"] ["total"] = ["region.rate"; "customer.vip"; "orders.price"; "orders"] /\
  (forall q, In q (reachable_inputs nd_model nd_sources nd_rules ["m"] ["total"]) -> at_path (nd_tree "ann" false) (split_dot q) = at_path (nd_tree "bob" false) (split_dot q)) /\
  exists sa sb, evaluate_request demo p0 (fun _ => []) nd_model nd_sources nd_policy ["m"] [] false 9 ["total"] true (VObj 0) (nd_heap "ann" false) = inr (Some (sa, inl tt)) /\
    evaluate_request demo p0 (fun _ => []) nd_model nd_sources nd_policy ["m"] [] true 9 ["total"] true (VObj 0) (nd_heap "bob" false) = inr (Some (sb, inl tt)) /\
    shows (heap_after sa) (VObj 0) "total" (TNum (dec_of_Z 16%Z)).
Proof.
  split; [exact nd_sound|]. split; [exact nd_circle_free|]. split; [intros e s [H|[]]; injection H as <- <-; split; [reflexivity|now apply in_model_iff]|].
  split.
  { intros b k e n x s Hk He P Hx Hs. cbn in Hk. repeat (destruct Hk as [Hk|Hk]; [injection Hk as <- <-; cbn in He; repeat (destruct He as [<-|He]; [vm_compute in P; (discriminate P || injection P as <-);
      vm_compute in Hx; repeat (destruct Hx as [<-|Hx]; [vm_compute in Hs; repeat (destruct Hs as [<-|Hs]; [reflexivity|]); destruct Hs|]); destruct Hx|]); destruct He|]). destruct Hk. }
  split; [vm_compute; reflexivity|]. split.
  { intros q Hq. vm_compute in Hq. repeat (destruct Hq as [<-|Hq]; [vm_compute; reflexivity|]). destruct Hq. }
  do 2 eexists. split; [vm_compute; reflexivity|]. split; [vm_compute; reflexivity|]. eexists. split; [vm_compute; reflexivity|constructor].
Qed.
Example C70_missing_case : evaluate_request demo p0 (fun _ => []) nd_model nd_sources nd_policy ["m"] ["region"] false 9 ["total"] true (VObj 0) bl_heap
  = inl (MissingInputs ["customer.vip"; "orders"; "orders.price"]) /\
  evaluate_request demo p0 (fun _ => []) nd_model nd_sources nd_policy ["m"] [] false 9 ["note"; "nothing"; "total"] true (VObj 0) (nd_heap "ann" true) = inl (GoalNotFound "nothing").
Proof. split; vm_compute; reflexivity. Qed.
Example C70_sinks_case : terminal_sinks nd_model nd_sources nd_rules ["m"] = ["note"; "total"] /\ outputs nd_model nd_sources nd_rules ["m"] ["fee"] = ["base"; "fee"] /\
  forall q, ~ clos_trans _ (depends nd_model nd_sources nd_rules) q q.
Proof.
  split; [vm_compute; reflexivity|]. split; [vm_compute; reflexivity|].
  set (rank := fun q => if String.eqb q "total" then 3 else if String.eqb q "fee" then 2 else if String.eqb q "base" || String.eqb q "note" then 1 else 0).
  assert (K : forall x y, clos_trans _ (depends nd_model nd_sources nd_rules) x y -> rank y < rank x).
  { intros x y H. induction H as [x y H|x y z _ IH1 _ IH2]; [|lia]. apply edges_iff in H. vm_compute in H.
    repeat (destruct H as [H|H]; [injection H as <- <-; vm_compute; lia|]). destruct H. }
  intros q H. apply K in H. lia.
Qed.

(** A goal inside a computed property, that another block reads, is refused as a missing input, although the policy computes it. *)
Theorem C70_inside_refuted : exists p g s, sound_policy p0 [] p /\
  evaluate_request demo p0 (fun _ => []) [] [] p ["m"] [] false 9 [g] true (VObj 0) bl_heap = inl (MissingInputs [g]) /\
  evaluate_policy demo p0 (entity_rewrite []) (recovered_paths (fun _ => []) []) [] p false 9 [g] (VObj 0) bl_heap = Some (s, inl tt) /\
  shows (heap_after s) (VObj 0) "k" (TObj [("x", TNum (dec_of_Z 20%Z))]) /\ g = "k.x".
Proof.
  exists [(("m", "1"), BExpression "k" "{x: age}"); (("m", "2"), BExpression "y" "k.x + 1")], "k.x". eexists. split.
  { split.
    - repeat constructor; cbn; intuition discriminate.
    - repeat constructor; cbn; intuition discriminate.
    - intros b k H. cbn in H. repeat (destruct H as [H|H]; [injection H as <- <-; repeat split; vm_compute; congruence|]). destruct H.
    - intros b k H (m & [] & _).
    - intros b k H. cbn in H. repeat (destruct H as [H|H]; [injection H as <- <-; split; [|discriminate]; intros e He; cbn in He; repeat (destruct He as [<-|He]; [closed_tac|]); destruct He|]).
      destruct H. }
  split; [vm_compute; reflexivity|]. split; [vm_compute; reflexivity|]. split; [|reflexivity].
  eexists. split; [vm_compute; reflexivity|]. eapply RObj; [vm_compute; reflexivity|]. repeat constructor.
Qed.
Print Assumptions C70_inside_refuted.

(** A property whose name has a dot is reported under a path that the input does not have: the request is refused with all its inputs there. *)
Theorem C70_dotted_refuted : exists p h s, sound_policy p0 [] p /\
  evaluate_request demo p0 (fun _ => []) [] [] p ["m"] [] false 9 ["k"] true (VObj 0) h = inl (MissingInputs ["a.b.c"]) /\
  evaluate_policy demo p0 (entity_rewrite []) (recovered_paths (fun _ => []) []) [] p false 9 ["k"] (VObj 0) h = Some (s, inl tt) /\
  shows (heap_after s) (VObj 0) "k" (TBool true).
Proof.
  exists [(("m", "1"), BExpression "k" "a['b.c']")], [CObj [("a", VObj 1)]; CObj [("b.c", VBool true)]]. eexists. split.
  { split.
    - repeat constructor; cbn; intuition discriminate.
    - repeat constructor; cbn; intuition discriminate.
    - intros b k H. cbn in H. repeat (destruct H as [H|H]; [injection H as <- <-; repeat split; vm_compute; congruence|]). destruct H.
    - intros b k H (m & [] & _).
    - intros b k H. cbn in H. repeat (destruct H as [H|H]; [injection H as <- <-; split; [|discriminate]; intros e He; cbn in He; repeat (destruct He as [<-|He]; [closed_tac|]); destruct He|]).
      destruct H. }
  split; [vm_compute; reflexivity|]. split; [vm_compute; reflexivity|]. eexists. split; [vm_compute; reflexivity|constructor].
Qed.
Print Assumptions C70_dotted_refuted.

(** A request without goals does not compute everything: a block that is read only in an arm that is not chosen never runs. *)
Theorem C70_everything_refuted : exists s, outputs nd_model nd_sources nd_rules ["m"] [] = ["base"; "fee"; "note"; "total"] /\
  evaluate_request demo p0 (fun _ => []) nd_model nd_sources nd_policy ["m"] [] false 9 [] true (VObj 0) (nd_heap "ann" true) = inr (Some (s, inl tt)) /\
  ~ In ("m", "3") (blocks_run s) /\ forall t, ~ shows (heap_after s) (VObj 0) "base" t.
Proof.
  eexists. split; [vm_compute; reflexivity|]. split; [vm_compute; reflexivity|]. split; [vm_compute; intuition discriminate|]. intros t (v & E & _). vm_compute in E. discriminate E.
Qed.
Print Assumptions C70_everything_refuted.
