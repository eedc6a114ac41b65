(** C72: the conditional schema of a request lists what it needs always and what it needs for the arms of its match blocks. *)
From Coq Require Import String ZArith Bool List Arith Lia Relations Sorted.
From Verif Require Import Base Dec Value Heap Ast Ops Compiler Eval Funcs Samples HeapSpec HeapFacts Isolate Session PureFacts Deps DepsSpec Driver DriverSpec DriverFacts Blocks BlocksSpec
  BlocksFacts ContentFacts PropNodes PropBlocks PolicyRun PolicySpec SolveFacts SolveRun SolveTwo PropSolve Discriminant PGraph NeedSpec NeedFacts NeedClaims
  Conditional ConditionalSpec ConditionalFacts ConditionalRun ConditionalClaims.
From Verif Require CoverSpec IndexFacts.
Import ListNotations.
Local Open Scope string_scope.
Local Open Scope nat_scope.
Local Open Scope list_scope.

(** Variants are reported exactly if one match block, and only one, has conditions that all compare the same input, an enumeration or a truth
    value, with constants. There is a variant for each of its arms with a condition, in order. The groups list the inputs and outputs
    that have to do with what is needed for all arms, or only for the arm. *)
Theorem C72_variants : forall parse noticed dm sources p members declared_inputs testable goals d,
  (exists common vs, conditional_schema parse noticed dm sources p members declared_inputs testable goals = SUnion common d vs) <->
  (exists b arms, only_discriminant parse noticed dm p members testable b d arms).
Proof.
  intros parse noticed dm sources p members di testable goals d. split.
  - intros (common & vs & H). apply union_lists in H as (b & arms & H & _). eauto.
  - intros (b & arms & H). eexists. eexists. apply union_lists. exists b, arms. split; [exact H|]. unfold build_union. reflexivity.
Qed.
Print Assumptions C72_variants.
Theorem C72_variant_groups : forall parse noticed dm sources p members declared_inputs testable goals common d vs b arms,
  conditional_schema parse noticed dm sources p members declared_inputs testable goals = SUnion common d vs ->
  only_discriminant parse noticed dm p members testable b d arms ->
  let ins := schema_inputs parse noticed dm sources p members declared_inputs goals in
  let outs := outputs dm sources (rules_of parse noticed p) members goals in
  let always := needed_by_all parse noticed dm sources p members goals d (conditional_arms arms) in
  group_lists ins outs common always unguarded /\
  Forall2 (fun a v => vr_arm v = ma_id a /\ vr_value v = discriminant_value (arm_test_of parse (ma_cond a)) /\
    group_lists ins outs (vr_group v) (fun q => arm_needs parse noticed dm sources p a q /\ ~ always q) unguarded) (conditional_arms arms) vs.
Proof.
  intros parse noticed dm sources p members di testable goals common d vs b arms H Hd ins outs always.
  unfold conditional_schema in H.
  assert (Cl : clean_discriminant parse noticed dm p members testable = Some (d, arm_infos parse noticed arms)) by (apply clean_iff; eauto). rewrite Cl in H. exact (variants_lists parse noticed dm sources p members di goals d arms common vs H).
Qed.
Print Assumptions C72_variant_groups.
(** The value of a variant is the constant that makes its condition true: the text, or the truth value written out. *)
Theorem C72_variant_value : forall parse noticed dm sources p members declared_inputs testable goals common d vs b arms,
  conditional_schema parse noticed dm sources p members declared_inputs testable goals = SUnion common d vs ->
  only_discriminant parse noticed dm p members testable b d arms ->
  Forall2 (fun a v => forall s, vr_value v = Some s -> exists n q w, parse KStandard (ma_cond a) = Ok n /\ join_dots q = d /\
    (w = VStr s \/ (w = VBool true /\ s = "true") \/ (w = VBool false /\ s = "false")) /\
    forall X root h x, (forall g, (forall l c, hget h l = Some c -> hget g l = Some c) -> RunSpec.yields X (CoverSpec.path_node q) root g (Ok x) g) ->
      exists r h1, RunSpec.yields X n root h r h1 /\ (r = Ok (VBool true) <-> x = w)) (conditional_arms arms) vs.
Proof.
  intros parse noticed dm sources p members di testable goals common d vs b arms H Hd.
  destruct (C72_variant_groups _ _ _ _ _ _ _ _ _ _ _ _ _ _ H Hd) as [_ F]. destruct Hd as (k & l1 & l2 & _ & _ & _ & (_ & (q & Eq & Hq) & _) & _).
  revert F Hq. generalize (conditional_arms arms) at 2 3 4. intros la F Hq.
  assert (K : Forall2 (fun a v => vr_value v = discriminant_value (arm_test_of parse (ma_cond a)) /\ enum_bool_path (arm_test_of parse (ma_cond a)) = Some q) la vs).
  { clear - F Hq. revert Hq. induction F as [|a v la lv (_ & E & _) _ IH]; intros Hq; constructor; [split; [exact E|apply Hq; now left]|]. apply IH. intros a' I. apply Hq. now right. }
  clear - K Eq. induction K as [|a v la lv [Ev Ep] _ IH]; constructor; [|exact IH]. intros s Es. rewrite Es in Ev. clear Es IH. unfold arm_test_of in Ev, Ep.
  match type of Ep with context[match ?t with [] => _ | _ => _ end] => destruct t as [|c0 cs]; [discriminate Ep|] end. destruct (parse KStandard (ma_cond a)) as [n|]; [|discriminate Ep].
  exists n, q. destruct (from_node n) as [q1 l|q1 l|q1 l| |] eqn:T; try discriminate Ep; injection Ep as ->.
  - destruct l as [|y [|? ?]]; try discriminate Ev. injection Ev as <-. exists (VStr s). split; [reflexivity|]. split; [exact Eq|]. split; [now left|]. intros X root h x Hx.
    destruct (IndexFacts.analysis_exact X n root h q x ltac:(rewrite T; reflexivity) Hx) as (r & h1 & Y & _ & R). exists r, h1. split; [exact Y|]. rewrite R, T. cbn.
    split; [intros (z & -> & [<-|[]]); reflexivity|]. intros ->. exists s. auto.
  - destruct l as [|y [|? ?]]; try discriminate Ev. injection Ev as Ev. exists (VBool y). split; [reflexivity|]. split; [exact Eq|]. split; [right; destruct y; [left|right]; split; auto|]. intros X root h x Hx.
    destruct (IndexFacts.analysis_exact X n root h q x ltac:(rewrite T; reflexivity) Hx) as (r & h1 & Y & _ & R). exists r, h1. split; [exact Y|]. rewrite R, T. cbn.
    split; [intros (z & -> & [<-|[]]); reflexivity|]. intros ->. exists y. auto.
Qed.
Print Assumptions C72_variant_value.

(** Otherwise there are two groups: what is needed anyway, and what some arm needs, with the conditions of the arms that need it. *)
Theorem C72_flat_groups : forall parse noticed dm sources p members declared_inputs testable goals common cond,
  conditional_schema parse noticed dm sources p members declared_inputs testable goals = SFlat common cond ->
  let ins := schema_inputs parse noticed dm sources p members declared_inputs goals in
  let outs := outputs dm sources (rules_of parse noticed p) members goals in
  let anyway := needed_anyway parse noticed dm sources p members goals in
  group_lists ins outs common anyway unguarded /\
  group_lists ins outs cond (fun q => (exists a, some_arm p members a /\ arm_needs parse noticed dm sources p a q) /\ ~ anyway q) (guard_text parse noticed dm sources p members).
Proof.
  intros parse noticed dm sources p members di testable goals common cond H ins outs anyway. apply flat_lists in H as [_ H]. now apply conditional_lists.
Qed.
Print Assumptions C72_flat_groups.

(** Every input that a goal needs is listed somewhere. *)
Theorem C72_complete : forall parse noticed dm sources p members declared_inputs testable goals x q,
  In x (schema_inputs parse noticed dm sources p members declared_inputs goals) -> concerned parse noticed dm sources p members goals q -> tied x q ->
  match conditional_schema parse noticed dm sources p members declared_inputs testable goals with
  | SUnion common _ vs => exists g, (g = common \/ exists v, In v vs /\ g = vr_group v) /\ exists c, In (x, c) (g_inputs g)
  | SFlat common cond => exists g, (g = common \/ g = cond) /\ exists c, In (x, c) (g_inputs g)
  end.
Proof.
  intros parse noticed dm sources p members di testable goals x q Hx Hq T.
  destruct (conditional_schema parse noticed dm sources p members di testable goals) as [common d vs|common cond] eqn:E.
  - pose proof E as E'. apply union_lists in E' as (b & arms & Hd & _). destruct (C72_variant_groups _ _ _ _ _ _ _ _ _ _ _ _ _ _ E Hd) as [(Hc & _) Hv].
    destruct (in_dec String.string_dec q (union_common parse noticed dm sources p members goals d (map (info parse noticed) (conditional_arms arms)))) as [Hi|Hi].
    + exists common. split; auto. apply (proj2 (Hc x)). split; auto. exists q. split; auto. now apply union_common_iff.
    + assert (Hn : exists a, In a (conditional_arms arms) /\ arm_needs parse noticed dm sources p a q).
      { destruct (in_dec String.string_dec q (concat (map (fun a => reachable_from dm sources (rules_of parse noticed p) (ai_reads a)) (map (info parse noticed) (conditional_arms arms))))) as [Hj|Hj].
        - now apply in_cones in Hj.
        - exfalso. apply Hi. apply union_common_iff. left. split; auto. intros a Ha Hn. apply Hj. apply in_cones. eauto. }
      destruct Hn as (a & Ha & Hn).
      assert (K : forall la lv, Forall2 (fun a v => vr_arm v = ma_id a /\ vr_value v = discriminant_value (arm_test_of parse (ma_cond a)) /\
        group_lists (schema_inputs parse noticed dm sources p members di goals) (outputs dm sources (rules_of parse noticed p) members goals) (vr_group v)
          (fun q => arm_needs parse noticed dm sources p a q /\ ~ needed_by_all parse noticed dm sources p members goals d (conditional_arms arms) q) unguarded) la lv ->
        In a la -> exists v, In v lv /\ exists c, In (x, c) (g_inputs (vr_group v))).
      { intros la lv F. induction F as [|a0 v la lv (_ & _ & (Hg & _)) _ IH]; [intros []|]. intros [->|Hi'].
        - exists v. split; [now left|]. apply (proj2 (Hg x)). split; auto. exists q. split; auto. split; auto. intros Q. apply Hi. now apply union_common_iff.
        - destruct (IH Hi') as (v' & Hv' & Hc'). exists v'. split; [now right|exact Hc']. }
      destruct (K _ _ Hv Ha) as (v & Hv' & Hc'). exists (vr_group v). split; [right; eauto|exact Hc'].
  - destruct (C72_flat_groups _ _ _ _ _ _ _ _ _ _ _ E) as [(Hc & _) (Hd & _)].
    destruct (in_dec String.string_dec q (flat_common parse noticed dm sources p members goals (concat (match_blocks parse noticed p members)))) as [Hi|Hi].
    + exists common. split; auto. apply (proj2 (Hc x)). split; auto. exists q. split; auto. now apply flat_common_iff.
    + exists cond. split; auto. apply (proj2 (Hd x)). split; auto. exists q. split; auto. split.
      * destruct (in_dec String.string_dec q (flat_map (fun a => reachable_from dm sources (rules_of parse noticed p) (ai_reads a)) (concat (match_blocks parse noticed p members)))) as [Hj|Hj].
        -- now apply some_cone_iff in Hj.
        -- exfalso. apply Hi. apply flat_common_iff. left. split; auto. intros a Ha Hn. apply Hj. apply some_cone_iff. eauto.
      * intros Q. apply Hi. now apply flat_common_iff.
Qed.
Print Assumptions C72_complete.

(** An evaluation that selects the arm of a variant depends only on the inputs that are listed as common and those of the variant, if the arms
    keep what they need to themselves. *)
Theorem C72_variant_settles : forall L parse noticed dm sources p members declared_inputs testable optional xa xb fa fb goals va vb ha hb la lb Ta Tb sa sb ua rb common d vs b arms,
  plain_lib L -> sound_policy parse dm p -> circle_free parse (entity_rewrite sources) (recovered_paths noticed sources) dm p ->
  declared_entities dm sources -> undotted parse p ->
  (forall g, In g goals -> exists b k, In (b, k) p /\ g = block_key k) ->
  is_input ha la -> is_input hb lb -> repr ha (VObj la) Ta -> repr hb (VObj lb) Tb ->
  let asked := roots dm sources (rules_of parse noticed p) members goals in
  (forall q, is_needed dm sources (rules_of parse noticed p) members asked q -> exists x, In x declared_inputs /\ tied x q) ->
  conditional_schema parse noticed dm sources p members declared_inputs testable goals = SUnion common d vs ->
  only_discriminant parse noticed dm p members testable b d arms ->
  kept_to_arms parse noticed dm sources p (fun c a => c = b /\ In a (conditional_arms arms)) (needed_by_all parse noticed dm sources p members goals d (conditional_arms arms)) asked ->
  evaluate_request (std_ext L) parse noticed dm sources p members optional xa fa goals va (VObj la) ha = inr (Some (sa, inl ua)) ->
  evaluate_request (std_ext L) parse noticed dm sources p members optional xb fb goals vb (VObj lb) hb = inr (Some (sb, rb)) ->
  (forall q, is_needed dm sources (rules_of parse noticed p) members asked q ->
     listed common q \/ (exists v, In v vs /\ arm_selected (log pworld pick sa) b (vr_arm v) /\ listed (vr_group v) q) -> at_path Ta (split_dot q) = at_path Tb (split_dot q)) ->
  (exists u, rb = inl u) /\ forall g t, In g asked -> (shows (heap_after sa) (VObj la) g t <-> shows (heap_after sb) (VObj lb) g t).
Proof.
  intros L parse noticed dm sources p members di testable optional xa xb fa fb goals va vb ha hb la lb Ta Tb sa sb ua rb common d vs b arms HL HP Ac HE HU HG (Wa & _ & Na) (Wb & _ & Nb) Ra Rb asked
    Cov E Hd KA Ea Eb Same.
  assert (Ea' : evaluate_policy (std_ext L) parse (entity_rewrite sources) (recovered_paths noticed sources) dm p xa fa asked (VObj la) ha = Some (sa, inl ua)).
  { unfold evaluate_request in Ea. destruct (check_request _ _ _ _ _ _ va _ _); [discriminate Ea|]. injection Ea as Ea. exact Ea. }
  assert (Eb' : evaluate_policy (std_ext L) parse (entity_rewrite sources) (recovered_paths noticed sources) dm p xb fb asked (VObj lb) hb = Some (sb, rb)).
  { unfold evaluate_request in Eb. destruct (check_request _ _ _ _ _ _ vb _ _); [discriminate Eb|]. injection Eb as Eb. exact Eb. }
  destruct (C72_variant_groups _ _ _ _ _ _ _ _ _ _ _ _ _ _ E Hd) as [(Hc & _) Hv].
  set (cs := union_common parse noticed dm sources p members goals d (map (info parse noticed) (conditional_arms arms))).
  assert (CI : forall q, In q cs <-> needed_by_all parse noticed dm sources p members goals d (conditional_arms arms) q) by (intros q; apply union_common_iff).
  apply (arms_settle L HL parse noticed dm sources p HP HE HU members Ac goals HG ha hb la lb Ta Tb xa xb fa fb sa sb ua rb Wa Wb Ra Rb Na Nb Ea' Eb'
    (fun c a => c = b /\ In a (conditional_arms arms))) with (C := needed_by_all parse noticed dm sources p members goals d (conditional_arms arms)); auto.
  - intros c a. destruct (bref_dec c b) as [->|N]; [|right; tauto]. destruct (in_dec marm_dec a (conditional_arms arms)); [now left|right; tauto].
  - intros q. destruct (in_dec String.string_dec q cs) as [H|H]; [left|right]; rewrite <- CI; auto.
  - intros q Hq. destruct (in_dec String.string_dec q (concat (map (fun a => reachable_from dm sources (rules_of parse noticed p) (ai_reads a)) (map (info parse noticed) (conditional_arms arms))))) as [Hj|Hj].
    + apply in_cones in Hj as (a & Ha & Hn). left. exists b, a. auto.
    + right. left. split; auto. intros a Ha Hn. apply Hj. apply in_cones. eauto.
  - intros q Hi H. apply Same; auto. destruct (Cov q Hi) as (x & Hx & T). pose proof (input_kept parse noticed dm sources p members di goals HG x q Hi Hx T) as Hk. destruct H as [H|(NC & c & a & (-> & Ha) & Sl & Hn)].
    + left. destruct (proj2 (Hc x)) as (c & Hl); [split; eauto|]. exists x, c. auto.
    + right.
      assert (K : forall l lv, Forall2 (fun a v => vr_arm v = ma_id a /\ vr_value v = discriminant_value (arm_test_of parse (ma_cond a)) /\
        group_lists (schema_inputs parse noticed dm sources p members di goals) (outputs dm sources (rules_of parse noticed p) members goals) (vr_group v)
          (fun q => arm_needs parse noticed dm sources p a q /\ ~ needed_by_all parse noticed dm sources p members goals d (conditional_arms arms) q) unguarded) l lv ->
        In a l -> exists v, In v lv /\ arm_selected (log pworld pick sa) b (vr_arm v) /\ listed (vr_group v) q).
      { intros l lv F. induction F as [|a0 v l lv (Ei & _ & (Hg & _)) _ IH]; [intros []|]. intros [->|Hi'].
        - exists v. split; [now left|]. rewrite Ei. split; auto. destruct (proj2 (Hg x)) as (c & Hl); [split; eauto|]. exists x, c. auto.
        - destruct (IH Hi') as (v' & Hv' & K). exists v'. split; [now right|exact K]. }
      exact (K _ _ Hv Ha).
Qed.
Print Assumptions C72_variant_settles.

(** The same without variants: an evaluation depends only on the common inputs and on those that are listed under a condition that was met. *)
Theorem C72_flat_settles : forall L parse noticed dm sources p members declared_inputs testable optional xa xb fa fb goals va vb ha hb la lb Ta Tb sa sb ua rb common cond,
  plain_lib L -> sound_policy parse dm p -> circle_free parse (entity_rewrite sources) (recovered_paths noticed sources) dm p ->
  declared_entities dm sources -> undotted parse p ->
  (forall g, In g goals -> exists b k, In (b, k) p /\ g = block_key k) ->
  is_input ha la -> is_input hb lb -> repr ha (VObj la) Ta -> repr hb (VObj lb) Tb ->
  let asked := roots dm sources (rules_of parse noticed p) members goals in
  (forall q, is_needed dm sources (rules_of parse noticed p) members asked q -> exists x, In x declared_inputs /\ tied x q) ->
  conditional_schema parse noticed dm sources p members declared_inputs testable goals = SFlat common cond ->
  kept_to_arms parse noticed dm sources p (fun c a => exists arms, is_match p members c arms /\ In a (conditional_arms arms)) (needed_anyway parse noticed dm sources p members goals) asked ->
  evaluate_request (std_ext L) parse noticed dm sources p members optional xa fa goals va (VObj la) ha = inr (Some (sa, inl ua)) ->
  evaluate_request (std_ext L) parse noticed dm sources p members optional xb fb goals vb (VObj lb) hb = inr (Some (sb, rb)) ->
  (forall q, is_needed dm sources (rules_of parse noticed p) members asked q ->
     listed common q \/ (exists x c, In (x, c) (g_inputs cond) /\ tied x q /\ guard_met parse noticed dm sources p members (log pworld pick sa) x) -> at_path Ta (split_dot q) = at_path Tb (split_dot q)) ->
  (exists u, rb = inl u) /\ forall g t, In g asked -> (shows (heap_after sa) (VObj la) g t <-> shows (heap_after sb) (VObj lb) g t).
Proof.
  intros L parse noticed dm sources p members di testable optional xa xb fa fb goals va vb ha hb la lb Ta Tb sa sb ua rb common cond HL HP Ac HE HU HG (Wa & _ & Na) (Wb & _ & Nb) Ra Rb asked
    Cov E KA Ea Eb Same.
  assert (Ea' : evaluate_policy (std_ext L) parse (entity_rewrite sources) (recovered_paths noticed sources) dm p xa fa asked (VObj la) ha = Some (sa, inl ua)).
  { unfold evaluate_request in Ea. destruct (check_request _ _ _ _ _ _ va _ _); [discriminate Ea|]. injection Ea as Ea. exact Ea. }
  assert (Eb' : evaluate_policy (std_ext L) parse (entity_rewrite sources) (recovered_paths noticed sources) dm p xb fb asked (VObj lb) hb = Some (sb, rb)).
  { unfold evaluate_request in Eb. destruct (check_request _ _ _ _ _ _ vb _ _); [discriminate Eb|]. injection Eb as Eb. exact Eb. }
  destruct (C72_flat_groups _ _ _ _ _ _ _ _ _ _ _ E) as [(Hc & _) (Hd & _ & Hgu)].
  set (cs := flat_common parse noticed dm sources p members goals (concat (match_blocks parse noticed p members))).
  assert (CI : forall q, In q cs <-> needed_anyway parse noticed dm sources p members goals q) by (intros q; apply flat_common_iff).
  apply (arms_settle L HL parse noticed dm sources p HP HE HU members Ac goals HG ha hb la lb Ta Tb xa xb fa fb sa sb ua rb Wa Wb Ra Rb Na Nb Ea' Eb'
    (fun c a => exists arms, is_match p members c arms /\ In a (conditional_arms arms))) with (C := needed_anyway parse noticed dm sources p members goals); auto.
  - intros c a. clear. assert (D : forall l : policy, {Exists (fun bk => fst bk = c /\ match snd bk with BMatch k arms => In (fst c) members /\ k <> "" /\ In a (conditional_arms arms) | _ => False end) l}
      + {~ Exists (fun bk => fst bk = c /\ match snd bk with BMatch k arms => In (fst c) members /\ k <> "" /\ In a (conditional_arms arms) | _ => False end) l}).
    { intros l. apply Exists_dec. intros [b k]. cbn [fst snd]. destruct (bref_dec b c); [|right; tauto]. destruct k as [k0 e0|k0 l0|k0 arms]; try (right; tauto).
      destruct (in_dec String.string_dec (fst c) members); [|right; tauto]. destruct (String.string_dec k0 ""); [right; tauto|]. destruct (in_dec marm_dec a (conditional_arms arms)); [left|right]; tauto. }
    destruct (D p) as [H|H]; [left|right].
    + apply Exists_exists in H as ([b k] & Hi & Eb & H). cbn [fst snd] in Eb, H. subst b. destruct k as [k e|k l'|k arms]; try contradiction. destruct H as (A & B & H). exists arms. split; auto. exists k. auto.
    + intros (arms & (k & Hk & A & B) & Ha). apply H. apply Exists_exists. exists (c, BMatch k arms). cbn [fst snd]. auto.
  - intros q. destruct (in_dec String.string_dec q cs) as [H|H]; [left|right]; rewrite <- CI; auto.
  - intros q Hq. destruct (in_dec String.string_dec q (flat_map (fun a => reachable_from dm sources (rules_of parse noticed p) (ai_reads a)) (concat (match_blocks parse noticed p members)))) as [Hj|Hj].
    + apply some_cone_iff in Hj as (a & (c & arms & Hm & Ha) & Hn). left. exists c, a. eauto.
    + right. left. split; auto. intros a Ha Hn. apply Hj. apply some_cone_iff. eauto.
  - intros q Hi H. apply Same; auto. destruct (Cov q Hi) as (x & Hx & T). pose proof (input_kept parse noticed dm sources p members di goals HG x q Hi Hx T) as Hk.
    destruct H as [H|(NC & c & a & (arms & Hm & Ha) & Sl & Hn)].
    + left. destruct (proj2 (Hc x)) as (c & Hl); [split; eauto|]. exists x, c. auto.
    + right. assert (Sa : some_arm p members a) by (exists c, arms; auto). destruct (proj2 (Hd x)) as (o & Hl); [split; [auto|]; exists q; eauto 8|]. exists x, o. split; auto. split; auto.
      destruct (Hgu x o (or_introl Hl)) as (l & Gl & _). exists c, arms, a, l. split; auto. split; auto. split; auto. split; auto. apply (proj2 (proj2 Gl (ma_cond a))). exists a, q. auto.
Qed.
Print Assumptions C72_flat_settles.

(** An evaluation depends only on the input paths that it reads: those in the texts of the blocks it runs and of the arms it selects. *)
Theorem C72_reads : forall L parse noticed dm sources p members optional xa xb fa fb goals va vb ha hb la lb Ta Tb sa sb ua rb,
  plain_lib L -> sound_policy parse dm p -> circle_free parse (entity_rewrite sources) (recovered_paths noticed sources) dm p ->
  (forall g, In g goals -> exists b k, In (b, k) p /\ g = block_key k) ->
  is_input ha la -> is_input hb lb -> repr ha (VObj la) Ta -> repr hb (VObj lb) Tb ->
  let asked := roots dm sources (rules_of parse noticed p) members goals in
  evaluate_request (std_ext L) parse noticed dm sources p members optional xa fa goals va (VObj la) ha = inr (Some (sa, inl ua)) ->
  evaluate_request (std_ext L) parse noticed dm sources p members optional xb fb goals vb (VObj lb) hb = inr (Some (sb, rb)) ->
  (forall q, reads_input parse p (log pworld pick sa) q -> at_path Ta q = at_path Tb q) ->
  (exists u, rb = inl u) /\ forall g t, In g asked -> (shows (heap_after sa) (VObj la) g t <-> shows (heap_after sb) (VObj lb) g t).
Proof.
  intros L parse noticed dm sources p members optional xa xb fa fb goals va vb ha hb la lb Ta Tb sa sb ua rb HL HP Ac HG (Wa & _ & Na) (Wb & _ & Nb) Ra Rb asked Ea Eb Same.
  assert (Ea' : evaluate_policy (std_ext L) parse (entity_rewrite sources) (recovered_paths noticed sources) dm p xa fa asked (VObj la) ha = Some (sa, inl ua)).
  { unfold evaluate_request in Ea. destruct (check_request _ _ _ _ _ _ va _ _); [discriminate Ea|]. injection Ea as Ea. exact Ea. }
  assert (Eb' : evaluate_policy (std_ext L) parse (entity_rewrite sources) (recovered_paths noticed sources) dm p xb fb asked (VObj lb) hb = Some (sb, rb)).
  { unfold evaluate_request in Eb. destruct (check_request _ _ _ _ _ _ vb _ _); [discriminate Eb|]. injection Eb as Eb. exact Eb. }
  exact (read_settle L HL parse noticed dm sources p HP Ac asked (asked_keys parse noticed dm sources p HP members goals HG) ha hb la lb Ta Tb xa xb fa fb sa sb ua rb Wa Wb Ra Rb Na Nb Ea' Eb' Same).
Qed.
Print Assumptions C72_reads.

(** A policy: [total] adds a fee, which depends on the kind of payment, and a tax. *)
Definition cd_policy : policy :=
  [(("m", "1"), BMatch "fee" [MArm "card" "kind == 'card'" "cardRate * 2"; MArm "cash" "kind == 'cash'" "base"]); (("m", "2"), BExpression "base" "cashRate + 1");
   (("m", "3"), BMatch "tax" [MArm "x" "abroad == true" "taxRate * 2"; MArm "y" "" "0"]); (("m", "4"), BExpression "total" "fee + tax")].
Definition cd_model : list string := ["abroad"; "cardRate"; "cashRate"; "kind"; "taxRate"].
(** With a type for [kind] there is one discriminant; with a type for [abroad] too there are two, and so none. *)
Definition cd_one (x : string) : bool := String.eqb x "kind".
Definition cd_two (x : string) : bool := String.eqb x "kind" || String.eqb x "abroad".
Definition cd_none : string -> list pread := fun _ => [].
Definition cd_heap (abroad : bool) (card cash : Z) (kind : string) (tax : Z) : heap :=
  [CObj [("abroad", VBool abroad); ("cardRate", num card); ("cashRate", num cash); ("kind", VStr kind); ("taxRate", num tax)]].
Definition cd_tree (abroad : bool) (card cash : Z) (kind : string) (tax : Z) : tree :=
  TObj [("abroad", TBool abroad); ("cardRate", TNum (dec_of_Z card)); ("cashRate", TNum (dec_of_Z cash)); ("kind", TStr kind); ("taxRate", TNum (dec_of_Z tax))].
Lemma cd_repr : forall a c d k t, repr (cd_heap a c d k t) (VObj 0) (cd_tree a c d k t).
Proof. intros a c d k t. eapply RObj; [reflexivity|]. repeat constructor. Qed.
Lemma cd_input : forall a c d k t, is_input (cd_heap a c d k t) 0.
Proof.
  intros a c d k t. split; [|split; [exists (cd_tree a c d k t); apply cd_repr|intros u (v & E & _); vm_compute in E; discriminate]].
  intros l x H. destruct l as [|[|]]; cbn in H; try discriminate; injection H as <-; try (split; [repeat constructor; cbn; intuition discriminate|]); repeat constructor; vm_compute; eauto.
Qed.
Lemma cd_sound : sound_policy p0 cd_model cd_policy.
Proof.
  split.
  - repeat constructor; cbn; intuition discriminate.
  - repeat constructor; cbn; intuition discriminate.
  - intros b k H. cbn in H. repeat (destruct H as [H|H]; [injection H as <- <-; repeat split; vm_compute; congruence|]). destruct H.
  - intros b k H. apply in_model_false. cbn in H. repeat (destruct H as [H|H]; [injection H as <- <-; vm_compute; reflexivity|]). destruct H.
  - intros b k H. cbn in H. repeat (destruct H as [H|H]; [injection H as <- <-; split;
      [intros e He; cbn in He; repeat (destruct He as [<-|He]; [closed_tac|]); destruct He
      |cbn; try discriminate; try (intros c Hc; repeat (destruct Hc as [<-|Hc]; [discriminate|]); destruct Hc); try (repeat constructor; cbn; intuition discriminate)]|]).
    destruct H.
Qed.
Definition cd_rank (x : bref) : nat := if String.eqb (snd x) "4" then 3 else if String.eqb (snd x) "1" then 2 else 1.
Lemma cd_circle_free : circle_free p0 (entity_rewrite []) (recovered_paths cd_none []) cd_model cd_policy.
Proof.
  set (rw := entity_rewrite []). set (rc := recovered_paths cd_none []).
  assert (H1 : forall x y, wants cd_model (p_blocks cd_policy) (p_known cd_policy) (p_always p0 rw rc cd_policy) (p_reads p0 rw rc cd_policy) x y -> cd_rank y < cd_rank x).
  { intros x y (Hk & q & Hq & Hf). apply longest_feeds in Hf.
    assert (Hx : In x (map fst cd_policy)).
    { unfold p_known, block_of in Hk. destruct (find (fun e => beqb (fst e) x) cd_policy) as [e|] eqn:F; [|discriminate]. apply find_some in F as [F E]. apply beqb_iff in E. subst x. now apply in_map. }
    assert (Hr : In q (p_always p0 rw rc cd_policy x) \/ In q ["base"; "cardRate"; "taxRate"] /\ (x = ("m", "1") \/ x = ("m", "3") /\ q <> "base")).
    { destruct Hq as [Hq|(pk & Hq)]; [now left|right]. unfold p_reads in Hq. destruct (block_of cd_policy x) as [k|] eqn:Bk; [|destruct Hq].
      apply SolveRun.block_of_in in Bk. destruct Bk as [Bk|[Bk|[Bk|[Bk|[]]]]]; injection Bk as <- <-; cbn [plan_reads] in Hq; try (destruct Hq; fail).
      - destruct pk as [[id|]|]; try (destruct Hq; fail). cbn [find ma_id] in Hq. destruct (String.eqb "card" id); [vm_compute in Hq; destruct Hq as [<-|[]]; cbn; auto|].
        destruct (String.eqb "cash" id); [vm_compute in Hq; destruct Hq as [<-|[]]; cbn; auto|destruct Hq].
      - destruct pk as [[id|]|]; try (destruct Hq; fail). cbn [find ma_id] in Hq. destruct (String.eqb "x" id); [vm_compute in Hq; destruct Hq as [<-|[]]; cbn; split; [auto|right; split; [reflexivity|discriminate]]|].
        destruct (String.eqb "y" id); [vm_compute in Hq; destruct Hq|destruct Hq]. }
    cbn in Hx. destruct Hr as [Hr|[Hr Hq']].
    - destruct Hx as [<-|[<-|[<-|[<-|[]]]]]; vm_compute in Hr; repeat (destruct Hr as [<-|Hr]; [vm_compute in Hf; repeat (destruct Hf as [<-|Hf]; [vm_compute; lia|]); destruct Hf|]); destruct Hr.
    - destruct Hr as [<-|[<-|[<-|[]]]]; vm_compute in Hf; try (destruct Hf as [<-|[]]); try (destruct Hf; fail). destruct Hq' as [->|[_ N]]; [vm_compute; lia|congruence]. }
  assert (H2 : forall x y, clos_trans _ (wants cd_model (p_blocks cd_policy) (p_known cd_policy) (p_always p0 rw rc cd_policy) (p_reads p0 rw rc cd_policy)) x y -> cd_rank y < cd_rank x).
  { intros x y H. induction H as [x y H|x y z Ha IHa Hb IHb]; [now apply H1|lia]. }
  intros x H. apply H2 in H. lia.
Qed.
Lemma cd_undotted : undotted p0 cd_policy.
Proof.
  intros b k e n x s Hk He P Hx Hs. cbn in Hk. repeat (destruct Hk as [Hk|Hk]; [injection Hk as <- <-; cbn in He; repeat (destruct He as [<-|He]; [vm_compute in P; (discriminate P || injection P as <-);
      vm_compute in Hx; repeat (destruct Hx as [<-|Hx]; [vm_compute in Hs; repeat (destruct Hs as [<-|Hs]; [reflexivity|]); destruct Hs|]); destruct Hx|]); destruct He|]). destruct Hk.
Qed.
Notation cd_rules := (rules_of p0 cd_none cd_policy).
Lemma cd_covered : forall q, is_needed cd_model [] cd_rules ["m"] ["total"] q -> exists x, In x cd_model /\ tied x q.
Proof.
  intros q H. apply inputs_iff in H. vm_compute in H. repeat (destruct H as [<-|H]; [eexists; split; [|left; left; reflexivity]; vm_compute; tauto|]). destruct H.
Qed.
Definition cd_arms : list marm := [MArm "card" "kind == 'card'" "cardRate * 2"; MArm "cash" "kind == 'cash'" "base"].
Lemma cd_discriminant : only_discriminant p0 cd_none cd_model cd_policy ["m"] cd_one ("m", "1") "kind" cd_arms.
Proof.
  exists "fee", [], (tl cd_policy). split; [reflexivity|]. split; [now left|]. split; [discriminate|]. split.
  - split; [discriminate|]. split; [|split; [|reflexivity]].
    + exists ["kind"]. split; [reflexivity|]. intros a [<-|[<-|[]]]; vm_compute; reflexivity.
    + intros H. apply own_writer_iff in H. vm_compute in H. discriminate H.
  - intros b k arms d H _ _ (_ & (l & E & Hl) & _ & T). cbn in H. destruct H as [H|[H|[H|[]]]]; try discriminate H. injection H as <- <- <-.
    specialize (Hl (MArm "x" "abroad == true" "taxRate * 2") (or_introl eq_refl)). vm_compute in Hl. injection Hl as <-. subst d. discriminate T.
Qed.
Lemma cd_above : forall y r, above y r -> computed cd_model cd_rules y -> extends y r = true /\ In y ["fee"; "base"; "tax"; "total"].
Proof.
  intros y r A H. split; [now apply extends_iff|]. apply (computed_key p0 cd_none cd_model cd_policy cd_sound) in H as (b & k & Hk & ->).
  cbn in Hk. repeat (destruct Hk as [Hk|Hk]; [injection Hk as <- <-; cbn; auto|]). destruct Hk.
Qed.
Lemma cd_kept : forall (G : bref -> marm -> Prop) C, (forall b a, G b a -> In a (cd_arms ++ [MArm "x" "abroad == true" "taxRate * 2"])) ->
  (forall a, In a cd_arms -> G ("m", "1") a) -> ((forall b a, G b a -> In a cd_arms) \/ G ("m", "3") (MArm "x" "abroad == true" "taxRate * 2")) ->
  kept_to_arms p0 cd_none cd_model [] cd_policy G C ["total"].
Proof.
  intros G C HG H1 H3. split.
  - intros b a g Ga [<-|[]] Hn. apply cone_iff in Hn. apply HG in Ga. cbn in Ga.
    repeat (destruct Ga as [<-|Ga]; [vm_compute in Hn; intuition discriminate|]). destruct Ga.
  - intros b k e y c a Hk Ho (Ne & r & Hr & Hy) _ Gc Hn. apply cone_iff in Hn. apply cone_iff.
    assert (X : y <> "taxRate" \/ G ("m", "3") (MArm "x" "abroad == true" "taxRate * 2")).
    { destruct H3 as [H3|H3]; [left|now right]. intros ->. apply H3 in Gc. cbn in Gc. repeat (destruct Gc as [<-|Gc]; [vm_compute in Hn; intuition discriminate|]). destruct Gc. }
    assert (Y : y = r \/ extends y r = true /\ In y ["fee"; "base"; "tax"; "total"]) by (destruct Hy as [->|[A B]]; [now left|right; now apply cd_above]). clear Hy.
    apply HG in Gc. cbn in Hk. destruct Hk as [Hk|[Hk|[Hk|[Hk|[]]]]]; injection Hk as <- <-; inversion Ho as [k0 e0|k0 l0 c0 Hc0|k0 l0 c0 Hc0|k0 l0 c0 Hc0 NG]; subst; clear Ho;
      try (cbn in Hc0; repeat (destruct Hc0 as [<-|Hc0]; [|]); try contradiction Hc0); cbn [ma_cond ma_value] in *; try (exfalso; apply NG, H1; cbn; now auto); try congruence;
      vm_compute in Hr; repeat (destruct Hr as [<-|Hr]; [|]); try contradiction Hr;
      (destruct Y as [->|[Y1 Y2]]; [|cbn in Y2; repeat (destruct Y2 as [<-|Y2]; [vm_compute in Y1; try discriminate Y1|]); try contradiction Y2]);
      try (destruct X as [X|X]; [congruence|contradiction]);
      cbn in Gc; repeat (destruct Gc as [<-|Gc]; [vm_compute in Hn; vm_compute; intuition discriminate|]); destruct Gc.
  - intros b a y r Ga Hr _ A B. destruct (cd_above y r A B) as [Y1 Y2]. apply cone_iff. apply HG in Ga. cbn in Ga.
    repeat (destruct Ga as [<-|Ga]; [vm_compute in Hr; repeat (destruct Hr as [<-|Hr]; [|]); try contradiction Hr; cbn in Y2;
      repeat (destruct Y2 as [<-|Y2]; [vm_compute in Y1; try discriminate Y1; vm_compute; tauto|]); try contradiction Y2|]). destruct Ga.
Qed.
Notation cd_schema t := (conditional_schema p0 cd_none cd_model [] cd_policy ["m"] cd_model t ["total"]).
(** The rate for cards and the tax rate matter only in their cases. Paying cash, the rate for cards has no influence on the total. *)
Example C72_variant_case : let common := Group [("abroad", None); ("kind", None); ("taxRate", None)] [("fee", None); ("tax", None); ("total", None)] in
  let vs := [Variant (Some "card") "card" (Group [("cardRate", None)] []); Variant (Some "cash") "cash" (Group [("cashRate", None)] [("base", None)])] in
  sound_policy p0 cd_model cd_policy /\ circle_free p0 (entity_rewrite []) (recovered_paths cd_none []) cd_model cd_policy /\ declared_entities cd_model [] /\ undotted p0 cd_policy /\
  cd_schema cd_one = SUnion common "kind" vs /\
  only_discriminant p0 cd_none cd_model cd_policy ["m"] cd_one ("m", "1") "kind" cd_arms /\
  kept_to_arms p0 cd_none cd_model [] cd_policy (fun c a => c = ("m", "1") /\ In a (conditional_arms cd_arms))
    (needed_by_all p0 cd_none cd_model [] cd_policy ["m"] ["total"] "kind" (conditional_arms cd_arms)) (roots cd_model [] cd_rules ["m"] ["total"]) /\
  exists sa sb, evaluate_request demo p0 cd_none cd_model [] cd_policy ["m"] [] false 9 ["total"] true (VObj 0) (cd_heap true 5 3 "cash" 1) = inr (Some (sa, inl tt)) /\
    evaluate_request demo p0 cd_none cd_model [] cd_policy ["m"] [] true 9 ["total"] true (VObj 0) (cd_heap true 8 3 "cash" 1) = inr (Some (sb, inl tt)) /\
    (forall q, is_needed cd_model [] cd_rules ["m"] ["total"] q ->
       listed common q \/ (exists v, In v vs /\ arm_selected (log pworld pick sa) ("m", "1") (vr_arm v) /\ listed (vr_group v) q) ->
       at_path (cd_tree true 5 3 "cash" 1) (split_dot q) = at_path (cd_tree true 8 3 "cash" 1) (split_dot q)) /\
    shows (heap_after sa) (VObj 0) "total" (TNum (dec_of_Z 6%Z)).
Proof.
  cbv zeta. split; [exact cd_sound|]. split; [exact cd_circle_free|]. split; [intros e s []|]. split; [exact cd_undotted|]. split; [vm_compute; reflexivity|]. split; [exact cd_discriminant|].
  split.
  { apply cd_kept; [intros b a [_ Ha]; apply in_app_iff; now left|intros a Ha; split; auto|left; now intros b a [_ Ha]]. }
  do 2 eexists. split; [vm_compute; reflexivity|]. split; [vm_compute; reflexivity|]. split.
  - intros q Hq Hl. apply inputs_iff in Hq. vm_compute in Hq. repeat (destruct Hq as [<-|Hq]; [try (vm_compute; reflexivity)|]); try contradiction Hq.
    exfalso. destruct Hl as [(x & c & Hi & T)|(v & Hv & Hs & x & c & Hi & T)]; apply related_iff in T.
    + cbn in Hi. repeat (destruct Hi as [Hi|Hi]; [injection Hi as <- <-; vm_compute in T; discriminate T|]). destruct Hi.
    + destruct Hv as [<-|[<-|[]]]; vm_compute in Hs, Hi; [intuition discriminate|]. destruct Hi as [Hi|[]]. injection Hi as <- <-. vm_compute in T. discriminate T.
  - eexists. split; [vm_compute; reflexivity|constructor].
Qed.
(** With two discriminants the schema is flat. At home, the tax rate has no influence either. *)
Example C72_flat_case : let common := Group [("abroad", None); ("kind", None)] [("fee", None); ("tax", None); ("total", None)] in
  let cond := Group [("cardRate", Some "kind == 'card'"); ("cashRate", Some "kind == 'cash'"); ("taxRate", Some "abroad == true")] [("base", Some "kind == 'cash'")] in
  cd_schema cd_two = SFlat common cond /\
  kept_to_arms p0 cd_none cd_model [] cd_policy (fun c a => exists arms, is_match cd_policy ["m"] c arms /\ In a (conditional_arms arms))
    (needed_anyway p0 cd_none cd_model [] cd_policy ["m"] ["total"]) (roots cd_model [] cd_rules ["m"] ["total"]) /\
  exists sa sb, evaluate_request demo p0 cd_none cd_model [] cd_policy ["m"] [] false 9 ["total"] true (VObj 0) (cd_heap false 5 3 "cash" 1) = inr (Some (sa, inl tt)) /\
    evaluate_request demo p0 cd_none cd_model [] cd_policy ["m"] [] true 9 ["total"] true (VObj 0) (cd_heap false 8 3 "cash" 9) = inr (Some (sb, inl tt)) /\
    (forall q, is_needed cd_model [] cd_rules ["m"] ["total"] q ->
       listed common q \/ (exists x c, In (x, c) (g_inputs cond) /\ tied x q /\ guard_met p0 cd_none cd_model [] cd_policy ["m"] (log pworld pick sa) x) ->
       at_path (cd_tree false 5 3 "cash" 1) (split_dot q) = at_path (cd_tree false 8 3 "cash" 9) (split_dot q)) /\
    shows (heap_after sa) (VObj 0) "total" (TNum (dec_of_Z 4%Z)).
Proof.
  cbv zeta. split; [vm_compute; reflexivity|].
  assert (Am : forall c a arms, is_match cd_policy ["m"] c arms -> In a (conditional_arms arms) ->
    c = ("m", "1") /\ In a cd_arms \/ c = ("m", "3") /\ a = MArm "x" "abroad == true" "taxRate * 2").
  { intros c a arms (k & Hk & _) Ha. cbn in Hk. destruct Hk as [Hk|[Hk|[Hk|[Hk|[]]]]]; try discriminate Hk; injection Hk as <- <- <-; [left|right]; split; auto. now destruct Ha as [<-|[]]. }
  split.
  { apply cd_kept.
    - intros b a (arms & Hm & Ha). apply in_app_iff. destruct (Am b a arms Hm Ha) as [[_ H]|[_ ->]]; [now left|right; now left].
    - intros a Ha. exists cd_arms. split; [|exact Ha]. exists "fee". split; [now left|]. split; [now left|discriminate].
    - right. exists [MArm "x" "abroad == true" "taxRate * 2"; MArm "y" "" "0"]. split; [|now left]. exists "tax". split; [cbn; auto|]. split; [now left|discriminate]. }
  do 2 eexists. split; [vm_compute; reflexivity|]. split; [vm_compute; reflexivity|]. split.
  - intros q Hq Hl. apply inputs_iff in Hq. vm_compute in Hq.
    assert (K : forall x y, In x ["cardRate"; "taxRate"] -> listed (Group [("abroad", None); ("kind", None)] y) x -> False).
    { intros x y Hx (z & c & Hi & T). apply related_iff in T. cbn in Hx, Hi. repeat (destruct Hi as [Hi|Hi]; [injection Hi as <- <-; repeat (destruct Hx as [<-|Hx]; [vm_compute in T; discriminate T|]); destruct Hx|]). destruct Hi. }
    repeat (destruct Hq as [<-|Hq]; [try (vm_compute; reflexivity)|]); try contradiction Hq; exfalso; (destruct Hl as [Hl|(x & c & Hi & T & (b & arms & a & l & Hm & Ha & Hs & (_ & Hl) & Hc))]; [eapply K; [|exact Hl]; cbn; auto|]);
      apply related_iff in T; cbn in Hi; (repeat (destruct Hi as [Hi|Hi]; [injection Hi as <- <-; vm_compute in T; try discriminate T|]); try contradiction Hi);
      apply Hl in Hc as (a2 & q & (b2 & arms2 & Hm2 & Ha2) & Hn & T2 & Ec); apply cone_iff in Hn; apply related_iff in T2;
      (destruct (Am _ _ _ Hm2 Ha2) as [[_ H2]|[_ ->]]; [destruct H2 as [<-|[<-|[]]]|]); vm_compute in Hn; repeat (destruct Hn as [<-|Hn]; [vm_compute in T2; try discriminate T2|]); try contradiction Hn;
      (destruct (Am _ _ _ Hm Ha) as [[-> H1]|[-> ->]]; [destruct H1 as [<-|[<-|[]]]|]); try discriminate Ec; vm_compute in Hs; intuition discriminate.
  - eexists. split; [vm_compute; reflexivity|constructor].
Qed.

(** What an arm needs is not listed as common even if it is needed anyway: here [total] reads the rate itself. Two requests that pay cash and
    agree on all inputs listed for that have different totals. *)
Theorem C72_elsewhere_refuted : exists p common other cash h1 h2 s1 s2, sound_policy p0 ["kind"; "rate"] p /\
  conditional_schema p0 cd_none ["kind"; "rate"] [] p ["m"] ["kind"; "rate"] cd_one ["total"] = SUnion common "kind" [other; Variant (Some "cash") "cash" cash] /\
  ~ listed common "rate" /\ ~ listed cash "rate" /\
  repr h1 (VObj 0) (TObj [("kind", TStr "cash"); ("rate", TNum (dec_of_Z 1%Z))]) /\ repr h2 (VObj 0) (TObj [("kind", TStr "cash"); ("rate", TNum (dec_of_Z 5%Z))]) /\
  evaluate_request demo p0 cd_none ["kind"; "rate"] [] p ["m"] [] false 9 ["total"] true (VObj 0) h1 = inr (Some (s1, inl tt)) /\
  evaluate_request demo p0 cd_none ["kind"; "rate"] [] p ["m"] [] false 9 ["total"] true (VObj 0) h2 = inr (Some (s2, inl tt)) /\
  shows (heap_after s1) (VObj 0) "total" (TNum (dec_of_Z 3%Z)) /\ shows (heap_after s2) (VObj 0) "total" (TNum (dec_of_Z 7%Z)).
Proof.
  exists [(("m", "1"), BMatch "fee" [MArm "card" "kind == 'card'" "rate"; MArm "cash" "kind == 'cash'" "2"]); (("m", "2"), BExpression "total" "fee + rate")].
  do 3 eexists. exists [CObj [("kind", VStr "cash"); ("rate", num 1%Z)]], [CObj [("kind", VStr "cash"); ("rate", num 5%Z)]]. do 2 eexists. split.
  { split.
    - repeat constructor; cbn; intuition discriminate.
    - repeat constructor; cbn; intuition discriminate.
    - intros b k H. cbn in H. repeat (destruct H as [H|H]; [injection H as <- <-; repeat split; vm_compute; congruence|]). destruct H.
    - intros b k H. apply in_model_false. cbn in H. repeat (destruct H as [H|H]; [injection H as <- <-; vm_compute; reflexivity|]). destruct H.
    - intros b k H. cbn in H. repeat (destruct H as [H|H]; [injection H as <- <-; split;
        [intros e He; cbn in He; repeat (destruct He as [<-|He]; [closed_tac|]); destruct He
        |cbn; try discriminate; try (repeat constructor; cbn; intuition discriminate)]|]).
      destruct H. }
  split; [vm_compute; reflexivity|].
  split. { intros (x & c & Hi & T). apply related_iff in T. cbn in Hi. repeat (destruct Hi as [Hi|Hi]; [injection Hi as <- <-; vm_compute in T; discriminate T|]). destruct Hi. }
  split. { intros (x & c & [] & _). }
  split; [eapply RObj; [reflexivity|]; repeat constructor|]. split; [eapply RObj; [reflexivity|]; repeat constructor|].
  split; [vm_compute; reflexivity|]. split; [vm_compute; reflexivity|]. split; eexists; (split; [vm_compute; reflexivity|constructor]).
Qed.
Print Assumptions C72_elsewhere_refuted.

(** The same for an arm without condition: it has no variant, and what it needs can be listed for another arm only. *)
Theorem C72_default_refuted : exists p common other cash h1 h2 s1 s2, sound_policy p0 ["kind"; "rate"] p /\
  conditional_schema p0 cd_none ["kind"; "rate"] [] p ["m"] ["kind"; "rate"] cd_one ["fee"] = SUnion common "kind" [Variant (Some "card") "card" other; Variant (Some "cash") "cash" cash] /\
  ~ listed common "rate" /\ ~ listed cash "rate" /\ listed other "rate" /\
  repr h1 (VObj 0) (TObj [("kind", TStr "wire"); ("rate", TNum (dec_of_Z 1%Z))]) /\ repr h2 (VObj 0) (TObj [("kind", TStr "wire"); ("rate", TNum (dec_of_Z 5%Z))]) /\
  evaluate_request demo p0 cd_none ["kind"; "rate"] [] p ["m"] [] false 9 ["fee"] true (VObj 0) h1 = inr (Some (s1, inl tt)) /\
  evaluate_request demo p0 cd_none ["kind"; "rate"] [] p ["m"] [] false 9 ["fee"] true (VObj 0) h2 = inr (Some (s2, inl tt)) /\
  shows (heap_after s1) (VObj 0) "fee" (TNum (dec_of_Z 2%Z)) /\ shows (heap_after s2) (VObj 0) "fee" (TNum (dec_of_Z 10%Z)).
Proof.
  exists [(("m", "1"), BMatch "fee" [MArm "card" "kind == 'card'" "rate"; MArm "cash" "kind == 'cash'" "1"; MArm "rest" "" "rate * 2"])].
  do 3 eexists. exists [CObj [("kind", VStr "wire"); ("rate", num 1%Z)]], [CObj [("kind", VStr "wire"); ("rate", num 5%Z)]]. do 2 eexists. split.
  { split.
    - repeat constructor; cbn; intuition discriminate.
    - repeat constructor; cbn; intuition discriminate.
    - intros b k H. cbn in H. repeat (destruct H as [H|H]; [injection H as <- <-; repeat split; vm_compute; congruence|]). destruct H.
    - intros b k H. apply in_model_false. cbn in H. repeat (destruct H as [H|H]; [injection H as <- <-; vm_compute; reflexivity|]). destruct H.
    - intros b k H. cbn in H. repeat (destruct H as [H|H]; [injection H as <- <-; split;
        [intros e He; cbn in He; repeat (destruct He as [<-|He]; [closed_tac|]); destruct He
        |cbn; try discriminate; try (repeat constructor; cbn; intuition discriminate)]|]).
      destruct H. }
  split; [vm_compute; reflexivity|].
  split. { intros (x & c & Hi & T). apply related_iff in T. cbn in Hi. repeat (destruct Hi as [Hi|Hi]; [injection Hi as <- <-; vm_compute in T; discriminate T|]). destruct Hi. }
  split. { intros (x & c & [] & _). }
  split. { exists "rate", None. split; [now left|]. left. now left. }
  split; [eapply RObj; [reflexivity|]; repeat constructor|]. split; [eapply RObj; [reflexivity|]; repeat constructor|].
  split; [vm_compute; reflexivity|]. split; [vm_compute; reflexivity|]. split; eexists; (split; [vm_compute; reflexivity|constructor]).
Qed.
Print Assumptions C72_default_refuted.

(** An input that the schema lists for another variant only must be there all the same: the request is refused without it, although the same
    request without goals is evaluated. *)
Theorem C72_enough_refuted : exists common card vs h s,
  cd_schema cd_one = SUnion common "kind" (card :: vs) /\ ~ listed common "cardRate" /\ Forall (fun v => ~ listed (vr_group v) "cardRate") vs /\
  evaluate_request demo p0 cd_none cd_model [] cd_policy ["m"] [] false 9 ["total"] true (VObj 0) h = inl (MissingInputs ["cardRate"]) /\
  evaluate_request demo p0 cd_none cd_model [] cd_policy ["m"] [] false 9 [] true (VObj 0) h = inr (Some (s, inl tt)) /\
  shows (heap_after s) (VObj 0) "total" (TNum (dec_of_Z 6%Z)) /\ shows h (VObj 0) "kind" (TStr "cash") /\ vr_value card = Some "card".
Proof.
  do 3 eexists. exists [CObj [("abroad", VBool true); ("cashRate", num 3%Z); ("kind", VStr "cash"); ("taxRate", num 1%Z)]]. eexists.
  split; [vm_compute; reflexivity|].
  split. { intros (x & c & Hi & T). apply related_iff in T. cbn in Hi. repeat (destruct Hi as [Hi|Hi]; [injection Hi as <- <-; vm_compute in T; discriminate T|]). destruct Hi. }
  split. { repeat constructor. intros (x & c & Hi & T). apply related_iff in T. cbn in Hi. repeat (destruct Hi as [Hi|Hi]; [injection Hi as <- <-; vm_compute in T; discriminate T|]). destruct Hi. }
  split; [vm_compute; reflexivity|]. split; [vm_compute; reflexivity|]. split; [eexists; split; [vm_compute; reflexivity|constructor]|].
  split; [eexists; split; [vm_compute; reflexivity|constructor]|reflexivity].
Qed.
Print Assumptions C72_enough_refuted.
