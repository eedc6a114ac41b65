(** The conditional schema lists what its specification says. *)
From Coq Require Import String Ascii Bool List Arith Lia Relations Sorted.
From Verif Require Import Base Dec Value Heap Ast Ops HeapSpec Isolate Session Deps DepsSpec Driver DriverSpec DriverFacts Blocks BlocksSpec PolicyRun SolveFacts Discriminant PGraph NeedSpec NeedFacts
  Conditional ConditionalSpec.
Import ListNotations.
Local Open Scope string_scope.
Local Open Scope nat_scope.
Local Open Scope list_scope.

Lemma related_iff : forall a b, related a b = true <-> tied a b.
Proof. intros a b. unfold related, tied. rewrite orb_true_iff, !extends_iff. reflexivity. Qed.
Lemma minus_iff : forall x a b, In x (minus a b) <-> In x a /\ ~ In x b.
Proof.
  intros x a b. unfold minus. rewrite filter_In, negb_true_iff. destruct (smem x b) eqn:E.
  - apply smem_iff in E. split; [intros [_ H]; discriminate H|tauto].
  - split; intros [H K]; split; auto. intros H0. apply smem_iff in H0. congruence.
Qed.
Lemma intersection_iff : forall x l, In x (intersection l) <-> l <> [] /\ forall c, In c l -> In x c.
Proof.
  intros x [|c r]; cbn [intersection].
  - split; [intros []|intros [H _]; congruence].
  - rewrite filter_In, forallb_forall. split.
    + intros [H K]. split; [discriminate|]. intros d [<-|Hd]; auto. apply smem_iff. auto.
    + intros [_ H]. split; [apply H; now left|]. intros d Hd. apply smem_iff. apply H. now right.
Qed.
Lemma join_or_concat : forall l, join_or l = String.concat " or " l.
Proof.
  induction l as [|x [|y r] IH]; [reflexivity|reflexivity|].
  change (join_or (x :: y :: r)) with (x ++ " or " ++ join_or (y :: r))%string. rewrite IH. reflexivity.
Qed.
Lemma group_for_lists : forall set ins outs guard (P : string -> Prop) (gd : string -> option string -> Prop), (forall q, In q set <-> P q) -> (forall x, gd x (guard x)) ->
  group_lists ins outs (group_for set ins outs guard) P gd.
Proof.
  intros set ins outs guard P gd HS HG.
  assert (K : forall l x, (exists c, In (x, c) (map (fun x => (x, guard x)) (filter (fun x => existsb (related x) set) l))) <-> In x l /\ exists q, P q /\ tied x q).
  { intros l x. split.
    - intros (c & H). apply in_map_iff in H as (y & E & Hy). injection E as -> _. apply filter_In in Hy as [Hy E]. split; auto. apply existsb_exists in E as (q & Hq & E).
      exists q. split; [now apply HS|now apply related_iff].
    - intros (Hx & q & Hq & T). exists (guard x). apply in_map_iff. exists x. split; auto. apply filter_In. split; auto. apply existsb_exists. exists q. split; [now apply HS|now apply related_iff]. }
  unfold group_for. split; [apply K|]. split; [apply K|]. cbn [g_inputs g_outputs]. intros x c [H|H]; apply in_map_iff in H as (y & E & _); injection E as <- <-; apply HG.
Qed.

Section Facts.
  Variable parse : ekind -> string -> res node.
  Variable noticed : string -> list pread.
  Variable dm : list string.
  Variable sources : entity_sources.
  Variable p : policy.
  Variable members : list string.
  Notation rules := (rules_of parse noticed p).
  Notation reachable := (reachable_from dm sources rules).
  Notation direct := (direct_reads parse noticed).
  Notation infos := (arm_infos parse noticed).
  Notation needs := (arm_needs parse noticed dm sources p).
  Definition info (a : marm) : arm_info := ArmInfo (ma_id a) (ma_cond a) (arm_test_of parse (ma_cond a)) (direct (ma_value a)).
  Lemma infos_map : forall arms, infos arms = map info (conditional_arms arms).
  Proof. reflexivity. Qed.
  Lemma direct_iff : forall src q, In q (direct src) <-> reads_directly parse noticed src q.
  Proof.
    intros src q. unfold direct_reads, reads_directly. destruct (String.eqb_spec src "") as [->|N].
    - split; [intros []|intros [H _]; congruence].
    - rewrite in_map_iff. split.
      + intros (x & E & H). apply filter_In in H as [H K]. apply andb_true_iff in K as [K1 K2]. apply negb_true_iff in K1, K2. split; auto. exists x. auto.
      + intros (_ & x & H & A & U & E). exists x. split; auto. apply filter_In. split; auto. now rewrite A, U.
  Qed.
  Lemma cone_iff : forall a q, In q (reachable (direct (ma_value a))) <-> needs a q.
  Proof.
    intros a q. rewrite reachable_iff. unfold arm_needs. split; intros (r & H & K); exists r; (split; [now apply direct_iff|exact K]).
  Qed.
  Lemma roots_iff : forall goals q, In q (reachable (schema_roots parse noticed dm p members goals)) <-> concerned parse noticed dm sources p members goals q.
  Proof.
    intros goals q. rewrite reachable_iff. unfold concerned, schema_roots. destruct goals as [|g0 gs].
    - assert (K : forall g, In g (computed_paths dm rules members) <-> mentioned dm rules g /\ computed_here dm rules members g /\ forall a, above a g -> a <> g -> ~ computed dm rules a).
      { intros g. unfold computed_paths. rewrite filter_In, andb_true_iff, nodes_iff, own_writer_iff, negb_true_iff.
        assert (A : existsb (is_written dm rules) (dot_prefixes g) = false <-> forall a, above a g -> a <> g -> ~ computed dm rules a).
        { split.
          - intros E a Ha Na C. apply written_iff in C. apply above_iff in Ha as [->|Ha]; [congruence|].
            assert (existsb (is_written dm rules) (dot_prefixes g) = true) by (apply existsb_exists; eauto). congruence.
          - intros H. destruct (existsb (is_written dm rules) (dot_prefixes g)) eqn:E; auto. exfalso. apply existsb_exists in E as (a & Ha & E). apply written_iff in E.
            apply (H a); auto; [apply above_iff; now right|]. intros ->. exact (prefix_irrefl _ Ha). }
        rewrite A. tauto. }
      split; intros (g & H); exists g; [|]; pose proof (K g); tauto.
    - split; intros (g & H); exists g; tauto.
  Qed.
  Lemma in_cones : forall arms q, In q (concat (map (fun a => reachable (ai_reads a)) (map info arms))) <-> exists a, In a arms /\ needs a q.
  Proof.
    intros arms q. rewrite in_concat. split.
    - intros (c & Hc & Hq). apply in_map_iff in Hc as (i & <- & Hi). apply in_map_iff in Hi as (a & <- & Ha). exists a. split; auto. now apply cone_iff.
    - intros (a & Ha & Hn). exists (reachable (ai_reads (info a))). split; [|now apply cone_iff]. apply in_map_iff. exists (info a). split; auto. now apply in_map.
  Qed.
  Lemma union_common_iff : forall goals d arms q, In q (union_common parse noticed dm sources p members goals d (map info arms)) <->
    needed_by_all parse noticed dm sources p members goals d arms q.
  Proof.
    intros goals d arms q. unfold union_common, needed_by_all. rewrite !in_app_iff, minus_iff, in_cones, roots_iff, intersection_iff.
    assert (A : (map (fun a => reachable (ai_reads a)) (map info arms) <> [] /\ (forall c, In c (map (fun a => reachable (ai_reads a)) (map info arms)) -> In q c)) <->
                (arms <> [] /\ forall a, In a arms -> needs a q)).
    { split; intros [N H]; split.
      - intros ->. now apply N.
      - intros a Ha. apply cone_iff. apply (H (reachable (ai_reads (info a)))). apply in_map_iff. exists (info a). split; auto. now apply in_map.
      - destruct arms; [congruence|discriminate].
      - intros c Hc. apply in_map_iff in Hc as (i & <- & Hi). apply in_map_iff in Hi as (a & <- & Ha). apply cone_iff. auto. }
    rewrite A. cbn [In].
    assert (B : In q (flat_map (fun a => direct (ai_cond a)) (map info arms)) <-> exists a, In a arms /\ reads_directly parse noticed (ma_cond a) q).
    { rewrite in_flat_map. split.
      - intros (i & Hi & Hq). apply in_map_iff in Hi as (a & <- & Ha). exists a. split; auto. now apply direct_iff.
      - intros (a & Ha & Hq). exists (info a). split; [now apply in_map|now apply direct_iff]. }
    rewrite B. clear A B. split.
    - intros [[H K]|[H|[H|H]]]; auto. left. split; auto. intros a Ha Hn. apply K. eauto.
    - intros [[H K]|[H|[H|H]]]; auto. left. split; auto. intros (a & Ha & Hn). exact (K a Ha Hn).
  Qed.

  (** *** The discriminant. *)
  Variable testable : string -> bool.
  Notation disc_of := (discriminant_of parse noticed dm p members testable).
  Notation disc := (discriminates parse noticed dm p members testable).
  Lemma shared_from_iff : forall l arms q, shared_from l arms = Some q <-> q = l /\ forall a, In a arms -> enum_bool_path (ai_test a) = Some l.
  Proof.
    intros l arms q. induction arms as [|a r IH]; cbn [shared_from].
    - split; [intros H; injection H as <-; split; [reflexivity|intros a []]|intros [-> _]; reflexivity].
    - destruct (enum_bool_path (ai_test a)) as [l'|] eqn:E.
      + unfold path_eqb. destruct (list_eq_dec string_dec l l') as [<-|N].
        * rewrite IH. split; intros [-> H]; (split; [reflexivity|]); [|intros x Hx; apply H; now right]. intros x [<-|Hx]; auto.
        * split; [discriminate|]. intros [_ H]. exfalso. apply N. specialize (H a (or_introl eq_refl)). congruence.
      + split; [discriminate|]. intros [_ H]. specialize (H a (or_introl eq_refl)). congruence.
  Qed.
  Lemma shared_path_iff : forall arms q, shared_path arms = Some q <-> arms <> [] /\ forall a, In a arms -> enum_bool_path (ai_test a) = Some q.
  Proof.
    intros [|a r] q; cbn [shared_path].
    - split; [discriminate|intros [H _]; congruence].
    - destruct (enum_bool_path (ai_test a)) as [l|] eqn:E.
      + rewrite shared_from_iff. split.
        * intros [-> H]. split; [discriminate|]. intros x [<-|Hx]; auto.
        * intros [_ H]. pose proof (H a (or_introl eq_refl)) as Ha. assert (l = q) by congruence. subst. split; auto. intros x Hx. apply H. now right.
      + split; [discriminate|]. intros [_ H]. specialize (H a (or_introl eq_refl)). congruence.
  Qed.
  Lemma discriminant_iff : forall arms d, disc_of (infos arms) = Some d <-> disc d arms.
  Proof.
    intros arms d. unfold discriminant_of, discriminates. rewrite infos_map. destruct (shared_path (map info (conditional_arms arms))) as [l|] eqn:E.
    - apply shared_path_iff in E as [N H]. assert (H' : forall a, In a (conditional_arms arms) -> enum_bool_path (arm_test_of parse (ma_cond a)) = Some l).
      { intros a Ha. apply (H (info a)). now apply in_map. }
      assert (N' : conditional_arms arms <> []) by (intros Q; rewrite Q in N; now apply N).
      pose proof (own_writer_iff dm rules members (join_dots l)) as W. split.
      + destruct (own_writer dm rules members (join_dots l)) eqn:Ew; cbn [negb andb]; [discriminate|]. destruct (testable (join_dots l)) eqn:T; [|discriminate].
        intros Q. injection Q as <-. split; auto. split; [eauto|]. split; auto. intros C. apply W in C. congruence.
      + intros (_ & (l' & <- & Hl) & C & T). assert (l' = l). { destruct (conditional_arms arms) as [|a r]; [congruence|]. specialize (H' a (or_introl eq_refl)). specialize (Hl a (or_introl eq_refl)). congruence. }
        subst l'. rewrite T. destruct (own_writer dm rules members (join_dots l)) eqn:Ew; [exfalso; apply C; now apply W|reflexivity].
    - split; [discriminate|]. intros (N & (l & _ & H) & _). exfalso. assert (Q : shared_path (map info (conditional_arms arms)) = Some l); [|congruence].
      apply shared_path_iff. split; [destruct (conditional_arms arms); [congruence|discriminate]|]. intros i Hi. apply in_map_iff in Hi as (a & <- & Ha). exact (H a Ha).
  Qed.
  Lemma match_blocks_in : forall l, In l (match_blocks parse noticed p members) <-> exists b arms, is_match p members b arms /\ l = infos arms.
  Proof.
    intros l. unfold match_blocks. rewrite in_flat_map. split.
    - intros ([b k] & Hp & H). cbn [fst snd] in H. destruct k as [x y|x y|k arms]; try (destruct H; fail).
      destruct (smem (fst b) members && negb (String.eqb k "")) eqn:E; [|destruct H]. destruct H as [<-|[]]. apply andb_true_iff in E as [E1 E2].
      exists b, arms. split; auto. exists k. split; auto. split; [now apply smem_iff|]. apply negb_true_iff in E2. now apply String.eqb_neq.
    - intros (b & arms & (k & Hp & Hm & Hk) & ->). exists (b, BMatch k arms). split; auto. cbn [fst snd]. rewrite (proj2 (smem_iff _ _) Hm), (proj2 (String.eqb_neq _ _) Hk). now left.
  Qed.
  Lemma some_arm_iff : forall i, In i (concat (match_blocks parse noticed p members)) <-> exists a, some_arm p members a /\ i = info a.
  Proof.
    intros i. rewrite in_concat. split.
    - intros (l & Hl & Hi). apply match_blocks_in in Hl as (b & arms & Hm & ->). rewrite infos_map in Hi. apply in_map_iff in Hi as (a & <- & Ha). exists a. split; auto. exists b, arms. auto.
    - intros (a & (b & arms & Hm & Ha) & ->). exists (infos arms). split; [apply match_blocks_in; eauto|]. rewrite infos_map. now apply in_map.
  Qed.
  Notation only_discriminant := (only_discriminant parse noticed dm p members testable).
  Definition found (e : bref * block) : list (string * list arm_info) :=
    match snd e with
    | BMatch k arms => if smem (fst (fst e)) members && negb (String.eqb k "") then match disc_of (infos arms) with Some d => [(d, infos arms)] | None => [] end else []
    | _ => []
    end.
  Lemma found_flat : flat_map (fun arms => match disc_of arms with Some d => [(d, arms)] | None => [] end) (match_blocks parse noticed p members) = flat_map found p.
  Proof.
    unfold match_blocks.
    assert (K : forall l, flat_map (fun arms => match disc_of arms with Some d => [(d, arms)] | None => [] end)
       (flat_map (fun e => match snd e with BMatch k arms => if smem (fst (fst e)) members && negb (String.eqb k "") then [infos arms] else [] | _ => [] end) l) = flat_map found l); [|apply K].
    induction l as [|[b k] r IH]; [reflexivity|]. cbn [flat_map]. rewrite flat_map_app, IH. f_equal.
    unfold found. cbn [fst snd]. destruct k as [x y|x y|k arms]; try reflexivity. destruct (smem (fst b) members && negb (String.eqb k "")); [|reflexivity]. cbn [flat_map]. now rewrite app_nil_r.
  Qed.
  Lemma found_iff : forall e d l, In (d, l) (found e) <-> exists k arms, snd e = BMatch k arms /\ In (fst (fst e)) members /\ k <> "" /\ disc d arms /\ l = infos arms.
  Proof.
    intros [b k] d l. unfold found. cbn [fst snd]. split.
    - destruct k as [x y|x y|k arms]; intros H; try (destruct H; fail). destruct (smem (fst b) members && negb (String.eqb k "")) eqn:E; [|destruct H].
      destruct (disc_of (infos arms)) as [d'|] eqn:D; [|destruct H]. destruct H as [H|[]]. injection H as <- <-. apply andb_true_iff in E as [E1 E2]. exists k, arms.
      split; auto. split; [now apply smem_iff|]. split; [apply negb_true_iff in E2; now apply String.eqb_neq|]. split; auto. now apply discriminant_iff.
    - intros (k' & arms & -> & Hm & Hk & Hd & ->). rewrite (proj2 (smem_iff _ _) Hm), (proj2 (String.eqb_neq _ _) Hk). cbn [negb andb]. apply discriminant_iff in Hd. rewrite Hd. now left.
  Qed.
  Lemma flat_single : forall {A B} (f : A -> list B) l x, flat_map f l = [x] -> exists l1 e l2, l = l1 ++ e :: l2 /\ f e = [x] /\ forall e', In e' (l1 ++ l2) -> f e' = [].
  Proof.
    intros A B f l x. induction l as [|e r IH]; [discriminate|]. cbn [flat_map]. intros H. destruct (f e) as [|y t] eqn:E.
    - cbn in H. destruct (IH H) as (l1 & e' & l2 & -> & F & N). exists (e :: l1), e', l2. split; auto. split; auto. intros z [<-|Hz]; auto.
    - cbn in H. injection H as -> H. apply app_eq_nil in H as [-> H]. exists [], e, r. split; auto. split; auto. intros z Hz. cbn in Hz.
      assert (incl (f z) (flat_map f r)) by (intros q Hq; apply in_flat_map; eauto). rewrite H in H0. destruct (f z) as [|q s]; auto. destruct (H0 q (or_introl eq_refl)).
  Qed.
  Lemma clean_iff : forall d l, clean_discriminant parse noticed dm p members testable = Some (d, l) <-> exists b arms, only_discriminant b d arms /\ l = infos arms.
  Proof.
    intros d l. unfold clean_discriminant. rewrite found_flat. split.
    - intros H. assert (E : flat_map found p = [(d, l)]). { destruct (flat_map found p) as [|x [|y r]]; [discriminate H| |discriminate H]. injection H as ->. reflexivity. }
      apply flat_single in E as (l1 & [b k0] & l2 & Ep & F & N). assert (K : In (d, l) (found (b, k0))) by (rewrite F; now left).
      apply found_iff in K as (k & arms & Ek & Hm & Hk & Hd & ->). cbn [fst snd] in Ek, Hm. subst k0. exists b, arms. split; auto. exists k, l1, l2. split; auto. split; auto. split; auto. split; auto.
      intros b' k' arms' d' Hi Hm' Hk' Hd'. specialize (N _ Hi). assert (Q : In (d', infos arms') (found (b', BMatch k' arms'))) by (apply found_iff; exists k', arms'; auto). rewrite N in Q. destruct Q.
    - intros (b & arms & (k & l1 & l2 & Ep & Hm & Hk & Hd & N) & ->).
      assert (Z : forall q, incl q (l1 ++ l2) -> flat_map found q = []).
      { induction q as [|[b' k0] r IH]; intros Hq; [reflexivity|]. cbn [flat_map]. rewrite IH by (intros z Hz; apply Hq; now right). rewrite app_nil_r.
        destruct (found (b', k0)) as [|[d' l'] t] eqn:E; auto. exfalso. assert (K : In (d', l') (found (b', k0))) by (rewrite E; now left). apply found_iff in K as (k' & arms' & Ek & Hm' & Hk' & Hd' & _).
        cbn [fst snd] in Ek, Hm'. subst k0. apply (N b' k' arms' d'); auto. apply Hq. now left. }
      rewrite Ep at 1. rewrite flat_map_app. cbn [flat_map]. rewrite (Z l1), (Z l2) by (intros z Hz; apply in_app_iff; auto). rewrite app_nil_r. cbn [app].
      unfold found. cbn [fst snd]. rewrite (proj2 (smem_iff _ _) Hm), (proj2 (String.eqb_neq _ _) Hk). cbn [negb andb]. apply discriminant_iff in Hd. rewrite Hd. reflexivity.
  Qed.

  (** *** The schemas. *)
  Variable declared_inputs : list string.
  Notation sch := (conditional_schema parse noticed dm sources p members declared_inputs testable).
  Notation ins := (schema_inputs parse noticed dm sources p members declared_inputs).
  Notation outs := (outputs dm sources rules members).
  Lemma union_lists : forall goals common d vs, sch goals = SUnion common d vs <->
    exists b arms, only_discriminant b d arms /\ build_union parse noticed dm sources p members declared_inputs goals d (infos arms) = SUnion common d vs.
  Proof.
    intros goals common d vs. unfold conditional_schema. destruct (clean_discriminant parse noticed dm p members testable) as [[d' l]|] eqn:C.
    - pose proof C as C'. apply clean_iff in C' as (b & arms & Hb & ->). split.
      + intros H. assert (d' = d) by (unfold build_union in H; congruence). subst d'. exists b, arms. auto.
      + intros (b' & arms' & Hb' & E). assert (C2 : clean_discriminant parse noticed dm p members testable = Some (d, infos arms')) by (apply clean_iff; eauto).
        rewrite C in C2. injection C2 as -> ->. exact E.
    - split; [discriminate|]. intros (b & arms & Hb & _). assert (C2 : clean_discriminant parse noticed dm p members testable = Some (d, infos arms)) by (apply clean_iff; eauto). congruence.
  Qed.
  Lemma flat_lists : forall goals common cond, sch goals = SFlat common cond <->
    (forall b d arms, ~ only_discriminant b d arms) /\ build_flat parse noticed dm sources p members declared_inputs goals = SFlat common cond.
  Proof.
    intros goals common cond. unfold conditional_schema. destruct (clean_discriminant parse noticed dm p members testable) as [[d l]|] eqn:C.
    - apply clean_iff in C as (b & arms & Hb & ->). split; [discriminate|]. intros [N _]. destruct (N _ _ _ Hb).
    - split; [intros H; split; auto|intros [_ H]; exact H]. intros b d arms Hb. assert (C2 : clean_discriminant parse noticed dm p members testable = Some (d, infos arms)) by (apply clean_iff; eauto). congruence.
  Qed.
  Lemma variants_lists : forall goals d arms common vs, build_union parse noticed dm sources p members declared_inputs goals d (infos arms) = SUnion common d vs ->
    group_lists (ins goals) (outs goals) common (needed_by_all parse noticed dm sources p members goals d (conditional_arms arms)) unguarded /\
    Forall2 (fun a v => vr_arm v = ma_id a /\ vr_value v = discriminant_value (arm_test_of parse (ma_cond a)) /\
      group_lists (ins goals) (outs goals) (vr_group v) (fun q => needs a q /\ ~ needed_by_all parse noticed dm sources p members goals d (conditional_arms arms) q) unguarded)
      (conditional_arms arms) vs.
  Proof.
    intros goals d arms common vs H. unfold build_union in H. rewrite infos_map in H. injection H as <- <-. split.
    - apply group_for_lists; [apply union_common_iff|reflexivity].
    - rewrite map_map. set (arms' := conditional_arms arms). assert (K : forall l, incl l arms' ->
        Forall2 (fun a v => vr_arm v = ma_id a /\ vr_value v = discriminant_value (arm_test_of parse (ma_cond a)) /\
          group_lists (ins goals) (outs goals) (vr_group v) (fun q => needs a q /\ ~ needed_by_all parse noticed dm sources p members goals d arms' q) unguarded) l
        (map (fun x => Variant (discriminant_value (ai_test (info x))) (ai_id (info x))
          (group_for (minus (reachable (ai_reads (info x))) (union_common parse noticed dm sources p members goals d (map info arms'))) (ins goals) (outs goals) (fun _ => None))) l)).
      { induction l as [|a r IH]; intros Hl; cbn [map]; constructor; [|apply IH; intros z Hz; apply Hl; now right]. split; [reflexivity|]. split; [reflexivity|]. cbn [vr_group].
        apply group_for_lists; [|reflexivity]. intros q. rewrite minus_iff, union_common_iff. cbn [ai_reads info]. rewrite cone_iff. reflexivity. }
      apply K. apply incl_refl.
  Qed.
  Lemma some_cone_iff : forall q, In q (flat_map (fun a => reachable (ai_reads a)) (concat (match_blocks parse noticed p members))) <-> exists a, some_arm p members a /\ needs a q.
  Proof.
    intros q. rewrite in_flat_map. split.
    - intros (i & Hi & Hq). apply some_arm_iff in Hi as (a & Ha & ->). exists a. split; auto. now apply cone_iff.
    - intros (a & Ha & Hq). exists (info a). split; [apply some_arm_iff; eauto|now apply cone_iff].
  Qed.
  Lemma flat_common_iff : forall goals q, In q (flat_common parse noticed dm sources p members goals (concat (match_blocks parse noticed p members))) <->
    needed_anyway parse noticed dm sources p members goals q.
  Proof.
    intros goals q. unfold flat_common, needed_anyway. rewrite in_app_iff, minus_iff, some_cone_iff, roots_iff, in_flat_map. split.
    - intros [[H K]|(i & Hi & Hq)].
      + left. split; auto. intros a Ha Hn. apply K. eauto.
      + right. apply some_arm_iff in Hi as (a & Ha & ->). exists a. split; auto. now apply direct_iff.
    - intros [[H K]|(a & Ha & Hq)].
      + left. split; auto. intros (a & Ha & Hn). exact (K a Ha Hn).
      + right. exists (info a). split; [apply some_arm_iff; eauto|now apply direct_iff].
  Qed.
  Lemma guard_for_iff : forall x, guard_text parse noticed dm sources p members x (guard_for parse noticed dm sources p (concat (match_blocks parse noticed p members)) x).
  Proof.
    intros x. unfold guard_for, guard_text, guards. set (l := dedup _). exists l. split.
    - split; [apply dedup_sorted|]. intros c. unfold l. rewrite dedup_in, in_map_iff. split.
      + intros (i & <- & Hi). apply filter_In in Hi as [Hi E]. apply some_arm_iff in Hi as (a & Ha & ->). apply existsb_exists in E as (q & Hq & E). apply cone_iff in Hq. apply related_iff in E. exists a, q. auto.
      + intros (a & q & Ha & Hn & T & ->). exists (info a). split; [reflexivity|]. apply filter_In. split; [apply some_arm_iff; eauto|]. apply existsb_exists. exists q. split; [now apply cone_iff|now apply related_iff].
    - destruct l as [|y r]; [reflexivity|]. split; [discriminate|apply join_or_concat].
  Qed.
  Lemma conditional_lists : forall goals common cond, build_flat parse noticed dm sources p members declared_inputs goals = SFlat common cond ->
    group_lists (ins goals) (outs goals) common (needed_anyway parse noticed dm sources p members goals) unguarded /\
    group_lists (ins goals) (outs goals) cond (fun q => (exists a, some_arm p members a /\ needs a q) /\ ~ needed_anyway parse noticed dm sources p members goals q)
      (guard_text parse noticed dm sources p members).
  Proof.
    intros goals common cond H. unfold build_flat in H. injection H as <- <-. split.
    - apply group_for_lists; [apply flat_common_iff|reflexivity].
    - apply group_for_lists; [|apply guard_for_iff]. intros q. rewrite minus_iff, flat_common_iff, some_cone_iff. reflexivity.
  Qed.
End Facts.
