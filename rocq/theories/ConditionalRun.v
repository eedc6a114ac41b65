(** What an evaluation reads, and what of it the conditional schema lists. *)
From Coq Require Import String Ascii Bool List Arith Lia Relations.
From Verif Require Import Base Dec Value Heap Ast Ops Compiler Eval Funcs HeapSpec HeapFacts Isolate Session PureFacts RunSpec ContentFacts
  Deps DepsSpec DepsClaims Driver DriverSpec DriverFacts DriverRun Blocks BlocksSpec AssertFacts BlocksFacts PolicyRun PolicySpec SolveFacts SolveRun SolveTwo Discriminant PGraph NeedSpec NeedFacts
  NeedRun NeedClaims Conditional ConditionalSpec ConditionalFacts.
Import ListNotations.
Local Open Scope string_scope.
Local Open Scope nat_scope.
Local Open Scope list_scope.

Lemma sources_text : forall k pk e, In e (asked_sources k ++ chosen_sources k pk) -> evaluates_text k pk e.
Proof.
  intros k pk e H. apply in_app_iff in H as [H|H]; destruct k as [x y|x l|x arms]; cbn in H.
  - destruct H as [<-|[]]. constructor.
  - apply in_map_iff in H as (c & <- & Hc). now constructor.
  - apply filter_In in H as [H E]. apply in_map_iff in H as (a & <- & Ha). apply negb_true_iff, String.eqb_neq in E. now constructor.
  - destruct H.
  - destruct H.
  - destruct pk as [[id|]|]; try (destruct H; fail). destruct (find _ arms) as [a|] eqn:F; [|destruct H]. destruct (String.eqb_spec (ma_value a) "") as [|N]; [destruct H|].
    destruct H as [<-|[]]. apply find_some in F as [F E]. apply String.eqb_eq in E. subst id. now constructor.
Qed.

Section Run.
  Variable L : lib.
  Hypothesis HL : plain_lib L.
  Variable parse : ekind -> string -> res node.
  Variable noticed : string -> list pread.
  Variable dm : list string.
  Variable sources : entity_sources.
  Variable p : policy.
  Hypothesis HP : sound_policy parse dm p.
  Hypothesis HE : declared_entities dm sources.
  Hypothesis HU : undotted parse p.
  Notation rewrite_ := (entity_rewrite sources).
  Notation recovered := (recovered_paths noticed sources).
  Notation rules := (rules_of parse noticed p).
  Notation blocks := (p_blocks p).
  Notation kn := (p_known p).
  Notation al := (p_always parse rewrite_ recovered p).
  Notation rd := (p_reads parse rewrite_ recovered p).
  Notation lg := (log pworld pick).
  Notation wd := (Driver.world pworld pick).
  Notation eval := (evaluate_policy (std_ext L) parse rewrite_ recovered dm p).
  Hypothesis acyclic : forall b, ~ clos_trans _ (wants dm blocks kn al rd) b b.
  Variable goals : list string.
  Hypothesis HG : forall g, In g goals -> exists b k, In (b, k) p /\ g = block_key k.
  Variables (ha hb : heap) (la lb : loc) (Ta Tb : tree) (xa xb : bool) (fa fb : nat) (sa sb : dstate pworld pick) (ua : unit) (rb : unit + err).
  Hypothesis Wa : wf_heap ha.
  Hypothesis Wb : wf_heap hb.
  Hypothesis Ra : repr ha (VObj la) Ta.
  Hypothesis Rb : repr hb (VObj lb) Tb.
  Hypothesis Na : forall t, ~ shows ha (VObj la) "$" t.
  Hypothesis Nb : forall t, ~ shows hb (VObj lb) "$" t.
  Hypothesis Ea : eval xa fa goals (VObj la) ha = Some (sa, inl ua).
  Hypothesis Eb : eval xb fb goals (VObj lb) hb = Some (sb, rb).
  (** An evaluation depends only on the inputs it reads. *)
  Lemma read_settle : (forall q, reads_input parse p (lg sa) q -> at_path Ta q = at_path Tb q) ->
    (exists u, rb = inl u) /\ forall g t, In g goals -> (shows (pw_heap (wd sa)) (VObj la) g t <-> shows (pw_heap (wd sb)) (VObj lb) g t).
  Proof.
    intros Same. inversion Ra as [| | | | |l1 m1 ts1 G1 F1|]; subst l1. inversion Rb as [| | | | |l2 m2 ts2 G2 F2|]; subst l2. subst Ta Tb.
    assert (N1 : aget "$" ts1 = None). { destruct (aget "$" ts1) as [t|] eqn:E; auto. apply (shows_tree ha la ts1 "$" t Ra) in E. now apply Na in E. }
    assert (N2 : aget "$" ts2 = None). { destruct (aget "$" ts2) as [t|] eqn:E; auto. apply (shows_tree hb lb ts2 "$" t Rb) in E. now apply Nb in E. }
    assert (Ag : forall b k pk e, In (b, Some pk) (lg sa) -> In (b, k) p -> In e (asked_sources k ++ chosen_sources k pk) -> agreed parse p ts1 ts2 e).
    { intros b k pk e Hl Hk He x l (n & y & P & Hy & A & Py) Hn. apply Same. exists b, k, pk, e, n, y. split; auto. split; auto. split; [now apply sources_text|].
      split; auto. split; auto. split; auto. split; auto. intros b' k' Hk' E. cbn in E. injection E as E. exact (Hn b' k' Hk' (eq_sym E)). }
    destruct (need_success L HL parse rewrite_ recovered dm p HP acyclic (fun b pk => In (b, Some pk) (lg sa)) ts1 ts2 Ag N1 N2 ha hb la lb xa xb fa fb goals goals sa sb (inl ua) rb
      Wa Wb Ra Rb Ea Eb (fun b pk H => H) (incl_refl _) ua eq_refl) as ((u & ->) & _).
    split; [eauto|]. intros g t Hg. destruct (HG g Hg) as (b & k & Hk & ->).
    apply (need_agree L HL parse rewrite_ recovered dm p HP acyclic (fun b pk => In (b, Some pk) (lg sa)) ts1 ts2 Ag N1 N2 ha hb la lb xa xb fa fb goals goals sa sb (inl ua) (inl u)
      Wa Wb Ra Rb Ea Eb (fun b pk H => H) b k t); auto.
    - apply (one_goals L parse rewrite_ recovered dm p ha la xa fa goals sa (inl ua) Ea ua eq_refl (block_key k)); auto; [|eapply known_in; eauto].
      apply longest_feeds. exact (head_feeds parse dm p HP b k [] Hk).
    - apply (one_goals L parse rewrite_ recovered dm p hb lb xb fb goals sb (inl u) Eb u eq_refl (block_key k)); auto; [|eapply known_in; eauto].
      apply longest_feeds. exact (head_feeds parse dm p HP b k [] Hk).
  Qed.

  (** *** Reads of arms that keep what they need to themselves. *)
  Notation needs := (arm_needs parse noticed dm sources p).
  Variable G : bref -> marm -> Prop.
  Hypothesis G_dec : forall b a, G b a \/ ~ G b a.
  Variable C : string -> Prop.
  Hypothesis KA : kept_to_arms parse noticed dm sources p G C goals.
  Definition taken (y : string) : Prop := exists c a, G c a /\ arm_selected (lg sa) c (ma_id a) /\ needs a y.
  Lemma needs_more : forall a x y, needs a x -> depends_on dm sources rules x y -> needs a y.
  Proof. intros a x y (r & A & M & D) H. exists r. split; auto. split; auto. eapply rt_trans; eauto. Qed.
  Lemma fed_read : forall e q b, In q (read_paths parse rewrite_ recovered e) -> feeds dm blocks q b -> forall k, In (b, k) p ->
    e <> "" /\ exists r, In r (shallow_paths parse noticed e) /\ above (block_key k) r.
  Proof.
    intros e q b Hq Hf k Hk. destruct (shallow_read parse noticed sources e q Hq) as (Ne & r & Hr & E). split; auto. exists r. split; auto.
    apply longest_feeds in Hf. destruct (fed_by parse dm p HP q b Hf) as (k' & Hk' & A).
    assert (k' = k). { pose proof (find_ref p b k (sp_refs _ _ _ HP) Hk). pose proof (find_ref p b k' (sp_refs _ _ _ HP) Hk'). congruence. } subst k'.
    destruct E as [->|E]; auto. exfalso. destruct (entity_rewrite_form _ _ _ E) as (en & src & rest & He & ->). destruct (HE en src He) as [Ed Dd].
    assert (Ek : block_key k = en). { eapply nodot_two; [exact (key_flat parse dm p HP _ _ Hk)|now apply flat_nodot|exact A|]. right. exists rest. reflexivity. }
    rewrite <- Ek in Dd. exact (sp_undeclared _ _ _ HP b k Hk Dd).
  Qed.
  Lemma key_computed : forall b k, In (b, k) p -> computed dm rules (block_key k).
  Proof. intros b k Hk. apply (computed_key parse noticed dm p HP). eauto. Qed.
  (** What a block depends on when its text, outside the arms, goes into a computed property. *)
  Lemma read_depends : forall b k e r bk kk, In (b, k) p -> In e (block_sources k) -> e <> "" -> In r (shallow_paths parse noticed e) -> In (bk, kk) p -> above (block_key kk) r ->
    depends_on dm sources rules (block_key k) (block_key kk).
  Proof.
    intros b k e r bk kk Hk He Ne Hr Hkk A. destruct (String.string_dec (block_key kk) (block_key k)) as [E|N]; [rewrite E; apply rt_refl|].
    assert (Na' : ~ above (block_key kk) (block_key k)) by (intros Q; apply N; exact (nodot_above _ _ (key_flat parse dm p HP _ _ Hk) Q)).
    pose proof (rule_of parse noticed dm p HP b k Hk) as Hs. pose proof (sp_undeclared _ _ _ HP b k Hk) as U. pose proof (shallow_source parse noticed k e r He Ne Hr) as Hr'.
    apply rt_step. destruct (String.string_dec (block_key kk) r) as [<-|Nr].
    - eapply DRead; eauto. now left.
    - eapply DHolder; eauto; [now left|]. eapply key_computed; eauto.
  Qed.
  Lemma taken_key : forall b, needed parse rewrite_ recovered dm p goals (lg sa) b -> forall k, In (b, k) p -> (exists c a, G c a /\ needs a (block_key k)) -> taken (block_key k).
  Proof.
    intros b H. induction H as [g b k0 Hg Hk0 Hf|c o q b k0 Hc IH Hl Hq Hk0 Hf]; intros k Hk (cg & ag & Gg & Ng).
    - exfalso. destruct (HG g Hg) as (b' & k' & Hk' & ->). apply longest_feeds in Hf. destruct (fed_by parse dm p HP _ b Hf) as (k1 & Hk1 & A).
      assert (k1 = k). { pose proof (find_ref p b k (sp_refs _ _ _ HP) Hk). pose proof (find_ref p b k1 (sp_refs _ _ _ HP) Hk1). congruence. } subst k1.
      apply (ka_goals _ _ _ _ _ _ _ _ KA cg ag (block_key k') Gg Hg). rewrite <- (nodot_above _ _ (key_flat parse dm p HP _ _ Hk') A). exact Ng.
    - assert (Kc : exists kc, In (c, kc) p).
      { inversion Hc; eauto. }
      destruct Kc as (kc & Hkc).
      assert (Out : forall e, outside G c kc e -> In e (block_sources kc) -> In q (read_paths parse rewrite_ recovered e) -> taken (block_key k)).
      { intros e Ho He Hr. destruct (fed_read e q b Hr Hf k Hk) as (Ne & r & Hr' & A).
        assert (Nc : needs ag (block_key kc)).
        { apply (ka_readers _ _ _ _ _ _ _ _ KA c kc e (block_key k) cg ag Hkc Ho); auto; [|left; eapply key_computed; eauto].
          split; auto. exists r. split; auto. right. split; auto. eapply key_computed; eauto. }
        destruct (IH kc Hkc) as (c2 & a2 & G2 & S2 & N2); [eauto|]. exists c2, a2. split; auto. split; auto. eapply needs_more; [exact N2|]. eapply read_depends; eauto. }
      destruct Hq as [Hq|(pk & -> & Hq)].
      + unfold p_always in Hq. rewrite (find_ref p c kc) in Hq by (auto; apply HP). unfold plan_always in Hq. apply -> dedup_in in Hq.
        destruct kc as [x y|x l|x arms].
        * apply (Out y); [constructor|now left|exact Hq].
        * apply in_flat_map in Hq as (cc & Hcc & Hq). apply (Out (ac_expr cc)); [now constructor|cbn; now apply in_map|exact Hq].
        * apply in_flat_map in Hq as (a & Ha & Hq). apply (Out (ma_cond a)); [now constructor|cbn; apply in_app_iff; left; now apply in_map|exact Hq].
      + unfold p_reads in Hq. rewrite (find_ref p c kc) in Hq by (auto; apply HP). destruct kc as [x y|x l|x arms]; cbn [plan_reads] in Hq; try (destruct Hq; fail).
        destruct pk as [[id|]|]; try (destruct Hq; fail). destruct (find _ arms) as [a|] eqn:F; [|destruct Hq]. apply -> dedup_in in Hq. apply find_some in F as [F E]. apply String.eqb_eq in E. subst id.
        destruct (G_dec c a) as [Ga|Ga].
        * destruct (fed_read _ q b Hq Hf k Hk) as (Ne & r & Hr' & A). exists c, a. split; auto. split; [exact Hl|].
          apply (ka_whole _ _ _ _ _ _ _ _ KA c a (block_key k) r); auto. eapply key_computed; eauto.
        * apply (Out (ma_value a)); [now constructor|cbn; apply in_app_iff; right; now apply in_map|exact Hq].
  Qed.
  Lemma log_needed : forall b, In b (nm (lg sa)) -> needed parse rewrite_ recovered dm p goals (lg sa) b.
  Proof. intros b Hb. exact (lazy_only L HL parse rewrite_ recovered dm p HP acyclic ha la Ta xa fa goals sa ua Wa Ra Na Ea b Hb). Qed.
  Lemma taken_input : forall b k pk e x l, In (b, Some pk) (lg sa) -> In (b, k) p -> evaluates_text k pk e -> e <> "" -> path_of parse e (x :: l) ->
    ~ C (join_dots (x :: l)) -> (exists c a, G c a /\ needs a (join_dots (x :: l))) ->
    (forall b' k', In (b', k') p -> block_key k' <> x) -> taken (join_dots (x :: l)).
  Proof.
    intros b k pk e x l Hl Hk Ht Ne (n & y & P & Hy & Al & Py) NC (cg & ag & Gg & Ng) Hn.
    assert (Hs : In (join_dots (x :: l)) (shallow_paths parse noticed e)). { unfold shallow_paths, source_reads. rewrite P. apply in_map_iff. exists y. rewrite Py. auto. }
    assert (Dq : In e (block_sources k) -> depends_on dm sources rules (block_key k) (join_dots (x :: l))).
    { intros He. apply rt_step. apply (DRead dm sources rules (block_key k) (Shallow b (shallow_reads parse noticed k) [block_key k])); [now apply (rule_of parse noticed dm p HP)|now left| | |].
      - exact (sp_undeclared _ _ _ HP b k Hk).
      - exact (shallow_source parse noticed k e _ He Ne Hs).
      - intros A. pose proof (nodot_above _ _ (key_flat parse dm p HP _ _ Hk) A) as E. apply (Hn b k Hk). symmetry. apply (nodot_above _ _ (key_flat parse dm p HP _ _ Hk)). rewrite <- E. apply join_above. }
    assert (Out : outside G b k e -> In e (block_sources k) -> taken (join_dots (x :: l))).
    { intros Ho He. assert (Nk : needs ag (block_key k)).
      { apply (ka_readers _ _ _ _ _ _ _ _ KA b k e (join_dots (x :: l)) cg ag Hk Ho); auto. split; auto. exists (join_dots (x :: l)). auto. }
      destruct (taken_key b) with (k := k) as (c2 & a2 & G2 & S2 & N2); auto; [|eauto|].
      - apply log_needed. change b with (fst (b, Some pk)). now apply in_map.
      - exists c2, a2. split; auto. split; auto. eapply needs_more; eauto. }
    inversion Ht as [k1 e1 pk1|k1 l1 c pk1 Hc|k1 arms a pk1 Ha Nc|k1 arms a Ha Nv]; subst.
    - apply Out; [constructor|now left].
    - apply Out; [now constructor|cbn; now apply in_map].
    - apply Out; [now constructor|cbn; apply in_app_iff; left; now apply in_map].
    - destruct (G_dec b a) as [Ga|Ga].
      + exists b, a. split; auto. split; [exact Hl|]. exists (join_dots (x :: l)). split; [|split; [|apply rt_refl]].
        * split; auto. exists y. unfold source_reads. rewrite P. split; auto. split; auto. split; [eapply reported_direct; eauto|]. now rewrite Py.
        * exists (Shallow b (shallow_reads parse noticed (BMatch k1 arms)) [k1]). split; [exact (rule_of parse noticed dm p HP b _ Hk)|]. left. cbn [sh_reads].
          apply (shallow_source parse noticed _ (ma_value a)); auto. cbn. apply in_app_iff. right. now apply in_map.
      + apply Out; [now constructor|cbn; apply in_app_iff; right; now apply in_map].
  Qed.
End Run.
