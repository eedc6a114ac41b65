(** The goals of a policy depend only on what they are reported to need. *)
From Coq Require Import String Ascii Bool List Arith Lia Relations.
From Verif Require Import Base Dec Value Heap Ast Ops Compiler Eval Funcs HeapSpec HeapFacts Isolate Session PureFacts RunSpec ContentFacts
  Deps DepsSpec DepsClaims Driver DriverSpec DriverFacts DriverRun Blocks BlocksSpec AssertFacts BlocksFacts PolicyRun PolicySpec SolveFacts SolveRun SolveTwo PGraph NeedSpec NeedFacts NeedRun.
Import ListNotations.
Local Open Scope string_scope.
Local Open Scope nat_scope.
Local Open Scope list_scope.

Section Claims.
  Variable L : lib.
  Hypothesis HL : plain_lib L.
  Variable parse : ekind -> string -> res node.
  Variable noticed : string -> list pread.
  Variable dm : list string.
  Variable sources : entity_sources.
  Variable p : policy.
  Hypothesis HP : sound_policy parse dm p.
  Hypothesis HE : declared_entities dm sources.
  Hypothesis HU : undotted parse p.
  Notation rewrite_ := (entity_rewrite sources).
  Notation recovered := (recovered_paths noticed sources).
  Notation rules := (rules_of parse noticed p).
  Notation blocks := (p_blocks p).
  Notation writers := (graph_writers dm blocks).
  Notation kn := (p_known p).
  Notation al := (p_always parse rewrite_ recovered p).
  Notation rd := (p_reads parse rewrite_ recovered p).
  Notation depends := (depends dm sources rules).
  Notation depends_on := (depends_on dm sources rules).
  Notation mentioned := (mentioned dm rules).

  Lemma shallow_read : forall e q, In q (read_paths parse rewrite_ recovered e) ->
    e <> "" /\ exists r, In r (shallow_paths parse noticed e) /\ (q = r \/ rewrite_ r = Some q).
  Proof.
    intros e q H. unfold read_paths in H. destruct (String.eqb_spec e "") as [|Ne]; [destruct H|]. split; auto.
    assert (K : In q (flat_map (read_entry rewrite_) (source_reads parse noticed e))).
    { unfold source_reads. destruct (parse KStandard e); exact H. }
    apply in_flat_map in K as (x & Hx & K). exists (join_dots (pr_path x)). split; [unfold shallow_paths; apply in_map_iff; eauto|].
    unfold read_entry in K. destruct (pr_unresolved x); [destruct K|]. destruct (pr_alias x).
    - destruct (rewrite_ (join_dots (pr_path x))) as [y|]; destruct K as [<-|[]]; auto.
    - destruct K as [<-|[]]; auto.
  Qed.
  Lemma shallow_source : forall k e r, In e (block_sources k) -> e <> "" -> In r (shallow_paths parse noticed e) -> In r (shallow_reads parse noticed k).
  Proof.
    intros k e r He Ne Hr. assert (Hs : In r (some_paths parse noticed e)) by (unfold some_paths; now rewrite (proj2 (String.eqb_neq _ _) Ne)).
    destruct k as [x y|x l|x arms]; cbn [block_sources shallow_reads] in *.
    - destruct He as [<-|[]]. exact Hs.
    - apply in_map_iff in He as (c & <- & Hc). apply in_flat_map. eauto.
    - apply in_flat_map. apply in_app_iff in He as [He|He]; apply in_map_iff in He as (a & <- & Ha); exists a; (split; [exact Ha|]); apply in_app_iff; auto.
  Qed.
  Lemma always_read : forall b k q, In (b, k) p -> In q (al b) -> exists r, In r (shallow_reads parse noticed k) /\ (q = r \/ rewrite_ r = Some q).
  Proof.
    intros b k q Hk Hq. unfold p_always in Hq. rewrite (find_ref p b k) in Hq by (auto; apply HP). unfold plan_always in Hq. apply -> dedup_in in Hq.
    assert (K : exists e, In e (block_sources k) /\ In q (read_paths parse rewrite_ recovered e)).
    { destruct k as [x y|x l|x arms]; cbn [block_sources].
      - exists y. split; [now left|exact Hq].
      - apply in_flat_map in Hq as (c & Hc & Hq). exists (ac_expr c). split; auto. now apply in_map.
      - apply in_flat_map in Hq as (a & Ha & Hq). exists (ma_cond a). split; auto. apply in_app_iff. left. now apply in_map. }
    destruct K as (e & He & K). apply shallow_read in K as (Ne & r & Hr & E). exists r. split; auto. eapply shallow_source; eauto.
  Qed.
  Lemma picked_read : forall b k pk q, In (b, k) p -> In q (rd b pk) -> exists r, In r (shallow_reads parse noticed k) /\ (q = r \/ rewrite_ r = Some q).
  Proof.
    intros b k pk q Hk Hq. unfold p_reads in Hq. rewrite (find_ref p b k) in Hq by (auto; apply HP). destruct k as [x y|x l|x arms]; cbn [plan_reads] in Hq; try (destruct Hq; fail).
    destruct pk as [[id|]|]; try (destruct Hq; fail). destruct (find _ arms) as [a|] eqn:F; [|destruct Hq]. apply -> dedup_in in Hq. apply find_some in F as [F _].
    apply shallow_read in Hq as (Ne & r & Hr & E). exists r. split; auto. apply (shallow_source _ (ma_value a)); auto. cbn. apply in_app_iff. right. now apply in_map.
  Qed.
  Lemma rule_of : forall b k, In (b, k) p -> In (Shallow b (shallow_reads parse noticed k) [block_key k]) rules.
  Proof. intros b k Hk. unfold rules_of. apply in_map_iff. exists (b, k). split; auto. cbn. now rewrite (key_writes parse dm p HP b k Hk). Qed.
  Lemma computed_key : forall q, computed dm rules q <-> exists b k, In (b, k) p /\ q = block_key k.
  Proof.
    intros q. split.
    - intros (s & Hs & T). apply in_map_iff in Hs as ([b k] & <- & Hk). cbn in T.
      destruct (touched_flat parse dm p HP (b, plan_writes k) q) as (k' & Hk' & E); auto.
      + unfold p_blocks. apply in_map_iff. exists (b, k). auto.
      + exists b, k'. auto.
    - intros (b & k & Hk & ->). exists (Shallow b (shallow_reads parse noticed k) [block_key k]). split; [now apply rule_of|]. cbn.
      pose proof (sp_undeclared _ _ _ HP b k Hk) as U. split; auto. exists (block_key k). split; [now left|]. split; auto. apply above_refl.
  Qed.
  Lemma key_flat : forall b k, In (b, k) p -> dot_prefixes (block_key k) = [].
  Proof. intros b k Hk. apply flat_nodot. apply (sp_flat _ _ _ HP b k Hk). Qed.
  Lemma fed_by : forall q w, In w (longest writers q) -> exists k, In (w, k) p /\ above (block_key k) q.
  Proof.
    intros q w H. apply longest_feeds in H as (r & x & (A & (e & He & T) & _) & Ax & (l1 & ws & l2 & E & T' & _)).
    destruct (touched_flat parse dm p HP e r He T) as (k & Hk & ->).
    destruct (touched_flat parse dm p HP (w, ws) x) as (k' & Hk' & ->); auto. { rewrite E. apply in_app_iff. right. now left. }
    cbn in Hk'. pose proof (nodot_above _ _ (key_flat _ _ Hk') Ax) as Ek. exists k'. split; auto. now rewrite <- Ek.
  Qed.

  Variable goals : list string.
  Hypothesis HG : forall g, In g goals -> exists b k, In (b, k) p /\ g = block_key k.
  Definition used (b : bref) : Prop := exists k g, In (b, k) p /\ In g goals /\ mentioned g /\ depends_on g (block_key k).
  Lemma key_mentioned : forall b k, In (b, k) p -> mentioned (block_key k).
  Proof. intros b k Hk. destruct (proj2 (computed_key (block_key k))) as (s & Hs & T); [eauto|]. exists s. auto. Qed.
  Lemma used_goals : forall q w, In q goals -> In w (longest writers q) -> used w.
  Proof.
    intros q w Hq Hw. destruct (fed_by q w Hw) as (k & Hk & A). destruct (HG q Hq) as (b & k' & Hk' & E). exists k, q. split; auto. split; auto.
    subst q. split; [eapply key_mentioned; eauto|]. rewrite (nodot_above _ _ (key_flat _ _ Hk') A). apply rt_refl.
  Qed.
  Lemma used_step : forall b k r q w, used b -> In (b, k) p -> In r (shallow_reads parse noticed k) -> q = r \/ rewrite_ r = Some q -> In w (longest writers q) -> used w.
  Proof.
    intros b k r q w Hu Hk Hr Hq Hw. destruct (fed_by q w Hw) as (kw & Hkw & A).
    assert (k0 : forall k', In (b, k') p -> k' = k). { intros k' Hk'. pose proof (find_ref p b k (sp_refs _ _ _ HP) Hk). pose proof (find_ref p b k' (sp_refs _ _ _ HP) Hk'). congruence. }
    destruct Hu as (k' & g & Hk' & Hg & M & Dg). rewrite (k0 k' Hk') in *. clear k' Hk'.
    destruct (String.string_dec (block_key kw) (block_key k)) as [E|Ne].
    { destruct (key_inj parse dm p HP _ _ _ _ Hkw Hk E) as [-> ->]. exists k, g. auto. }
    assert (Na : ~ above (block_key kw) (block_key k)) by (intros C; apply Ne; exact (nodot_above _ _ (key_flat _ _ Hk) C)).
    pose proof (rule_of b k Hk) as Hs. pose proof (sp_undeclared _ _ _ HP b k Hk) as U.
    exists kw, g. split; auto. split; auto. split; auto. eapply rt_trans; [exact Dg|]. apply rt_step. destruct Hq as [->|Hq].
    - destruct (String.string_dec (block_key kw) r) as [<-|Nr].
      + eapply DRead; eauto. now left.
      + eapply DHolder; eauto; [now left|]. apply computed_key. eauto.
    - exfalso. destruct (entity_rewrite_form _ _ _ Hq) as (e & src & rest & He & ->). destruct (HE e src He) as [Ed Dd].
      assert (Ek : block_key kw = e). { eapply nodot_two; [eapply key_flat; eauto|now apply flat_nodot|exact A|]. right. exists rest. reflexivity. }
      rewrite <- Ek in Dd. exact (sp_undeclared _ _ _ HP w kw Hkw Dd).
  Qed.
  Lemma used_always : forall b q w, used b -> In q (al b) -> In w (longest writers q) -> kn w = true -> used w.
  Proof. intros b q w Hu Hq Hw _. pose proof Hu as (k & g & Hk & _). destruct (always_read b k q Hk Hq) as (r & Hr & E). eapply used_step; eauto. Qed.
  Lemma used_reads : forall b pk q w, used b -> In q (rd b pk) -> In w (longest writers q) -> kn w = true -> used w.
  Proof. intros b pk q w Hu Hq Hw _. pose proof Hu as (k & g & Hk & _). destruct (picked_read b k pk q Hk Hq) as (r & Hr & E). eapply used_step; eauto. Qed.
  Lemma asked_in : forall k pk e, In e (asked_sources k ++ chosen_sources k pk) -> In e (block_sources k).
  Proof.
    intros k pk e H. apply in_app_iff in H as [H|H]; destruct k as [x y|x l|x arms]; cbn in *; auto; try (destruct H; fail).
    - apply filter_In in H as [H _]. apply in_app_iff. now left.
    - destruct pk as [[id|]|]; try (destruct H; fail). destruct (find _ arms) as [a|] eqn:F; [|destruct H]. destruct (String.eqb (ma_value a) ""); [destruct H|].
      destruct H as [<-|[]]. apply find_some in F as [F _]. apply in_app_iff. right. now apply in_map.
  Qed.
  (** What a block in use reads, and no block computes, is needed. *)
  Lemma used_needs : forall members b k pk e x l, used b -> In (b, k) p -> In e (asked_sources k ++ chosen_sources k pk) -> path_of parse e (x :: l) ->
    (forall b' blk, In (b', blk) p -> block_key blk <> x) ->
    is_needed dm sources rules members goals (join_dots (x :: l)) /\ split_dot (join_dots (x :: l)) = x :: l.
  Proof.
    intros members b k pk e x l Hu Hk He (n & y & P & Hy & Ha & Py) Hn. pose proof (asked_in k pk e He) as Hb.
    assert (Hs : split_dot (join_dots (x :: l)) = x :: l).
    { apply split_dot_join; [discriminate|]. intros s Hs. apply (HU b k e n y s Hk Hb P Hy). now rewrite Py. }
    split; auto. destruct (sources_closed parse k pk e (sp_closed _ _ _ HP b k Hk) He) as [_ Ne].
    assert (Hr : In (join_dots (x :: l)) (shallow_reads parse noticed k)).
    { apply (shallow_source k e); auto. unfold shallow_paths, source_reads. rewrite P. apply in_map_iff. exists y. rewrite Py. split; [reflexivity|exact Hy]. }
    destruct Hu as (k' & g & Hk' & Hg & M & Dg).
    assert (k' = k). { pose proof (find_ref p b k (sp_refs _ _ _ HP) Hk). pose proof (find_ref p b k' (sp_refs _ _ _ HP) Hk'). congruence. } subst k'.
    exists g. split; auto. split; auto. split.
    - eapply rt_trans; [exact Dg|]. apply rt_step. apply (DRead dm sources rules (block_key k) (Shallow b (shallow_reads parse noticed k) [block_key k])); [now apply rule_of|now left| |exact Hr|].
      + exact (sp_undeclared _ _ _ HP b k Hk).
      + intros A. pose proof (nodot_above _ _ (key_flat _ _ Hk) A) as E. apply (Hn b k Hk). symmetry. apply (nodot_above _ _ (key_flat _ _ Hk)). rewrite <- E. apply join_above.
    - intros (b0 & (l1 & ws & l2 & El & T & _) & _).
      assert (C : computed dm rules (join_dots (x :: l))).
      { assert (H : In (b0, ws) (map (fun s => (sh_block s, sh_writes s)) rules)) by (rewrite El; apply in_app_iff; right; now left).
        apply in_map_iff in H as (s & Es & Hin). injection Es as <- <-. exists s. auto. }
      apply computed_key in C as (b1 & k1 & Hk1 & E). apply (Hn b1 k1 Hk1). symmetry. apply (nodot_above _ _ (key_flat _ _ Hk1)). rewrite <- E. apply join_above.
  Qed.

  (** *** Two evaluations. *)
  Hypothesis acyclic : forall b, ~ clos_trans _ (wants dm blocks kn al rd) b b.
  Lemma run_used : forall h l T x f s r, wf_heap h -> repr h (VObj l) T -> (forall t, ~ shows h (VObj l) "$" t) ->
    evaluate_policy (std_ext L) parse rewrite_ recovered dm p x f goals (VObj l) h = Some (s, r) -> forall b, In b (nm (log pworld pick s)) -> used b.
  Proof.
    intros h l T x f s r W R Nd E. pose proof (start_JW L parse p h l T W R Nd) as J0.
    destruct (whole L HL parse rewrite_ recovered dm p HP acyclic _ _ _ x goals _ J0 used) with (fuel := f) (s := s) (r := r) as (_ & _ & Db); auto.
    - intros q w Hq Hw _. eapply used_goals; eauto.
    - exact used_always.
    - intros b k pk w l0 q w' Hb _ _ _ _ Hq. now apply used_reads with (1 := Hb) (pk := pk).
  Qed.
  Variables (members : list string) (ha hb : heap) (la lb : loc) (Ta Tb : tree) (xa xb : bool) (fa fb : nat) (sa sb : dstate pworld pick) (ra rb : unit + err).
  Hypothesis Wa : wf_heap ha.
  Hypothesis Wb : wf_heap hb.
  Hypothesis Ra : repr ha (VObj la) Ta.
  Hypothesis Rb : repr hb (VObj lb) Tb.
  Hypothesis Na : forall t, ~ shows ha (VObj la) "$" t.
  Hypothesis Nb : forall t, ~ shows hb (VObj lb) "$" t.
  Hypothesis Same : forall q, is_needed dm sources rules members goals q -> at_path Ta (split_dot q) = at_path Tb (split_dot q).
  Notation eval := (evaluate_policy (std_ext L) parse rewrite_ recovered dm p).
  Hypothesis Ea : eval xa fa goals (VObj la) ha = Some (sa, ra).
  Hypothesis Eb : eval xb fb goals (VObj lb) hb = Some (sb, rb).
  Notation lg := (log pworld pick).
  Notation wd := (Driver.world pworld pick).
  Lemma inputs_settle : (forall u, ra = inl u -> (exists u', rb = inl u') /\ incl (nm (lg sb)) (nm (lg sa))) /\
    forall b k t, In b (nm (lg sa)) -> In b (nm (lg sb)) -> In (b, k) p ->
      (shows (pw_heap (wd sa)) (VObj la) (block_key k) t <-> shows (pw_heap (wd sb)) (VObj lb) (block_key k) t).
  Proof.
    inversion Ra as [| | | | |l1 m1 ts1 G1 F1|]; subst l1. inversion Rb as [| | | | |l2 m2 ts2 G2 F2|]; subst l2. subst Ta Tb.
    assert (N1 : aget "$" ts1 = None). { destruct (aget "$" ts1) as [t|] eqn:E; auto. apply (shows_tree ha la ts1 "$" t Ra) in E. now apply Na in E. }
    assert (N2 : aget "$" ts2 = None). { destruct (aget "$" ts2) as [t|] eqn:E; auto. apply (shows_tree hb lb ts2 "$" t Rb) in E. now apply Nb in E. }
    assert (Ag : forall b k (pk : pick) e, used b -> In (b, k) p -> In e (asked_sources k ++ chosen_sources k pk) -> agreed parse p ts1 ts2 e).
    { intros b k pk e Hu Hk He x l Hl Hn. destruct (used_needs members b k pk e x l Hu Hk He Hl Hn) as [Hi Es]. pose proof (Same _ Hi) as E. now rewrite Es in E. }
    assert (G0 : forall b pk, In (b, Some pk) (lg sa) -> used b).
    { intros b pk Hb. eapply (run_used ha la (TObj ts1) xa fa sa ra); eauto. change b with (fst (b, Some pk)). apply in_map. exact Hb. }
    split.
    - intros u Er. exact (need_success L HL parse rewrite_ recovered dm p HP acyclic (fun b _ => used b) ts1 ts2 Ag N1 N2 ha hb la lb xa xb fa fb goals goals sa sb ra rb Wa Wb Ra Rb Ea Eb
        G0 (incl_refl _) u Er).
    - intros b k t. exact (need_agree L HL parse rewrite_ recovered dm p HP acyclic (fun b _ => used b) ts1 ts2 Ag N1 N2 ha hb la lb xa xb fa fb goals goals sa sb ra rb Wa Wb Ra Rb Ea Eb
        G0 b k t).
  Qed.
End Claims.
