(** Whole evaluations of a policy, and two evaluations of the same policy on inputs with the same content. *)
From Coq Require Import String Ascii Bool List Arith Lia Relations.
From Verif Require Import Base Dec Value Heap Ast Ops Compiler Eval Funcs HeapSpec HeapFacts Isolate Session PureFacts RunSpec ContentFacts
  Deps Driver DriverSpec DriverFacts DriverRun Blocks BlocksSpec AssertFacts BlocksFacts PolicyRun PolicySpec SolveFacts SolveRun.
From Verif Require RepFacts KeepFacts PropPolicy.
Import ListNotations.
Local Open Scope string_scope.
Local Open Scope nat_scope.
Local Open Scope list_scope.

Lemma computes_picked : forall L parse h c b t, computes (std_ext L) parse h c b t -> exists pk, picked L parse h c b pk.
Proof. intros L parse h c b t C. inversion C; subst; cbn [picked]; eauto. Qed.
Lemma picked_fun : forall L parse h le b p q, picked L parse h (VObj le) b p -> picked L parse h (VObj le) b q -> p = q.
Proof.
  intros L parse h le b p q A B. destruct b as [k e|k l|k arms]; cbn in *; try congruence. destruct A as (o & A & ->), B as (o' & B & ->).
  now rewrite (chosen_fun _ _ _ _ _ _ _ A B).
Qed.
Lemma shows_fun : forall h v k t t', shows h v k t -> shows h v k t' -> t = t'.
Proof. intros h v k t t' (x & E & R) (y & E' & R'). rewrite E in E'. injection E' as <-. eapply repr_fun; eauto. Qed.

Section Two.
  Variable L : lib.
  Hypothesis HL : plain_lib L.
  Variable parse : ekind -> string -> res node.
  Variable rewrite : string -> option string.
  Variable recovered : string -> list string.
  Variable dm : list string.
  Variable p : policy.
  Hypothesis HP : sound_policy parse dm p.
  Notation X := (std_ext L).
  Notation blocks := (p_blocks p).
  Notation writers := (graph_writers dm blocks).
  Notation kn := (p_known p).
  Notation al := (p_always parse rewrite recovered p).
  Notation rd := (p_reads parse rewrite recovered p).
  Notation wants := (wants dm blocks kn al rd).
  Hypothesis acyclic : forall b, ~ clos_trans _ wants b b.
  Notation JW := (JW L parse p).
  Notation settled := (settled parse p).
  Notation lg := (log pworld pick).
  Notation wd := (Driver.world pworld pick).

  Section Agree.
    Variables (ls1 le1 ls2 le2 : loc) (ss1 ss2 : string -> tree -> Prop) (w1 w2 : pworld) (lg1 lg2 : list (bref * option pick)).
    Hypothesis J1 : JW ls1 le1 ss1 w1 lg1.
    Hypothesis J2 : JW ls2 le2 ss2 w2 lg2.
    Hypothesis SS : forall k t, ss1 k t <-> ss2 k t.
    Notation h1 := (pw_heap w1).
    Notation h2 := (pw_heap w2).
    Lemma agree_source : forall l1 l2 e, closed_source parse e -> settled l1 e -> settled l2 e ->
      (forall b k t, In b l1 -> In b l2 -> In (b, k) p -> (shows h1 (VObj le1) (block_key k) t <-> shows h2 (VObj le2) (block_key k) t)) ->
      same_on L parse h1 (VObj le1) h2 (VObj le2) e.
    Proof.
      intros l1 l2 e C S1 S2 H. destruct J1 as (g1 & ms1 & me1 & -> & W1 & Ds1 & De1 & Sh1 & _), J2 as (g2 & ms2 & me2 & -> & W2 & Ds2 & De2 & Sh2 & _). cbn [pw_heap at_] in *.
      apply (heads_same L HL parse g1 le1 g2 le2 e C); [apply (world_trees _ _ _ _ _ W1)|apply (world_trees _ _ _ _ _ W2)|].
      intros k Hk t. destruct (in_dec String.string_dec k (map (fun x => block_key (snd x)) p)) as [Hi|Hi].
      - apply in_map_iff in Hi as ([b blk] & <- & Hb). cbn [snd] in *. destruct Hk as [Hk|Hk]; [exfalso; now apply (sp_flat _ _ _ HP b blk Hb)|]. apply (H b); eauto.
      - assert (Hn : forall b blk, In (b, blk) p -> block_key blk <> k). { intros b blk Hb E. apply Hi. apply in_map_iff. exists (b, blk). auto. }
        rewrite (Sh1 k t), (Sh2 k t); [apply SS|intros b blk Hb _; exact (Hn b blk Hb)|intros b blk Hb _; exact (Hn b blk Hb)].
    Qed.
    Lemma agree : forall n la b o lb la' o' lb', length la <= n -> lg1 = la ++ (b, o) :: lb -> lg2 = la' ++ (b, o') :: lb' ->
      o = o' /\ forall k t, In (b, k) p -> (shows h1 (VObj le1) (block_key k) t <-> shows h2 (VObj le2) (block_key k) t).
    Proof.
      induction n as [n IH] using lt_wf_ind. intros la b o lb la' o' lb' Hn E1 E2.
      assert (H1 : holds L parse p le1 h1 la b o). { destruct J1 as (g & ms & me & -> & _ & _ & _ & _ & H). eapply H; eauto. }
      assert (H2 : holds L parse p le2 h2 la' b o'). { destruct J2 as (g & ms & me & -> & _ & _ & _ & _ & H). eapply H; eauto. }
      destruct H1 as (pk & k & t & -> & Hk & Pk & Gk & Shk & St), H2 as (pk' & k' & t' & -> & Hk' & Pk' & Gk' & Shk' & St').
      assert (k' = k). { pose proof (find_ref p b k (sp_refs _ _ _ HP) Hk). pose proof (find_ref p b k' (sp_refs _ _ _ HP) Hk'). congruence. } subst k'.
      pose proof (sp_closed _ _ _ HP b k Hk) as Ck. pose proof (closed_plain parse k Ck) as Pl.
      assert (Q : forall c k0 t0, In c (nm la) -> In c (nm la') -> In (c, k0) p -> (shows h1 (VObj le1) (block_key k0) t0 <-> shows h2 (VObj le2) (block_key k0) t0)).
      { intros c k0 t0 Hc Hc' Hp0. apply in_map_iff in Hc as ([c1 o1] & <- & Hc), Hc' as ([c2 o2] & Ec & Hc'). cbn in Ec, Hp0. subst c2.
        apply in_split in Hc as (x & y & ->), Hc' as (x' & y' & ->). rewrite <- app_assoc in E1, E2. cbn in E1, E2. rewrite app_length in Hn. cbn in Hn.
        destruct (IH (length x)) with (la := x) (b := c1) (o := o1) (lb := y ++ (b, Some pk) :: lb) (la' := x') (o' := o2) (lb' := y' ++ (b, Some pk') :: lb') as [_ R]; auto; lia. }
      assert (Sa : forall e, In e (asked_sources k) -> same_on L parse h1 (VObj le1) h2 (VObj le2) e).
      { intros e He. apply (agree_source (nm la) (nm la')); auto; [|apply St|apply St']; [|apply in_app_iff; now left|apply in_app_iff; now left].
        apply (sources_closed parse k PUnconditional e Ck). apply in_app_iff. now left. }
      pose proof (picked_same' L parse _ _ _ _ k pk Sa Pk) as Pk2. pose proof (picked_fun _ _ _ _ _ _ _ Pk2 Pk') as E. subst pk'. split; auto.
      assert (Sb : forall e, In e (asked_sources k ++ chosen_sources k pk) -> same_on L parse h1 (VObj le1) h2 (VObj le2) e).
      { intros e He. apply (agree_source (nm la) (nm la')); auto. now apply (sources_closed parse k pk e Ck). }
      pose proof (gives_same' L parse _ _ _ _ k pk t Sb Gk) as G2.
      apply (picked_computes L parse le2 h2 k pk t Pl Pk2) in G2. apply (picked_computes L parse le2 h2 k pk t' Pl Pk2) in Gk'.
      pose proof (computes_fun _ _ _ _ _ _ _ G2 Gk') as <-. intros k0 t0 H0.
      assert (k0 = k). { pose proof (find_ref p b k (sp_refs _ _ _ HP) Hk). pose proof (find_ref p b k0 (sp_refs _ _ _ HP) H0). congruence. } subst k0.
      split; intros H; [rewrite (shows_fun _ _ _ _ _ H Shk)|rewrite (shows_fun _ _ _ _ _ H Shk')]; assumption.
    Qed.
    Lemma agree_names : forall b k t, In b (nm lg1) -> In b (nm lg2) -> In (b, k) p -> (shows h1 (VObj le1) (block_key k) t <-> shows h2 (VObj le2) (block_key k) t).
    Proof.
      intros b k t H1 H2 Hk. apply in_map_iff in H1 as ([b1 o1] & <- & H1), H2 as ([b2 o2] & Eb & H2). cbn in Eb, Hk. subst b2.
      apply in_split in H1 as (x & y & E1), H2 as (x' & y' & E2). eapply agree; eauto.
    Qed.
    (** A block that is settled in the second evaluation and has run in the first one. *)
    Lemma agree_block : forall la b o lb k, lg1 = la ++ (b, o) :: lb -> In (b, k) p -> (forall e, In e (asked_sources k) -> settled (nm lg2) e) ->
      exists pk t, o = Some pk /\ picked L parse h2 (VObj le2) k pk /\
        ((forall e, In e (chosen_sources k pk) -> settled (nm lg2) e) -> gives_tree L parse h2 (VObj le2) k pk t).
    Proof.
      intros la b o lb k E1 Hk S2. assert (H1 : holds L parse p le1 h1 la b o). { destruct J1 as (g & ms & me & -> & _ & _ & _ & _ & H). eapply H; eauto. }
      destruct H1 as (pk & k' & t & -> & Hk' & Pk & Gk & Shk & St).
      assert (k' = k). { pose proof (find_ref p b k (sp_refs _ _ _ HP) Hk). pose proof (find_ref p b k' (sp_refs _ _ _ HP) Hk'). congruence. } subst k'.
      pose proof (sp_closed _ _ _ HP b k Hk) as Ck.
      assert (I0 : incl (nm la) (nm lg1)). { rewrite E1. unfold nm. rewrite map_app. intros x Hx. apply in_app_iff. now left. }
      assert (Sa : forall e, In e (asked_sources k ++ chosen_sources k pk) -> settled (nm lg2) e -> same_on L parse h1 (VObj le1) h2 (VObj le2) e).
      { intros e He S0. apply (agree_source (nm lg1) (nm lg2)); auto; [now apply (sources_closed parse k pk e Ck)|eapply settled_incl; [exact I0|auto]|exact agree_names]. }
      exists pk, t. split; auto. split.
      - eapply picked_same'; [|exact Pk]. intros e He. apply Sa; auto. apply in_app_iff. now left.
      - intros S3. eapply gives_same'; [|exact Gk]. intros e He. apply Sa; auto. apply in_app_iff in He as [He|He]; auto.
    Qed.
  End Agree.

  (** *** The start. *)
  Lemma start_JW : forall h l T, wf_heap h -> repr h (VObj l) T -> (forall t, ~ shows h (VObj l) "$" t) ->
    JW l (length h) (shows h (VObj l)) (start (VObj l) h) [].
  Proof.
    intros h l T Wh R Nd. pose proof (start_in_step h l T Wh R) as Is. inversion R as [| | | | |l0 m ts G F|]; subst.
    apply in_step_world in Is as (ls & le & ms & me & E & W). revert E W. unfold start, depth_clone1. rewrite (proj2 (hobj_hget _ _ _) G). unfold new_obj, halloc. cbn. intros E W.
    injection E as <- <-. set (g := h ++ [CObj m]) in *. assert (X0 : hext h g) by apply hext_alloc.
    assert (Gm : hget g l = Some (CObj m)) by (eapply hext_get; eauto). assert (Ge : hget g (length h) = Some (CObj m)) by apply hget_alloc_new.
    destruct W as (W1 & W2 & W3 & W4). rewrite Gm in W2. injection W2 as <-. rewrite Ge in W3. injection W3 as <-.
    assert (Rm : forall k v, aget k m = Some v -> exists t, repr h v t).
    { intros k v Hv. apply aget_Some_in in Hv. clear - F Hv. induction F as [|[k0 v0] [k1 t1] ? ? [E R] F IH]; [destruct Hv|].
      destruct Hv as [Hv|Hv]; [injection Hv as -> ->; eauto|auto]. }
    assert (N : aget "$" m = None).
    { destruct (aget "$" m) as [v|] eqn:Ev; auto. exfalso. destruct (Rm _ _ Ev) as (t & Rt). apply (Nd t). apply (shows_field h l m "$" t G). eauto. }
    exists g, m, m. split; [reflexivity|]. split; [split; [exact W1|]; split; [exact Gm|]; split; [exact Ge|exact W4]|]. split; [exact N|]. split; [exact N|]. split.
    - intros k t _. unfold env. rewrite (shows_field g (length h) m k t Ge), (shows_field h l m k t G). split; intros (v & Ev & Rv); exists v; (split; [exact Ev|]).
      + destruct (Rm _ _ Ev) as (t' & Rt). assert (Rg : repr g v t') by (eapply repr_hext; eauto). rewrite (repr_fun _ _ _ Rv _ Rg). exact Rt.
      + eapply repr_hext; eauto.
    - intros l1 b o l2 El. destruct l1; discriminate.
  Qed.

  (** *** A whole evaluation. *)
  Section Whole.
    Variables (ls le : loc) (ss : string -> tree -> Prop) (extras : bool) (goals : list string) (w0 : pworld).
    Hypothesis J0 : JW ls le ss w0 [].
    Notation sel := (p_select X parse p extras).
    Notation com := (p_commit X parse p).
    Variable D : bref -> Prop.
    Hypothesis D_goals : forall q w, In q goals -> In w (longest writers q) -> kn w = true -> D w.
    Hypothesis D_always : forall b q w, D b -> In q (al b) -> In w (longest writers q) -> kn w = true -> D w.
    Hypothesis D_reads : forall b k pk w l q w', D b -> In (b, k) p -> JW ls le ss w l -> picked L parse (pw_heap w) (VObj le) k pk ->
      (forall e, In e (asked_sources k) -> settled (nm l) e) -> In q (rd b pk) -> In w' (longest writers q) -> kn w' = true -> D w'.
    Lemma whole : forall fuel s r, run_goals pworld pick err writers kn al rd sel com fuel goals w0 = Some (s, r) ->
      JW ls le ss (wd s) (lg s) /\ (forall e, r = inr e -> Stuck L parse p le D (wd s) (lg s)) /\ (forall b, In b (nm (lg s)) -> D b).
    Proof.
      intros fuel s r H. unfold run_goals in H.
      assert (HI : Inv pworld pick writers kn al rd goals (DState pworld pick w0 [] [] [])).
      { split; [apply NoDup_nil | intros b [] | intros b [] | intros l1 b o l2 Hc; destruct l1; discriminate | intros b [] | exact Logic.I | apply NoDup_nil]. }
      destruct (demands_keep L parse rewrite recovered dm p ls le ss extras goals w0 D _ (run_block_ok pworld pick err writers kn al rd sel com goals w0 fuel)
                  (run_keep L HL parse rewrite recovered dm p HP acyclic ls le ss extras goals w0 D D_always D_reads fuel) goals _ s r HI) as (J & _ & S0 & D0); auto.
      { intros q w Hq Hw. split; [|exact Logic.I]. exists q, w. split; [exact Hq|]. split; [exact Hw|apply rt_refl]. }
      split; auto. split; auto. intros b Hb. destruct (D0 b Hb) as [[]|Hd]; auto.
    Qed.
  End Whole.

  (** From the environment to the store. *)
  Lemma store_same : forall ls le ss w l e, JW ls le ss w l -> closed_source parse e -> same_on L parse (pw_heap w) (VObj le) (pw_heap w) (VObj ls) e.
  Proof.
    intros ls le ss w l e (h & ms & me & -> & W & Ds & De & _) C. cbn [pw_heap at_].
    apply (heads_same L HL parse h le h ls e C); [apply (world_trees _ _ _ _ _ W)|apply (world_trees _ _ _ _ _ W)|]. intros k _ t. apply (env_shows _ _ _ _ _ _ _ W Ds De).
  Qed.
  Lemma store_shows : forall ls le ss w l k t, JW ls le ss w l -> (shows (pw_heap w) (VObj le) k t <-> shows (pw_heap w) (VObj ls) k t).
  Proof. intros ls le ss w l k t (h & ms & me & -> & W & Ds & De & _). apply (env_shows _ _ _ _ _ _ _ W Ds De). Qed.
  Lemma store_computes : forall ls le ss w l b k t, JW ls le ss w l -> In (b, k) p ->
    (computes X parse (pw_heap w) (VObj le) k t <-> computes X parse (pw_heap w) (VObj ls) k t).
  Proof.
    intros ls le ss w l b k t J Hk. pose proof (sp_closed _ _ _ HP b k Hk) as C. pose proof (closed_plain parse k C) as Pl.
    assert (Sm : forall pk e, In e (asked_sources k ++ chosen_sources k pk) -> same_on L parse (pw_heap w) (VObj le) (pw_heap w) (VObj ls) e).
    { intros pk e He. eapply store_same; eauto. apply (sources_closed parse k pk e C He). }
    assert (Sa : forall e, In e (asked_sources k) -> same_on L parse (pw_heap w) (VObj le) (pw_heap w) (VObj ls) e).
    { intros e He. apply (Sm PUnconditional). apply in_app_iff. now left. }
    split; intros Ct; destruct (computes_picked _ _ _ _ _ _ Ct) as (pk & Pk).
    - pose proof (picked_same' L parse _ _ _ _ k pk Sa Pk) as Pk'. apply (picked_computes L parse le _ k pk t Pl Pk) in Ct. apply (picked_computes L parse ls _ k pk t Pl Pk').
      eapply gives_same'; [|exact Ct]. exact (Sm pk).
    - pose proof (picked_same' L parse _ _ _ _ k pk (fun e He => same_sym L parse _ _ _ _ e (Sa e He)) Pk) as Pk'. apply (picked_computes L parse ls _ k pk t Pl Pk) in Ct.
      apply (picked_computes L parse le _ k pk t Pl Pk'). eapply gives_same'; [|exact Ct]. intros e He. apply same_sym. exact (Sm pk e He).
  Qed.

  Notation eval := (evaluate_policy X parse rewrite recovered dm p).
  Section One.
    Variables (h : heap) (l : loc) (T : tree) (extras : bool) (fuel : nat) (goals : list string) (s : dstate pworld pick) (r : unit + err).
    Hypothesis Wh : wf_heap h.
    Hypothesis R : repr h (VObj l) T.
    Hypothesis Nd : forall t, ~ shows h (VObj l) "$" t.
    Hypothesis Ev : eval extras fuel goals (VObj l) h = Some (s, r).
    Notation g := (pw_heap (wd s)).
    Lemma one : JW l (length h) (shows h (VObj l)) (wd s) (lg s) /\ (forall e, r = inr e -> Stuck L parse p (length h) (fun _ => True) (wd s) (lg s)).
    Proof. pose proof (start_JW h l T Wh R Nd) as J0. destruct (whole _ _ _ extras goals _ J0 (fun _ => True)) with (fuel := fuel) (s := s) (r := r) as (J & S0 & _); auto. Qed.
    Lemma one_store : pw_store (wd s) = VObj l /\ exists T1, repr g (VObj l) T1.
    Proof. destruct one as ((g0 & ms & me & E & W & _) & _). rewrite E. cbn. split; auto. destruct (world_trees _ _ _ _ _ W) as ((ts & Q) & _). eauto. Qed.
    Lemma one_satisfied : forall b k, In (b, k) p -> In b (nm (lg s)) -> satisfied parse X g (VObj l) k.
    Proof.
      intros b k Hk Hb. destruct one as (J & _). apply in_map_iff in Hb as ([b1 o] & <- & Hb). cbn in Hk. apply in_split in Hb as (x & y & E).
      pose proof J as J'. destruct J' as (g0 & ms & me & Ew & W & Ds & De & _ & Hd). destruct (Hd x b1 o y E) as (pk & k' & t & -> & Hk' & Pk & Gk & Shk & _).
      assert (k' = k). { pose proof (find_ref p b1 k (sp_refs _ _ _ HP) Hk). pose proof (find_ref p b1 k' (sp_refs _ _ _ HP) Hk'). congruence. } subst k'.
      exists t. replace g0 with g in * by (rewrite Ew; reflexivity). split; [|now apply (store_shows _ _ _ _ _ _ _ J)].
      apply (store_computes _ _ _ _ _ _ _ _ J Hk). eapply picked_computes; eauto. apply closed_plain, (sp_closed _ _ _ HP b1 k Hk).
    Qed.
    Lemma one_rest : forall k t, (forall b blk, In (b, blk) p -> In b (nm (lg s)) -> block_key blk <> k) -> (shows g (VObj l) k t <-> shows h (VObj l) k t).
    Proof.
      intros k t Hn. destruct one as (J & _). rewrite <- (store_shows _ _ _ _ _ _ _ J). destruct J as (g0 & ms & me & Ew & _ & _ & _ & Sh & _). rewrite Ew. now apply Sh.
    Qed.
    Lemma one_failure : forall e, r = inr e -> exists b k, In (b, k) p /\ ~ In b (nm (lg s)) /\ forall t, ~ computes X parse g (VObj l) k t.
    Proof.
      intros e Er. destruct one as (J & S0). destruct (S0 e Er) as (b & k & Hk & _ & Nb & _ & Q). exists b, k. split; auto. split; auto. intros t C.
      apply (store_computes _ _ _ _ _ _ _ _ J Hk) in C. destruct Q as [Q|(pk & Pk & _ & Q)].
      - destruct (computes_picked _ _ _ _ _ _ C) as (pk & Pk). exact (Q pk Pk).
      - apply (Q t). eapply picked_computes; eauto. apply closed_plain, (sp_closed _ _ _ HP b k Hk).
    Qed.
    Lemma one_known : forall b, In b (nm (lg s)) -> exists k, In (b, k) p.
    Proof.
      intros b Hb. unfold evaluate_policy in Ev. apply run_goals_ok in Ev as (Hi & _). destruct (i_reach _ _ _ _ _ _ _ _ Hi b Hb) as [_ K]. unfold p_known in K.
      destruct (block_of p b) as [k|] eqn:E; [|discriminate]. exists k. now apply block_of_in.
    Qed.
    Lemma one_order : forall la b o lb q x, lg s = la ++ (b, o) :: lb -> uses pick al rd b o q -> In x (longest writers q) -> kn x = true -> In x (nm la).
    Proof.
      intros la b o lb q x E Hu Hx Kx. eapply (PropPolicy.C47_order_acyclic pworld pick err dm blocks kn al rd _ _ acyclic fuel goals _ s r Ev); eauto.
      now apply longest_feeds.
    Qed.
    Lemma one_goals : forall u, r = inl u -> forall q x, In q goals -> In x (longest writers q) -> kn x = true -> In x (nm (lg s)).
    Proof.
      intros u Er q x Hq Hx Kx. pose proof Ev as Ev0. unfold evaluate_policy in Ev0. apply run_goals_ok in Ev0 as (Hi & _ & _ & Hg). subst r. eapply i_log; eauto. eapply Hg; eauto. exact Logic.I.
    Qed.
  End One.

  (** What runs is what is needed. *)
  Section Lazy.
    Variables (h : heap) (l : loc) (T : tree) (extras : bool) (fuel : nat) (goals : list string) (s : dstate pworld pick) (u : unit).
    Hypothesis Wh : wf_heap h.
    Hypothesis R : repr h (VObj l) T.
    Hypothesis Nd : forall t, ~ shows h (VObj l) "$" t.
    Hypothesis Ev : eval extras fuel goals (VObj l) h = Some (s, inl u).
    Notation needed := (needed parse rewrite recovered dm p goals (lg s)).
    Lemma known_block : forall b, kn b = true -> exists k, In (b, k) p.
    Proof. intros b K. unfold p_known in K. destruct (block_of p b) as [k|] eqn:E; [|discriminate]. exists k. now apply block_of_in. Qed.
    Lemma lazy_runs : forall b, needed b -> In b (nm (lg s)).
    Proof.
      intros b H. induction H as [g b k Hg Hk Hf|c o q b k Hc IH Hl Hu Hk Hf].
      - eapply (one_goals _ _ _ _ _ _ _ Ev u eq_refl); eauto; [now apply longest_feeds|eapply known_in; eauto].
      - apply in_split in Hl as (x & y & E). assert (Hi : In b (nm x)).
        { eapply (one_order _ _ _ _ _ _ _ Ev); eauto; [now apply longest_feeds|eapply known_in; eauto]. }
        rewrite E. unfold nm in *. rewrite map_app. apply in_app_iff. now left.
    Qed.
    Lemma lazy_only : forall b, In b (nm (lg s)) -> needed b.
    Proof.
      pose proof (start_JW h l T Wh R Nd) as J0. destruct (one h l T extras fuel goals s _ Wh R Nd Ev) as (Js & _).
      destruct (whole _ _ _ extras goals _ J0 needed) with (fuel := fuel) (s := s) (r := @inl unit err u) as (_ & _ & H); auto.
      - intros q w Hq Hw Kw. destruct (known_block w Kw) as (k & Hk). eapply ND_goal; eauto. now apply longest_feeds.
      - intros b q w Hb Hq Hw Kw. destruct (known_block w Kw) as (k & Hk). pose proof (lazy_runs b Hb) as Hl. apply in_map_iff in Hl as ([b1 o] & <- & Hl).
        eapply ND_read; eauto. now apply longest_feeds.
      - intros b k pk w l0 q w' Hb Hk J Pk St Hq Hw Kw. destruct (known_block w' Kw) as (k' & Hk'). pose proof (lazy_runs b Hb) as Hl.
        apply in_map_iff in Hl as ([b1 o] & <- & Hl). cbn [fst] in *. pose proof Hl as Hl'. apply in_split in Hl' as (x & y & E).
        destruct (agree_block _ _ _ _ _ _ _ _ _ _ Js J (fun k t => iff_refl _) x b1 o y k E Hk St) as (pk' & t & -> & Pk' & _). rewrite (picked_fun _ _ _ _ _ _ _ Pk Pk') in *.
        eapply ND_read; eauto. now apply longest_feeds.
    Qed.
  End Lazy.

  (** *** Two evaluations. *)
  Section Pair.
    Variables (ha hb : heap) (la lb : loc) (Ta Tb : tree) (xa xb : bool) (fa fb : nat) (ga gb : list string) (sa sb : dstate pworld pick) (ra rb : unit + err).
    Hypothesis Wa : wf_heap ha.
    Hypothesis Wb : wf_heap hb.
    Hypothesis Ra : repr ha (VObj la) Ta.
    Hypothesis Rb : repr hb (VObj lb) Tb.
    Hypothesis Na : forall t, ~ shows ha (VObj la) "$" t.
    Hypothesis Nb : forall t, ~ shows hb (VObj lb) "$" t.
    Hypothesis Same : forall k t, shows ha (VObj la) k t <-> shows hb (VObj lb) k t.
    Hypothesis Ea : eval xa fa ga (VObj la) ha = Some (sa, ra).
    Hypothesis Eb : eval xb fb gb (VObj lb) hb = Some (sb, rb).
    Lemma pair_agree : forall b k t, In b (nm (lg sa)) -> In b (nm (lg sb)) -> In (b, k) p ->
      (shows (pw_heap (wd sa)) (VObj la) (block_key k) t <-> shows (pw_heap (wd sb)) (VObj lb) (block_key k) t).
    Proof.
      intros b k t Ia Ib Hk. destruct (one ha la Ta xa fa ga sa ra Wa Ra Na Ea) as (Ja & _), (one hb lb Tb xb fb gb sb rb Wb Rb Nb Eb) as (Jb & _).
      rewrite <- (store_shows _ _ _ _ _ _ _ Ja), <- (store_shows _ _ _ _ _ _ _ Jb). eapply (agree_names _ _ _ _ _ _ _ _ _ _ Ja Jb Same); eauto.
    Qed.
    Hypothesis Inc : incl gb ga.
    Lemma pair_success : forall u, ra = inl u -> (exists u', rb = inl u') /\ incl (nm (lg sb)) (nm (lg sa)).
    Proof.
      intros u Er. destruct (one ha la Ta xa fa ga sa ra Wa Ra Na Ea) as (Ja & _). pose proof (start_JW hb lb Tb Wb Rb Nb) as J0.
      pose proof (one_order _ _ _ _ _ _ _ Ea) as Ord. pose proof (one_goals _ _ _ _ _ _ _ Ea u Er) as Gl.
      destruct (whole _ _ _ xb gb _ J0 (fun b => In b (nm (lg sa)))) with (fuel := fb) (s := sb) (r := rb) as (Jb & Sb & Db); auto.
      - intros q w Hq. apply Gl. now apply Inc.
      - intros b q w Hb Hq Hw Kw. apply in_map_iff in Hb as ([b1 o] & <- & Hb). cbn in Hq. apply in_split in Hb as (x & y & E).
        pose proof (Ord x b1 o y q w E (or_introl Hq) Hw Kw) as Hi. rewrite E. unfold nm in *. rewrite map_app. apply in_app_iff. now left.
      - intros b k pk w l q w' Hb Hk J Pk St Hq Hw Kw. apply in_map_iff in Hb as ([b1 o] & <- & Hb). cbn in Hk, Hq. apply in_split in Hb as (x & y & E).
        destruct (agree_block _ _ _ _ _ _ _ _ _ _ Ja J Same x b1 o y k E Hk St) as (pk' & t & -> & Pk' & _). rewrite (picked_fun _ _ _ _ _ _ _ Pk Pk') in *.
        assert (Hu : uses pick al rd b1 (Some pk') q) by (right; exists pk'; auto).
        pose proof (Ord x b1 (Some pk') y q w' E Hu Hw Kw) as Hi. rewrite E. unfold nm in *. rewrite map_app. apply in_app_iff. now left.
      - split; [|exact Db]. destruct rb as [u'|e]; [eauto|]. exfalso. destruct (Sb e eq_refl) as (b & k & Hk & Hb & _ & St & Q).
        apply in_map_iff in Hb as ([b1 o] & <- & Hb). cbn in Hk. apply in_split in Hb as (x & y & E).
        destruct (agree_block _ _ _ _ _ _ _ _ _ _ Ja Jb Same x b1 o y k E Hk St) as (pk' & t & -> & Pk' & G).
        destruct Q as [Q|(pk & Pk & S3 & Q)]; [exact (Q pk' Pk')|]. rewrite (picked_fun _ _ _ _ _ _ _ Pk Pk') in *. exact (Q t (G S3)).
    Qed.
  End Pair.
End Two.
