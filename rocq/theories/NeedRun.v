(** Two evaluations of the same policy on inputs that agree on what the goals need. *)
From Coq Require Import String Ascii Bool List Arith Lia Relations.
From Verif Require Import Base Dec Value Heap Ast Ops Compiler Eval Funcs HeapSpec HeapFacts Isolate Session PureFacts RunSpec ContentFacts
  Deps DepsSpec DepsClaims Driver DriverSpec DriverFacts DriverRun Blocks BlocksSpec AssertFacts BlocksFacts PolicyRun PolicySpec SolveFacts SolveRun SolveTwo PGraph NeedSpec NeedFacts.
From Verif Require RepFacts KeepFacts PropPolicy.
Import ListNotations.
Local Open Scope string_scope.
Local Open Scope nat_scope.
Local Open Scope list_scope.

(** *** Expressions that agree on the paths they read. *)
Section Paths.
  Variable L : lib.
  Hypothesis HL : ContentFacts.plain_lib L.
  Variable parse : ekind -> string -> res node.
  Notation X := (std_ext L).
  (** A path that an expression reads directly. *)
  Definition path_of (e : string) (l : list string) : Prop := exists n x, parse KStandard e = Ok n /\ In x (flatten_reads (walk n)) /\ pr_alias x = false /\ pr_path x = l.
  Lemma paths_same : forall h1 c1 t1 h2 c2 t2 e, closed_source parse e -> repr h1 (VObj c1) (TObj t1) -> repr h2 (VObj c2) (TObj t2) ->
    aget "$" t1 = aget "$" t2 -> (forall l, path_of e l -> at_path (TObj t1) l = at_path (TObj t2) l) -> same_on L parse h1 (VObj c1) h2 (VObj c2) e.
  Proof.
    intros h1 c1 t1 h2 c2 t2 e C R1 R2 Dl H.
    assert (S0 : ContentFacts.same_outcome (snd (srun X parse KStandard e (scope_new (VObj c1)) h1), fst (srun X parse KStandard e (scope_new (VObj c1)) h1))
                              (snd (srun X parse KStandard e (scope_new (VObj c2)) h2), fst (srun X parse KStandard e (scope_new (VObj c2)) h2))).
    { unfold srun. destruct (parse KStandard e) as [n|er] eqn:P; [|reflexivity].
      destruct (compile X n) as [code|er] eqn:Cn; [|reflexivity]. destruct (C n P) as (Na & Sn & Nn & Nr).
      destruct (evaluate X n (scope_new (VObj c1)) h1) as [r1 g1] eqn:E1.
      assert (Y : yields X n (scope_new (VObj c1)) h1 r1 g1) by (apply yields_iff; split; [now exists code|auto]).
      destruct (reads_reported L n false HL Na Sn Nn (VObj c1) (VObj c2) h1 h2 (TObj t1) (TObj t2) r1 g1 R1 R2 eq_refl eq_refl) as (r2 & g2 & Y2 & S0); auto.
      { split.
        - cbn. now rewrite Dl.
        - intros x Hx Ha. pose proof (reported_nonempty _ _ Hx) as Ne. destruct (pr_path x) as [|k r] eqn:Px; [congruence|].
          assert (Hk : k <> "$root"). { intros ->. apply Nr. eapply reported_written; eauto. rewrite Px. now left. }
          unfold input_at. rewrite (proj2 (String.eqb_neq _ _) Hk). apply H. exists n, x. auto. }
      apply yields_iff in Y2 as [_ E2]. rewrite E2. exact S0. }
    unfold same_on, holds_in, works, outcome, evaluates.
    destruct (srun X parse KStandard e (scope_new (VObj c1)) h1) as [g1 [v1|e1]], (srun X parse KStandard e (scope_new (VObj c2)) h2) as [g2 [v2|e2]];
      cbn in S0 |- *; try contradiction.
    - destruct S0 as (t & Q1 & Q2). split.
      + inversion Q1; subst; inversion Q2; subst; auto.
      + split; [split; eauto|]. intros u. split; intros (x & y & E & Q0); injection E as <- <-; eexists; eexists; (split; [reflexivity|]).
        * now rewrite (repr_fun _ _ _ Q0 _ Q1).
        * now rewrite (repr_fun _ _ _ Q0 _ Q2).
    - subst. split; auto. split; [split; intros (v & E); discriminate|]. intros u. split; intros (x & y & E & Q0); discriminate.
  Qed.
  Lemma path_head : forall e k r, path_of e (k :: r) -> head_of parse e k.
  Proof. intros e k r (n & x & A & B & C & D). exists n, x, r. auto. Qed.
End Paths.

Section Two.
  Variable L : lib.
  Hypothesis HL : plain_lib L.
  Variable parse : ekind -> string -> res node.
  Variable rewrite : string -> option string.
  Variable recovered : string -> list string.
  Variable dm : list string.
  Variable p : policy.
  Hypothesis HP : sound_policy parse dm p.
  Notation X := (std_ext L).
  Notation blocks := (p_blocks p).
  Notation writers := (graph_writers dm blocks).
  Notation kn := (p_known p).
  Notation al := (p_always parse rewrite recovered p).
  Notation rd := (p_reads parse rewrite recovered p).
  Notation wants := (wants dm blocks kn al rd).
  Hypothesis acyclic : forall b, ~ clos_trans _ wants b b.
  Notation JW := (JW L parse p).
  Notation settled := (settled parse p).
  Notation lg := (log pworld pick).
  Notation wd := (Driver.world pworld pick).
  (** The blocks, with what they selected, whose reads are agreed on. *)
  Variable D : bref -> pick -> Prop.
  (** The two inputs. *)
  Variables (ts1 ts2 : amap tree).
  Definition agreed (e : string) : Prop :=
    forall k r, path_of parse e (k :: r) -> (forall b blk, In (b, blk) p -> block_key blk <> k) -> at_path (TObj ts1) (k :: r) = at_path (TObj ts2) (k :: r).
  Hypothesis D_agreed : forall b k pk e, D b pk -> In (b, k) p -> In e (asked_sources k ++ chosen_sources k pk) -> agreed e.
  Hypothesis No1 : aget "$" ts1 = None.
  Hypothesis No2 : aget "$" ts2 = None.

  Section Agree.
    Variables (ls1 le1 ls2 le2 : loc) (w1 w2 : pworld) (lg1 lg2 : list (bref * option pick)).
    Hypothesis J1 : JW ls1 le1 (fun k t => aget k ts1 = Some t) w1 lg1.
    Hypothesis J2 : JW ls2 le2 (fun k t => aget k ts2 = Some t) w2 lg2.
    Hypothesis DL : forall b pk, In (b, Some pk) lg1 -> D b pk.
    Notation h1 := (pw_heap w1).
    Notation h2 := (pw_heap w2).
    Lemma agree_source : forall l1 l2 e, agreed e -> closed_source parse e -> settled l1 e -> settled l2 e ->
      (forall b k t, In b l1 -> In b l2 -> In (b, k) p -> (shows h1 (VObj le1) (block_key k) t <-> shows h2 (VObj le2) (block_key k) t)) ->
      same_on L parse h1 (VObj le1) h2 (VObj le2) e.
    Proof.
      intros l1 l2 e Ag C S1 S2 H. destruct J1 as (g1 & ms1 & me1 & -> & W1 & Ds1 & De1 & Sh1 & _), J2 as (g2 & ms2 & me2 & -> & W2 & Ds2 & De2 & Sh2 & _). cbn [pw_heap at_] in *.
      destruct (world_trees _ _ _ _ _ W1) as (_ & te1 & R1), (world_trees _ _ _ _ _ W2) as (_ & te2 & R2).
      assert (Sm : forall k, (forall t, shows g1 (VObj le1) k t <-> shows g2 (VObj le2) k t) -> aget k te1 = aget k te2).
      { intros k Hk. destruct (aget k te1) as [t|] eqn:E.
        - symmetry. apply (shows_tree g2 le2 te2 k t R2). apply Hk. now apply (shows_tree g1 le1 te1 k t R1).
        - destruct (aget k te2) as [t|] eqn:E2; auto. apply (shows_tree g2 le2 te2 k t R2) in E2. apply Hk in E2. apply (shows_tree g1 le1 te1 k t R1) in E2. congruence. }
      assert (St1 : forall k, (forall b blk, In (b, blk) p -> block_key blk <> k) -> aget k te1 = aget k ts1).
      { intros k Hn. assert (Q : forall t, aget k te1 = Some t <-> aget k ts1 = Some t).
        { intros t. rewrite <- (shows_tree g1 le1 te1 k t R1). apply (Sh1 k t). intros b blk Hb _. exact (Hn b blk Hb). }
        destruct (aget k te1) as [t|] eqn:Ea; [symmetry; now apply Q|]. destruct (aget k ts1) as [t|] eqn:Eb; auto. exfalso. pose proof (proj2 (Q t) eq_refl). discriminate. }
      assert (St2 : forall k, (forall b blk, In (b, blk) p -> block_key blk <> k) -> aget k te2 = aget k ts2).
      { intros k Hn. assert (Q : forall t, aget k te2 = Some t <-> aget k ts2 = Some t).
        { intros t. rewrite <- (shows_tree g2 le2 te2 k t R2). apply (Sh2 k t). intros b blk Hb _. exact (Hn b blk Hb). }
        destruct (aget k te2) as [t|] eqn:Ea; [symmetry; now apply Q|]. destruct (aget k ts2) as [t|] eqn:Eb; auto. exfalso. pose proof (proj2 (Q t) eq_refl). discriminate. }
      assert (Dk : forall b blk, In (b, blk) p -> block_key blk <> "$") by (intros b blk Hb; apply (sp_flat _ _ _ HP b blk Hb)).
      apply (paths_same L HL parse g1 le1 te1 g2 le2 te2 e C R1 R2); [rewrite St1, St2, No1, No2; auto|].
      intros [|k r] Hl; [exfalso; destruct Hl as (n & x & _ & Hx & _ & Px); now apply (reported_nonempty _ _ Hx)|]. pose proof (path_head _ _ _ _ Hl) as Hk.
      destruct (in_dec String.string_dec k (map (fun x => block_key (snd x)) p)) as [Hi|Hi].
      - apply in_map_iff in Hi as ([b blk] & <- & Hb). cbn [snd] in *. cbn [at_path]. rewrite (Sm (block_key blk)); [reflexivity|]. intros t. apply (H b); [eapply S1; eauto|eapply S2; eauto|exact Hb].
      - assert (Hn : forall b blk, In (b, blk) p -> block_key blk <> k). { intros b blk Hb E. apply Hi. apply in_map_iff. exists (b, blk). auto. }
        pose proof (Ag k r Hl Hn) as E. cbn [at_path] in *. rewrite St1, St2 by exact Hn. exact E.
    Qed.
    Lemma agree : forall n la b o lb la' o' lb', length la <= n -> lg1 = la ++ (b, o) :: lb -> lg2 = la' ++ (b, o') :: lb' ->
      o = o' /\ forall k t, In (b, k) p -> (shows h1 (VObj le1) (block_key k) t <-> shows h2 (VObj le2) (block_key k) t).
    Proof.
      induction n as [n IH] using lt_wf_ind. intros la b o lb la' o' lb' Hn E1 E2.
      assert (Hd : forall pk, o = Some pk -> D b pk). { intros pk ->. apply DL. rewrite E1. apply in_app_iff. right. now left. }
      assert (H1 : holds L parse p le1 h1 la b o). { destruct J1 as (g & ms & me & -> & _ & _ & _ & _ & H). eapply H; eauto. }
      assert (H2 : holds L parse p le2 h2 la' b o'). { destruct J2 as (g & ms & me & -> & _ & _ & _ & _ & H). eapply H; eauto. }
      destruct H1 as (pk & k & t & -> & Hk & Pk & Gk & Shk & St), H2 as (pk' & k' & t' & -> & Hk' & Pk' & Gk' & Shk' & St'). specialize (Hd pk eq_refl).
      assert (k' = k). { pose proof (find_ref p b k (sp_refs _ _ _ HP) Hk). pose proof (find_ref p b k' (sp_refs _ _ _ HP) Hk'). congruence. } subst k'.
      pose proof (sp_closed _ _ _ HP b k Hk) as Ck. pose proof (closed_plain parse k Ck) as Pl.
      assert (Q : forall c k0 t0, In c (nm la) -> In c (nm la') -> In (c, k0) p -> (shows h1 (VObj le1) (block_key k0) t0 <-> shows h2 (VObj le2) (block_key k0) t0)).
      { intros c k0 t0 Hc Hc' Hp0. apply in_map_iff in Hc as ([c1 o1] & <- & Hc), Hc' as ([c2 o2] & Ec & Hc'). cbn in Ec, Hp0. subst c2.
        apply in_split in Hc as (x & y & ->), Hc' as (x' & y' & ->). rewrite <- app_assoc in E1, E2. cbn in E1, E2. rewrite app_length in Hn. cbn in Hn.
        destruct (IH (length x)) with (la := x) (b := c1) (o := o1) (lb := y ++ (b, Some pk) :: lb) (la' := x') (o' := o2) (lb' := y' ++ (b, Some pk') :: lb') as [_ R]; auto; lia. }
      assert (Sa : forall e, In e (asked_sources k) -> same_on L parse h1 (VObj le1) h2 (VObj le2) e).
      { intros e He. assert (He' : forall q, In e (asked_sources k ++ chosen_sources k q)) by (intros q; apply in_app_iff; now left).
        apply (agree_source (nm la) (nm la')); auto; [exact (D_agreed b k pk e Hd Hk (He' pk))|apply (sources_closed parse k PUnconditional e Ck (He' _))]. }
      pose proof (picked_same' L parse _ _ _ _ k pk Sa Pk) as Pk2. pose proof (picked_fun _ _ _ _ _ _ _ Pk2 Pk') as E. subst pk'. split; auto.
      assert (Sb : forall e, In e (asked_sources k ++ chosen_sources k pk) -> same_on L parse h1 (VObj le1) h2 (VObj le2) e).
      { intros e He. apply (agree_source (nm la) (nm la')); auto; [eapply D_agreed; eauto|now apply (sources_closed parse k pk e Ck)]. }
      pose proof (gives_same' L parse _ _ _ _ k pk t Sb Gk) as G2.
      apply (picked_computes L parse le2 h2 k pk t Pl Pk2) in G2. apply (picked_computes L parse le2 h2 k pk t' Pl Pk2) in Gk'.
      pose proof (computes_fun _ _ _ _ _ _ _ G2 Gk') as <-. intros k0 t0 H0.
      assert (k0 = k). { pose proof (find_ref p b k (sp_refs _ _ _ HP) Hk). pose proof (find_ref p b k0 (sp_refs _ _ _ HP) H0). congruence. } subst k0.
      split; intros H; [rewrite (shows_fun _ _ _ _ _ H Shk)|rewrite (shows_fun _ _ _ _ _ H Shk')]; assumption.
    Qed.
    Lemma agree_names : forall b k t, In b (nm lg1) -> In b (nm lg2) -> In (b, k) p -> (shows h1 (VObj le1) (block_key k) t <-> shows h2 (VObj le2) (block_key k) t).
    Proof.
      intros b k t H1 H2 Hk. apply in_map_iff in H1 as ([b1 o1] & <- & H1), H2 as ([b2 o2] & Eb & H2). cbn in Eb, Hk. subst b2.
      apply in_split in H1 as (x & y & E1), H2 as (x' & y' & E2). apply (agree (length x) x b1 o1 y x' o2 y'); auto.
    Qed.
    Lemma agree_block : forall la b o lb k, lg1 = la ++ (b, o) :: lb -> In (b, k) p -> (forall e, In e (asked_sources k) -> settled (nm lg2) e) ->
      exists pk t, o = Some pk /\ picked L parse h2 (VObj le2) k pk /\
        ((forall e, In e (chosen_sources k pk) -> settled (nm lg2) e) -> gives_tree L parse h2 (VObj le2) k pk t).
    Proof.
      intros la b o lb k E1 Hk S2. assert (H1 : holds L parse p le1 h1 la b o). { destruct J1 as (g & ms & me & -> & _ & _ & _ & _ & H). eapply H; eauto. }
      assert (Hd : forall pk, o = Some pk -> D b pk). { intros pk ->. apply DL. rewrite E1. apply in_app_iff. right. now left. }
      destruct H1 as (pk & k' & t & -> & Hk' & Pk & Gk & Shk & St). specialize (Hd pk eq_refl).
      assert (k' = k). { pose proof (find_ref p b k (sp_refs _ _ _ HP) Hk). pose proof (find_ref p b k' (sp_refs _ _ _ HP) Hk'). congruence. } subst k'.
      pose proof (sp_closed _ _ _ HP b k Hk) as Ck.
      assert (I0 : incl (nm la) (nm lg1)). { rewrite E1. unfold nm. rewrite map_app. intros x Hx. apply in_app_iff. now left. }
      assert (Sa : forall e, In e (asked_sources k ++ chosen_sources k pk) -> settled (nm lg2) e -> same_on L parse h1 (VObj le1) h2 (VObj le2) e).
      { intros e He S0. apply (agree_source (nm lg1) (nm lg2)); auto;
          [eapply D_agreed; eauto|now apply (sources_closed parse k pk e Ck)|eapply settled_incl; [exact I0|auto]|exact agree_names]. }
      exists pk, t. split; auto. split.
      - eapply picked_same'; [|exact Pk]. intros e He. apply Sa; auto. apply in_app_iff. now left.
      - intros S3. eapply gives_same'; [|exact Gk]. intros e He. apply Sa; auto. apply in_app_iff in He as [He|He]; auto.
    Qed.
  End Agree.

  Notation eval := (evaluate_policy X parse rewrite recovered dm p).
  Section Pair.
    Variables (ha hb : heap) (la lb : loc) (xa xb : bool) (fa fb : nat) (ga gb : list string) (sa sb : dstate pworld pick) (ra rb : unit + err).
    Hypothesis Wa : wf_heap ha.
    Hypothesis Wb : wf_heap hb.
    Hypothesis Ra : repr ha (VObj la) (TObj ts1).
    Hypothesis Rb : repr hb (VObj lb) (TObj ts2).
    Hypothesis Ea : eval xa fa ga (VObj la) ha = Some (sa, ra).
    Hypothesis Eb : eval xb fb gb (VObj lb) hb = Some (sb, rb).
    Hypothesis D_log : forall b pk, In (b, Some pk) (lg sa) -> D b pk.
    Lemma JW_tree : forall h l ts ls le w lgs, repr h (VObj l) (TObj ts) -> JW ls le (shows h (VObj l)) w lgs -> JW ls le (fun k t => aget k ts = Some t) w lgs.
    Proof.
      intros h l ts ls le w lgs R (g & ms & me & E & W & A & B & Sh & H). exists g, ms, me. split; auto. split; auto. split; auto. split; auto. split; auto.
      intros k t Hn. rewrite <- (shows_tree h l ts k t R). now apply Sh.
    Qed.
    Lemma no_dollar : forall h l ts, aget "$" ts = None -> repr h (VObj l) (TObj ts) -> forall t, ~ shows h (VObj l) "$" t.
    Proof. intros h l ts N R t H. apply (shows_tree h l ts "$" t R) in H. congruence. Qed.
    Lemma pair_left : JW la (length ha) (fun k t => aget k ts1 = Some t) (wd sa) (lg sa).
    Proof.
      destruct (one L HL parse rewrite recovered dm p HP acyclic ha la _ xa fa ga sa ra Wa Ra (no_dollar _ _ _ No1 Ra) Ea) as (J & _). eapply JW_tree; eauto.
    Qed.
    Lemma pair_right : JW lb (length hb) (fun k t => aget k ts2 = Some t) (wd sb) (lg sb).
    Proof.
      destruct (one L HL parse rewrite recovered dm p HP acyclic hb lb _ xb fb gb sb rb Wb Rb (no_dollar _ _ _ No2 Rb) Eb) as (J & _). eapply JW_tree; eauto.
    Qed.
    Lemma need_agree : forall b k t, In b (nm (lg sa)) -> In b (nm (lg sb)) -> In (b, k) p ->
      (shows (pw_heap (wd sa)) (VObj la) (block_key k) t <-> shows (pw_heap (wd sb)) (VObj lb) (block_key k) t).
    Proof.
      intros b k t Ia Ib Hk. pose proof pair_left as Ja. pose proof pair_right as Jb.
      rewrite <- (store_shows L parse p _ _ _ _ _ _ _ Ja), <- (store_shows L parse p _ _ _ _ _ _ _ Jb). eapply agree_names; eauto.
    Qed.
    Hypothesis Inc : incl gb ga.
    Lemma need_success : forall u, ra = inl u -> (exists u', rb = inl u') /\ incl (nm (lg sb)) (nm (lg sa)).
    Proof.
      intros u Er. pose proof pair_left as Ja. pose proof (start_JW L parse p hb lb _ Wb Rb (no_dollar _ _ _ No2 Rb)) as J0.
      pose proof (one_order L parse rewrite recovered dm p acyclic _ _ _ _ _ _ _ Ea) as Ord. pose proof (one_goals L parse rewrite recovered dm p _ _ _ _ _ _ _ Ea u Er) as Gl.
      destruct (whole L HL parse rewrite recovered dm p HP acyclic _ _ _ xb gb _ J0 (fun b => In b (nm (lg sa)))) with (fuel := fb) (s := sb) (r := rb) as (Jb & Sb & Db); auto.
      - intros q w Hq. apply Gl. now apply Inc.
      - intros b q w Hb Hq Hw Kw. apply in_map_iff in Hb as ([b1 o] & <- & Hb). cbn in Hq. apply in_split in Hb as (x & y & E).
        pose proof (Ord x b1 o y q w E (or_introl Hq) Hw Kw) as Hi. rewrite E. unfold nm in *. rewrite map_app. apply in_app_iff. now left.
      - intros b k pk w l q w' Hb Hk J Pk St Hq Hw Kw. apply in_map_iff in Hb as ([b1 o] & <- & Hb). cbn in Hk, Hq. apply in_split in Hb as (x & y & E).
        apply (JW_tree _ _ _ _ _ _ _ Rb) in J.
        destruct (agree_block _ _ _ _ _ _ _ _ Ja J D_log x b1 o y k E Hk St) as (pk' & t & -> & Pk' & _). rewrite (picked_fun _ _ _ _ _ _ _ Pk Pk') in *.
        assert (Hu : uses pick al rd b1 (Some pk') q) by (right; exists pk'; auto).
        pose proof (Ord x b1 (Some pk') y q w' E Hu Hw Kw) as Hi. rewrite E. unfold nm in *. rewrite map_app. apply in_app_iff. now left.
      - split; [|exact Db]. destruct rb as [u'|e]; [eauto|]. exfalso. destruct (Sb e eq_refl) as (b & k & Hk & Hb & _ & St & Q).
        apply in_map_iff in Hb as ([b1 o] & <- & Hb). cbn in Hk. apply in_split in Hb as (x & y & E). apply (JW_tree _ _ _ _ _ _ _ Rb) in Jb.
        destruct (agree_block _ _ _ _ _ _ _ _ Ja Jb D_log x b1 o y k E Hk St) as (pk' & t & -> & Pk' & G).
        destruct Q as [Q|(pk & Pk & S3 & Q)]; [exact (Q pk' Pk')|]. rewrite (picked_fun _ _ _ _ _ _ _ Pk Pk') in *. exact (Q t (G S3)).
    Qed.
  End Pair.
End Two.
