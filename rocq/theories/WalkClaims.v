(** Claims about walking a decision graph, for the property files. *)
From Coq Require Import String ZArith Lia Bool List Arith.
From Verif Require Import Base Dec Value Heap HeapSpec HeapFacts Graph GraphSpec GraphFacts Walker WalkSpec PruneFacts WalkFacts MergeFacts.
Import ListNotations.
Local Open Scope list_scope.
Local Open Scope nat_scope.

Lemma select_hits : forall (IS : Type) (run : IS -> string -> heap -> IS * heap * bool) p sts i h h1 valid,
  select run p sts i h = (h1, valid) -> hits run p sts i h valid.
Proof.
  intros IS run p sts. induction sts as [|s sts IH]; intros i h h1 valid E.
  - cbn in E. injection E as _ <-. destruct p; cbn.
    + right. split; [constructor|reflexivity].
    + exists []. split; [constructor|reflexivity].
  - cbn [select] in E. destruct (holds run i s h) as [[i1 h2] b] eqn:Eh. unfold holds in Eh.
    assert (Step : forall l bs, tested run i1 h2 l bs -> tested run i h (s :: l) (b :: bs)).
    { intros l bs Q. destruct (String.eqb_spec (st_cond s) "") as [Eb|Nb]; [injection Eh as <- <- <-; apply te_blank; assumption|eapply te_run; eauto]. }
    destruct b.
    + destruct p.
      * injection E as _ <-. left. exists [], s, sts. split; [reflexivity|]. split; [|reflexivity]. cbn. apply Step. constructor.
      * destruct (select run HCollect sts i1 h2) as [h3 r] eqn:Es. injection E as _ <-. destruct (IH _ _ _ _ Es) as (bs & Q & ->). exists (true :: bs). split; [apply Step; exact Q|reflexivity].
    + specialize (IH _ _ _ _ E). destruct p.
      * destruct IH as [(pre & s' & post & -> & Q & ->)|(Q & ->)].
        -- left. exists (s :: pre), s', post. split; [reflexivity|]. split; [|reflexivity]. cbn. apply Step. exact Q.
        -- right. split; [cbn; apply Step; exact Q|reflexivity].
      * destruct IH as (bs & Q & ->). exists (false :: bs). split; [apply Step; exact Q|reflexivity].
Qed.

Lemma validate_error : forall (T : Type) (g : graph T) e, wf_graph g -> validate g = Some e ->
  (length (inputs g) <> 1 /\ e = InvalidInputCount (length (inputs g))) \/ ((exists n, inputs g = [n]) /\ cyclic g /\ e = CyclicGraph).
Proof.
  intros T g e W E. unfold validate in E. assert (L : length (filter (fun x => is_input (snd x)) (g_nodes g)) = length (inputs g)) by (unfold inputs; rewrite map_length; reflexivity).
  rewrite L in E. destruct (Nat.eqb_spec (length (inputs g)) 1) as [Q|N].
  - cbn in E. destruct (is_cyclic g) eqn:C; [|discriminate]. injection E as <-. right. split; [|split; [apply is_cyclic_iff; assumption|reflexivity]].
    destruct (inputs g) as [|n [|? ?]]; try discriminate. eauto.
  - cbn in E. injection E as <-. left. auto.
Qed.
Section Claims.
  Context {T IS : Type}.
  Variable sw_open : value -> option value -> IS.
  Variable sw_run : IS -> string -> heap -> IS * heap * bool.
  Variable handle : gnode T -> value -> option value -> heap -> heap * res value.
  Variable in_context : bool.
  Variable parent_nodes : option value.
  Notation evaluate := (evaluate_graph sw_open sw_run handle in_context parent_nodes).
  Implicit Types g : graph T.
  Implicit Types o : outcome T.

  Lemma outcome_of : forall ctx g h o, wf_graph g -> evaluate ctx g h = Some (inr o) ->
    ~ cyclic g /\ outcome_ok sw_open sw_run handle in_context parent_nodes g ctx o.
  Proof.
    intros ctx g h o W E. unfold evaluate_graph in E. destruct (validate g) as [e|] eqn:V; [discriminate|].
    assert (NC := proj2 (proj1 (validate_iff g W) V)). split; [exact NC|].
    destruct (walk_ok sw_open sw_run handle in_context parent_nodes g W NC ctx h) as (o' & E' & K). rewrite E' in E. injection E as <-. exact K.
  Qed.
  Lemma stops : forall ctx g h, wf_graph g -> exists r, evaluate ctx g h = Some r.
  Proof.
    intros ctx g h W. unfold evaluate_graph. destruct (validate g) as [e|] eqn:V; [eexists; reflexivity|].
    assert (NC := proj2 (proj1 (validate_iff g W) V)).
    destruct (walk_ok sw_open sw_run handle in_context parent_nodes g W NC ctx h) as (o' & E' & _). rewrite E'. eexists. reflexivity.
  Qed.
  Lemma rejected : forall ctx g h e, evaluate ctx g h = Some (inl e) <-> validate g = Some e.
  Proof.
    intros ctx g h e. unfold evaluate_graph. destruct (validate g) as [x|]; [split; congruence|]. destruct (walk_graph _ _ _ _ _ _ _ _); split; discriminate.
  Qed.
  Lemma good_split : forall g ctx cs log pre ev post, good_log handle in_context parent_nodes g ctx cs log -> log = pre ++ ev :: post ->
    good_log handle in_context parent_nodes g ctx cs (pre ++ [ev]).
  Proof.
    intros g ctx cs log pre ev post G. revert pre ev post. induction G as [|l e G IH R A B]; intros pre ev post E; [destruct pre; discriminate|].
    destruct post as [|x post].
    - apply app_inj_tail in E. destruct E as [-> ->]. constructor; assumption.
    - assert (X : exists q y, x :: post = q ++ [y]) by (destruct (@exists_last _ (x :: post)) as (q & y & Q); [discriminate|eauto]). destruct X as (q & y & Q).
      rewrite app_comm_cons' in E || idtac. change (pre ++ ev :: x :: post) with (pre ++ ([ev] ++ x :: post)) in E. rewrite Q in E. rewrite !app_assoc in E. apply app_inj_tail in E. destruct E as [E _].
      apply (IH pre ev q). rewrite E, <- app_assoc. reflexivity.
  Qed.
  Lemma good_run : forall g ctx cs log pre ev post, good_log handle in_context parent_nodes g ctx cs log -> log = pre ++ ev :: post ->
    run_ok handle in_context parent_nodes g ctx cs pre ev /\ (forall e, In e pre -> exists v, ev_out e = Ok v) /\
    (forall e nd, In e pre -> In (ev_node e, nd) (g_nodes g) -> gn_kind nd <> KdOutput).
  Proof.
    intros g ctx cs log pre ev post G E. apply (good_split _ _ _ _ _ _ _ G) in E. inversion E as [Ee|l e G' R A B Ee]; [destruct pre; discriminate|].
    apply app_inj_tail in Ee. destruct Ee as [-> ->]. auto.
  Qed.

  (** ** C32 *)
  Lemma once : forall ctx g h o, wf_graph g -> evaluate ctx g h = Some (inr o) -> NoDup (map ev_node (o_log o)).
  Proof. intros ctx g h o W E. destruct (outcome_of _ _ _ _ W E) as (_ & K). apply K. Qed.
  Lemma after_preds : forall ctx g h o pre ev post a, wf_graph g -> evaluate ctx g h = Some (inr o) -> o_log o = pre ++ ev :: post ->
    edge (ev_graph ev) a (ev_node ev) -> exists out, ran pre a out.
  Proof.
    intros ctx g h o pre ev post a W E L X. destruct (outcome_of _ _ _ _ W E) as (_ & K).
    destruct (good_run _ _ _ _ _ _ _ (proj1 K) L) as ((cs0 & data & outs & nd & m & h1 & _ & _ & _ & _ & _ & _ & _ & F & _) & _).
    apply pred_edge in X. clear -F X. induction F as [|n v ns vs R F IH]; [contradiction|]. destruct X as [<-|X]; eauto.
  Qed.
  Lemma runs_in_graph : forall ctx g h o pre ev post, wf_graph g -> evaluate ctx g h = Some (inr o) -> o_log o = pre ++ ev :: post ->
    exists cs, incl cs (w_switches (o_walker o)) /\ pruned_to g (struck g cs) (ev_graph ev) /\ In (ev_node ev) (node_ids (ev_graph ev)) /\
      connected (ev_graph ev) (ev_node ev).
  Proof.
    intros ctx g h o pre ev post W E L. destruct (outcome_of _ _ _ _ W E) as (_ & K).
    destruct (good_run _ _ _ _ _ _ _ (proj1 K) L) as ((cs0 & data & outs & nd & m & h1 & A & B & _ & C & D & _) & _). exists cs0. auto.
  Qed.
  Lemma error_stops : forall ctx g h o pre ev post e, wf_graph g -> evaluate ctx g h = Some (inr o) -> o_log o = pre ++ ev :: post -> ev_out ev = Err e ->
    post = [] /\ o_res o = Err e.
  Proof.
    intros ctx g h o pre ev post e W E L X. destruct (outcome_of _ _ _ _ W E) as (_ & K).
    assert (P : post = []).
    { destruct (exists_last (l := ev :: post)) as (q & y & Q); [discriminate|]. destruct q as [|z q]; [cbn in Q; congruence|]. cbn in Q. injection Q as <- Q. exfalso.
      assert (L2 : o_log o = (pre ++ ev :: q) ++ y :: []) by (rewrite L, Q, <- app_assoc; reflexivity).
      destruct (good_run _ _ _ _ _ _ _ (proj1 K) L2) as (_ & A & _). destruct (A ev) as (v & V); [apply in_or_app; right; left; reflexivity|congruence]. }
    split; [exact P|]. subst post. destruct K as (_ & _ & _ & _ & _ & _ & [(l & ev' & e' & L1 & O1 & R1)|(A & _)]).
    - rewrite L in L1. apply app_inj_tail in L1. destruct L1 as [_ <-]. congruence.
    - destruct (A ev) as (v & V); [rewrite L; apply in_or_app; right; left; reflexivity|congruence].
  Qed.
  Lemma output_stops : forall ctx g h o pre ev post nd, wf_graph g -> evaluate ctx g h = Some (inr o) -> o_log o = pre ++ ev :: post ->
    In (ev_node ev, nd) (g_nodes g) -> gn_kind nd = KdOutput -> post = [].
  Proof.
    intros ctx g h o pre ev post nd W E L I X. destruct (outcome_of _ _ _ _ W E) as (_ & K).
    destruct (exists_last (l := ev :: post)) as (q & y & Q); [discriminate|]. destruct q as [|z q]; [cbn in Q; congruence|]. cbn in Q. injection Q as <- Q. exfalso.
    assert (L2 : o_log o = (pre ++ ev :: q) ++ y :: []) by (rewrite L, Q, <- app_assoc; reflexivity).
    destruct (good_run _ _ _ _ _ _ _ (proj1 K) L2) as (_ & _ & A). apply (A ev nd); [apply in_or_app; right; left; reflexivity|exact I|exact X].
  Qed.
  Lemma switch_count : forall ctx g h o, wf_graph g -> evaluate ctx g h = Some (inr o) -> length (w_switches (o_walker o)) <= switches g.
  Proof.
    intros ctx g h o W E. destruct (outcome_of _ _ _ _ W E) as (_ & K). destruct K as (_ & _ & _ & N & F & _).
    unfold switches. rewrite <- (map_length ch_node). rewrite <- (map_length fst (filter _ (g_nodes g))). apply NoDup_incl_length; [exact N|].
    intros n I. apply in_map_iff in I. destruct I as (c & <- & I). rewrite Forall_forall in F. destruct (F c I) as (nd & p & sts & h1 & h2 & h3 & A & B & _).
    apply in_map_iff. exists (ch_node c, nd). split; [reflexivity|]. apply filter_In. split; [exact A|]. cbn. rewrite B. reflexivity.
  Qed.
  Lemma complete : forall ctx g h o v n, wf_graph g -> evaluate ctx g h = Some (inr o) -> o_res o = Ok v -> switches g < iter_max ->
    (forall ev nd, In ev (o_log o) -> In (ev_node ev, nd) (g_nodes g) -> gn_kind nd <> KdOutput) ->
    connected (o_graph o) n -> exists out, ran (o_log o) n out.
  Proof.
    intros ctx g h o v n W E R L N C. pose proof (switch_count _ _ _ _ W E) as Sc. destruct (outcome_of _ _ _ _ W E) as (_ & K). destruct K as (G & _ & _ & _ & _ & (l & l' & El & M & Er) & Fi).
    destruct Fi as [(l1 & ev & e & _ & _ & X)|(A & [(h1 & data & ns & e & _ & X)|(_ & It & Io & [(l1 & ev & nd & L1 & I1 & K1)|[Lim|Q]])])]; try congruence.
    - exfalso. apply (N ev nd); [rewrite L1; apply in_or_app; right; left; reflexivity|exact I1|exact K1].
    - lia.
    - apply Q in C. apply Io in C. unfold dom in C. destruct (lookup_ran _ _ _ _ n M C) as (d & _ & ev & I & X). exists (nd_data d), ev. split; [rewrite El; apply in_or_app; left; exact I|exact X].
  Qed.
  Lemma log_bound : forall ctx g h o, wf_graph g -> evaluate ctx g h = Some (inr o) -> length (o_log o) <= length (g_nodes g).
  Proof.
    intros ctx g h o W E. pose proof (once _ _ _ _ W E) as N. rewrite <- (map_length ev_node), <- (map_length fst (g_nodes g)). apply NoDup_incl_length; [exact N|].
    intros n I. apply in_map_iff in I. destruct I as (ev & <- & I). apply in_split in I. destruct I as (pre & post & L).
    destruct (outcome_of _ _ _ _ W E) as (_ & K). destruct (good_run _ _ _ _ _ _ _ (proj1 K) L) as ((cs0 & data & outs & nd & m & h1 & _ & _ & A & _) & _).
    apply in_map_iff. exists (ev_node ev, nd). auto.
  Qed.

  (** ** C34 *)
  Lemma final_graph : forall ctx g h o, wf_graph g -> evaluate ctx g h = Some (inr o) -> pruned_to g (struck g (w_switches (o_walker o))) (o_graph o).
  Proof. intros ctx g h o W E. destruct (outcome_of _ _ _ _ W E) as (_ & K). apply K. Qed.
  Lemma decided : forall ctx g h o c, wf_graph g -> evaluate ctx g h = Some (inr o) -> In c (w_switches (o_walker o)) ->
    exists nd p sts, In (ch_node c, nd) (g_nodes g) /\ gn_kind nd = KdSwitch p sts /\ hits sw_run p sts (sw_open (ch_input c) (ch_nodes c)) (ch_heap c) (ch_valid c).
  Proof.
    intros ctx g h o c W E I. destruct (outcome_of _ _ _ _ W E) as (_ & K). destruct K as (_ & _ & _ & _ & F & _). rewrite Forall_forall in F.
    destruct (F c I) as (nd & p & sts & h1 & h2 & h3 & A & B & _ & _ & Eh & Es & _). exists nd, p, sts. split; [exact A|]. split; [exact B|]. rewrite Eh. eapply select_hits; eauto.
  Qed.
  Lemma decided_once : forall ctx g h o, wf_graph g -> evaluate ctx g h = Some (inr o) -> NoDup (map ch_node (w_switches (o_walker o))).
  Proof. intros ctx g h o W E. destruct (outcome_of _ _ _ _ W E) as (_ & K). apply K. Qed.
  Lemma switch_decided : forall ctx g h o ev nd p sts, wf_graph g -> evaluate ctx g h = Some (inr o) -> In ev (o_log o) ->
    In (ev_node ev, nd) (g_nodes g) -> gn_kind nd = KdSwitch p sts -> exists c, In c (w_switches (o_walker o)) /\ ch_node c = ev_node ev /\
    forall i e, In (i, e) (g_edges (ev_graph ev)) -> ge_src e = ev_node ev -> selects (ch_valid c) e.
  Proof.
    intros ctx g h o ev nd p sts W E I A B. apply in_split in I. destruct I as (pre & post & L). destruct (outcome_of _ _ _ _ W E) as (_ & K).
    destruct (good_run _ _ _ _ _ _ _ (proj1 K) L) as ((cs0 & data & outs & nd' & m & h1 & Ic & Pr & A' & _ & _ & _ & _ & _ & _ & _ & _ & _ & Sd) & _).
    assert (X : (ev_node ev, nd) = (ev_node ev, nd')) by (apply (NoDup_map_inj fst (g_nodes g)); [apply W|exact A|exact A'|reflexivity]). injection X as <-.
    specialize (Sd p sts B). apply in_map_iff in Sd. destruct Sd as (c & Ec & Icc). exists c. split; [apply Ic; exact Icc|]. split; [exact Ec|].
    intros i e Ie Es. apply Pr in Ie. destruct Ie as (Ie & Nd & _).
    assert (Dec : selects (ch_valid c) e \/ ~ selects (ch_valid c) e).
    { unfold selects. destruct (ge_handle e) as [hd|]; [|right; intros (s & _ & X); discriminate].
      destruct (in_dec string_dec hd (map st_id (ch_valid c))) as [Y|Y].
      - left. apply in_map_iff in Y. destruct Y as (s & <- & Y). exists s. auto.
      - right. intros (s & Is & X). apply Y. injection X as ->. apply in_map. exact Is. }
    destruct Dec as [Y|Y]; [exact Y|]. exfalso. apply Nd. exists c, e. split; [exact Icc|]. split; [exact Ie|]. split; [congruence|exact Y].
  Qed.
  (** In a pruned graph every node is reached from a root. *)
  Lemma left_reached : forall g D g' n, wf_graph g -> ~ cyclic g -> (forall m, In m (node_ids g) -> no_edge g m Incoming -> In m (inputs g)) ->
    pruned_to g D g' -> In n (node_ids g') -> In n (inputs g') \/ exists m, In m (inputs g') /\ reaches g' m n.
  Proof.
    intros g D g' n W NC Root (P & Ed & Nd) In_n. destruct (acyclic_rank g W NC) as (r & bound & R).
    assert (Inp : forall m, In m (node_ids g') -> In m (inputs g) -> In m (inputs g')).
    { intros m I1 I2. unfold inputs in *. apply in_map_iff in I1. destruct I1 as ([m1 x] & E1 & I1). apply in_map_iff in I2. destruct I2 as ([m2 y] & E2 & I2). cbn in E1, E2. subst m1 m2.
      apply filter_In in I2. destruct I2 as [I2 K]. assert (X : (m, x) = (m, y)) by (apply (NoDup_map_inj fst (g_nodes g)); [apply W|eapply part_nodes; eauto|exact I2|reflexivity]). injection X as ->.
      apply in_map_iff. exists (m, y). split; [reflexivity|]. apply filter_In. auto. }
    assert (Ind : forall k n, r n < k -> In n (node_ids g') -> In n (inputs g') \/ exists m, In m (inputs g') /\ reaches g' m n).
    { clear n In_n. induction k as [|k IH]; intros n Lt I; [lia|]. destruct (no_edge_dec g n Incoming) as [N|([i e] & Ie & Ee)].
      { left. apply Inp; [exact I|]. apply Root; [eapply part_ids; eauto|exact N]. }
      (* some incoming edge remains *)
      assert (X : exists i e, In (i, e) (g_edges g') /\ ge_tgt e = n).
      { apply Nd in I. destruct I as (_ & [Iso|(j & f & Lf & [Es|Et])]).
        - exfalso. exact (Iso Incoming (i, e) Ie Ee).
        - destruct Lf as (If & Nf & Ff & Uf). inversion Ff as [m N Em|j2 f2 I2 N2 F2 Em].
          + exfalso. rewrite Es in *. subst m. apply (N (i, e) Ie). cbn in *. congruence.
          + exists j2, f2. split; [|congruence]. apply Ed. split; [exact I2|]. split; [exact N2|]. split; [exact F2|]. rewrite Em. eapply used_step; eauto.
        - exists j, f. split; [apply Ed; exact Lf|exact Et]. }
      destruct X as (j & f & If & Ef). assert (Eg : edge g' (ge_src f) n) by (exists j, f; auto).
      assert (Rk := proj1 (R _ _ (part_edge _ _ _ _ P Eg))).
      assert (Is : In (ge_src f) (node_ids g')).
      { apply Nd. split; [apply (proj2 (proj2 W) j f); eapply part_edges; eauto|]. right. exists j, f. split; [apply Ed; exact If|auto]. }
      right. destruct (IH (ge_src f) ltac:(lia) Is) as [Y|(m & Im & Rm)]; [exists (ge_src f); split; [exact Y|apply re_one; exact Eg]|exists m; split; [exact Im|eapply reaches_snoc; eauto]]. }
    exact (Ind (S (r n)) n (Nat.lt_succ_diag_r _) In_n).
  Qed.
  Lemma runs_reached : forall ctx g h o pre ev post, wf_graph g -> evaluate ctx g h = Some (inr o) -> o_log o = pre ++ ev :: post ->
    (forall m, In m (node_ids g) -> no_edge g m Incoming -> In m (inputs g)) ->
    In (ev_node ev) (inputs (ev_graph ev)) \/ exists m, In m (inputs (ev_graph ev)) /\ reaches (ev_graph ev) m (ev_node ev).
  Proof.
    intros ctx g h o pre ev post W E L Root. destruct (runs_in_graph _ _ _ _ _ _ _ W E L) as (cs & _ & P & I & _). destruct (outcome_of _ _ _ _ W E) as (NC & _).
    exact (left_reached _ _ _ _ W NC Root P I).
  Qed.

  (** ** C35 *)
  Lemma input_merge : forall ctx g h o pre ev post, wf_graph g -> evaluate ctx g h = Some (inr o) -> o_log o = pre ++ ev :: post ->
    exists nd outs, In (ev_node ev, nd) (g_nodes g) /\ Forall2 (ran pre) (neighbors (ev_graph ev) (ev_node ev) Incoming) outs /\
      (gn_kind nd = KdInput -> ev_input ev = ctx) /\
      (gn_kind nd <> KdInput -> exists h1, merge_values outs (ev_start ev) = (h1, Ok (ev_input ev)) /\ hext h1 (ev_heap ev)).
  Proof.
    intros ctx g h o pre ev post W E L. destruct (outcome_of _ _ _ _ W E) as (_ & K).
    destruct (good_run _ _ _ _ _ _ _ (proj1 K) L) as ((cs0 & data & outs & nd & m & h1 & _ & _ & A & _ & _ & _ & M & F & Me & Gi & Nc & _) & _).
    exists nd, outs. split; [exact A|]. split; [exact F|]. unfold given in Gi. split; [intros Kd; rewrite Kd in Gi; exact Gi|].
    intros Kd. exists h1. split; [destruct (gn_kind nd); try congruence; rewrite Me, Gi; reflexivity|].
    unfold nodes_context, all_data, new_obj, halloc in Nc. destruct in_context; injection Nc as <- _; [apply hext_alloc|apply hext_refl].
  Qed.
  Lemma neighbors_sources : forall g n, neighbors g n Incoming = rev (sources g n).
  Proof. intros. unfold neighbors, sources, edges_directed. rewrite map_rev. reflexivity. Qed.
  Lemma Forall2_rev : forall (A B : Type) (R : A -> B -> Prop) l1 l2, Forall2 R l1 l2 -> Forall2 R (rev l1) (rev l2).
  Proof. intros A B R l1 l2 F. induction F; [constructor|]. cbn. apply Forall2_app; [assumption|repeat constructor; assumption]. Qed.
  Lemma input_is_merge : forall ctx g h o pre ev post nd, wf_graph g -> evaluate ctx g h = Some (inr o) -> o_log o = pre ++ ev :: post ->
    In (ev_node ev, nd) (g_nodes g) -> gn_kind nd <> KdInput -> exists outs,
    Forall2 (ran pre) (sources (ev_graph ev) (ev_node ev)) outs /\
    forall ts, wf_heap (ev_start ev) -> Forall2 (repr (ev_start ev)) outs ts -> apart (ev_start ev) (rev outs) ->
      (forall l cell, hget (ev_start ev) l = Some cell -> hget (ev_heap ev) l = Some cell) /\
      exists t, repr (ev_heap ev) (ev_input ev) t /\ teq t (merge_trees (rev ts)) = true.
  Proof.
    intros ctx g h o pre ev post nd W E L I Kd. destruct (input_merge _ _ _ _ _ _ _ W E L) as (nd' & outs & A & F & _ & Me).
    assert (X : (ev_node ev, nd) = (ev_node ev, nd')) by (apply (NoDup_map_inj fst (g_nodes g)); [apply W|exact I|exact A|reflexivity]). injection X as <-.
    destruct (Me Kd) as (h1 & M & X1). exists (rev outs). split; [rewrite neighbors_sources in F; apply Forall2_rev in F; rewrite rev_involutive in F; exact F|]. intros ts Wh Rs Ap.
    apply Forall2_rev in Rs. rewrite rev_involutive in Rs, Ap.
    destruct (merge_values_ok _ _ _ Wh Rs Ap) as (h2 & v & t & M2 & X2 & R2 & T2). rewrite M in M2. injection M2 as <- <-.
    assert (X3 : hext (ev_start ev) (ev_heap ev)) by exact (hext_trans _ _ _ X2 X1). split.
    - intros l cell G. exact (hext_get _ _ _ _ X3 G).
    - exists t. split; [exact (repr_hext _ _ _ _ X1 R2)|exact T2].
  Qed.
  Lemma switch_input_merge : forall ctx g h o c, wf_graph g -> evaluate ctx g h = Some (inr o) -> In c (w_switches (o_walker o)) -> exists outs,
    Forall2 (ran (o_log o)) (sources (ch_graph c) (ch_node c)) outs /\
    forall ts, wf_heap (ch_start c) -> Forall2 (repr (ch_start c)) outs ts -> apart (ch_start c) (rev outs) ->
      (forall l cell, hget (ch_start c) l = Some cell -> hget (ch_heap c) l = Some cell) /\
      exists t, repr (ch_heap c) (ch_input c) t /\ teq t (merge_trees (rev ts)) = true.
  Proof.
    intros ctx g h o c W E I. destruct (outcome_of _ _ _ _ W E) as (_ & K). destruct K as (_ & _ & _ & _ & F & (l & l' & El & M & _) & _).
    rewrite Forall_forall in F. destruct (F c I) as (nd & p & sts & h1 & h2 & h3 & _ & _ & Md & Nc & Eh & _ & De & Ic).
    set (outs := map nd_data (somes (lookup (ch_data c)) (neighbors (ch_graph c) (ch_node c) Incoming))). change (merge_values outs (ch_start c) = (h1, Ok (ch_input c))) in Md.
    exists (rev outs). split.
    - rewrite <- (rev_involutive (sources _ _)), <- neighbors_sources. apply Forall2_rev. unfold outs.
      assert (X : forall n, In n (map fst (ch_data c)) -> exists d, lookup (ch_data c) n = Some d /\ ran (o_log o) n (nd_data d)).
      { intros n X. destruct (lookup (ch_data c) n) as [d|] eqn:L; [|apply lookup_none in L; contradiction]. exists d. split; [reflexivity|].
        unfold lookup in L. destruct (find _ (ch_data c)) as [[n' d']|] eqn:Fd; [|discriminate]. injection L as ->. apply find_some in Fd. destruct Fd as [Fi Fe]. apply Nat.eqb_eq in Fe. cbn in Fe. subst n'.
        apply Ic in Fi. destruct (Forall2_in_l _ _ _ _ M Fi) as (e & Ie & E1 & E2 & _). exists e. split; [rewrite El; apply in_or_app; left; exact Ie|]. cbn in E1, E2. auto. }
      assert (Y : incl (neighbors (ch_graph c) (ch_node c) Incoming) (map fst (ch_data c))) by (intros a Ia; apply De; apply pred_edge; exact Ia).
      clear -X Y. induction (neighbors (ch_graph c) (ch_node c) Incoming) as [|n ns IH]; [constructor|]. destruct (X n (Y n (or_introl eq_refl))) as (d & L & R).
      unfold somes in *. cbn [flat_map]. rewrite L. cbn. constructor; [exact R|]. apply IH. intros x Hx. apply Y. right. exact Hx.
    - intros ts Wh Rs Ap. apply Forall2_rev in Rs. rewrite rev_involutive in Rs, Ap.
      destruct (merge_values_ok _ _ _ Wh Rs Ap) as (h2' & v & t & M2 & X2 & R2 & T2). rewrite Md in M2. injection M2 as <- <-.
      assert (X1 : hext h1 (ch_heap c)).
      { unfold nodes_context, all_data, new_obj, halloc in Nc. rewrite Eh. destruct in_context; injection Nc as <- _; [apply hext_alloc|apply hext_refl]. }
      assert (X3 : hext (ch_start c) (ch_heap c)) by exact (hext_trans _ _ _ X2 X1). split.
      + intros l0 cell G. exact (hext_get _ _ _ _ X3 G).
      + exists t. split; [exact (repr_hext _ _ _ _ X1 R2)|exact T2].
  Qed.

  (** ** What nodes produce and see *)
  Lemma event_of : forall ctx g h o ev, wf_graph g -> evaluate ctx g h = Some (inr o) -> In ev (o_log o) ->
    exists nd, In (ev_node ev, nd) (g_nodes g) /\ (gn_kind nd = KdInput -> ev_input ev = ctx) /\
      match gn_kind nd with
      | KdSwitch _ _ => ev_out ev = Ok (ev_input ev)
      | _ => ev_out ev = snd (handle nd (ev_input ev) (ev_nodes ev) (ev_heap ev))
      end.
  Proof.
    intros ctx g h o ev W E I. apply in_split in I. destruct I as (pre & post & L). destruct (outcome_of _ _ _ _ W E) as (_ & K).
    destruct (good_run _ _ _ _ _ _ _ (proj1 K) L) as ((cs0 & data & outs & nd & m & h1 & _ & _ & A & _ & _ & _ & _ & _ & _ & Gi & _ & Ox & _) & _).
    exists nd. split; [exact A|]. split; [intros Kd; rewrite Gi; unfold given; rewrite Kd; reflexivity|]. unfold execute in Ox. destruct (gn_kind nd); exact Ox.
  Qed.
  Lemma all_data_get : forall (g : graph T) data pre (m0 m : amap value) k, Forall2 (mirror parent_nodes g) data pre -> parent_nodes = None -> NoDup (map fst (g_nodes g)) ->
    fold_left (fun m x => aset (nd_name (snd x)) (match nd_view (snd x) with Some v => v | None => nd_data (snd x) end) m) data m0 = m ->
    aget k m = match output_named g pre k with Some v => Some v | None => aget k m0 end.
  Proof.
    intros g data pre m0 m k F Pn Nd <-. revert m0. induction F as [|x e data pre (E1 & E2 & nd & I & Nm & Vw) F IH]; intros m0; [reflexivity|].
    cbn [fold_left output_named]. rewrite IH. destruct (output_named g pre k) as [v|]; [reflexivity|]. rewrite E2.
    assert (X : find (fun y => fst y =? ev_node e) (g_nodes g) = Some (ev_node e, nd)).
    { destruct (find (fun y => fst y =? ev_node e) (g_nodes g)) as [y|] eqn:Fd.
      - apply find_some in Fd. destruct Fd as [Fi Fe]. apply Nat.eqb_eq in Fe. f_equal. apply (NoDup_map_inj fst (g_nodes g)); [exact Nd|exact Fi|rewrite <- E1; exact I|exact Fe].
      - exfalso. apply (find_none _ _ Fd) in I. cbn in I. rewrite E1, Nat.eqb_refl in I. discriminate. }
    rewrite X, (Vw (or_intror Pn)), Nm. destruct (String.eqb_spec (gn_name nd) k) as [->|Ne]; [apply aget_aset_eq|apply aget_aset_ne; congruence].
  Qed.
  Lemma nodes_seen : forall ctx g h o pre ev post, wf_graph g -> evaluate ctx g h = Some (inr o) -> o_log o = pre ++ ev :: post -> parent_nodes = None ->
    if in_context then exists l m, ev_nodes ev = Some (VObj l) /\ hget (ev_heap ev) l = Some (CObj m) /\ forall k, aget k m = output_named g pre k
    else ev_nodes ev = None.
  Proof.
    intros ctx g h o pre ev post W E L Pn. destruct (outcome_of _ _ _ _ W E) as (_ & K).
    destruct (good_run _ _ _ _ _ _ _ (proj1 K) L) as ((cs0 & data & outs & nd & m & h1 & _ & _ & A & _ & _ & _ & M & _ & _ & _ & Nc & _) & _).
    unfold nodes_context, all_data, new_obj, halloc in Nc. destruct in_context; [|congruence]. injection Nc as Eh En.
    eexists _, _. split; [symmetry; exact En|]. split; [rewrite <- Eh; apply hget_alloc_new|]. intros k.
    rewrite (all_data_get g data pre [] _ k M Pn (proj1 W) eq_refl). destruct (output_named g pre k); reflexivity.
  Qed.
End Claims.
