(** Nested decisions: they stop, and the depth limit only adds errors. *)
From Coq Require Import String Ascii ZArith Lia Bool List Arith.
From Verif Require Import Base Dec Value Heap Ast Ops Compiler Vm Eval Isolate Session Graph GraphSpec GraphFacts Walker WalkSpec PruneFacts MergeFacts WalkFacts WalkClaims Nodes NodeSpec Engine.
Import ListNotations.
Local Open Scope string_scope.
Local Open Scope list_scope.
Local Open Scope nat_scope.

(** [b] behaves like [a] wherever [a] does not fail with [e]. *)
Definition unless {A} (e : err) (a b : heap * res A) : Prop := snd a = Err e \/ a = b.

Section Unless.
  Variable e : err.
  Lemma loop_over_unless : forall f f' pass xs h, (forall x m h, unless e (f x m h) (f' x m h)) -> unless e (loop_over f pass xs h) (loop_over f' pass xs h).
  Proof.
    intros f f' pass xs h H. revert h. induction xs as [|x xs IH]; intros h; [now right|]. cbn [loop_over].
    destruct (H x (match xs with [] => false | _ => true end) h) as [A|A].
    - left. destruct (f x _ h) as [h1 [o|e1]]; [discriminate|]. injection A as ->. reflexivity.
    - rewrite <- A. destruct (f x _ h) as [h1 [o|e1]]; [|now right]. destruct (if pass then merge_clone h1 x o else (h1, Ok o)) as [h2 [y|e2]]; [|now right].
      destruct (IH h2) as [B|B].
      + left. destruct (loop_over f pass xs h2) as [h3 [ys|e3]]; [discriminate|]. exact B.
      + rewrite <- B. now right.
  Qed.
  Lemma run_with_unless : forall X parse t env ns f f' h, (forall x m h, unless e (f x m h) (f' x m h)) ->
    unless e (run_with X parse t env ns f h) (run_with X parse t env ns f' h).
  Proof.
    intros X parse t env ns f f' h H. unfold run_with.
    destruct (match ta_field t with None => (h, Ok env) | Some src => s_std X parse src (node_session env ns) h end) as [h1 [input|e1]]; [|now right].
    assert (K : forall p q : heap * res value, unless e p q -> forall k : heap -> value -> heap * res value,
      unless e (match p with (h2, Err e) => (h2, Err e) | (h2, Ok out) => k h2 out end) (match q with (h2, Err e) => (h2, Err e) | (h2, Ok out) => k h2 out end)).
    { intros p q [A|A] k; [left; destruct p as [h2 [o|e2]]; [discriminate|exact A]|subst; now right]. }
    apply (K _ _) with (k := fun h2 out => let (h3, out1) := match ta_path t with None => (h2, out) | Some p => let (h3, o) := new_obj h2 [] in (fst (dot_insert h3 o p out), o) end in
      if ta_pass t then merge_clone h3 env out1 else (h3, Ok out1)).
    destruct (ta_mode t); [apply H|]. destruct input; try (now right).
    destruct (loop_over_unless f f' (ta_pass t) (match harr h1 l with Some xs => xs | None => [] end) h1 H) as [A|A].
    - left. destruct (loop_over f _ _ h1) as [h2 [ys|e2]]; [discriminate|]. injection A as ->. reflexivity.
    - rewrite <- A. now right.
  Qed.

  Section Walk.
    Variables (T IS : Type) (sw_open : value -> option value -> IS) (sw_run : IS -> string -> heap -> IS * heap * bool).
    Variables (f f' : gnode T -> value -> option value -> heap -> heap * res value) (ic : bool) (pn : option value).
    Hypothesis H : forall nd x ns h, unless e (f nd x ns h) (f' nd x ns h).
    Lemma eval_loop_unless : forall fuel ctx g w h log o, eval_loop sw_open sw_run f ic pn fuel ctx g w h log = Some o ->
      o_res o = Err e \/ eval_loop sw_open sw_run f' ic pn fuel ctx g w h log = Some o.
    Proof.
      induction fuel as [|n IH]; intros ctx g w h log o E; [discriminate|]. cbn [eval_loop] in *.
      destruct (next sw_open sw_run ic g w h) as [[[[g1 w1] h1] [[m|]|e1]]|]; auto.
      destruct (data_of w1 m); auto. destruct (node_at g1 m) as [nd|]; auto. destruct (incoming_data g1 w1 m h1) as [h2 [input|e2]]; auto.
      destruct (nodes_context ic (w_data w1) h2) as [h3 ns].
      assert (Q : unless e (execute f nd (given ctx nd input) ns h3) (execute f' nd (given ctx nd input) ns h3)).
      { unfold execute. destruct (gn_kind nd); try apply H. now right. }
      destruct Q as [Q|Q].
      - left. destruct (execute f nd (given ctx nd input) ns h3) as [h4 r]. cbn in Q. subst r. injection E as <-. reflexivity.
      - rewrite <- Q. destruct (execute f nd (given ctx nd input) ns h3) as [h4 [out|e4]]; auto. destruct (view_of pn nd out h4) as [h5 view].
        destruct (gn_kind nd); auto.
    Qed.
  End Walk.
End Unless.

Section E.
  Variables (X : ext) (parse : ekind -> string -> res node) (U : Type) (other : U -> value -> option value -> heap -> heap * res value).
  Variables (check : gnode (task U) -> value -> heap -> res unit) (load : string -> option (content (task U))).
  Notation decide := (decide X parse U other check load).
  Notation evaluate := (evaluate_decision X parse U other check load).
  Notation handle_with := (handle_with X parse U other check load).

  Lemma decide_stops : forall n parent c ctx h, exists r, decide n parent c ctx h = Some r.
  Proof.
    intros n parent c ctx h. destruct n as [|n]; cbn [Engine.decide]; destruct (build_graph c) as [x|g] eqn:B; eauto; destruct (validate g) eqn:V; eauto.
    assert (W : wf_graph g) by (eapply build_wf; eauto).
    destruct (stops sw_open (sw_run X parse) (handle_with (decide n)) true parent ctx g h W) as (r & E). unfold evaluate_graph in E. rewrite V in E.
    destruct (walk_graph sw_open (sw_run X parse) (handle_with (decide n)) true parent ctx g h); [eauto|discriminate].
  Qed.
  Lemma evaluate_stops : forall n c ctx h, exists r, evaluate n c ctx h = Some r.
  Proof. intros n c ctx h. unfold evaluate_decision. destruct (decide_stops n None c ctx h) as ([h1 [v|e]] & ->); eauto. Qed.

  Lemma handle_unless : forall e sub sub', (forall p c x h, exists r r', sub p c x h = Some r /\ sub' p c x h = Some r' /\ unless e r r') ->
    forall nd x ns h, unless e (handle_with sub nd x ns h) (handle_with sub' nd x ns h).
  Proof.
    intros e sub sub' H nd x ns h. unfold Engine.handle_with. destruct (gn_kind nd) as [| |p l|[t es|t key|u]]; try (now right).
    apply run_with_unless. intros y m h1. unfold decision_node. destruct (load key) as [c|]; [|now right].
    destruct (H ns c y h1) as (r & r' & -> & -> & Q). exact Q.
  Qed.
  Lemma decide_more : forall n parent c ctx h r, decide n parent c ctx h = Some r -> snd r = Err depth_error \/ decide (S n) parent c ctx h = Some r.
  Proof.
    induction n as [|n IH]; intros parent c ctx h r E.
    - cbn [Engine.decide] in *. destruct (build_graph c) as [x|g]; auto. destruct (validate g); auto. injection E as <-. now left.
    - change (decide (S (S n)) parent c ctx h) with
        (match build_graph c with inl _ => Some (h, Err (EOp "Invalid graph")) | inr g => match validate g with Some _ => Some (h, Err (EOp "Invalid graph"))
          | None => match walk_graph sw_open (sw_run X parse) (handle_with (decide (S n))) true parent ctx g h with None => None | Some o => Some (o_heap o, o_res o) end end end).
      cbn [Engine.decide] in E. destruct (build_graph c) as [x|g]; [right; exact E|]. destruct (validate g); [right; exact E|].
      unfold walk_graph in *. destruct (eval_loop sw_open (sw_run X parse) (handle_with (decide n)) true parent (eval_fuel g) ctx g (walker_new g) h []) as [o|] eqn:L; [|discriminate].
      injection E as <-.
      assert (Hu : forall nd x ns h, unless depth_error (handle_with (decide n) nd x ns h) (handle_with (decide (S n)) nd x ns h)).
      { apply handle_unless. intros p c' x' h'. destruct (decide_stops n p c' x' h') as (q & Eq). destruct (decide_stops (S n) p c' x' h') as (q' & Eq'). exists q, q'.
        split; [exact Eq|]. split; [exact Eq'|]. destruct (IH p c' x' h' q Eq) as [Z|Z]; [now left|right; rewrite Z in Eq'; now injection Eq']. }
      destruct (eval_loop_unless depth_error _ _ sw_open (sw_run X parse) _ _ true parent Hu _ _ _ _ _ _ _ L) as [A|A]; [now left|]. rewrite A. now right.
  Qed.

  (** The same for every larger limit, and for the outermost evaluation. *)
  Lemma evaluate_more : forall n k c ctx h r, evaluate n c ctx h = Some r -> snd r <> Err depth_error -> evaluate (n + k) c ctx h = Some r.
  Proof.
    intros n k c ctx h r E N. assert (D : forall k r, decide n None c ctx h = Some r -> snd r <> Err depth_error -> decide (n + k) None c ctx h = Some r).
    { clear. induction k as [|k IH]; intros r E N; [now rewrite Nat.add_0_r|]. rewrite Nat.add_succ_r. destruct (decide_more _ _ _ _ _ _ (IH r E N)) as [A|A]; [congruence|exact A]. }
    unfold evaluate_decision in *. destruct (decide n None c ctx h) as [[h1 [v|e]]|] eqn:Q; [| |discriminate].
    - rewrite (D k _ eq_refl) by discriminate. exact E.
    - injection E as <-. rewrite (D k _ eq_refl) by exact N. reflexivity.
  Qed.

  (** *** Decisions that call themselves *)
  Lemma run_with_fails : forall t env ns f h, ta_mode t = MSingle -> (forall x m h, exists e, snd (f x m h) = Err e) -> exists e, snd (run_with X parse t env ns f h) = Err e.
  Proof.
    intros t env ns f h M F. unfold run_with. rewrite M.
    destruct (match ta_field t with None => (h, Ok env) | Some src => s_std X parse src (node_session env ns) h end) as [h1 [input|e1]]; [|exists e1; reflexivity].
    destruct (F input false h1) as (e & Q). destruct (f input false h1) as [h2 r]. cbn in Q. subst r. exists e. reflexivity.
  Qed.
  Lemma endless : forall (K : content (task U) -> Prop),
    (forall c g n parent ctx h o v, K c -> build_graph c = inr g ->
      evaluate_graph sw_open (sw_run X parse) (handle_with (decide n)) true parent ctx g h = Some (inr o) -> o_res o = Ok v ->
      exists ev nd t key, In ev (o_log o) /\ In (ev_node ev, nd) (g_nodes g) /\ gn_kind nd = KdTask (TDecision t key) /\ ta_mode t = MSingle /\
        forall c', load key = Some c' -> K c') ->
    forall n c parent ctx h, K c -> exists h1 e, decide n parent c ctx h = Some (h1, Err e).
  Proof.
    intros K Calls. induction n as [|n IH]; intros c parent ctx h Kc; cbn [Engine.decide]; destruct (build_graph c) as [x|g] eqn:B; eauto; destruct (validate g) eqn:V; eauto.
    assert (W : wf_graph g) by (eapply build_wf; eauto).
    destruct (stops sw_open (sw_run X parse) (handle_with (decide n)) true parent ctx g h W) as (r & E).
    assert (E' := E). unfold evaluate_graph in E'. rewrite V in E'.
    destruct (walk_graph sw_open (sw_run X parse) (handle_with (decide n)) true parent ctx g h) as [o|] eqn:Wk; [|discriminate].
    injection E' as <-. exists (o_heap o). destruct (o_res o) as [v|e] eqn:R; [|eauto]. exfalso.
    destruct (Calls c g n parent ctx h o v Kc B E R) as (ev & nd & t & key & I & Nd & Kd & M & Kn).
    destruct (event_of sw_open (sw_run X parse) (handle_with (decide n)) true parent ctx g h o ev W E I) as (nd' & Nd' & _ & Out).
    assert (nd' = nd). { assert (Z : (ev_node ev, nd') = (ev_node ev, nd)) by (apply (NoDup_map_inj fst (g_nodes g)); [apply W|exact Nd'|exact Nd|reflexivity]). congruence. }
    subst nd'. rewrite Kd in Out. unfold Engine.handle_with in Out. rewrite Kd in Out.
    destruct (run_with_fails t (ev_input ev) (ev_nodes ev) (fun x _ h => decision_node U load (decide n) key (ev_nodes ev) x h) (ev_heap ev) M) as (e & Fe).
    { intros x m h0. unfold decision_node. destruct (load key) as [c'|] eqn:Lk; [|cbn; eauto].
      destruct (IH c' (ev_nodes ev) x h0 (Kn c' eq_refl)) as (h9 & e9 & ->). cbn. eauto. }
    rewrite Fe in Out. apply in_split in I as (pre & post & Lg).
    destruct (error_stops sw_open (sw_run X parse) (handle_with (decide n)) true parent ctx g h o pre ev post e W E Lg Out). congruence.
  Qed.

  (** Without switches and output nodes, every connected node runs. *)
  Lemma plain_runs : forall f parent ctx (g : graph (task U)) h o v n, wf_graph g -> validate g = None -> (forall m nd, In (m, nd) (g_nodes g) -> gn_kind nd <> KdOutput /\ forall p l, gn_kind nd <> KdSwitch p l) ->
    evaluate_graph sw_open (sw_run X parse) f true parent ctx g h = Some (inr o) -> o_res o = Ok v -> connected g n -> exists out, ran (o_log o) n out.
  Proof.
    intros f parent ctx g h o v n W V P E R C.
    assert (Z : switches g = 0).
    { unfold switches. assert (Q : filter (fun x : nat * gnode (task U) => match gn_kind (snd x) with KdSwitch _ _ => true | _ => false end) (g_nodes g) = []).
      { assert (Q0 : forall l, incl l (g_nodes g) -> filter (fun x : nat * gnode (task U) => match gn_kind (snd x) with KdSwitch _ _ => true | _ => false end) l = []).
        { induction l as [|[m nd] l IH]; intros I; [reflexivity|]. cbn [filter snd]. destruct (gn_kind nd) eqn:K; try (apply IH; intros y Iy; apply I; now right).
          destruct (proj2 (P m nd (I _ (or_introl eq_refl))) p l0 K). }
        apply Q0, incl_refl. }
      now rewrite Q. }
    pose proof (switch_count sw_open (sw_run X parse) f true parent ctx g h o W E) as Sc. rewrite Z in Sc.
    assert (Es : w_switches (o_walker o) = []) by (destruct (w_switches (o_walker o)); [reflexivity|cbn in Sc; lia]).
    pose proof (final_graph sw_open (sw_run X parse) f true parent ctx g h o W E) as (Pt & Pe & Pn). rewrite Es in Pe, Pn.
    assert (Ac : ~ cyclic g) by (apply (validate_iff g W); exact V).
    assert (St : pruned_to g (struck g []) g).
    { apply settled_left; auto. apply (settled_ext g (fun _ => False)); [intros i []| |apply settled_start; exact W]. intros i e _ (c & e' & [] & _). }
    destruct St as (_ & Se & Sn).
    assert (Ed : forall a b, edge g a b -> edge (o_graph o) a b).
    { intros a b (i & e & I & A & B). exists i, e. split; [|auto]. apply Pe, Se. exact I. }
    assert (Nn : incl (inputs g) (inputs (o_graph o))).
    { intros m I. unfold inputs in *. apply in_map_iff in I as ((m' & nd) & Em & I). apply filter_In in I as [I K]. cbn in Em, K. subst m'.
      assert (Im : In m (node_ids (o_graph o))) by (apply Pn, Sn; apply (in_map fst) in I; exact I).
      unfold node_ids in Im. apply in_map_iff in Im as ((m' & nd') & Em & I'). cbn in Em. subst m'. destruct Pt as (pn & pe & Q1 & _).
      rewrite Q1 in I'. assert (I2 := I'). apply filter_In in I2 as [I2 _].
      assert (Zz : (m, nd') = (m, nd)) by (apply (NoDup_map_inj fst (g_nodes g)); [apply W|exact I2|exact I|reflexivity]). injection Zz as ->.
      apply in_map_iff. exists (m, nd). split; auto. apply filter_In. split; auto. rewrite Q1. exact I'. }
    assert (Co : connected (o_graph o) n).
    { clear - C Ed Nn. induction C as [m I|a b H C IH|a b H C IH]; [apply co_input; auto|eapply co_succ; eauto|eapply co_pred; eauto]. }
    apply (complete sw_open (sw_run X parse) f true parent ctx g h o v n W E R); auto.
    - rewrite Z. apply Nat.ltb_lt. vm_compute. reflexivity.
    - intros ev nd _ I. apply (P _ _ I).
  Qed.
End E.
