(** Which content a compiled engine evaluates, and what the loader can still change. *)
From Coq Require Import String Ascii ZArith Lia Bool List Arith.
From Verif Require Import Base Dec Value Heap Ast Ops Compiler Vm Eval Isolate Session Graph Walker Nodes Engine EngineFacts Table Discriminant Decision Json Docs DocsFacts EngineSet.
Import ListNotations.
Local Open Scope string_scope.
Local Open Scope list_scope.
Local Open Scope nat_scope.

(** *** Evaluation depends only on the nested decisions that can be reached *)
Section Nodes_kept.
  Context {T : Type}.
  Lemma remove_rec_nodes : forall k (g : graph T) e, incl (g_nodes (remove_rec k g e)) (g_nodes g).
  Proof.
    induction k as [|k IH]; intros g e; [apply incl_refl|]. cbn [remove_rec]. destruct (endpoints g e) as [[s t]|]; [|apply incl_refl].
    assert (F : forall es (g : graph T), incl (g_nodes (fold_left (remove_rec k) es g)) (g_nodes g)).
    { induction es as [|x es IHe]; intros g1; [apply incl_refl|]. cbn [fold_left]. eapply incl_tran; [apply IHe|apply IH]. }
    set (starve := fun (g : graph T) (n : nat) (d : dir) => match edges_directed g n d with
      | _ :: _ => g
      | [] => let g1 := fold_left (remove_rec k) (map fst (edges_directed g n (opposite d))) g in match edges_directed g1 n Outgoing with [] => remove_node g1 n | _ :: _ => g1 end
      end).
    change (incl (g_nodes (starve (starve (remove_edge g e) t Incoming) s Outgoing)) (g_nodes g)).
    assert (S1 : forall g n d, incl (g_nodes (starve g n d)) (g_nodes g)).
    { intros g1 n d. unfold starve. destruct (edges_directed g1 n d); [|apply incl_refl]. destruct (edges_directed _ n Outgoing); [|apply F]. intros x I. cbn in I. apply filter_In in I as [I _]. now apply F in I. }
    eapply incl_tran; [apply S1|]. eapply incl_tran; [apply S1|]. apply incl_refl.
  Qed.
  Lemma prune_nodes : forall (g : graph T) es, incl (g_nodes (Walker.prune g es)) (g_nodes g).
  Proof. intros g es. unfold Walker.prune. generalize (length (g_edges g)). intros k. revert g. induction es as [|x es IH]; intros g; [apply incl_refl|]. cbn [fold_left]. eapply incl_tran; [apply IH|apply remove_rec_nodes]. Qed.
  Variables (IS : Type) (sw_open : value -> option value -> IS) (sw_run : IS -> string -> heap -> IS * heap * bool) (ic : bool).
  Lemma next_loop_nodes : forall fuel (g : graph T) w h g1 w1 h1 r, next_loop sw_open sw_run ic fuel g w h = Some (g1, w1, h1, r) -> incl (g_nodes g1) (g_nodes g).
  Proof.
    induction fuel as [|fuel IH]; intros g w h g1 w1 h1 r E; [discriminate|]. cbn [next_loop] in E. destruct (w_stack w) as [|n rest]; [injection E as <- _ _ _; apply incl_refl|].
    destruct (visited _ n); [eapply IH; eauto|]. destruct (negb _); [eapply IH; eauto|]. destruct (node_at g n) as [nd|]; [|injection E as <- _ _ _; apply incl_refl].
    destruct (gn_kind nd); try (injection E as <- _ _ _; apply incl_refl). destruct (existsb _ _); [injection E as <- _ _ _; apply incl_refl|].
    destruct (incoming_data g _ n h) as [h2 [input|er]]; [|injection E as <- _ _ _; apply incl_refl]. destruct (nodes_context _ _ h2) as [h3 ns]. destruct (select _ _ _ _ h3) as [h4 valid].
    destruct (dropped g n valid) as [|x es]; [injection E as <- _ _ _; apply prune_nodes|]. eapply incl_tran; [eapply IH; eauto|apply prune_nodes].
  Qed.
  Lemma next_nodes : forall (g : graph T) w h g1 w1 h1 r, next sw_open sw_run ic g w h = Some (g1, w1, h1, r) -> incl (g_nodes g1) (g_nodes g).
  Proof. intros g w h g1 w1 h1 r E. unfold next in E. destruct (_ <=? _); [injection E as <- _ _ _; apply incl_refl|]. eapply next_loop_nodes; eauto. Qed.
  Lemma node_at_in : forall (g : graph T) n nd, node_at g n = Some nd -> exists i, In (i, nd) (g_nodes g).
  Proof.
    intros g n nd E. unfold node_at in E. destruct (find _ (g_nodes g)) as [[i x]|] eqn:F; [|discriminate]. apply find_some in F as [F _]. cbn in E. injection E as ->. eauto.
  Qed.
  Variables (f f' : gnode T -> value -> option value -> heap -> heap * res value) (pn : option value).
  Lemma eval_loop_same : forall fuel ctx g w h log, (forall i nd, In (i, nd) (g_nodes g) -> forall x ns h, f nd x ns h = f' nd x ns h) ->
    eval_loop sw_open sw_run f ic pn fuel ctx g w h log = eval_loop sw_open sw_run f' ic pn fuel ctx g w h log.
  Proof.
    induction fuel as [|n IH]; intros ctx g w h log H; [reflexivity|]. cbn [eval_loop].
    destruct (next sw_open sw_run ic g w h) as [[[[g1 w1] h1] [[m|]|e1]]|] eqn:Nx; auto. pose proof (next_nodes _ _ _ _ _ _ _ Nx) as I.
    assert (H1 : forall i nd, In (i, nd) (g_nodes g1) -> forall x ns h, f nd x ns h = f' nd x ns h) by (intros i nd Ii; apply (H i nd), I; exact Ii).
    destruct (data_of w1 m); [now apply IH|]. destruct (node_at g1 m) as [nd|] eqn:Na; auto. destruct (node_at_in _ _ _ Na) as (i & Ii).
    destruct (incoming_data g1 w1 m h1) as [h2 [input|e2]]; auto. destruct (nodes_context ic (w_data w1) h2) as [h3 ns].
    replace (execute f' nd (given ctx nd input) ns h3) with (execute f nd (given ctx nd input) ns h3) by (unfold execute; destruct (gn_kind nd); auto; apply (H1 i nd Ii)).
    destruct (execute f nd (given ctx nd input) ns h3) as [h4 [out|e4]]; auto. destruct (view_of pn nd out h4) as [h5 view]. destruct (gn_kind nd); auto.
  Qed.
End Nodes_kept.

Section E.
  Variables (X : ext) (parse : ekind -> string -> res node) (U : Type) (other : U -> value -> option value -> heap -> heap * res value).
  (** The decisions a content evaluates directly. *)
  Definition calls (c : content (task U)) (key : string) : Prop := exists nd t, In nd (c_nodes c) /\ gn_kind nd = KdTask (TDecision t key).
  Variables (check1 check2 : gnode (task U) -> value -> heap -> res unit) (load1 load2 : string -> option (content (task U))).
  (** A set of contents, closed under what they evaluate, on which the two loaders and checks agree. *)
  Variable K : content (task U) -> Prop.
  Hypothesis Hc : forall c nd, K c -> In nd (c_nodes c) -> forall v h, check1 nd v h = check2 nd v h.
  Hypothesis Hl : forall c key, K c -> calls c key -> load1 key = load2 key.
  Hypothesis Hk : forall c key c2, K c -> calls c key -> load1 key = Some c2 -> K c2.
  Lemma run_with_same : forall t env ns f f' h, (forall x m h, f x m h = f' x m h) -> run_with X parse t env ns f h = run_with X parse t env ns f' h.
  Proof.
    intros t env ns f f' h H. assert (P : forall e, unless e (run_with X parse t env ns f h) (run_with X parse t env ns f' h)) by (intros e; apply run_with_unless; intros; right; auto).
    destruct (P (EOp "a")) as [A|A]; [|exact A]. destruct (P (EOp "b")) as [B|B]; [|exact B]. congruence.
  Qed.
  Lemma add_nodes_in : forall l i j (nd : gnode (task U)), In (j, nd) (add_nodes i l) -> In nd l.
  Proof. induction l as [|x l IH]; intros i j nd I; [destruct I|]. cbn in I. destruct I as [[= _ <-]|I]; [now left|right; eauto]. Qed.
  Lemma decide_same : forall n parent c ctx h, K c -> decide X parse U other check1 load1 n parent c ctx h = decide X parse U other check2 load2 n parent c ctx h.
  Proof.
    induction n as [|n IH]; intros parent c ctx h Kc; [reflexivity|]. cbn [decide].
    destruct (build_graph c) as [x|g] eqn:B; [reflexivity|]. destruct (validate g); [reflexivity|].
    assert (G : forall i nd, In (i, nd) (g_nodes g) -> In nd (c_nodes c)).
    { unfold build_graph in B. destruct (add_edges _ _ _) as [q|es]; [discriminate|]. injection B as <-. intros i nd I. cbn in I. now apply add_nodes_in in I. }
    unfold walk_graph. erewrite eval_loop_same; [reflexivity|]. intros i nd I x ns h1. apply G in I. unfold handle_with.
    destruct (gn_kind nd) as [| |p l|[t es|t key|u]] eqn:Kd; [rewrite (Hc c nd Kc I); reflexivity|rewrite (Hc c nd Kc I); reflexivity|reflexivity|reflexivity| |reflexivity].
    assert (C : calls c key) by (exists nd, t; auto). apply run_with_same. intros y m h2. unfold decision_node. rewrite <- (Hl c key Kc C). destruct (load1 key) as [c2|] eqn:L; [|reflexivity].
    rewrite (IH ns c2 y h2 (Hk c key c2 Kc C L)). reflexivity.
  Qed.
  Lemma evaluate_same : forall n c ctx h, K c -> evaluate_decision X parse U other check1 load1 n c ctx h = evaluate_decision X parse U other check2 load2 n c ctx h.
  Proof. intros n c ctx h Kc. unfold evaluate_decision. now rewrite (decide_same n None c ctx h Kc). Qed.
End E.

(** *** The compiled set *)
Section SetFacts.
  Variables (X : ext) (parse : ekind -> string -> res node) (check : loader -> gnode (task dt) -> value -> heap -> res unit).
  Variables (faulty : list (string * pdoc) -> string -> bool) (run_policy : list (string * pdoc) -> string -> value -> heap -> heap * res value).
  Variables (trace : bool) (max_depth fuel : nat).
  Notation estep := (estep parse faulty).
  Notation build_set := (build_set parse faulty).
  Notation engine_eval := (engine_eval X parse check faulty run_policy trace max_depth fuel).
  Notation eval_live := (eval_live X parse check faulty run_policy trace max_depth fuel).
  Notation eval_graph := (eval_graph X parse check trace max_depth).
  (** The policies among the keys. *)
  Definition policies (load : loader) (keys : list string) : list (string * pdoc) :=
    flat_map (fun k => match load k with Ok (DPolicy p) => [(k, p)] | _ => [] end) keys.
  (** What compiling stores under a key, if anything. *)
  Definition stored (load : loader) (keys : list string) (k : string) : option entry :=
    match load k with
    | Ok (DGraph g) => match build_graph (gc_graph g) with inr gr => match validate gr with None => Some (EGraph (compile_doc parse g)) | Some _ => None end | inl _ => None end
    | Ok (DPolicy p) => if faulty (policies load keys) k then None else Some (EPolicy (policies load keys))
    | Err _ => None
    end.
  Lemma first_pass_spec : forall load keys ws es fs ws1 es1 fs1, first_pass parse load keys ws es fs = (ws1, es1, fs1) ->
    ws1 = ws ++ policies load keys /\
    forall k, aget k es1 = if existsb (String.eqb k) keys then
        match load k with
        | Ok (DGraph g) => match build_graph (gc_graph g) with inr gr => match validate gr with None => Some (EGraph (compile_doc parse g)) | Some _ => aget k es end | inl _ => aget k es end
        | _ => aget k es
        end else aget k es.
  Proof.
    intros load. induction keys as [|a keys IH]; intros ws es fs ws1 es1 fs1 E; cbn [first_pass] in E.
    - injection E as <- <- <-. unfold policies. cbn. rewrite app_nil_r. auto.
    - unfold policies. cbn [flat_map existsb]. fold (policies load keys).
      destruct (load a) as [[g|p]|e] eqn:L.
      + destruct (build_graph (gc_graph g)) as [q|gr] eqn:B; [|destruct (validate gr) eqn:V].
        * destruct (IH _ _ _ _ _ _ E) as [-> H]. split; [reflexivity|]. intros k. rewrite H. destruct (String.eqb_spec k a) as [->|]; [|reflexivity]. rewrite L, B. now destruct (existsb _ _).
        * destruct (IH _ _ _ _ _ _ E) as [-> H]. split; [reflexivity|]. intros k. rewrite H. destruct (String.eqb_spec k a) as [->|]; [|reflexivity]. rewrite L, B, V. now destruct (existsb _ _).
        * destruct (IH _ _ _ _ _ _ E) as [-> H]. split; [reflexivity|]. intros k. rewrite H. destruct (String.eqb_spec k a) as [->|N]; [|rewrite aget_aset_ne by congruence; reflexivity]. rewrite L, B, V, aget_aset_eq. now destruct (existsb _ _).
      + destruct (IH _ _ _ _ _ _ E) as [-> H]. split; [now rewrite <- app_assoc|]. intros k. rewrite H. destruct (String.eqb_spec k a) as [->|]; [|reflexivity]. rewrite L. now destruct (existsb _ _).
      + destruct (IH _ _ _ _ _ _ E) as [-> H]. split; [reflexivity|]. intros k. rewrite H. destruct (String.eqb_spec k a) as [->|]; [|reflexivity]. rewrite L. now destruct (existsb _ _).
  Qed.
  Lemma second_pass_spec : forall ws keys es fs k, aget k (fst (second_pass faulty ws keys es fs)) =
    if existsb (String.eqb k) keys && negb (faulty ws k) then Some (EPolicy ws) else aget k es.
  Proof.
    intros ws. induction keys as [|a keys IH]; intros es fs k; cbn [second_pass existsb]; [reflexivity|]. destruct (faulty ws a) eqn:F; rewrite IH; destruct (String.eqb_spec k a) as [->|N]; cbn [orb]; try reflexivity.
    - rewrite F. cbn. now rewrite andb_false_r.
    - rewrite F, aget_aset_eq. cbn. now destruct (existsb _ _).
    - rewrite aget_aset_ne by congruence. reflexivity.
  Qed.
  Lemma policies_in : forall load keys k, existsb (String.eqb k) (map fst (policies load keys)) = existsb (String.eqb k) keys && match load k with Ok (DPolicy _) => true | _ => false end.
  Proof.
    intros load. induction keys as [|a keys IH]; intros k; [reflexivity|]. unfold policies. cbn [flat_map existsb]. rewrite map_app, existsb_app. fold (policies load keys). rewrite IH.
    destruct (String.eqb_spec k a) as [->|N]; cbn [orb andb].
    - destruct (load a) as [[g|p]|e]; cbn; rewrite ?String.eqb_refl, ?andb_false_r; reflexivity.
    - apply String.eqb_neq in N. destruct (load a) as [[g|p]|e]; cbn; rewrite ?N; reflexivity.
  Qed.
  Lemma build_set_get : forall load keys k, aget k (fst (build_set load keys)) = if existsb (String.eqb k) keys then stored load keys k else None.
  Proof.
    intros load keys k. unfold EngineSet.build_set. destruct (first_pass parse load keys [] [] []) as [[ws es] fs] eqn:F. destruct (first_pass_spec _ _ _ _ _ _ _ _ F) as [-> H]. cbn [app].
    rewrite second_pass_spec, policies_in, H. unfold stored. cbn [aget]. destruct (existsb (String.eqb k) keys); [|reflexivity]. destruct (load k) as [[g|p]|e]; cbn [andb]; try reflexivity. now destruct (faulty _ k).
  Qed.
  Definition keeps_set (o : eop) : Prop := match o with OStore _ => True | _ => False end.
  Lemma steps_keep : forall after e, Forall keeps_set after -> en_set (fold_left estep after e) = en_set e.
  Proof. induction after as [|o after IH]; intros e F; [reflexivity|]. inversion F as [|? ? Ho Fa]; subst. cbn [fold_left]. rewrite (IH _ Fa). destruct o; [reflexivity|destruct Ho|destruct Ho]. Qed.
  Lemma stored_keys : forall m k, NoDup (akeys m) -> existsb (String.eqb k) (mem_keys m) = false -> stored (mem_load m) (mem_keys m) k = None.
  Proof.
    intros m k N E. unfold stored, mem_load. replace (aget k m) with (@None doc); [reflexivity|]. symmetry. apply aget_None_notin. intros I.
    assert (existsb (String.eqb k) (mem_keys m) = true); [|congruence]. apply existsb_exists. exists k. split; [exact I|apply String.eqb_refl].
  Qed.
  (** After compiling, and any changes of the store since. *)
  Lemma after_compile : forall e after k ctx h, NoDup (akeys (en_store e)) -> Forall keeps_set after ->
    let e1 := fold_left estep after (estep e OCompile) in
    engine_eval e1 k ctx h = match stored (mem_load (en_store e)) (mem_keys (en_store e)) k with
      | Some (EGraph g) => eval_graph (mem_load (en_store e1)) (gc_graph g) ctx h
      | Some (EPolicy ws) => Some (run_policy ws k ctx h)
      | None => eval_live (mem_load (en_store e1)) k ctx h
      end.
  Proof.
    intros e after k ctx h N F e1. unfold EngineSet.engine_eval. subst e1. rewrite (steps_keep after _ F). cbn [EngineSet.estep en_set].
    destruct (build_set (mem_load (en_store e)) (mem_keys (en_store e))) as [es fs] eqn:B. pose proof (build_set_get (mem_load (en_store e)) (mem_keys (en_store e)) k) as G. rewrite B in G. cbn [fst] in G. rewrite G.
    destruct (existsb (String.eqb k) (mem_keys (en_store e))) eqn:Ex; [reflexivity|]. now rewrite (stored_keys _ _ N Ex).
  Qed.
  Lemma store_nodup : forall ops e, NoDup (akeys (en_store e)) -> Forall (fun o => match o with OWithLoader m => NoDup (akeys m) | _ => True end) ops -> NoDup (akeys (en_store (fold_left estep ops e))).
  Proof.
    induction ops as [|o ops IH]; intros e N F; [exact N|]. inversion F as [|? ? Ho Fo]; subst. cbn [fold_left]. apply IH; [|exact Fo]. destruct o as [o| |m]; cbn; [|exact N|exact Ho].
    destruct o; cbn; [now apply aset_nodup|now apply adel_nodup].
  Qed.
End SetFacts.
