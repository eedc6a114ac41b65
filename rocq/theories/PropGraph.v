(** C31-C35: decision graphs: what is accepted, in which order nodes run, that the walk ends, what a switch leaves of
    the graph and what a node is given. The nodes' own behaviour ([handle]) and the evaluation of switch conditions
    ([sw_open], [sw_run]) are arbitrary functions of their input and the memory. *)
From Coq Require Import String ZArith Lia Bool List Arith.
From Verif Require Import Base Dec Value Heap HeapSpec Graph GraphSpec GraphFacts Walker WalkSpec PruneFacts MergeFacts WalkClaims.
Import ListNotations.
Local Open Scope string_scope.
Local Open Scope list_scope.
Local Open Scope nat_scope.

(** ** A sample: the input feeds a switch and task 4; the switch leads to task 1 ([s1]) or task 2 ([s2]); all three
    tasks feed task 3. *)
Definition t_node (id : string) (k : gkind nat) : gnode nat := GNode id ("n" ++ id)%string k.
Definition sample : content nat :=
  Content [t_node "i" KdInput; t_node "w" (KdSwitch HFirst [Statement "s1" "no"; Statement "s2" "yes"; Statement "s3" ""]);
           t_node "a" (KdTask 1); t_node "b" (KdTask 2); t_node "c" (KdTask 3); t_node "d" (KdTask 4)]
          [CEdge "i" "w" None; CEdge "w" "a" (Some "s1"); CEdge "w" "b" (Some "s2"); CEdge "a" "c" None; CEdge "b" "c" None;
           CEdge "i" "d" None; CEdge "d" "c" None].
Definition sample_graph : graph nat := match build_graph sample with inr g => g | inl _ => Graph [] [] end.
(** A condition holds when it reads "yes". Task [k] returns [{"k": k, "only<k>": k}], except task 9, which fails. *)
Definition t_run (i : unit) (c : string) (h : heap) : unit * heap * bool := (i, h, String.eqb c "yes").
Definition t_handle (nd : gnode nat) (v : value) (ns : option value) (h : heap) : heap * res value :=
  match gn_kind nd with
  | KdTask k => if k =? 9 then (h, Err (EOp "task failed"))
                else let (h1, o) := new_obj h [("k", VNum (dec_of_nat k)); ("only" ++ string_of_list_ascii [Ascii.ascii_of_nat (48 + k)], VNum (dec_of_nat k))]%string in (h1, Ok o)
  | _ => (h, Ok v)
  end.
Definition t_eval (g : graph nat) : option (gerror + outcome nat) := evaluate_graph (fun _ _ => tt) t_run t_handle true None VNull g [].
Definition t_out (g : graph nat) : outcome nat :=
  match t_eval g with Some (inr o) => o | _ => Outcome g (walker_new g) [] [] (Ok VNull) end.
Example sample_runs : t_eval sample_graph = Some (inr (t_out sample_graph)) /\ map ev_node (o_log (t_out sample_graph)) = [0; 1; 3; 5; 4].
Proof. split; vm_compute; reflexivity. Qed.
Lemma sample_wf : wf_graph sample_graph.
Proof.
  unfold wf_graph. split; [|split].
  - vm_compute. repeat constructor; cbn; intuition lia.
  - vm_compute. repeat constructor; cbn; intuition lia.
  - intros i e I. vm_compute in I. repeat (destruct I as [E|I]; [injection E as <- <-; vm_compute; auto 10|]). contradiction.
Qed.

(** ** C31 *)
(** A graph is built exactly when every edge names existing nodes, and then has the nodes and edges of the content, in
    order. *)
Theorem C31_build : forall (T : Type) (c : content T), (exists g, build_graph c = inr g) <->
  forall e, In e (c_edges c) -> In (ce_source e) (map gn_id (c_nodes c)) /\ In (ce_target e) (map gn_id (c_nodes c)).
Proof. exact @build_total. Qed.
Theorem C31_build_content : forall (T : Type) (c : content T) g, build_graph c = inr g ->
  (forall i, node_at g i = nth_error (c_nodes c) i) /\ node_ids g = seq 0 (length (c_nodes c)) /\
  Forall2 (fun ce x => exists s t, node_at g (ge_src (snd x)) = Some s /\ gn_id s = ce_source ce /\
    node_at g (ge_tgt (snd x)) = Some t /\ gn_id t = ce_target ce /\ ge_handle (snd x) = ce_handle ce) (c_edges c) (g_edges g).
Proof. exact @build_ok. Qed.
Theorem C31_build_missing : forall (T : Type) (c : content T) x, build_graph c = inl x ->
  exists e id, In e (c_edges c) /\ (id = ce_source e \/ id = ce_target e) /\ x = MissingNode id /\ ~ In id (map gn_id (c_nodes c)).
Proof. exact @build_missing. Qed.
Theorem C31_build_wf : forall (T : Type) (c : content T) g, build_graph c = inr g -> wf_graph g.
Proof. exact @build_wf. Qed.
(** Validation accepts exactly the graphs with one input node and no cycle, and says which is missing. *)
Theorem C31_validate : forall (T : Type) (g : graph T), wf_graph g -> (validate g = None <-> (exists n, inputs g = [n]) /\ ~ cyclic g).
Proof. exact @validate_iff. Qed.
Theorem C31_validate_error : forall (T : Type) (g : graph T) e, wf_graph g -> validate g = Some e ->
  (length (inputs g) <> 1 /\ e = InvalidInputCount (length (inputs g))) \/ ((exists n, inputs g = [n]) /\ cyclic g /\ e = CyclicGraph).
Proof. exact validate_error. Qed.
Print Assumptions C31_build.
Print Assumptions C31_build_content.
Print Assumptions C31_build_missing.
Print Assumptions C31_build_wf.
Print Assumptions C31_validate.
Print Assumptions C31_validate_error.
Definition looped : content nat :=
  Content (c_nodes sample) (c_edges sample ++ [CEdge "c" "w" None]).
Example C31_cases :
  (exists g, build_graph sample = inr g /\ validate g = None) /\
  (exists g, build_graph looped = inr g /\ validate g = Some CyclicGraph) /\
  build_graph (Content (c_nodes sample) [CEdge "i" "zz" None]) = inl (MissingNode "zz") /\
  (exists g, build_graph (Content (c_nodes sample ++ c_nodes sample) []) = inr g /\ validate g = Some (InvalidInputCount 2)).
Proof. repeat split; try (eexists; split); vm_compute; reflexivity. Qed.

Section Walks.
  Variables T IS : Type.
  Variable sw_open : value -> option value -> IS.
  Variable sw_run : IS -> string -> heap -> IS * heap * bool.
  Variable handle : gnode T -> value -> option value -> heap -> heap * res value.
  Variable in_context : bool.
  Variable parent_nodes : option value.
  Notation evaluate := (evaluate_graph sw_open sw_run handle in_context parent_nodes).

  (** ** C33: every evaluation ends, after running at most as many nodes as the graph has. *)
  Theorem C33_ends : forall ctx (g : graph T) h, wf_graph g -> exists r, evaluate ctx g h = Some r.
  Proof. exact (stops sw_open sw_run handle in_context parent_nodes). Qed.
  Theorem C33_bound : forall ctx (g : graph T) h o, wf_graph g -> evaluate ctx g h = Some (inr o) -> length (o_log o) <= length (g_nodes g).
  Proof. exact (log_bound sw_open sw_run handle in_context parent_nodes). Qed.
  Theorem C33_rejected : forall ctx (g : graph T) h e, evaluate ctx g h = Some (inl e) <-> validate g = Some e.
  Proof. exact (rejected sw_open sw_run handle in_context parent_nodes). Qed.

  (** ** C32: order. *)
  Theorem C32_once : forall ctx (g : graph T) h o, wf_graph g -> evaluate ctx g h = Some (inr o) -> NoDup (map ev_node (o_log o)).
  Proof. exact (once sw_open sw_run handle in_context parent_nodes). Qed.
  (** When a node runs, all its predecessors in what is left of the graph have run. *)
  Theorem C32_after_predecessors : forall ctx (g : graph T) h o pre ev post a, wf_graph g -> evaluate ctx g h = Some (inr o) ->
    o_log o = pre ++ ev :: post -> edge (ev_graph ev) a (ev_node ev) -> exists out, ran pre a out.
  Proof. exact (after_preds sw_open sw_run handle in_context parent_nodes). Qed.
  (** An error ends the evaluation with that error; an output node ends it. *)
  Theorem C32_error_stops : forall ctx (g : graph T) h o pre ev post e, wf_graph g -> evaluate ctx g h = Some (inr o) ->
    o_log o = pre ++ ev :: post -> ev_out ev = Err e -> post = [] /\ o_res o = Err e.
  Proof. exact (error_stops sw_open sw_run handle in_context parent_nodes). Qed.
  Theorem C32_output_stops : forall ctx (g : graph T) h o pre ev post nd, wf_graph g -> evaluate ctx g h = Some (inr o) ->
    o_log o = pre ++ ev :: post -> In (ev_node ev, nd) (g_nodes g) -> gn_kind nd = KdOutput -> post = [].
  Proof. exact (output_stops sw_open sw_run handle in_context parent_nodes). Qed.
  (** Without errors and output nodes, and with fewer than 1000 switches, every node that is left and connected to the
      input runs. *)
  Theorem C32_complete : forall ctx (g : graph T) h o v n, wf_graph g -> evaluate ctx g h = Some (inr o) -> o_res o = Ok v ->
    switches g < iter_max -> (forall ev nd, In ev (o_log o) -> In (ev_node ev, nd) (g_nodes g) -> gn_kind nd <> KdOutput) ->
    connected (o_graph o) n -> exists out, ran (o_log o) n out.
  Proof. exact (complete sw_open sw_run handle in_context parent_nodes). Qed.

  (** ** C34: switches. *)
  (** What is left of the graph at the end, and whenever a node runs, is what remains when the edges struck out by the
      switches decided so far are left out. *)
  Theorem C34_final_graph : forall ctx (g : graph T) h o, wf_graph g -> evaluate ctx g h = Some (inr o) ->
    pruned_to g (struck g (w_switches (o_walker o))) (o_graph o).
  Proof. exact (final_graph sw_open sw_run handle in_context parent_nodes). Qed.
  Theorem C34_run_in_graph : forall ctx (g : graph T) h o pre ev post, wf_graph g -> evaluate ctx g h = Some (inr o) ->
    o_log o = pre ++ ev :: post ->
    exists cs, incl cs (w_switches (o_walker o)) /\ pruned_to g (struck g cs) (ev_graph ev) /\ In (ev_node ev) (node_ids (ev_graph ev)) /\
      connected (ev_graph ev) (ev_node ev).
  Proof. exact (runs_in_graph sw_open sw_run handle in_context parent_nodes). Qed.
  (** Where only the input has no incoming edge, a node runs only if a chain of remaining edges reaches it from the
      input. *)
  Theorem C34_run_reached : forall ctx (g : graph T) h o pre ev post, wf_graph g -> evaluate ctx g h = Some (inr o) ->
    o_log o = pre ++ ev :: post -> (forall m, In m (node_ids g) -> no_edge g m Incoming -> In m (inputs g)) ->
    In (ev_node ev) (inputs (ev_graph ev)) \/ exists m, In m (inputs (ev_graph ev)) /\ reaches (ev_graph ev) m (ev_node ev).
  Proof. exact (runs_reached sw_open sw_run handle in_context parent_nodes). Qed.
  (** The statements that count are those that hold, by hit policy; each switch is decided once, before it runs, and
      then keeps only the edges of those statements. *)
  Theorem C34_decided : forall ctx (g : graph T) h o c, wf_graph g -> evaluate ctx g h = Some (inr o) -> In c (w_switches (o_walker o)) ->
    exists nd p sts, In (ch_node c, nd) (g_nodes g) /\ gn_kind nd = KdSwitch p sts /\
      hits sw_run p sts (sw_open (ch_input c) (ch_nodes c)) (ch_heap c) (ch_valid c).
  Proof. exact (decided sw_open sw_run handle in_context parent_nodes). Qed.
  Theorem C34_decided_once : forall ctx (g : graph T) h o, wf_graph g -> evaluate ctx g h = Some (inr o) ->
    NoDup (map ch_node (w_switches (o_walker o))).
  Proof. exact (decided_once sw_open sw_run handle in_context parent_nodes). Qed.
  Theorem C34_switch_edges : forall ctx (g : graph T) h o ev nd p sts, wf_graph g -> evaluate ctx g h = Some (inr o) -> In ev (o_log o) ->
    In (ev_node ev, nd) (g_nodes g) -> gn_kind nd = KdSwitch p sts ->
    exists c, In c (w_switches (o_walker o)) /\ ch_node c = ev_node ev /\
      forall i e, In (i, e) (g_edges (ev_graph ev)) -> ge_src e = ev_node ev -> selects (ch_valid c) e.
  Proof. exact (switch_decided sw_open sw_run handle in_context parent_nodes). Qed.

  (** ** C35: a node's input is the merge of its remaining predecessors' outputs, the edge declared first winning
      ([merge_trees]: the last wins); putting it together changes nothing. *)
  Theorem C35_input : forall ctx (g : graph T) h o pre ev post nd, wf_graph g -> evaluate ctx g h = Some (inr o) ->
    o_log o = pre ++ ev :: post -> In (ev_node ev, nd) (g_nodes g) -> gn_kind nd <> KdInput ->
    exists outs, Forall2 (ran pre) (sources (ev_graph ev) (ev_node ev)) outs /\
    forall ts, wf_heap (ev_start ev) -> Forall2 (repr (ev_start ev)) outs ts -> apart (ev_start ev) (rev outs) ->
      (forall l cell, hget (ev_start ev) l = Some cell -> hget (ev_heap ev) l = Some cell) /\
      exists t, repr (ev_heap ev) (ev_input ev) t /\ teq t (merge_trees (rev ts)) = true.
  Proof. exact (input_is_merge sw_open sw_run handle in_context parent_nodes). Qed.
  (** Likewise for what a switch is decided on. *)
  Theorem C35_switch_input : forall ctx (g : graph T) h o c, wf_graph g -> evaluate ctx g h = Some (inr o) -> In c (w_switches (o_walker o)) ->
    exists outs, Forall2 (ran (o_log o)) (sources (ch_graph c) (ch_node c)) outs /\
    forall ts, wf_heap (ch_start c) -> Forall2 (repr (ch_start c)) outs ts -> apart (ch_start c) (rev outs) ->
      (forall l cell, hget (ch_start c) l = Some cell -> hget (ch_heap c) l = Some cell) /\
      exists t, repr (ch_heap c) (ch_input c) t /\ teq t (merge_trees (rev ts)) = true.
  Proof. exact (switch_input_merge sw_open sw_run handle in_context parent_nodes). Qed.

  (** The input node is given the context; a switch passes on what it is given; the output of any other node is what it
      makes of its input, [$nodes] and the memory. *)
  Theorem C35_output : forall ctx (g : graph T) h o ev, wf_graph g -> evaluate ctx g h = Some (inr o) -> In ev (o_log o) ->
    exists nd, In (ev_node ev, nd) (g_nodes g) /\ (gn_kind nd = KdInput -> ev_input ev = ctx) /\
      match gn_kind nd with
      | KdSwitch _ _ => ev_out ev = Ok (ev_input ev)
      | _ => ev_out ev = snd (handle nd (ev_input ev) (ev_nodes ev) (ev_heap ev))
      end.
  Proof. exact (event_of sw_open sw_run handle in_context parent_nodes). Qed.
  (** ** C54: the [$nodes] a node sees has the outputs of exactly the nodes that have run, by name. *)
  Theorem C54_nodes : forall ctx (g : graph T) h o pre ev post, wf_graph g -> evaluate ctx g h = Some (inr o) ->
    o_log o = pre ++ ev :: post -> parent_nodes = None ->
    if in_context then exists l m, ev_nodes ev = Some (VObj l) /\ hget (ev_heap ev) l = Some (CObj m) /\ forall k, aget k m = output_named g pre k
    else ev_nodes ev = None.
  Proof. exact (nodes_seen sw_open sw_run handle in_context parent_nodes). Qed.
End Walks.
Print Assumptions C35_output.
Print Assumptions C54_nodes.
Print Assumptions C32_once.
Print Assumptions C32_after_predecessors.
Print Assumptions C32_error_stops.
Print Assumptions C32_output_stops.
Print Assumptions C32_complete.
Print Assumptions C33_ends.
Print Assumptions C33_bound.
Print Assumptions C33_rejected.
Print Assumptions C34_final_graph.
Print Assumptions C34_run_in_graph.
Print Assumptions C34_run_reached.
Print Assumptions C34_decided.
Print Assumptions C34_decided_once.
Print Assumptions C34_switch_edges.
Print Assumptions C35_input.
Print Assumptions C35_switch_input.

(** The sample meets the hypotheses: the switch keeps [s2] only, task 1 and its edges are gone, task 3 runs last and is
    given the merge of tasks 2 and 4, with "k" from task 2, whose edge was declared first. *)
Example C32_case : map ev_node (o_log (t_out sample_graph)) = [0; 1; 3; 5; 4] /\ switches sample_graph < iter_max /\
  (exists v, o_res (t_out sample_graph) = Ok v) /\ node_ids (o_graph (t_out sample_graph)) = [0; 1; 3; 4; 5].
Proof. split; [vm_compute; reflexivity|]. split; [vm_compute; lia|]. split; [eexists; vm_compute; reflexivity|vm_compute; reflexivity]. Qed.
Example C33_case : wf_graph sample_graph /\ (exists o, t_eval sample_graph = Some (inr o)) /\ length (o_log (t_out sample_graph)) = 5.
Proof. split; [exact sample_wf|]. split; [eexists; apply sample_runs|vm_compute; reflexivity]. Qed.
Example C34_case : map ch_valid (w_switches (o_walker (t_out sample_graph))) = [[Statement "s2" "yes"]] /\
  map fst (g_edges (o_graph (t_out sample_graph))) = [0; 2; 4; 5; 6] /\
  (forall m, In m (node_ids sample_graph) -> no_edge sample_graph m Incoming -> In m (inputs sample_graph)).
Proof.
  split; [vm_compute; reflexivity|]. split; [vm_compute; reflexivity|]. intros m I N. vm_compute in I.
  repeat (destruct I as [<-|I]; [first [vm_compute; left; reflexivity|exfalso; apply no_edge_nil in N; vm_compute in N; discriminate N]|]). contradiction.
Qed.

Definition last_event : event nat := last (o_log (t_out sample_graph)) (Event 0 sample_graph [] [] VNull None (Ok VNull)).
Definition last_start : heap := Eval vm_compute in ev_start last_event.
Definition last_heap : heap := Eval vm_compute in ev_heap last_event.
Lemma num_reach : forall h l m x, hget h l = Some (CObj m) -> Forall (fun kv => exists d, snd kv = VNum d) m -> reach h (VObj l) (VObj x) -> VObj x = VObj l.
Proof.
  intros h l m x G F R. apply reach_obj_inv in R. destruct R as [E|(m0 & k & y & G0 & I0 & R0)]; [exact E|]. rewrite G in G0. injection G0 as <-.
  rewrite Forall_forall in F. destruct (F _ I0) as (d & E). cbn in E. subst. inversion R0.
Qed.
Example C35_case : ev_node last_event = 4 /\ sources (ev_graph last_event) 4 = [3; 5] /\
  map ev_out (o_log (t_out sample_graph)) = [Ok VNull; Ok (VObj 4); Ok (VObj 7); Ok (VObj 10); Ok (VObj 13)] /\
  ev_start last_event = last_start /\ ev_heap last_event = last_heap /\ ev_input last_event = VObj 11 /\
  apart last_start [VObj 10; VObj 7] /\
  Forall2 (repr last_start) [VObj 7; VObj 10]
    [TObj [("k", TNum (dec_of_nat 2)); ("only2", TNum (dec_of_nat 2))]; TObj [("k", TNum (dec_of_nat 4)); ("only4", TNum (dec_of_nat 4))]] /\
  repr last_heap (VObj 11) (TObj [("k", TNum (dec_of_nat 2)); ("only4", TNum (dec_of_nat 4)); ("only2", TNum (dec_of_nat 2))]).
Proof.
  do 2 (split; [vm_compute; reflexivity|]). do 4 (split; [vm_compute; reflexivity|]). split; [|split].
  - split; [|split; [constructor|exact Logic.I]]. constructor; [|constructor]. intros l t R1 R2 _. exfalso.
    apply (num_reach last_start 10 _ _ eq_refl) in R1; [|repeat constructor; eexists; reflexivity].
    apply (num_reach last_start 7 _ _ eq_refl) in R2; [|repeat constructor; eexists; reflexivity]. congruence.
  - repeat constructor; eapply RObj; try reflexivity; repeat constructor.
  - eapply RObj; [reflexivity|]. repeat constructor.
Qed.

(** Task 3 sees the outputs of the input, the switch and tasks 2 and 4. *)
Example C54_case : ev_nodes last_event = Some (VObj 12) /\
  hget (ev_heap last_event) 12 = Some (CObj [("ni", VNull); ("nw", VObj 4); ("nb", VObj 7); ("nd", VObj 10)]) /\
  output_named sample_graph (removelast (o_log (t_out sample_graph))) "nd" = Some (VObj 10).
Proof. repeat split; vm_compute; reflexivity. Qed.
