(** Decision graphs. Models core/engine/src/decision_graph/graph.rs (building and validation) and the parts of
    petgraph's [StableDiGraph] they use.

    A graph is a list of nodes and a list of edges, both tagged with their index, in insertion order; removing
    one leaves the other indices alone. petgraph keeps the edges of a node in a linked list whose head is
    the edge added last, so edges are enumerated from the newest to the oldest. Node ids, names and kinds
    are kept; a kind that is neither input, output nor switch is a task of type [T] (nodes/mod.rs). *)
From Coq Require Import String ZArith Lia Bool List Arith.
From Verif Require Import Base.
Import ListNotations.
Local Open Scope string_scope.
Local Open Scope list_scope.
Local Open Scope nat_scope.

(** model/decision.rs: SwitchStatement, SwitchStatementHitPolicy, DecisionEdge. *)
Inductive hit_policy := HFirst | HCollect.
Record statement := Statement { st_id : string; st_cond : string }.
Record cedge := CEdge { ce_source : string; ce_target : string; ce_handle : option string }.

Section Graph.
  Variable T : Type.
  (** model/decision.rs: DecisionNodeKind, DecisionNode. *)
  Inductive gkind := KdInput | KdOutput | KdSwitch (p : hit_policy) (l : list statement) | KdTask (t : T).
  Record gnode := GNode { gn_id : string; gn_name : string; gn_kind : gkind }.
  (** model/decision_content.rs: GraphContent, nodes and edges. *)
  Record content := Content { c_nodes : list gnode; c_edges : list cedge }.

  Record gedge := GEdge { ge_src : nat; ge_tgt : nat; ge_handle : option string }.
  Record graph := Graph { g_nodes : list (nat * gnode); g_edges : list (nat * gedge) }.

  Inductive dir := Incoming | Outgoing.
  Definition opposite (d : dir) : dir := match d with Incoming => Outgoing | Outgoing => Incoming end.
  (** The end of an edge at which direction [d] attaches it: an incoming edge to its target. *)
  Definition at_end (d : dir) (e : gedge) : nat := match d with Incoming => ge_tgt e | Outgoing => ge_src e end.
  (** [edges_directed]: newest first. *)
  Definition edges_directed (g : graph) (n : nat) (d : dir) : list (nat * gedge) :=
    rev (filter (fun e => at_end d (snd e) =? n) (g_edges g)).
  (** [neighbors_directed]: the other ends, one per edge. *)
  Definition neighbors (g : graph) (n : nat) (d : dir) : list nat :=
    map (fun e => at_end (opposite d) (snd e)) (edges_directed g n d).
  Definition node_at (g : graph) (n : nat) : option gnode :=
    option_map snd (find (fun x => fst x =? n) (g_nodes g)).
  (** [node_identifiers], [node_indices]: in index order. *)
  Definition node_ids (g : graph) : list nat := map fst (g_nodes g).
  (** [edge_endpoints]. *)
  Definition endpoints (g : graph) (e : nat) : option (nat * nat) :=
    option_map (fun x => (ge_src (snd x), ge_tgt (snd x))) (find (fun x => fst x =? e) (g_edges g)).
  (** [remove_edge], [remove_node]; the latter removes the node's edges too. *)
  Definition remove_edge (g : graph) (e : nat) : graph :=
    Graph (g_nodes g) (filter (fun x => negb (fst x =? e)) (g_edges g)).
  Definition remove_node (g : graph) (n : nat) : graph :=
    Graph (filter (fun x => negb (fst x =? n)) (g_nodes g))
          (filter (fun x => negb (ge_src (snd x) =? n) && negb (ge_tgt (snd x) =? n)) (g_edges g)).

  (** graph.rs:65-93 [build_graph]. *)
  Inductive gerror := MissingNode (id : string) | InvalidInputCount (n : nat) | CyclicGraph.
  Fixpoint add_nodes (i : nat) (l : list gnode) : list (nat * gnode) :=
    match l with [] => [] | n :: r => (i, n) :: add_nodes (S i) r end.
  (** The index map; a later node with the same id replaces an earlier one. *)
  Fixpoint index_map (i : nat) (l : list gnode) (m : amap nat) : amap nat :=
    match l with [] => m | n :: r => index_map (S i) r (aset (gn_id n) i m) end.
  Fixpoint add_edges (m : amap nat) (i : nat) (l : list cedge) : gerror + list (nat * gedge) :=
    match l with
    | [] => inr []
    | e :: r =>
        match aget (ce_source e) m with
        | None => inl (MissingNode (ce_source e))
        | Some s =>
            match aget (ce_target e) m with
            | None => inl (MissingNode (ce_target e))
            | Some t =>
                match add_edges m (S i) r with
                | inl x => inl x
                | inr l => inr ((i, GEdge s t (ce_handle e)) :: l)
                end
            end
        end
    end.
  Definition build_graph (c : content) : gerror + graph :=
    match add_edges (index_map 0 (c_nodes c) []) 0 (c_edges c) with
    | inl x => inl x
    | inr es => inr (Graph (add_nodes 0 (c_nodes c)) es)
    end.

  (** [petgraph::algo::is_cyclic_directed]: depth-first search from every node, looking for an edge to a node that
      is discovered but not finished. State: discovered nodes, finished nodes. Fuel: the search goes at most
      as deep as there are nodes. *)
  Fixpoint dfs_list (visit : nat -> list nat * list nat -> option (list nat * list nat)) (vs : list nat)
    (s : list nat * list nat) : option (list nat * list nat) :=
    match vs with
    | [] => Some s
    | v :: r =>
        if existsb (Nat.eqb v) (fst s) then
          if existsb (Nat.eqb v) (snd s) then dfs_list visit r s else None
        else match visit v s with Some s1 => dfs_list visit r s1 | None => None end
    end.
  (** [None]: a back edge was found. *)
  Fixpoint dfs (fuel : nat) (g : graph) (u : nat) (s : list nat * list nat) : option (list nat * list nat) :=
    match fuel with
    | O => None
    | S k =>
        if existsb (Nat.eqb u) (fst s) then Some s
        else match dfs_list (dfs k g) (neighbors g u Outgoing) (u :: fst s, snd s) with
             | None => None
             | Some (d, f) => Some (d, u :: f)
             end
    end.
  Fixpoint dfs_all (fuel : nat) (g : graph) (us : list nat) (s : list nat * list nat) : option (list nat * list nat) :=
    match us with
    | [] => Some s
    | u :: r => match dfs fuel g u s with Some s1 => dfs_all fuel g r s1 | None => None end
    end.
  Definition is_cyclic (g : graph) : bool :=
    match dfs_all (S (length (g_nodes g))) g (node_ids g) ([], []) with Some _ => false | None => true end.

  (** graph.rs:99-118 [validate]. *)
  Definition is_input (n : gnode) : bool := match gn_kind n with KdInput => true | _ => false end.
  Definition validate (g : graph) : option gerror :=
    let k := length (filter (fun x => is_input (snd x)) (g_nodes g)) in
    if negb (k =? 1) then Some (InvalidInputCount k)
    else if is_cyclic g then Some CyclicGraph else None.
End Graph.
Arguments KdInput {T}. Arguments KdOutput {T}. Arguments KdSwitch {T}. Arguments KdTask {T}.
Arguments GNode {T}. Arguments gn_id {T}. Arguments gn_name {T}. Arguments gn_kind {T}.
Arguments Content {T}. Arguments c_nodes {T}. Arguments c_edges {T}.
Arguments Graph {T}. Arguments g_nodes {T}. Arguments g_edges {T}.
Arguments edges_directed {T}. Arguments neighbors {T}. Arguments node_at {T}. Arguments node_ids {T}. Arguments endpoints {T}.
Arguments remove_edge {T}. Arguments remove_node {T}. Arguments build_graph {T}. Arguments is_cyclic {T}. Arguments validate {T}.
Arguments is_input {T}. Arguments dfs {T}. Arguments dfs_all {T}. Arguments add_nodes {T}. Arguments index_map {T}.
