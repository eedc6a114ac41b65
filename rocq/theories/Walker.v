(** Walking a decision graph. Models core/engine/src/decision_graph/walker.rs and the evaluation loop of
    decision_graph/graph.rs.

    Parameters: what a node does ([handle]: nodes/*, given the node's input and the view of all node results) and how a
    switch condition is evaluated ([sw_open], [sw_run]: an isolate, core/expression/src/isolate.rs). Tracing
    is dropped (it reads and copies values, it does not write them). [node_data] is a hash map in the code; here it is a list,
    so where several nodes share a name [all_data] resolves the clash by node order, which the code leaves open. *)
From Coq Require Import String ZArith Lia Bool List Arith.
From Verif Require Import Base Dec Value Heap Graph.
Import ListNotations.
Local Open Scope string_scope.
Local Open Scope list_scope.
Local Open Scope nat_scope.

(** variable/mod.rs:347-361 [merge_clone] and [merge]; the fuel is enough for every value without a cycle. On a cyclic value
    the code overflows the stack. *)
Definition merge_clone (h : heap) (doc patch : value) : heap * res value :=
  match merge_cow (S (S (S (2 * length h)))) h doc patch true with
  | Some (h1, v, _) => (h1, Ok v)
  | None => (h, Err (EPanic "stack overflow"))
  end.
Definition merge_in_place (h : heap) (doc patch : value) : heap * res value :=
  match merge_ip (S (S (S (2 * length h)))) [] [] h doc patch true with
  | Some (Ok (h1, v, _)) => (h1, Ok v)
  | Some (Err e) => (h, Err e)
  | None => (h, Err (EPanic "stack overflow"))
  end.

(** walker.rs:23-27. *)
Record ndata := ND { nd_name : string; nd_data : value; nd_view : option value }.

Section Walk.
  Variable T : Type.
  Notation graph := (graph T).
  Notation gnode := (gnode T).
  (** An isolate opened on an environment and [$nodes]; running a condition on it: whether it is true. *)
  Variable IS : Type.
  Variable sw_open : value -> option value -> IS.
  Variable sw_run : IS -> string -> heap -> IS * heap * bool.
  (** What a node does: its input, [$nodes], memory. *)
  Variable handle : gnode -> value -> option value -> heap -> heap * res value.
  (** [nodes_in_context] (config.rs). *)
  Variable in_context : bool.
  (** [parent_nodes] of the graph (graph.rs:37). *)
  Variable parent_nodes : option value.

  (** A switch that has been decided (walker.rs:227 keeps the node; the rest is for the statements of theorems): the
      node, what it was decided on, and the statements found to hold. *)
  Record choice := Choice { ch_node : nat; ch_graph : graph; ch_data : list (nat * ndata); ch_start : heap; ch_input : value; ch_nodes : option value; ch_heap : heap; ch_valid : list statement }.
  (** walker.rs:29-37. The stack's top is its head. *)
  Record walker := Walker {
    w_iter : nat; w_data : list (nat * ndata); w_ordered : list nat; w_stack : list nat; w_switches : list choice }.
  Definition iter_max : nat := 1000.

  (** walker.rs:42-67. *)
  Definition input_ids (g : graph) : list nat := map fst (filter (fun x => is_input (snd x)) (g_nodes g)).
  Definition walker_new (g : graph) : walker := Walker 0 [] [] (rev (input_ids g)) [].
  (** walker.rs:69-75. *)
  Definition reset (g : graph) (w : walker) : walker :=
    Walker (S (w_iter w)) (w_data w) [] (rev (input_ids g)) (w_switches w).

  Definition lookup (data : list (nat * ndata)) (n : nat) : option ndata := option_map snd (find (fun x => fst x =? n) data).
  Definition data_of (w : walker) (n : nat) : option ndata := lookup (w_data w) n.
  (** walker.rs:108-110. *)
  Definition set_data (w : walker) (n : nat) (d : ndata) : walker :=
    Walker (w_iter w) (filter (fun x => negb (fst x =? n)) (w_data w) ++ [(n, d)]) (w_ordered w) (w_stack w) (w_switches w).
  (** walker.rs:95-106,112-114. *)
  Definition all_data (data : list (nat * ndata)) (h : heap) : heap * value :=
    new_obj h (fold_left (fun m x => aset (nd_name (snd x)) (match nd_view (snd x) with Some v => v | None => nd_data (snd x) end) m) data []).
  Definition nodes_context (data : list (nat * ndata)) (h : heap) : heap * option value :=
    if in_context then let (h1, v) := all_data data h in (h1, Some v) else (h, None).

  (** walker.rs:126-141 [merge_node_data]. *)
  Fixpoint merge_all (h : heap) (acc : value) (l : list value) : heap * res value :=
    match l with
    | [] => (h, Ok acc)
    | v :: r => match merge_clone h acc v with
                | (h1, Ok a) => merge_all h1 a r
                | (h1, Err e) => (h1, Err e)
                end
    end.
  Definition somes {A B} (f : A -> option B) (l : list A) : list B :=
    flat_map (fun x => match f x with Some y => [y] | None => [] end) l.
  Definition merge_values (l : list value) (h : heap) : heap * res value :=
    match l with
    | [] => let (h1, v) := new_obj h [] in (h1, Ok v)
    | d :: r =>
        let (h1, head) := match d with
                          | VObj _ | VArr _ => (h, d)
                          | _ => new_obj h []
                          end in
        merge_all h1 head r
    end.
  Definition merge_data (data : list (nat * ndata)) (ns : list nat) (h : heap) : heap * res value :=
    merge_values (map nd_data (somes (lookup data) ns)) h.
  (** walker.rs:116-124. *)
  Definition incoming_data (g : graph) (w : walker) (n : nat) (h : heap) : heap * res value :=
    merge_data (w_data w) (neighbors g n Incoming) h.

  (** walker.rs:245-258. *)
  Definition visited (w : walker) (n : nat) : bool := existsb (Nat.eqb n) (w_ordered w).
  Definition resolved (g : graph) (w : walker) (n : nat) : bool := forallb (visited w) (neighbors g n Incoming).
  Definition unresolved (g : graph) (w : walker) (n : nat) : list nat :=
    filter (fun d => negb (visited w d)) (neighbors g n Incoming).

  (** walker.rs:261-269 [switch_statement_evaluate], 176-189: the statements that hold. *)
  Definition holds (i : IS) (s : statement) (h : heap) : IS * heap * bool :=
    if String.eqb (st_cond s) "" then (i, h, true) else sw_run i (st_cond s) h.
  Fixpoint select (p : hit_policy) (l : list statement) (i : IS) (h : heap) : heap * list statement :=
    match l with
    | [] => (h, [])
    | s :: r =>
        match holds i s h with
        | (i1, h1, true) =>
            match p with
            | HFirst => (h1, [s])
            | HCollect => let (h2, r1) := select p r i1 h1 in (h2, s :: r1)
            end
        | (i1, h1, false) => select p r i1 h1
        end
    end.

  (** walker.rs:271-295 [remove_edge_recursive]. Fuel: every call removes an edge. *)
  Fixpoint remove_rec (fuel : nat) (g : graph) (e : nat) : graph :=
    match fuel with
    | O => g
    | S k =>
        match endpoints g e with
        | None => g
        | Some (s, t) =>
            let starve (g : graph) (n : nat) (d : dir) : graph :=
              match edges_directed g n d with
              | _ :: _ => g
              | [] =>
                  let g1 := fold_left (remove_rec k) (map fst (edges_directed g n (opposite d))) g in
                  match edges_directed g1 n Outgoing with [] => remove_node g1 n | _ :: _ => g1 end
              end in
            starve (starve (remove_edge g e) t Incoming) s Outgoing
        end
    end.
  (** walker.rs:211-225: the edges of a switch whose handle is not the id of a statement that holds. *)
  Definition dropped (g : graph) (n : nat) (valid : list statement) : list nat :=
    map fst (filter (fun x => match ge_handle (snd x) with
                              | None => true
                              | Some hd => negb (existsb (fun s => String.eqb (st_id s) hd) valid)
                              end) (edges_directed g n Outgoing)).
  Definition prune (g : graph) (es : list nat) : graph := fold_left (remove_rec (length (g_edges g))) es g.

  (** walker.rs:143-243 [next]. [None]: out of fuel. The node returned, if any, with the graph, the walker and the
      memory. An error is a panic of the code. *)
  Definition next_result := option (graph * walker * heap * res (option nat)).
  Fixpoint next_loop (fuel : nat) (g : graph) (w : walker) (h : heap) : next_result :=
    match fuel with
    | O => None
    | S k =>
        match w_stack w with
        | [] => Some (g, w, h, Ok None)
        | n :: rest =>
            let w0 := Walker (w_iter w) (w_data w) (w_ordered w) rest (w_switches w) in
            if visited w0 n then next_loop k g w0 h
            else if negb (resolved g w0 n) then
              next_loop k g (Walker (w_iter w) (w_data w) (w_ordered w) (rev (unresolved g w0 n) ++ n :: rest) (w_switches w)) h
            else
              let w1 := Walker (w_iter w) (w_data w) (n :: w_ordered w) rest (w_switches w) in
              let found g w h :=
                Some (g, Walker (w_iter w) (w_data w) (w_ordered w) (rev (neighbors g n Outgoing) ++ w_stack w) (w_switches w), h, Ok (Some n)) in
              match node_at g n with
              | None => Some (g, w1, h, Ok None)
              | Some nd =>
                  match gn_kind nd with
                  | KdSwitch p sts =>
                      if existsb (Nat.eqb n) (map ch_node (w_switches w)) then found g w1 h
                      else
                        match incoming_data g w1 n h with
                        | (h1, Err e) => Some (g, w1, h1, Err e)
                        | (h1, Ok input) =>
                            let (h2, ns) := nodes_context (w_data w1) h1 in
                            let (h3, valid) := select p sts (sw_open input ns) h2 in
                            let es := dropped g n valid in
                            let g1 := prune g es in
                            let w2 := Walker (w_iter w1) (w_data w1) (w_ordered w1) (w_stack w1) (Choice n g (w_data w) h input ns h2 valid :: w_switches w1) in
                            match es with
                            | [] => found g1 w2 h3
                            | _ :: _ => next_loop k g1 (reset g1 w2) h3
                            end
                        end
                  | _ => found g w1 h
                  end
              end
        end
    end.
  Definition switches (g : graph) : nat :=
    length (filter (fun x => match gn_kind (snd x) with KdSwitch _ _ => true | _ => false end) (g_nodes g)).
  Definition next_fuel (g : graph) (w : walker) : nat :=
    length (w_stack w) + S (S (length (g_nodes g))) * 2 * S (switches g).
  (* walker.rs:149-151: the limit is tested once, on entry *)
  Definition next (g : graph) (w : walker) (h : heap) : next_result :=
    if iter_max <=? w_iter w then Some (g, w, h, Ok None) else next_loop (next_fuel g w) g w h.

  (** graph.rs:178-295: one entry of the log of node executions. [ev_graph]: what is left of the graph when the node
      runs; [ev_start]: the memory before its input is put together; [ev_heap]: the memory it starts from; [ev_input]: what
      it is given. *)
  Record event := Event { ev_node : nat; ev_graph : graph; ev_start : heap; ev_heap : heap; ev_input : value; ev_nodes : option value; ev_out : res value }.

  (** walker.rs:81-92 [ending_variables]. *)
  Definition endings (g : graph) (w : walker) : list nat :=
    filter (fun n => visited w n && match edges_directed g n Outgoing with [] => true | _ :: _ => false end) (node_ids g).
  Fixpoint merge_ends (h : heap) (acc : value) (l : list value) : heap * res value :=
    match l with
    | [] => (h, Ok acc)
    | v :: r => match merge_in_place h acc v with
                | (h1, Ok a) => merge_ends h1 a r
                | (h1, Err e) => (h1, Err e)
                end
    end.
  Definition ending_data (g : graph) (w : walker) (h : heap) : heap * res value :=
    let (h1, o) := new_obj h [] in merge_ends h1 o (map nd_data (somes (data_of w) (endings g w))).

  (** What one node execution does (graph.rs:188-241): the switch passes its input on, the input node gets the
      context. *)
  Definition execute (nd : gnode) (input : value) (ns : option value) (h : heap) : heap * res value :=
    match gn_kind nd with
    | KdSwitch _ _ => (h, Ok input)
    | _ => handle nd input ns h
    end.
  Definition given (ctx : value) (nd : gnode) (input : value) : value :=
    match gn_kind nd with KdInput => ctx | _ => input end.
  (** graph.rs:273-280: what [$nodes] shows of an input node of a nested decision. *)
  Definition view_of (nd : gnode) (out : value) (h : heap) : heap * option value :=
    match gn_kind nd, parent_nodes with
    | KdInput, Some p => let (h1, v) := depth_clone1 h out in (fst (dot_insert h1 v "$nodes" p), Some v)
    | _, _ => (h, None)
    end.

  Record outcome := Outcome { o_graph : graph; o_walker : walker; o_heap : heap; o_log : list event; o_res : res value }.
  (** graph.rs:175-297: the loop. The log grows at the end. [None]: out of fuel. *)
  Fixpoint eval_loop (fuel : nat) (ctx : value) (g : graph) (w : walker) (h : heap) (log : list event) : option outcome :=
    match fuel with
    | O => None
    | S k =>
        match next g w h with
        | None => None
        | Some (g1, w1, h1, Err e) => Some (Outcome g1 w1 h1 log (Err e))
        | Some (g1, w1, h1, Ok None) => let (h2, r) := ending_data g1 w1 h1 in Some (Outcome g1 w1 h2 log r)
        | Some (g1, w1, h1, Ok (Some n)) =>
            match data_of w1 n with
            | Some _ => eval_loop k ctx g1 w1 h1 log
            | None =>
                match node_at g1 n with
                | None => Some (Outcome g1 w1 h1 log (Err (EPanic "no node weight")))
                | Some nd =>
                    match incoming_data g1 w1 n h1 with
                    | (h2, Err e) => Some (Outcome g1 w1 h2 log (Err e))
                    | (h2, Ok input) =>
                        let (h3, ns) := nodes_context (w_data w1) h2 in
                        let (h4, r) := execute nd (given ctx nd input) ns h3 in
                        let log1 := log ++ [Event n g1 h1 h3 (given ctx nd input) ns r] in
                        match r with
                        | Err e => Some (Outcome g1 w1 h4 log1 (Err e))
                        | Ok out =>
                            let (h5, view) := view_of nd out h4 in
                            let w2 := set_data w1 n (ND (gn_name nd) out view) in
                            match gn_kind nd with
                            | KdOutput => let (h6, r6) := ending_data g1 w2 h5 in Some (Outcome g1 w2 h6 log1 r6)
                            | _ => eval_loop k ctx g1 w2 h5 log1
                            end
                        end
                    end
                end
            end
        end
    end.
  Definition eval_fuel (g : graph) : nat := S (S (length (g_nodes g)) * S (switches g)).
  (** graph.rs:164-297 [evaluate] after validation and the depth test. *)
  Definition walk_graph (ctx : value) (g : graph) (h : heap) : option outcome :=
    eval_loop (eval_fuel g) ctx g (walker_new g) h [].
  (** graph.rs:164-173: with validation. [None]: does not stop. *)
  Definition evaluate_graph (ctx : value) (g : graph) (h : heap) : option (gerror + outcome) :=
    match validate g with
    | Some e => Some (inl e)
    | None => match walk_graph ctx g h with Some o => Some (inr o) | None => None end
    end.
End Walk.
Arguments Choice {T}. Arguments ch_node {T}. Arguments ch_graph {T}. Arguments ch_data {T}. Arguments ch_start {T}. Arguments ch_input {T}. Arguments ch_nodes {T}.
Arguments ch_heap {T}. Arguments ch_valid {T}.
Arguments Walker {T}. Arguments w_iter {T}. Arguments w_data {T}. Arguments w_ordered {T}. Arguments w_stack {T}. Arguments w_switches {T}.
Arguments input_ids {T}. Arguments walker_new {T}. Arguments reset {T}. Arguments data_of {T}. Arguments set_data {T}.
Arguments incoming_data {T}. Arguments visited {T}.
Arguments resolved {T}. Arguments unresolved {T}. Arguments holds {IS}. Arguments select {IS}.
Arguments remove_rec {T}. Arguments dropped {T}. Arguments prune {T}. Arguments next_loop {T IS}. Arguments next {T IS}.
Arguments switches {T}. Arguments next_fuel {T}. Arguments endings {T}. Arguments ending_data {T}. Arguments execute {T}.
Arguments given {T}. Arguments view_of {T}. Arguments eval_loop {T IS}. Arguments eval_fuel {T}. Arguments walk_graph {T IS}. Arguments evaluate_graph {T IS}.
Arguments Event {T}. Arguments ev_node {T}. Arguments ev_graph {T}. Arguments ev_start {T}. Arguments ev_heap {T}. Arguments ev_input {T}.
Arguments ev_nodes {T}. Arguments ev_out {T}. Arguments Outcome {T}. Arguments o_graph {T}. Arguments o_walker {T}. Arguments o_heap {T}.
Arguments o_log {T}. Arguments o_res {T}.
