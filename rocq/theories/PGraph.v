(** What a policy needs from its input: the graph of the properties that blocks read and write, what is reachable in it from the goals of a
    request, the checks before an evaluation and the goals of a request that names none.
    Models core/engine/src/policy/queries/dependency.rs:77-311 and 409-537 and 660-708, queries/schema.rs:200-223 and 301-320, queries/scope.rs:23-64 and
    core/engine/src/policy/evaluator.rs:108-248, with the reads of core/engine/src/policy/blocks/{context,property_read,expression,assertion,match_block}.rs.
    Simplifications: a node of the graph is its path ([node_map] is a bijection); the order of nodes and edges, which only hash maps and the
    library decide, is the order of the blocks; types are left out. As in PolicyRun.v there are no decision tables and no blocks that run for
    every instance of an entity, and references of the input have been resolved. *)
From Coq Require Import String Ascii Bool List Arith.
From Verif Require Import Base Dec Value Heap Ast Ops Isolate Session Deps Driver Blocks PolicyRun.
Import ListNotations.
Local Open Scope string_scope.
Local Open Scope nat_scope.
Local Open Scope list_scope.

(** ** Collections of entities *)
(** scope.rs:21 [EntitySources]: the path at which the instances of an entity are found. *)
Definition entity_sources := amap string.
(** scope.rs:34: the longest path first. *)
Fixpoint put_longest (e : string * string) (l : list (string * string)) : list (string * string) :=
  match l with
  | [] => [e]
  | x :: r => if Nat.ltb (String.length (fst x)) (String.length (fst e)) then e :: l else x :: put_longest e r
  end.
(** scope.rs:28-36 [EntityForm::new]. *)
Definition entity_form (s : entity_sources) : list (string * string) :=
  fold_left (fun l e => put_longest e l) (map (fun e => (snd e, fst e)) (filter (fun e => negb (String.eqb (snd e) (fst e))) s)) [].
Fixpoint drop (n : nat) (s : string) : string := match n, s with S n, String _ r => drop n r | _, _ => s end.
(** scope.rs:43-57: the first collection the path goes into. *)
Definition rewrite_once (form : list (string * string)) (p : string) : option string :=
  match find (fun e => String.prefix (fst e ++ ".") p && negb (String.eqb (snd e ++ "." ++ drop (S (String.length (fst e))) p) p)) form with
  | Some (src, entity) => Some (entity ++ "." ++ drop (S (String.length src)) p)%string
  | None => None
  end.
Fixpoint rewrite_loop (n : nat) (form : list (string * string)) (p : string) : string :=
  match n with
  | 0 => p
  | S n => match rewrite_once form p with Some q => rewrite_loop n form q | None => p end
  end.
(** scope.rs:38-63 [EntityForm::rewrite]; the limit is policy/mod.rs [MAX_RECURSION_DEPTH]. *)
Definition entity_rewrite (s : entity_sources) (p : string) : option string :=
  match rewrite_once (entity_form s) p with
  | Some q => Some (rewrite_loop 31 (entity_form s) q)
  | None => None
  end.

(** ** The graph *)
(** dependency.rs:50-56 [RuleShallowAnalysis]. *)
Record shallow := Shallow { sh_block : bref; sh_reads : list string; sh_writes : list string }.
Definition smem (x : string) (l : list string) : bool := existsb (String.eqb x) l.
Section Graph.
  Variable dm : list string.
  Variable sources : entity_sources.
  Variable rules : list shallow.
  (** dependency.rs:434-446, 464-481: the nodes that a written path gives. *)
  Definition write_nodes (w : string) : list string :=
    if in_model dm w then [] else w :: filter (fun q => negb (in_model dm q)) (dot_prefixes w).
  (** dependency.rs:421-492: [node_map]. *)
  Definition graph_nodes : list string := flat_map (fun s => sh_reads s ++ flat_map write_nodes (sh_writes s)) rules.
  (** dependency.rs:448-460, 482-488: [written_by]. *)
  Definition graph_written : amap bref := found_writers dm (map (fun s => (sh_block s, sh_writes s)) rules).
  Definition is_written (p : string) : bool := match aget p graph_written with Some _ => true | None => false end.
  (** dependency.rs:489-491: from a written path to what holds it. *)
  Definition prefix_edges (w : string) : list (string * string) :=
    if in_model dm w then []
    else map (fun q => (w, q)) (filter (fun q => negb (in_model dm q) && negb (String.eqb q w)) (dot_prefixes w)).
  (** dependency.rs:504-531: from a path that is read to one that is written. *)
  Definition read_edges (w r : string) : list (string * string) :=
    (if negb (String.eqb r w) && negb (extends r w) then [(r, w)] else []) ++
    match entity_rewrite sources r with
    | Some e => if smem e graph_nodes && negb (String.eqb e w) then [(e, w)] else []
    | None => []
    end ++
    map (fun a => (a, w)) (filter (fun a => smem a graph_nodes && negb (String.eqb a w) && is_written a && negb (extends a w)) (dot_prefixes r)).
  (** dependency.rs:409-537 [compute_graph]. *)
  Definition graph_edges : list (string * string) :=
    flat_map (fun s => flat_map prefix_edges (sh_writes s)) rules ++
    flat_map (fun s => flat_map (fun w => if in_model dm w then [] else flat_map (read_edges w) (sh_reads s)) (sh_writes s)) rules.
  (** petgraph: the nodes with an edge to [p]. *)
  Definition preds (edges : list (string * string)) (p : string) : list string := map fst (filter (fun e => String.eqb (snd e) p) edges).
  (** dependency.rs:262-270. The code takes the last node of the stack, which does not matter for the set that is found. The number
      bounds the steps. *)
  Fixpoint reach (fuel : nat) (edges : list (string * string)) (stack seen : list string) : list string :=
    match fuel with
    | 0 => seen
    | S f =>
        match stack with
        | [] => seen
        | x :: r => if smem x seen then reach f edges r seen else reach f edges (preds edges x ++ r) (x :: seen)
        end
    end.
  (** dependency.rs:256-272 [reachable_from]. *)
  Definition reachable_from (goals : list string) : list string :=
    reach (S (length goals + length graph_edges)) graph_edges (filter (fun g => smem g graph_nodes) goals) [].
  (** The policies of the unit. *)
  Variable members : list string.
  Definition own_writer (p : string) : bool := match aget p graph_written with Some o => smem (fst o) members | None => false end.
  (** dependency.rs:274-286 [reachable_input_paths], schema.rs:301-320 [goal_reachable_input_paths]. *)
  Definition reachable_inputs (goals : list string) : list string := filter (fun p => negb (own_writer p)) (reachable_from goals).
  (** dependency.rs:288-310 [terminal_sinks]. *)
  Definition terminal_sinks : list string :=
    dedup (filter (fun p => own_writer p && negb (existsb (fun e => String.eqb (fst e) p) graph_edges)) graph_nodes).
  (** dependency.rs:109-134 [computed_in], [has_computed_ancestor]. *)
  Definition computed_paths : list string :=
    filter (fun p => own_writer p && negb (existsb is_written (dot_prefixes p))) graph_nodes.
  (** schema.rs:200-223 [outputs], the paths. *)
  Definition outputs (goals : list string) : list string :=
    dedup match goals with [] => computed_paths | _ => filter (fun p => smem p (reachable_from goals)) computed_paths end.

  (** ** Requests *)
  (** dependency.rs:704-707 [is_optional]. *)
  Variable optional : list string.
  Definition is_optional (p : string) : bool := existsb (fun o => extends o p) optional.
  (** evaluator.rs:235-247 [input_path_satisfied]. *)
  Fixpoint path_satisfied (h : heap) (v : value) (segs : list string) : bool :=
    match segs with
    | [] => true
    | s :: r =>
        match v with
        | VArr _ => true
        | VObj l => match hobj h l with
                    | Some m => match aget s m with Some x => path_satisfied h x r | None => false end
                    | None => false
                    end
        | _ => false
        end
    end.
  (** [str::split_once('.')]. *)
  Definition split_once (p : string) : option (string * string) :=
    match split_dot p with a :: (_ :: _) as l => Some (a, drop (S (String.length a)) p) | _ => None end.
  (** evaluator.rs:219-233 [input_satisfied]. *)
  Definition input_satisfied (h : heap) (v : value) (p : string) : bool :=
    path_satisfied h v (split_dot p) ||
    match split_once p with
    | Some (entity, rest) =>
        match aget entity sources with
        | Some src => path_satisfied h v (split_dot (src ++ "." ++ rest)%string)
        | None => false
        end
    | None => false
    end.
  (** evaluator.rs:192-203: what is missing, sorted. *)
  Definition missing_inputs (goals : list string) (h : heap) (v : value) : list string :=
    dedup (filter (fun p => negb (is_optional p) && negb (input_satisfied h v p)) (reachable_inputs goals)).
  (** workspace/types/error.rs [EvaluationError]: why a request is refused before a block runs. *)
  Inductive refusal := GoalNotFound (g : string) | InvalidInput | MissingInputs (l : list string).
  (** evaluator.rs:158-217 [validate_request], [compute_order_to_run]. [valid]: the input passes the check of Validate.v. *)
  Definition check_request (goals : list string) (valid : bool) (h : heap) (v : value) : option refusal :=
    match find (fun g => negb (smem g graph_nodes)) goals with
    | Some g => Some (GoalNotFound g)
    | None =>
        if valid then
          match goals with
          | [] => None
          | _ => match missing_inputs goals h v with [] => None | l => Some (MissingInputs l) end
          end
        else Some InvalidInput
    end.
  (** evaluator.rs:132-136. *)
  Definition roots (goals : list string) : list string := match goals with [] => terminal_sinks | _ => goals end.
End Graph.

(** ** Policies *)
Section Request.
  Variable X : ext.
  Variable parse : ekind -> string -> res node.
  (** What the analysis finds in a text with syntax errors. *)
  Variable noticed : string -> list pread.
  Variable dm : list string.
  Variable sources : entity_sources.
  (** context.rs:418-420 [record_reads], property_read.rs:10-95: every path, also those of aliases. *)
  Definition source_reads (src : string) : list pread :=
    match parse KStandard src with Ok n => flatten_reads (walk n) | Err _ => noticed src end.
  Definition shallow_paths (src : string) : list string := map (fun r => join_dots (pr_path r)) (source_reads src).
  (** expression.rs:124-143, assertion.rs:178-190, match_block.rs:192-252 [analyze]: what is read. *)
  Definition some_paths (src : string) : list string := if String.eqb src "" then [] else shallow_paths src.
  Definition shallow_reads (b : block) : list string :=
    match b with
    | BExpression _ e => some_paths e
    | BAssertion _ l => flat_map (fun c => shallow_paths (ac_expr c)) l
    | BMatch _ arms => flat_map (fun a => some_paths (ma_cond a) ++ some_paths (ma_value a)) arms
    end.
  (** dependency.rs:376-386. *)
  Definition rules_of (p : policy) : list shallow := map (fun e => Shallow (fst e) (shallow_reads (snd e)) (plan_writes (snd e))) p.
  (** db.rs:638-661: the plan of the evaluation sees the same texts; [PolicyRun.recovered]. *)
  Definition recovered_paths (src : string) : list string := flat_map (read_entry (entity_rewrite sources)) (noticed src).
  Variable p : policy.
  Variables (members optional : list string) (extras : bool).
  (** evaluator.rs:108-156 [EvalArtifact::evaluate]: refused, or what running the blocks gives. *)
  Definition evaluate_request (fuel : nat) (goals : list string) (valid : bool) (store : value) (h : heap) : refusal + answer pworld pick err :=
    match check_request dm sources (rules_of p) members optional goals valid h store with
    | Some r => inl r
    | None => inr (evaluate_policy X parse (entity_rewrite sources) recovered_paths dm p extras fuel (roots dm sources (rules_of p) members goals) store h)
    end.
End Request.
