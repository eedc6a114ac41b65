(** Whole decisions: graphs whose nodes evaluate expressions or other decisions. Models decision_graph/graph.rs (evaluate, handle_node), nodes/decision/mod.rs,
    nodes/input, nodes/output and the top of engine.rs/decision.rs. *)
From Coq Require Import String Ascii ZArith Lia Bool List Arith.
From Verif Require Import Base Dec Value Heap Ast Ops Compiler Vm Eval Isolate Session Graph Walker Nodes.
Import ListNotations.
Local Open Scope string_scope.
Local Open Scope list_scope.
Local Open Scope nat_scope.

(** error.rs:66 [DepthLimitExceeded]; a node error shows the text of its source (error.rs:58), so this text survives nesting. *)
Definition depth_error : err := EOp "Depth limit exceeded".

Section Engine.
  Variable X : ext.
  Variable parse : ekind -> string -> res node.
  (** The remaining kinds of nodes: what they do with their input and [$nodes]. They do not call back into the engine (a function node may;
      that is not modelled). *)
  Variable U : Type.
  Variable other : U -> value -> option value -> heap -> heap * res value.
  (** types/decision/mod.rs: expression nodes, decision nodes. *)
  Inductive task := TExpression (t : transform) (es : list (string * string)) | TDecision (t : transform) (key : string) | TOther (u : U).
  Notation content := (content task).
  Notation gnode := (gnode task).
  (** The JSON schema of an input or output node (nodes/validator_cache.rs), not modelled: accepts or rejects a value. *)
  Variable check : gnode -> value -> heap -> res unit.
  (** The loader, as a function: nodes/decision/mod.rs:41-51. [None]: not found, or not a graph. *)
  Variable load : string -> option content.

  (** walker.rs:170-189, 261-269: the isolate of a switch. *)
  Definition sw_open (input : value) (ns : option value) : session := node_session input ns.
  Definition sw_run (s : session) (c : string) (h : heap) : session * heap * bool :=
    let (h1, r) := s_std X parse c s h in (s, h1, match r with Ok (VBool b) => b | _ => false end).

  (** nodes/decision/mod.rs:38-114 [handle], given the nested evaluation [sub] (its parent nodes, content, context, memory). The graph is loaded once per
      node run and reset between the elements of a loop, so every element sees the same graph. *)
  Definition decision_node (sub : option value -> content -> value -> heap -> option (heap * res value)) (key : string) (nodes : option value)
      (x : value) (h : heap) : heap * res value :=
    match load key with
    | None => (h, Err (EOp ("cannot load " ++ key)))
    | Some c => match sub nodes c x h with
                | Some r => r
                | None => (h, Err (EPanic "does not stop"))
                end
    end.
  (** graph.rs:188-241, 392-425. *)
  Definition handle_with (sub : option value -> content -> value -> heap -> option (heap * res value)) (nd : gnode) (input : value)
      (nodes : option value) (h : heap) : heap * res value :=
    match gn_kind nd with
    | KdInput | KdOutput => match check nd input h with Ok _ => (h, Ok input) | Err e => (h, Err e) end
    | KdSwitch _ _ => (h, Ok input)
    | KdTask (TExpression t es) => run_with X parse t input nodes (fun x _ h => expression_node X parse es x nodes h) h
    | KdTask (TDecision t key) => run_with X parse t input nodes (fun x _ h => decision_node sub key nodes x h) h
    | KdTask (TOther u) => other u input nodes h
    end.
  (** graph.rs:164-319 [evaluate] with [rest] = max_depth - iteration. The texts of validation errors are simplified. *)
  Fixpoint decide (rest : nat) (parent : option value) (c : content) (ctx : value) (h : heap) : option (heap * res value) :=
    match build_graph c with
    | inl _ => Some (h, Err (EOp "Invalid graph"))
    | inr g =>
        match validate g with
        | Some _ => Some (h, Err (EOp "Invalid graph"))
        | None =>
            match rest with
            | O => Some (h, Err depth_error)
            | S r =>
                match walk_graph sw_open sw_run (handle_with (decide r)) true parent ctx g h with
                | None => None
                | Some o => Some (o_heap o, o_res o)
                end
            end
        end
    end.
  (** decision.rs:66-90: the outermost evaluation, iteration 0; the result is cleaned (graph.rs:299-312). *)
  Definition evaluate_decision (max_depth : nat) (c : content) (ctx : value) (h : heap) : option (heap * res value) :=
    match decide max_depth None c ctx h with
    | Some (h1, Ok v) => Some (clean_value h1 v, Ok v)
    | r => r
    end.
End Engine.
Arguments TExpression {U}. Arguments TDecision {U}. Arguments TOther {U}.
