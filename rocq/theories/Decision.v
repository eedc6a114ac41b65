(** Decisions with decision tables: what compiling a graph adds to it, and table nodes inside the engine. Models
    model/decision_content.rs (compile, build_dt_indexes), nodes/decision_table/mod.rs:176-180 and nodes/decision/mod.rs:41-67. *)
From Coq Require Import String Ascii ZArith Lia Bool List Arith.
From Verif Require Import Base Dec Value Heap Ast Ops Compiler Vm Eval Isolate Session Graph Walker Nodes Engine Table Discriminant.
Import ListNotations.
Local Open Scope string_scope.
Local Open Scope list_scope.
Local Open Scope nat_scope.

(** A table node: its transform attributes, its table, and the index it finds under its id in the extensions of the evaluation
    (decision_table/mod.rs:178). *)
Record dt := DT { dt_transform : transform; dt_table : table; dt_index : option index }.
Notation decision := (content (task dt)).

Section Decision.
  Variable X : ext.
  Variable parse : ekind -> string -> res node.
  (** decision_table/mod.rs:25-46: the transform attributes apply around the table. *)
  Definition run_table (trace : bool) (u : dt) (input : value) (nodes : option value) (h : heap) : heap * res value :=
    run_with X parse (dt_transform u) input nodes (fun x _ h => table_node X parse trace (dt_index u) (dt_table u) x nodes h) h.

  (** decision_content.rs:200-219 [build_dt_indexes]: a hash map by node id; a later node replaces an earlier one with the same id. *)
  Fixpoint dt_indexes (l : list (gnode (task dt))) (m : amap index) : amap index :=
    match l with
    | [] => m
    | nd :: l =>
        match gn_kind nd with
        | KdTask (TOther u) => dt_indexes l (match build_index (index_arm parse) (dt_table u) with Some ix => aset (gn_id nd) ix m | None => m end)
        | _ => dt_indexes l m
        end
    end.
  Definition with_index (m : amap index) (nd : gnode (task dt)) : gnode (task dt) :=
    GNode (gn_id nd) (gn_name nd) (match gn_kind nd with
                                   | KdTask (TOther u) => KdTask (TOther (DT (dt_transform u) (dt_table u) (aget (gn_id nd) m)))
                                   | k => k
                                   end).
  (** decision_content.rs:128-198 [compile], as far as results depend on it: the opcode cache is transparent (C05, PropState.v), function
      nodes are not modelled. *)
  Definition compile_content (c : decision) : decision := Content (map (with_index (dt_indexes (c_nodes c) [])) (c_nodes c)) (c_edges c).
End Decision.
