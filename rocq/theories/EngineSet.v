(** The engine's compiled snapshot and its loader: engine.rs:107-205 and policy/runtime.rs:106-200. The loader is a memory loader (loader/memory.rs); its
    [load_sync] always answers. *)
From Coq Require Import String Ascii ZArith Bool List Arith.
From Verif Require Import Base Dec Value Heap Ast Ops Compiler Vm Eval Isolate Session Graph Walker Nodes Engine Table Discriminant Decision Json Docs.
Import ListNotations.
Local Open Scope string_scope.
Local Open Scope list_scope.

(** runtime.rs:106-110 [CompiledEntry]. A policy's artifact is represented by all policies present at compile time. *)
Inductive entry := EGraph (g : gdoc) | EPolicy (ws : list (string * pdoc)).
(** engine.rs:20-25; runtime.rs:112-115: the entries and the keys of the failures. *)
Record engine := Eng { en_store : amap doc; en_set : option (amap entry * list string) }.

Section EngineSet.
  Variable X : ext.
  Variable parse : ekind -> string -> res node.
  (** Not modelled: a node's schema, which may use dictionaries found through the loader (graph.rs:118-141); whether a policy has error diagnostics
      among the documents it can reach (runtime.rs:175-203); evaluating a policy (evaluator.rs). *)
  Variable check : loader -> gnode (task dt) -> value -> heap -> res unit.
  Variable faulty : list (string * pdoc) -> string -> bool.
  Variable run_policy : list (string * pdoc) -> string -> value -> heap -> heap * res value.
  Variables (trace : bool) (max_depth : nat).
  (** Fuel for collecting imports. *)
  Variable fuel : nat.

  (** runtime.rs:119-173 [build_sync]: first pass. The policies, the entries, the failures. *)
  Fixpoint first_pass (load : loader) (keys : list string) (ws : list (string * pdoc)) (es : amap entry) (fs : list string)
      : list (string * pdoc) * amap entry * list string :=
    match keys with
    | [] => (ws, es, fs)
    | k :: r =>
        match load k with
        | Err _ => first_pass load r ws es (fs ++ [k])
        | Ok (DPolicy p) => first_pass load r (ws ++ [(k, p)]) es fs
        | Ok (DGraph g) =>
            match build_graph (gc_graph g) with
            | inl _ => first_pass load r ws es (fs ++ [k])
            | inr gr => match validate gr with
                        | Some _ => first_pass load r ws es (fs ++ [k])
                        | None => first_pass load r ws (aset k (EGraph (compile_doc parse g)) es) fs
                        end
            end
        end
    end.
  Fixpoint second_pass (ws : list (string * pdoc)) (keys : list string) (es : amap entry) (fs : list string) : amap entry * list string :=
    match keys with
    | [] => (es, fs)
    | k :: r => if faulty ws k then second_pass ws r es (fs ++ [k]) else second_pass ws r (aset k (EPolicy ws) es) fs
    end.
  Definition build_set (load : loader) (keys : list string) : amap entry * list string :=
    let '(ws, es, fs) := first_pass load keys [] [] [] in second_pass ws (map fst ws) es fs.

  (** The operations: changes of the loader's store, engine.rs:137-147 [compile], 121-125 [with_loader]. *)
  Inductive eop := OStore (o : mem_op) | OCompile | OWithLoader (m : amap doc).
  Definition estep (e : engine) (o : eop) : engine :=
    match o with
    | OStore o => Eng (mem_step (en_store e) o) (en_set e)
    | OCompile => Eng (en_store e) (Some (build_set (mem_load (en_store e)) (mem_keys (en_store e))))
    | OWithLoader m => Eng m None
    end.

  (** nodes/decision/mod.rs:41-67: a nested decision comes from the loader and is compiled. *)
  Definition nested (load : loader) (k : string) : option decision :=
    match load k with Ok (DGraph g) => Some (gc_graph (compile_doc parse g)) | _ => None end.
  (** decision.rs:66-90. *)
  Definition eval_graph (load : loader) (c : decision) (ctx : value) (h : heap) : option (heap * res value) :=
    evaluate_decision X parse dt (run_table X parse trace) (check load) (nested load) max_depth c ctx h.
  (** runtime.rs:20-65 [evaluate_policy]. *)
  Definition eval_policy (load : loader) (k : string) (p : pdoc) (ctx : value) (h : heap) : option (heap * res value) :=
    match transitive_policies fuel load k (DPolicy p) with
    | None => None
    | Some (Err e) => Some (h, Err e)
    | Some (Ok ws) => if existsb (fun d => faulty ws (fst d)) ws then Some (h, Err (EOp "compilation errors")) else Some (run_policy ws k ctx h)
    end.
  (** engine.rs:187-204: through the loader. *)
  Definition eval_live (load : loader) (k : string) (ctx : value) (h : heap) : option (heap * res value) :=
    match load k with
    | Err e => Some (h, Err e)
    | Ok (DGraph g) => eval_graph load (gc_graph g) ctx h
    | Ok (DPolicy p) => eval_policy load k p ctx h
    end.
  (** engine.rs:157-205 [evaluate_with_opts]. *)
  Definition engine_eval (e : engine) (k : string) (ctx : value) (h : heap) : option (heap * res value) :=
    match match en_set e with Some (es, _) => aget k es | None => None end with
    | Some (EGraph g) => eval_graph (mem_load (en_store e)) (gc_graph g) ctx h
    | Some (EPolicy ws) => Some (run_policy ws k ctx h)
    | None => eval_live (mem_load (en_store e)) k ctx h
    end.
End EngineSet.
