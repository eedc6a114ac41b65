(** The isolate: a reusable evaluator. Models core/expression/src/isolate.rs, the buffers of
    compiler/compiler.rs and vm/vm.rs it keeps between runs, and the construction of opcode caches
    (core/engine/src/model/decision_content.rs:120-203). *)
From Coq Require Import String Ascii ZArith Lia Bool List Arith.
From Verif Require Import Base Dec Value Heap Ast Ops Compiler Vm.
Import ListNotations.
Local Open Scope nat_scope.

(** expression.rs:14-18 ExpressionKind. *)
Inductive ekind := KStandard | KUnary.
(** expression.rs:20-24 OpcodeCache. *)
Record cache := Cache { c_std : amap (list opcode); c_una : amap (list opcode) }.

(** isolate.rs:24-34. [i_code] is the compiler's bytecode buffer (compiler.rs:13-16), [i_stk] and
    [i_scs] the machine's stack and loop scopes (vm.rs:26-30): all three survive from run to run. The
    lexer (whose only state is a capacity hint) and the arena hold nothing observable and are dropped. *)
Record isolate := Iso {
  i_code : list opcode;
  i_stk : list value;
  i_scs : list loop;
  i_scope : scope;
  i_refs : amap value;
  i_cache : option cache
}.

(** [Vec::clear]. *)
Definition clear {A} (l : list A) : list A := [].

(** Variable::dollar_key. *)
Definition dollar : string := "$".

(** What a method call shows to the caller. [OUnfinished]: the run did not stop within the fuel. *)
Inductive iobs :=
| OUnit
| OOpt (v : option value)
| OVal (r : res value)
| OBool (r : res bool)
| OStatus (r : res unit)
| OCode (r : res (list opcode))
| OUnfinished.

Inductive iop :=
| ISetEnv (v : value)
| ISetLocal (k : string) (v : value)
| IInsertDollar (path : string) (v : value)
| ISetRef (r : string)
| ISetRefVal (v : value)
| IGetRef (r : string)
| IRun (s : string)
| IRunUnary (s : string)
| IRunCode (c : list opcode)
| IRunUnaryCode (c : list opcode)
| ICompile (k : ekind) (s : string)
| ISetCache (c : cache).

Section Model.
  Variable X : ext.
  (** Lexing and parsing: a function of the source (see Lexer.v, Parser.v). *)
  Variable parse : ekind -> string -> res node.
  Variable fuel : nat.
  (** What a failed compilation leaves in the bytecode buffer, and a run on the stacks. *)
  Variable junk_code : node -> list opcode.
  Variable junk_vm : list opcode -> scope -> heap -> list value * list loop.

  (** isolate.rs:37-49. *)
  Definition iso_new : isolate := Iso [] [] [] (scope_new VNull) [] None.
  (** isolate.rs:63-66. *)
  Definition set_environment (v : value) (i : isolate) : isolate :=
    Iso (i_code i) (i_stk i) (i_scs i) (Scope v (clear (sc_locals (i_scope i)))) (clear (i_refs i)) (i_cache i).
  (** isolate.rs:51-61. *)
  Definition with_environment (v : value) : isolate := set_environment v iso_new.
  Definition with_cache (c : option cache) (i : isolate) : isolate :=
    Iso (i_code i) (i_stk i) (i_scs i) (i_scope i) (i_refs i) c.
  (** isolate.rs:76-78. *)
  Definition iset_local (k : string) (v : value) (i : isolate) : isolate :=
    Iso (i_code i) (i_stk i) (i_scs i) (set_local (i_scope i) k v) (i_refs i) (i_cache i).
  (** isolate.rs:80-92. *)
  Definition insert_dollar (path : string) (v : value) (i : isolate) (h : heap) : isolate * heap :=
    match local_str (i_scope i) dollar with
    | Some (VObj l) => (i, fst (dot_insert h (VObj l) path v))
    | _ => let (h1, o) := new_obj h [] in
           (iset_local dollar o i, fst (dot_insert h1 o path v))
    end.

  (** isolate.rs:118-135 [run_internal]: parse, then compile into the (cleared) buffer. *)
  Definition run_internal (k : ekind) (s : string) (i : isolate) : isolate * res unit :=
    match parse k s with
    | Err e => (i, Err e)
    | Ok n =>
        match compile_node X [] n (clear (i_code i)) with
        | Ok p => (Iso (fst p) (i_stk i) (i_scs i) (i_scope i) (i_refs i) (i_cache i), Ok tt)
        | Err e => (Iso (junk_code n) (i_stk i) (i_scs i) (i_scope i) (i_refs i) (i_cache i), Err e)
        end
    end.
  (** vm.rs:40-46 [VM::run] on the isolate's scope. *)
  Definition vm_exec (code : list opcode) (i : isolate) (h : heap) : isolate * heap * option (res value) :=
    match run X (i_scope i) fuel code (VM 0 (clear (i_stk i)) (clear (i_scs i)) (i_scope i) [] h) with
    | None => (i, h, None)
    | Some (r, h1) =>
        let (stk, scs) := junk_vm code (i_scope i) h in
        (Iso (i_code i) stk scs (i_scope i) (i_refs i) (i_cache i), h1, Some r)
    end.
  (** The cached code of a source (isolate.rs:145-151,174-180). *)
  Definition cached (k : ekind) (s : string) (i : isolate) : option (list opcode) :=
    match i_cache i with
    | None => None
    | Some c => aget s (match k with KStandard => c_std c | KUnary => c_una c end)
    end.
  (** isolate.rs:144-159 and the first part of 173-188. *)
  Definition run_source (k : ekind) (s : string) (i : isolate) (h : heap) : isolate * heap * option (res value) :=
    match cached k s i with
    | Some code => vm_exec code i h
    | None =>
        match run_internal k s i with
        | (i1, Err e) => (i1, h, Some (Err e))
        | (i1, Ok _) => vm_exec (i_code i1) i1 h
        end
    end.
  (** [Variable::as_bool]. *)
  Definition as_bool (r : res value) : res bool :=
    match r with
    | Ok (VBool b) => Ok b
    | Ok _ => Err (EOp "ValueCast")
    | Err e => Err e
    end.
  Definition obs_val (o : option (res value)) : iobs := match o with Some r => OVal r | None => OUnfinished end.
  Definition obs_bool (o : option (res value)) : iobs := match o with Some r => OBool (as_bool r) | None => OUnfinished end.
  Definition remember (r : string) (v : value) (i : isolate) : isolate :=
    Iso (i_code i) (i_stk i) (i_scs i) (i_scope i) (aset r v (i_refs i)) (i_cache i).

  Definition istep (o : iop) (i : isolate) (h : heap) : isolate * heap * iobs :=
    match o with
    | ISetEnv v => (set_environment v i, h, OUnit)
    | ISetLocal k v => (iset_local k v i, h, OUnit)
    | IInsertDollar p v => let (i1, h1) := insert_dollar p v i h in (i1, h1, OUnit)
    | ISetRef r =>
        (* isolate.rs:94-106 *)
        match aget r (i_refs i) with
        | Some v => (iset_local dollar v i, h, OStatus (Ok tt))
        | None =>
            match run_source KStandard r i h with
            | (i1, h1, Some (Ok v)) => (iset_local dollar v (remember r v i1), h1, OStatus (Ok tt))
            | (i1, h1, Some (Err e)) => (i1, h1, OStatus (Err e))
            | (i1, h1, None) => (i1, h1, OUnfinished)
            end
        end
    | ISetRefVal v => (iset_local dollar v i, h, OUnit)          (* isolate.rs:108-112 *)
    | IGetRef r => (i, h, OOpt (aget r (i_refs i)))              (* isolate.rs:114-116 *)
    | IRun s => let '(i1, h1, r) := run_source KStandard s i h in (i1, h1, obs_val r)
    | IRunUnary s => let '(i1, h1, r) := run_source KUnary s i h in (i1, h1, obs_bool r)
    | IRunCode c => let '(i1, h1, r) := vm_exec c i h in (i1, h1, obs_val r)
    | IRunUnaryCode c => let '(i1, h1, r) := vm_exec c i h in (i1, h1, obs_bool r)
    | ICompile k s =>
        (* isolate.rs:137-142,166-171 *)
        match run_internal k s i with
        | (i1, Ok _) => (i1, h, OCode (Ok (i_code i1)))
        | (i1, Err e) => (i1, h, OCode (Err e))
        end
    | ISetCache c => (with_cache (Some c) i, h, OUnit)
    end.

  (** Everything a sequence of calls shows: each result with the memory at that moment. *)
  Fixpoint itrace (ops : list iop) (i : isolate) (h : heap) : list (iobs * heap) :=
    match ops with
    | [] => []
    | o :: r => let '(i1, h1, b) := istep o i h in (b, h1) :: itrace r i1 h1
    end.
  Fixpoint iafter (ops : list iop) (i : isolate) (h : heap) : isolate * heap :=
    match ops with
    | [] => (i, h)
    | o :: r => let '(i1, h1, _) := istep o i h in iafter r i1 h1
    end.

  (** decision_content.rs:177-202: compile every source on one isolate; failures are skipped. *)
  Fixpoint build_cache (sources : list (string * ekind)) (i : isolate) (c : cache) : cache :=
    match sources with
    | [] => c
    | (s, k) :: r =>
        if amem s (match k with KStandard => c_std c | KUnary => c_una c end) then build_cache r i c
        else
          match run_internal k s i with
          | (i1, Ok _) =>
              build_cache r i1
                (match k with
                 | KStandard => Cache (aset s (i_code i1) (c_std c)) (c_una c)
                 | KUnary => Cache (c_std c) (aset s (i_code i1) (c_una c))
                 end)
          | (i1, Err _) => build_cache r i1 c
          end
    end.
  Definition cache_of (sources : list (string * ekind)) : cache := build_cache sources iso_new (Cache [] []).
End Model.
