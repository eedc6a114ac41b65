(** The isolate as its users see it: a scope, the remembered references, and runs that depend on nothing else.
    SessionFacts.v proves that the isolate of Isolate.v (with its buffers, its cache and the virtual machine) behaves like this. *)
From Coq Require Import String Ascii ZArith Lia Bool List Arith.
From Verif Require Import Base Dec Value Heap Ast Ops Compiler Vm Eval Isolate.
Import ListNotations.
Local Open Scope nat_scope.

(** isolate.rs:24-34 without the buffers and the cache. *)
Record session := Sess { ss_scope : scope; ss_refs : amap value }.

Section Session.
  Variable X : ext.
  Variable parse : ekind -> string -> res node.

  (** isolate.rs:144-188: parse, compile, run. *)
  Definition srun (k : ekind) (src : string) (sc : scope) (h : heap) : heap * res value :=
    match parse k src with
    | Err e => (h, Err e)
    | Ok n =>
        match compile X n with
        | Err e => (h, Err e)
        | Ok _ => let (r, h1) := evaluate X n sc h in (h1, r)
        end
    end.
  (** isolate.rs:51-66. *)
  Definition s_open (env : value) : session := Sess (scope_new env) [].
  (** isolate.rs:76-78. *)
  Definition s_local (k : string) (v : value) (s : session) : session := Sess (set_local (ss_scope s) k v) (ss_refs s).
  (** isolate.rs:80-92. *)
  Definition s_dollar (path : string) (v : value) (s : session) (h : heap) : session * heap :=
    match local_str (ss_scope s) dollar with
    | Some (VObj l) => (s, fst (dot_insert h (VObj l) path v))
    | _ => let (h1, o) := new_obj h [] in (s_local dollar o s, fst (dot_insert h1 o path v))
    end.
  (** isolate.rs:94-112. *)
  Definition s_ref (r : string) (s : session) (h : heap) : session * heap * res unit :=
    match aget r (ss_refs s) with
    | Some v => (s_local dollar v s, h, Ok tt)
    | None =>
        match srun KStandard r (ss_scope s) h with
        | (h1, Ok v) => (Sess (set_local (ss_scope s) dollar v) (aset r v (ss_refs s)), h1, Ok tt)
        | (h1, Err e) => (s, h1, Err e)
        end
    end.
  (** isolate.rs:144-159 and 173-188. *)
  Definition s_std (src : string) (s : session) (h : heap) : heap * res value := srun KStandard src (ss_scope s) h.
  Definition s_unary (src : string) (s : session) (h : heap) : heap * res bool :=
    let (h1, r) := srun KUnary src (ss_scope s) h in (h1, as_bool r).

  (** One call and what it shows; the calls that handle code and caches are not part of this view. *)
  Definition sstep (o : iop) (s : session) (h : heap) : session * heap * iobs :=
    match o with
    | ISetEnv v => (Sess (Scope v []) [], h, OUnit)
    | ISetLocal k v => (s_local k v s, h, OUnit)
    | IInsertDollar p v => let (s1, h1) := s_dollar p v s h in (s1, h1, OUnit)
    | ISetRef r => let '(s1, h1, u) := s_ref r s h in (s1, h1, OStatus u)
    | ISetRefVal v => (s_local dollar v s, h, OUnit)
    | IGetRef r => (s, h, OOpt (aget r (ss_refs s)))
    | IRun src => let (h1, r) := s_std src s h in (s, h1, OVal r)
    | IRunUnary src => let (h1, r) := s_unary src s h in (s, h1, OBool r)
    | _ => (s, h, OUnit)
    end.
  Fixpoint strace (ops : list iop) (s : session) (h : heap) : list (iobs * heap) :=
    match ops with
    | [] => []
    | o :: r => let '(s1, h1, b) := sstep o s h in (b, h1) :: strace r s1 h1
    end.
End Session.
(** Calls by source text. *)
Definition by_source (o : iop) : bool :=
  match o with
  | IRunCode _ | IRunUnaryCode _ | ICompile _ _ | ISetCache _ => false
  | _ => true
  end.
