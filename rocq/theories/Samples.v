(** Concrete expressions, heaps and scopes used by the examples beside the theorems. *)
From Coq Require Import String Ascii ZArith Lia Bool List Arith.
From Verif Require Import Base Dec Value Heap Ast Ops Compiler Vm Eval Funcs.
Import ListNotations.
Local Open Scope string_scope.

Definition num (z : Z) : value := VNum (dec_of_Z z).
Definition nnum (z : Z) : node := NNumber (dec_of_Z z).

(** The context object { items: [1,2,3], age: 20, name: "Ann", nested: { x: 1 } }. *)
Definition s_heap : heap :=
  [ CArr [num 1; num 2; num 3];
    CObj [("x", num 1)];
    CObj [("items", VArr 0); ("age", num 20); ("name", VStr "Ann"); ("nested", VObj 1)] ].
Definition s_root : scope := scope_new (VObj 2).

(** filter(items, # > 1) *)
Definition s_filter : node :=
  NCall (FClosure ClFilter)
    [NIdent "items"; NClosure (NBinary NPointer (OpCmp CGt) (nnum 1)) None].
(** age > 18 and len(filter(items, # > 1)) == 2 ? name + '!' : null *)
Definition s_cond : node :=
  NCond (NBinary (NBinary (NIdent "age") (OpCmp CGt) (nnum 18)) (OpLogic LAnd)
                 (NBinary (NCall (FInternal FLen) [s_filter]) (OpCmp CEq) (nnum 2)))
        (NBinary (NIdent "name") (OpArith AAdd) (NString "!"))
        NNull.
(** A sub-expression that always fails: -name *)
Definition s_bad : node := NUnary (NIdent "name") (OpArith ASub).

(** Compile and run with the demonstration library. *)
Definition result_of (n : node) : option (res value) :=
  match compile demo n with
  | Ok c => option_map fst (vm_run demo 500 c s_root s_heap)
  | Err _ => None
  end.
