(** Which values a TypeScript type has: the specification for C82. *)
From Coq Require Import String ZArith Bool List Arith.
From Verif Require Import Base Dec Value Json VarType TypeSpec Schema SchemaSpec TsType.
Import ListNotations.
Local Open Scope string_scope.
Local Open Scope nat_scope.
Local Open Scope list_scope.

(** "undefined" is null; a promise stands for what it gives. In a tuple each element has the type of some position (TypeScript asks for its own position); a rest "...T" in a tuple gives the elements of T. *)
Inductive has : tstype -> tree -> Prop :=
| HNumber : forall k d, k = TkNumber \/ k = TkBigInt -> has (TsKey k) (TNum d)
| HString : forall s, has (TsKey TkString) (TStr s)
| HBool : forall b, has (TsKey TkBoolean) (TBool b)
| HNull : forall k, k = TkNull \/ k = TkUndefined \/ k = TkVoid -> has (TsKey k) TNull
| HKeyAny : forall t, has (TsKey TkOther) t
| HLStr : forall s, has (TsLit (LStr s)) (TStr s)
| HLNum : forall d, has (TsLit (LNum d)) (TNum d)
| HLBool : forall b, has (TsLit (LBool b)) (TBool b)
| HLBig : forall d, has (TsLit (LBig d)) (TNum d)
| HLTpl : forall s, has (TsLit LTpl) (TStr s)
| HArr : forall t l, (forall x, In x l -> has t x) -> has (TsArr t) (TArr l)
| HTuple : forall ts l, (forall x, In x l -> exists t, In t ts /\ (has t x \/ exists u vs, t = TsRest u /\ has u (TArr vs) /\ In x vs)) -> has (TsTuple ts) (TArr l)
| HObj : forall m o,
    (forall n opt t, In (Some n, (opt, t)) m -> (opt = false -> aget n o = None -> has t TNull) /\ forall x, aget n o = Some x -> has t x \/ (opt = true /\ x = TNull)) -> has (TsObj m) (TObj o)
| HUnion : forall ts t x, In t ts -> has t x -> has (TsUnion ts) x
| HInter : forall ts x, (forall t, In t ts -> has t x) -> has (TsInter ts) x
| HParen : forall t x, has t x -> has (TsParen t) x
| HOpt : forall t x, x = TNull \/ has t x -> has (TsOpt t) x
| HReadonly : forall t x, has t x -> has (TsOp false t) x
| HKeyof : forall m n opt t, In (Some n, (opt, t)) m -> has (TsOp true (TsObj m)) (TStr n)
| HRefArr : forall name t r l, name = "Array" \/ name = "ReadonlyArray" -> (forall x, In x l -> has t x) -> has (TsRef name (t :: r)) (TArr l)
| HRefSame : forall name t r x, name = "Promise" \/ name = "Awaited" \/ name = "Readonly" -> has t x -> has (TsRef name (t :: r)) x
| HRefDate : forall r d, has (TsRef "Date" r) (TDyn (DDate d))
| HRefOther : forall name r x, ~ In name ["Array"; "ReadonlyArray"; "Promise"; "Awaited"; "Readonly"; "Date"] -> has (TsRef name r) x
| HOther : forall x, has TsOther x.
(** The types inside a type. *)
Inductive part : tstype -> tstype -> Prop :=
| PHere : forall t, part t t
| PIn1 : forall x t u, part x t -> u = TsArr t \/ u = TsParen t \/ u = TsOpt t \/ u = TsRest t \/ (exists k, u = TsOp k t) -> part x u
| PInL : forall x t l u, part x t -> In t l -> u = TsTuple l \/ u = TsUnion l \/ u = TsInter l \/ (exists n, u = TsRef n l) -> part x u
| PInO : forall x n opt t m, part x t -> In (n, (opt, t)) m -> part x (TsObj m).
(** No "keyof", no "..."; of the cases of a union and of the positions of a tuple at most one is an array type and at most one an object type. *)
Definition sensible (t : tstype) : Prop :=
  (forall u, ~ part (TsRest u) t) /\ (forall u, ~ part (TsOp true u) t) /\
  (forall l u i k a b, part u t -> u = TsUnion l \/ u = TsTuple l -> i <> k -> nth_error l i = Some a -> nth_error l k = Some b ->
     ~ (arrays (convert a) /\ arrays (convert b)) /\ ~ (objects (convert a) /\ objects (convert b))).
(** Types whose conversion loses nothing. *)
Inductive tight : tstype -> Prop :=
| TKey : forall k, In k [TkNumber; TkBigInt; TkString; TkBoolean; TkNull; TkUndefined; TkVoid; TkOther] -> tight (TsKey k)
| TStrs : forall a l, tight (TsUnion (map (fun s => TsLit (LStr s)) (a :: l)))
| TLit : forall l, match l with LStr _ | LTpl => True | _ => False end -> tight (TsLit l)
| TArray : forall t, tight t -> tight (TsArr t)
| TObject : forall m, NoDup (map fst m) -> (forall n opt t, In (n, (opt, t)) m -> n <> None) -> (forall n opt t, In (n, (opt, t)) m -> tight t) -> tight (TsObj m)
| TNullOr : forall t k, tight t -> ~ has t TNull -> k = TkNull \/ k = TkUndefined -> tight (TsUnion [t; TsKey k])
| TParen : forall t, tight t -> tight (TsParen t)
| TOpt : forall t, tight t -> tight (TsOpt t)
| TReadonly : forall t, tight t -> tight (TsOp false t)
| TGeneric : forall name t, In name ["Array"; "ReadonlyArray"; "Promise"; "Awaited"; "Readonly"] -> tight t -> tight (TsRef name [t])
| TDate : forall r, tight (TsRef "Date" r)
| TAny : tight TsOther.
