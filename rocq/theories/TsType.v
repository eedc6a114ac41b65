(** Types derived from TypeScript types: core/engine/src/workspace/graph/ts_type.rs. *)
From Coq Require Import String ZArith Bool List Arith.
From Verif Require Import Base Dec Value Json VarType Schema.
Import ListNotations.
Local Open Scope string_scope.
Local Open Scope nat_scope.
Local Open Scope list_scope.

(** The TypeScript types that swc's parser gives (swc_ecma_ast [TsType]); the parser is not modelled. All types that the code maps to "any" are [TsOther]. *)
Inductive tskey := TkNumber | TkBigInt | TkString | TkBoolean | TkNull | TkUndefined | TkVoid | TkNever | TkOther.
Inductive tslit := LStr (s : string) | LNum (d : dec) | LBool (b : bool) | LBig (d : dec) | LTpl.
Inductive tstype :=
| TsKey (k : tskey)
| TsLit (l : tslit)
| TsArr (t : tstype)
| TsTuple (l : list tstype)
(** members: the name, unless it is computed or the member is no property; whether it is optional; the type, [TsOther] without one *)
| TsObj (m : list (option string * (bool * tstype)))
| TsUnion (l : list tstype)
| TsInter (l : list tstype)
| TsParen (t : tstype)
| TsOpt (t : tstype)
| TsRest (t : tstype)
| TsOp (keyof : bool) (t : tstype)
(** a name with parameters *)
| TsRef (name : string) (l : list tstype)
| TsOther.
(** ts_type.rs:86-99 [keyword] *)
Definition keyword (k : tskey) : vtype :=
  match k with
  | TkNumber | TkBigInt => KNumber
  | TkString => KString
  | TkBoolean => KBool
  | TkNull | TkUndefined | TkVoid | TkNever => KNull
  | TkOther => KAny
  end.
(** ts_type.rs:101-111 [literal] *)
Definition ts_literal (l : tslit) : vtype :=
  match l with LStr s => KConst s | LNum _ => KNumber | LBool _ => KBool | LBig _ => KNumber | LTpl => KString end.
(** ts_type.rs:113-137 [type_literal]: the fields, [None] when some member has no plain name. A hash map: a later member replaces an earlier one. *)
Fixpoint ts_fields (m : list (option string * (bool * vtype))) (acc : list (string * vtype)) : option (list (string * vtype)) :=
  match m with
  | [] => Some acc
  | (None, _) :: _ => None
  | (Some n, (opt, t)) :: r => ts_fields r (aset n (if opt then wrap_optional t else t) acc)
  end.
(** ts_type.rs:55-84 [convert], 139-146 [union], 148-155 [intersection], 157-176 [reference] *)
Fixpoint convert (t : tstype) : vtype :=
  match t with
  | TsKey k => keyword k
  | TsLit l => ts_literal l
  | TsArr t => KArray (convert t)
  | TsTuple l => KArray (reduce (map convert l))
  | TsObj m => match ts_fields (map (fun e => (fst e, (fst (snd e), convert (snd (snd e))))) m) [] with Some f => KObject f | None => KAny end
  | TsUnion l => reduce (map convert l)
  | TsInter l => reduce (map convert l)
  | TsParen t => convert t
  | TsOpt t => KNullable (convert t)
  | TsRest t => convert t
  | TsOp _ t => convert t
  | TsRef name l =>
      let first := match map convert l with t :: _ => t | [] => KAny end in
      if String.eqb name "Array" || String.eqb name "ReadonlyArray" then KArray first
      else if String.eqb name "Promise" || String.eqb name "Awaited" || String.eqb name "Readonly" then first
      else if String.eqb name "Date" then KDate
      else KAny
  | TsOther => KAny
  end.
