(** What a type says of a value: the specification for C43. *)
From Coq Require Import String ZArith Bool List Arith.
From Verif Require Import Base Value Json VarType.
Import ListNotations.
Local Open Scope string_scope.
Local Open Scope list_scope.

(** [t] is a value of the type. With [need], a key that the type lists and the object lacks counts as null; without, it may be missing. With [closed], the object has no key that the type
    does not list. *)
Fixpoint member (need closed : bool) (T : vtype) (t : tree) : Prop :=
  match T with
  | KAny => True
  | KNull => t = TNull
  | KBool => exists b, t = TBool b
  | KString => exists s, t = TStr s
  | KNumber => exists d, t = TNum d
  | KDate => exists d, t = TDyn (DDate d)
  | KInterval => exists i, t = TDyn (DInterval i)
  | KArray T => exists l, t = TArr l /\ forall x, In x l -> member need closed T x
  | KObject m =>
      exists o, t = TObj o /\ (closed = true -> forall k, In k (map fst o) -> In k (map fst m)) /\
        (fix go m := match m with
                     | [] => True
                     | (k, T) :: r => match aget k o with Some x => member need closed T x | None => need = true -> member need closed T TNull end /\ go r
                     end) m
  | KConst s => t = TStr s
  | KEnum _ l => exists s, t = TStr s /\ In s l
  | KNullable T => t = TNull \/ member need closed T t
  end.
(** The usual reading: the listed keys have values of their types, other keys are free. *)
Definition fits := member true false.
(** The same, and there are no other keys. *)
Definition exactly := member true true.
(** Only listed keys; each may be missing. *)
Definition loosely := member false true.

(** Places in types: inside an array, at a key. "Nullable" is looked through. *)
Inductive tstep := Elem | Field (k : string).
Fixpoint bare (t : vtype) : vtype := match t with KNullable i => bare i | o => o end.
Fixpoint at_place (p : list tstep) (t : vtype) : option vtype :=
  match p with
  | [] => Some (bare t)
  | s :: p =>
      match s, bare t with
      | Elem, KArray i => at_place p i
      | Field k, KObject m => match aget k m with Some x => at_place p x | None => None end
      | _, _ => None
      end
  end.
Definition occurs (t : vtype) (P : vtype -> Prop) : Prop := exists p x, at_place p t = Some x /\ P x.
(** Every object type lists a key once. *)
Definition distinct (t : vtype) : Prop := forall p m, at_place p t = Some (KObject m) -> NoDup (map fst m).
(** No "nullable null": the types that the code builds have none. *)
Inductive proper : vtype -> Prop :=
| PLeaf : forall t, match t with KArray _ | KObject _ | KNullable _ => False | _ => True end -> proper t
| PArray : forall t, proper t -> proper (KArray t)
| PObject : forall m, (forall k t, In (k, t) m -> proper t) -> proper (KObject m)
| PNullable : forall t, proper t -> match t with KNull | KAny | KNullable _ => False | _ => True end -> proper (KNullable t).
(** Where both types have an object type they list the same keys; where one is null, the other is null or unknown. *)
Definition side_by_side (a b : vtype) : Prop :=
  forall p x y, at_place p a = Some x -> at_place p b = Some y ->
    match x, y with
    | KObject m, KObject n => forall k, In k (map fst m) <-> In k (map fst n)
    | KNull, KNull | KNull, KAny | KAny, KNull => True
    | KNull, _ | _, KNull => False
    | _, _ => True
    end.
