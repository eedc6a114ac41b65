(** Types of values: core/types/src/variable_type. Types are trees here: the sharing of object types ([Rc<RefCell<..>>]), which the functions modelled do not change, is left out, and so are
    the shortcuts for equal pointers in [merge]. A hash map is an association list. *)
From Coq Require Import String ZArith Bool List Arith.
From Verif Require Import Base Json.
Import ListNotations.
Local Open Scope string_scope.
Local Open Scope list_scope.

(** variable_type/mod.rs:14-30. *)
Inductive vtype :=
| KAny | KNull | KBool | KString | KNumber | KDate | KInterval
| KArray (t : vtype)
| KObject (m : list (string * vtype))
| KConst (s : string)
| KEnum (name : option string) (l : list string)
| KNullable (t : vtype).

Section Ind.
  Variable P : vtype -> Prop.
  Hypothesis HAny : P KAny.
  Hypothesis HNull : P KNull.
  Hypothesis HBool : P KBool.
  Hypothesis HString : P KString.
  Hypothesis HNumber : P KNumber.
  Hypothesis HDate : P KDate.
  Hypothesis HInterval : P KInterval.
  Hypothesis HArray : forall t, P t -> P (KArray t).
  Hypothesis HObject : forall m, Forall (fun e => P (snd e)) m -> P (KObject m).
  Hypothesis HConst : forall s, P (KConst s).
  Hypothesis HEnum : forall n l, P (KEnum n l).
  Hypothesis HNullable : forall t, P t -> P (KNullable t).
  Fixpoint vtype_ind' (t : vtype) : P t :=
    match t with
    | KAny => HAny | KNull => HNull | KBool => HBool | KString => HString | KNumber => HNumber | KDate => HDate | KInterval => HInterval
    | KArray t => HArray t (vtype_ind' t)
    | KObject m => HObject m ((fix go m : Forall (fun e => P (snd e)) m := match m with [] => Forall_nil _ | e :: r => Forall_cons _ (vtype_ind' (snd e)) (go r) end) m)
    | KConst s => HConst s
    | KEnum n l => HEnum n l
    | KNullable t => HNullable t (vtype_ind' t)
    end.
End Ind.

(** util.rs:9-14 [unwrap_nullable]. *)
Definition base (t : vtype) : vtype := match t with KNullable i => i | o => o end.
Definition nullable (t : vtype) : bool := match t with KNullable _ => true | _ => false end.
(** util.rs:16-23 [iterator]. *)
Fixpoint iterator (t : vtype) : option vtype := match t with KArray i => Some i | KInterval => Some KNumber | KNullable i => iterator i | _ => None end.
(** util.rs:33-42 [get]. *)
Fixpoint type_get (t : vtype) (k : string) : vtype :=
  match t with KObject m => match aget k m with Some x => x | None => KAny end | KNullable i => type_get i k | _ => KNull end.
(** util.rs:133-142 [widen]. *)
Fixpoint widen (t : vtype) : vtype := match t with KConst _ | KEnum _ _ => KString | KNullable i => KNullable (widen i) | o => o end.
(** util.rs:102-108 [is_string]. *)
Fixpoint is_string (t : vtype) : bool := match t with KString => true | KNullable i => is_string i | _ => false end.
Definition contains (l : list string) (s : string) : bool := existsb (fun x => String.eqb x s) l.
(** util.rs:44-84 [satisfies]; the constraint comes first, because it gets smaller. *)
Fixpoint sat (c t : vtype) {struct c} : bool :=
  match t, c with
  | KAny, _ => true
  | _, KAny => true
  | KNullable a, KNullable b => sat b a
  | KNullable _, _ => false
  | other, KNullable inner => sat inner other
  | KNull, KNull => true
  | KBool, KBool => true
  | KString, KString => true
  | KNumber, KNumber => true
  | KDate, KDate => true
  | KNumber, KDate => true
  | KString, KDate | KConst _, KDate | KEnum _ _, KDate => true
  | KInterval, KInterval => true
  | KArray a1, KArray a2 => sat a2 a1
  | KObject o1, KObject o2 =>
      (fix go o := match o with
                   | [] => true
                   | (k, v) :: r =>
                       match aget k o1 with
                       | Some tv => sat v tv
                       | None => match v with KAny | KNull | KNullable _ => true | _ => false end
                       end && go r
                   end) o2
  | KConst c1, KConst c2 => String.eqb c1 c2
  | KConst c, KEnum _ e => contains e c
  | KConst _, KString => true
  | KString, KConst _ => true
  | KEnum _ e1, KEnum _ e2 => forallb (contains e2) e1
  | KEnum _ e, KConst c => forallb (fun i => String.eqb i c) e
  | KEnum _ _, KString => true
  | KString, KEnum _ _ => true
  | _, _ => false
  end.
Definition satisfies (t c : vtype) : bool := sat c t.
Definition push (l : list string) (s : string) : list string := if contains l s then l else l ++ [s].
(** util.rs:144-242 [merge]; the other type comes first, because it gets smaller. *)
Fixpoint mg (r l : vtype) {struct r} : vtype :=
  let result :=
    match base l, base r with
    | KAny, _ => KAny
    | _, KAny => KAny
    | KNull, KNull => KNull
    | KNull, other => KNullable other
    | other, KNull => KNullable other
    | KBool, KBool => KBool
    | KString, KString => KString
    | KNumber, KNumber => KNumber
    | KDate, KDate => KDate
    | KInterval, KInterval => KInterval
    | KArray a1, KArray a2 => match a1, a2 with KAny, other => KArray other | other, KAny => KArray other | x, y => KArray (mg y x) end
    | KObject o1, KObject o2 =>
        KObject ((fix go o acc := match o with
                                  | [] => acc
                                  | (k, v) :: r => go r (aset k match aget k acc with Some cur => mg v cur | None => v end acc)
                                  end) o2 o1)
    | KConst c, KEnum _ values => KEnum None (push values c)
    | KConst c1, KConst c2 => if String.eqb c1 c2 then KConst c1 else KEnum None [c1; c2]
    | KConst _, KString | KString, KConst _ => KString
    | KEnum n1 a, KEnum n2 b => KEnum (match n1, n2 with Some x, Some y => Some (x ++ " | " ++ y)%string | _, _ => None end) (fold_left push b a)
    | KEnum _ values, KConst c => KEnum None (push values c)
    | KEnum _ _, KString | KString, KEnum _ _ => KString
    | _, _ => KAny
    end in
  if (nullable l || nullable r) && negb match result with KAny | KNull | KNullable _ => true | _ => false end then KNullable result else result.
Definition merge (l r : vtype) : vtype := mg r l.
(** variable_type/conv.rs:7-81: the type of a JSON document. *)
Fixpoint infer (j : json) : vtype :=
  match j with
  | JNull => KNull
  | JBool _ => KBool
  | JNum _ => KNumber
  | JStr _ => KString
  | JArr l =>
      match (fix go l acc := match l with
                             | [] => acc
                             | x :: r => go r (Some match acc with Some a => merge a (infer x) | None => infer x end)
                             end) l None with
      | Some t => KArray t
      | None => KArray KAny
      end
  | JObj m => KObject (map (fun e => (fst e, infer (snd e))) m)
  end.
