(** Equal contents, whatever the order of the entries of objects. *)
From Coq Require Import String Ascii ZArith Bool List Arith Permutation.
From Verif Require Import Base Dec Value.
Import ListNotations.

Inductive same : tree -> tree -> Prop :=
| SameNull : same TNull TNull
| SameBool : forall b, same (TBool b) (TBool b)
| SameNum : forall d, same (TNum d) (TNum d)
| SameStr : forall s, same (TStr s) (TStr s)
| SameDyn : forall d, same (TDyn d) (TDyn d)
| SameArr : forall a b, Forall2 same a b -> same (TArr a) (TArr b)
| SameObj : forall a b c, Permutation b c -> Forall2 (fun x y => fst x = fst y /\ same (snd x) (snd y)) a c -> same (TObj a) (TObj b).
(** No dates and no intervals inside. *)
Inductive plain_data : tree -> Prop :=
| PlainNull : plain_data TNull
| PlainBool : forall b, plain_data (TBool b)
| PlainNum : forall d, plain_data (TNum d)
| PlainStr : forall s, plain_data (TStr s)
| PlainArr : forall a, Forall plain_data a -> plain_data (TArr a)
| PlainObj : forall m, Forall (fun e => plain_data (snd e)) m -> plain_data (TObj m).
(** How many values and keys there are in a tree. *)
Fixpoint weight (t : tree) : nat :=
  match t with
  | TArr a => S (fold_right (fun x n => weight x + n) 0 a)
  | TObj m => S (fold_right (fun e n => S (weight (snd e) + n)) 0 m)
  | _ => 1
  end.
