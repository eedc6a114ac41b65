(** What the cell analyser's answers mean. *)
From Coq Require Import String Ascii ZArith QArith Lia Bool List Arith.
From Verif Require Import Base Dec Value Ast Discriminant.
Import ListNotations.
Local Open Scope list_scope.

(** A number is above a lower bound, below an upper bound, in a segment, in a cover. *)
Definition over (b : bound) (x : dec) : Prop :=
  match b with
  | Unbounded => True
  | Inclusive n => (dec_val n <= dec_val x)%Q
  | Exclusive n => (dec_val n < dec_val x)%Q
  end.
Definition under (b : bound) (x : dec) : Prop :=
  match b with
  | Unbounded => True
  | Inclusive n => (dec_val x <= dec_val n)%Q
  | Exclusive n => (dec_val x < dec_val n)%Q
  end.
Definition covered (c : cover) (x : dec) : Prop := exists s, In s c /\ over (sg_lo s) x /\ under (sg_hi s) x.

(** A value passes a test. *)
Definition passes (t : arm_test) (v : value) : Prop :=
  match t with
  | TEnum _ l => exists s, v = VStr s /\ In s l
  | TBools _ l => exists b, v = VBool b /\ In b l
  | TNumber _ c => exists x, v = VNum x /\ covered c x
  | TDefault | TUnrecognized => False
  end.
(** The path a test is about, as an expression: [a.b.c]. *)
Definition test_path (t : arm_test) : option (list string) :=
  match t with
  | TEnum p _ | TBools p _ | TNumber p _ => Some p
  | TDefault | TUnrecognized => None
  end.
Definition path_node (p : list string) : node :=
  match p with
  | [] => NNull
  | k :: r => fold_left (fun n k => NMember n (NString k)) r (NIdent k)
  end.
