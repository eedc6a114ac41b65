(** JSON values (serde_json::Value). Objects are association lists without duplicate keys; the order of their entries is not
    relied on (serde_json sorts them or keeps them in order, depending on its features). A number is an integer or the text of a float. *)
From Coq Require Import String Ascii ZArith Lia Bool List Arith.
From Verif Require Import Base.
Import ListNotations.
Local Open Scope string_scope.
Local Open Scope list_scope.

Inductive num := NInt (z : Z) | NFloat (text : string).
Inductive json := JNull | JBool (b : bool) | JNum (n : num) | JStr (s : string) | JArr (l : list json) | JObj (m : list (string * json)).

Section Ind.
  Variable P : json -> Prop.
  Hypothesis Hnull : P JNull.
  Hypothesis Hbool : forall b, P (JBool b).
  Hypothesis Hnum : forall n, P (JNum n).
  Hypothesis Hstr : forall s, P (JStr s).
  Hypothesis Harr : forall l, Forall P l -> P (JArr l).
  Hypothesis Hobj : forall m, Forall (fun e => P (snd e)) m -> P (JObj m).
  Fixpoint json_ind' (j : json) : P j :=
    match j with
    | JNull => Hnull | JBool b => Hbool b | JNum n => Hnum n | JStr s => Hstr s
    | JArr l => Harr l ((fix go l : Forall P l := match l with [] => Forall_nil _ | x :: r => Forall_cons _ (json_ind' x) (go r) end) l)
    | JObj m => Hobj m ((fix go m : Forall (fun e => P (snd e)) m := match m with [] => Forall_nil _ | e :: r => Forall_cons _ (json_ind' (snd e)) (go r) end) m)
    end.
End Ind.

(** A place inside a value: keys and positions. *)
Inductive step := Key (k : string) | At (i : nat).
Fixpoint jget (p : list step) (j : json) : option json :=
  match p with
  | [] => Some j
  | Key k :: p => match j with JObj m => match aget k m with Some x => jget p x | None => None end | _ => None end
  | At i :: p => match j with JArr l => match nth_error l i with Some x => jget p x | None => None end | _ => None end
  end.
(** No object has a key twice. *)
Fixpoint wf_json (j : json) : Prop :=
  match j with
  | JArr l => (fix go l := match l with [] => True | x :: r => wf_json x /\ go r end) l
  | JObj m => NoDup (map fst m) /\ (fix go m := match m with [] => True | e :: r => wf_json (snd e) /\ go r end) m
  | _ => True
  end.
