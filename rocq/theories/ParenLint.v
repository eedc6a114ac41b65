(** The hints about unnecessary parentheses. Models core/engine/src/policy/linter/redundant_parentheses.rs.
    Only standard expressions are checked (208). Simplification: a finding is the way from the root of the syntax tree to the parentheses, instead of the two spans in the source. *)
From Coq Require Import String Bool List Arith.
From Verif Require Import Base Value Ast Parser.
Import ListNotations.
Local Open Scope string_scope.
Local Open Scope nat_scope.
Local Open Scope list_scope.

(** 13-29 [Side], [ParenSite]; [q] and [la]: the precedence of the operator, and whether it is left-associative. *)
Inductive side := SLeft | SRight.
Inductive site := Delimited | Operand (o : operator) (q : nat) (la : bool) (s : side) | PostfixBase | Guarded.
Definition op_eqb (a b : operator) : bool := if operator_eq_dec a b then true else false.
(** 188-190 [same_family]. *)
Definition same_family (a b : operator) : bool :=
  op_eqb a b || match a, b with OpArith _, OpArith _ => true | _, _ => false end.
(** 169-179 [is_atom]. *)
Definition is_atom (n : node) : bool :=
  match n with NBinary _ _ _ | NUnary _ _ | NCond _ _ _ | NClosure _ _ | NAssign _ _ | NError _ => false | _ => true end.
(** 181-186 [is_compound]. *)
Definition is_compound (n : node) : bool := match n with NBinary _ _ _ | NUnary _ _ | NCond _ _ _ => true | _ => false end.
(** 119-125 [operand_site]. *)
Definition operand_site (o : operator) (s : side) : site :=
  match binary_op o with Some (q, la) => Operand o q la s | None => Guarded end.
(** 127-167 [is_redundant]. *)
Definition is_redundant (inner : node) (w : site) : bool :=
  match w with
  | Delimited => is_atom inner || is_compound inner
  | Guarded => is_atom inner
  | PostfixBase =>
      match inner with
      | NIdent _ | NRoot | NPointer | NMember _ _ | NSlice _ _ _ | NCall _ _ | NMethod _ _ _ | NParen _ => true
      | _ => false
      end
  | Operand po pq pla s =>
      match inner with
      | NBinary _ o _ =>
          same_family o po &&
          match binary_op o with
          | Some (q, _) => (pq <? q) || ((q =? pq) && match s with SLeft => pla | SRight => negb pla end)
          | None => false
          end
      | NUnary _ o =>
          same_family o po && match unary_op o with Some u => pq <? u | None => false end
      | _ => is_atom inner
      end
  end.
(** The findings of the elements of a list, which are numbered from [i]. *)
Section Each.
  Context {A : Type}.
  Variable f : A -> list (list nat).
  Fixpoint at_each (i : nat) (l : list A) : list (list nat) :=
    match l with [] => [] | x :: r => map (cons i) (f x) ++ at_each (S i) r end.
End Each.
(** 37-117 [visit]: the parentheses reported. *)
Fixpoint findings (n : node) (w : site) : list (list nat) :=
  match n with
  | NParen m =>
      (if is_redundant m w then [[]] else []) ++
      map (cons 0) (findings m (match m with NParen _ => w | _ => Delimited end))
  | NBinary l o r => map (cons 0) (findings l (operand_site o SLeft)) ++ map (cons 1) (findings r (operand_site o SRight))
  | NUnary m _ => map (cons 0) (findings m Guarded)
  | NCond a t e => map (cons 0) (findings a Guarded) ++ map (cons 1) (findings t Guarded) ++ map (cons 2) (findings e Guarded)
  | NMember m p => map (cons 0) (findings m PostfixBase) ++ map (cons 1) (findings p Delimited)
  | NSlice m a b =>
      map (cons 0) (findings m PostfixBase) ++
      match a with Some x => map (cons 1) (findings x Delimited) | None => [] end ++
      match b with Some x => map (cons 2) (findings x Delimited) | None => [] end
  | NInterval l r _ _ => map (cons 0) (findings l Delimited) ++ map (cons 1) (findings r Delimited)
  | NArray l | NTemplate l | NCall _ l => at_each (fun x => findings x Delimited) 0 l
  | NObject l => at_each (fun kv => map (cons 0) (findings (fst kv) Delimited) ++ map (cons 1) (findings (snd kv) Delimited)) 0 l
  | NAssign l o =>
      map (cons 0) (at_each (fun kv => map (cons 0) (findings (fst kv) Guarded) ++ map (cons 1) (findings (snd kv) Delimited)) 0 l) ++
      match o with Some x => map (cons 1) (findings x Delimited) | None => [] end
  | NMethod _ m l => map (cons 0) (findings m PostfixBase) ++ map (cons 1) (at_each (fun x => findings x Delimited) 0 l)
  | NClosure b _ => map (cons 0) (findings b Delimited)
  | NError o => match o with Some x => map (cons 0) (findings x Guarded) | None => [] end
  | NNull | NBool _ | NNumber _ | NString _ | NPointer | NIdent _ | NRoot => []
  end.
(** 194-201 [scan]. *)
Definition paren_hints (n : node) : list (list nat) := findings n Delimited.
