(** Removing parentheses from a syntax tree. *)
From Coq Require Import String Bool List Arith.
From Verif Require Import Base Value Heap Ast Parser.
Import ListNotations.
Local Open Scope string_scope.
Local Open Scope nat_scope.
Local Open Scope list_scope.

(** [drop pick n]: [n] without the parentheses at the places [pick] chooses. A place is the way from the root: the numbers of the children.
    Assignments are left alone. *)
Section Each.
  Context {A : Type}.
  Variable f : (list nat -> bool) -> A -> A.
  Fixpoint drop_each (pick : list nat -> bool) (i : nat) (l : list A) : list A :=
    match l with [] => [] | x :: r => f (fun q => pick (i :: q)) x :: drop_each pick (S i) r end.
End Each.
Fixpoint drop (pick : list nat -> bool) (n : node) : node :=
  let at_ i := drop (fun q => pick (i :: q)) in
  match n with
  | NParen m => if pick [] then at_ 0 m else NParen (at_ 0 m)
  | NBinary l o r => NBinary (at_ 0 l) o (at_ 1 r)
  | NUnary m o => NUnary (at_ 0 m) o
  | NCond a t e => NCond (at_ 0 a) (at_ 1 t) (at_ 2 e)
  | NMember m p => NMember (at_ 0 m) (at_ 1 p)
  | NSlice m a b => NSlice (at_ 0 m) (match a with Some x => Some (at_ 1 x) | None => None end) (match b with Some x => Some (at_ 2 x) | None => None end)
  | NInterval l r lb rb => NInterval (at_ 0 l) (at_ 1 r) lb rb
  | NArray l => NArray (drop_each drop pick 0 l)
  | NTemplate l => NTemplate (drop_each drop pick 0 l)
  | NCall k l => NCall k (drop_each drop pick 0 l)
  | NObject l => NObject (drop_each (fun pick kv => (drop (fun q => pick (0 :: q)) (fst kv), drop (fun q => pick (1 :: q)) (snd kv))) pick 0 l)
  | NMethod k m l => NMethod k (at_ 0 m) (drop_each drop (fun q => pick (1 :: q)) 0 l)
  | NClosure b a => NClosure (at_ 0 b) a
  | NNull | NBool _ | NNumber _ | NString _ | NPointer | NIdent _ | NRoot | NAssign _ _ | NError _ => n
  end.

(** Trees in which no negation [!] is the operand of a sign or the right operand of an operator that binds tighter than it. *)
Definition negation (n : node) : bool := match n with NUnary _ (OpLogic LNot) => true | _ => false end.
Definition tighter (o : operator) : bool :=
  match o with OpArith AMul | OpArith ADiv | OpArith AMod | OpArith APow | OpLogic LNullish => true | _ => false end.
Fixpoint calm (n : node) : bool :=
  match n with
  | NParen m | NClosure m _ => calm m
  | NBinary l o r => calm l && calm r && negb (tighter o && negation r)
  | NUnary m o => calm m && negb (match o with OpArith _ => negation m | _ => false end)
  | NCond a t e => calm a && calm t && calm e
  | NMember m p => calm m && calm p
  | NSlice m a b => calm m && match a with Some x => calm x | None => true end && match b with Some x => calm x | None => true end
  | NInterval l r _ _ => calm l && calm r
  | NArray l | NTemplate l | NCall _ l => forallb calm l
  | NObject l => forallb (fun kv => calm (fst kv) && calm (snd kv)) l
  | NMethod _ m l => calm m && forallb calm l
  | _ => true
  end.
(** Trees in which no interval begins with a closing bracket. *)
Fixpoint opening (n : node) : bool :=
  match n with
  | NParen m | NClosure m _ | NUnary m _ => opening m
  | NBinary l _ r => opening l && opening r
  | NCond a t e => opening a && opening t && opening e
  | NMember m p => opening m && opening p
  | NSlice m a b => opening m && match a with Some x => opening x | None => true end && match b with Some x => opening x | None => true end
  | NInterval l r lb _ => opening l && opening r && match lb with RSquare | RParen => false | _ => true end
  | NArray l | NTemplate l | NCall _ l => forallb opening l
  | NObject l => forallb (fun kv => opening (fst kv) && opening (snd kv)) l
  | NMethod _ m l => opening m && forallb opening l
  | _ => true
  end.

(** Contexts that are objects, or null. *)
Definition object_or_null (root : scope) : Prop := match sc_base root with VObj _ | VNull => True | _ => False end.
(** No assignments, no errors. *)
Fixpoint plain_tree (n : node) : bool :=
  match n with
  | NAssign _ _ | NError _ => false
  | NParen m | NClosure m _ | NUnary m _ => plain_tree m
  | NBinary l _ r => plain_tree l && plain_tree r
  | NCond a t e => plain_tree a && plain_tree t && plain_tree e
  | NMember m p => plain_tree m && plain_tree p
  | NSlice m a b => plain_tree m && match a with Some x => plain_tree x | None => true end && match b with Some x => plain_tree x | None => true end
  | NInterval l r _ _ => plain_tree l && plain_tree r
  | NArray l | NTemplate l | NCall _ l => forallb plain_tree l
  | NObject l => forallb (fun kv => plain_tree (fst kv) && plain_tree (snd kv)) l
  | NMethod _ m l => plain_tree m && forallb plain_tree l
  | _ => true
  end.

(** Places: [step n a x]: [x] is the part of [n] at [a]; [place n q p]: [p] is found in [n] by going along [q]. *)
Inductive step : node -> list nat -> node -> Prop :=
| st_paren : forall m, step (NParen m) [0] m
| st_left : forall l o r, step (NBinary l o r) [0] l
| st_right : forall l o r, step (NBinary l o r) [1] r
| st_unary : forall m o, step (NUnary m o) [0] m
| st_if : forall c t e, step (NCond c t e) [0] c
| st_then : forall c t e, step (NCond c t e) [1] t
| st_else : forall c t e, step (NCond c t e) [2] e
| st_base : forall m p, step (NMember m p) [0] m
| st_prop : forall m p, step (NMember m p) [1] p
| st_slice : forall m a b, step (NSlice m a b) [0] m
| st_from : forall m x b, step (NSlice m (Some x) b) [1] x
| st_to : forall m a x, step (NSlice m a (Some x)) [2] x
| st_lower : forall l r lb rb, step (NInterval l r lb rb) [0] l
| st_upper : forall l r lb rb, step (NInterval l r lb rb) [1] r
| st_item : forall l i x, nth_error l i = Some x -> step (NArray l) [i] x
| st_part : forall l i x, nth_error l i = Some x -> step (NTemplate l) [i] x
| st_arg : forall k l i x, nth_error l i = Some x -> step (NCall k l) [i] x
| st_key : forall l i k v, nth_error l i = Some (k, v) -> step (NObject l) [i; 0] k
| st_value : forall l i k v, nth_error l i = Some (k, v) -> step (NObject l) [i; 1] v
| st_this : forall k m l, step (NMethod k m l) [0] m
| st_marg : forall k m l i x, nth_error l i = Some x -> step (NMethod k m l) [1; i] x
| st_body : forall b a, step (NClosure b a) [0] b.
Inductive place : node -> list nat -> node -> Prop :=
| pl_here : forall n, place n [] n
| pl_there : forall n a x q p, step n a x -> place x q p -> place n (a ++ q) p.

(** The binary operators from loosest to tightest; [^] groups to the right, the others to the left. *)
Definition tightness (o : operator) : nat :=
  match o with
  | OpLogic LOr => 1
  | OpLogic LAnd => 2
  | OpCmp _ => 3
  | OpArith AAdd | OpArith ASub => 4
  | OpArith AMul | OpArith ADiv | OpArith AMod => 5
  | OpArith APow => 6
  | OpLogic LNullish => 7
  | _ => 0
  end.
Definition arithmetic (o : operator) : Prop := match o with OpArith _ => True | _ => False end.
(** Operators whose mixture is thought easy to read. *)
Definition kin (o o' : operator) : Prop := o = o' \/ (arithmetic o /\ arithmetic o').
Definition operation (n : node) : Prop := match n with NBinary _ _ _ | NUnary _ _ | NCond _ _ _ => True | _ => False end.
(** Not an operation. *)
Definition simple (n : node) : Prop := match n with NBinary _ _ _ | NUnary _ _ | NCond _ _ _ | NClosure _ _ | NAssign _ _ | NError _ => False | _ => True end.
(** Names, accesses and calls. *)
Definition chain (n : node) : Prop :=
  match n with NIdent _ | NRoot | NPointer | NMember _ _ | NSlice _ _ _ | NCall _ _ | NMethod _ _ _ | NParen _ => True | _ => False end.
(** The operator of an operation is one the parser knows in that position. *)
Definition proper (n : node) : Prop := match n with NBinary _ o _ => binary_op o <> None | NUnary _ o => unary_op o <> None | _ => True end.
(** [unneeded p a m]: when parentheses around [m] at [a] in [p] are thought unnecessary. *)
Definition unneeded (p : node) (a : list nat) (m : node) : Prop :=
  match p, a with
  | NBinary _ o _, _ =>
      match m with
      | NBinary _ o' _ =>
          kin o' o /\ (tightness o < tightness o' \/
                       (tightness o' = tightness o /\ if operator_eq_dec o (OpArith APow) then a = [1] else a = [0]))
      | NUnary _ o' => arithmetic o /\ (o' = OpArith AAdd \/ o' = OpArith ASub)
      | _ => simple m
      end
  | NUnary _ _, _ | NCond _ _ _, _ => simple m
  | NMember _ _, [0] | NSlice _ _ _, [0] | NMethod _ _ _, [0] => chain m
  | _, _ => simple m \/ operation m
  end.
