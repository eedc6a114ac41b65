(** What a chain of conditional expressions is, and the match block that says the same. *)
From Coq Require Import String Bool List Arith.
From Verif Require Import Base Value Heap Ast Ops Isolate Session Blocks BlocksSpec.
Import ListNotations.
Local Open Scope string_scope.
Local Open Scope nat_scope.
Local Open Scope list_scope.

(** [c1 ? v1 : c2 ? v2 : ... : e]. Parentheses around the whole or around an alternative do not matter. *)
Inductive chain : node -> list (node * node) -> node -> Prop :=
| Ch_paren : forall n l e, chain n l e -> chain (NParen n) l e
| Ch_end : forall e, (forall m, e <> NParen m) -> (forall c v f, e <> NCond c v f) -> chain e [] e
| Ch_cond : forall c v f l e, chain f l e -> chain (NCond c v f) ((c, v) :: l) e.

(** The direct parts of an expression. *)
Inductive part : node -> node -> Prop :=
| P_template : forall l x, In x l -> part x (NTemplate l)
| P_array : forall l x, In x l -> part x (NArray l)
| P_key : forall l k v, In (k, v) l -> part k (NObject l)
| P_value : forall l k v, In (k, v) l -> part v (NObject l)
| P_akey : forall l o k v, In (k, v) l -> part k (NAssign l o)
| P_avalue : forall l o k v, In (k, v) l -> part v (NAssign l o)
| P_output : forall l x, part x (NAssign l (Some x))
| P_closure : forall b a, part b (NClosure b a)
| P_paren : forall x, part x (NParen x)
| P_object : forall a b, part a (NMember a b)
| P_property : forall a b, part b (NMember a b)
| P_sliced : forall a f t, part a (NSlice a f t)
| P_from : forall a f t, part f (NSlice a (Some f) t)
| P_to : forall a f t, part t (NSlice a f (Some t))
| P_left : forall a b lb rb, part a (NInterval a b lb rb)
| P_right : forall a b lb rb, part b (NInterval a b lb rb)
| P_cond : forall c t f, part c (NCond c t f)
| P_then : forall c t f, part t (NCond c t f)
| P_else : forall c t f, part f (NCond c t f)
| P_unary : forall a o, part a (NUnary a o)
| P_lhs : forall a o b, part a (NBinary a o b)
| P_rhs : forall a o b, part b (NBinary a o b)
| P_arg : forall k l x, In x l -> part x (NCall k l)
| P_this : forall k a l, part a (NMethod k a l)
| P_marg : forall k a l x, In x l -> part x (NMethod k a l)
| P_error : forall x, part x (NError (Some x)).
Inductive inside : node -> node -> Prop :=
| In_self : forall n, inside n n
| In_part : forall m x n, part x n -> inside m x -> inside m n.

(** The expression is a name, or a field of such an expression, written with a dot or in brackets. *)
Inductive quoted : node -> string -> Prop :=
| Qt_here : forall s, quoted (NString s) s
| Qt_paren : forall n s, quoted n s -> quoted (NParen n) s.
Inductive spells : node -> string -> Prop :=
| Sp_name : forall s, spells (NIdent s) s
| Sp_field : forall m b p s, spells_in m b -> quoted p s -> spells (NMember m p) (b ++ "." ++ s)%string
with spells_in : node -> string -> Prop :=
| Si_here : forall n s, spells n s -> spells_in n s
| Si_paren : forall n s, spells_in n s -> spells_in (NParen n) s.
Definition mentions (n : node) (p : string) : Prop := exists m, inside m n /\ spells m p.
(** A path that is mentioned, and not only as the beginning of others. *)
Definition subject (n : node) (p : string) : Prop := mentions n p /\ forall rest, ~ mentions n (p ++ "." ++ rest)%string.
(** What all conditions have as a subject. *)
Definition common_subject (l : list (node * node)) (p : string) : Prop := forall c v, In (c, v) l -> subject c p.

Section Arms.
  Variable parse : ekind -> string -> res node.
  Inductive unwraps : node -> node -> Prop :=
  | Uw_same : forall n, unwraps n n
  | Uw_left : forall m n, unwraps m n -> unwraps (NParen m) n
  | Uw_right : forall m n, unwraps m n -> unwraps m (NParen n).
  (** The text says this expression, up to parentheses around it. *)
  Definition says (src : string) (n : node) : Prop := src <> "" /\ exists m, parse KStandard src = Ok m /\ unwraps m n.
  (** The arms: one for each condition, in order, and one without condition for the last alternative. *)
  Inductive arms_of : list (node * node) -> node -> list marm -> Prop :=
  | Ao_last : forall e a, ma_cond a = "" -> says (ma_value a) e -> arms_of [] e [a]
  | Ao_next : forall c v l e a arms, says (ma_cond a) c -> says (ma_value a) v -> arms_of l e arms -> arms_of ((c, v) :: l) e (a :: arms).
End Arms.
