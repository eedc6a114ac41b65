(** What it means that a context agrees with another one on a path, and which syntax trees the parser
    builds around closures. *)
From Coq Require Import String List Bool Arith.
From Verif Require Import Base Dec Value Heap Ast Funcs RunSpec ContentFacts Deps.
Import ListNotations.
Local Open Scope string_scope.
Local Open Scope nat_scope.
Local Open Scope list_scope.

(** The property at a path inside a value; null where there is none. *)
Fixpoint at_path (t : tree) (p : list string) : tree :=
  match p with
  | [] => t
  | k :: r => at_path match t with
                      | TObj m => match aget k m with Some x => x | None => TNull end
                      | _ => TNull
                      end r
  end.
(** A path as expressions write it: [$root] is the context itself. *)
Definition input_at (ctx : tree) (p : list string) : tree :=
  match p with
  | x :: r => if String.eqb x "$root" then at_path ctx r else at_path ctx p
  | [] => ctx
  end.
(** A context: an object, or nothing. *)
Definition is_context (t : tree) : bool := match t with TObj _ | TNull => true | _ => false end.

(** No syntax errors; closures are arguments of the functions that call them, and nothing is called
    [$root] but the context itself. *)
Fixpoint sane (n : node) : bool :=
  match n with
  | NIdent x => negb (String.eqb x "$root")
  | NClosure _ _ => false
  | NCall (FClosure _) (a0 :: a1 :: r) =>
      sane a0 && match a1 with
                 | NClosure body alias =>
                     sane body && match alias with Some a => negb (String.eqb a "$root") | None => true end
                 | _ => false
                 end && forallb sane r
  | NTemplate l | NArray l | NCall _ l => forallb sane l
  | NObject l => forallb (fun kv => sane (fst kv) && sane (snd kv)) l
  | NAssign l o => forallb (fun kv => sane (fst kv) && sane (snd kv)) l
                   && match o with Some x => sane x | None => true end
  | NParen x | NUnary x _ => sane x
  | NMember a b | NInterval a b _ _ | NBinary a _ b => sane a && sane b
  | NSlice a f t =>
      sane a && match f with Some x => sane x | None => true end && match t with Some x => sane x | None => true end
  | NCond a b c => sane a && sane b && sane c
  | NMethod _ x l => sane x && forallb sane l
  | NError _ => false
  | _ => true
  end.
(** How deep closures are nested in one another. *)
Fixpoint nesting (n : node) : nat :=
  let opt o := match o with Some x => nesting x | None => 0 end in
  match n with
  | NCall (FClosure _) (a0 :: a1 :: r) =>
      Nat.max (nesting a0) (Nat.max (S (nesting a1)) (list_max (map nesting r)))
  | NTemplate l | NArray l | NCall _ l => list_max (map nesting l)
  | NObject l => list_max (map (fun kv => Nat.max (nesting (fst kv)) (nesting (snd kv))) l)
  | NAssign l o => Nat.max (list_max (map (fun kv => Nat.max (nesting (fst kv)) (nesting (snd kv))) l)) (opt o)
  | NClosure x _ | NParen x | NUnary x _ => nesting x
  | NMember a b | NInterval a b _ _ | NBinary a _ b => Nat.max (nesting a) (nesting b)
  | NSlice a f t => Nat.max (nesting a) (Nat.max (opt f) (opt t))
  | NCond a b c => Nat.max (nesting a) (Nat.max (nesting b) (nesting c))
  | NMethod _ x l => Nat.max (nesting x) (list_max (map nesting l))
  | NError o => opt o
  | _ => 0
  end.
(** The two contexts agree on every property the analysis reports as read directly. Properties reached
    through the alias of a collection are reported too, but need not agree by themselves: the collection
    has to agree as a whole. *)
Definition agree_on_reads (reads : list rdep) (t1 t2 : tree) : Prop :=
  forall x, In x (flatten_reads reads) -> pr_alias x = false -> input_at t1 (pr_path x) = input_at t2 (pr_path x).

(** The outcome of an expression is settled by what two contexts are required to have in common. *)
Definition settled_by (L : lib) (n : node) (common : tree -> tree -> Prop) : Prop :=
  forall b1 b2 h1 h2 t1 t2 r1 g1, repr h1 b1 t1 -> repr h2 b2 t2 -> is_context t1 = true -> is_context t2 = true ->
  common t1 t2 -> yields (std_ext L) n (scope_new b1) h1 r1 g1 ->
  exists r2 g2, yields (std_ext L) n (scope_new b2) h2 r2 g2 /\ same_outcome (r1, g1) (r2, g2).

(** The names written in an expression. *)
Fixpoint names (n : node) : list string :=
  let opt o := match o with Some x => names x | None => [] end in
  match n with
  | NIdent x | NString x => [x]
  | NTemplate l | NArray l | NCall _ l => flat_map names l
  | NObject l => flat_map (fun kv => names (fst kv) ++ names (snd kv)) l
  | NAssign l o => flat_map (fun kv => names (fst kv) ++ names (snd kv)) l ++ opt o
  | NClosure x _ | NParen x | NUnary x _ => names x
  | NMember a b | NInterval a b _ _ | NBinary a _ b => names a ++ names b
  | NSlice a f t => names a ++ opt f ++ opt t
  | NCond a b c => names a ++ names b ++ names c
  | NMethod _ x l => names x ++ flat_map names l
  | NError o => opt o
  | NRoot => ["$root"]
  | _ => []
  end.

(** [a.b.c], as the parser builds it. *)
Definition dots (x : string) (l : list string) : node := fold_left (fun n k => NMember n (NString k)) l (NIdent x).
(** Expressions that are put together from dotted names and literals by operators, literals, templates and
    functions that take no closure, and the dotted names in them from left to right. *)
Inductive plain_reads : node -> list (list string) -> Prop :=
| PRNull : plain_reads NNull []
| PRBool : forall b, plain_reads (NBool b) []
| PRNum : forall d, plain_reads (NNumber d) []
| PRStr : forall s, plain_reads (NString s) []
| PRPath : forall x l, x <> "$" -> plain_reads (dots x l) [x :: l]
| PRBin : forall a o b p q, plain_reads a p -> plain_reads b q -> plain_reads (NBinary a o b) (p ++ q)
| PRInt : forall a b l r p q, plain_reads a p -> plain_reads b q -> plain_reads (NInterval a b l r) (p ++ q)
| PRCond : forall a b c p q r, plain_reads a p -> plain_reads b q -> plain_reads c r -> plain_reads (NCond a b c) (p ++ q ++ r)
| PRUn : forall a o p, plain_reads a p -> plain_reads (NUnary a o) p
| PRParen : forall a p, plain_reads a p -> plain_reads (NParen a) p
| PRArr : forall l p, plain_list l p -> plain_reads (NArray l) p
| PRTempl : forall l p, plain_list l p -> plain_reads (NTemplate l) p
| PRFun : forall f l p, plain_list l p -> plain_reads (NCall (FInternal f) l) p
with plain_list : list node -> list (list string) -> Prop :=
| PLNil : plain_list [] []
| PLCons : forall a l p q, plain_reads a p -> plain_list l q -> plain_list (a :: l) (p ++ q).
Scheme plain_reads_mut := Induction for plain_reads Sort Prop with plain_list_mut := Induction for plain_list Sort Prop.
Combined Scheme plain_both from plain_reads_mut, plain_list_mut.
