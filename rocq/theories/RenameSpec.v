(** What renaming a property of the context means for an expression. *)
From Coq Require Import String List Bool Arith.
From Verif Require Import Base Dec Value Heap Ast Deps.
Import ListNotations.
Local Open Scope string_scope.
Local Open Scope nat_scope.
Local Open Scope list_scope.

Definition is_name (x : string) (o : option string) : bool := match o with Some y => String.eqb y x | None => false end.

Section Names.
  Variables old new : string.
  (** The expression in which the name [old] has become [new], wherever it does not stand for the element of a closure. *)
  Fixpoint replaced (shadowed : bool) (n : node) : node :=
    match n with
    | NIdent x => NIdent (if negb shadowed && String.eqb x old then new else x)
    | NClosure body alias => NClosure (replaced (shadowed || is_name old alias) body) alias
    | NTemplate l => NTemplate (map (replaced shadowed) l)
    | NArray l => NArray (map (replaced shadowed) l)
    | NCall k l => NCall k (map (replaced shadowed) l)
    | NObject l => NObject (map (fun kv => (replaced shadowed (fst kv), replaced shadowed (snd kv))) l)
    | NAssign l o => NAssign (map (fun kv => (replaced shadowed (fst kv), replaced shadowed (snd kv))) l) (option_map (replaced shadowed) o)
    | NParen x => NParen (replaced shadowed x)
    | NUnary x op => NUnary (replaced shadowed x) op
    | NMember a b => NMember (replaced shadowed a) (replaced shadowed b)
    | NInterval a b lb rb => NInterval (replaced shadowed a) (replaced shadowed b) lb rb
    | NBinary a op b => NBinary (replaced shadowed a) op (replaced shadowed b)
    | NSlice a f t => NSlice (replaced shadowed a) (option_map (replaced shadowed) f) (option_map (replaced shadowed) t)
    | NCond a b c => NCond (replaced shadowed a) (replaced shadowed b) (replaced shadowed c)
    | NMethod k x l => NMethod k (replaced shadowed x) (map (replaced shadowed) l)
    | NError o => NError (option_map (replaced shadowed) o)
    | _ => n
    end.
  (** The names used in an expression. *)
  Fixpoint used (n : node) : list string :=
    let opt o := match o with Some x => used x | None => [] end in
    match n with
    | NIdent x => [x]
    | NTemplate l | NArray l | NCall _ l => flat_map used l
    | NObject l => flat_map (fun kv => used (fst kv) ++ used (snd kv)) l
    | NAssign l o => flat_map (fun kv => used (fst kv) ++ used (snd kv)) l ++ opt o
    | NClosure x _ | NParen x | NUnary x _ => used x
    | NMember a b | NInterval a b _ _ | NBinary a _ b => used a ++ used b
    | NSlice a f t => used a ++ opt f ++ opt t
    | NCond a b c => used a ++ used b ++ used c
    | NMethod _ x l => used x ++ flat_map used l
    | NError o => opt o
    | _ => []
    end.
  (** The names that closures give to their elements. *)
  Fixpoint given (n : node) : list string :=
    let opt o := match o with Some x => given x | None => [] end in
    match n with
    | NClosure x a => match a with Some y => [y] | None => [] end ++ given x
    | NTemplate l | NArray l | NCall _ l => flat_map given l
    | NObject l => flat_map (fun kv => given (fst kv) ++ given (snd kv)) l
    | NAssign l o => flat_map (fun kv => given (fst kv) ++ given (snd kv)) l ++ opt o
    | NParen x | NUnary x _ => given x
    | NMember a b | NInterval a b _ _ | NBinary a _ b => given a ++ given b
    | NSlice a f t => given a ++ opt f ++ opt t
    | NCond a b c => given a ++ given b ++ given c
    | NMethod _ x l => given x ++ flat_map given l
    | NError o => opt o
    | _ => []
    end.
  (** The context as a whole is not read. *)
  Fixpoint rootless (n : node) : bool :=
    let opt o := match o with Some x => rootless x | None => true end in
    match n with
    | NRoot => false
    | NTemplate l | NArray l | NCall _ l => forallb rootless l
    | NObject l => forallb (fun kv => rootless (fst kv) && rootless (snd kv)) l
    | NAssign l o => forallb (fun kv => rootless (fst kv) && rootless (snd kv)) l && opt o
    | NClosure x _ | NParen x | NUnary x _ => rootless x
    | NMember a b | NInterval a b _ _ | NBinary a _ b => rootless a && rootless b
    | NSlice a f t => rootless a && opt f && opt t
    | NCond a b c => rootless a && rootless b && rootless c
    | NMethod _ x l => rootless x && forallb rootless l
    | NError o => opt o
    | _ => true
    end.
  (** If a closure calls its elements [old], its collection is a path in the context; and closure functions
      have two arguments, as the parser builds them. [al]: the elements of the closures around. *)
  Definition known_collection (al : list string) (coll : node) : bool :=
    match source_path coll with Some (x :: _) => negb (String.eqb x "$") && negb (smem x al) | _ => false end.
  Fixpoint told_apart (al : list string) (n : node) : bool :=
    let opt o := match o with Some x => told_apart al x | None => true end in
    match n with
    | NCall (FClosure _) (a0 :: NClosure body alias :: r) =>
        told_apart al a0 && (negb (is_name old alias) || known_collection al a0) &&
        told_apart (match alias with Some a => a :: al | None => al end) body && match r with [] => true | _ => false end
    | NTemplate l | NArray l | NCall _ l => forallb (told_apart al) l
    | NObject l => forallb (fun kv => told_apart al (fst kv) && told_apart al (snd kv)) l
    | NAssign l o => forallb (fun kv => told_apart al (fst kv) && told_apart al (snd kv)) l && opt o
    | NClosure x _ | NParen x | NUnary x _ => told_apart al x
    | NMember a b | NInterval a b _ _ | NBinary a _ b => told_apart al a && told_apart al b
    | NSlice a f t => told_apart al a && opt f && opt t
    | NCond a b c => told_apart al a && told_apart al b && told_apart al c
    | NMethod _ x l => told_apart al x && forallb (told_apart al) l
    | NError o => opt o
    | _ => true
    end.
  (** The second context has under [new] what the first has under [old], and nothing else is different. *)
  Definition moved (t1 t2 : tree) : Prop := exists m1 m2, t1 = TObj m1 /\ t2 = TObj m2 /\ aget new m2 = aget old m1 /\
    forall k, k <> old -> k <> new -> aget k m2 = aget k m1.
End Names.

(** The text at a place of a JSON document; places go through the keys of objects and the positions of arrays. *)
Inductive step := Key (k : string) | Pos (i : nat).
Fixpoint text_at (t : tree) (p : list step) : option string :=
  match p, t with
  | [], TStr s => Some s
  | Key k :: r, TObj m => match aget k m with Some x => text_at x r | None => None end
  | Pos i :: r, TArr l => match nth_error l i with Some x => text_at x r | None => None end
  | _, _ => None
  end.
(** The same document but for its texts. *)
Fixpoint blanked (t : tree) : tree :=
  match t with
  | TStr _ => TStr ""
  | TArr l => TArr (map blanked l)
  | TObj m => TObj (map (fun e => (fst e, blanked (snd e))) m)
  | _ => t
  end.
Definition through (k : string) (p : list step) : Prop := In (Key k) p.
