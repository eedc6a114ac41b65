(** Renaming a global property of a policy: which names of an expression are the property's, the edit of an expression, of a written key and of
    the JSON of a block.
    Models core/engine/src/workspace/editor.rs:317-346, 478-516 and 527-612, with the references of
    core/expression/src/intellisense/dependency.rs:331-857 and core/engine/src/policy/queries/scope.rs:91-147.
    Simplifications: the code lists the positions of a reference's segments in the text and replaces the text there (types/diagnostic.rs:29-55);
    here the walk that lists them replaces the name in the syntax tree. Only the first segment of a reference can be a global property, so only
    first segments are followed. No property is called [$] or [$root]. Entities and their fields as targets are left out. *)
From Coq Require Import String Ascii Bool List Arith.
From Verif Require Import Base Dec Value Heap Ast Deps.
Import ListNotations.
Local Open Scope string_scope.
Local Open Scope nat_scope.
Local Open Scope list_scope.

(** scope.rs:91-96 [EntityGraph]: the names of the entities, the global properties with the entity they refer to, the computed properties that
    hold instances of an entity. *)
Record entity_graph := EGraph { eg_models : list string; eg_globals : @amap (option string); eg_computed : @amap string }.
(** scope.rs:99-101. *)
Definition eg_contains (g : entity_graph) (x : string) : bool := smem x (eg_models g).
Fixpoint has_dot (s : string) : bool :=
  match s with EmptyString => false | String c r => Ascii.eqb c "." || has_dot r end.
(** scope.rs:129-143 [next_entity_for_global]. *)
Definition next_for_global (g : entity_graph) (x : string) : option string :=
  match aget x (eg_globals g) with
  | Some t => t
  | None => if has_dot x then None else aget x (eg_computed g)
  end.
(** editor.rs:493-509: the name at the start of a path is a global property. *)
Definition is_global (g : entity_graph) (x : string) : bool :=
  negb (eg_contains g x) &&
  (match next_for_global g x with Some _ => true | None => false end || match aget x (eg_globals g) with Some _ => true | None => false end).

(** ** Expressions *)
(** dependency.rs:362-380: a chain of member accesses starts with a name, [$root] or [#]. *)
Fixpoint is_chain (n : node) : bool :=
  match n with NIdent _ | NRoot | NPointer => true | NMember a _ => is_chain a | _ => false end.
(** dependency.rs:436-448: the fields up to the first computed segment, and whether there is none. *)
Fixpoint first_group (n : node) : list string * bool :=
  match n with
  | NIdent x => ([x], true)
  | NRoot => (["$root"], true)
  | NMember a (NString k) => let (g, open) := first_group a in if open then (g ++ [k], true) else (g, false)
  | NMember a _ => (fst (first_group a), false)
  | _ => ([], true)
  end.
(** The scope in which the computed segments after [m] are resolved. *)
Fixpoint chain_scope (m : node) (s : dscope) : dscope :=
  match m with
  | NMember a (NString _) => chain_scope a s
  | NMember a p => snd (resolve p (chain_scope a s))
  | _ => s
  end.
(** dependency.rs:602-640: the name [x] is reported, as a path of its own. *)
Definition aliased (x : string) (s : dscope) : bool := match aget x (ds_aliases s) with Some _ => true | None => false end.
Definition reported (x : string) (s : dscope) : bool := smem x (ds_unres s) || negb (aliased x s) && negb (is_local s [x]).
(** dependency.rs:367-434, 564-576: the same for the name that starts the path [group]. *)
Definition reported_root (x : string) (group : list string) (s : dscope) : bool :=
  negb (String.eqb x "$") &&
  (smem x (ds_unres s) || negb (aliased x s) && negb (is_local s [x]) && negb (is_local s group)).

Section Thread.
  Context {A : Type} (f : A -> dscope -> A) (after : A -> dscope -> dscope).
  Fixpoint thread (l : list A) (s : dscope) : list A :=
    match l with [] => [] | x :: r => f x s :: thread r (after x s) end.
End Thread.
Definition left_by (n : node) (s : dscope) : dscope := snd (resolve n s).
Section Rename.
  (** The target: editor.rs:397-401. *)
  Variable hit : string -> bool.
  Variable new : string.
  Definition put (b : bool) (x : string) : node := NIdent (if b && hit x then new else x).
  (** dependency.rs:706-716: the collection of a closure function that is a path. Aliases are told apart, unresolved ones are not. *)
  Fixpoint put_root (n : node) (s : dscope) : node :=
    match n with
    | NIdent x => put (negb (aliased x s)) x
    | NMember a p => NMember (put_root a s) p
    | _ => n
    end.
  (** dependency.rs:600-857 [resolve], the references. *)
  Fixpoint rename_in (n : node) (s : dscope) {struct n} : node :=
    match n with
    | NIdent x => put (reported x s) x
    | NMember a p =>
        if is_chain n then
          (fix chain (m : node) : node :=
             match m with
             | NIdent x => put (reported_root x (fst (first_group n)) s) x
             | NMember a p => NMember (chain a) (match p with NString _ => p | _ => rename_in p (chain_scope a s) end)
             | _ => m
             end) n
        else NMember (rename_in a s) (rename_in p (left_by a s))
    | NAssign items output =>
        let after := fun kv s => bind_key (fst kv) (left_by (snd kv) s) in
        NAssign (thread (fun kv s => (fst kv, rename_in (snd kv) s)) after items s)
                (option_map (fun o => rename_in o (fold_left (fun s kv => after kv s) items s)) output)
    | NCall (FClosure c) (a0 :: a1 :: r) =>
        let info := read_path a0 in
        let source := match info with Some p => Some p | None => source_path a0 end in
        match a1 with
        | NClosure body alias =>
            let coll := match info with
                        | Some p => if is_local s p then rename_in a0 s else put_root a0 s
                        | None => rename_in a0 s
                        end in
            NCall (FClosure c) (coll :: NClosure (rename_in body (inner_scope s source alias)) alias :: r)
        | _ => NCall (FClosure c) (a0 :: rename_in a1 s :: r)
        end
    | NCall k args => NCall k (thread rename_in left_by args s)
    | NClosure body alias =>
        NClosure (rename_in body (DScope ("$" :: ds_locals s) (ds_bindings s) (ds_aliases s) (ds_unres s) None)) alias
    | NMethod k this args => NMethod k (rename_in this s) (thread rename_in left_by args (left_by this s))
    | NBinary l op r => NBinary (rename_in l s) op (rename_in r (left_by l s))
    | NUnary x op => NUnary (rename_in x s) op
    | NCond c t f => NCond (rename_in c s) (rename_in t (left_by c s)) (rename_in f (left_by t (left_by c s)))
    | NParen x => NParen (rename_in x s)
    | NArray l => NArray (thread rename_in left_by l s)
    | NObject l =>
        NObject (thread (fun kv s => (rename_in (fst kv) s, rename_in (snd kv) (left_by (fst kv) s)))
                        (fun kv s => left_by (snd kv) (left_by (fst kv) s)) l s)
    | NTemplate l => NTemplate (thread rename_in left_by l s)
    | NSlice x f t =>
        let s1 := left_by x s in
        let s2 := match f with Some f => left_by f s1 | None => s1 end in
        NSlice (rename_in x s) (option_map (fun f => rename_in f s1) f) (option_map (fun t => rename_in t s2) t)
    | NInterval l r lb rb => NInterval (rename_in l s) (rename_in r (left_by l s)) lb rb
    | NError o => NError (option_map (fun x => rename_in x s) o)
    | NNull | NBool _ | NNumber _ | NString _ | NPointer | NRoot => n
    end.
End Rename.
(** editor.rs:384-411, 184-207: the edit of one expression. [locals]: [$] for a cell of a decision table (intellisense/mod.rs:463). *)
Definition rename_global (g : entity_graph) (old new : string) (locals : list string) (n : node) : node :=
  rename_in (fun x => String.eqb x old && is_global g x) new n (DScope locals [] [] [] None).

(** ** Keys *)
(** [str::strip_suffix("[]")]. *)
Fixpoint strip_list (s : string) : string :=
  match s with
  | EmptyString => EmptyString
  | String c r => if String.eqb s "[]" then EmptyString else String c (strip_list r)
  end.
(** editor.rs:317-322 [write_key_span], 538-541: a written key. *)
Definition rename_key (old new key : string) : string :=
  if String.eqb (strip_list key) old then
    (new ++ if String.eqb (strip_list key) key then "" else "[]")%string
  else key.

(** ** The JSON of a block *)
Section Json.
  (** editor.rs:528 [by_source]: the texts with sites, and what becomes of them. *)
  Variable by_source : @amap string.
  (** editor.rs:529: set for the nodes of a graph. *)
  Variable protect : bool.
  (** serde_json: reading and writing the text of an embedded document. *)
  Variable read_json : string -> option tree.
  Variable write_json : tree -> string.
  Variable same_json : tree -> tree -> bool.
  (** editor.rs:572-583. *)
  Definition protected_key (k : string) : bool :=
    protect && smem k ["id"; "_id"; "type"; "name"; "kind"; "sourceId"; "targetId"; "sourceHandle"; "targetHandle"].
  (** editor.rs:587. *)
  Definition envelope_key (k : string) : bool := smem k ["dataJson"; "schemaJson"].
  Definition new_text (s : string) : string := match aget s by_source with Some r => r | None => s end.
  (** editor.rs:597-611 [apply_to_json_envelope]. *)
  Definition envelope (apply : tree -> tree) (t : tree) : tree :=
    match t with
    | TStr s => match read_json s with
                | Some d => if same_json (apply d) d then t else TStr (write_json (apply d))
                | None => t
                end
    | _ => t
    end.
  (** editor.rs:559-595 [apply_to]. [depth] bounds how deep documents are embedded in one another. *)
  Section Inside.
    Variable inside : tree -> tree.
    Fixpoint apply_to (t : tree) : tree :=
      match t with
      | TStr s => TStr (new_text s)
      | TArr l => TArr (map apply_to l)
      | TObj m => TObj (map (fun e => (fst e, if protected_key (fst e) then snd e
                                              else if envelope_key (fst e) then envelope inside (snd e)
                                              else apply_to (snd e))) m)
      | _ => t
      end.
  End Inside.
  Fixpoint apply_deep (depth : nat) : tree -> tree :=
    match depth with 0 => fun t => t | S d => apply_to (apply_deep d) end.
End Json.
