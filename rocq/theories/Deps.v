(** What an expression reads: the static analysis that tells the policy evaluator which properties have
    to be computed before a block can run, and the editor what an expression uses.
    Models core/expression/src/intellisense/dependency.rs and
    core/engine/src/policy/blocks/property_read.rs.
    Simplifications: positions in the source text are left out, and so is the list of references
    (dependency.rs:70-77), which has the same entries and is used for renaming. *)
From Coq Require Import String List Bool Arith.
From Verif Require Import Base Dec Value Heap Ast.
Import ListNotations.
Local Open Scope string_scope.
Local Open Scope nat_scope.
Local Open Scope list_scope.

(** dependency.rs:13-34 ReadDependency. *)
Inductive rdep :=
| RDirect (path : list string) (via_index : bool)
| RIter (collection : list string) (alias : option string) (reads : list rdep)
| RUnres (path : list string).

(** dependency.rs:120-127 Scope. *)
Record dscope := DScope {
  ds_locals : list string;
  ds_bindings : list (list string);
  ds_aliases : @amap (list string);
  ds_unres : list string;
  ds_ptr : option (list string) }.

Definition smem (k : string) (l : list string) : bool := existsb (String.eqb k) l.
Fixpoint starts (p b : list string) : bool :=
  match b, p with
  | [], _ => true
  | y :: b', x :: p' => String.eqb x y && starts p' b'
  | _ :: _, [] => false
  end.
(** dependency.rs:130-142 [is_local]. *)
Definition is_local (s : dscope) (path : list string) : bool :=
  match path with
  | [] => false
  | x :: _ => smem x (ds_locals s) || existsb (starts path) (ds_bindings s)
  end.
(** dependency.rs:154-159 [expand_alias_root]. *)
Definition expand_alias (s : dscope) (path : list string) : list string :=
  match path with
  | [] => []
  | x :: r => match aget x (ds_aliases s) with Some prefix => prefix ++ r | None => path end
  end.

(** dependency.rs:866-884 [extract_read_path], and 293-310 [extract_path_with_spans], which differs by the
    positions only. *)
Fixpoint read_path (n : node) : option (list string) :=
  match n with
  | NIdent x => Some [x]
  | NRoot => Some ["$root"]
  | NMember a (NString k) => option_map (fun p => p ++ [k]) (read_path a)
  | _ => None
  end.
(** dependency.rs:859-864 [extract_binding_path]. *)
Definition binding_path (n : node) : option (list string) :=
  match n with NString s => Some (split_dot s) | _ => read_path n end.
(** dependency.rs:312-329 [collection_source_path]. *)
Fixpoint source_path (n : node) : option (list string) :=
  match n with
  | NIdent x => Some [x]
  | NRoot => Some ["$root"]
  | NMember _ _ => read_path n
  | NParen x => source_path x
  | NBinary l (OpLogic LNullish) _ => source_path l
  | NCall (FClosure ClFilter) (a :: _) => source_path a
  | _ => None
  end.

(** The local variables of the loop of dependency.rs:358-488 [resolve_member_chain], by the kind of root:
    roots of which nothing is reported ([#], [$] and names assigned before; 367-384, 427-434, 490-562),
    unresolved aliases (387-416), and the groups of fields between computed segments (436-487). *)
Inductive chain :=
| CQuiet
| CUnres (path : list string)
| CGroup (group cumulative : list string) (via : option (list string)) (first aliased : bool).

(** dependency.rs:367-434. *)
Definition chain_root (name : string) (s : dscope) : chain :=
  if String.eqb name "$" then CQuiet
  else if smem name (ds_unres s) then CUnres [name]
  else
    let aliased := match aget name (ds_aliases s) with Some _ => true | None => false end in
    if negb aliased && is_local s [name] then CQuiet
    else CGroup [name] [name] None true aliased.
(** A field segment. dependency.rs:392-395, 444-448. *)
Definition chain_field (k : string) (c : chain) : chain :=
  match c with
  | CQuiet => CQuiet
  | CUnres p => CUnres (p ++ [k])
  | CGroup g cum via first al => CGroup (g ++ [k]) (cum ++ [k]) via first al
  end.
(** dependency.rs:564-597 [emit_group]. *)
Definition emit_group (path : list string) (aliased : bool) (via : option (list string)) (s : dscope) : list rdep :=
  match path with
  | [] => []
  | _ =>
      if negb aliased && is_local s path then []
      else match via with
           | Some prefix => [RDirect (prefix ++ path) true]
           | None => [RDirect path false]
           end
  end.
(** A computed segment: what is reported before its expression, and the state after it.
    dependency.rs:449-472. *)
Definition chain_before (c : chain) (s : dscope) : list rdep :=
  match c with CGroup g _ via first al => emit_group g (first && al) via s | _ => [] end.
Definition chain_after (c : chain) : chain :=
  match c with CGroup _ cum _ _ al => CGroup [] cum (Some cum) false al | _ => c end.
(** The end of the chain. dependency.rs:402-416, 474-487. *)
Definition chain_end (c : chain) (s : dscope) : list rdep :=
  match c with CUnres p => [RUnres p] | _ => chain_before c s end.

(** Several nodes in order. *)
Definition dthen (a : list rdep * dscope) (k : dscope -> list rdep * dscope) : list rdep * dscope :=
  let (r2, s2) := k (snd a) in ((fst a ++ r2)%list, s2).
Section Each.
  Context {A : Type} (f : A -> dscope -> list rdep * dscope).
  Fixpoint each (l : list A) (s : dscope) : list rdep * dscope :=
    match l with
    | [] => ([], s)
    | x :: r => dthen (f x s) (each r)
    end.
End Each.
Definition maybe (f : node -> dscope -> list rdep * dscope) (o : option node) (s : dscope) : list rdep * dscope :=
  match o with Some x => f x s | None => ([], s) end.

(** dependency.rs:648-656: the name an assignment binds. *)
Definition bind_key (key : node) (s : dscope) : dscope :=
  match binding_path key with
  | Some [x] => DScope (x :: ds_locals s) (ds_bindings s) (ds_aliases s) (ds_unres s) (ds_ptr s)
  | Some (x :: y :: r) => DScope (ds_locals s) (ds_bindings s ++ [x :: y :: r]) (ds_aliases s) (ds_unres s) (ds_ptr s)
  | _ => s
  end.
(** dependency.rs:676-704: the scope of a closure body. *)
Definition inner_scope (s : dscope) (source : option (list string)) (alias : option string) : dscope :=
  let ptr := match source with
             | Some p => if is_local s p then None else Some (expand_alias s p)
             | None => None
             end in
  match alias, source with
  | Some a, Some p =>
      let e := expand_alias s p in
      if is_local s e then DScope ("$" :: ds_locals s) (ds_bindings s) (ds_aliases s) (a :: ds_unres s) ptr
      else DScope ("$" :: ds_locals s) (ds_bindings s) (aset a e (ds_aliases s)) (ds_unres s) ptr
  | Some a, None => DScope ("$" :: ds_locals s) (ds_bindings s) (ds_aliases s) (a :: ds_unres s) ptr
  | None, _ => DScope ("$" :: ds_locals s) (ds_bindings s) (ds_aliases s) (ds_unres s) ptr
  end.

(** dependency.rs:600-857 [resolve]: what is reported, and the scope afterwards (assignments add to it).
    [spine] is the loop over a chain of member accesses, from its root outwards (331-356, 436-472); [None]
    if the root is no name, [$root] or [#]. *)
Fixpoint resolve (n : node) (s : dscope) {struct n} : list rdep * dscope :=
  match n with
  | NIdent x =>
      if smem x (ds_unres s) then ([RUnres [x]], s)
      else match aget x (ds_aliases s) with
           | Some _ => ([RDirect [x] false], s)
           | None => if is_local s [x] then ([], s) else ([RDirect [x] false], s)
           end
  | NMember a p =>
      match (fix spine (m : node) : option (list rdep * dscope * chain) :=
               match m with
               | NIdent x => Some ([], s, chain_root x s)
               | NRoot => Some ([], s, chain_root "$root" s)
               | NPointer => Some ([], s, CQuiet)
               | NMember a p =>
                   match spine a with
                   | None => None
                   | Some (r, s1, c) =>
                       match p with
                       | NString k => Some (r, s1, chain_field k c)
                       | _ =>
                           let (r2, s2) := resolve p s1 in
                           Some ((r ++ chain_before c s1 ++ r2)%list, s2, chain_after c)
                       end
                   end
               | _ => None
               end) n with
      | Some (r, s1, c) => ((r ++ chain_end c s1)%list, s1)
      | None => dthen (resolve a s) (resolve p)
      end
  | NAssign items output =>
      dthen (each (fun kv s => let (r, s1) := resolve (snd kv) s in (r, bind_key (fst kv) s1)) items s)
        (maybe resolve output)
  | NCall (FClosure _) (a0 :: a1 :: _) =>
      let info := read_path a0 in
      let source := match info with Some p => Some p | None => source_path a0 end in
      match a1 with
      | NClosure body alias =>
          let inner := fst (resolve body (inner_scope s source alias)) in
          let plain := match info with
                       | Some p => if is_local s p then None else Some p
                       | None => None
                       end in
          match plain with
          | Some p => ([RIter p alias inner], s)
          | None =>
              dthen (resolve a0 s) (fun s1 =>
                match source with
                | Some (x :: r) => if is_local s1 (x :: r) then (inner, s1) else ([RIter (x :: r) alias inner], s1)
                | _ => (inner, s1)
                end)
          end
      | _ => resolve a1 s
      end
  | NCall _ args => each resolve args s
  | NClosure body _ =>
      (fst (resolve body (DScope ("$" :: ds_locals s) (ds_bindings s) (ds_aliases s) (ds_unres s) None)), s)
  | NMethod _ this args => dthen (resolve this s) (each resolve args)
  | NBinary l _ r => dthen (resolve l s) (resolve r)
  | NUnary x _ => resolve x s
  | NCond c t f => dthen (dthen (resolve c s) (resolve t)) (resolve f)
  | NParen x => resolve x s
  | NArray l => each resolve l s
  | NObject l => each (fun kv s => dthen (resolve (fst kv) s) (resolve (snd kv))) l s
  | NTemplate l => each resolve l s
  | NSlice x f t => dthen (dthen (resolve x s) (maybe resolve f)) (maybe resolve t)
  | NInterval l r _ _ => dthen (resolve l s) (resolve r)
  | NError o => maybe resolve o s
  | NRoot => ([RDirect ["$root"] false], s)
  | NNull | NBool _ | NNumber _ | NString _ | NPointer => ([], s)
  end.

(** dependency.rs:167-190 [walk], [walk_with_locals]; for a unary expression the local is [$]
    (intellisense/mod.rs:463). *)
Definition walk_with (locals : list string) (n : node) : list rdep :=
  fst (resolve n (DScope locals [] [] [] None)).
Definition walk (n : node) : list rdep := walk_with [] n.

(** property_read.rs and blocks/context.rs PropertyRead: one path that is read. Simplification: the path is
    a list of names (the code joins them with dots); expression id and position are left out. *)
Record pread := PRead { pr_path : list string; pr_alias : bool; pr_unresolved : bool }.
(** policy/mod.rs:3 MAX_RECURSION_DEPTH. *)
Definition max_nesting : nat := 32.
(** property_read.rs:94-110 [resolve_path], and the test for an alias at its root. *)
Definition rooted (al : @amap (list string)) (path : list string) : bool :=
  match path with [] => false | x :: _ => match aget x al with Some _ => true | None => false end end.
Definition resolve_path (al : @amap (list string)) (path : list string) : list string :=
  match path with
  | [] => []
  | x :: r => match aget x al with Some e => e ++ r | None => path end
  end.
Definition pushed (p : list string) (a u : bool) : list pread :=
  match p with [] => [] | _ => [PRead p a u] end.
(** property_read.rs:19-92 [walk_deps], one entry at nesting depth [d] (the test of 26-28 is made where the
    list inside an iteration is entered, and by [flatten_reads] for the outermost list). *)
Fixpoint flat_dep (d : nat) (al : @amap (list string)) (x : rdep) : list pread :=
  match x with
  | RDirect p via => pushed (resolve_path al p) (rooted al p || via) false
  | RUnres p => pushed (resolve_path al p) true true
  | RIter coll alias reads =>
      let rc := resolve_path al coll in
      let al1 := match alias with Some a => aset a rc al | None => al end in
      (pushed rc (rooted al coll) false ++
       (if max_nesting <=? Datatypes.S d then [] else flat_map (flat_dep (Datatypes.S d) al1) reads))%list
  end.
Definition flatten_reads (deps : list rdep) : list pread :=
  if max_nesting <=? 0 then [] else flat_map (flat_dep 0 []) deps.
