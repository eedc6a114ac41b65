(** Stored documents and how they are found: loaders, imports, schema dictionaries. Models core/engine/src/loader/memory.rs,
    cached.rs, decision_graph/schema_dict.rs, model/decision_content.rs, policy/runtime.rs (collect_transitive_policies). The compiled set is in EngineSet.v. *)
From Coq Require Import String Ascii ZArith Lia Bool List Arith.
From Verif Require Import Base Dec Value Heap Ast Isolate Graph Walker Nodes Engine Table Discriminant Decision Json.
Import ListNotations.
Local Open Scope string_scope.
Local Open Scope list_scope.
Local Open Scope nat_scope.

(** decision_content.rs:100-126 [GraphContent]. [gc_schemas]: the schemas of input and output nodes by node id, in node order. The opcode cache
    is only a flag here; the table indexes sit in the table nodes (Decision.v). *)
Record gdoc := GDoc { gc_graph : decision; gc_schemas : list (string * json); gc_imports : list string; gc_compiled : bool; gc_resolved : option (amap json) }.
(** policy/raw.rs:8-14 [PolicyDocument]: the imports and the dictionary blocks; [pd_rest] stands for the other blocks. *)
Record pdoc := PDoc { pd_imports : list string; pd_dicts : list (string * list string); pd_rest : nat }.
(** decision_content.rs:13-18 [DecisionContent]. *)
Inductive doc := DGraph (g : gdoc) | DPolicy (p : pdoc).
(** loader/mod.rs:29-30: a loader's answer. *)
Definition response := res doc.
Definition not_found (key : string) : response := Err (EOp ("Loader did not find item with key " ++ key)).
(** A loader over an unchanging store: a function. *)
Definition loader := string -> response.

(** *** schema_dict.rs *)
Definition dict_key := "$dictionary".
(** 10-18 [schema_references_dictionary]. *)
Fixpoint references (j : json) : bool :=
  match j with
  | JObj m => amem dict_key m || (fix any m := match m with [] => false | e :: r => references (snd e) || any r end) m
  | JArr l => (fix any l := match l with [] => false | x :: r => references x || any r end) l
  | _ => false
  end.
(** [entry(..).or_insert_with(..)]. *)
Definition add_dict (out : amap (list string)) (d : string * list string) : amap (list string) := if amem (fst d) out then out else out ++ [d].
Definition known (k : string) (l : list string) : bool := existsb (String.eqb k) l.
(** 20-51 [load_import_dictionaries]. The queue is a stack: [pop] takes the last key, [extend] appends. Here its top is the head. [asked]: the keys the loader
    was asked for, latest first. [None]: out of fuel. *)
Fixpoint import_dicts (fuel : nat) (load : loader) (stack visited : list string) (out : amap (list string)) (asked : list string)
    : option (list string * res (amap (list string))) :=
  match fuel with
  | O => None
  | S n =>
      match stack with
      | [] => Some (asked, Ok out)
      | key :: stack =>
          if known key visited then import_dicts n load stack visited out asked
          else match load key with
               | Err e => Some (key :: asked, Err (EOp ("failed to load imported policy " ++ key)))
               | Ok (DGraph _) => import_dicts n load stack (key :: visited) out (key :: asked)
               | Ok (DPolicy p) => import_dicts n load (rev (pd_imports p) ++ stack) (key :: visited) (fold_left add_dict (pd_dicts p) out) (key :: asked)
               end
      end
  end.
(** 62-116 [rewrite], without the hash. *)
Fixpoint rewrite (d : amap (list string)) (j : json) : res json :=
  match j with
  | JObj m =>
      match aget dict_key m with
      | Some (JStr name) =>
          match aget name d with
          | None => Err (EOp ("unknown dictionary " ++ name))
          | Some vs =>
              let keep := filter (fun e => negb (String.eqb (fst e) dict_key) && negb (String.eqb (fst e) "type") && negb (String.eqb (fst e) "enum")) m in
              Ok (JObj (aset "enum" (JArr (map JStr vs)) (aset "type" (JStr "string") keep)))
          end
      | Some _ => Err (EOp "$dictionary must be a string dictionary name")
      | None =>
          do m1 <- (fix go m := match m with [] => Ok [] | (k, e) :: r => do e1 <- rewrite d e; do r1 <- go r; Ok ((k, e1) :: r1) end) m;
          Ok (JObj m1)
      end
  | JArr l => do l1 <- (fix go l := match l with [] => Ok [] | x :: r => do x1 <- rewrite d x; do r1 <- go r; Ok (x1 :: r1) end) l; Ok (JArr l1)
  | _ => Ok j
  end.

(** *** decision_content.rs *)
(** 246-250: in node order; a later entry replaces an earlier one with the same id. *)
Fixpoint resolve_all (d : amap (list string)) (l : list (string * json)) (acc : amap json) : res (amap json) :=
  match l with
  | [] => Ok acc
  | (id, s) :: r => do s1 <- rewrite d s; resolve_all d r (aset id s1 acc)
  end.
(** 221-257 [resolve_schemas]; an error leaves the content as it was. The keys asked for are reported. Fuel is for
    the search over imports. *)
Definition resolve_schemas (fuel : nat) (load : loader) (g : gdoc) : option (list string * gdoc) :=
  match gc_resolved g with
  | Some _ => Some ([], g)
  | None =>
      let done r := GDoc (gc_graph g) (gc_schemas g) (gc_imports g) (gc_compiled g) (Some r) in
      match filter (fun s => references (snd s)) (gc_schemas g) with
      | [] => Some ([], done [])
      | refs =>
          match import_dicts fuel load (rev (gc_imports g)) [] [] [] with
          | None => None
          | Some (asked, Err _) => Some (asked, g)
          | Some (asked, Ok d) => Some (asked, match resolve_all d refs [] with Ok r => done r | Err _ => g end)
          end
      end
  end.
Section Loaders.
  Variable parse : ekind -> string -> res node.
  (** 128-198 [compile]: the indexes are built once; the opcode cache is filled once. *)
  Definition compile_doc (g : gdoc) : gdoc :=
    if gc_compiled g then g else GDoc (compile_content parse (gc_graph g)) (gc_schemas g) (gc_imports g) true (gc_resolved g).

  (** *** loader/memory.rs *)
  Inductive mem_op := MAdd (key : string) (d : doc) | MRemove (key : string).
  (** 16-23, 33-39: insert replaces; remove. *)
  Definition mem_step (m : amap doc) (o : mem_op) : amap doc :=
    match o with MAdd k d => aset k d m | MRemove k => adel k m end.
  (** 42-53. *)
  Definition mem_load (m : amap doc) : loader := fun k => match aget k m with Some d => Ok d | None => not_found k end.
  (** 55-58. *)
  Definition mem_keys (m : amap doc) : list string := akeys m.

  (** *** loader/cached.rs, over an inner loader. State: the cache. Each call reports the keys the inner loader was asked for. *)
  Variable inner : loader.
  Variable fuel : nat.
  (** 24-35 [compiled], 37-48 [prepared]. Whether [prepared] gives back the very same content ([Arc::ptr_eq]) only decides whether it is written to the
      cache again under the same key. *)
  Definition compiled (d : doc) : doc := match d with DGraph g => DGraph (compile_doc g) | p => p end.
  Definition prepared (d : doc) : option (list string * doc) :=
    match d with
    | DPolicy _ => Some ([], d)
    | DGraph g =>
        if gc_compiled g && match gc_resolved g with Some _ => true | None => false end then Some ([], d)
        else match resolve_schemas fuel inner (compile_doc g) with
             | None => None
             | Some (asked, g1) => Some (asked, DGraph g1)
             end
    end.
  (** 50-80 [load]. *)
  Definition cached_load (cache : amap doc) (key : string) : option (amap doc * list string * response) :=
    match match aget key cache with Some d => ([], Ok d) | None => ([key], inner key) end with
    | (asked, Err e) => Some (cache, asked, Err e)
    | (asked, Ok d) => match prepared d with
                       | None => None
                       | Some (asked2, d1) => Some (aset key d1 cache, asked2 ++ asked, Ok d1)
                       end
    end.
  (** 86-99 [load_sync], for an inner loader that answers it ([MemoryLoader] and [FilesystemLoader] do, with what [load] gives). *)
  Definition cached_load_sync (cache : amap doc) (key : string) : amap doc * list string * response :=
    match aget key cache with
    | Some d => (cache, [], Ok d)
    | None => match inner key with
              | Err e => (cache, [key], Err e)
              | Ok d => (aset key (compiled d) cache, [key], Ok (compiled d))
              end
    end.
  Inductive call := CLoad (key : string) | CSync (key : string).
  Definition call_key (c : call) : string := match c with CLoad k | CSync k => k end.
  Definition cached_call (cache : amap doc) (c : call) : option (amap doc * list string * response) :=
    match c with CLoad k => cached_load cache k | CSync k => Some (cached_load_sync cache k) end.
  (** A history of calls: what each one asked for and answered. *)
  Fixpoint cached_run (cache : amap doc) (cs : list call) : option (amap doc * list (list string * response)) :=
    match cs with
    | [] => Some (cache, [])
    | c :: cs =>
        match cached_call cache c with
        | None => None
        | Some (cache1, asked, r) => match cached_run cache1 cs with
                                     | None => None
                                     | Some (cache2, l) => Some (cache2, (asked, r) :: l)
                                     end
        end
    end.
End Loaders.

(** *** policy/runtime.rs:69-104 [collect_transitive_policies]: breadth first over the imports. *)
(** 90-99: the imports of one document: those not yet enqueued are, and are loaded. *)
Fixpoint enqueue (load : loader) (imports enqueued : list string) (queue : list (string * doc)) : res (list string * list (string * doc)) :=
  match imports with
  | [] => Ok (enqueued, queue)
  | k :: r =>
      if known k enqueued then enqueue load r enqueued queue
      else do d <- load k; enqueue load r (k :: enqueued) (queue ++ [(k, d)])
  end.
Fixpoint collect_policies (fuel : nat) (load : loader) (queue : list (string * doc)) (enqueued : list string) (documents : list (string * pdoc))
    : option (res (list (string * pdoc))) :=
  match fuel with
  | O => None
  | S n =>
      match queue with
      | [] => Some (Ok documents)
      | (path, DGraph _) :: _ => Some (Err (EOp ("expected policy, got graph: " ++ path)))
      | (path, DPolicy p) :: queue =>
          match enqueue load (pd_imports p) enqueued queue with
          | Err e => Some (Err e)
          | Ok (enqueued1, queue1) => collect_policies n load queue1 enqueued1 (documents ++ [(path, p)])
          end
      end
  end.
Definition transitive_policies (fuel : nat) (load : loader) (entry : string) (d : doc) : option (res (list (string * pdoc))) :=
  collect_policies fuel load [(entry, d)] [entry] [].
