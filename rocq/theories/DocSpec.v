(** What imports and schema references mean, independent of how they are followed. *)
From Coq Require Import String Ascii ZArith Bool List Arith.
From Verif Require Import Base Graph Engine Decision Json Docs.
Import ListNotations.
Local Open Scope string_scope.
Local Open Scope list_scope.

(** Reachable from [roots] by following the imports of policies. *)
Inductive reach (load : loader) (roots : list string) : string -> Prop :=
| ReRoot : forall k, In k roots -> reach load roots k
| ReStep : forall k p k2, reach load roots k -> load k = Ok (DPolicy p) -> In k2 (pd_imports p) -> reach load roots k2.
(** The keys in [ks] import only keys in [ks]. *)
Definition import_closed (load : loader) (ks : list string) : Prop :=
  forall k p, In k ks -> load k = Ok (DPolicy p) -> incl (pd_imports p) ks.
(** The dictionaries written in the document at a key. *)
Definition dicts_at (load : loader) (k : string) : list (string * list string) := match load k with Ok (DPolicy p) => pd_dicts p | _ => [] end.

(** The object [m] at place [p] has a "$dictionary" key, and no object around it has. *)
Definition is_ref (j : json) (p : list step) : Prop := exists m x, jget p j = Some (JObj m) /\ aget "$dictionary" m = Some x.
Definition outer_ref (j : json) (p : list step) (m : list (string * json)) : Prop :=
  jget p j = Some (JObj m) /\ (exists x, aget "$dictionary" m = Some x) /\ forall a b, p = a ++ b -> b <> [] -> ~ is_ref j a.
(** It names a dictionary in [d]. *)
Definition names_dict (d : amap (list string)) (m : list (string * json)) (vs : list string) : Prop :=
  exists name, aget "$dictionary" m = Some (JStr name) /\ aget name d = Some vs.
(** The top of a value: what it is, without what is inside. *)
Inductive top := TopScalar (j : json) | TopArr (n : nat) | TopObj (keys : list string).
Definition top_of (j : json) : top := match j with JArr l => TopArr (length l) | JObj m => TopObj (map fst m) | j => TopScalar j end.

(** *** Loaders *)
Definition op_key (o : mem_op) : string := match o with MAdd k _ | MRemove k => k end.
(** The last operation on a key. *)
Definition last_op (ops : list mem_op) (k : string) : option mem_op := find (fun o => String.eqb (op_key o) k) (rev ops).

(** What is loaded, without what preparing adds: the opcode cache, table indexes, resolved schemas. *)
Definition bare_node (nd : gnode (task dt)) : gnode (task dt) :=
  GNode (gn_id nd) (gn_name nd) (match gn_kind nd with KdTask (TOther u) => KdTask (TOther (DT (dt_transform u) (dt_table u) None)) | k => k end).
Definition bare (d : doc) : doc :=
  match d with
  | DGraph g => DGraph (GDoc (Content (map bare_node (c_nodes (gc_graph g))) (c_edges (gc_graph g))) (gc_schemas g) (gc_imports g) false None)
  | p => p
  end.
(** Nothing is left to prepare. *)
Definition ready (d : doc) : bool :=
  match d with DGraph g => gc_compiled g && match gc_resolved g with Some _ => true | None => false end | DPolicy _ => true end.


(** A loader that answers [d] for one key. *)
Definition with_entry (load : loader) (k0 : string) (d : doc) (k : string) : response := if String.eqb k k0 then Ok d else load k.
