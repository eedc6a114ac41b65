(** What is claimed about references by id, apart from the model of the evaluator. *)
From Coq Require Import String Bool List Arith.
From Verif Require Import Base Value Heap Validate.
Import ListNotations.
Local Open Scope string_scope.
Local Open Scope list_scope.

(** A place that holds a value: an entry of an object or of an array. *)
Inductive slot := SKey (l : loc) (k : string) | SAt (l : loc) (i : nat).
Definition slot_get (h : heap) (s : slot) : option value :=
  match s with
  | SKey l k => match hobj h l with Some m => aget k m | None => None end
  | SAt l i => match harr h l with Some a => nth_error a i | None => None end
  end.
(** The item of the list [input.target] that an id stands for: the last one with the id. *)
Definition stands_for (h : heap) (input : value) (target id : string) (o : value) : Prop :=
  exists l a b, dot h input target = Some (VArr l) /\ harr h l = Some (a ++ o :: b) /\ dot h o "id" = Some (VStr id) /\ forall x, In x b -> dot h x "id" <> Some (VStr id).
(** The fields declared as references: a property of the input itself or of an entity. *)
Definition ref_declared (models : list model) (path : list string) (target : string) (many : bool) : Prop :=
  exists m p, In m models /\ In p (m_props m) /\ p_kind p = PReference target /\ p_array p = many /\ path = if m_global m then [p_name p] else [m_name m; p_name p].
(** No name has a dot. *)
Definition plain (s : string) : Prop := split_dot s = [s].
Definition plain_names (models : list model) : Prop := forall m, In m models -> plain (m_name m) /\ forall p, In p (m_props m) -> plain (p_name p).
(** No reference of the input itself has the name of an entity with references. *)
Definition apart (models : list model) : Prop := forall e p t1 t2 b1 b2, ref_declared models [e] t1 b1 -> ~ ref_declared models [e; p] t2 b2.
