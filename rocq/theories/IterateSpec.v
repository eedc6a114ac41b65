(** What a block that runs for every instance of an entity is expected to do. *)
From Coq Require Import String Bool List Arith.
From Verif Require Import Base Dec Value Heap Ast Ops HeapSpec Isolate Session PureFacts Blocks BlocksSpec.
From Verif Require RepFacts.
Import ListNotations.
Local Open Scope string_scope.
Local Open Scope nat_scope.
Local Open Scope list_scope.

(** The store as an instance sees it: a new object with the properties of the store, in which the name of the entity stands for the instance. *)
Definition seen_by (h : heap) (ms : amap value) (entity : string) (inst : value) : heap * value :=
  (h ++ [CObj (aset entity inst (adel "$" ms))], VObj (length h)).
(** An instance together with its owner: a new object with the properties of the instance and the owner under its name. *)
Definition owned (h : heap) (mi : amap value) (name : string) (owner : value) : heap * value :=
  (h ++ [CObj (aset name owner mi)], VObj (length h)).

Definition scalar (t : tree) : Prop := match t with TArr _ | TObj _ => False | _ => True end.

Section Spec.
  Variable X : ext.
  Variable parse : ekind -> string -> res node.

  (** What a block computes for an instance. *)
  Definition computes_for (h : heap) (ms : amap value) (entity : string) (inst : value) (b : block) (t : tree) : Prop :=
    computes X parse (fst (seen_by h ms entity inst)) (snd (seen_by h ms entity inst)) b t.

  (** Expressions that assign nothing, do not use the whole context and read only the names in [P]. *)
  Definition reads_names (P : string -> bool) (src : string) : Prop :=
    forall n, parse KStandard src = Ok n -> no_assign n = true /\ RepFacts.reads P false n = true.
  Definition block_names (P : string -> bool) (b : block) : Prop :=
    (forall e, In e (block_sources b) -> reads_names P e) /\
    match b with
    | BExpression _ e => e <> ""
    | BAssertion _ _ => True
    | BMatch _ arms => NoDup (map ma_id arms)
    end.
End Spec.

(** Instances: different objects with finite contents, none of which contains another. *)
Definition instances (h : heap) (lis : list loc) : Prop :=
  NoDup lis /\
  (forall l, In l lis -> exists m t, hget h l = Some (CObj m) /\ repr h (VObj l) t) /\
  (forall l l', In l lis -> In l' lis -> l <> l' -> ~ reachl h (VObj l) l').
(** The names in [P] other than that of the entity stand for finite contents without any of the instances. *)
Definition apart_from (h : heap) (ms : amap value) (P : string -> bool) (entity : string) (lis : list loc) : Prop :=
  forall k v, P k = true -> k <> entity -> aget k ms = Some v ->
    (exists t, repr h v t) /\ forall l, In l lis -> ~ reachl h v l.

(** An object has a result at a property and is otherwise as it was. *)
Definition extended (h h1 : heap) (l : loc) (field : string) (t : tree) : Prop :=
  shows h1 (VObj l) field t /\ forall k t, k <> field -> (shows h1 (VObj l) k t <-> shows h (VObj l) k t).
Definition as_before (h h1 : heap) (l : loc) : Prop := forall k t, shows h1 (VObj l) k t <-> shows h (VObj l) k t.
