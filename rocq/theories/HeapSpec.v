(** Specifications for operations on shared values: what the operations mean on plain trees. Nothing
    here refers to how the operations are implemented. *)
From Coq Require Import String Ascii ZArith Lia Bool List Arith.
From Verif Require Import Base Dec Value Heap.
Import ListNotations.
Local Open Scope nat_scope.

(** No object has a repeated key. *)
Inductive wf_tree : tree -> Prop :=
| WNull : wf_tree TNull
| WBool : forall b, wf_tree (TBool b)
| WNum : forall d, wf_tree (TNum d)
| WStr : forall s, wf_tree (TStr s)
| WDyn : forall d, wf_tree (TDyn d)
| WArr : forall a, Forall wf_tree a -> wf_tree (TArr a)
| WObj : forall m, NoDup (map fst m) -> Forall (fun kv => wf_tree (snd kv)) m -> wf_tree (TObj m).

Fixpoint height (t : tree) : nat :=
  match t with
  | TArr a => S ((fix go a := match a with [] => 0 | x :: r => Nat.max (height x) (go r) end) a)
  | TObj m => S ((fix go m := match m with [] => 0 | (_, x) :: r => Nat.max (height x) (go r) end) m)
  | _ => 0
  end.

(** Everything reachable from a value, itself included. *)
Inductive reach (h : heap) : value -> value -> Prop :=
| reach_here : forall v, reach h v v
| reach_arr : forall l a x w, hget h l = Some (CArr a) -> In x a -> reach h x w -> reach h (VArr l) w
| reach_obj : forall l m k x w, hget h l = Some (CObj m) -> In (k, x) m -> reach h x w ->
    reach h (VObj l) w.

(** The location of an object or array. *)
Definition at_loc (v : value) (l : loc) : Prop := v = VArr l \/ v = VObj l.

(** A value is unshared if no two different paths of keys lead to the same object. *)
Definition unshared (h : heap) (v : value) : Prop :=
  forall p q l, dot_parts h v p = Some (VObj l) -> dot_parts h v q = Some (VObj l) -> p = q.

(** A proper prefix of the path is present and is not an object. *)
Definition blocked (h : heap) (v : value) (p : list string) : Prop :=
  exists q r w, p = q ++ r /\ r <> [] /\ dot_parts h v q = Some w /\ (forall l, w <> VObj l).

Definition is_prefix (p q : list string) : Prop := exists r, q = p ++ r.
(** Neither path is a prefix of the other. *)
Definition diverge (p q : list string) : Prop := ~ is_prefix p q /\ ~ is_prefix q p.

(** JSON-merge of a patch into a document. Inside objects: null removes the key, objects merge
    recursively, anything else replaces. *)
Fixpoint tmerge (doc patch : tree) {struct patch} : tree :=
  match patch with
  | TObj pm =>
      match doc with
      | TObj dm =>
          TObj ((fix go pm dm :=
                   match pm with
                   | [] => dm
                   | (k, TNull) :: r => go r (adel k dm)
                   | (k, p) :: r =>
                       go r (aset k (tmerge (match aget k dm with Some d => d | None => TNull end) p) dm)
                   end) pm dm)
      | _ => patch
      end
  | _ => patch
  end.
(** At the top an array replaces and a scalar is ignored. *)
Definition tmerge_top (doc patch : tree) : tree :=
  match patch with
  | TObj _ => tmerge doc patch
  | TArr _ => patch
  | _ => doc
  end.

(** No null entry in any object, looking through objects only. *)
Inductive nonull : tree -> Prop :=
| NNObj : forall m, Forall (fun kv => snd kv <> TNull /\ nonull (snd kv)) m -> nonull (TObj m)
| NNOther : forall t, (forall m, t <> TObj m) -> nonull t.

(** Document and patch share only objects without null entries (for instance, share nothing). *)
Definition share_ok (h : heap) (doc patch : value) : Prop :=
  forall l t, reach h doc (VObj l) -> reach h patch (VObj l) -> repr h (VObj l) t -> nonull t.

(** Container [l] is reachable from [v]. *)
Definition reachl (h : heap) (v : value) (l : loc) : Prop := reach h v (VArr l) \/ reach h v (VObj l).
Definition disj (h : heap) (v w : value) : Prop := forall l, reachl h v l -> ~ reachl h w l.

(** Tree-shaped: different elements of a container share nothing. Freshly parsed JSON has this shape. *)
Inductive tshape (h : heap) : value -> Prop :=
| SNull : tshape h VNull
| SBool : forall b, tshape h (VBool b)
| SNum : forall d, tshape h (VNum d)
| SStr : forall s, tshape h (VStr s)
| SDyn : forall d, tshape h (VDyn d)
| SArr : forall l a, hget h l = Some (CArr a) -> ForallOrdPairs (disj h) a -> Forall (tshape h) a ->
    tshape h (VArr l)
| SObj : forall l m, hget h l = Some (CObj m) -> ForallOrdPairs (disj h) (map snd m) ->
    Forall (fun kv => tshape h (snd kv)) m -> tshape h (VObj l).
