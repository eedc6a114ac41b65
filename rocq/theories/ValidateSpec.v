(** What is claimed about the check of a policy's input, apart from the model of the checker. *)
From Coq Require Import String Bool List Arith.
From Verif Require Import Base Value Heap Validate.
Import ListNotations.
Local Open Scope string_scope.
Local Open Scope list_scope.

(** What a place of the input must be. *)
Inductive want := WKind (k : kind) | WList (p : property) | WEntity (name : string) | WEntities (name : string).
(** An item of the list [input.target] has the id. *)
Definition pooled (h : heap) (input : value) (target id : string) : Prop :=
  exists l a v, dot h input target = Some (VArr l) /\ harr h l = Some a /\ In v a /\ dot h v "id" = Some (VStr id).
Definition declared_ref (S : schema) (t : string) : Prop := exists m p, In m (s_models S) /\ In p (m_props m) /\ p_kind p = PReference t.
(** An entity that no property of an entity holds, no property refers to, and no global property holds. *)
Definition held (S : schema) (t : string) : Prop := exists m p, In m (s_models S) /\ In p (m_props m) /\ (p_kind p = PReference t \/ p_kind p = PRelation t).
Definition root_entity (S : schema) (e : string) : Prop := (exists m, In m (s_models S) /\ m_global m = false /\ m_name m = e) /\ ~ held S e.
(** The property with a name is the first one. *)
Definition has_prop (props : list property) (k : string) (p : property) : Prop :=
  exists l1 l2, props = l1 ++ p :: l2 /\ p_name p = k /\ forall q, In q l1 -> p_name q <> k.
Definition prop_want (p : property) : want := if p_array p then WList p else WKind (p_kind p).
(** The places of an input the data models speak about, by their path, with what they must be, the value there and the number of entities around. Null is never looked at. *)
Inductive due (S : schema) (h : heap) (input : value) : string -> want -> value -> nat -> Prop :=
| DuePool : forall l m key v, input = VObj l -> hobj h l = Some m -> In (key, v) m -> v <> VNull -> declared_ref S key -> due S h input key (WEntities key) v 0
| DueRoot : forall l m key v, input = VObj l -> hobj h l = Some m -> In (key, v) m -> v <> VNull -> root_entity S key -> due S h input key (WEntity key) v 0
| DueGlobal : forall l m key v p, input = VObj l -> hobj h l = Some m -> In (key, v) m -> v <> VNull -> ~ declared_ref S key -> ~ root_entity S key ->
    aget key (s_globals S) = Some p -> due S h input key (prop_want p) v 0
| DueItem : forall path p l a i v d, due S h input path (WList p) (VArr l) d -> harr h l = Some a -> nth_error a i = Some v -> v <> VNull ->
    due S h input (path ++ index_text i)%string (WKind (p_kind p)) v d
| DueMember : forall path e l a i v d, due S h input path (WEntities e) (VArr l) d -> harr h l = Some a -> nth_error a i = Some v -> v <> VNull ->
    due S h input (path ++ index_text i)%string (WEntity e) v d
| DueField : forall path e l m props p v d, due S h input path (WEntity e) (VObj l) d -> d < 32 -> aget e (s_entities S) = Some props -> hobj h l = Some m ->
    In (p_name p, v) m -> v <> VNull -> has_prop props (p_name p) p -> due S h input (path ++ "." ++ p_name p)%string (prop_want p) v (d + 1)
| DueRelation : forall path t v d, due S h input path (WKind (PRelation t)) v d -> (aget t (s_entities S) <> None \/ aget t (s_dicts S) = None) -> due S h input path (WEntity t) v d.
Definition text (v : value) : Prop := exists s, v = VStr s.
Definition text_in (v : value) (l : list string) : Prop := exists s, v = VStr s /\ In s l.
(** A value that is not what its place must be. *)
Definition wrong (S : schema) (h : heap) (input : value) (w : want) (v : value) (d : nat) : Prop :=
  match w with
  | WEntity _ => 32 <= d \/ forall l, v <> VObj l
  | WEntities _ | WList _ => forall l, v <> VArr l
  | WKind PString | WKind PDate => ~ text v
  | WKind PNumber => forall n, v <> VNum n
  | WKind PBoolean => forall b, v <> VBool b
  | WKind (PEnum l) => ~ text_in v l
  | WKind (PReference t) => ~ exists id, v = VStr id /\ declared_ref S t /\ pooled h input t id
  | WKind (PRelation t) => aget t (s_entities S) = None /\ exists l, aget t (s_dicts S) = Some l /\ ~ text_in v l
  end.
(** The message about a value names its type, or quotes a text; only for an entity inside 32 others does it say "deeper". *)
Definition names_value (got : string) (w : want) (v : value) (d : nat) : Prop :=
  got = type_name v \/ (exists s, v = VStr s /\ String.prefix ("'" ++ s ++ "'") got = true) \/ ((exists e, w = WEntity e) /\ 32 <= d /\ got = "deeper").
