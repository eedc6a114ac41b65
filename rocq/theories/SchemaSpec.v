(** What a schema asks of a value: the specification for C81. *)
From Coq Require Import String ZArith Bool List Arith.
From Verif Require Import Base Value Json VarType ConvertSpec TypeSpec.
Import ListNotations.
Local Open Scope string_scope.
Local Open Scope nat_scope.
Local Open Scope list_scope.

(** The types of JSON schema. *)
Definition of_kind (kind : string) (t : tree) : Prop :=
  match t with
  | TNull => kind = "null"
  | TBool _ => kind = "boolean"
  | TNum _ => kind = "number" \/ kind = "integer"
  | TStr _ => kind = "string"
  | TArr _ => kind = "array"
  | TObj _ => kind = "object"
  | TDyn _ => False
  end.
(** [dict name t]: [t] is a value of that dictionary. The keywords of JSON schema that the types are made of; other keywords can only refuse more. "oneOf" asks for one case at least, "integer" for a number: both refuse less than the standard. *)
Inductive valid (dict : string -> tree -> Prop) : json -> tree -> Prop :=
| VTrue : forall t, valid dict (JBool true) t
| VObj : forall m t,
    (forall d, aget "$dictionary" m = Some d -> exists name, d = JStr name /\ dict name t) ->
    (forall l, aget "anyOf" m = Some (JArr l) -> exists c, In c l /\ valid dict c t) ->
    (forall l, aget "oneOf" m = Some (JArr l) -> exists c, In c l /\ valid dict c t) ->
    (forall l, aget "enum" m = Some (JArr l) -> exists c, In c l /\ means c t) ->
    (forall kind, aget "type" m = Some (JStr kind) -> of_kind kind t) ->
    (forall kinds, aget "type" m = Some (JArr kinds) -> exists kind, In (JStr kind) kinds /\ of_kind kind t) ->
    (forall p o k s x, aget "properties" m = Some (JObj p) -> t = TObj o -> aget k p = Some s -> aget k o = Some x -> valid dict s x) ->
    (forall l o k, aget "required" m = Some (JArr l) -> t = TObj o -> In (JStr k) l -> In k (map fst o)) ->
    (forall s l x, aget "items" m = Some s -> t = TArr l -> In x l -> valid dict s x) ->
    valid dict (JObj m) t.

(** The objects inside a schema. *)
Definition inside (j : json) (m : list (string * json)) : Prop := exists p, jget p j = Some (JObj m).
(** No string is asked to be a date. *)
Definition dateless (j : json) : Prop := forall m f, inside j m -> aget "format" m = Some (JStr f) -> f <> "date" /\ f <> "date-time".
(** The lists of types name a type once. *)
Definition kinds_once (j : json) : Prop := forall m l, inside j m -> aget "type" m = Some (JArr l) -> NoDup l.
(** [T] is the type of arrays, or the type of objects. *)
Definition arrays (T : vtype) : Prop := exists e, at_place [] T = Some (KArray e).
Definition objects (T : vtype) : Prop := exists e, at_place [] T = Some (KObject e).
(** Of the cases of a union at most one is a type of arrays and at most one a type of objects. *)
Definition cases_apart (type_of : json -> vtype) (j : json) : Prop :=
  forall m l i k a b key, inside j m -> key = "anyOf" \/ key = "oneOf" -> aget key m = Some (JArr l) -> i <> k -> nth_error l i = Some a -> nth_error l k = Some b ->
    ~ (arrays (type_of a) /\ arrays (type_of b)) /\ ~ (objects (type_of a) /\ objects (type_of b)).

(** How a place of the described values is written: "[]" for the items of an array, the names of the properties, with dots between them. *)
Definition dotted (path name : string) : string := if String.eqb path "" then name else (path ++ "." ++ name)%string.
Inductive under : string -> json -> string -> json -> Prop :=
| UHere : forall path j, under path j path j
| UItems : forall path m s q x, aget "items" m = Some s -> under (path ++ "[]") s q x -> under path (JObj m) q x
| UProp : forall path m p k s q x, aget "properties" m = Some (JObj p) -> aget k p = Some s -> under (dotted path k) s q x -> under path (JObj m) q x.
(** The property [k] of the object schema [m] may be left out. *)
Definition optional (m : list (string * json)) (k : string) : Prop := forall l, aget "required" m = Some (JArr l) -> ~ In (JStr k) l.

(** Schemas whose types say all that they ask: [strict b j], where [b] says that null is taken. Each property that must be there refuses null and each that may be left out takes it. *)
Definition free (m : list (string * json)) : Prop := aget "$dictionary" m = None /\ aget "anyOf" m = None /\ aget "oneOf" m = None /\ aget "enum" m = None.
Definition of_type (b : bool) (m : list (string * json)) (kind : string) : Prop :=
  aget "type" m = Some (if b then JArr [JStr kind; JStr "null"] else JStr kind).
Inductive strict : bool -> json -> Prop :=
| SLeaf : forall b m kind, free m -> of_type b m kind -> In kind ["string"; "number"; "integer"; "boolean"] -> aget "format" m = None -> strict b (JObj m)
| SArr : forall b b1 m s, free m -> of_type b m "array" -> aget "items" m = Some s -> strict b1 s -> strict b (JObj m)
| SObj : forall b m p, free m -> of_type b m "object" -> aget "properties" m = Some (JObj p) -> NoDup (map fst p) ->
    (forall l k, aget "required" m = Some (JArr l) -> In (JStr k) l -> In k (map fst p)) ->
    (forall k s, aget k p = Some s -> optional m k -> strict true s) ->
    (forall k s, aget k p = Some s -> ~ optional m k -> strict false s) -> strict b (JObj m)
| SEnum : forall l, l <> [] -> strict false (JObj [("enum", JArr (map JStr l))])
| SDict : forall name, strict false (JObj [("$dictionary", JStr name)])
| SCase : forall key c, key = "anyOf" \/ key = "oneOf" -> strict false c -> strict true (JObj [(key, JArr [c; JObj [("type", JStr "null")]])]).
