(** Types derived from JSON schemas: core/engine/src/workspace/graph/schema.rs. *)
From Coq Require Import String ZArith Bool List Arith.
From Verif Require Import Base Value Json VarType.
Import ListNotations.
Local Open Scope string_scope.
Local Open Scope nat_scope.
Local Open Scope list_scope.

(** serde_json [Map::get] followed by a function of the value; [d] when the key is absent. The map is a list of members; the code's map has distinct keys. *)
Section AtKey.
  Context {A : Type} (f : json -> A) (d : A) (k : string).
  Fixpoint at_key (m : list (string * json)) : A :=
    match m with
    | [] => d
    | (k1, v) :: r => if String.eqb k1 k then f v else at_key r
    end.
End AtKey.
(** serde_json [Value::as_str], [as_array], [as_object] after [Map::get]. *)
Definition get_str (k : string) (m : list (string * json)) : option string := match aget k m with Some (JStr s) => Some s | _ => None end.
Definition get_arr (k : string) (m : list (string * json)) : option (list json) := match aget k m with Some (JArr l) => Some l | _ => None end.
Definition get_obj (k : string) (m : list (string * json)) : option (list (string * json)) := match aget k m with Some (JObj l) => Some l | _ => None end.
(** [filter_map(Value::as_str)] *)
Fixpoint strs (l : list json) : list string := match l with [] => [] | JStr s :: r => s :: strs r | _ :: r => strs r end.
(** schema.rs:29-31, 112-114: "oneOf" is looked at only when "anyOf" is absent. *)
Definition case_key (m : list (string * json)) : string := match aget "anyOf" m with Some _ => "anyOf" | None => "oneOf" end.
(** graph/mod.rs:30-39 *)
Definition wrap_optional (t : vtype) : vtype := match t with KAny | KNull | KNullable _ => t | _ => KNullable t end.
(** schema.rs:37, 58 [reduce .. unwrap_or(Any)] *)
Definition reduce (l : list vtype) : vtype := match l with [] => KAny | t :: r => fold_left merge r t end.
(** schema.rs:87-91, 217-221 *)
Definition required (m : list (string * json)) : list string := match get_arr "required" m with Some l => strs l | None => [] end.
(** schema.rs:41-50 *)
Definition enum_of (m : list (string * json)) : option (list string) :=
  match get_arr "enum" m with
  | Some l => if (length (strs l) =? length l) && negb (length (strs l) =? 0) then Some (strs l) else None
  | None => None
  end.
(** schema.rs:189-211 [typed] and 213-232 [object_type]; the types of "items" and of the "properties" (if it is an object) are given. *)
Definition typed (m : list (string * json)) (items : vtype) (props : option (list (string * vtype))) (kind : string) : vtype :=
  if String.eqb kind "object" then
    match props with
    | Some p => KObject (map (fun e => (fst e, if contains (required m) (fst e) then snd e else wrap_optional (snd e))) p)
    | None => KAny
    end
  else if String.eqb kind "array" then KArray items
  else if String.eqb kind "string" then
    match get_str "format" m with
    | Some f => if String.eqb f "date" || String.eqb f "date-time" then KDate else KString
    | None => KString
    end
  else if String.eqb kind "number" || String.eqb kind "integer" then KNumber
  else if String.eqb kind "boolean" then KBool
  else if String.eqb kind "null" then KNull
  else KAny.
Section Dictionaries.
  (** The types of the dictionaries of the workspace. *)
  Variable dicts : string -> option vtype.
  (** schema.rs:14-62 [variable_type_with] *)
  Fixpoint ty (j : json) : vtype :=
    match j with
    | JObj m =>
        let cases := at_key (fun v => match v with JArr l => map ty l | _ => [] end) [] (case_key m) m in
        let items := at_key ty KAny "items" m in
        let props := at_key (fun v => match v with JObj p => Some (map (fun e => (fst e, ty (snd e))) p) | _ => None end) None "properties" m in
        match get_str "$dictionary" m with
        | Some name => match dicts name with Some t => t | None => KAny end
        | None =>
            match get_arr (case_key m) m with
            | Some _ => reduce cases
            | None =>
                match enum_of m with
                | Some l => KEnum None l
                | None =>
                    match aget "type" m with
                    | Some (JStr kind) => typed m items props kind
                    | Some (JArr kinds) => reduce (map (typed m items props) (strs kinds))
                    | _ => KAny
                    end
                end
            end
        end
    | _ => KAny
    end.
End Dictionaries.
(** schema.rs:105-130 [admits_null] *)
Fixpoint admits_null (j : json) : bool :=
  match j with
  | JObj m =>
      match aget "$dictionary" m with
      | Some _ => false
      | None =>
          match get_arr (case_key m) m with
          | Some _ => at_key (fun v => match v with JArr l => existsb admits_null l | _ => false end) false (case_key m) m
          | None =>
              match get_arr "enum" m with
              | Some l => existsb (fun v => match v with JNull => true | _ => false end) l
              | None =>
                  match aget "type" m with
                  | Some (JStr kind) => String.eqb kind "null"
                  | Some (JArr kinds) => existsb (fun k => String.eqb k "null") (strs kinds)
                  | _ => true
                  end
              end
          end
      end
  | _ => true
  end.
(** schema.rs:76-82, 93-97: the paths of the items and of a property. *)
Definition item_path (path : string) : string := if String.eqb path "" then "[]" else (path ++ "[]")%string.
Definition child_path (path name : string) : string := if String.eqb path "" then name else (path ++ "." ++ name)%string.
(** schema.rs:66-103 [nullability_divergences], [collect_divergences] *)
Fixpoint divergences (j : json) (path : string) : list string :=
  match j with
  | JObj m =>
      at_key (fun v => divergences v (item_path path)) [] "items" m ++
      at_key (fun v => match v with
                       | JObj p => flat_map (fun e => (if negb (contains (required m) (fst e)) && negb (admits_null (snd e)) then [child_path path (fst e)] else [])
                                                        ++ divergences (snd e) (child_path path (fst e))) p
                       | _ => []
                       end) [] "properties" m
  | _ => []
  end.
Definition nullability_divergences (j : json) : list string := divergences j "".
(** schema.rs:132-168 [inline_enum_paths], [collect_inline_enums] *)
Fixpoint inline_enums (j : json) (path : string) : list string :=
  match j with
  | JObj m =>
      (match aget "$dictionary" m with
       | None => if String.eqb path "" then [] else
           match get_arr "enum" m with
           | Some l => if (length (strs l) =? length l) && (2 <=? length l) then [path] else []
           | None => []
           end
       | Some _ => []
       end) ++
      at_key (fun v => inline_enums v (item_path path)) [] "items" m ++
      at_key (fun v => match v with
                       | JObj p => flat_map (fun e => inline_enums (snd e) (child_path path (fst e))) p
                       | _ => []
                       end) [] "properties" m
  | _ => []
  end.
Definition inline_enum_paths (j : json) : list string := inline_enums j "".
(** schema.rs:170-187 [dictionary_names] *)
Fixpoint dictionary_names (j : json) : list string :=
  match j with
  | JObj m => match get_str "$dictionary" m with Some n => [n] | None => [] end ++ flat_map (fun e => dictionary_names (snd e)) m
  | JArr l => flat_map dictionary_names l
  | _ => []
  end.
