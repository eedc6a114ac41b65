(** The inputs of a policy: what its data models accept, and references by id. Models core/engine/src/policy/validator.rs, refs.rs, and parts of ir.rs and evaluator.rs. *)
From Coq Require Import String Ascii DecimalString NArith Bool List Arith.
From Verif Require Import Base Value Heap.
Import ListNotations.
Local Open Scope string_scope.
Local Open Scope list_scope.

(** ir.rs:163-181 [PropertyTypeIr], [Property] (without its id); ir.rs:127-132 [DataModelIr]. *)
Inductive kind := PString | PEnum (values : list string) | PNumber | PBoolean | PDate | PRelation (target : string) | PReference (target : string).
Record property := Property { p_name : string; p_kind : kind; p_array : bool; p_optional : bool }.
Record model := Model { m_name : string; m_global : bool; m_props : list property }.
Definition smem (s : string) (l : list string) : bool := existsb (String.eqb s) l.
(** ir.rs:183-215 [classify_roots]; sets are lists. *)
Definition targets (rel : bool) (glob : bool) (l : list model) : list string :=
  flat_map (fun m => flat_map (fun p => match p_kind p with
                                        | PRelation t => if rel && Bool.eqb (m_global m) glob then [t] else []
                                        | PReference t => if rel then [] else [t]
                                        | _ => []
                                        end) (m_props m)) l.
Definition ref_targets (l : list model) : list string := targets false false l.
Definition nested (l : list model) : list string :=
  let rel := targets true false l in
  let refs := ref_targets l in
  let glob := filter (fun t => negb (smem t rel) && negb (smem t refs)) (targets true true l) in
  rel ++ refs ++ glob.
Definition roots (l : list model) : list string := filter (fun e => negb (smem e (nested l))) (map m_name (filter (fun m => negb (m_global m)) l)).

(** refs.rs:13-36 [RefPoolIndex::from_input], the pool of one target: id to item; a later item with the same id replaces the earlier one. *)
Definition item_id (h : heap) (v : value) : option string := match dot h v "id" with Some (VStr s) => Some s | _ => None end.
Definition pool (h : heap) (input : value) (target : string) : amap value :=
  match dot h input target with
  | Some (VArr l) => match harr h l with
                     | Some a => fold_left (fun p v => match item_id h v with Some id => aset id v p | None => p end) a []
                     | None => []
                     end
  | _ => []
  end.

(** workspace/types.rs [InputValidationError]. *)
Record verror := VError { e_path : string; e_expected : string; e_got : string }.
(** types variable/mod.rs:167-177 [type_name]; "date" and "interval" are in vm/date/mod.rs:21, vm/interval.rs:21. *)
Definition type_name (v : value) : string :=
  match v with VNull => "null" | VBool _ => "bool" | VNum _ => "number" | VStr _ => "string" | VArr _ => "array" | VObj _ => "object" | VDyn (DDate _) => "date" | VDyn (DInterval _) => "interval" end.
Definition quote (s : string) : string := ("'" ++ s ++ "'")%string.
Definition listing (l : list string) : string := String.concat ", " (map quote l).
Definition index_text (i : nat) : string := ("[" ++ NilEmpty.string_of_uint (N.to_uint (N.of_nat i)) ++ "]")%string.
(** ir.rs:539-560 [Display]; the arrow is the byte sequence of U+2192. *)
Definition arrow : string := String (ascii_of_nat 226) (String (ascii_of_nat 134) (String (ascii_of_nat 146) "")).
Definition ref_text (t : string) : string := ("reference id (string " ++ arrow ++ " " ++ t ++ ")")%string.
Definition kind_text (k : kind) : string :=
  match k with
  | PString => "string" | PEnum l => ("enum (" ++ listing l ++ ")")%string | PNumber => "number" | PBoolean => "bool" | PDate => "date (string)"
  | PReference t => ref_text t | PRelation t => ("object (" ++ t ++ ")")%string
  end.
Definition is_null (v : value) : bool := match v with VNull => true | _ => false end.

(** validator.rs:67-73 [InputSchema]: the entities by name, the globals by name, the dictionaries with their values; the models give roots and targets of references. *)
Record schema := Schema { s_entities : amap (list property); s_globals : amap property; s_dicts : amap (list string); s_models : list model }.
Section Validate.
  Variable S : schema.
  Variable h : heap.
  (** The pools of the targets. *)
  Variable in_pool : string -> string -> bool.
  (** validator.rs:228-262 [validate_enum]. *)
  Definition check_enum (v : value) (values : list string) (path : string) : list verror :=
    let expected := ("one of " ++ listing values)%string in
    match v with
    | VStr s => if smem s values then [] else [VError path expected (quote s)]
    | _ => [VError path expected (type_name v)]
    end.
  (** validator.rs:264-281 [validate_reference]. *)
  Definition check_ref (v : value) (t : string) (path : string) : list verror :=
    match v with
    | VStr s => if in_pool t s then [] else [VError path ("reference id present in '" ++ t ++ "' pool")%string (quote s ++ " (not found)")%string]
    | _ => [VError path (ref_text t) (type_name v)]
    end.
  Section Level.
    Variable ent : string -> string -> value -> list verror.
    (** validator.rs:194-226 [validate_kind]. *)
    Definition check_kind (k : kind) (path : string) (v : value) : list verror :=
      let plain (ok : bool) := if ok then [] else [VError path (kind_text k) (type_name v)] in
      match k with
      | PString | PDate => plain match v with VStr _ => true | _ => false end
      | PNumber => plain match v with VNum _ => true | _ => false end
      | PBoolean => plain match v with VBool _ => true | _ => false end
      | PEnum l => check_enum v l path
      | PReference t => check_ref v t path
      | PRelation t =>
          match aget t (s_entities S), aget t (s_dicts S) with
          | None, Some values => check_enum v values path
          | _, _ => ent t path v
          end
      end.
    Fixpoint each_item (f : string -> value -> list verror) (path : string) (i : nat) (l : list value) : list verror :=
      match l with [] => [] | v :: r => (if is_null v then [] else f (path ++ index_text i)%string v) ++ each_item f path (i + 1) r end.
    (** validator.rs:160-178 [validate_global], [validate_array_of_property]. *)
    Definition check_prop (p : property) (path : string) (v : value) : list verror :=
      if p_array p then
        match v with
        | VArr l => match harr h l with Some a => each_item (check_kind (p_kind p)) path 0 a | None => [] end
        | _ => [VError path ("array of " ++ kind_text (p_kind p))%string (type_name v)]
        end
      else check_kind (p_kind p) path v.
    (** validator.rs:180-192 [validate_array_of_entity]. *)
    Definition check_entities (name : string) (path : string) (v : value) : list verror :=
      match v with
      | VArr l => match harr h l with Some a => each_item (ent name) path 0 a | None => [] end
      | _ => [VError path ("array of " ++ name)%string (type_name v)]
      end.
  End Level.
  (** validator.rs:125-158 [validate_entity]; the number is how many levels are left of the 32. *)
  Fixpoint check_entity (n : nat) (name : string) (path : string) (v : value) : list verror :=
    match n with
    | 0 => [VError path "entity nesting within 32 levels" "deeper"]
    | Datatypes.S n =>
        match v with
        | VObj l =>
            match aget name (s_entities S), hobj h l with
            | Some props, Some m =>
                flat_map (fun e => if is_null (snd e) then []
                                   else match find (fun p => String.eqb (p_name p) (fst e)) props with
                                        | None => []
                                        | Some p => check_prop (check_entity n) p (path ++ "." ++ p_name p)%string (snd e)
                                        end) m
            | _, _ => []
            end
        | _ => [VError path ("object (" ++ name ++ ")")%string (type_name v)]
        end
    end.
End Validate.
(** mod.rs:3 [MAX_RECURSION_DEPTH]. *)
Definition max_depth : nat := 32.
(** validator.rs:75-113 [InputSchema::validate]. The order of the entries of an object is that of its list here. *)
Definition validate (S : schema) (h : heap) (input : value) : list verror :=
  let refs := ref_targets (s_models S) in
  let in_pool t id := smem t refs && match aget id (pool h input t) with Some _ => true | None => false end in
  match input with
  | VObj l =>
      match hobj h l with
      | Some m =>
          flat_map (fun e =>
            let '(key, v) := e in
            if is_null v then []
            else if smem key refs then check_entities h (check_entity S h in_pool max_depth) key key v
            else if smem key (roots (s_models S)) then check_entity S h in_pool max_depth key key v
            else match aget key (s_globals S) with Some p => check_prop S h in_pool (check_entity S h in_pool max_depth) p key v | None => [] end) m
      | None => []
      end
  | VNull => []
  | _ => [VError "" "object" (type_name input)]
  end.

(** queries/scope.rs:79-84 [ReferenceField]. *)
Record ref_field := RefField { f_path : string; f_target : string; f_array : bool }.
(** queries/scope.rs:448-475 [compute_reference_fields]. *)
Definition reference_fields (l : list model) : list ref_field :=
  flat_map (fun m => flat_map (fun p => match p_kind p with
                                        | PReference t => [RefField (if m_global m then p_name p else m_name m ++ "." ++ p_name p)%string t (p_array p)]
                                        | _ => []
                                        end) (m_props m)) l.
(** evaluator.rs:733-764 [hydrate_references]; the pools are those of the store before any field is replaced. *)
Definition hydrate_field (pools : string -> option (amap value)) (store : value) (h : heap) (f : ref_field) : heap :=
  match pools (f_target f) with
  | None => h
  | Some p =>
      match dot h store (f_path f) with
      | Some v =>
          if f_array f then
            match v with
            | VArr l =>
                match harr h l with
                | Some a => hset h l (CArr (map (fun x => match x with VStr id => match aget id p with Some o => o | None => x end | _ => x end) a))
                | None => h
                end
            | _ => h
            end
          else match v with
               | VStr id => match aget id p with Some o => fst (dot_insert h store (f_path f) o) | None => h end
               | _ => h
               end
      | None => h
      end
  end.
(** evaluator.rs:119-130: the store of an evaluation. *)
Definition open_store (models : list model) (h : heap) (input : value) : heap * value :=
  let (h, store) := depth_clone1 h input in
  let fields := reference_fields models in
  let pools t := if existsb (fun f => String.eqb (f_target f) t) fields then Some (pool h store t) else None in
  (fold_left (hydrate_field pools store) fields h, store).
