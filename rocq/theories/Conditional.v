(** The conditional schema: which inputs and outputs of a request matter always, and which only for some arms of match blocks.
    Models core/engine/src/policy/queries/conditional.rs and the selection of inputs in queries/schema.rs:140-176.
    Simplifications: the types that are reported with the paths are left out; whether the type of a path is an enumeration or a truth value,
    null aside, is a parameter; so are the declared paths (the walk over entities of schema.rs:140-167), which come in order. As in PGraph.v
    there are no decision tables. The code goes through the policies of the unit in the order of their names, which does not matter:
    a discriminant must be the only one and conditions are sorted. *)
From Coq Require Import String Ascii Bool List Arith.
From Verif Require Import Base Dec Value Heap Ast Ops Isolate Session Deps Driver Blocks PolicyRun Discriminant PGraph.
Import ListNotations.
Local Open Scope string_scope.
Local Open Scope nat_scope.
Local Open Scope list_scope.

(** conditional.rs:17-23 [ArmInfo]. *)
Record arm_info := ArmInfo { ai_id : string; ai_cond : string; ai_test : arm_test; ai_reads : list string }.
(** workspace/types [GuardedProperty], [SchemaGroup], [DiscriminantVariant], [ConditionalSchema]. *)
Definition guarded := (string * option string)%type.
Record group := Group { g_inputs : list guarded; g_outputs : list guarded }.
Record variant := Variant { vr_value : option string; vr_arm : string; vr_group : group }.
Inductive schema :=
| SUnion (common : group) (property : string) (variants : list variant)
| SFlat (common conditional : group).

(** conditional.rs:88-98 [discriminant_value]. *)
Definition discriminant_value (t : arm_test) : option string :=
  match t with
  | TEnum _ [v] => Some v
  | TBools _ [b] => Some (if b then "true" else "false")
  | _ => None
  end.
(** conditional.rs:135-152 [shared_enum_bool_path]. *)
Definition enum_bool_path (t : arm_test) : option (list string) :=
  match t with TEnum p _ | TBools p _ => Some p | _ => None end.
Fixpoint shared_from (p : list string) (arms : list arm_info) : option (list string) :=
  match arms with
  | [] => Some p
  | a :: r => match enum_bool_path (ai_test a) with Some q => if path_eqb p q then shared_from p r else None | None => None end
  end.
Definition shared_path (arms : list arm_info) : option (list string) :=
  match arms with
  | [] => None
  | a :: r => match enum_bool_path (ai_test a) with Some p => shared_from p r | None => None end
  end.
(** dependency.rs [PathPrefix::extends], in both directions. *)
Definition related (a b : string) : bool := extends a b || extends b a.
(** conditional.rs:326-356 [group_for]. *)
Definition group_for (set : list string) (inputs outputs : list string) (guard : string -> option string) : group :=
  let chosen l := map (fun x => (x, guard x)) (filter (fun x => existsb (related x) set) l) in
  Group (chosen inputs) (chosen outputs).
(** conditional.rs:315-324 [intersection]. *)
Definition intersection (cones : list (list string)) : list string :=
  match cones with
  | [] => []
  | first :: rest => filter (fun x => forallb (smem x) rest) first
  end.
Definition minus (a b : list string) : list string := filter (fun x => negb (smem x b)) a.
(** [slice::join]. *)
Fixpoint join_or (l : list string) : string :=
  match l with
  | [] => ""
  | [x] => x
  | x :: r => (x ++ " or " ++ join_or r)%string
  end.

Section Schema.
  Variable parse : ekind -> string -> res node.
  Variable noticed : string -> list pread.
  Variable dm : list string.
  Variable sources : entity_sources.
  Variable p : policy.
  Variable members : list string.
  (** The declared inputs, in order. *)
  Variable inputs_declared : list string.
  (** conditional.rs:164-169 [resolve_in_unit]: is the type an enumeration or a truth value? *)
  Variable testable : string -> bool.
  Notation rules := (rules_of parse noticed p).
  Notation reachable := (reachable_from dm sources rules).

  (** conditional.rs:171-186 [flatten_reads]. *)
  Definition direct_reads (src : string) : list string :=
    if String.eqb src "" then []
    else map (fun r => join_dots (pr_path r)) (filter (fun r => negb (pr_alias r) && negb (pr_unresolved r)) (source_reads parse noticed src)).
  (** conditional.rs:64-82. *)
  Definition arm_infos (arms : list marm) : list arm_info :=
    map (fun a => ArmInfo (ma_id a) (ma_cond a) (arm_test_of parse (ma_cond a)) (direct_reads (ma_value a)))
        (filter (fun a => negb (String.eqb (ma_cond a) "")) arms).
  (** conditional.rs:48-86 [collect_match_blocks]. *)
  Definition match_blocks : list (list arm_info) :=
    flat_map (fun e => match snd e with
                       | BMatch k arms => if smem (fst (fst e)) members && negb (String.eqb k "") then [arm_infos arms] else []
                       | _ => []
                       end) p.
  (** conditional.rs:106-127, 154-162: what the block says about a discriminant. *)
  Definition discriminant_of (arms : list arm_info) : option string :=
    match shared_path arms with
    | Some l => if negb (own_writer dm rules members (join_dots l)) && testable (join_dots l) then Some (join_dots l) else None
    | None => None
    end.
  (** conditional.rs:100-133 [clean_discriminant]. *)
  Definition clean_discriminant : option (string * list arm_info) :=
    match flat_map (fun arms => match discriminant_of arms with Some d => [(d, arms)] | None => [] end) match_blocks with
    | [d] => Some d
    | _ => None
    end.
  (** conditional.rs:188-196 [schema_roots]. *)
  Definition schema_roots (goals : list string) : list string := match goals with [] => computed_paths dm rules members | _ => goals end.
  (** schema.rs:167-178 [inputs]. *)
  Definition schema_inputs (goals : list string) : list string :=
    match goals with
    | [] => inputs_declared
    | _ => filter (fun x => existsb (related x) (reachable_inputs dm sources rules members goals)) inputs_declared
    end.
  (** conditional.rs:206-231: the sets of the union. *)
  Definition union_common (goals : list string) (d : string) (arms : list arm_info) : list string :=
    let cones := map (fun a => reachable (ai_reads a)) arms in
    minus (reachable (schema_roots goals)) (concat cones) ++ intersection cones ++ d :: flat_map (fun a => direct_reads (ai_cond a)) arms.
  (** conditional.rs:198-256 [build_union]. *)
  Definition build_union (goals : list string) (d : string) (arms : list arm_info) : schema :=
    let ins := schema_inputs goals in
    let outs := outputs dm sources rules members goals in
    let common := union_common goals d arms in
    SUnion (group_for common ins outs (fun _ => None)) d
      (map (fun a => Variant (discriminant_value (ai_test a)) (ai_id a) (group_for (minus (reachable (ai_reads a)) common) ins outs (fun _ => None))) arms).
  (** conditional.rs:267-289: the paths that some arm needs, and the conditions of these arms. *)
  Definition flat_common (goals : list string) (arms : list arm_info) : list string :=
    minus (reachable (schema_roots goals)) (flat_map (fun a => reachable (ai_reads a)) arms) ++ flat_map (fun a => direct_reads (ai_cond a)) arms.
  (** conditional.rs:291-308 [guard_for]. *)
  Definition guard_for (arms : list arm_info) (x : string) : option string :=
    match dedup (map ai_cond (filter (fun a => existsb (related x) (reachable (ai_reads a))) arms)) with
    | [] => None
    | l => Some (join_or l)
    end.
  (** conditional.rs:258-313 [build_flat]. *)
  Definition build_flat (goals : list string) : schema :=
    let ins := schema_inputs goals in
    let outs := outputs dm sources rules members goals in
    let arms := concat match_blocks in
    let common := flat_common goals arms in
    SFlat (group_for common ins outs (fun _ => None))
          (group_for (minus (flat_map (fun a => reachable (ai_reads a)) arms) common) ins outs (guard_for arms)).
  (** conditional.rs:36-46 [conditional_schema]. *)
  Definition conditional_schema (goals : list string) : schema :=
    match clean_discriminant with
    | Some (d, arms) => build_union goals d arms
    | None => build_flat goals
    end.
End Schema.
