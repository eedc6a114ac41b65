(** A policy as a whole: the blocks of Blocks.v run by the driver of Driver.v, which is told by the analysis of Deps.v what a block reads.
    Models core/engine/src/policy/evaluator.rs:123-150 and 401-563, core/engine/src/workspace/db.rs:622-664 and the read plans and
    writes of core/engine/src/policy/blocks/{expression,assertion,match_block}.rs.
    Simplifications: no decision tables; no blocks that run for every instance of an entity (those whose property is declared as a field
    of an entity, evaluator.rs:483-495); the references of the input are resolved before (Validate.v). *)
From Coq Require Import String Ascii Bool List Arith.
From Verif Require Import Base Dec Value Heap Ast Ops Isolate Session Deps Driver Blocks.
Import ListNotations.
Local Open Scope string_scope.
Local Open Scope nat_scope.
Local Open Scope list_scope.

(** A policy: its blocks by reference, in document order. *)
Definition policy := list (bref * block).
(** db.rs:643-647, evaluator.rs:470: [rule_by_ref]. *)
Definition block_of (p : policy) (b : bref) : option block := option_map snd (find (fun e => beqb (fst e) b) p).

(** queries/scope.rs:70-77 [to_dotted]: names joined with dots. *)
Fixpoint join_dots (l : list string) : string :=
  match l with
  | [] => ""
  | [x] => x
  | x :: r => (x ++ "." ++ join_dots r)%string
  end.
(** blocks/mod.rs:181-185 [BlockReadPlan::dedup]: sorted, without repetitions. *)
Fixpoint put_path (p : string) (l : list string) : list string :=
  match l with
  | [] => [p]
  | x :: r => match String.compare p x with Lt => p :: l | Eq => l | Gt => x :: put_path p r end
  end.
Definition dedup (l : list string) : list string := fold_right put_path [] l.

Section Policy.
  Variable X : ext.
  Variable parse : ekind -> string -> res node.
  (** queries/scope.rs [EntityForm::rewrite]: a path into a collection of entities, as a path into the entity. *)
  Variable rewrite : string -> option string.
  (** What the analysis finds in a text with syntax errors. *)
  Variable recovered : string -> list string.

  (** db.rs:638-661, the closure [flatten]. *)
  Definition read_entry (rd : pread) : list string :=
    if pr_unresolved rd then []
    else if pr_alias rd then match rewrite (join_dots (pr_path rd)) with Some p => [p] | None => [join_dots (pr_path rd)] end
    else [join_dots (pr_path rd)].
  Definition read_paths (src : string) : list string :=
    if String.eqb src "" then []
    else match parse KStandard src with
         | Ok n => flat_map read_entry (flatten_reads (walk n))
         | Err _ => recovered src
         end.
  (** expression.rs:113-118, assertion.rs:197-206, match_block.rs:164-185: [unconditional]. *)
  Definition plan_always (b : block) : list string :=
    dedup match b with
          | BExpression _ e => read_paths e
          | BAssertion _ l => flat_map (fun c => read_paths (ac_expr c)) l
          | BMatch _ arms => flat_map (fun a => read_paths (ma_cond a)) arms
          end.
  (** evaluator.rs:267-284 [collect_reads], blocks/mod.rs:187-195 [match_arm_reads]. *)
  Definition plan_reads (b : block) (p : pick) : list string :=
    match b, p with
    | BMatch _ arms, PMatched (Some id) =>
        match find (fun a => String.eqb (ma_id a) id) arms with
        | Some a => dedup (read_paths (ma_value a))
        | None => []
        end
    | _, _ => []
    end.
  (** expression.rs:124-143, assertion.rs:178-190, match_block.rs:222-252: what is recorded as written. *)
  Definition plan_writes (b : block) : list string :=
    match b with
    | BExpression k e => if String.eqb e "" || String.eqb k "" then [] else [k]
    | BAssertion k _ | BMatch k _ => if String.eqb k "" then [] else [k]
    end.

  Variable dm : list string.
  Variable p : policy.
  Variable extras : bool.
  Definition p_blocks : list (bref * list string) := map (fun e => (fst e, plan_writes (snd e))) p.
  Definition p_known (b : bref) : bool := match block_of p b with Some _ => true | None => false end.
  Definition p_always (b : bref) : list string := match block_of p b with Some k => plan_always k | None => [] end.
  Definition p_reads (b : bref) (pk : pick) : list string := match block_of p b with Some k => plan_reads k pk | None => [] end.
  (** evaluator.rs:532-535 and 545. *)
  Definition p_select (b : bref) (w : pworld) : pworld * (option pick + err) :=
    match block_of p b with
    | Some k => match bselect X parse extras k w with (w1, Ok pk) => (w1, inl (Some pk)) | (w1, Err e) => (w1, inr e) end
    | None => (w, inl None)
    end.
  Definition p_commit (b : bref) (pk : pick) (w : pworld) : pworld * (unit + err) :=
    match block_of p b with
    | Some k => match bcommit X parse k pk w with (w1, Ok u) => (w1, inl u) | (w1, Err e) => (w1, inr e) end
    | None => (w, inl tt)
    end.
  (** evaluator.rs:123-138 (after the references of the input have been resolved). [goals]: the requested properties, or the sinks of the graph. *)
  Definition evaluate_policy (fuel : nat) (goals : list string) (store : value) (h : heap) : answer pworld pick err :=
    run_goals pworld pick err (graph_writers dm p_blocks) p_known p_always p_reads p_select p_commit fuel goals (start store h).
End Policy.
