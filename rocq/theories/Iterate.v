(** Blocks that run once for every instance of an entity.
    Models core/engine/src/policy/evaluator.rs:285-395 and 565-676.
    Simplifications: traces, write logs and operand values are left out; so is demanding other properties between the selection and
    the commit (evaluator.rs:618-629). Decision tables are not among the blocks (Blocks.v). The isolate is the session of Session.v. *)
From Coq Require Import String Bool List Arith.
From Verif Require Import Base Dec Value Heap Ast Ops Isolate Session Blocks.
Import ListNotations.
Local Open Scope string_scope.
Local Open Scope nat_scope.
Local Open Scope list_scope.

(** evaluator.rs:347-353 [InstanceSlot]; the owner in the wrapper, if one was put there. *)
Inductive slot := SDirect | SWrapped (wrapper : value) (synthetic : option (string * value)).

(** evaluator.rs:304-309. *)
Definition needs_owner (h : heap) (inst : value) (owner : option (string * value)) : bool :=
  match owner, inst with
  | Some (name, _), VObj l => match hobj h l with Some m => negb (amem name m) | None => false end
  | _, _ => false
  end.
(** evaluator.rs:297-345 [PhaseScope::bind]. *)
Definition bind_instance (entity : string) (owner : option (string * value)) (scoped inst : value) (h : heap)
  : option (heap * slot) :=
  match scoped with
  | VObj lc =>
      match hobj h lc with
      | None => None
      | Some _ =>
          let '(h1, bound, s) :=
            if needs_owner h inst owner then
              let (h1, wrapper) := depth_clone1 h inst in
              match owner, wrapper with
              | Some (name, ov), VObj lw =>
                  match hobj h1 lw with
                  | Some mw => (hset h1 lw (CObj (aset name ov mw)), wrapper, SWrapped wrapper (Some (name, ov)))
                  | None => (h1, wrapper, SWrapped wrapper None)
                  end
              | _, _ => (h1, wrapper, SWrapped wrapper None)
              end
            else (h, inst, SDirect) in
          match hobj h1 lc with
          | Some mc => Some (hset h1 lc (CObj (aset entity bound (adel "$" mc))), s)
          | None => None
          end
      end
  | _ => None
  end.
(** evaluator.rs:387-394 [same_ref]: objects and arrays by address, the rest by value. *)
Definition same_ref (a b : value) : bool :=
  match a, b with
  | VObj x, VObj y => Nat.eqb x y
  | VArr x, VArr y => Nat.eqb x y
  | VStr x, VStr y => String.eqb x y
  | VNum x, VNum y => dec_eqb x y
  | VBool x, VBool y => Bool.eqb x y
  | VNull, VNull => true
  | _, _ => false
  end.
(** evaluator.rs:374-386 [is_injected_owner]. *)
Definition is_injected (s : option (string * value)) (k : string) (v : value) : bool :=
  match s with Some (name, ov) => String.eqb name k && same_ref v ov | None => false end.
(** evaluator.rs:356-372 [write_back]. *)
Definition write_back (s : slot) (inst : value) (h : heap) : heap :=
  match s, inst with
  | SWrapped (VObj lw) syn, VObj li =>
      match hobj h lw, hobj h li with
      | Some mw, Some mi =>
          hset h li (CObj (fold_left (fun m kv => if is_injected syn (fst kv) (snd kv) then m else aset (fst kv) (snd kv) m) mw mi))
      | _, _ => h
      end
  | _, _ => h
  end.

Section Iterate.
  Variable X : ext.
  Variable parse : ekind -> string -> res node.

  (** context.rs:468-477 [write] without environment to keep in step (evaluator.rs:649). *)
  Definition iwrite (path : string) (v : value) (w : pworld) : pworld :=
    PW (fst (dot_insert (pw_heap w) (pw_store w) path v)) (pw_store w) (pw_env w).
  (** evaluator.rs:489-496 [select_pick]. *)
  Definition iselect (extras : bool) (b : block) (w : pworld) : pworld * res pick :=
    match b with
    | BMatch _ arms =>
        match mselect X parse extras arms None w with
        | (w1, Ok (m, _)) => (w1, Ok (PMatched m))
        | (w1, Err e) => (w1, Err e)
        end
    | _ => (w, Ok PUnconditional)
    end.
  (** What a block computes before it writes: the first parts of match_block.rs:379-401, expression.rs:134-147, assertion.rs:208-218.
      [None]: nothing is written. *)
  Definition ivalue (b : block) (p : pick) (w : pworld) : pworld * res (option value) :=
    match b with
    | BExpression key value =>
        if String.eqb key "" || String.eqb value "" then (w, Ok None)
        else match gives X parse value w with
             | (w1, Ok v) => (w1, Ok (Some v))
             | (w1, Err e) => (w1, Err e)
             end
    | BAssertion _ conds =>
        match evaluate_conditions X parse conds w with
        | (w1, Ok (x, _)) => (w1, Ok (Some (VBool x)))
        | (w1, Err e) => (w1, Err e)
        end
    | BMatch _ arms =>
        let m := match p with PMatched m => m | PUnconditional => None end in
        match (match m with Some id => find (fun a => String.eqb (ma_id a) id) arms | None => None end) with
        | Some a => if String.eqb (ma_value a) "" then (w, Ok (Some VNull))
                    else match gives X parse (ma_value a) w with
                         | (w1, Ok v) => (w1, Ok (Some v))
                         | (w1, Err e) => (w1, Err e)
                         end
        | None => (w, Ok (Some VNull))
        end
    end.
  Definition ikey (b : block) : string :=
    match b with BExpression k _ => k | BAssertion k _ => k | BMatch k _ => k end.
  (** evaluator.rs:498-508 [commit_pick]. *)
  Definition icommit (b : block) (p : pick) (w : pworld) : pworld * res unit :=
    match ivalue b p w with
    | (w1, Ok (Some v)) => (if String.eqb (ikey b) "" then w1 else iwrite (ikey b) v w1, Ok tt)
    | (w1, Ok None) => (w1, Ok tt)
    | (w1, Err e) => (w1, Err e)
    end.

  (** evaluator.rs:594-616: the selections, all of them before the first commit. *)
  Fixpoint ipicks (extras : bool) (b : block) (entity : string) (owner : option (string * value)) (scoped : value) (l : list value) (h : heap)
    : heap * res (list pick) :=
    match l with
    | [] => (h, Ok [])
    | inst :: r =>
        match bind_instance entity owner scoped inst h with
        | None => match ipicks extras b entity owner scoped r h with
                  | (h1, Ok ps) => (h1, Ok (PUnconditional :: ps))
                  | (h1, Err e) => (h1, Err e)
                  end
        | Some (h0, _) =>
            match iselect extras b (PW h0 scoped scoped) with
            | (w1, Err e) => (pw_heap w1, Err e)
            | (w1, Ok p) => match ipicks extras b entity owner scoped r (pw_heap w1) with
                            | (h2, Ok ps) => (h2, Ok (p :: ps))
                            | (h2, Err e) => (h2, Err e)
                            end
            end
        end
    end.
  (** evaluator.rs:637-674: one instance. *)
  Definition irun_one (b : block) (entity : string) (owner : option (string * value)) (scoped inst : value) (p : pick) (h : heap)
    : heap * res unit :=
    match bind_instance entity owner scoped inst h with
    | None => (h, Ok tt)
    | Some (h0, s) => let (w1, r) := icommit b p (PW h0 scoped scoped) in (write_back s inst (pw_heap w1), r)
    end.
  Fixpoint icommits (b : block) (entity : string) (owner : option (string * value)) (scoped : value) (l : list (value * pick)) (h : heap)
    : heap * res unit :=
    match l with
    | [] => (h, Ok tt)
    | (inst, p) :: r =>
        match irun_one b entity owner scoped inst p h with
        | (h1, Ok _) => icommits b entity owner scoped r h1
        | (h1, Err e) => (h1, Err e)
        end
    end.
  (** evaluator.rs:580-585: the owner is what stands in front of the last dot of the path. *)
  Definition owner_binding (h : heap) (store : value) (parts : list string) (name : option string) : option (string * value) :=
    match name with
    | None => None
    | Some n => match split_last parts with
                | Some ((_ :: _) as front, _) => option_map (pair n) (dot_parts h store front)
                | _ => None
                end
    end.
  (** evaluator.rs:565-676 [run_iterated]. *)
  Definition run_iterated (extras : bool) (b : block) (entity path : string) (owner_name : option string) (store : value) (h : heap)
    : heap * res unit :=
    match dot h store path with
    | Some (VArr la) =>
        match harr h la with
        | Some insts =>
            let owner := owner_binding h store (split_dot path) owner_name in
            let '(h1, ps) := match b with
                             | BMatch _ _ => let (h0, scoped) := depth_clone1 h store in ipicks extras b entity owner scoped insts h0
                             | _ => (h, Ok (map (fun _ => PUnconditional) insts))
                             end in
            match ps with
            | Err e => (h1, Err e)
            | Ok ps => let (h2, scoped) := depth_clone1 h1 store in icommits b entity owner scoped (combine insts ps) h2
            end
        | None => (h, Ok tt)
        end
    | _ => (h, Ok tt)
    end.
End Iterate.
