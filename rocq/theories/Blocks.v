(** What the blocks of a policy do to the store: expressions, assertions and matches.
    Models core/engine/src/policy/blocks/{expression,assertion,match_block,context}.rs and the part of
    core/engine/src/policy/evaluator.rs that runs a block once.
    Simplifications: traces keep the ids and answers of conditions only; analysis, diagnostics and positions
    are left out, and so is reading the document (assertion.rs:79-148: texts are trimmed, blank conditions and those
    indented 32 times or more are dropped); the isolate is the session of Session.v (SessionFacts.v). *)
From Coq Require Import String Bool List Arith.
From Verif Require Import Base Dec Value Heap Ast Ops Isolate Session.
Import ListNotations.
Local Open Scope string_scope.
Local Open Scope nat_scope.
Local Open Scope list_scope.

(** assertion.rs:60-64 [ConditionOperator], 68-75 [apply]. *)
Inductive bop := BAnd | BOr.
Definition bapply (o : bop) (l r : bool) : bool := match o with BAnd => l && r | BOr => l || r end.
(** assertion.rs:52-58 [AssertionCondition], after parsing. *)
Record acond := ACond { ac_id : string; ac_expr : string; ac_op : bop; ac_depth : nat }.
(** match_block.rs:53-58 [MatchArm], after parsing. *)
Record marm := MArm { ma_id : string; ma_cond : string; ma_value : string }.
(** blocks/mod.rs:215-221 [BlockKind] without decision tables (they are in PTable.v). *)
Inductive block :=
| BExpression (key value : string)
| BAssertion (output : string) (conds : list acond)
| BMatch (key : string) (arms : list marm).

(** evaluator.rs:247-258: the store and the environment expressions see. *)
Record pworld := PW { pw_heap : heap; pw_store : value; pw_env : value }.

(** context.rs:479-499 [mirror_top_level]. *)
Definition mirror (path : string) (w : pworld) : pworld :=
  match pw_store w, pw_env w with
  | VObj ls, VObj le =>
      match hobj (pw_heap w) ls, hobj (pw_heap w) le with
      | Some ms, Some me =>
          let k := hd "" (split_dot path) in
          match aget k ms with
          | Some v => PW (hset (pw_heap w) le (CObj (aset k v me))) (pw_store w) (pw_env w)
          | None => w
          end
      | _, _ => w
      end
  | _, _ => w
  end.
(** context.rs:468-477 [write]. *)
Definition write (path : string) (v : value) (w : pworld) : pworld :=
  mirror path (PW (fst (dot_insert (pw_heap w) (pw_store w) path v)) (pw_store w) (pw_env w)).
(** evaluator.rs:422-429 [bind_env]: [$] is taken out of the environment. *)
Definition bind_env (w : pworld) : pworld :=
  match pw_env w with
  | VObj le => match hobj (pw_heap w) le with
               | Some me => PW (hset (pw_heap w) le (CObj (adel "$" me))) (pw_store w) (pw_env w)
               | None => w
               end
  | _ => w
  end.
(** evaluator.rs:401-420 [Driver::new]. *)
Definition start (store : value) (h : heap) : pworld :=
  let (h1, env) := depth_clone1 h store in PW h1 store env.

Section Blocks.
  Variable X : ext.
  Variable parse : ekind -> string -> res node.

  (** isolate.run_standard in the environment. *)
  Definition gives (src : string) (w : pworld) : pworld * res value :=
    let (h1, r) := srun X parse KStandard src (scope_new (pw_env w)) (pw_heap w) in (PW h1 (pw_store w) (pw_env w), r).
  (** ... .as_bool().unwrap_or(false). *)
  Definition as_truth (v : value) : bool := match v with VBool b => b | _ => false end.
  Definition asks (src : string) (w : pworld) : pworld * res bool :=
    match gives src w with
    | (w1, Ok v) => (w1, Ok (as_truth v))
    | (w1, Err e) => (w1, Err e)
    end.

  (** assertion.rs:330-343 [Frame]. *)
  Record frame := Frame { fr_acc : bool; fr_started : bool; fr_combine : bop }.
  Definition fclose (f : frame) (group : bool) : bool :=
    if fr_started f then bapply (fr_combine f) (fr_acc f) group else group.
  (** The local variables of assertion.rs:266-327 [evaluate_conditions]. *)
  Record astate := AState { as_stack : list frame; as_acc : bool; as_started : bool; as_depth : nat; as_next : bop }.
  (** 281-291. [n]: how often the loop runs, the difference of the depths. *)
  Fixpoint aopen (n : nat) (s : astate) : astate :=
    match n with
    | 0 => s
    | S n => aopen n (AState (Frame (as_acc s) (as_started s) (as_next s) :: as_stack s) false false (S (as_depth s)) BAnd)
    end.
  (** 292-298. *)
  Fixpoint aclose (n : nat) (s : astate) : astate :=
    match n with
    | 0 => s
    | S n =>
        aclose n match as_stack s with
                 | f :: r => AState r (fclose f (as_acc s)) true (pred (as_depth s)) (as_next s)
                 | [] => AState [] (as_acc s) (as_started s) (pred (as_depth s)) (as_next s)
                 end
    end.
  Definition at_depth (d : nat) (s : astate) : astate := aclose (as_depth s - d) (aopen (d - as_depth s) s).
  (** 311-317. *)
  Definition acombine (b : bool) (o : bop) (s : astate) : astate :=
    AState (as_stack s) (if as_started s then bapply (as_next s) (as_acc s) b else b) true (as_depth s) o.
  (** 320-322. *)
  Definition afinish (s : astate) : bool := fold_left (fun acc f => fclose f acc) (as_stack s) (as_acc s).
  (** 280-318; the traces are the answers in order. *)
  Fixpoint aloop (l : list acond) (s : astate) (w : pworld) : pworld * res (bool * list (string * bool)) :=
    match l with
    | [] => (w, Ok (afinish s, []))
    | c :: r =>
        match asks (ac_expr c) w with
        | (w1, Err e) => (w1, Err e)
        | (w1, Ok b) =>
            match aloop r (acombine b (ac_op c) (at_depth (ac_depth c) s)) w1 with
            | (w2, Ok (x, t)) => (w2, Ok (x, (ac_id c, b) :: t))
            | (w2, Err e) => (w2, Err e)
            end
        end
    end.
  Definition evaluate_conditions (l : list acond) (w : pworld) : pworld * res (bool * list (string * bool)) :=
    match l with [] => (w, Ok (false, [])) | _ => aloop l (AState [] false false 0 BAnd) w end.

  (** match_block.rs:347-377 [select]. *)
  Fixpoint mselect (extras : bool) (arms : list marm) (matched : option string) (w : pworld)
    : pworld * res (option string * list (string * bool)) :=
    match arms with
    | [] => (w, Ok (matched, []))
    | a :: r =>
        match matched, extras with
        | Some _, false => (w, Ok (matched, []))
        | _, _ =>
            let '(w1, q) := if String.eqb (ma_cond a) "" then (w, Ok true) else asks (ma_cond a) w in
            let q := match q, matched with Err _, Some _ => Ok false | _, _ => q end in
            match q with
            | Err e => (w1, Err e)
            | Ok b =>
                let matched1 := match matched with Some _ => matched | None => if b then Some (ma_id a) else None end in
                match mselect extras r matched1 w1 with
                | (w2, Ok (m, t)) => (w2, Ok (m, (ma_id a, b) :: t))
                | (w2, Err e) => (w2, Err e)
                end
            end
        end
    end.
  (** match_block.rs:379-410 [commit]. *)
  Definition mcommit (key : string) (arms : list marm) (matched : option string) (w : pworld) : pworld * res unit :=
    let arm := match matched with Some id => find (fun a => String.eqb (ma_id a) id) arms | None => None end in
    let '(w1, r) := match arm with
                    | Some a => if String.eqb (ma_value a) "" then (w, Ok VNull) else gives (ma_value a) w
                    | None => (w, Ok VNull)
                    end in
    match r with
    | Err e => (w1, Err e)
    | Ok v => (if String.eqb key "" then w1 else write key v w1, Ok tt)
    end.
  (** expression.rs:134-152 [execute]. *)
  Definition xexecute (key value : string) (w : pworld) : pworld * res unit :=
    if String.eqb key "" || String.eqb value "" then (w, Ok tt)
    else match gives value w with
         | (w1, Err e) => (w1, Err e)
         | (w1, Ok v) => (write key v w1, Ok tt)
         end.
  (** assertion.rs:208-224 [execute]. *)
  Definition aexecute (output : string) (conds : list acond) (w : pworld) : pworld * res unit :=
    match evaluate_conditions conds w with
    | (w1, Err e) => (w1, Err e)
    | (w1, Ok (b, _)) => (if String.eqb output "" then w1 else write output (VBool b) w1, Ok tt)
    end.

  (** evaluator.rs:260-264 [Pick]. *)
  Inductive pick := PMatched (arm : option string) | PUnconditional.
  (** evaluator.rs:517-541: the selection of a block that runs once. *)
  Definition bselect (extras : bool) (b : block) (w : pworld) : pworld * res pick :=
    match b with
    | BMatch _ arms =>
        match mselect extras arms None (bind_env w) with
        | (w1, Ok (m, _)) => (w1, Ok (PMatched m))
        | (w1, Err e) => (w1, Err e)
        end
    | _ => (w, Ok PUnconditional)
    end.
  (** evaluator.rs:501-515, 544-545. *)
  Definition bcommit (b : block) (p : pick) (w : pworld) : pworld * res unit :=
    let w := bind_env w in
    match b with
    | BExpression key value => xexecute key value w
    | BAssertion output conds => aexecute output conds w
    | BMatch key arms => mcommit key arms match p with PMatched m => m | PUnconditional => None end w
    end.
End Blocks.
