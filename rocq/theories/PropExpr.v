(** Properties of the expression compiler and virtual machine: C01, C02, C03. *)
From Coq Require Import String ZArith List.
From Verif Require Import Base Dec Value Heap Ast Ops Compiler Vm Eval VmFacts ExprFacts Funcs Samples.
Import ListNotations.
Local Open Scope string_scope.

(** C01. Whatever the compiler accepts, the machine computes what the tree-walking evaluator
    (Eval.v) computes: same value or same error, same memory. *)
Theorem C01_compiled_run_is_tree_evaluation : forall X n code root h,
  compile X n = Ok code ->
  exists fuel, forall more, vm_run X (fuel + more) code root h = Some (evaluate X n root h).
Proof. exact run_forever. Qed.
Print Assumptions C01_compiled_run_is_tree_evaluation.

Theorem C01_any_finished_run_is_tree_evaluation : forall X n code root h fuel r,
  compile X n = Ok code -> vm_run X fuel code root h = Some r -> r = evaluate X n root h.
Proof. exact run_is_evaluate. Qed.
Print Assumptions C01_any_finished_run_is_tree_evaluation.

Example C01_case : result_of s_cond = Some (Ok (VStr "Ann!")).
Proof. vm_compute. reflexivity. Qed.
Example C01_case_error : result_of s_bad = Some (Err (EOp "Negate")).
Proof. vm_compute. reflexivity. Qed.

(** C02. Started on any stack, compiled code either stops with an error or stops at its end with
    exactly one more value on the stack, with the loop and assignment stacks as before. *)
Theorem C02_one_result_on_any_stack : forall X n code root,
  compile X n = Ok code -> forall stk loops env asg h,
  (exists v env1 h1,
     steps X root code (VM 0 stk loops env asg h) (VM (length code) (v :: stk) loops env1 asg h1))
  \/ (exists e h1, fails X root code (VM 0 stk loops env asg h) e h1).
Proof. exact code_one_result. Qed.
Print Assumptions C02_one_result_on_any_stack.

(** A run finishes, and its result does not depend on how long we let it run. *)
Theorem C02_terminates_with_one_outcome : forall X n code root h,
  compile X n = Ok code ->
  exists r, (exists fuel, vm_run X fuel code root h = Some r) /\
            (forall fuel r', vm_run X fuel code root h = Some r' -> r' = r).
Proof. exact run_terminates. Qed.
Print Assumptions C02_terminates_with_one_outcome.

(** The instruction pointer never leaves the code. *)
Theorem C02_stays_in_code : forall X n code root stk loops env asg h s,
  compile X n = Ok code ->
  steps X root code (VM 0 stk loops env asg h) s -> vip s <= length code.
Proof. exact code_stays_inside. Qed.
Print Assumptions C02_stays_in_code.

(** No run ends in a stack or code-bounds error; the only possible errors are those raised by an
    operator, and panics only if a called library function panics. *)
Theorem C02_no_machine_error : forall X n code root h fuel e h1,
  compile X n = Ok code -> vm_run X fuel code root h = Some (Err e, h1) ->
  (exists op, e = EOp op) \/
  (exists w, e = EPanic w /\
     ((exists k args h h', x_call X k args h = (h', Err (EPanic w))) \/
      (exists k args h h', x_method X k args h = (h', Err (EPanic w))))).
Proof. exact run_error_kinds. Qed.
Print Assumptions C02_no_machine_error.

Example C02_case : (do c <- compile demo s_cond; Ok (length c)) = Ok 33%nat.
Proof. vm_compute. reflexivity. Qed.

(** C03. The skipped operand is irrelevant: nothing is assumed about it except that it compiles. *)
Theorem C03_and_skips_right : forall X l r cl c root h h1 fuel,
  compile X l = Ok cl -> vm_run X fuel cl root h = Some (Ok (VBool false), h1) ->
  compile X (NBinary l (OpLogic LAnd) r) = Ok c ->
  exists fuel', vm_run X fuel' c root h = Some (Ok (VBool false), h1).
Proof. exact run_and_false. Qed.
Print Assumptions C03_and_skips_right.

Theorem C03_or_skips_right : forall X l r cl c root h h1 fuel,
  compile X l = Ok cl -> vm_run X fuel cl root h = Some (Ok (VBool true), h1) ->
  compile X (NBinary l (OpLogic LOr) r) = Ok c ->
  exists fuel', vm_run X fuel' c root h = Some (Ok (VBool true), h1).
Proof. exact run_or_true. Qed.
Print Assumptions C03_or_skips_right.

Theorem C03_nullish_skips_right : forall X l r cl c root h h1 v fuel,
  compile X l = Ok cl -> vm_run X fuel cl root h = Some (Ok v, h1) -> v <> VNull ->
  compile X (NBinary l (OpLogic LNullish) r) = Ok c ->
  exists fuel', vm_run X fuel' c root h = Some (Ok v, h1).
Proof. exact run_nullish. Qed.
Print Assumptions C03_nullish_skips_right.

(** [c ? t : f]: replacing the untaken branch by anything that compiles changes nothing. *)
Theorem C03_conditional_skips_untaken : forall X cnd t f f' cc c1 c2 root h h1 b fuel,
  compile X cnd = Ok cc -> vm_run X fuel cc root h = Some (Ok (VBool b), h1) ->
  compile X (if b then NCond cnd t f else NCond cnd f t) = Ok c1 ->
  compile X (if b then NCond cnd t f' else NCond cnd f' t) = Ok c2 ->
  exists r f1 f2, vm_run X f1 c1 root h = Some r /\ vm_run X f2 c2 root h = Some r.
Proof. exact run_cond_untaken. Qed.
Print Assumptions C03_conditional_skips_untaken.

(** The converse: when the left operand does not decide, the right one is evaluated and its error
    is the result. *)
Theorem C03_right_is_evaluated_when_needed : forall X l r root h env1 h1,
  eval X root [] [] l root h = ORet (VBool true) env1 h1 ->
  eval X root [] [] (NBinary l (OpLogic LAnd) r) root h = eval X root [] [] r env1 h1.
Proof. exact eval_and_true. Qed.
Print Assumptions C03_right_is_evaluated_when_needed.

Example C03_case : result_of (NBinary (NBool false) (OpLogic LAnd) s_bad) = Some (Ok (VBool false)).
Proof. vm_compute. reflexivity. Qed.
Example C03_case_needed : result_of (NBinary (NBool true) (OpLogic LAnd) s_bad) = Some (Err (EOp "Negate")).
Proof. vm_compute. reflexivity. Qed.
