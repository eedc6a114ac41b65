(** The virtual machine as a small-step machine. Models core/expression/src/vm/vm.rs. *)
From Coq Require Import String Ascii ZArith Lia Bool List Arith.
From Verif Require Import Base Dec Value Heap Ast Ops.
Import ListNotations.
Local Open Scope nat_scope.

(** vm.rs:49-54 VMInner and the locals [env], [assigned_objects] of [run] (80-82). The top of each
    stack is the head of its list. [vheap] is the memory behind every Rc. *)
Record vmstate := VM {
  vip : nat;
  vstk : list value;
  vscs : list loop;
  venv : scope;
  vasg : list value;
  vheap : heap
}.

Inductive outcome :=
| Running (s : vmstate)
| Done (r : res value) (h : heap).

Definition next (s : vmstate) (stk : list value) (h : heap) : outcome :=
  Running (VM (S (vip s)) stk (vscs s) (venv s) (vasg s) h).
Definition fail (s : vmstate) (e : err) : outcome := Done (Err e) (vheap s).
Definition push_res (s : vmstate) (stk : list value) (r : res value) : outcome :=
  match r with Ok v => next s (v :: stk) (vheap s) | Err e => fail s e end.
Definition push_hres (s : vmstate) (stk : list value) (r : heap * res value) : outcome :=
  match snd r with Ok v => next s (v :: stk) (fst r) | Err e => Done (Err e) (fst r) end.
Definition goto (s : vmstate) (ip : nat) : outcome :=
  Running (VM ip (vstk s) (vscs s) (venv s) (vasg s) (vheap s)).

(** vm.rs:74-78 pop. *)
Definition pop1 (s : vmstate) (k : value -> list value -> outcome) : outcome :=
  match vstk s with
  | a :: r => k a r
  | [] => fail s EStackOutOfBounds
  end.
Definition pop2 (s : vmstate) (k : value -> value -> list value -> outcome) : outcome :=
  match vstk s with
  | b :: a :: r => k a b r
  | _ => fail s EStackOutOfBounds
  end.

(** vm.rs:767-778: the pops of Opcode::Object. A missing operand is a stack error, a non-string key an
    Object error, whichever comes first. *)
Fixpoint pop_pairs (n : nat) (stk : list value) (m : amap value) : res (amap value * list value) :=
  match n with
  | O => Ok (m, stk)
  | S k =>
      match stk with
      | v :: VStr key :: r => pop_pairs k r (aset key v m)
      | _ :: _ :: _ => Err (EOp "Object")
      | _ => Err EStackOutOfBounds
      end
  end.

Section WithExt.
  Variable X : ext.
  Variable root : scope.

  (** vm.rs:98-1017: one opcode. *)
  Definition exec (op : opcode) (s : vmstate) : outcome :=
    let h := vheap s in
    match op with
    | PushNull => next s (VNull :: vstk s) h
    | PushBool b => next s (VBool b :: vstk s) h
    | PushNumber n => next s (VNum n :: vstk s) h
    | PushString x => next s (VStr x :: vstk s) h
    | OPop => pop1 s (fun _ r => next s r h)
    | OFetch => pop2 s (fun a b r => push_res s r (op_fetch h a b))
    | OFetchFast path =>
        let (h1, v) := op_fetch_fast root (venv s) h path in next s (v :: vstk s) h1
    | OFetchEnv f => push_res s (vstk s) (op_fetch_env h (venv s) f)
    | OFetchRootEnv => let (h1, v) := materialize h (venv s) in next s (v :: vstk s) h1
    | ONegate => pop1 s (fun a r => push_res s r (op_negate a))
    | ONot => pop1 s (fun a r => push_res s r (op_not a))
    | OEqual => pop2 s (fun a b r => next s (op_equal a b :: r) h)
    | OJump JForward j => goto s (S (vip s) + j)
    | OJump JBackward j =>
        if j <=? S (vip s) then goto s (S (vip s) - j) else fail s (EPanic "ip underflow")
    | OJump JIfTrue j =>
        match vstk s with
        | VBool b :: _ => goto s (if b then S (vip s) + j else S (vip s))
        | _ => fail s (EOp "JumpIfTrue")
        end
    | OJump JIfFalse j =>
        match vstk s with
        | VBool b :: _ => goto s (if b then S (vip s) else S (vip s) + j)
        | _ => fail s (EOp "JumpIfFalse")
        end
    | OJump JIfNotNull j =>
        match vstk s with
        | VNull :: _ => goto s (S (vip s))
        | _ :: _ => goto s (S (vip s) + j)
        | [] => fail s (EOp "JumpIfNull")
        end
    | OJump JIfEnd j =>
        match vscs s with
        | lp :: _ => goto s (if lp_len lp <=? lp_iter lp then S (vip s) + j else S (vip s))
        | [] => fail s (EOp "JumpIfEnd")
        end
    | OIn => pop2 s (fun a b r => push_res s r (op_in h a b))
    | OCompare c => pop2 s (fun a b r => push_res s r (op_compare c a b))
    | OAdd => pop2 s (fun a b r => push_res s r (op_add X a b))
    | OSubtract => pop2 s (fun a b r => push_res s r (op_sub X a b))
    | OMultiply => pop2 s (fun a b r => push_res s r (op_mul X a b))
    | ODivide => pop2 s (fun a b r => push_res s r (op_div X a b))
    | OModulo => pop2 s (fun a b r => push_res s r (op_mod X a b))
    | OExponent => pop2 s (fun a b r => push_res s r (op_pow X a b))
    | OInterval lb rb => pop2 s (fun a b r => push_res s r (op_interval lb rb a b))
    | OJoin => pop2 s (fun a b r => push_res s r (op_join h a b))
    | OSlice =>
        match vstk s with
        | from :: to :: cur :: r => push_hres s r (op_slice h cur to from)
        | _ => fail s EStackOutOfBounds
        end
    | OArray =>
        pop1 s (fun a r =>
          match a with
          | VNum n =>
              match dec_to_count n with
              | Some c =>
                  if c <=? length r then
                    let (h1, v) := new_arr h (rev (firstn c r)) in next s (v :: skipn c r) h1
                  else fail s EStackOutOfBounds
              | None => fail s (EOp "Array")
              end
          | _ => fail s (EOp "Array")
          end)
    | OObject =>
        pop1 s (fun a r =>
          match a with
          | VNum n =>
              match dec_to_count n with
              | Some c =>
                  match pop_pairs c r [] with
                  | Ok (m, r) => let (h1, v) := new_obj h m in next s (v :: r) h1
                  | Err e => fail s e
                  end
              | None => fail s (EOp "Array")
              end
          | _ => fail s (EOp "Array")
          end)
    | OAssignBegin =>
        let (h1, v) := new_obj h [] in
        Running (VM (S (vip s)) (vstk s) (vscs s) (venv s) (v :: vasg s) h1)
    | OAssignStep =>
        pop2 s (fun key v r =>
          match op_assign h (venv s) (vasg s) key v with
          | (h1, Ok env) => Running (VM (S (vip s)) r (vscs s) env (vasg s) h1)
          | (h1, Err e) => Done (Err e) h1
          end)
    | OAssignEnd with_return =>
        match vasg s with
        | [] => fail s (EOp "AssignedObjectEnd")
        | obj :: rest =>
            if with_return then
              pop1 s (fun v r =>
                Running (VM (S (vip s)) (v :: r) (vscs s) (venv s) rest h))
            else Running (VM (S (vip s)) (obj :: vstk s) (vscs s) (venv s) rest h)
        end
    | OLen =>
        match vstk s with
        | a :: _ => push_res s (vstk s) (op_len h a)
        | [] => fail s (EOp "Len")
        end
    | OFlatten => pop1 s (fun a r => push_hres s r (op_flatten h a))
    | OIncIt =>
        match vscs s with
        | lp :: r =>
            Running (VM (S (vip s)) (vstk s)
              (Loop (lp_array lp) (lp_len lp) (S (lp_iter lp)) (lp_count lp) :: r) (venv s) (vasg s) h)
        | [] => fail s (EOp "IncrementIt")
        end
    | OIncCount =>
        match vscs s with
        | lp :: r =>
            Running (VM (S (vip s)) (vstk s)
              (Loop (lp_array lp) (lp_len lp) (lp_iter lp) (S (lp_count lp)) :: r) (venv s) (vasg s) h)
        | [] => fail s (EOp "IncrementCount")
        end
    | OGetCount =>
        match vscs s with
        | lp :: _ => next s (VNum (dec_of_nat (lp_count lp)) :: vstk s) h
        | [] => fail s (EOp "GetCount")
        end
    | OGetLen =>
        match vscs s with
        | lp :: _ => next s (VNum (dec_of_nat (lp_len lp)) :: vstk s) h
        | [] => fail s (EOp "GetLen")
        end
    | OPointer d => push_res s (vstk s) (op_pointer h (vscs s) d)
    | OBegin =>
        pop1 s (fun a r =>
          match op_begin h a with
          | (h1, Ok lp) => Running (VM (S (vip s)) r (lp :: vscs s) (venv s) (vasg s) h1)
          | (h1, Err e) => Done (Err e) h1
          end)
    | OEnd => Running (VM (S (vip s)) (vstk s) (tl (vscs s)) (venv s) (vasg s) h)
    | OCallFunction k argc =>
        push_hres s (skipn argc (vstk s)) (op_call X k (rev (firstn argc (vstk s))) h)
    | OCallMethod k argc =>
        if argc <? length (vstk s) then
          push_hres s (skipn (S argc) (vstk s)) (op_method X k (rev (firstn (S argc) (vstk s))) h)
        else
          match x_marity X k with
          | None => fail s (EOp "CallMethod")
          | Some _ => fail s (EPanic "params_start underflow")
          end
    end.

  (** vm.rs:87-1020: the loop; leaving it pops the result. *)
  Definition step (code : list opcode) (s : vmstate) : outcome :=
    match nth_error code (vip s) with
    | Some op => exec op s
    | None => match vstk s with
              | v :: _ => Done (Ok v) (vheap s)
              | [] => Done (Err EStackOutOfBounds) (vheap s)
              end
    end.

  Fixpoint run (fuel : nat) (code : list opcode) (s : vmstate) : option (res value * heap) :=
    match fuel with
    | O => None
    | S n => match step code s with
             | Running s' => run n code s'
             | Done r h => Some (r, h)
             end
    end.
End WithExt.

(** vm.rs:40-46, 80-85: [VM::run] clears the stacks and starts from the root scope. [None]: not
    finished within the fuel. *)
Definition vm_run (X : ext) (fuel : nat) (code : list opcode) (root : scope) (h : heap)
  : option (res value * heap) :=
  run X root fuel code (VM 0 [] [] root [] h).
