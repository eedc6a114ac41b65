(** The bytecode compiler. Models core/expression/src/compiler/compiler.rs: an emitter that pushes
    opcodes and patches jump distances afterwards.
    Simplification: [usize as u32] casts of jump distances are exact (programs below 2^32 opcodes). *)
From Coq Require Import String Ascii ZArith Lia Bool List Arith.
From Verif Require Import Base Dec Value Heap Ast Ops.
Import ListNotations.
Local Open Scope nat_scope.

(** compiler.rs:70-73: push, return the new length. *)
Definition emit (op : opcode) (bc : list opcode) : list opcode * nat :=
  (bc ++ [op], S (length bc)).
(** compiler.rs:108-110. *)
Definition replace (at_ : nat) (op : opcode) (bc : list opcode) : list opcode :=
  lupd (at_ - 1) op bc.
(** compiler.rs:112-114. *)
Definition calc_backward_jump (bc : list opcode) (to : nat) : nat := length bc + 1 - to.

(** compiler.rs:53-63; the innermost alias is the head of the list. *)
Fixpoint lookup_alias (al : list (option string)) (name : string) : option nat :=
  match al with
  | [] => None
  | a :: r =>
      match (match a with Some x => String.eqb x name | None => false end) with
      | true => Some 0
      | false => option_map S (lookup_alias r name)
      end
  end.

(** compiler.rs:133-162. *)
Fixpoint compile_member_fast (al : list (option string)) (n : node) : option (list target) :=
  match n with
  | NRoot => Some [TgRoot]
  | NIdent v =>
      match lookup_alias al v with None => Some [TgBegin; TgString v] | Some _ => None end
  | NMember n p =>
      match compile_member_fast al n with
      | None => None
      | Some path =>
          match p with
          | NString v => Some (path ++ [TgString v])
          | NNumber v =>
              match dec_to_u32 v with Some i => Some (path ++ [TgNumber i]) | None => None end
          | _ => None
          end
      end
  | _ => None
  end.

(** compiler.rs:75-91. *)
Definition emit_loop (body : list opcode -> res (list opcode)) (bc : list opcode)
  : res (list opcode) :=
  let begin := length bc in
  let (bc, end_) := emit (OJump JIfEnd 0) bc in
  do bc <- body bc;
  let (bc, _) := emit OIncIt bc in
  let (bc, e) := emit (OJump JBackward (calc_backward_jump bc begin)) bc in
  Ok (replace end_ (OJump JIfEnd (e - end_)) bc).

(** Same, with a body that also reports a position (the [loop_break] variable, compiler.rs:455-461). *)
Definition emit_loop_break (body : list opcode -> res (list opcode * nat)) (bc : list opcode)
  : res (list opcode * nat) :=
  let begin := length bc in
  let (bc, end_) := emit (OJump JIfEnd 0) bc in
  do p <- body bc;
  let (bc, lb) := (p : list opcode * nat) in
  let (bc, _) := emit OIncIt bc in
  let (bc, e) := emit (OJump JBackward (calc_backward_jump bc begin)) bc in
  Ok (replace end_ (OJump JIfEnd (e - end_)) bc, lb).

(** compiler.rs:93-106. *)
Definition emit_cond (body : list opcode -> list opcode) (bc : list opcode) : list opcode :=
  let (bc, noop) := emit (OJump JIfFalse 0) bc in
  let (bc, _) := emit OPop bc in
  let bc := body bc in
  let (bc, jmp) := emit (OJump JForward 0) bc in
  let bc := replace noop (OJump JIfFalse (jmp - noop)) bc in
  let (bc, e) := emit OPop bc in
  replace jmp (OJump JForward (e - jmp)) bc.

(** [try_for_each] over the children, threading the bytecode. *)
Definition each {A} (f : A -> list opcode -> res (list opcode)) :=
  fix go (l : list A) (bc : list opcode) : res (list opcode) :=
    match l with
    | [] => Ok bc
    | x :: r => do bc <- f x bc; go r bc
    end.

Definition unknown_bin : err := EOp "UnknownBinaryOperator".

(** compiler.rs:319-424, the operators compiled as left, right, then fixed opcodes. *)
Definition simple_binop (op : operator) : option (list opcode) :=
  match op with
  | OpCmp CEq => Some [OEqual]
  | OpCmp CNe => Some [OEqual; ONot]
  | OpCmp CIn => Some [OIn]
  | OpCmp CNotIn => Some [OIn; ONot]
  | OpCmp CLt => Some [OCompare CmpLess]
  | OpCmp CLe => Some [OCompare CmpLessEq]
  | OpCmp CGt => Some [OCompare CmpMore]
  | OpCmp CGe => Some [OCompare CmpMoreEq]
  | OpArith AAdd => Some [OAdd]
  | OpArith ASub => Some [OSubtract]
  | OpArith AMul => Some [OMultiply]
  | OpArith ADiv => Some [ODivide]
  | OpArith AMod => Some [OModulo]
  | OpArith APow => Some [OExponent]
  | _ => None
  end.

(** compiler.rs:333-359: the jump used by the short-circuit operators. *)
Definition short_binop (op : operator) : option jump :=
  match op with
  | OpLogic LOr => Some JIfTrue
  | OpLogic LAnd => Some JIfFalse
  | OpLogic LNullish => Some JIfNotNull
  | _ => None
  end.

Section WithExt.
  Variable X : ext.

  (** compiler.rs:433-440 / 585-592. *)
  Definition arity_ok (b : nat * nat) (n : nat) : bool := (fst b <=? n) && (n <=? snd b).

  Definition call_string : opcode := OCallFunction (FInternal FString) 1.

  (** compiler.rs:165-605. *)
  Fixpoint compile_node (al : list (option string)) (n : node) (bc : list opcode) {struct n}
    : res (list opcode * nat) :=
    match n with
    | NNull => Ok (emit PushNull bc)
    | NBool v => Ok (emit (PushBool v) bc)
    | NNumber v => Ok (emit (PushNumber v) bc)
    | NString v => Ok (emit (PushString v) bc)
    | NPointer => Ok (emit (OPointer 0) bc)
    | NRoot => Ok (emit OFetchRootEnv bc)
    | NArray v =>
        do bc <- each (fun x bc => do p <- compile_node al x bc; Ok (fst p)) v bc;
        let (bc, _) := emit (PushNumber (dec_of_nat (length v))) bc in
        Ok (emit OArray bc)
    | NObject v =>
        do bc <- each (fun kx bc =>
                   do p <- compile_node al (fst kx) bc;
                   let (bc, _) := emit call_string (fst p) in
                   do p <- compile_node al (snd kx) bc;
                   Ok (fst p)) v bc;
        let (bc, _) := emit (PushNumber (dec_of_nat (length v))) bc in
        Ok (emit OObject bc)
    | NAssign items output =>
        let (bc, _) := emit OAssignBegin bc in
        do bc <- each (fun kx bc =>
                   do p <- compile_node al (fst kx) bc;
                   do p <- compile_node al (snd kx) (fst p);
                   Ok (fst (emit OAssignStep (fst p)))) items bc;
        do bc <- match output with
                 | Some o => do p <- compile_node al o bc; Ok (fst p)
                 | None => Ok bc
                 end;
        Ok (emit (OAssignEnd (match output with Some _ => true | None => false end)) bc)
    | NIdent v =>
        Ok (emit (match lookup_alias al v with Some d => OPointer d | None => OFetchEnv v end) bc)
    | NClosure body alias => compile_node (alias :: al) body bc
    | NParen v => compile_node al v bc
    | NMember a p =>
        match compile_member_fast al n with
        | Some path => Ok (emit (OFetchFast path) bc)
        | None =>
            do q <- compile_node al a bc;
            do q <- compile_node al p (fst q);
            Ok (emit OFetch (fst q))
        end
    | NTemplate parts =>
        do bc <- each (fun x bc =>
                   do p <- compile_node al x bc; Ok (fst (emit call_string (fst p)))) parts bc;
        let (bc, _) := emit (PushNumber (dec_of_nat (length parts))) bc in
        let (bc, _) := emit OArray bc in
        let (bc, _) := emit (PushString "") bc in
        Ok (emit OJoin bc)
    | NSlice x from to =>
        do p <- compile_node al x bc;
        do bc <- match to with
                 | Some t => do q <- compile_node al t (fst p); Ok (fst q)
                 | None =>
                     let (bc, _) := emit OLen (fst p) in
                     let (bc, _) := emit (PushNumber dec_one) bc in
                     let (bc, _) := emit OSubtract bc in
                     Ok bc
                 end;
        do bc <- match from with
                 | Some f => do q <- compile_node al f bc; Ok (fst q)
                 | None => let (bc, _) := emit (PushNumber dec_zero) bc in Ok bc
                 end;
        Ok (emit OSlice bc)
    | NInterval l r lb rb =>
        do p <- compile_node al l bc;
        do p <- compile_node al r (fst p);
        Ok (emit (OInterval lb rb) (fst p))
    | NCond c t f =>
        do p <- compile_node al c bc;
        let (bc, otherwise) := emit (OJump JIfFalse 0) (fst p) in
        let (bc, _) := emit OPop bc in
        do p <- compile_node al t bc;
        let (bc, end_) := emit (OJump JForward 0) (fst p) in
        let bc := replace otherwise (OJump JIfFalse (end_ - otherwise)) bc in
        let (bc, _) := emit OPop bc in
        do p <- compile_node al f bc;
        let (bc, b) := (p : list opcode * nat) in
        let bc := replace end_ (OJump JForward (b - end_)) bc in
        Ok (bc, b)
    | NUnary x op =>
        do p <- compile_node al x bc;
        match op with
        | OpArith AAdd => Ok p
        | OpArith ASub => Ok (emit ONegate (fst p))
        | OpLogic LNot => Ok (emit ONot (fst p))
        | _ => Err (EOp "UnknownUnaryOperator")
        end
    | NBinary l op r =>
        match simple_binop op, short_binop op with
        | Some ops, _ =>
            do p <- compile_node al l bc;
            do p <- compile_node al r (fst p);
            let bc := fold_left (fun bc o => fst (emit o bc)) ops (fst p) in
            Ok (bc, length bc)
        | None, Some j =>
            do p <- compile_node al l bc;
            let (bc, end_) := emit (OJump j 0) (fst p) in
            let (bc, _) := emit OPop bc in
            do p <- compile_node al r bc;
            let (bc, e) := (p : list opcode * nat) in
            Ok (replace end_ (OJump j (e - end_)) bc, e)
        | None, None => Err unknown_bin
        end
    | NCall k args =>
        match k with
        | FClosure c =>
            match args with
            | a0 :: a1 :: _ =>
                do p <- compile_node al a0 bc;
                let (bc, _) := emit OBegin (fst p) in
                match c with
                | ClAll =>
                    do q <- emit_loop_break (fun bc =>
                              do p <- compile_node al a1 bc;
                              let (bc, lb) := emit (OJump JIfFalse 0) (fst p) in
                              let (bc, _) := emit OPop bc in
                              Ok (bc, lb)) bc;
                    let (bc, lb) := (q : list opcode * nat) in
                    let (bc, e) := emit (PushBool true) bc in
                    let bc := replace lb (OJump JIfFalse (e - lb)) bc in
                    Ok (emit OEnd bc)
                | ClNone =>
                    do q <- emit_loop_break (fun bc =>
                              do p <- compile_node al a1 bc;
                              let (bc, _) := emit ONot (fst p) in
                              let (bc, lb) := emit (OJump JIfFalse 0) bc in
                              let (bc, _) := emit OPop bc in
                              Ok (bc, lb)) bc;
                    let (bc, lb) := (q : list opcode * nat) in
                    let (bc, e) := emit (PushBool true) bc in
                    let bc := replace lb (OJump JIfFalse (e - lb)) bc in
                    Ok (emit OEnd bc)
                | ClSome =>
                    do q <- emit_loop_break (fun bc =>
                              do p <- compile_node al a1 bc;
                              let (bc, lb) := emit (OJump JIfTrue 0) (fst p) in
                              let (bc, _) := emit OPop bc in
                              Ok (bc, lb)) bc;
                    let (bc, lb) := (q : list opcode * nat) in
                    let (bc, e) := emit (PushBool false) bc in
                    let bc := replace lb (OJump JIfTrue (e - lb)) bc in
                    Ok (emit OEnd bc)
                | ClOne =>
                    do bc <- emit_loop (fun bc =>
                               do p <- compile_node al a1 bc;
                               Ok (emit_cond (fun bc => fst (emit OIncCount bc)) (fst p))) bc;
                    let (bc, _) := emit OGetCount bc in
                    let (bc, _) := emit (PushNumber dec_one) bc in
                    let (bc, _) := emit OEqual bc in
                    Ok (emit OEnd bc)
                | ClFilter =>
                    do bc <- emit_loop (fun bc =>
                               do p <- compile_node al a1 bc;
                               Ok (emit_cond (fun bc =>
                                      fst (emit (OPointer 0) (fst (emit OIncCount bc)))) (fst p))) bc;
                    let (bc, _) := emit OGetCount bc in
                    let (bc, _) := emit OEnd bc in
                    Ok (emit OArray bc)
                | ClMap =>
                    do bc <- emit_loop (fun bc => do p <- compile_node al a1 bc; Ok (fst p)) bc;
                    let (bc, _) := emit OGetLen bc in
                    let (bc, _) := emit OEnd bc in
                    Ok (emit OArray bc)
                | ClFlatMap =>
                    do bc <- emit_loop (fun bc => do p <- compile_node al a1 bc; Ok (fst p)) bc;
                    let (bc, _) := emit OGetLen bc in
                    let (bc, _) := emit OEnd bc in
                    let (bc, _) := emit OArray bc in
                    Ok (emit OFlatten bc)
                | ClCount =>
                    do bc <- emit_loop (fun bc =>
                               do p <- compile_node al a1 bc;
                               Ok (emit_cond (fun bc => fst (emit OIncCount bc)) (fst p))) bc;
                    let (bc, _) := emit OGetCount bc in
                    Ok (emit OEnd bc)
                end
            | a0 :: _ =>
                do _ <- compile_node al a0 bc; Err (EOp "ArgumentNotFound")
            | [] => Err (EOp "ArgumentNotFound")
            end
        | _ =>
            match x_arity X k with
            | None => Err (EOp "UnknownFunction")
            | Some b =>
                if arity_ok b (length args) then
                  do bc <- each (fun x bc => do p <- compile_node al x bc; Ok (fst p)) args bc;
                  Ok (emit (OCallFunction k (length args)) bc)
                else Err (EOp "InvalidFunctionCall")
            end
        end
    | NMethod k this args =>
        match x_marity X k with
        | None => Err (EOp "UnknownFunction")
        | Some b =>
            do p <- compile_node al this bc;
            if arity_ok b (length args) then
              do bc <- each (fun x bc => do p <- compile_node al x bc; Ok (fst p)) args (fst p);
              Ok (emit (OCallMethod k (length args)) bc)
            else Err (EOp "InvalidMethodCall")
        end
    | NError _ => Err (EOp "UnexpectedErrorNode")
    end.

  (** compiler.rs:25-30, 65-68. *)
  Definition compile (n : node) : res (list opcode) :=
    do p <- compile_node [] n []; Ok (fst p).
End WithExt.
