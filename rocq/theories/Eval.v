(** Reference semantics of the expression language, by recursion on the syntax tree. This is the
    specification the compiler and the virtual machine are compared with: it knows nothing about
    opcodes, jumps or the operand stack. It shares with the machine only the operations on values
    (Ops.v). *)
From Coq Require Import String Ascii ZArith Lia Bool List Arith.
From Verif Require Import Base Dec Value Heap Ast Ops.
Import ListNotations.
Local Open Scope nat_scope.

(** Result of evaluating: a result, the environment after assignments, the memory; or an error. *)
Inductive outc {A : Type} :=
| ORet (v : A) (env : scope) (h : heap)
| OErr (e : err) (h : heap).
Arguments outc : clear implicits.
Notation out := (outc value).

Definition obind {A B} (o : outc A) (k : A -> scope -> heap -> outc B) : outc B :=
  match o with ORet v env h => k v env h | OErr e h => OErr e h end.
Definition lift {A} (env : scope) (h : heap) (r : res A) : outc A :=
  match r with Ok v => ORet v env h | Err e => OErr e h end.
Definition hlift {A} (env : scope) (r : heap * res A) : outc A :=
  match snd r with Ok v => ORet v env (fst r) | Err e => OErr e (fst r) end.

(** Evaluate a list left to right, stopping at the first error. *)
Definition eval_seq {A B} (f : A -> scope -> heap -> outc B) :=
  fix go (l : list A) (env : scope) (h : heap) : outc (list B) :=
    match l with
    | [] => ORet [] env h
    | x :: r =>
        obind (f x env h) (fun v env h =>
        obind (go r env h) (fun vs env h => ORet (v :: vs) env h))
    end.

(** Which enclosing closure binds a name: the innermost whose alias it is. *)
Fixpoint bound_at (al : list (option string)) (name : string) : option nat :=
  match al with
  | [] => None
  | Some a :: r => if String.eqb a name then Some 0 else option_map S (bound_at r name)
  | None :: r => option_map S (bound_at r name)
  end.

(** Reading one static property: a string key of an object, a number index of an array or string;
    anything else is null, and so is a missing element. *)
Definition get_key (h : heap) (v : value) (k : string) : value :=
  match v with
  | VObj l => or_null (match hobj h l with Some m => aget k m | None => None end)
  | _ => VNull
  end.
Definition get_index (h : heap) (v : value) (i : Z) : value :=
  match v with
  | VArr l => or_null (match harr h l with Some a => znth a i | None => None end)
  | VStr s => match zstr_get s i (i + 1) with Some c => VStr c | None => VNull end
  | _ => VNull
  end.

(** What a loop iteration decides from the value of its body. *)
Inductive verdict :=
| Keep (take : bool)        (* go on, and whether this element counts *)
| Break (v : value)         (* stop the loop with this result *)
| Bad (e : err).

Definition judge (c : closure) (v : value) : verdict :=
  match c with
  | ClAll => match v with
             | VBool true => Keep true
             | VBool false => Break (VBool false)
             | _ => Bad (EOp "JumpIfFalse")
             end
  | ClNone => match v with
              | VBool false => Keep true
              | VBool true => Break (VBool false)
              | _ => Bad (EOp "Not")
              end
  | ClSome => match v with
              | VBool true => Break (VBool true)
              | VBool false => Keep true
              | _ => Bad (EOp "JumpIfTrue")
              end
  | ClOne | ClCount | ClFilter =>
      match v with VBool b => Keep b | _ => Bad (EOp "JumpIfFalse") end
  | ClMap | ClFlatMap => Keep true
  end.

Definition bump_it (lp : loop) : loop :=
  Loop (lp_array lp) (lp_len lp) (S (lp_iter lp)) (lp_count lp).
Definition bump_count (lp : loop) : loop :=
  Loop (lp_array lp) (lp_len lp) (lp_iter lp) (S (lp_count lp)).

(** Does this closure function count its hits / what does it collect per element. *)
Definition counts (c : closure) : bool :=
  match c with ClOne | ClCount | ClFilter => true | _ => false end.

(** The loop: evaluate the body on each remaining element, in order. [acc] collects, oldest first,
    the kept elements ([filter]) or the body values ([map], [flatMap]). *)
Inductive lout :=
| LDone (lp : loop) (acc : list value) (env : scope) (h : heap)
| LBreak (v : value) (env : scope) (h : heap)
| LErr (e : err) (h : heap).

(** One element: [LDone] goes on to the next one. *)
Definition advance (c : closure) (body : loop -> scope -> heap -> out)
  (lp : loop) (acc : list value) (env : scope) (h : heap) : lout :=
  match body lp env h with
  | OErr e h1 => LErr e h1
  | ORet v env1 h1 =>
      match judge c v with
      | Bad e => LErr e h1
      | Break r => LBreak r env1 h1
      | Keep b =>
          let lp1 := if counts c && b then bump_count lp else lp in
          match c with
          | ClMap | ClFlatMap => LDone lp1 (acc ++ [v]) env1 h1
          | ClFilter =>
              if b then
                match op_pointer h1 [lp1] 0 with
                | Ok x => LDone lp1 (acc ++ [x]) env1 h1
                | Err e => LErr e h1
                end
              else LDone lp1 acc env1 h1
          | _ => LDone lp1 acc env1 h1
          end
      end
  end.

Fixpoint iterate (c : closure) (body : loop -> scope -> heap -> out) (n : nat)
  (lp : loop) (acc : list value) (env : scope) (h : heap) : lout :=
  match n with
  | O => LDone lp acc env h
  | S m =>
      match advance c body lp acc env h with
      | LDone lp1 acc1 env1 h1 => iterate c body m (bump_it lp1) acc1 env1 h1
      | o => o
      end
  end.

(** The value of a closure function whose loop ran to the end. *)
Definition closure_value (c : closure) (lp : loop) (acc : list value) (env : scope) (h : heap) : out :=
  match c with
  | ClAll | ClNone => ORet (VBool true) env h
  | ClSome => ORet (VBool false) env h
  | ClOne => ORet (VBool (dec_eqb (dec_of_nat (lp_count lp)) dec_one)) env h
  | ClCount => ORet (VNum (dec_of_nat (lp_count lp))) env h
  | ClFilter | ClMap => let (h1, v) := new_arr h acc in ORet v env h1
  | ClFlatMap => let (h1, v) := new_arr h acc in hlift env (op_flatten h1 v)
  end.

Section WithExt.
  Variable X : ext.
  Variable root : scope.

  Definition to_str (v : value) (h : heap) : heap * res value := op_call X (FInternal FString) [v] h.

  (** Static member chains rooted at [$root] or at a name that is not a closure alias. [$root.x] reads
      the scope given by the caller, a name reads the current environment. *)
  Fixpoint eval_static (al : list (option string)) (n : node) (env : scope) (h : heap)
    : option (heap * value) :=
    match n with
    | NRoot => Some (materialize h root)
    | NIdent v =>
        match bound_at al v with
        | None => Some (h, or_null (scope_get h env v))
        | Some _ => None
        end
    | NMember a (NString k) =>
        option_map (fun p => (fst p, get_key (fst p) (snd p) k)) (eval_static al a env h)
    | NMember a (NNumber d) =>
        match dec_to_u32 d with
        | Some i => option_map (fun p => (fst p, get_index (fst p) (snd p) i)) (eval_static al a env h)
        | None => None
        end
    | _ => None
    end.

  (** Value of a binary operator that evaluates both sides. *)
  Definition bin_value (op : operator) (h : heap) (a b : value) : res value :=
    match op with
    | OpCmp CEq => Ok (op_equal a b)
    | OpCmp CNe => op_not (op_equal a b)
    | OpCmp CIn => op_in h a b
    | OpCmp CNotIn => do r <- op_in h a b; op_not r
    | OpCmp CLt => op_compare CmpLess a b
    | OpCmp CLe => op_compare CmpLessEq a b
    | OpCmp CGt => op_compare CmpMore a b
    | OpCmp CGe => op_compare CmpMoreEq a b
    | OpArith AAdd => op_add X a b
    | OpArith ASub => op_sub X a b
    | OpArith AMul => op_mul X a b
    | OpArith ADiv => op_div X a b
    | OpArith AMod => op_mod X a b
    | OpArith APow => op_pow X a b
    | _ => Err (EOp "UnknownBinaryOperator")
    end.

  (** The evaluator. [al]: aliases of the enclosing closures; [loops]: their iterations, both innermost
      first. Operands are evaluated left to right; [and], [or], [??] and [?:] evaluate the operand they
      need only. *)
  Fixpoint eval (al : list (option string)) (loops : list loop) (n : node) (env : scope) (h : heap)
    {struct n} : out :=
    match n with
    | NNull => ORet VNull env h
    | NBool b => ORet (VBool b) env h
    | NNumber d => ORet (VNum d) env h
    | NString s => ORet (VStr s) env h
    | NPointer => lift env h (op_pointer h loops 0)
    | NRoot => let (h1, v) := materialize h env in ORet v env h1
    | NArray l =>
        obind (eval_seq (eval al loops) l env h) (fun vs env h =>
        hlift env (let (h1, v) := new_arr h vs in (h1, Ok v)))
    | NObject l =>
        obind (eval_seq (fun kx env h =>
                 obind (eval al loops (fst kx) env h) (fun kv env h =>
                 obind (hlift env (to_str kv h)) (fun ks env h =>
                 obind (eval al loops (snd kx) env h) (fun v env h =>
                 ORet (ks, v) env h)))) l env h) (fun kvs env h =>
        hlift env (match build_object (rev kvs) [] with
                   | Ok m => let (h1, v) := new_obj h m in (h1, Ok v)
                   | Err e => (h, Err e)
                   end))
    | NAssign items output =>
        let (h, obj) := new_obj h [] in
        obind (eval_seq (fun kx env h =>
                 obind (eval al loops (fst kx) env h) (fun kv env h =>
                 obind (eval al loops (snd kx) env h) (fun v env h =>
                 match op_assign h env [obj] kv v with
                 | (h, Err e) => OErr e h
                 | (h, Ok env) => ORet tt env h
                 end))) items env h) (fun _ env h =>
        match output with
        | Some o => eval al loops o env h
        | None => ORet obj env h
        end)
    | NIdent v =>
        match bound_at al v with
        | Some d => lift env h (op_pointer h loops d)
        | None => lift env h (op_fetch_env h env v)
        end
    | NClosure body alias => eval (alias :: al) loops body env h
    | NParen x => eval al loops x env h
    | NMember a p =>
        match eval_static al n env h with
        | Some (h, v) => ORet v env h
        | None =>
            obind (eval al loops a env h) (fun av env h =>
            obind (eval al loops p env h) (fun pv env h =>
            lift env h (op_fetch h av pv)))
        end
    | NTemplate parts =>
        obind (eval_seq (fun x env h =>
                 obind (eval al loops x env h) (fun v env h =>
                 hlift env (to_str v h))) parts env h) (fun vs env h =>
        let (h1, v) := new_arr h vs in lift env h1 (op_join h1 v (VStr "")))
    | NSlice x from to =>
        obind (eval al loops x env h) (fun xv env h =>
        obind (match to with
               | Some t => eval al loops t env h
               | None => lift env h (do l <- op_len h xv; op_sub X l (VNum dec_one))
               end) (fun tv env h =>
        obind (match from with
               | Some f => eval al loops f env h
               | None => ORet (VNum dec_zero) env h
               end) (fun fv env h =>
        hlift env (op_slice h xv tv fv))))
    | NInterval l r lb rb =>
        obind (eval al loops l env h) (fun lv env h =>
        obind (eval al loops r env h) (fun rv env h =>
        lift env h (op_interval lb rb lv rv)))
    | NCond c t f =>
        obind (eval al loops c env h) (fun cv env h =>
        match cv with
        | VBool true => eval al loops t env h
        | VBool false => eval al loops f env h
        | _ => OErr (EOp "JumpIfFalse") h
        end)
    | NUnary x op =>
        obind (eval al loops x env h) (fun v env h =>
        match op with
        | OpArith AAdd => ORet v env h
        | OpArith ASub => lift env h (op_negate v)
        | OpLogic LNot => lift env h (op_not v)
        | _ => OErr (EOp "UnknownUnaryOperator") h
        end)
    | NBinary l op r =>
        obind (eval al loops l env h) (fun lv env h =>
        match op with
        | OpLogic LOr =>
            match lv with
            | VBool true => ORet lv env h
            | VBool false => eval al loops r env h
            | _ => OErr (EOp "JumpIfTrue") h
            end
        | OpLogic LAnd =>
            match lv with
            | VBool false => ORet lv env h
            | VBool true => eval al loops r env h
            | _ => OErr (EOp "JumpIfFalse") h
            end
        | OpLogic LNullish =>
            match lv with
            | VNull => eval al loops r env h
            | _ => ORet lv env h
            end
        | _ =>
            obind (eval al loops r env h) (fun rv env h =>
            lift env h (bin_value op h lv rv))
        end)
    | NCall k args =>
        match k with
        | FClosure c =>
            match args with
            | a0 :: a1 :: _ =>
                obind (eval al loops a0 env h) (fun v env h =>
                match op_begin h v with
                | (h, Err e) => OErr e h
                | (h, Ok lp) =>
                    match iterate c (fun lp => eval al (lp :: loops) a1) (lp_len lp) lp [] env h with
                    | LErr e h => OErr e h
                    | LBreak v env h => ORet v env h
                    | LDone lp acc env h => closure_value c lp acc env h
                    end
                end)
            | _ => OErr (EOp "ArgumentNotFound") h
            end
        | _ =>
            obind (eval_seq (eval al loops) args env h) (fun vs env h =>
            hlift env (op_call X k vs h))
        end
    | NMethod k this args =>
        obind (eval al loops this env h) (fun tv env h =>
        obind (eval_seq (eval al loops) args env h) (fun vs env h =>
        hlift env (op_method X k (tv :: vs) h)))
    | NError _ => OErr (EOp "UnexpectedErrorNode") h
    end.
End WithExt.

(** Evaluate a whole expression: no enclosing closure, the environment is the root scope. *)
Definition evaluate (X : ext) (n : node) (root : scope) (h : heap) : res value * heap :=
  match eval X root [] [] n root h with
  | ORet v _ h1 => (Ok v, h1)
  | OErr e h1 => (Err e, h1)
  end.
