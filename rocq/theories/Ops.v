(** Primitive operations of the virtual machine: what each opcode computes from its operands.
    Models the arms of core/expression/src/vm/vm.rs [VMInner::run] and vm/interval.rs. *)
From Coq Require Import String Ascii ZArith Lia Bool List Arith.
From Verif Require Import Base Dec Value Heap Ast.
Import ListNotations.
Local Open Scope nat_scope.

(** External operations, parameters of the model: rust_decimal's checked arithmetic (and the f64
    fallback of [^]), the function and method registries (arity and implementation). A function may
    allocate but receives the whole heap, so that what it does to existing cells is explicit. *)
Record ext := Ext {
  x_add : dec -> dec -> option dec;
  x_sub : dec -> dec -> option dec;
  x_mul : dec -> dec -> option dec;
  x_div : dec -> dec -> option dec;
  x_rem : dec -> dec -> option dec;
  x_pow : dec -> dec -> option dec;
  x_arity : fkind -> option (nat * nat);    (* required and maximal argument count *)
  x_marity : mkind -> option (nat * nat);   (* same for methods, receiver not counted *)
  x_call : fkind -> list value -> heap -> heap * res value;
  x_method : mkind -> list value -> heap -> heap * res value
}.

(** Bounded indexing: a [usize] index into a list / byte string. *)
Definition znth {A} (l : list A) (i : Z) : option A :=
  if (i <? Z.of_nat (length l))%Z then nth_error l (Z.to_nat i) else None.
(** [str.get(a..b)] for usize bounds. *)
Definition zstr_get (s : string) (a b : Z) : option string :=
  if (a <=? Z.of_nat (String.length s))%Z && (b <=? Z.of_nat (String.length s))%Z
  then str_get s (Z.to_nat a) (Z.to_nat b) else None.
(** [slice.get(a..=b)]. *)
Definition zsub {A} (l : list A) (a b : Z) : option (list A) :=
  if (a <=? b + 1)%Z && (b <? Z.of_nat (length l))%Z
  then Some (firstn (Z.to_nat (b + 1 - a)) (skipn (Z.to_nat a) l)) else None.

Definition or_null (o : option value) : value := match o with Some v => v | None => VNull end.

(** vm.rs:106-141 Opcode::Fetch. *)
Definition op_fetch (h : heap) (a b : value) : res value :=
  match a, b with
  | VObj l, VStr s => Ok (or_null (match hobj h l with Some m => aget s m | None => None end))
  | VArr l, VNum n =>
      do i <- of_option (dec_to_usize n) (EOp "Fetch");
      Ok (or_null (match harr h l with Some a => znth a i | None => None end))
  | VStr s, VNum n =>
      do i <- of_option (dec_to_usize n) (EOp "Fetch");
      Ok (match zstr_get s i (i + 1) with Some c => VStr c | None => VNull end)
  | _, _ => Ok VNull
  end.

(** vm.rs:156-179: one step of the FetchFast path. *)
Definition fast_step (root env : scope) (hv : heap * value) (p : target) : heap * value :=
  let (h, v) := hv in
  match p with
  | TgRoot => materialize h root
  | TgBegin => materialize h env
  | TgString k =>
      (h, match v with
          | VObj l => or_null (match hobj h l with Some m => aget k m | None => None end)
          | _ => VNull
          end)
  | TgNumber n =>
      (h, match v with
          | VArr l => or_null (match harr h l with Some a => znth a n | None => None end)
          | VStr s => match zstr_get s n (n + 1) with Some c => VStr c | None => VNull end
          | _ => VNull
          end)
  end.

(** vm.rs:142-182 Opcode::FetchFast. *)
Definition op_fetch_fast (root env : scope) (h : heap) (path : list target) : heap * value :=
  match path with
  | TgRoot :: r => fold_left (fast_step root env) r (materialize h root)
  | TgBegin :: TgString k :: r =>
      fold_left (fast_step root env) r (h, or_null (scope_get h env k))
  | TgBegin :: r => fold_left (fast_step root env) r (materialize h env)
  | _ :: r => fold_left (fast_step root env) r (h, VNull)
  | [] => (h, VNull)
  end.

(** vm.rs:183-201 Opcode::FetchEnv. *)
Definition op_fetch_env (h : heap) (env : scope) (f : string) : res value :=
  match local_str env f with
  | Some v => Ok v
  | None =>
      match sc_base env with
      | VObj l => Ok (or_null (match hobj h l with Some m => aget f m | None => None end))
      | VNull => Ok VNull
      | _ => Err (EOp "FetchEnv")
      end
  end.

(** vm.rs:205-230. *)
Definition op_negate (a : value) : res value :=
  match a with VNum n => Ok (VNum (dec_neg n)) | _ => Err (EOp "Negate") end.
Definition op_not (a : value) : res value :=
  match a with VBool b => Ok (VBool (negb b)) | _ => Err (EOp "Not") end.

(** vm.rs:231-257 Opcode::Equal: arrays and objects are never equal. *)
Definition op_equal (a b : value) : value :=
  VBool match a, b with
        | VNum x, VNum y => dec_eqb x y
        | VBool x, VBool y => Bool.eqb x y
        | VStr x, VStr y => String.eqb x y
        | VNull, VNull => true
        | VDyn (DDate x), VDyn (DDate y) => vmdate_eqb x y
        | _, _ => false
        end.

(** interval.rs:104-108: derived order, every number is below every date. *)
Definition idata_cmp (a b : idata) : comparison :=
  match a, b with
  | INum x, INum y => dec_cmp x y
  | INum _, IDate _ => Lt
  | IDate _, INum _ => Gt
  | IDate x, IDate y => vmdate_cmp x y
  end.
Definition cmp_lt (c : comparison) : bool := match c with Lt => true | _ => false end.
Definition cmp_le (c : comparison) : bool := match c with Gt => false | _ => true end.
Definition cmp_gt (c : comparison) : bool := match c with Gt => true | _ => false end.
Definition cmp_ge (c : comparison) : bool := match c with Lt => false | _ => true end.

(** interval.rs:60-91 VmInterval::includes. [None] = unsupported bracket. *)
Definition interval_includes (i : interval) (v : idata) : option bool :=
  let l := idata_cmp (iv_left i) v in
  let r := idata_cmp (iv_right i) v in
  match (match iv_lb i with
         | LParen => Some (false, cmp_lt l)
         | LSquare => Some (false, cmp_le l)
         | RParen => Some (true, cmp_gt l)
         | RSquare => Some (true, cmp_ge l)
         | _ => None
         end),
        (match iv_rb i with
         | RParen => Some (cmp_gt r)
         | RSquare => Some (cmp_ge r)
         | LParen => Some (cmp_lt r)
         | LSquare => Some (cmp_le r)
         | _ => None
         end) with
  | Some (is_open, first), Some second =>
      Some ((is_open && (first || second)) || (negb is_open && first && second))
  | _, _ => None
  end.

(** The inclusive range start..=end of integers. *)
Fixpoint zrange_from (start : Z) (n : nat) : list Z :=
  match n with O => [] | S k => start :: zrange_from (start + 1) k end.
Definition zrange (a b : Z) : list Z :=
  if (a <=? b)%Z then zrange_from a (Z.to_nat (b - a + 1)) else [].

(** interval.rs:34-58 VmInterval::to_array: numeric intervals with closed-style brackets only.
    Simplification: [to_i64() + 1] on i64::MAX (a panic in debug, a wrap in release) is not modelled. *)
Definition interval_to_array (i : interval) : option (list value) :=
  match iv_left i, iv_right i with
  | INum l, INum r =>
      match (match iv_lb i with
             | LParen => option_map (fun x => (x + 1)%Z) (dec_to_i64 l)
             | LSquare => dec_to_i64 l
             | _ => None
             end),
            (match iv_rb i with
             | RParen => option_map (fun x => (x - 1)%Z) (dec_to_i64 r)
             | RSquare => dec_to_i64 r
             | _ => None
             end) with
      | Some s, Some e => Some (map (fun z => VNum (dec_of_Z z)) (zrange s e))
      | _, _ => None
      end
  | _, _ => None
  end.

Definition arr_any (h : heap) (l : loc) (f : value -> bool) : bool :=
  match harr h l with Some a => existsb f a | None => false end.

(** vm.rs:324-429 Opcode::In. *)
Definition op_in (h : heap) (a b : value) : res value :=
  match a, b with
  | VNum x, VArr l =>
      Ok (VBool (arr_any h l (fun e => match e with VNum y => dec_eqb x y | _ => false end)))
  | VNum x, VDyn (DInterval i) =>
      do r <- of_option (interval_includes i (INum x)) (EOp "In"); Ok (VBool r)
  | VDyn (DDate d), VDyn (DInterval i) =>
      do r <- of_option (interval_includes i (IDate d)) (EOp "In"); Ok (VBool r)
  | VDyn (DDate d), VArr l =>
      Ok (VBool (arr_any h l (fun e => match e with
                                       | VDyn (DDate y) => vmdate_eqb d y
                                       | _ => false
                                       end)))
  | VStr s, VArr l =>
      Ok (VBool (arr_any h l (fun e => match e with VStr y => String.eqb s y | _ => false end)))
  | VStr s, VObj l =>
      Ok (VBool (match hobj h l with Some m => amem s m | None => false end))
  | VBool x, VArr l =>
      Ok (VBool (arr_any h l (fun e => match e with VBool y => Bool.eqb x y | _ => false end)))
  | VNull, VArr l =>
      Ok (VBool (arr_any h l (fun e => match e with VNull => true | _ => false end)))
  | _, _ => Err (EOp "In")
  end.

(** vm.rs:430-465 Opcode::Compare. *)
Definition cmp_holds (c : compare_op) (o : comparison) : bool :=
  match c with
  | CmpMore => cmp_gt o
  | CmpMoreEq => cmp_ge o
  | CmpLess => cmp_lt o
  | CmpLessEq => cmp_le o
  end.
Definition op_compare (c : compare_op) (a b : value) : res value :=
  match a, b with
  | VNum x, VNum y => Ok (VBool (cmp_holds c (dec_cmp x y)))
  | VDyn (DDate x), VDyn (DDate y) => Ok (VBool (cmp_holds c (vmdate_cmp x y)))
  | _, _ => Err (EOp "Compare")
  end.

(** vm.rs:596-641 Opcode::Interval. *)
Definition op_interval (lb rb : bracket) (a b : value) : res value :=
  match a, b with
  | VNum x, VNum y => Ok (VDyn (DInterval (Interval lb rb (INum x) (INum y))))
  | VDyn (DDate x), VDyn (DDate y) => Ok (VDyn (DInterval (Interval lb rb (IDate x) (IDate y))))
  | _, _ => Err (EOp "Interval")
  end.

(** vm.rs:642-680 Opcode::Join. The capacity computation ([parts.len() - 1], which underflows in debug
    builds on an empty array) is not modelled. *)
Fixpoint all_strs (l : list value) : option (list string) :=
  match l with
  | [] => Some []
  | VStr s :: r => option_map (cons s) (all_strs r)
  | _ => None
  end.
Fixpoint join_with (sep : string) (l : list string) : string :=
  match l with
  | [] => EmptyString
  | [x] => x
  | x :: r => (x ++ sep ++ join_with sep r)%string
  end.
Definition op_join (h : heap) (a b : value) : res value :=
  match a, b with
  | VArr l, VStr sep =>
      match harr h l with
      | Some arr => do ps <- of_option (all_strs arr) (EOp "Join"); Ok (VStr (join_with sep ps))
      | None => Err (EOp "Join")
      end
  | _, _ => Err (EOp "Join")
  end.

(** vm.rs:681-730 Opcode::Slice. *)
Definition op_slice (h : heap) (cur to_v from_v : value) : heap * res value :=
  match from_v, to_v with
  | VNum f, VNum t =>
      match dec_to_usize f, dec_to_usize t with
      | Some from, Some to =>
          match cur with
          | VArr l =>
              match match harr h l with Some a => zsub a from to | None => None end with
              | Some sl => let (h1, v) := new_arr h sl in (h1, Ok v)
              | None => (h, Err (EOp "Slice"))
              end
          | VStr s =>
              (h, match zstr_get s from (to + 1) with
                  | Some x => Ok (VStr x)
                  | None => Err (EOp "Slice")
                  end)
          | _ => (h, Err (EOp "Slice"))
          end
      | _, _ => (h, Err (EOp "Slice"))
      end
  | _, _ => (h, Err (EOp "Slice"))
  end.

(** internal.rs:792-806 [len], as called by vm.rs:842-857 Opcode::Len. *)
Definition op_len (h : heap) (a : value) : res value :=
  match a with
  | VStr s => Ok (VNum (dec_of_nat (String.length s)))
  | VArr l => match harr h l with
              | Some a => Ok (VNum (dec_of_nat (length a)))
              | None => Err (EOp "Len")
              end
  | _ => Err (EOp "Len")
  end.

(** vm.rs:858-879 Opcode::Flatten: one level. *)
Definition flatten1 (h : heap) (a : list value) : list value :=
  flat_map (fun v => match v with
                     | VArr l => match harr h l with Some b => b | None => [] end
                     | _ => [v]
                     end) a.
Definition op_flatten (h : heap) (a : value) : heap * res value :=
  match a with
  | VArr l => match harr h l with
              | Some arr => let (h1, v) := new_arr h (flatten1 h arr) in (h1, Ok v)
              | None => (h, Err (EOp "Flatten"))
              end
  | _ => (h, Err (EOp "Flatten"))
  end.

(** vm.rs:767-778: insert the popped pairs, last pair first. *)
Fixpoint build_object (popped : list (value * value)) (m : amap value) : res (amap value) :=
  match popped with
  | [] => Ok m
  | (VStr k, v) :: r => build_object r (aset k v m)
  | _ => Err (EOp "Object")
  end.

(** vm.rs:785-826 Opcode::AssignedObjectStep, after popping [value] and [key]. *)
Definition op_assign (h : heap) (env : scope) (assigned : list value) (key value : value)
  : heap * res scope :=
  match key with
  | VStr k =>
      match assigned with
      | [] => (h, Err (EOp "AssignedObjectStep"))
      | obj :: _ =>
          match sc_base env with
          | VObj _ =>
              if contains_char dot_char k then
                let (h1, m) := materialize h env in
                match dot_insert_detached h1 m k value with
                | (h2, Some ne) => (fst (dot_insert h2 obj k value), Ok (scope_new ne))
                | (h2, None) => (h2, Err (EOp "AssignedObjectStep"))
                end
              else
                (fst (dot_insert h obj k value), Ok (set_local env k value))
          | _ => (h, Err (EOp "AssignedObjectStep"))
          end
      end
  | _ => (h, Err (EOp "AssignedObjectStep"))
  end.

(** vm.rs:19-24 LoopScope and vm.rs:947-978 Opcode::Begin. *)
Record loop := Loop { lp_array : value; lp_len : nat; lp_iter : nat; lp_count : nat }.

Definition op_begin (h : heap) (v : value) : heap * res loop :=
  match v with
  | VArr l => match harr h l with
              | Some a => (h, Ok (Loop v (length a) 0 0))
              | None => (h, Err (EOp "Begin"))
              end
  | VDyn (DInterval i) =>
      match interval_to_array i with
      | Some arr => let (h1, av) := new_arr h arr in (h1, Ok (Loop av (length arr) 0 0))
      | None => (h, Err (EOp "Begin"))
      end
  | _ => (h, Err (EOp "Begin"))
  end.

(** vm.rs:912-946 Opcode::Pointer; [loops] innermost first. *)
Definition op_pointer (h : heap) (loops : list loop) (depth : nat) : res value :=
  match nth_error loops depth with
  | None => Err (EOp "Pointer")
  | Some lp =>
      match lp_array lp with
      | VArr l =>
          match harr h l with
          | Some a => of_option (nth_error a (lp_iter lp)) (EOp "Pointer")
          | None => Err (EOp "Pointer")
          end
      | _ => Err (EOp "Pointer")
      end
  end.

Section WithExt.
  Variable X : ext.

  (** vm.rs:466-493 Opcode::Add: numbers (checked) or string concatenation. *)
  Definition op_add (a b : value) : res value :=
    match a, b with
    | VNum x, VNum y => do r <- of_option (x_add X x y) (EOp "Add"); Ok (VNum r)
    | VStr x, VStr y => Ok (VStr (x ++ y)%string)
    | _, _ => Err (EOp "Add")
    end.
  (** vm.rs:494-533. *)
  Definition op_sub (a b : value) : res value :=
    match a, b with
    | VNum x, VNum y => do r <- of_option (x_sub X x y) (EOp "Subtract"); Ok (VNum r)
    | _, _ => Err (EOp "Subtract")
    end.
  Definition op_mul (a b : value) : res value :=
    match a, b with
    | VNum x, VNum y => do r <- of_option (x_mul X x y) (EOp "Multiply"); Ok (VNum r)
    | _, _ => Err (EOp "Multiply")
    end.
  (** vm.rs:534-571: division and remainder give null where undefined. *)
  Definition op_div (a b : value) : res value :=
    match a, b with
    | VNum x, VNum y => Ok (match x_div X x y with Some r => VNum r | None => VNull end)
    | _, _ => Err (EOp "Divide")
    end.
  Definition op_mod (a b : value) : res value :=
    match a, b with
    | VNum x, VNum y => Ok (match x_rem X x y with Some r => VNum r | None => VNull end)
    | _, _ => Err (EOp "Modulo")
    end.
  (** vm.rs:572-595. *)
  Definition op_pow (a b : value) : res value :=
    match a, b with
    | VNum x, VNum y => do r <- of_option (x_pow X x y) (EOp "Exponent"); Ok (VNum r)
    | _, _ => Err (EOp "Exponent")
    end.
  (** vm.rs:982-1016: errors of functions and methods are wrapped as opcode errors; a panic is not. *)
  Definition op_call (k : fkind) (args : list value) (h : heap) : heap * res value :=
    match x_arity X k with
    | None => (h, Err (EOp "CallFunction"))
    | Some _ => match x_call X k args h with
                | (h1, Ok v) => (h1, Ok v)
                | (h1, Err (EPanic w)) => (h1, Err (EPanic w))
                | (h1, Err _) => (h1, Err (EOp "CallFunction"))
                end
    end.
  Definition op_method (k : mkind) (args : list value) (h : heap) : heap * res value :=
    match x_marity X k with
    | None => (h, Err (EOp "CallMethod"))
    | Some _ => match x_method X k args h with
                | (h1, Ok v) => (h1, Ok v)
                | (h1, Err (EPanic w)) => (h1, Err (EPanic w))
                | (h1, Err _) => (h1, Err (EOp "CallMethod"))
                end
    end.
End WithExt.
