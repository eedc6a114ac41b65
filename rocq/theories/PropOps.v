(** C51: what the operators of the expression language compute. *)
From Coq Require Import String Ascii ZArith Lia Bool List Arith QArith.
From Verif Require Import Base Dec Value Heap Ast Ops Compiler Vm Eval ExprFacts Funcs Samples HeapSpec PureFacts RunSpec OpFacts.
Import ListNotations.
Local Open Scope string_scope.
Local Open Scope nat_scope.

(** [<], [<=], [>], [>=], [==], [!=] on numbers compare the numbers denoted, whatever their representation. *)
Theorem C51_compare_numbers : forall X na nb root h h2 x y c, operands X na nb root h (VNum x) (VNum y) h2 ->
  In c [CLt; CLe; CGt; CGe; CEq; CNe] ->
  exists b, yields X (NBinary na (OpCmp c) nb) root h (Ok (VBool b)) h2 /\ (b = true <-> num_holds c x y).
Proof. exact compare_numbers. Qed.
Print Assumptions C51_compare_numbers.
(** Two literal operands. *)
Lemma literals : forall a b x y, a = NNumber x -> b = NNumber y ->
  operands demo a b s_root s_heap (VNum x) (VNum y) s_heap.
Proof.
  intros a b x y -> ->. split; [reflexivity|split; [reflexivity|]]. exists s_heap.
  split; apply yields_iff; (split; [eexists; reflexivity|reflexivity]).
Qed.
Example C51_compare_numbers_case :
  operands demo (NNumber (Dec 150 2)) (nnum 2) s_root s_heap (VNum (Dec 150 2)) (num 2) s_heap /\
  num_holds CLt (Dec 150 2) (dec_of_Z 2) /\ num_holds CEq (Dec 150 2) (Dec 15 1).
Proof. split; [now apply literals|]. split; reflexivity. Qed.

(** On dates they compare instants. *)
Theorem C51_compare_dates : forall X na nb root h h2 x y c,
  operands X na nb root h (VDyn (DDate x)) (VDyn (DDate y)) h2 ->
  In c [CLt; CLe; CGt; CGe; CEq; CNe] ->
  exists b, yields X (NBinary na (OpCmp c) nb) root h (Ok (VBool b)) h2 /\ (b = true <-> date_holds c x y).
Proof. exact compare_dates. Qed.
Print Assumptions C51_compare_dates.
Definition d_heap : heap := [CObj [("a", VDyn (DDate (VmDate (Some 5%Z) "UTC"))); ("b", VDyn (DDate (VmDate (Some 7%Z) "UTC")))]].
Example C51_compare_dates_case : exists x y,
  operands demo (NIdent "a") (NIdent "b") (scope_new (VObj 0)) d_heap (VDyn (DDate x)) (VDyn (DDate y)) d_heap /\
  date_holds CLt x y.
Proof.
  do 2 eexists. split; [split; [reflexivity|split; [reflexivity|]]; exists d_heap; split; apply yields_iff;
    (split; [eexists; reflexivity|reflexivity])|reflexivity].
Qed.

(** Ordering anything else, in particular two strings, is an error. *)
Theorem C51_compare_others : forall X na nb root h h2 a b c, operands X na nb root h a b h2 -> ordered_cmp c ->
  ~ both_nums a b -> ~ both_dates a b ->
  yields X (NBinary na (OpCmp c) nb) root h (Err (EOp "Compare")) h2.
Proof. exact compare_others. Qed.
Print Assumptions C51_compare_others.
Example C51_compare_others_case :
  operands demo (NIdent "name") (NIdent "age") s_root s_heap (VStr "Ann") (num 20) s_heap /\ ~ both_nums (VStr "Ann") (num 20).
Proof.
  split; [|intros (x & y & A & _); discriminate]. split; [reflexivity|split; [reflexivity|]].
  exists s_heap; split; apply yields_iff; (split; [eexists; reflexivity|reflexivity]).
Qed.

(** [==] never fails: it holds exactly for scalars of the same kind and value; [!=] is its complement. *)
Theorem C51_equality : forall X na nb root h h2 a b, operands X na nb root h a b h2 ->
  exists r, yields X (NBinary na (OpCmp CEq) nb) root h (Ok (VBool r)) h2 /\
    yields X (NBinary na (OpCmp CNe) nb) root h (Ok (VBool (negb r))) h2 /\ (r = true <-> scalar_eq a b).
Proof. exact equal_scalars. Qed.
Print Assumptions C51_equality.
Example C51_equality_case : scalar_eq (VNum (Dec 100 2)) (num 1) /\ ~ scalar_eq (VStr "1") (num 1).
Proof. split; [reflexivity|intros []]. Qed.

(** It is not content equality: an object is not even equal to itself. *)
Theorem C51_equality_is_content_refuted : exists n root h h1 v t, no_assign n = true /\
  yields demo n root h (Ok v) h1 /\ repr h1 v t /\
  yields demo (NBinary n (OpCmp CEq) n) root h (Ok (VBool false)) h1.
Proof. exact self_unequal. Qed.
Print Assumptions C51_equality_is_content_refuted.

(** [x in array]: some element equals [x]; [not in] is the complement. *)
Theorem C51_in_array : forall X na nb root h h2 a l xs, operands X na nb root h a (VArr l) h2 ->
  hget h2 l = Some (CArr xs) -> scalar a ->
  exists r, yields X (NBinary na (OpCmp CIn) nb) root h (Ok (VBool r)) h2 /\
    yields X (NBinary na (OpCmp CNotIn) nb) root h (Ok (VBool (negb r))) h2 /\
    (r = true <-> exists x, In x xs /\ scalar_eq a x).
Proof. exact in_array. Qed.
Print Assumptions C51_in_array.
Example C51_in_array_case : operands demo (nnum 2) (NIdent "items") s_root s_heap (num 2) (VArr 0) s_heap /\
  hget s_heap 0 = Some (CArr [num 1; num 2; num 3]) /\ scalar (num 2).
Proof.
  split; [|split; [reflexivity|exact I]]. split; [reflexivity|split; [reflexivity|]].
  exists s_heap; split; apply yields_iff; (split; [eexists; reflexivity|reflexivity]).
Qed.
(** [x in object]: the object has that key. *)
Theorem C51_in_object : forall X na nb root h h2 k l m, operands X na nb root h (VStr k) (VObj l) h2 ->
  hget h2 l = Some (CObj m) ->
  exists r, yields X (NBinary na (OpCmp CIn) nb) root h (Ok (VBool r)) h2 /\ (r = true <-> In k (map fst m)).
Proof. exact in_object. Qed.
Print Assumptions C51_in_object.
Example C51_in_object_case : operands demo (NString "x") (NIdent "nested") s_root s_heap (VStr "x") (VObj 1) s_heap /\
  hget s_heap 1 = Some (CObj [("x", num 1)]).
Proof.
  split; [|reflexivity]. split; [reflexivity|split; [reflexivity|]].
  exists s_heap; split; apply yields_iff; (split; [eexists; reflexivity|reflexivity]).
Qed.

(** [+ - * /]: whenever the decimal library computes the operation exactly on the two operands, the value
    of the expression is the sum, difference, product, quotient of the two numbers in that order. *)
Theorem C51_arithmetic : forall L na nb root h h2 x y o r, operands (std_ext L) na nb root h (VNum x) (VNum y) h2 ->
  In o [AAdd; ASub; AMul; ADiv] ->
  (let f := match o with AAdd => l_add L | ASub => l_sub L | AMul => l_mul L | _ => l_div L end in
   exists s, f x y = Some s /\ exact_result o (dec_val x) (dec_val y) = Some r /\ (dec_val s == r)%Q) ->
  exists s, yields (std_ext L) (NBinary na (OpArith o) nb) root h (Ok (VNum s)) h2 /\ (dec_val s == r)%Q.
Proof. exact arith_exact. Qed.
Print Assumptions C51_arithmetic.
Example C51_arithmetic_case : exists s, l_sub demo_lib (Dec 15 1) (dec_of_Z 4) = Some s /\ (dec_val s == (-5 # 2))%Q.
Proof. eexists. split; [reflexivity|]. reflexivity. Qed.
(** Where the library gives no result, [/] and [%] give null and the others an error. *)
Theorem C51_arithmetic_undefined : forall X na nb root h h2 x y o, operands X na nb root h (VNum x) (VNum y) h2 ->
  arith_of X o x y = None ->
  yields X (NBinary na (OpArith o) nb) root h
    (match o with ADiv | AMod => Ok VNull
     | AAdd => Err (EOp "Add") | ASub => Err (EOp "Subtract") | AMul => Err (EOp "Multiply") | APow => Err (EOp "Exponent") end) h2.
Proof. exact arith_undefined. Qed.
Print Assumptions C51_arithmetic_undefined.
Example C51_arithmetic_undefined_case : arith_of demo ADiv (dec_of_Z 4) dec_zero = None.
Proof. reflexivity. Qed.
(** Arithmetic on operands that are not two numbers is an error, [+] on two strings excepted. *)
Theorem C51_arithmetic_type_error : forall X na nb root h h2 a b o, operands X na nb root h a b h2 -> ~ both_nums a b ->
  (o = AAdd -> ~ both_strs a b) -> exists w, yields X (NBinary na (OpArith o) nb) root h (Err (EOp w)) h2.
Proof. exact arith_type_error. Qed.
Print Assumptions C51_arithmetic_type_error.
Theorem C51_concat : forall X na nb root h h2 x y, operands X na nb root h (VStr x) (VStr y) h2 ->
  yields X (NBinary na (OpArith AAdd) nb) root h (Ok (VStr (x ++ y))) h2.
Proof. exact concat_strings. Qed.
Print Assumptions C51_concat.
Example C51_concat_case :
  operands demo (NIdent "name") (NString "!") s_root s_heap (VStr "Ann") (VStr "!") s_heap.
Proof.
  split; [reflexivity|split; [reflexivity|]].
  exists s_heap; split; apply yields_iff; (split; [eexists; reflexivity|reflexivity]).
Qed.
(** Unary minus. *)
Theorem C51_negate : forall X na root h h1 x, no_assign na = true -> yields X na root h (Ok (VNum x)) h1 ->
  exists s, yields X (NUnary na (OpArith ASub)) root h (Ok (VNum s)) h1 /\ (dec_val s == - dec_val x)%Q.
Proof. exact negate_value. Qed.
Print Assumptions C51_negate.
Example C51_negate_case : yields demo (NIdent "age") s_root s_heap (Ok (num 20)) s_heap.
Proof. apply yields_iff; (split; [eexists; reflexivity|reflexivity]). Qed.

(** Boolean connectives. *)
Theorem C51_and_or : forall X na nb root h h2 p q, operands X na nb root h (VBool p) (VBool q) h2 ->
  (exists h', yields X (NBinary na (OpLogic LAnd) nb) root h (Ok (VBool (p && q))) h') /\
  (exists h', yields X (NBinary na (OpLogic LOr) nb) root h (Ok (VBool (p || q))) h').
Proof. exact logic_table. Qed.
Print Assumptions C51_and_or.
Example C51_and_or_case : operands demo (NBool true) (NBool false) s_root s_heap (VBool true) (VBool false) s_heap.
Proof.
  split; [reflexivity|split; [reflexivity|]].
  exists s_heap; split; apply yields_iff; (split; [eexists; reflexivity|reflexivity]).
Qed.
Theorem C51_not : forall X na root h h1 a, no_assign na = true -> yields X na root h (Ok a) h1 ->
  yields X (NUnary na (OpLogic LNot)) root h
    (match a with VBool b => Ok (VBool (negb b)) | _ => Err (EOp "Not") end) h1.
Proof. exact not_value. Qed.
Print Assumptions C51_not.
(** [a ?? b] and [c ? a : b]. *)
Theorem C51_nullish : forall X na nb root h h2 a b, operands X na nb root h a b h2 ->
  exists h', yields X (NBinary na (OpLogic LNullish) nb) root h (Ok (match a with VNull => b | _ => a end)) h'.
Proof. exact nullish_value. Qed.
Print Assumptions C51_nullish.
Theorem C51_conditional : forall X na nb nc root h h1 p v h2,
  no_assign na = true -> no_assign nb = true -> no_assign nc = true -> compiles X nb -> compiles X nc ->
  yields X na root h (Ok (VBool p)) h1 -> yields X (if p then nb else nc) root h1 (Ok v) h2 ->
  yields X (NCond na nb nc) root h (Ok v) h2.
Proof. exact cond_value. Qed.
Print Assumptions C51_conditional.
Example C51_conditional_case : result_of (NCond (NBinary (NIdent "age") (OpCmp CGe) (nnum 18)) (NString "adult") (NString "minor"))
  = Some (Ok (VStr "adult")).
Proof. vm_compute. reflexivity. Qed.
