(** C21-C25: intervals, slices, closure functions and aggregates. [yields X n root h r h1] (RunSpec.v):
    [n] compiles and running the code in memory [h] with context [root] ends with [r] and memory [h1]. *)
From Coq Require Import String Ascii ZArith QArith Lia Bool List Arith Permutation Sorting.
From Verif Require Import Base Dec Value Heap Ast Ops Compiler Vm Eval Funcs HeapSpec PureFacts RunSpec FuncSpec
  IntervalFacts LoopFacts AggFacts FuncClaims Samples.
Import ListNotations.
Local Open Scope nat_scope.

(** C21. [x in a..b] between an opening and a closing bracket, in every combination of ( [ ) ]. *)
Theorem C21_interval_membership : forall X nx na nb root h h1 h2 h3 x a b lb rb,
  no_assign nx = true -> no_assign na = true -> no_assign nb = true ->
  yields X nx root h (Ok (VNum x)) h1 -> yields X na root h1 (Ok (VNum a)) h2 ->
  yields X nb root h2 (Ok (VNum b)) h3 -> opening lb -> closing rb ->
  exists r, yields X (NBinary nx (OpCmp CIn) (NInterval na nb lb rb)) root h (Ok (VBool r)) h3 /\
    yields X (NBinary nx (OpCmp CNotIn) (NInterval na nb lb rb)) root h (Ok (VBool (negb r))) h3 /\
    (r = true <-> above lb (dec_val a) (dec_val x) /\ below rb (dec_val b) (dec_val x)).
Proof. exact in_inside. Qed.
Print Assumptions C21_interval_membership.
(** Reversed brackets: the outside of the interval. *)
Theorem C21_reversed_interval_membership : forall X nx na nb root h h1 h2 h3 x a b lb rb,
  no_assign nx = true -> no_assign na = true -> no_assign nb = true ->
  yields X nx root h (Ok (VNum x)) h1 -> yields X na root h1 (Ok (VNum a)) h2 ->
  yields X nb root h2 (Ok (VNum b)) h3 -> closing lb -> opening rb ->
  exists r, yields X (NBinary nx (OpCmp CIn) (NInterval na nb lb rb)) root h (Ok (VBool r)) h3 /\
    yields X (NBinary nx (OpCmp CNotIn) (NInterval na nb lb rb)) root h (Ok (VBool (negb r))) h3 /\
    (r = true <-> left_of lb (dec_val a) (dec_val x) \/ right_of rb (dec_val b) (dec_val x)).
Proof. exact in_outside. Qed.
Print Assumptions C21_reversed_interval_membership.
(** With two opening brackets, as in [[1..5[], 3 is outside and 7 inside. *)
Theorem C21_half_open_notation_refuted : forall X root h, exists a b,
  (forall x, (dec_val x == 3)%Q -> yields X (NBinary (NNumber x) (OpCmp CIn) (NInterval a b LSquare LSquare)) root h (Ok (VBool false)) h) /\
  (forall x, (dec_val x == 7)%Q -> yields X (NBinary (NNumber x) (OpCmp CIn) (NInterval a b LSquare LSquare)) root h (Ok (VBool true)) h) /\
  yields X a root h (Ok (VNum (dec_of_Z 1))) h /\ yields X b root h (Ok (VNum (dec_of_Z 5))) h.
Proof. exact half_open_wrong. Qed.
Print Assumptions C21_half_open_notation_refuted.

Example C21_case :
  yields demo (NBinary (NIdent "age") (OpCmp CIn) (NInterval (nnum 18) (nnum 20) LParen RSquare)) s_root s_heap
    (Ok (VBool true)) s_heap /\
  yields demo (NIdent "age") s_root s_heap (Ok (num 20)) s_heap.
Proof. exact in_case. Qed.

(** C22. Iterating an interval with integer ends visits, in increasing order and once each, exactly the
    integers that [in] accepts. *)
Theorem C22_interval_iteration : forall X na nb lb rb root h h1 h2 a b za zb,
  no_assign na = true -> no_assign nb = true ->
  yields X na root h (Ok (VNum a)) h1 -> yields X nb root h1 (Ok (VNum b)) h2 ->
  (dec_val a == inject_Z za)%Q -> (dec_val b == inject_Z zb)%Q ->
  (- 2 ^ 63 <= za < 2 ^ 63)%Z -> (- 2 ^ 63 <= zb < 2 ^ 63)%Z -> opening lb -> closing rb ->
  exists h3 l zs,
    yields X (closure_call ClMap (NInterval na nb lb rb) (NClosure NPointer None)) root h (Ok (VArr l)) h3 /\
    hget h3 l = Some (CArr (map (fun z => VNum (dec_of_Z z)) zs)) /\
    StronglySorted Z.lt zs /\
    (forall z, In z zs <-> above lb (inject_Z za) (inject_Z z) /\ below rb (inject_Z zb) (inject_Z z)).
Proof. exact interval_visits. Qed.
Print Assumptions C22_interval_iteration.
(** With fractional ends a number outside the interval is visited: [map([0.5..2], #)] starts with 0. *)
Theorem C22_fractional_ends_refuted : exists na nb a root h h1 l r,
  yields demo na root h (Ok (VNum a)) h /\ (dec_val a == 1 # 2)%Q /\
  yields demo (closure_call ClMap (NInterval na nb LSquare RSquare) (NClosure NPointer None)) root h (Ok (VArr l)) h1 /\
  hget h1 l = Some (CArr (VNum (dec_of_Z 0) :: r)).
Proof. exact fractional_visits. Qed.
Print Assumptions C22_fractional_ends_refuted.

Example C22_case :
  match run_expr (closure_call ClMap (NInterval (nnum 1) (nnum 4) LParen RSquare) (NClosure NPointer None)) with
  | Some (Ok (VArr l), h1) => hget h1 l
  | _ => None
  end = Some (CArr [num 2; num 3; num 4]).
Proof. vm_compute. reflexivity. Qed.

(** C23. [s[a:b]] on text: inclusive ends, in bytes; any other pair of ends is an error. *)
Theorem C23_text_slice : forall X ns na nb root h h1 h2 h3 s a b da db,
  no_assign ns = true -> no_assign na = true -> no_assign nb = true ->
  yields X ns root h (Ok (VStr s)) h1 -> yields X nb root h1 (Ok (VNum db)) h2 ->
  yields X na root h2 (Ok (VNum da)) h3 -> u64_of da a -> u64_of db b ->
  (sliceable s a b -> exists r, is_slice s a b r /\
     yields X (NSlice ns (Some na) (Some nb)) root h (Ok (VStr r)) h3) /\
  (~ sliceable s a b -> exists e, yields X (NSlice ns (Some na) (Some nb)) root h (Err e) h3).
Proof. exact text_slice. Qed.
Print Assumptions C23_text_slice.
Theorem C23_array_slice : forall X ns na nb root h h1 h2 h3 l xs a b da db,
  no_assign ns = true -> no_assign na = true -> no_assign nb = true ->
  yields X ns root h (Ok (VArr l)) h1 -> yields X nb root h1 (Ok (VNum db)) h2 ->
  yields X na root h2 (Ok (VNum da)) h3 -> u64_of da a -> u64_of db b -> hget h3 l = Some (CArr xs) ->
  (a <= b + 1 /\ b < length xs -> exists l4,
     yields X (NSlice ns (Some na) (Some nb)) root h (Ok (VArr l4)) (h3 ++ [CArr (firstn (b + 1 - a) (skipn a xs))]) /\
     l4 = length h3) /\
  (~ (a <= b + 1 /\ b < length xs) -> exists e, yields X (NSlice ns (Some na) (Some nb)) root h (Err e) h3).
Proof. exact slice_array. Qed.
Print Assumptions C23_array_slice.
(** Omitted ends: the lower is 0, the upper [len - 1]. *)
Theorem C23_default_lower_end : forall X ns nb root h r h1, no_assign ns = true -> no_assign nb = true ->
  (yields X (NSlice ns None (Some nb)) root h r h1 <->
   yields X (NSlice ns (Some (NNumber dec_zero)) (Some nb)) root h r h1).
Proof. exact slice_from_default. Qed.
Print Assumptions C23_default_lower_end.
Theorem C23_default_upper_end : forall X ns na root h h1 s r h2 d, no_assign ns = true ->
  yields X ns root h (Ok (VStr s)) h1 -> x_sub X (dec_of_nat (String.length s)) dec_one = Some d ->
  (yields X (NSlice ns (Some na) None) root h r h2 <->
   yields X (NSlice ns (Some na) (Some (NNumber d))) root h r h2).
Proof. exact slice_to_default. Qed.
Print Assumptions C23_default_upper_end.

Example C23_case :
  run_expr (NSlice (NString "hello") (Some (nnum 1)) (Some (nnum 3))) = Some (Ok (VStr "ell"), s_heap) /\
  sliceable "hello" 1 3 /\ u64_of (dec_of_Z 1) 1 /\ u64_of (dec_of_Z 3) 3.
Proof. exact slice_case. Qed.

(** C24. Closure functions against list functions of the per-element results [gs] (booleans) or [ts]
    (values). [per_element X root body arr n h k P]: evaluated with [#] the i-th element of [arr], for
    each i < k and in any later memory, the body gives a value satisfying [P i]. *)
Theorem C24_all : forall X na body root h h1 l xs gs, no_assign na = true ->
  yields X na root h (Ok (VArr l)) h1 -> hget h1 l = Some (CArr xs) -> length gs = length xs ->
  compiles X (closure_call ClAll na body) ->
  per_element X root body (VArr l) (length xs) h1 (gives_bool gs) (length xs) ->
  exists h2, yields X (closure_call ClAll na body) root h (Ok (VBool (forallb (fun b => b) gs))) h2 /\ hext h1 h2.
Proof. exact all_call. Qed.
Print Assumptions C24_all.
Theorem C24_some : forall X na body root h h1 l xs gs, no_assign na = true ->
  yields X na root h (Ok (VArr l)) h1 -> hget h1 l = Some (CArr xs) -> length gs = length xs ->
  compiles X (closure_call ClSome na body) ->
  per_element X root body (VArr l) (length xs) h1 (gives_bool gs) (length xs) ->
  exists h2, yields X (closure_call ClSome na body) root h (Ok (VBool (existsb (fun b => b) gs))) h2 /\ hext h1 h2.
Proof. exact some_call. Qed.
Print Assumptions C24_some.
Theorem C24_none : forall X na body root h h1 l xs gs, no_assign na = true ->
  yields X na root h (Ok (VArr l)) h1 -> hget h1 l = Some (CArr xs) -> length gs = length xs ->
  compiles X (closure_call ClNone na body) ->
  per_element X root body (VArr l) (length xs) h1 (gives_bool gs) (length xs) ->
  exists h2, yields X (closure_call ClNone na body) root h (Ok (VBool (negb (existsb (fun b => b) gs)))) h2 /\ hext h1 h2.
Proof. exact none_call. Qed.
Print Assumptions C24_none.
Theorem C24_count : forall X na body root h h1 l xs gs, no_assign na = true ->
  yields X na root h (Ok (VArr l)) h1 -> hget h1 l = Some (CArr xs) -> length gs = length xs ->
  compiles X (closure_call ClCount na body) ->
  per_element X root body (VArr l) (length xs) h1 (gives_bool gs) (length xs) ->
  exists h2, yields X (closure_call ClCount na body) root h
    (Ok (VNum (dec_of_nat (length (filter (fun b => b) gs))))) h2 /\ hext h1 h2.
Proof. exact count_call. Qed.
Print Assumptions C24_count.
Theorem C24_one : forall X na body root h h1 l xs gs, no_assign na = true ->
  yields X na root h (Ok (VArr l)) h1 -> hget h1 l = Some (CArr xs) -> length gs = length xs ->
  compiles X (closure_call ClOne na body) ->
  per_element X root body (VArr l) (length xs) h1 (gives_bool gs) (length xs) ->
  exists h2, yields X (closure_call ClOne na body) root h
    (Ok (VBool (length (filter (fun b => b) gs) =? 1))) h2 /\ hext h1 h2.
Proof. exact one_call. Qed.
Print Assumptions C24_one.
Theorem C24_filter : forall X na body root h h1 l xs gs, no_assign na = true ->
  yields X na root h (Ok (VArr l)) h1 -> hget h1 l = Some (CArr xs) -> length gs = length xs ->
  compiles X (closure_call ClFilter na body) ->
  per_element X root body (VArr l) (length xs) h1 (gives_bool gs) (length xs) ->
  exists h2 l2, yields X (closure_call ClFilter na body) root h (Ok (VArr l2)) h2 /\ hext h1 h2 /\
    hget h2 l2 = Some (CArr (kept xs gs)).
Proof. exact filter_call. Qed.
Print Assumptions C24_filter.
Theorem C24_map : forall X na body root h h1 l xs ts, no_assign na = true ->
  yields X na root h (Ok (VArr l)) h1 -> hget h1 l = Some (CArr xs) -> length ts = length xs ->
  compiles X (closure_call ClMap na body) ->
  per_element X root body (VArr l) (length xs) h1 (gives_tree ts) (length xs) ->
  exists h2 l2, yields X (closure_call ClMap na body) root h (Ok (VArr l2)) h2 /\ hext h1 h2 /\
    repr h2 (VArr l2) (TArr ts).
Proof. exact map_call. Qed.
Print Assumptions C24_map.
Theorem C24_flat_map : forall X na body root h h1 l xs ts, no_assign na = true ->
  yields X na root h (Ok (VArr l)) h1 -> hget h1 l = Some (CArr xs) -> length ts = length xs ->
  compiles X (closure_call ClFlatMap na body) ->
  per_element X root body (VArr l) (length xs) h1 (gives_tree ts) (length xs) ->
  exists h2 l2, yields X (closure_call ClFlatMap na body) root h (Ok (VArr l2)) h2 /\ hext h1 h2 /\
    repr h2 (VArr l2) (TArr (spliced ts)).
Proof. exact flat_map_call. Qed.
Print Assumptions C24_flat_map.

(** Early stop: nothing is required of the body after the first deciding element [k]. *)
Theorem C24_early_stop : forall X na body root h h1 l xs gs k c stop, no_assign na = true ->
  yields X na root h (Ok (VArr l)) h1 -> hget h1 l = Some (CArr xs) ->
  In (c, stop) [(ClAll, false); (ClSome, true); (ClNone, true)] ->
  compiles X (closure_call c na body) ->
  per_element X root body (VArr l) (length xs) h1 (gives_bool gs) (S k) -> k < length xs ->
  nth_error gs k = Some stop -> (forall i, i < k -> nth_error gs i = Some (negb stop)) ->
  exists h2, yields X (closure_call c na body) root h
    (Ok (VBool (match c with ClSome => true | _ => false end))) h2 /\ hext h1 h2.
Proof. exact early_stop. Qed.
Print Assumptions C24_early_stop.
(** Left to right: an error at the first element after undecided ones is the error of the call. *)
Theorem C24_first_error : forall X na body root h h1 l xs gs e c, no_assign na = true ->
  yields X na root h (Ok (VArr l)) h1 -> hget h1 l = Some (CArr xs) ->
  In c [ClAll; ClSome; ClNone; ClOne; ClCount; ClFilter; ClMap; ClFlatMap] ->
  compiles X (closure_call c na body) ->
  (c = ClAll -> forall b, In b gs -> b = true) ->
  (c = ClSome \/ c = ClNone -> forall b, In b gs -> b = false) ->
  per_element X root body (VArr l) (length xs) h1 (gives_bool gs) (length gs) -> length gs < length xs ->
  (forall cnt h2, hext h1 h2 -> exists h3,
     eval X root [] [Loop (VArr l) (length xs) (length gs) cnt] body root h2 = OErr e h3) ->
  exists h2, yields X (closure_call c na body) root h (Err e) h2.
Proof. exact first_error. Qed.
Print Assumptions C24_first_error.

(** Dualities, for any body and any first argument. *)
Theorem C24_none_is_not_some : forall X na body root h b h1,
  yields X (closure_call ClSome na body) root h (Ok (VBool b)) h1 ->
  yields X (closure_call ClNone na body) root h (Ok (VBool (negb b))) h1.
Proof. exact none_is_not_some. Qed.
Print Assumptions C24_none_is_not_some.
Theorem C24_all_is_not_some_not : forall X na body alias root h b h1,
  yields X (closure_call ClSome na (NClosure (NUnary body (OpLogic LNot)) alias)) root h (Ok (VBool b)) h1 ->
  yields X (closure_call ClAll na (NClosure body alias)) root h (Ok (VBool (negb b))) h1.
Proof. exact all_is_not_some_not. Qed.
Print Assumptions C24_all_is_not_some_not.
Theorem C24_one_is_count_one : forall X na body root h v h1,
  yields X (closure_call ClCount na body) root h (Ok v) h1 ->
  exists k, v = VNum (dec_of_nat k) /\
    yields X (closure_call ClOne na body) root h (Ok (VBool (k =? 1))) h1.
Proof. exact one_is_count_one. Qed.
Print Assumptions C24_one_is_count_one.
Theorem C24_count_is_filter_length : forall X na body root h l xs h1,
  yields X (closure_call ClFilter na body) root h (Ok (VArr l)) h1 -> hget h1 l = Some (CArr xs) ->
  exists h2, yields X (closure_call ClCount na body) root h (Ok (VNum (dec_of_nat (length xs)))) h2 /\ hext h2 h1.
Proof. exact count_is_filter_length. Qed.
Print Assumptions C24_count_is_filter_length.

Example C24_case :
  run_expr s_filter = Some (Ok (VArr 3), (s_heap ++ [CArr [num 2; num 3]])%list) /\
  per_element demo s_root (NClosure (NBinary NPointer (OpCmp CGt) (nnum 1)) None) (VArr 0) 3 s_heap
    (gives_bool [false; true; true]) 3 /\
  kept [num 1; num 2; num 3] [false; true; true] = [num 2; num 3].
Proof. exact filter_case. Qed.
Example C24_map_case :
  per_element demo s_root (NClosure NPointer None) (VArr 0) 3 s_heap
    (gives_tree [TNum (dec_of_Z 1); TNum (dec_of_Z 2); TNum (dec_of_Z 3)]) 3.
Proof. exact map_case. Qed.

(** C25. Aggregates over an array of numbers [ns]. *)
Theorem C25_min : forall L na root h h1 l ns, no_assign na = true ->
  yields (std_ext L) na root h (Ok (VArr l)) h1 -> hget h1 l = Some (CArr (map VNum ns)) -> ns <> [] ->
  exists m, yields (std_ext L) (agg FMin na) root h (Ok (VNum m)) h1 /\ least ns m.
Proof. exact min_yields. Qed.
Print Assumptions C25_min.
Theorem C25_max : forall L na root h h1 l ns, no_assign na = true ->
  yields (std_ext L) na root h (Ok (VArr l)) h1 -> hget h1 l = Some (CArr (map VNum ns)) -> ns <> [] ->
  exists m, yields (std_ext L) (agg FMax na) root h (Ok (VNum m)) h1 /\ greatest ns m.
Proof. exact max_yields. Qed.
Print Assumptions C25_max.
Theorem C25_sum : forall L na root h h1 l ns, no_assign na = true ->
  yields (std_ext L) na root h (Ok (VArr l)) h1 -> hget h1 l = Some (CArr (map VNum ns)) ->
  exact_sums (l_add L) dec_zero ns ->
  exists s, yields (std_ext L) (agg FSum na) root h (Ok (VNum s)) h1 /\ (dec_val s == qsum (map dec_val ns))%Q.
Proof. exact sum_yields. Qed.
Print Assumptions C25_sum.
Theorem C25_sum_overflow : forall L na root h h1 l ns, no_assign na = true ->
  yields (std_ext L) na root h (Ok (VArr l)) h1 -> hget h1 l = Some (CArr (map VNum ns)) ->
  overflows (l_add L) dec_zero ns ->
  yields (std_ext L) (agg FSum na) root h (Err (EOp "CallFunction")) h1.
Proof. exact sum_overflow_yields. Qed.
Print Assumptions C25_sum_overflow.
Theorem C25_avg : forall L na root h h1 l ns, no_assign na = true ->
  yields (std_ext L) na root h (Ok (VArr l)) h1 -> hget h1 l = Some (CArr (map VNum ns)) -> ns <> [] ->
  exact_sums (l_add L) dec_zero ns ->
  (forall s, (dec_val s == qsum (map dec_val ns))%Q -> exists m, l_div L s (dec_of_nat (length ns)) = Some m /\ (dec_val m == dec_val s / inject_Z (Z.of_nat (length ns)))%Q) ->
  exists m, yields (std_ext L) (agg FAvg na) root h (Ok (VNum m)) h1 /\
    (dec_val m == qsum (map dec_val ns) / inject_Z (Z.of_nat (length ns)))%Q.
Proof. exact avg_yields. Qed.
Print Assumptions C25_avg.
Theorem C25_median : forall L na root h h1 l ns, no_assign na = true ->
  yields (std_ext L) na root h (Ok (VArr l)) h1 -> hget h1 l = Some (CArr (map VNum ns)) -> ns <> [] ->
  exact_means (l_add L) (l_div L) ns ->
  exists m, yields (std_ext L) (agg FMedian na) root h (Ok (VNum m)) h1 /\
    is_median ns (dec_val m) /\ within ns (dec_val m).
Proof. exact median_call. Qed.
Print Assumptions C25_median.
Theorem C25_mode : forall L na root h h1 l ns, no_assign na = true ->
  yields (std_ext L) na root h (Ok (VArr l)) h1 -> hget h1 l = Some (CArr (map VNum ns)) -> ns <> [] ->
  exists m, yields (std_ext L) (agg FMode na) root h (Ok (VNum m)) h1 /\ is_mode ns m.
Proof. exact mode_yields. Qed.
Print Assumptions C25_mode.
(** Two arrays with the same elements in a different order, from any two expressions. *)
Theorem C25_order_does_not_matter : forall L f na nb root h g h1 g1 l k ns ms a b,
  In f [FMin; FMax; FMode; FSum; FMedian] -> Permutation ns ms ->
  no_assign na = true -> yields (std_ext L) na root h (Ok (VArr l)) h1 -> hget h1 l = Some (CArr (map VNum ns)) ->
  no_assign nb = true -> yields (std_ext L) nb root g (Ok (VArr k)) g1 -> hget g1 k = Some (CArr (map VNum ms)) ->
  (f = FSum -> exact_sums (l_add L) dec_zero ns /\ exact_sums (l_add L) dec_zero ms) ->
  (f = FMedian -> exact_means (l_add L) (l_div L) ns) ->
  yields (std_ext L) (agg f na) root h (Ok (VNum a)) h1 ->
  yields (std_ext L) (agg f nb) root g (Ok (VNum b)) g1 -> (dec_val a == dec_val b)%Q.
Proof. exact order_does_not_matter. Qed.
Print Assumptions C25_order_does_not_matter.
(** Empty arrays: an error, except that [median] subtracts one from zero. *)
Theorem C25_empty : forall L na root h h1 l f, no_assign na = true ->
  yields (std_ext L) na root h (Ok (VArr l)) h1 -> hget h1 l = Some (CArr []) -> In f [FMin; FMax; FMode] ->
  yields (std_ext L) (agg f na) root h (Err (EOp "CallFunction")) h1.
Proof. exact empty_call. Qed.
Print Assumptions C25_empty.
Theorem C25_median_total_refuted : forall L, exists na root h h1 l w,
  yields (std_ext L) na root h (Ok (VArr l)) h1 /\ hget h1 l = Some (CArr []) /\
  yields (std_ext L) (agg FMedian na) root h (Err (EPanic w)) h1.
Proof. exact median_panics. Qed.
Print Assumptions C25_median_total_refuted.

Example C25_case :
  run_expr (agg FMedian (NArray [nnum 4; nnum 1; nnum 3; nnum 2])) =
    Some (Ok (VNum (Dec 2500000 6)), (s_heap ++ [CArr [num 4; num 1; num 3; num 2]])%list) /\
  run_expr (agg FMode (NArray [nnum 4; nnum 1; nnum 4; nnum 1])) =
    Some (Ok (num 4), (s_heap ++ [CArr [num 4; num 1; num 4; num 1]])%list) /\
  exact_sums (l_add demo_lib) dec_zero [dec_of_Z 4; Dec 15 1] /\
  exact_means (l_add demo_lib) (l_div demo_lib) [dec_of_Z 4; dec_of_Z 1].
Proof. exact agg_case. Qed.
