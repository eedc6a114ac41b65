(** C53: what the built-in functions of the expression language compute. [call_gives] (FnSpec.v) says: a call
    whose argument expressions evaluate, left to right, to the given values yields the given result. *)
From Coq Require Import String Ascii ZArith QArith Qabs Lia Bool List Arith.
From Verif Require Import Base Dec Value Heap Ast Ops Compiler Vm Eval Funcs Samples HeapSpec HeapFacts PureFacts RunSpec OpFacts FnSpec FnFacts FnClaims.
Import ListNotations.
Local Open Scope string_scope.
Local Open Scope list_scope.
Local Open Scope nat_scope.

(** [round(x)] is the nearest whole number, halves away from zero. *)
Theorem C53_round : forall L x h, exists y, call_gives L FRound [VNum x] h (Ok (VNum y)) h /\ rounded 1 (dec_val x) (dec_val y).
Proof. exact round_claim. Qed.
Print Assumptions C53_round.
(** [round(x, p)] is the nearest multiple of 10^-p, halves away from zero. *)
Theorem C53_round_places : forall L x p h, p <= 1000 ->
  exists y, call_gives L FRound [VNum x; VNum (dec_of_nat p)] h (Ok (VNum y)) h /\ rounded (unit_at p) (dec_val x) (dec_val y).
Proof. exact round_places_claim. Qed.
Print Assumptions C53_round_places.
(** [-2.345] and [2], as argument expressions: the result is [-2.35]. *)
Example C53_round_case :
  arguments demo s_root [NNumber (Dec (-2345) 3); nnum 2] s_heap [VNum (Dec (-2345) 3); VNum (dec_of_nat 2)] s_heap /\
  yields demo (NCall (FInternal FRound) [NNumber (Dec (-2345) 3); nnum 2]) s_root s_heap (Ok (VNum (Dec (-235) 2))) s_heap /\
  rounded (unit_at 2) (dec_val (Dec (-2345) 3)) (dec_val (Dec (-235) 2)).
Proof.
  split; [|split].
  - repeat (econstructor; [reflexivity|apply yields_iff; (split; [eexists; reflexivity|reflexivity])|]). constructor.
  - apply yields_iff; (split; [eexists; reflexivity|reflexivity]).
  - exact (round_ok (Dec (-2345) 3) 2).
Qed.

(** [trunc(x)], [trunc(x, p)] cut towards zero. *)
Theorem C53_trunc : forall L x h, exists y, call_gives L FTrunc [VNum x] h (Ok (VNum y)) h /\ truncated 1 (dec_val x) (dec_val y).
Proof. exact trunc_claim. Qed.
Print Assumptions C53_trunc.
Theorem C53_trunc_places : forall L x p h, p <= 1000 ->
  exists y, call_gives L FTrunc [VNum x; VNum (dec_of_nat p)] h (Ok (VNum y)) h /\ truncated (unit_at p) (dec_val x) (dec_val y).
Proof. exact trunc_places_claim. Qed.
Print Assumptions C53_trunc_places.
Example C53_trunc_case :
  yields demo (NCall (FInternal FTrunc) [NNumber (Dec (-2345) 3); nnum 1]) s_root s_heap (Ok (VNum (Dec (-23) 1))) s_heap.
Proof. apply yields_iff; (split; [eexists; reflexivity|reflexivity]). Qed.

(** [floor(x)] is the greatest whole number not above [x]; [ceil(x)] the least not below. *)
Theorem C53_floor : forall L x h, exists y (z : Z), call_gives L FFloor [VNum x] h (Ok (VNum y)) h /\
  (dec_val y == inject_Z z /\ inject_Z z <= dec_val x /\ dec_val x < inject_Z (z + 1))%Q.
Proof. exact floor_claim. Qed.
Print Assumptions C53_floor.
Theorem C53_ceil : forall L x h, exists y (z : Z), call_gives L FCeil [VNum x] h (Ok (VNum y)) h /\
  (dec_val y == inject_Z z /\ dec_val x <= inject_Z z /\ inject_Z (z - 1) < dec_val x)%Q.
Proof. exact ceil_claim. Qed.
Print Assumptions C53_ceil.
Theorem C53_abs : forall L x h, exists y, call_gives L FAbs [VNum x] h (Ok (VNum y)) h /\ (dec_val y == Qabs (dec_val x))%Q.
Proof. exact abs_claim. Qed.
Print Assumptions C53_abs.
Example C53_floor_case :
  yields demo (NCall (FInternal FFloor) [NNumber (Dec (-25) 1)]) s_root s_heap (Ok (num (-3))) s_heap /\
  yields demo (NCall (FInternal FCeil) [NNumber (Dec (-25) 1)]) s_root s_heap (Ok (num (-2))) s_heap /\
  yields demo (NCall (FInternal FAbs) [NNumber (Dec (-25) 1)]) s_root s_heap (Ok (VNum (Dec 25 1))) s_heap.
Proof. repeat split; apply yields_iff; (split; [eexists; reflexivity|reflexivity]). Qed.

(** [string(number)] writes a numeral that reads back as exactly that number, trailing zeros included. *)
Theorem C53_string_of_number : forall L x h, exists s, call_gives L FString [VNum x] h (Ok (VStr s)) h /\
  read_numeral s = Some (mant x, scale x).
Proof. exact number_of_string_claim. Qed.
Print Assumptions C53_string_of_number.
Theorem C53_string : forall L h, call_gives L FString [VNull] h (Ok (VStr "null")) h /\
  call_gives L FString [VBool true] h (Ok (VStr "true")) h /\ call_gives L FString [VBool false] h (Ok (VStr "false")) h /\
  (forall s, call_gives L FString [VStr s] h (Ok (VStr s)) h).
Proof. exact string_claim. Qed.
Print Assumptions C53_string.
Example C53_string_case :
  yields demo (NCall (FInternal FString) [NNumber (Dec (-1050) 3)]) s_root s_heap (Ok (VStr "-1.050")) s_heap.
Proof. apply yields_iff; (split; [eexists; reflexivity|reflexivity]). Qed.

(** [number(text)] parses the trimmed text and [isNumeric] tells whether that succeeds. *)
Theorem C53_number : forall L s h,
  (forall d, l_parse L (l_trim L s) = Some d -> call_gives L FNumber [VStr s] h (Ok (VNum d)) h /\ call_gives L FIsNumeric [VStr s] h (Ok (VBool true)) h) /\
  (l_parse L (l_trim L s) = None -> call_gives L FNumber [VStr s] h (Err (EOp "CallFunction")) h /\ call_gives L FIsNumeric [VStr s] h (Ok (VBool false)) h).
Proof. exact number_claim. Qed.
Print Assumptions C53_number.
Example C53_number_case : l_parse demo_lib (l_trim demo_lib "twelve") = None.
Proof. reflexivity. Qed.

(** [bool(x)]: null and zero are false, arrays and objects true; text is true exactly when it reads "true". *)
Theorem C53_bool : forall L h, call_gives L FBool [VNull] h (Ok (VBool false)) h /\
  (forall b, call_gives L FBool [VBool b] h (Ok (VBool b)) h) /\
  (forall x, exists r, call_gives L FBool [VNum x] h (Ok (VBool r)) h /\ (r = false <-> dec_val x == 0)%Q) /\
  (forall l, call_gives L FBool [VArr l] h (Ok (VBool true)) h) /\ (forall l, call_gives L FBool [VObj l] h (Ok (VBool true)) h).
Proof. exact bool_others_claim. Qed.
Print Assumptions C53_bool.
Theorem C53_bool_text : forall L s h,
  (l_trim L s = "true" -> call_gives L FBool [VStr s] h (Ok (VBool true)) h) /\
  (l_trim L s <> "true" -> s <> "" -> call_gives L FBool [VStr s] h (Ok (VBool false)) h).
Proof. exact bool_claim. Qed.
Print Assumptions C53_bool_text.
(** The empty text is the exception: it is true. *)
Theorem C53_bool_empty_text_refuted : forall L h, l_trim L "" = "" -> call_gives L FBool [VStr ""] h (Ok (VBool true)) h.
Proof. exact bool_empty_claim. Qed.
Print Assumptions C53_bool_empty_text_refuted.
Example C53_bool_case : l_trim demo_lib "true" = "true" /\ l_trim demo_lib "yes" <> "true" /\ l_trim demo_lib "" = "" /\
  yields demo (NCall (FInternal FBool) [NString "yes"]) s_root s_heap (Ok (VBool false)) s_heap.
Proof. split; [reflexivity|]. split; [discriminate|]. split; [reflexivity|]. apply yields_iff; (split; [eexists; reflexivity|reflexivity]). Qed.

Theorem C53_type : forall L h, call_gives L FType [VNull] h (Ok (VStr "null")) h /\
  (forall b, call_gives L FType [VBool b] h (Ok (VStr "bool")) h) /\
  (forall x, call_gives L FType [VNum x] h (Ok (VStr "number")) h) /\
  (forall s, call_gives L FType [VStr s] h (Ok (VStr "string")) h) /\
  (forall l, call_gives L FType [VArr l] h (Ok (VStr "array")) h) /\
  (forall l, call_gives L FType [VObj l] h (Ok (VStr "object")) h) /\
  (forall d, call_gives L FType [VDyn (DDate d)] h (Ok (VStr "date")) h) /\
  (forall i, call_gives L FType [VDyn (DInterval i)] h (Ok (VStr "interval")) h).
Proof. exact type_claim. Qed.
Print Assumptions C53_type.
Example C53_type_case : yields demo (NCall (FInternal FType) [NIdent "items"]) s_root s_heap (Ok (VStr "array")) s_heap.
Proof. apply yields_iff; (split; [eexists; reflexivity|reflexivity]). Qed.

(** Text tests. *)
Theorem C53_starts_with : forall L a b h, exists r, call_gives L FStartsWith [VStr a; VStr b] h (Ok (VBool r)) h /\
  (r = true <-> exists post, a = (b ++ post)%string).
Proof. exact starts_claim. Qed.
Print Assumptions C53_starts_with.
Theorem C53_ends_with : forall L a b h, exists r, call_gives L FEndsWith [VStr a; VStr b] h (Ok (VBool r)) h /\
  (r = true <-> exists pre, a = (pre ++ b)%string).
Proof. exact ends_claim. Qed.
Print Assumptions C53_ends_with.
Theorem C53_contains_text : forall L a b h, exists r, call_gives L FContains [VStr a; VStr b] h (Ok (VBool r)) h /\
  (r = true <-> exists pre post, a = (pre ++ b ++ post)%string).
Proof. exact contains_claim. Qed.
Print Assumptions C53_contains_text.
(** [contains(array, x)]: some element has the same kind and value. Dates and intervals never do. *)
Theorem C53_contains_array : forall L l xs b h, hget h l = Some (CArr xs) -> (forall d, b <> VDyn d) ->
  exists r, call_gives L FContains [VArr l; b] h (Ok (VBool r)) h /\ (r = true <-> exists x, In x xs /\ scalar_eq b x).
Proof. exact contains_array_claim. Qed.
Print Assumptions C53_contains_array.
Example C53_contains_case : hget s_heap 0 = Some (CArr [num 1; num 2; num 3]) /\
  arguments demo s_root [NIdent "items"; nnum 3] s_heap [VArr 0; num 3] s_heap /\
  yields demo (NCall (FInternal FContains) [NIdent "items"; nnum 3]) s_root s_heap (Ok (VBool true)) s_heap /\
  yields demo (NCall (FInternal FEndsWith) [NString "invoice"; NString "voice"]) s_root s_heap (Ok (VBool true)) s_heap.
Proof.
  split; [reflexivity|]. split; [|split; apply yields_iff; (split; [eexists; reflexivity|reflexivity])].
  repeat (econstructor; [reflexivity|apply yields_iff; (split; [eexists; reflexivity|reflexivity])|]). constructor.
Qed.

(** [split(text, separator)]: the pieces between occurrences of the separator, found from the left. *)
Theorem C53_split : forall L a sep h, sep <> "" -> exists h3 l ps, call_gives L FSplit [VStr a; VStr sep] h (Ok (VArr l)) h3 /\
  hext h h3 /\ hget h3 l = Some (CArr (map VStr ps)) /\ split_by sep a ps.
Proof. exact split_claim. Qed.
Print Assumptions C53_split.
Example C53_split_case : exists h3,
  yields demo (NCall (FInternal FSplit) [NString "a,,b"; NString ","]) s_root s_heap (Ok (VArr 3)) h3 /\
  hget h3 3 = Some (CArr [VStr "a"; VStr ""; VStr "b"]) /\ split_by "," "a,,b" ["a"; ""; "b"].
Proof.
  eexists. split; [apply yields_iff; (split; [eexists; reflexivity|reflexivity])|]. split; [reflexivity|].
  exact (split_ok "," ltac:(discriminate) 4 "a,,b" ltac:(cbn; lia)).
Qed.

(** Arrays and objects. *)
Theorem C53_len_text : forall L s h, call_gives L FLen [VStr s] h (Ok (VNum (dec_of_nat (String.length s)))) h.
Proof. exact len_text_claim. Qed.
Print Assumptions C53_len_text.
Theorem C53_len_array : forall L l xs h, hget h l = Some (CArr xs) -> call_gives L FLen [VArr l] h (Ok (VNum (dec_of_nat (length xs)))) h.
Proof. exact len_array_claim. Qed.
Print Assumptions C53_len_array.
(** [flatten]: one level. *)
Theorem C53_flatten : forall L l xs parts h, hget h l = Some (CArr xs) ->
  Forall2 (fun v p => (exists k, v = VArr k /\ hget h k = Some (CArr p)) \/ ((forall k, v <> VArr k) /\ p = [v])) xs parts ->
  exists h3 l3, call_gives L FFlatten [VArr l] h (Ok (VArr l3)) h3 /\ hext h h3 /\ hget h3 l3 = Some (CArr (concat parts)).
Proof. exact flatten_claim. Qed.
Print Assumptions C53_flatten.
Theorem C53_keys : forall L l m h, hget h l = Some (CObj m) ->
  exists h3 l3, call_gives L FKeys [VObj l] h (Ok (VArr l3)) h3 /\ hext h h3 /\ hget h3 l3 = Some (CArr (map (fun kv => VStr (fst kv)) m)).
Proof. exact keys_claim. Qed.
Print Assumptions C53_keys.
Theorem C53_values : forall L l m h, hget h l = Some (CObj m) ->
  exists h3 l3, call_gives L FValues [VObj l] h (Ok (VArr l3)) h3 /\ hext h h3 /\ hget h3 l3 = Some (CArr (map snd m)).
Proof. exact values_claim. Qed.
Print Assumptions C53_values.
(** [merge(arrays)]: one after the other; nulls are skipped. *)
Theorem C53_merge_arrays : forall L l items parts h, hget h l = Some (CArr items) ->
  Forall2 (fun v p => (v = VNull /\ p = []) \/ exists k, v = VArr k /\ hget h k = Some (CArr p)) items parts -> (exists v, In v items /\ v <> VNull) ->
  exists h3 l3, call_gives L FMerge [VArr l] h (Ok (VArr l3)) h3 /\ hext h h3 /\ hget h3 l3 = Some (CArr (concat parts)).
Proof. exact merge_arrays_claim. Qed.
Print Assumptions C53_merge_arrays.
(** [merge(objects)]: each key has its value in the last object that has it; nulls are skipped. *)
Theorem C53_merge_objects : forall L l items parts h, hget h l = Some (CArr items) ->
  Forall2 (fun v p => (v = VNull /\ p = []) \/ exists k, v = VObj k /\ hget h k = Some (CObj p) /\ NoDup (map fst p)) items parts ->
  exists h3 l3 m, call_gives L FMerge [VArr l] h (Ok (VObj l3)) h3 /\ hext h h3 /\ hget h3 l3 = Some (CObj m) /\
    forall k, aget k m = last_value k parts.
Proof. exact merge_objects_claim. Qed.
Print Assumptions C53_merge_objects.
(** [mergeDeep(objects)]: the documents folded together by [tdeep] (FnSpec.v); the arguments are not changed. *)
Theorem C53_merge_deep : forall L l ts h, repr h (VArr l) (TArr ts) -> wf_tree (TArr ts) ->
  Forall (fun t => t = TNull \/ exists m, t = TObj m) ts ->
  exists h3 v, call_gives L FMergeDeep [VArr l] h (Ok v) h3 /\ hext h h3 /\
    repr h3 v (fold_left (fun a t => match t with TNull => a | _ => tdeep a t end) ts (TObj [])).
Proof. exact merge_deep_claim. Qed.
Print Assumptions C53_merge_deep.
(** [[{a: {x: 1}, t: [1]}, null, {a: {y: 2}, t: [2]}]]. *)
Definition m_heap : heap :=
  [CObj [("x", num 1)]; CArr [num 1]; CObj [("a", VObj 0); ("t", VArr 1)];
   CObj [("y", num 2)]; CArr [num 2]; CObj [("a", VObj 3); ("t", VArr 4)]; CArr [VObj 2; VNull; VObj 5]; CArr [VArr 1; VNull; VArr 4]].
Definition m_one (k : string) (z : Z) : tree := TObj [("a", TObj [(k, TNum (dec_of_Z z))]); ("t", TArr [TNum (dec_of_Z z)])].
Example C53_merge_deep_case : repr m_heap (VArr 6) (TArr [m_one "x" 1; TNull; m_one "y" 2]) /\
  wf_tree (TArr [m_one "x" 1; TNull; m_one "y" 2]) /\
  fold_left (fun a t => match t with TNull => a | _ => tdeep a t end) [m_one "x" 1; TNull; m_one "y" 2] (TObj []) =
    TObj [("a", TObj [("x", TNum (dec_of_Z 1)); ("y", TNum (dec_of_Z 2))]); ("t", TArr [TNum (dec_of_Z 1); TNum (dec_of_Z 2)])].
Proof.
  split; [|split; [|reflexivity]].
  - repeat (first [apply RNull|apply RNum|(eapply RArr; [reflexivity|])|(eapply RObj; [reflexivity|])|constructor]).
  - repeat (constructor; cbn; try intuition discriminate).
Qed.
Example C53_merge_case : hget m_heap 6 = Some (CArr [VObj 2; VNull; VObj 5]) /\
  Forall2 (fun v p => (v = VNull /\ p = []) \/ exists k, v = VObj k /\ hget m_heap k = Some (CObj p) /\ NoDup (map fst p))
    [VObj 2; VNull; VObj 5] [[("a", VObj 0); ("t", VArr 1)]; []; [("a", VObj 3); ("t", VArr 4)]] /\
  last_value "a" [[("a", VObj 0); ("t", VArr 1)]; []; [("a", VObj 3); ("t", VArr 4)]] = Some (VObj 3) /\
  Forall2 (fun v p => (v = VNull /\ p = []) \/ exists k, v = VArr k /\ hget m_heap k = Some (CArr p)) [VArr 1; VNull; VArr 4] [[num 1]; []; [num 2]] /\
  concat [[num 1]; []; [num 2]] = [num 1; num 2].
Proof.
  split; [reflexivity|]. split.
  { constructor; [right; eexists; split; [reflexivity|split; [reflexivity|repeat constructor; cbn; intuition discriminate]]|].
    constructor; [left; auto|]. constructor; [right; eexists; split; [reflexivity|split; [reflexivity|repeat constructor; cbn; intuition discriminate]]|]. constructor. }
  split; [reflexivity|]. split; [|reflexivity].
  constructor; [right; eexists; split; reflexivity|]. constructor; [left; auto|]. constructor; [right; eexists; split; reflexivity|]. constructor.
Qed.
Example C53_flatten_case :
  Forall2 (fun v p => (exists k, v = VArr k /\ hget m_heap k = Some (CArr p)) \/ ((forall k, v <> VArr k) /\ p = [v])) [VArr 1; VNull; VArr 4] [[num 1]; [VNull]; [num 2]].
Proof.
  constructor; [left; eexists; split; reflexivity|]. constructor; [right; split; [discriminate|reflexivity]|]. constructor; [left; eexists; split; reflexivity|]. constructor.
Qed.
