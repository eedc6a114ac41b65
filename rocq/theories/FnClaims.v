(** Proofs of C53: each built-in function computes what its specification says. *)
From Coq Require Import String Ascii ZArith QArith Qabs Lia Bool List Arith.
From Verif Require Import Base Dec Value Heap Ast Ops Compiler Vm Eval Funcs HeapSpec HeapFacts ContentFacts PureFacts RunSpec OpFacts FnSpec FnFacts.
Import ListNotations.
Local Open Scope string_scope.
Local Open Scope list_scope.
Local Open Scope nat_scope.

Ltac calls := match goal with |- call_gives ?L ?f ?vs ?h ?r ?h3 => refine (call_ok L f vs h r h3 _ _); [reflexivity|] end.

Lemma round_claim : forall L x h, exists y, call_gives L FRound [VNum x] h (Ok (VNum y)) h /\ rounded 1 (dec_val x) (dec_val y).
Proof. intros L x h. exists (dec_round_dp x 0). split; [calls; reflexivity|]. exact (round_ok x 0). Qed.
Lemma round_places_claim : forall L x p h, p <= 1000 ->
  exists y, call_gives L FRound [VNum x; VNum (dec_of_nat p)] h (Ok (VNum y)) h /\ rounded (unit_at p) (dec_val x) (dec_val y).
Proof.
  intros L x p h H. exists (dec_round_dp x p). split; [|apply round_ok]. calls. unfold call_internal. rewrite places_nat by exact H. reflexivity.
Qed.
Lemma trunc_places_claim : forall L x p h, p <= 1000 ->
  exists y, call_gives L FTrunc [VNum x; VNum (dec_of_nat p)] h (Ok (VNum y)) h /\ truncated (unit_at p) (dec_val x) (dec_val y).
Proof.
  intros L x p h H. exists (dec_trunc_dp x p). split; [|apply trunc_ok]. calls. unfold call_internal. rewrite places_nat by exact H. reflexivity.
Qed.
Lemma trunc_claim : forall L x h, exists y, call_gives L FTrunc [VNum x] h (Ok (VNum y)) h /\ truncated 1 (dec_val x) (dec_val y).
Proof. intros L x h. exists (dec_trunc_dp x 0). split; [calls; reflexivity|]. exact (trunc_ok x 0). Qed.
Lemma floor_claim : forall L x h, exists y (z : Z), call_gives L FFloor [VNum x] h (Ok (VNum y)) h /\
  (dec_val y == inject_Z z /\ inject_Z z <= dec_val x /\ dec_val x < inject_Z (z + 1))%Q.
Proof. intros L x h. destruct (floor_ok x) as (z & H). exists (dec_floor x), z. split; [calls; reflexivity|exact H]. Qed.
Lemma ceil_claim : forall L x h, exists y (z : Z), call_gives L FCeil [VNum x] h (Ok (VNum y)) h /\
  (dec_val y == inject_Z z /\ dec_val x <= inject_Z z /\ inject_Z (z - 1) < dec_val x)%Q.
Proof. intros L x h. destruct (ceil_ok x) as (z & H). exists (dec_ceil x), z. split; [calls; reflexivity|exact H]. Qed.
Lemma abs_claim : forall L x h, exists y, call_gives L FAbs [VNum x] h (Ok (VNum y)) h /\ (dec_val y == Qabs (dec_val x))%Q.
Proof. intros L x h. exists (dec_abs x). split; [calls; reflexivity|]. destruct x as [m s]. reflexivity. Qed.
Lemma number_of_string_claim : forall L x h, exists s, call_gives L FString [VNum x] h (Ok (VStr s)) h /\
  read_numeral s = Some (mant x, scale x).
Proof. intros L x h. exists (dec_to_string x). split; [calls; reflexivity|]. apply numeral_ok. Qed.

Lemma iff_bool : forall L f vs h b (P : Prop), arity_ok (internal_arity f) (length vs) = true -> call_internal L f vs h = (h, Ok (VBool b)) -> (b = true <-> P) ->
  exists r, call_gives L f vs h (Ok (VBool r)) h /\ (r = true <-> P).
Proof. intros L f vs h b P A E H. exists b. split; [|exact H]. exact (call_ok L f vs h _ h A E). Qed.
Lemma starts_claim : forall L a b h, exists r, call_gives L FStartsWith [VStr a; VStr b] h (Ok (VBool r)) h /\ (r = true <-> exists post, a = (b ++ post)%string).
Proof. intros. apply (iff_bool L FStartsWith _ h (starts_with a b)); [reflexivity|reflexivity|]. apply prefix_iff. Qed.
Lemma ends_claim : forall L a b h, exists r, call_gives L FEndsWith [VStr a; VStr b] h (Ok (VBool r)) h /\ (r = true <-> exists pre, a = (pre ++ b)%string).
Proof. intros. apply (iff_bool L FEndsWith _ h (ends_with a b)); [reflexivity|reflexivity|]. apply ends_iff. Qed.
Lemma contains_claim : forall L a b h, exists r, call_gives L FContains [VStr a; VStr b] h (Ok (VBool r)) h /\ (r = true <-> exists pre post, a = (pre ++ b ++ post)%string).
Proof. intros. apply (iff_bool L FContains _ h (str_contains a b)); [reflexivity|reflexivity|]. apply contains_iff. Qed.
Lemma same_scalar_ok : forall a b, (forall d, b <> VDyn d) -> same_scalar a b = true <-> scalar_eq b a.
Proof.
  intros a b N. destruct a, b; cbn; try tauto; try (split; [discriminate|contradiction]); try (exfalso; eapply N; reflexivity).
  - rewrite Bool.eqb_true_iff. split; congruence.
  - rewrite dec_eqb_val. split; intros H; symmetry; exact H.
  - rewrite String.eqb_eq. split; congruence.
Qed.
Lemma contains_array_claim : forall L l xs b h, hget h l = Some (CArr xs) -> (forall d, b <> VDyn d) ->
  exists r, call_gives L FContains [VArr l; b] h (Ok (VBool r)) h /\ (r = true <-> exists x, In x xs /\ scalar_eq b x).
Proof.
  intros L l xs b h G N. apply (iff_bool L FContains _ h (existsb (fun e => same_scalar e b) xs)); [reflexivity| |].
  - unfold call_internal, arg. cbn [nth_error bind of_option]. unfold f_contains. rewrite (proj2 (harr_hget _ _ _) G). reflexivity.
  - rewrite existsb_exists. split; intros (x & I & H); exists x; (split; [exact I|]); apply same_scalar_ok; auto.
Qed.

(** A function that returns a new array. *)
Lemma arr_call : forall L f vs h a, arity_ok (internal_arity f) (length vs) = true -> call_internal L f vs h = ret_arr h (Ok a) ->
  exists h3 l, call_gives L f vs h (Ok (VArr l)) h3 /\ hext h h3 /\ hget h3 l = Some (CArr a).
Proof.
  intros L f vs h a A E. unfold ret_arr, new_arr, halloc in E. do 2 eexists. split; [exact (call_ok L f vs h _ _ A E)|].
  split; [apply hext_alloc|]. unfold hget. rewrite nth_error_app2, Nat.sub_diag by lia. reflexivity.
Qed.
Lemma split_claim : forall L a sep h, sep <> "" -> exists h3 l ps, call_gives L FSplit [VStr a; VStr sep] h (Ok (VArr l)) h3 /\
  hext h h3 /\ hget h3 l = Some (CArr (map VStr ps)) /\ split_by sep a ps.
Proof.
  intros L a sep h N. destruct (arr_call L FSplit [VStr a; VStr sep] h (map VStr (str_split a sep))) as (h3 & l & C & X & G); [reflexivity|reflexivity|].
  exists h3, l, (str_split a sep). split; [exact C|]. split; [exact X|]. split; [exact G|].
  unfold str_split. destruct sep; [congruence|]. apply (split_ok _ N (String.length a)). lia.
Qed.
Lemma flatten_claim : forall L l xs parts h, hget h l = Some (CArr xs) ->
  Forall2 (fun v p => (exists k, v = VArr k /\ hget h k = Some (CArr p)) \/ ((forall k, v <> VArr k) /\ p = [v])) xs parts ->
  exists h3 l3, call_gives L FFlatten [VArr l] h (Ok (VArr l3)) h3 /\ hext h h3 /\ hget h3 l3 = Some (CArr (concat parts)).
Proof.
  intros L l xs parts h G H. apply arr_call; [reflexivity|]. unfold call_internal, arg_arr, arg. cbn [nth_error bind of_option].
  rewrite (proj2 (harr_hget _ _ _) G). cbn [bind of_option]. f_equal. f_equal. clear G.
  induction H as [|v p xs parts D H IH]; [reflexivity|]. unfold flatten1 in *. cbn [flat_map concat]. rewrite IH. f_equal.
  destruct D as [(k & -> & G)|[N ->]]; [rewrite (proj2 (harr_hget _ _ _) G); reflexivity|]. destruct v; try reflexivity. exfalso. eapply N. reflexivity.
Qed.
Lemma len_text_claim : forall L s h, call_gives L FLen [VStr s] h (Ok (VNum (dec_of_nat (String.length s)))) h.
Proof. intros. calls. reflexivity. Qed.
Lemma len_array_claim : forall L l xs h, hget h l = Some (CArr xs) -> call_gives L FLen [VArr l] h (Ok (VNum (dec_of_nat (length xs)))) h.
Proof.
  intros L l xs h G. calls. unfold call_internal, arg, pure, op_len. cbn [nth_error bind of_option]. rewrite (proj2 (harr_hget _ _ _) G). reflexivity.
Qed.
Lemma keys_claim : forall L l m h, hget h l = Some (CObj m) ->
  exists h3 l3, call_gives L FKeys [VObj l] h (Ok (VArr l3)) h3 /\ hext h h3 /\ hget h3 l3 = Some (CArr (map (fun kv => VStr (fst kv)) m)).
Proof.
  intros L l m h G. apply arr_call; [reflexivity|]. unfold call_internal, arg. cbn [nth_error bind of_option].
  rewrite (proj2 (hobj_hget _ _ _) G). cbn [bind of_option]. unfold akeys. rewrite map_map. reflexivity.
Qed.
Lemma values_claim : forall L l m h, hget h l = Some (CObj m) ->
  exists h3 l3, call_gives L FValues [VObj l] h (Ok (VArr l3)) h3 /\ hext h h3 /\ hget h3 l3 = Some (CArr (map snd m)).
Proof.
  intros L l m h G. apply arr_call; [reflexivity|]. unfold call_internal, arg_obj, arg. cbn [nth_error bind of_option].
  rewrite (proj2 (hobj_hget _ _ _) G). reflexivity.
Qed.

Lemma first_arr : forall h items parts, Forall2 (fun v p => (v = VNull /\ p = []) \/ exists l, v = VArr l /\ hget h l = Some (CArr p)) items parts ->
  (exists v, In v items /\ v <> VNull) -> exists l, first_non_null items = Some (VArr l).
Proof.
  intros h items parts H (v & I & N). induction H as [|x p items parts D H IH]; [contradiction|]. unfold first_non_null in *. cbn [find].
  destruct D as [[-> ->]|(l & -> & G)]; [|eauto]. apply IH. destruct I as [<-|I]; [congruence|exact I].
Qed.
Lemma first_obj : forall (P : loc -> amap value -> Prop) items parts, Forall2 (fun v p => (v = VNull /\ p = []) \/ exists l, v = VObj l /\ P l p) items parts ->
  (first_non_null items = None /\ parts = map (fun _ => []) parts) \/ exists l, first_non_null items = Some (VObj l).
Proof.
  intros P items parts H. induction H as [|x p items parts D H IH]; [left; split; reflexivity|]. unfold first_non_null in *. cbn [find].
  destruct D as [[-> ->]|(l & -> & G)]; [|right; eauto]. destruct IH as [[E1 E2]|IH]; [left|right; exact IH]. split; [exact E1|]. cbn. congruence.
Qed.
Lemma last_empty : forall k (parts : list (amap value)), last_value k (map (fun _ => []) parts) = None.
Proof. induction parts as [|p parts IH]; [reflexivity|]. cbn. rewrite IH. reflexivity. Qed.
Lemma merge_arrays_claim : forall L l items parts h, hget h l = Some (CArr items) ->
  Forall2 (fun v p => (v = VNull /\ p = []) \/ exists k, v = VArr k /\ hget h k = Some (CArr p)) items parts -> (exists v, In v items /\ v <> VNull) ->
  exists h3 l3, call_gives L FMerge [VArr l] h (Ok (VArr l3)) h3 /\ hext h h3 /\ hget h3 l3 = Some (CArr (concat parts)).
Proof.
  intros L l items parts h G H N. apply arr_call; [reflexivity|]. unfold call_internal, arg_arr, arg. cbn [nth_error bind of_option].
  rewrite (proj2 (harr_hget _ _ _) G). cbn [of_option]. unfold f_merge. destruct (first_arr h items parts H N) as (k & E). rewrite E, (merge_arrays_ok h items parts H). reflexivity.
Qed.
Lemma merge_objects_claim : forall L l items parts h, hget h l = Some (CArr items) ->
  Forall2 (fun v p => (v = VNull /\ p = []) \/ exists k, v = VObj k /\ hget h k = Some (CObj p) /\ NoDup (map fst p)) items parts ->
  exists h3 l3 m, call_gives L FMerge [VArr l] h (Ok (VObj l3)) h3 /\ hext h h3 /\ hget h3 l3 = Some (CObj m) /\
    forall k, aget k m = last_value k parts.
Proof.
  intros L l items parts h G H. 
  assert (D : exists m, call_internal L FMerge [VArr l] h = (h ++ [CObj m], Ok (VObj (length h))) /\ forall k, aget k m = last_value k parts).
  { unfold call_internal, arg_arr, arg. cbn [nth_error bind of_option]. rewrite (proj2 (harr_hget _ _ _) G). cbn [of_option]. unfold f_merge.
    destruct (first_obj _ items parts H) as [[E P]|(k & E)]; rewrite E.
    - exists []. split; [reflexivity|]. intros k. rewrite P, last_empty. reflexivity.
    - destruct (merge_objects_ok h items parts [] H) as (m & E1 & P). rewrite E1. exists m. split; [reflexivity|]. intros k0. rewrite P. destruct (last_value k0 parts); reflexivity. }
  destruct D as (m & E & P). exists (h ++ [CObj m]), (length h), m. split; [exact (call_ok L FMerge [VArr l] h _ _ eq_refl E)|].
  split; [apply hext_alloc|]. split; [|exact P]. unfold hget. rewrite nth_error_app2, Nat.sub_diag by lia. reflexivity.
Qed.
Lemma merge_deep_claim : forall L l ts h, repr h (VArr l) (TArr ts) -> wf_tree (TArr ts) ->
  Forall (fun t => t = TNull \/ exists m, t = TObj m) ts ->
  exists h3 v, call_gives L FMergeDeep [VArr l] h (Ok v) h3 /\ hext h h3 /\
    repr h3 v (fold_left (fun a t => match t with TNull => a | _ => tdeep a t end) ts (TObj [])).
Proof.
  intros L l ts h R W K. inversion R as [| | | |? items ? G Hx| |]; subst. inversion W as [| | | | |? Wf|]; subst.
  assert (D : Forall2 (deep_item h) items ts).
  { clear R G W. induction Hx as [|x t items ts Rx Hx IH]; [constructor|]. inversion K as [|? ? K1 K2]; subst. inversion Wf; subst. constructor; [|auto].
    destruct K1 as [->|(m & ->)]; [left; inversion Rx; auto|right; eauto]. }
  destruct (merge_deep_ok items ts (S (S (length h))) h (h ++ [CObj []]) (VObj (length h)) (TObj []) D (hext_alloc _ _)) as (h1 & v & E & X & Rv).
  { lia. } { eapply RObj; [|constructor]. unfold hget. rewrite nth_error_app2, Nat.sub_diag by lia. reflexivity. } { constructor; constructor. }
  exists h1, v. split; [|split; [eapply hext_trans; [apply hext_alloc|exact X]|exact Rv]].
  refine (call_ok L FMergeDeep [VArr l] h (Ok v) h1 eq_refl _). unfold call_internal, arg_arr, arg. cbn [nth_error bind of_option].
  rewrite (proj2 (harr_hget _ _ _) G). cbn [of_option]. unfold f_merge_deep, new_obj, halloc. exact E.
Qed.

Lemma bool_claim : forall L s h,
  (l_trim L s = "true" -> call_gives L FBool [VStr s] h (Ok (VBool true)) h) /\
  (l_trim L s <> "true" -> s <> "" -> call_gives L FBool [VStr s] h (Ok (VBool false)) h).
Proof.
  intros L s h. split; intros T.
  - calls. unfold call_internal, arg, f_bool. cbn [nth_error bind of_option]. rewrite T. reflexivity.
  - intros N. calls. unfold call_internal, arg, f_bool. cbn [nth_error bind of_option]. apply String.eqb_neq in T, N. rewrite T, N. destruct (String.eqb (l_trim L s) "false"); reflexivity.
Qed.
Lemma bool_others_claim : forall L h, call_gives L FBool [VNull] h (Ok (VBool false)) h /\
  (forall b, call_gives L FBool [VBool b] h (Ok (VBool b)) h) /\
  (forall x, exists r, call_gives L FBool [VNum x] h (Ok (VBool r)) h /\ (r = false <-> dec_val x == 0)%Q) /\
  (forall l, call_gives L FBool [VArr l] h (Ok (VBool true)) h) /\ (forall l, call_gives L FBool [VObj l] h (Ok (VBool true)) h).
Proof.
  intros L h. split; [calls; reflexivity|]. split; [intros; calls; reflexivity|]. split; [|split; intros; calls; reflexivity].
  intros x. exists (negb (dec_is_zero x)). split; [calls; reflexivity|]. destruct x as [m s]. unfold dec_is_zero, Qeq. cbn.
  destruct (Z.eqb_spec m 0); cbn; split; intros; try congruence; lia.
Qed.
Lemma bool_empty_claim : forall L h, l_trim L "" = "" -> call_gives L FBool [VStr ""] h (Ok (VBool true)) h.
Proof. intros L h T. calls. unfold call_internal, arg, f_bool. cbn [nth_error bind of_option]. rewrite T. reflexivity. Qed.
Lemma number_claim : forall L s h,
  (forall d, l_parse L (l_trim L s) = Some d -> call_gives L FNumber [VStr s] h (Ok (VNum d)) h /\ call_gives L FIsNumeric [VStr s] h (Ok (VBool true)) h) /\
  (l_parse L (l_trim L s) = None -> call_gives L FNumber [VStr s] h (Err (EOp "CallFunction")) h /\ call_gives L FIsNumeric [VStr s] h (Ok (VBool false)) h).
Proof.
  intros L s h. split; [intros d P|intros P].
  - split; calls; unfold call_internal, arg, f_number, f_is_numeric; cbn [nth_error bind of_option]; rewrite P; reflexivity.
  - split; [|calls; unfold call_internal, arg, f_is_numeric; cbn [nth_error bind of_option]; rewrite P; reflexivity].
    refine (call_ok L FNumber [VStr s] h (Err (EOp "Invalid number")) h eq_refl _). unfold call_internal, arg, f_number. cbn [nth_error bind of_option]. rewrite P. reflexivity.
Qed.
Lemma type_claim : forall L h, call_gives L FType [VNull] h (Ok (VStr "null")) h /\
  (forall b, call_gives L FType [VBool b] h (Ok (VStr "bool")) h) /\
  (forall x, call_gives L FType [VNum x] h (Ok (VStr "number")) h) /\
  (forall s, call_gives L FType [VStr s] h (Ok (VStr "string")) h) /\
  (forall l, call_gives L FType [VArr l] h (Ok (VStr "array")) h) /\
  (forall l, call_gives L FType [VObj l] h (Ok (VStr "object")) h) /\
  (forall d, call_gives L FType [VDyn (DDate d)] h (Ok (VStr "date")) h) /\
  (forall i, call_gives L FType [VDyn (DInterval i)] h (Ok (VStr "interval")) h).
Proof. intros L h. repeat split; intros; calls; reflexivity. Qed.
Lemma string_claim : forall L h, call_gives L FString [VNull] h (Ok (VStr "null")) h /\
  call_gives L FString [VBool true] h (Ok (VStr "true")) h /\ call_gives L FString [VBool false] h (Ok (VStr "false")) h /\
  (forall s, call_gives L FString [VStr s] h (Ok (VStr s)) h).
Proof. intros L h. repeat split; intros; calls; reflexivity. Qed.
