(** Properties of shared values: C04, C08, C10, C11, C12, C13, C14, C15. *)
From Coq Require Import String ZArith List QArith Permutation.
From Verif Require Import Base Dec Value Heap Ast Ops Compiler Vm Eval Funcs Samples HeapSpec TreeFacts
  PureFacts HeapClaims.
Import ListNotations.
Local Open Scope string_scope.
Local Open Scope nat_scope.

(** C04. Running an expression without assignments changes no existing object or array, whatever the
    library of built-in operations [L] computes; in particular every value keeps its content. *)
Theorem C04_no_assignment_changes_nothing : forall L n code root h fuel r h1,
  no_assign n = true -> compile (std_ext L) n = Ok code ->
  vm_run (std_ext L) fuel code root h = Some (r, h1) ->
  (forall l c, hget h l = Some c -> hget h1 l = Some c) /\
  (forall v t, repr h v t -> repr h1 v t).
Proof. exact run_keeps_cells_na. Qed.
Print Assumptions C04_no_assignment_changes_nothing.

(** The same with assignments, as long as every assigned name is a plain name. *)
Theorem C04_plain_assignment_changes_nothing : forall L n code root h fuel r h1,
  flat n = true -> compile (std_ext L) n = Ok code ->
  vm_run (std_ext L) fuel code root h = Some (r, h1) ->
  (forall l c, hget h l = Some c -> hget h1 l = Some c) /\
  (forall v t, repr h v t -> repr h1 v t).
Proof. exact run_keeps_cells. Qed.
Print Assumptions C04_plain_assignment_changes_nothing.

(** With dotted assignments it fails: [a = nested; a.x = 2] writes into the caller's [nested]. *)
Theorem C04_dotted_assignment_refuted :
  exists n code fuel v h1 l c, compile demo n = Ok code /\
    vm_run demo fuel code s_root s_heap = Some (Ok v, h1) /\
    reach s_heap (sc_base s_root) (VObj l) /\ hget s_heap l = Some c /\ hget h1 l <> Some c.
Proof. exact alias_writes_context. Qed.
Print Assumptions C04_dotted_assignment_refuted.

(** And [a = {}; a.b = a] returns a value that contains itself, so it denotes no finite tree. *)
Theorem C04_finite_result_refuted :
  exists n code fuel v h1, compile demo n = Ok code /\
    vm_run demo fuel code s_root s_heap = Some (Ok v, h1) /\ ~ exists t, repr h1 v t.
Proof. exact cyclic_value. Qed.
Print Assumptions C04_finite_result_refuted.

Example C04_case :
  no_assign s_cond = true /\ length (code_of s_cond) = 33 /\ length (heap_of s_cond) = 4 /\
  flat (NAssign [(NString "a", s_cond)] None) = true.
Proof. vm_compute. auto. Qed.

(** C08. After any sequence of [set_local] calls on a fresh scope, the last one for a name wins, other
    names are not affected, and a name never set reads the context's property. *)
Theorem C08_last_local_wins : forall h b l k v,
  scope_get h (set_locals (scope_new b) (l ++ [(k, v)])%list) k = Some v.
Proof. exact scope_last_wins. Qed.
Print Assumptions C08_last_local_wins.
Theorem C08_other_names_kept : forall h b l k v k', k <> k' ->
  scope_get h (set_locals (scope_new b) (l ++ [(k, v)])%list) k' = scope_get h (set_locals (scope_new b) l) k'.
Proof. exact scope_other_kept. Qed.
Print Assumptions C08_other_names_kept.
Theorem C08_unset_reads_context : forall h b l k, ~ In k (map fst l) ->
  scope_get h (set_locals (scope_new b) l) k = dot_parts h b [k].
Proof. exact scope_no_local. Qed.
Print Assumptions C08_unset_reads_context.
(** The materialised scope has at every key what lookup gives, and materialising changes nothing. *)
Theorem C08_materialize_agrees : forall l h o m h1 v, hget h o = Some (CObj m) -> NoDup (akeys m) ->
  materialize h (set_locals (scope_new (VObj o)) l) = (h1, v) ->
  (forall k, dot_parts h1 v [k] = scope_get h (set_locals (scope_new (VObj o)) l) k) /\
  (forall l' c, hget h l' = Some c -> hget h1 l' = Some c).
Proof. exact materialize_agrees. Qed.
Print Assumptions C08_materialize_agrees.

Example C08_case :
  let s := set_locals s_root [("age", num 1); ("z", VNull); ("age", num 2)] in
  map (scope_get s_heap s) ["age"; "z"; "name"; "nope"]
    = [Some (num 2); Some VNull; Some (VStr "Ann"); None] /\
  hget (fst (materialize s_heap s)) 3
    = Some (CObj [("items", VArr 0); ("age", num 2); ("name", VStr "Ann"); ("nested", VObj 1); ("z", VNull)]).
Proof. vm_compute. auto. Qed.

(** C10. Comparing two shared values compares their contents; on contents equality is an
    equivalence, looks at keys and not at their order, and compares numbers by value. *)
Theorem C10_equality_is_of_contents : forall h a b ta tb n, wf_heap h -> repr h a ta -> repr h b tb ->
  height ta < n -> veq n [] h a b = Some (Ok (teq ta tb)).
Proof. exact veq_is_teq. Qed.
Print Assumptions C10_equality_is_of_contents.
Theorem C10_reflexive : forall t, wf_tree t -> teq t t = true.
Proof. exact teq_refl. Qed.
Print Assumptions C10_reflexive.
Theorem C10_symmetric : forall a b, wf_tree a -> wf_tree b -> teq a b = teq b a.
Proof. exact teq_sym_eq. Qed.
Print Assumptions C10_symmetric.
Theorem C10_transitive : forall a b c, teq a b = true -> teq b c = true -> teq a c = true.
Proof. exact teq_trans. Qed.
Print Assumptions C10_transitive.
Theorem C10_objects_by_key : forall m m', wf_tree (TObj m) -> wf_tree (TObj m') ->
  (teq (TObj m) (TObj m') = true <->
   forall k, match aget k m, aget k m' with
             | Some a, Some b => teq a b = true
             | None, None => True
             | _, _ => False
             end).
Proof. exact teq_keys. Qed.
Print Assumptions C10_objects_by_key.
Theorem C10_insertion_order_irrelevant : forall m m', wf_tree (TObj m) -> Permutation m m' ->
  teq (TObj m) (TObj m') = true.
Proof. exact teq_perm. Qed.
Print Assumptions C10_insertion_order_irrelevant.
Theorem C10_numbers_by_value : forall x y, teq (TNum x) (TNum y) = true <-> (dec_val x == dec_val y)%Q.
Proof. exact teq_num_val. Qed.
Print Assumptions C10_numbers_by_value.

Example C10_case :
  teq (TObj [("a", TNum (Dec 10 1)); ("b", TArr [TNull])]) (TObj [("b", TArr [TNull]); ("a", TNum (Dec 1 0))]) = true /\
  teq (TObj [("a", TNull)]) (TObj [("b", TNull)]) = false /\
  veq 9 [] s_heap (VObj 2) (VObj 2) = Some (Ok true).
Proof. vm_compute. auto. Qed.

(** C11. After a dotted write the path reads the written value exactly when no proper prefix of the
    path held a non-object; if one did, the call changes nothing. *)
Theorem C11_reads_back_iff_not_blocked : forall key h v t x h1 o, wf_heap h -> repr h v t ->
  dot_insert h v key x = (h1, o) ->
  (dot h1 v key = Some x <-> ~ blocked h v (split_dot key)).
Proof. exact insert_read_iff. Qed.
Print Assumptions C11_reads_back_iff_not_blocked.
Theorem C11_blocked_changes_nothing : forall key h v t x, wf_heap h -> repr h v t ->
  blocked h v (split_dot key) -> dot_insert h v key x = (h, None) /\ dot h v key = None.
Proof. exact insert_blocked_key. Qed.
Print Assumptions C11_blocked_changes_nothing.
(** Without sharing inside [v], diverging paths read as before, with the same content. *)
Theorem C11_other_paths_kept : forall key h v t x h1 o key2, wf_heap h -> repr h v t -> tshape h v ->
  dot_insert h v key x = (h1, o) -> diverge (split_dot key) (split_dot key2) ->
  dot h1 v key2 = dot h v key2 /\
  (forall w tw, dot h v key2 = Some w -> repr h w tw -> repr h1 w tw).
Proof. exact insert_frame_key. Qed.
Print Assumptions C11_other_paths_kept.
(** With any sharing: exactly one existing object changes, at one key. *)
Theorem C11_one_object_changes : forall key h v t x h1 o, wf_heap h -> repr h v t ->
  ~ blocked h v (split_dot key) -> dot_insert h v key x = (h1, o) ->
  exists q k r l m y, split_dot key = (q ++ k :: r)%list /\ dot_parts h v q = Some (VObj l) /\
    hget h l = Some (CObj m) /\ hget h1 l = Some (CObj (aset k y m)) /\
    (forall l', l' < length h -> l' <> l -> hget h1 l' = hget h l') /\
    (r = [] -> y = x) /\ (r <> [] -> aget k m = None /\ y = VObj (length h)).
Proof. exact insert_one_cell_key. Qed.
Print Assumptions C11_one_object_changes.

Example C11_case :
  let r := dot_insert s_heap (VObj 2) "nested.y.z" (num 7) in
  dot (fst r) (VObj 2) "nested.y.z" = Some (num 7) /\ dot (fst r) (VObj 2) "nested.x" = Some (num 1) /\
  dot_insert s_heap (VObj 2) "age.y" (num 7) = (s_heap, None).
Proof. vm_compute. auto. Qed.

(** C12. *)
Theorem C12_detached_insert : forall key h l x t, repr h (VObj l) t ->
  exists h1 c, dot_insert_detached h (VObj l) key x = (h1, Some c) /\
    dot h1 c key = Some x /\
    (forall key2, diverge (split_dot key) (split_dot key2) -> dot h1 c key2 = dot h (VObj l) key2) /\
    (forall l' cell, hget h l' = Some cell -> hget h1 l' = Some cell) /\
    (forall w tw, repr h w tw -> repr h1 w tw).
Proof. exact detached_key. Qed.
Print Assumptions C12_detached_insert.
Theorem C12_detached_insert_on_non_object : forall key h v x t, repr h v t -> (forall l, v <> VObj l) ->
  exists h1, dot_insert_detached h v key x = (h1, None) /\
    (forall l' cell, hget h l' = Some cell -> hget h1 l' = Some cell).
Proof. exact detached_nonobj_key. Qed.
Print Assumptions C12_detached_insert_on_non_object.

Example C12_case :
  let r := dot_insert_detached s_heap (VObj 2) "nested.x" (num 7) in
  match snd r with
  | Some c => dot (fst r) c "nested.x" = Some (num 7) /\ dot (fst r) c "age" = Some (num 20)
              /\ dot (fst r) (VObj 2) "nested.x" = Some (num 1)
  | None => False
  end.
Proof. vm_compute. auto. Qed.

(** C13. [merge_clone]: no existing object changes and the result has the content of the recursive
    merge [tmerge_top], whose keys are described by the second theorem. *)
Theorem C13_merge_clone_is_pure_merge : forall h doc patch td tp n, wf_heap h ->
  repr h doc td -> repr h patch tp -> share_ok h doc patch -> S (height td + height tp) < n ->
  exists h1 v c t', merge_cow n h doc patch true = Some (h1, v, c) /\ repr h1 v t' /\
    teq t' (tmerge_top td tp) = true /\
    (forall l cell, hget h l = Some cell -> hget h1 l = Some cell).
Proof. exact merge_clone_spec. Qed.
Print Assumptions C13_merge_clone_is_pure_merge.
Theorem C13_merge_by_key : forall dm pm k, wf_tree (TObj dm) -> wf_tree (TObj pm) ->
  exists m, tmerge_top (TObj dm) (TObj pm) = TObj m /\
    aget k m = match aget k pm with
               | None => aget k dm
               | Some TNull => None
               | Some (TObj pm') =>
                   match aget k dm with
                   | Some (TObj dm') => Some (tmerge_top (TObj dm') (TObj pm'))
                   | _ => Some (TObj pm')
                   end
               | Some p => Some p
               end.
Proof. exact tmerge_top_keys. Qed.
Print Assumptions C13_merge_by_key.
(** Without [share_ok] the content depends on sharing: merging an object into itself keeps its null
    entries, merging an equal copy into it removes them. *)
Theorem C13_merge_ignores_sharing_refuted :
  exists h doc copy t n r1 r2 t1 t2,
    repr h doc t /\ repr h copy t /\
    merge_cow n h doc doc true = Some (h, r1, false) /\
    (exists h2, merge_cow n h doc copy true = Some (h2, r2, true) /\ repr h2 r2 t2) /\
    repr h r1 t1 /\ teq t1 t2 = false.
Proof. exact merge_sharing_matters. Qed.
Print Assumptions C13_merge_ignores_sharing_refuted.

Example C13_case :
  merge_cow 9 mp_heap (VObj 0) (VObj 2) true =
    Some ((mp_heap ++ [CObj [("y", num 2)]; CObj [("a", VObj 6); ("b", VNull)]])%list, VObj 7, true) /\
  tmerge_top (TObj [("a", TObj [("x", TNull)]); ("b", TNull)]) (TObj [("a", TObj [("y", TNull); ("z", TStr "k")])])
    = TObj [("a", TObj [("x", TNull); ("z", TStr "k")]); ("b", TNull)].
Proof. vm_compute. auto. Qed.

(** C14. [merge] on a tree-shaped document disjoint from the patch: same content as [merge_clone], and
    only objects of the document are written. *)
Theorem C14_merge_content : forall h doc patch td tp n, wf_heap h -> repr h doc td -> repr h patch tp ->
  tshape h doc -> disj h doc patch -> S (height td + height tp) < n ->
  exists h1 v c t', merge_ip n [] [] h doc patch true = Some (Ok (h1, v, c)) /\ repr h1 v t' /\
    teq t' (tmerge_top td tp) = true /\
    (forall l, ~ reachl h doc l -> hget h1 l = hget h l) /\ length h1 = length h.
Proof. exact merge_spec. Qed.
Print Assumptions C14_merge_content.
Theorem C14_merge_agrees_with_merge_clone : forall h doc patch td tp n, wf_heap h ->
  repr h doc td -> repr h patch tp -> tshape h doc -> disj h doc patch -> S (height td + height tp) < n ->
  exists h1 v1 c1 t1 h2 v2 c2 t2,
    merge_ip n [] [] h doc patch true = Some (Ok (h1, v1, c1)) /\ repr h1 v1 t1 /\
    merge_cow n h doc patch true = Some (h2, v2, c2) /\ repr h2 v2 t2 /\ teq t1 t2 = true.
Proof. exact merges_agree. Qed.
Print Assumptions C14_merge_agrees_with_merge_clone.
Theorem C14_no_leak_refuted :
  exists h doc patch other t t' h1 v, other <> doc /\ repr h other t /\
    merge_ip 9 [] [] h doc patch true = Some (Ok (h1, v, true)) /\ repr h1 other t' /\ teq t t' = false.
Proof. exact merge_leaks. Qed.
Print Assumptions C14_no_leak_refuted.
(** A patch that contains the document makes the in-place merge panic (double borrow). *)
Theorem C14_no_panic_refuted :
  exists h doc patch td tp w, repr h doc td /\ repr h patch tp /\
    merge_ip 9 [] [] h doc patch true = Some (Err (EPanic w)).
Proof. exact merge_panics. Qed.
Print Assumptions C14_no_panic_refuted.

(** C15. *)
Theorem C15_deep_clone_equal_and_independent : forall h v t n, repr h v t -> height t < n ->
  exists h1 v1, deep_clone n h v = Some (h1, v1) /\ repr h1 v1 t /\
    (forall l c, hget h l = Some c -> hget h1 l = Some c) /\
    (forall l, reachl h1 v1 l -> hget h l = None) /\
    (forall l c, reachl h1 v l -> repr (hset h1 l c) v1 t) /\
    (forall l c, reachl h1 v1 l -> repr (hset h1 l c) v t).
Proof. exact deep_clone_spec. Qed.
Print Assumptions C15_deep_clone_equal_and_independent.

Example C15_case : option_map snd (deep_clone 9 s_heap (VObj 2)) = Some (VObj 5).
Proof. vm_compute. reflexivity. Qed.
