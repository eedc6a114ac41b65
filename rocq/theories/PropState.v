(** Properties of state that outlives one evaluation: C05, C06, C07, C09, C11 (removal), C52. *)
From Coq Require Import String ZArith List Permutation.
From Verif Require Import Base Dec Value Heap Ast Ops Compiler Vm Eval Funcs Samples HeapSpec TreeFacts PureFacts
  RunSpec HeapClaims VMap VMapFacts RepFacts ContentFacts Isolate IsolateFacts MemoFacts StateClaims.
Import ListNotations.
Local Open Scope string_scope.
Local Open Scope nat_scope.

(** C05. Take any isolate, after any history [before] of calls (evaluations that succeed or fail,
    compilations, locals, references, cache changes), with arbitrary rubbish left in its buffers
    ([jc1], [jv1]). Once the environment is set, every further sequence of calls shows exactly what it
    shows on a new isolate with that environment and the same cache. *)
Theorem C05_reused_isolate_is_fresh : forall X parse fuel jc1 jv1 jc2 jv2 before h0 v ops,
  let (i, h) := iafter X parse fuel jc1 jv1 before iso_new h0 in
  itrace X parse fuel jc1 jv1 ops (set_environment v i) h =
  itrace X parse fuel jc2 jv2 ops (with_cache (i_cache i) (with_environment v)) h.
Proof. exact reuse_is_fresh. Qed.
Print Assumptions C05_reused_isolate_is_fresh.
(** Within one environment: evaluations (successful or not) and compilations in between are invisible
    to every later call, apart from the memory they wrote. *)
Theorem C05_evaluations_leave_no_trace : forall X parse fuel jc jv i runs ops h h',
  forallb evaluates runs = true ->
  itrace X parse fuel jc jv ops (fst (iafter X parse fuel jc jv runs i h)) h' =
  itrace X parse fuel jc jv ops i h'.
Proof. exact evaluations_invisible. Qed.
Print Assumptions C05_evaluations_leave_no_trace.
Example C05_case :
  let before := [ISetEnv (VObj 1); ISetRef "x"; IRun "-name"; IRun "("; IRunUnary "> 3"; ISetLocal "y" (num 4)] in
  let i := fst (iafter demo toy 100 no_junk no_junk_vm before iso_new s_heap) in
  i_code i <> [] /\ i_stk i <> [] /\
  t_trace [IRun "age"; IRun "y"; IGetRef "x"; IRun "-name"] (set_environment (VObj 2) i) =
    [OVal (Ok (num 20)); OVal (Ok VNull); OOpt None; OVal (Err (EOp "Negate"))].
Proof. vm_compute. repeat split; auto; discriminate. Qed.

(** C06. A cache whose entries were obtained by compiling their own sources changes nothing, whatever
    else is called and in whatever order; *)
Theorem C06_cache_transparent : forall X parse fuel jc jv c v ops h,
  faithful X parse c -> forallb keeps_cache ops = true ->
  itrace X parse fuel jc jv ops (with_cache (Some c) (with_environment v)) h =
  itrace X parse fuel jc jv ops (with_environment v) h.
Proof. exact cache_transparent. Qed.
Print Assumptions C06_cache_transparent.
(** the engine's compile step builds such a cache from any list of sources, *)
Theorem C06_built_cache_is_faithful : forall X parse jc sources, faithful X parse (cache_of X parse jc sources).
Proof. exact cache_of_faithful. Qed.
Print Assumptions C06_built_cache_is_faithful.
(** and it contains every source that compiles. *)
Theorem C06_built_cache_is_complete : forall X parse jc sources k s n code, In (s, k) sources ->
  parse k s = Ok n -> compile X n = Ok code ->
  aget s (match k with KStandard => c_std (cache_of X parse jc sources) | KUnary => c_una (cache_of X parse jc sources) end) <> None.
Proof. intros X parse jc sources. exact (build_complete X parse jc sources _ _). Qed.
Print Assumptions C06_built_cache_is_complete.
Example C06_case :
  let c := cache_of demo toy no_junk [("age", KStandard); ("(", KStandard); ("> 3", KUnary); ("age", KUnary)] in
  map fst (c_std c) = ["age"] /\ map fst (c_una c) = ["> 3"] /\
  t_trace [ISetRef "age"; IRunUnary "> 3"; IRun "name"; IRun "("] (with_cache (Some c) (with_environment (VObj 2))) =
    [OStatus (Ok tt); OBool (Ok true); OVal (Ok (VStr "Ann")); OVal (Err (EOp "parse"))].
Proof. vm_compute. auto. Qed.

(** C07. In an environment [v] with locals [ls], after any table-like history [mid] (references set,
    tests and expressions run, all free of assignments), setting a reference that does not read `$` and
    running a test shows the same with the memo as without it. *)
Theorem C07_memo_invisible : forall L parse fuel jc jv v ls mid h0 r u,
  plain_lib L -> has_tree h0 v -> (forall kv, In kv ls -> has_tree h0 (snd kv)) ->
  Forall (table_op parse) mid ->
  (forall n, parse KStandard r = Ok n -> no_assign n = true /\ reads not_dollar false n = true) ->
  (forall n, parse KUnary u = Ok n -> no_assign n = true) ->
  let X := std_ext L in
  let i := fst (iafter X parse fuel jc jv (with_locals ls v ++ mid)%list iso_new h0) in
  let h := snd (iafter X parse fuel jc jv (with_locals ls v ++ mid)%list iso_new h0) in
  let shows j := map fst (itrace X parse fuel jc jv [ISetRef r; IRunUnary u] j h) in
  ~ In OUnfinished (map fst (itrace X parse fuel jc jv (with_locals ls v ++ mid)%list iso_new h0)) ->
  ~ In OUnfinished (shows i) -> ~ In OUnfinished (shows (forget i)) -> shows i = shows (forget i).
Proof. exact memo_transparent. Qed.
Print Assumptions C07_memo_invisible.
(** Both provisos are needed. A reference that reads `$` goes stale, *)
Theorem C07_reference_reading_dollar_refuted : exists mid r u,
  let i := fst (iafter demo toy 100 no_junk no_junk_vm (with_locals [] (VObj 2) ++ mid)%list iso_new s_heap) in
  Forall (table_op toy) mid /\
  t_trace [ISetRef r; IRunUnary u] i = [OStatus (Ok tt); OBool (Ok false)] /\
  t_trace [ISetRef r; IRunUnary u] (forget i) = [OStatus (Ok tt); OBool (Ok true)].
Proof. exact dollar_reference_stale. Qed.
Print Assumptions C07_reference_reading_dollar_refuted.
(** and so does one whose local variable changed: [set_local] does not clear the memo. *)
Theorem C07_changed_local_refuted : exists r u,
  let i := fst (iafter demo toy 100 no_junk no_junk_vm
    [ISetEnv (VObj 2); ISetLocal "x" (num 1); ISetRef r; ISetLocal "x" (num 5)] iso_new s_heap) in
  t_trace [ISetRef r; IRunUnary u] i = [OStatus (Ok tt); OBool (Ok false)] /\
  t_trace [ISetRef r; IRunUnary u] (forget i) = [OStatus (Ok tt); OBool (Ok true)].
Proof. exact local_change_stale. Qed.
Print Assumptions C07_changed_local_refuted.
Example C07_case :
  let mid := [ISetRef "nested.x"; IRunUnary "> 3"; ISetRef "age"; IRunUnary "> 3"; IRun "-name"] in
  let i := fst (iafter demo toy 100 no_junk no_junk_vm (with_locals [("$nodes", VObj 1)] (VObj 2) ++ mid)%list iso_new s_heap) in
  plain_lib demo_lib /\ map fst (i_refs i) = ["nested.x"; "age"] /\
  t_trace [ISetRef "nested.x"; IRunUnary "> 3"] i = [OStatus (Ok tt); OBool (Ok false)] /\
  t_trace [ISetRef "age"; IRunUnary "> 3"] i = [OStatus (Ok tt); OBool (Ok true)].
Proof. split; [exact demo_plain|]. vm_compute. auto. Qed.

(** C09. Whatever the hash order [place], every history of operations shows what a finite map shows, *)
Theorem C09_refines_finite_map : forall V place n ops,
  fallows V (fun _ => None) ops (vm_trace V place vm_new ops) /\
  fallows V (fun _ => None) ops (vm_trace V place (vm_with_capacity n) ops).
Proof. exact map_refines. Qed.
Print Assumptions C09_refines_finite_map.
(** no key is ever stored twice, *)
Theorem C09_keys_unique : forall V place n ops,
  NoDup (map fst (vm_entries V (vm_after V place vm_new ops))) /\
  NoDup (map fst (vm_entries V (vm_after V place (vm_with_capacity n) ops))).
Proof. exact keys_unique. Qed.
Print Assumptions C09_keys_unique.
(** and the representation chosen is invisible, up to the order of iteration. *)
Theorem C09_representation_invisible : forall V p1 p2 n ops,
  Forall2 (obs_alike V) (vm_trace V p1 vm_new ops) (vm_trace V p2 (vm_with_capacity n) ops).
Proof. exact representation_invisible. Qed.
Print Assumptions C09_representation_invisible.
Example C09_case :
  let key n := String (Ascii.ascii_of_nat (40 + n)) "" in
  let ops := (map (fun n => MInsert (key n) n) (seq 0 33) ++
    [MOrInsert (key 5) 50; MEntryInsert (key 6) 60; MRemove (key 7); MGet (key 6); MGet (key 7); MLen])%list in
  skipn 33 (vm_trace nat (fun _ => 3) vm_new ops) =
    [BVal (Some 5); BVal (Some 6); BVal (Some 7); BVal (Some 60); BVal None; BLen 32] /\
  (exists l, vm_after nat (fun _ => 3) vm_new (firstn 32 ops) = Small l) /\
  (exists l, vm_after nat (fun _ => 3) vm_new (firstn 33 ops) = Large l).
Proof. vm_compute. repeat split; eexists; reflexivity. Qed.

(** C11, continued. A dotted write returns what the path held before; removing a path returns that too
    and leaves nothing there; paths that diverge from it are not affected (no sharing inside [v]). *)
Theorem C11_insert_returns_previous : forall key h v t x, wf_heap h -> repr h v t ->
  snd (dot_insert h v key x) = dot h v key.
Proof. exact insert_returns_previous. Qed.
Print Assumptions C11_insert_returns_previous.
Theorem C11_remove : forall key h v t h1 o, wf_heap h -> repr h v t ->
  dot_remove h v key = (h1, o) -> o = dot h v key /\ dot h1 v key = None.
Proof. exact remove_reads_nothing. Qed.
Print Assumptions C11_remove.
Theorem C11_remove_other_paths_kept : forall key h v t h1 o key2, wf_heap h -> repr h v t -> tshape h v ->
  dot_remove h v key = (h1, o) -> diverge (split_dot key) (split_dot key2) ->
  dot h1 v key2 = dot h v key2 /\
  (forall w tw, dot h v key2 = Some w -> repr h w tw -> repr h1 w tw).
Proof. exact remove_frame. Qed.
Print Assumptions C11_remove_other_paths_kept.
(** Removing a path that is not there is not a no-op: it creates the objects on the way. *)
Theorem C11_remove_missing_is_noop_refuted : exists h v key h1, wf_heap h /\ dot h v key = None /\
  dot_remove h v key = (h1, None) /\ dot h v "missing" = None /\ dot h1 v "missing" <> None.
Proof. exact remove_missing_creates. Qed.
Print Assumptions C11_remove_missing_is_noop_refuted.
Example C11_remove_case :
  let r := dot_remove s_heap (VObj 2) "nested.x" in
  snd r = Some (num 1) /\ dot (fst r) (VObj 2) "nested.x" = None /\ dot (fst r) (VObj 2) "age" = Some (num 20).
Proof. vm_compute. auto. Qed.

(** C52. Two contexts with the same content give the same outcome, wherever their objects live in
    memory and however they are shared. *)
Theorem C52_content_decides_result : forall L n s1 s2 h1 h2 r1 g1, plain_lib L -> no_assign n = true ->
  same_content h1 h2 s1 s2 -> yields (std_ext L) n s1 h1 r1 g1 ->
  exists r2 g2, yields (std_ext L) n s2 h2 r2 g2 /\ same_outcome (r1, g1) (r2, g2).
Proof. exact content_decides. Qed.
Print Assumptions C52_content_decides_result.
Example C52_case : same_content s_heap s_heap2 s_root s_root2 /\ s_heap <> s_heap2 /\
  result_of s_cond = Some (Ok (VStr "Ann!")).
Proof. split; [exact same_content_case|]. split; [discriminate|vm_compute; reflexivity]. Qed.
