(** C37, C38, C45: what the nodes of a decision graph compute: expression nodes, loops and the other transform attributes,
    and the final clean-up. *)
From Coq Require Import String Ascii ZArith Lia Bool List Arith.
From Verif Require Import Base Dec Value Heap HeapSpec TreeFacts HeapFacts Ast Ops Compiler Vm Eval Funcs PureFacts ContentFacts Isolate IsolateFacts Session SessionFacts
  Graph Walker Lexer Parser Nodes NodeSpec ExprNodeFacts TransformFacts CleanFacts StateClaims Samples PropSyntax.
Import ListNotations.
Local Open Scope string_scope.
Local Open Scope list_scope.
Local Open Scope nat_scope.

(** The nodes below are written on [session]s: a scope, the remembered references, and runs that depend on nothing else. The isolate
    with its buffers, its cache and its virtual machine shows the same to every sequence of calls. *)
Theorem C05_isolate_is_session : forall X parse jc jv co v ops h,
  match co with None => True | Some c => faithful X parse c end -> forallb by_source ops = true ->
  exists fuel, forall more, itrace X parse (fuel + more) jc jv ops (with_cache co (with_environment v)) h = strace X parse ops (s_open v) h.
Proof. exact isolate_is_session. Qed.
Print Assumptions C05_isolate_is_session.

Definition p0 : ekind -> string -> res node := parser read_num.
(** The input [{"x": 2, "customer": {"name": "Ann"}, "items": [{"a": 1}, {"a": 2, "b": null}]}]. *)
Definition n_heap : heap :=
  [CObj [("x", VNum (dec_of_nat 2)); ("customer", VObj 1); ("items", VArr 2)]; CObj [("name", VStr "Ann")];
   CArr [VObj 3; VObj 4]; CObj [("a", VNum (dec_of_nat 1))]; CObj [("a", VNum (dec_of_nat 2)); ("b", VNull)]].
Definition n_env : value := VObj 0.
Example C05_isolate_is_session_case :
  let ops := [IRun "x + 1"; IInsertDollar "a.b" (VNum (dec_of_nat 9)); IRun "$.a.b * x"; ISetRef "customer.name"; IRunUnary "'Ann', 'Bob'"; IRun "x +"] in
  forallb by_source ops = true /\
  strace demo p0 ops (s_open n_env) n_heap = itrace demo p0 200 no_junk no_junk_vm ops (with_environment n_env) n_heap /\
  option_map fst (nth_error (strace demo p0 ops (s_open n_env) n_heap) 2) = Some (OVal (Ok (VNum (dec_of_nat 18)))) /\
  option_map fst (nth_error (strace demo p0 ops (s_open n_env) n_heap) 4) = Some (OBool (Ok true)).
Proof. vm_compute. repeat split. Qed.

(** ** C38. An expression node evaluates its entries top to bottom, skipping those without key or expression. Entry [k] is evaluated
    in the scope that holds the node's input, [$nodes], and under [$] exactly the results of the entries before it. The output holds
    exactly the results under their keys; the first entry that fails decides the node's error. The input is left as it was. *)
Theorem C38_entries : forall L parse es env nodes h h1 r,
  (forall key src, In (key, src) (nonblank es) -> forall n, parse KStandard src = Ok n -> no_assign n = true) ->
  independent (map fst (nonblank es)) ->
  expression_node (std_ext L) parse es env nodes h = (h1, r) ->
  exists done, (forall k key v, nth_error done k = Some (key, v) -> exists src, nth_error (nonblank es) k = Some (key, src) /\
      exists g g1 sc, sees env nodes g sc (firstn k done) /\ (forall l c, hget h l = Some c -> hget g l = Some c) /\
        srun (std_ext L) parse KStandard src sc g = (g1, Ok v)) /\
    match r with
    | Ok out => length done = length (nonblank es) /\ assembled h1 out done /\ (forall l c, hget h l = Some c -> hget h1 l = Some c)
    | Err e => exists key src g sc, nth_error (nonblank es) (length done) = Some (key, src) /\ sees env nodes g sc done /\
        (forall l c, hget h l = Some c -> hget g l = Some c) /\ srun (std_ext L) parse KStandard src sc g = (h1, Err e)
    end.
Proof. exact expression_spec. Qed.
Print Assumptions C38_entries.
Definition n_entries : list (string * string) := [("a", "x + 1"); ("", "1 +"); ("b.c", "$.a * 2"); ("d", ""); ("b.e", "customer.name + 'e'"); ("f", "$.b.c")].
Definition prefixb (p q : list string) : bool := existsb (fun n => if list_eq_dec string_dec (firstn n q) p then true else false) (seq 0 (S (length q))).
Lemma independent_dec : forall ks, forallb (fun a => forallb (fun b => String.eqb a b ||
    (negb (prefixb (split_dot a) (split_dot b)) && negb (prefixb (split_dot b) (split_dot a)))) ks) ks = true -> independent ks.
Proof.
  intros ks H a b Ia Ib. rewrite forallb_forall in H. specialize (H a Ia). rewrite forallb_forall in H. specialize (H b Ib).
  apply orb_true_iff in H as [H|H]; [left; now apply String.eqb_eq|right]. apply andb_true_iff in H as [H1 H2]. apply negb_true_iff in H1, H2.
  assert (P : forall p q, prefixb p q = false -> ~ is_prefix p q).
  { intros p q E (r & ->). apply not_true_iff_false in E. apply E. apply existsb_exists. exists (length p). split; [apply in_seq; rewrite app_length; lia|].
    rewrite firstn_app, Nat.sub_diag, firstn_all, app_nil_r. destruct (list_eq_dec string_dec p p); congruence. }
  split; now apply P.
Qed.
Example C38_entries_case :
  (forall key src, In (key, src) (nonblank n_entries) -> forall n, p0 KStandard src = Ok n -> no_assign n = true) /\
  independent (map fst (nonblank n_entries)) /\ length (nonblank n_entries) = 4 /\
  (let (h1, r) := expression_node demo p0 n_entries n_env None n_heap in
   exists v, r = Ok v /\ dot_parts h1 v ["b"; "c"] = Some (VNum (dec_of_nat 6)) /\ dot_parts h1 v ["b"; "e"] = Some (VStr "Anne") /\
     dot_parts h1 v ["f"] = Some (VNum (dec_of_nat 6)) /\ dot_parts h1 v ["d"] = None) /\
  snd (expression_node demo p0 (n_entries ++ [("g", "-customer.name"); ("h", "1")]) n_env None n_heap) = Err (EOp "Negate").
Proof.
  split; [|split; [|split]].
  - intros key src I. vm_compute in I. repeat (destruct I as [E|I]; [injection E as <- <-; intros n E; vm_compute in E; injection E as <-; reflexivity|]). destruct I.
  - apply independent_dec. vm_compute. reflexivity.
  - reflexivity.
  - vm_compute. split; [eexists; repeat split|reflexivity].
Qed.

(** Without "independent", the input is not left alone: the entries [x = customer] and [x.name = 'Bob'] rename the caller's customer. *)
Theorem C38_input_kept_refuted : exists es env h, let (h1, r) := expression_node demo p0 es env None h in
  (exists v, r = Ok v) /\ dot_parts h env ["customer"; "name"] = Some (VStr "Ann") /\ dot_parts h1 env ["customer"; "name"] = Some (VStr "Bob").
Proof. exists [("y", "customer"); ("y.name", "'Bob'")], n_env, n_heap. vm_compute. repeat split. eexists. reflexivity. Qed.
Print Assumptions C38_input_kept_refuted.
(** And the output need not be a tree: the entry [c = $] puts [$] under one of its own keys. *)
Lemma no_own_part : forall h v t l k, repr h v t -> dot_parts h v [k] = Some (VObj l) -> dot_parts h (VObj l) [k] <> Some (VObj l).
Proof.
  intros h v t l k R D C. assert (exists t1, repr h (VObj l) t1) as (t1 & R1).
  { destruct v; try discriminate. cbn [dot_parts] in D. destruct (hobj h l0) as [m|] eqn:G; [|discriminate]. destruct (aget k m) as [x|] eqn:A; [|discriminate].
    cbn in D. injection D as ->. apply hobj_hget in G. inversion R as [| | | | |? m' ts G' F|]; subst. rewrite G in G'. injection G' as <-.
    destruct (Forall2_in_l _ _ _ _ F (aget_Some_in _ _ _ A)) as ((k1 & t1) & _ & _ & R1). exists t1. exact R1. }
  cbn [dot_parts] in C. destruct (hobj h l) as [m|] eqn:G; [|discriminate]. destruct (aget k m) as [x|] eqn:A; [|discriminate]. cbn in C. injection C as ->.
  apply hobj_hget in G. eapply (acyclic_obj h l t1 m k (VObj l)); eauto; [apply aget_Some_in; exact A|]. right. constructor.
Qed.
Theorem C38_output_is_tree_refuted : exists es env h t, repr h env t /\
  (forall key src, In (key, src) (nonblank es) -> forall n, p0 KStandard src = Ok n -> no_assign n = true) /\ independent (map fst (nonblank es)) /\
  let (h1, r) := expression_node demo p0 es env None h in exists v, r = Ok v /\ forall t, ~ repr h1 v t.
Proof.
  exists [("a", "1"); ("c", "$")], (VObj 0), [CObj []], (TObj []). split; [econstructor; [reflexivity|constructor]|]. split; [|split].
  - intros key src I. vm_compute in I. repeat (destruct I as [E|I]; [injection E as <- <-; intros n E; vm_compute in E; injection E as <-; reflexivity|]). destruct I.
  - apply independent_dec. vm_compute. reflexivity.
  - set (q := expression_node _ _ _ _ _ _). vm_compute in q. subst q. cbv iota. eexists. split; [reflexivity|]. intros t R.
    eapply (no_own_part _ _ _ _ "c" R); vm_compute; reflexivity.
Qed.
Print Assumptions C38_output_is_tree_refuted.

(** ** C37. In loop mode the node runs once per element, in order: run [i] gets element [i], the flag that says whether more elements
    follow, and the memory run [i-1] left. With pass-through its output is merged over the element. The first run (or merge) that fails
    ends the loop with its error; otherwise there is one output per element. *)
Theorem C37_one_run_per_element : forall X parse tr env nodes f h h1 l xs h2 r,
  ta_mode tr = MLoop ->
  match ta_field tr with None => env = VArr l /\ h1 = h | Some src => s_std X parse src (node_session env nodes) h = (h1, Ok (VArr l)) end ->
  harr h1 l = Some xs -> run_with X parse tr env nodes f h = (h2, r) ->
  exists hs ys, length hs = S (length ys) /\ nth_error hs 0 = Some h1 /\
    (forall i y, nth_error ys i = Some y -> exists x g g1 o g2, nth_error xs i = Some x /\ nth_error hs i = Some g /\
      f x (S i <? length xs) g = (g1, Ok o) /\ nth_error hs (S i) = Some g2 /\
      (if ta_pass tr then merge_clone g1 x o = (g2, Ok y) else g2 = g1 /\ y = o)) /\
    (length ys = length xs \/
     exists x g e, nth_error xs (length ys) = Some x /\ nth_error hs (length ys) = Some g /\ r = Err e /\
       (f x (S (length ys) <? length xs) g = (h2, Err e) \/
        (ta_pass tr = true /\ exists g1 o, f x (S (length ys) <? length xs) g = (g1, Ok o) /\ merge_clone g1 x o = (h2, Err e)))) /\
    (length ys = length xs -> ta_path tr = None -> ta_pass tr = false -> exists l1, r = Ok (VArr l1) /\ harr h2 l1 = Some ys).
Proof. exact run_with_calls. Qed.
Print Assumptions C37_one_run_per_element.
(** The field must give an array; if it fails to evaluate, the node fails with that error and does not run. *)
Theorem C37_field : forall X parse tr env nodes f h h1 r src,
  ta_field tr = Some src -> s_std X parse src (node_session env nodes) h = (h1, r) ->
  (forall e, r = Err e -> run_with X parse tr env nodes f h = (h1, Err e)) /\
  (forall v, r = Ok v -> ta_mode tr = MLoop -> (forall l, v <> VArr l) -> run_with X parse tr env nodes f h = (h1, Err (EOp "Expected an array"))).
Proof.
  intros X parse tr env nodes f h h1 r src F E. split.
  - intros e ->. unfold run_with. rewrite F, E. reflexivity.
  - intros v -> M N. unfold run_with. rewrite F, E, M. destruct v; auto. destruct (N l). reflexivity.
Qed.
Print Assumptions C37_field.
(** In terms of contents. Let [F] be what the node computes from one element's content. Then the node outputs [F] of its input, or in
    loop mode the array of [F] of each element (with pass-through: merged over the element), placed under the output path, and with
    pass-through merged over the node's input. *)
Theorem C37_loop_is_map : forall X parse tr env nodes f F h te input ti h1,
  repr h env te -> wf_tree te ->
  match ta_field tr with None => input = env /\ h1 = h | Some src => s_std X parse src (node_session env nodes) h = (h1, Ok input) end ->
  hext h h1 -> repr h1 input ti -> wf_tree ti -> acts f h1 F ->
  let wanted := match ta_mode tr with
                | MSingle => F ti
                | MLoop => match ti with TArr ts => do us <- traverse (over (ta_pass tr) F) ts; Ok (TArr us) | _ => Err (EOp "Expected an array") end
                end in
  match wanted with
  | Err e => exists h2, run_with X parse tr env nodes f h = (h2, Err e) /\ hext h h2
  | Ok u => exists h2 v t, hext h h2 /\ repr h2 v t /\ wf_tree t /\ teq t (placed (ta_path tr) u) = true /\
      if ta_pass tr
      then run_with X parse tr env nodes f h = merge_clone h2 env v /\
           (share_ok h2 env v -> exists h3 v3 t3, run_with X parse tr env nodes f h = (h3, Ok v3) /\ hext h h3 /\ repr h3 v3 t3 /\ teq t3 (tmerge_top te (placed (ta_path tr) u)) = true)
      else run_with X parse tr env nodes f h = (h2, Ok v)
  end.
Proof. exact run_with_content. Qed.
Print Assumptions C37_loop_is_map.
(** A node that answers [{"n": 7}], except on strings, where it fails; the items of the sample input, passed through, under [out.items]. *)
Definition seven (x : value) (more : bool) (h : heap) : heap * res value :=
  match x with VStr _ => (h, Err (EOp "no string")) | _ => let (h1, o) := new_obj h [("n", VNum (dec_of_nat 7))] in (h1, Ok o) end.
Definition seven_tree (t : tree) : res tree := match t with TStr _ => Err (EOp "no string") | _ => Ok (TObj [("n", TNum (dec_of_nat 7))]) end.
Definition n_items : transform := Transform (Some "items") (Some "out.items") MLoop true.
Example C37_case :
  (forall h, acts seven h seven_tree) /\
  traverse (over true seven_tree) [TObj [("a", TNum (dec_of_nat 1))]; TObj [("a", TNum (dec_of_nat 2)); ("b", TNull)]] =
    Ok [TObj [("a", TNum (dec_of_nat 1)); ("n", TNum (dec_of_nat 7))]; TObj [("a", TNum (dec_of_nat 2)); ("b", TNull); ("n", TNum (dec_of_nat 7))]] /\
  (let (h1, r) := run_with demo p0 n_items n_env None seven n_heap in
   exists v, r = Ok v /\ dot_parts h1 v ["x"] = Some (VNum (dec_of_nat 2)) /\
     exists l a, dot_parts h1 v ["out"; "items"] = Some (VArr l) /\ harr h1 l = Some a /\ length a = 2 /\
       map (fun y => dot_parts h1 y ["n"]) a = [Some (VNum (dec_of_nat 7)); Some (VNum (dec_of_nat 7))] /\
       map (fun y => dot_parts h1 y ["a"]) a = [Some (VNum (dec_of_nat 1)); Some (VNum (dec_of_nat 2))]) /\
  snd (run_with demo p0 (Transform (Some "map([1, 'a', 2], #)") None MLoop true) n_env None seven n_heap) = Err (EOp "no string") /\
  snd (run_with demo p0 (Transform (Some "x") None MLoop true) n_env None seven n_heap) = Err (EOp "Expected an array").
Proof.
  split; [|split; [reflexivity|split; [|split]]].
  2: { vm_compute. eexists. split; [reflexivity|]. split; [reflexivity|]. do 2 eexists. repeat split. }
  2, 3: vm_compute; reflexivity.
  intros h0 x b h t X R W.
  assert (K : forall g, g = h ++ [CObj [("n", VNum (dec_of_nat 7))]] -> exists h1 v t1, (g, Ok (VObj (length h))) = (h1, Ok v) /\ hext h h1 /\ repr h1 v t1 /\ wf_tree t1 /\
     wf_tree (TObj [("n", TNum (dec_of_nat 7))]) /\ teq t1 (TObj [("n", TNum (dec_of_nat 7))]) = true /\ share_ok h1 x v).
  { intros g ->. assert (Xg : hext h (h ++ [CObj [("n", VNum (dec_of_nat 7))]])) by (eexists; reflexivity).
    assert (Wn : wf_tree (TObj [("n", TNum (dec_of_nat 7))])) by (repeat constructor; intros []).
    exists (h ++ [CObj [("n", VNum (dec_of_nat 7))]]), (VObj (length h)), (TObj [("n", TNum (dec_of_nat 7))]).
    split; auto. split; auto. split; [eapply RObj; [apply hget_alloc_new|repeat constructor]|]. split; auto. split; auto. split; [now apply teq_refl|].
    intros l t1 A B _. exfalso. assert (C : l = length h).
    { inversion B as [|? ? ? ? G|? ? ? y ? G I Rw]; subst; auto. rewrite hget_alloc_new in G. injection G as <-. destruct I as [I|[]]. injection I as <- <-. inversion Rw. }
    subst l. assert (D : reachl h x (length h)) by (eapply reachl_back; eauto; right; exact A). pose proof (reachl_lt _ _ _ _ R D). lia. }
  inversion R; subst; cbn [seven seven_tree]; try (apply K; reflexivity). exists h. split; auto. apply hext_refl.
Qed.

(** ** C45. After the final clean-up nothing under the name [$nodes] can be reached from the result, even if the result contains itself. *)
Theorem C45_no_reserved_key : forall h v, wf_heap h -> wf_val h v ->
  forall l m, reach (clean_value h v) v (VObj l) -> hget (clean_value h v) l = Some (CObj m) -> aget "$nodes" m = None.
Proof. intros h v W V. exact (clean_removes h (wf_keys h W) v (wf_typed h v W V)). Qed.
Print Assumptions C45_no_reserved_key.
(** It changes nothing else: every object reached (not through [$nodes]) loses that key, every other cell keeps its content. *)
Theorem C45_nothing_else : forall h v, wf_heap h -> wf_val h v ->
  (forall l, (forall m, hget h l = Some (CObj m) -> ~ reach_but "$nodes" h v (VObj l)) -> hget (clean_value h v) l = hget h l) /\
  (forall l m, reach_but "$nodes" h v (VObj l) -> hget h l = Some (CObj m) -> hget (clean_value h v) l = Some (CObj (adel "$nodes" m))) /\
  (forall t, repr h v t -> repr (clean_value h v) v (strip "$nodes" t)).
Proof.
  intros h v W V. pose proof (clean_cells h (wf_keys h W) v (wf_typed h v W V)) as (_ & A & B). split; [exact A|split; [exact B|]].
  exact (clean_content h (wf_keys h W) v).
Qed.
Print Assumptions C45_nothing_else.
Ltac heap_cell := unfold wf_cell; repeat first [split | apply Forall_cons | apply Forall_nil | apply NoDup_cons | apply NoDup_nil];
  cbn; try exact Logic.I; try (eexists; reflexivity); intuition discriminate.
(** A result with the bookkeeping in three places, one of them in an array, and an object that contains itself. *)
Definition c_heap : heap :=
  [CObj [("a", VArr 1); ("$nodes", VObj 3); ("me", VObj 0)]; CArr [VObj 2; VNum (dec_of_nat 1)]; CObj [("$nodes", VNull); ("k", VObj 0)]; CObj [("$nodes", VNull)]].
Example C45_case : wf_heap c_heap /\ wf_val c_heap (VObj 0) /\
  clean_value c_heap (VObj 0) = [CObj [("a", VArr 1); ("me", VObj 0)]; CArr [VObj 2; VNum (dec_of_nat 1)]; CObj [("k", VObj 0)]; CObj [("$nodes", VNull)]].
Proof.
  split; [|split; [eexists; reflexivity|vm_compute; reflexivity]].
  intros l c G. destruct l as [|[|[|[|[|l]]]]]; cbn in G; try (injection G as <-); try discriminate; heap_cell.
Qed.
(** The claim that only the engine's own entries go is false: a [$nodes] key of the caller's input that reaches the result is removed, from
    the input object itself. *)
Theorem C45_own_data_kept_refuted : exists h env, wf_heap h /\ (exists t, repr h env t) /\ dot_parts h env ["c"; "$nodes"] = Some (VBool true) /\
  let (h1, r) := expression_node demo p0 [("k", "c")] env None h in
  exists v, r = Ok v /\ dot_parts (clean_value h1 v) env ["c"; "$nodes"] = None.
Proof.
  exists [CObj [("c", VObj 1)]; CObj [("$nodes", VBool true)]], (VObj 0). split; [|split; [|split; [reflexivity|]]].
  - intros l c G. destruct l as [|[|[|l]]]; cbn in G; try (injection G as <-); try discriminate; heap_cell.
  - exists (TObj [("c", TObj [("$nodes", TBool true)])]). eapply RObj; [reflexivity|]. constructor; [|constructor]. split; [reflexivity|]. cbn. eapply RObj; [reflexivity|]. constructor; [|constructor]. split; [reflexivity|constructor].
  - vm_compute. eexists. split; reflexivity.
Qed.
Print Assumptions C45_own_data_kept_refuted.
