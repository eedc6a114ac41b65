(** Properties of the analysis that reports what an expression reads: C63. *)
From Coq Require Import String ZArith List Bool Arith.
From Verif Require Import Base Dec Value Heap Ast Ops Compiler Vm Eval Funcs Samples Lexer Parser Print HeapSpec TreeFacts PureFacts
  RunSpec RepFacts ContentFacts Deps DepsSpec DepsFacts DepsClaims PropSyntax TextSpec.
From Verif Require ParseSane.
Import ListNotations.
Local Open Scope string_scope.
Local Open Scope nat_scope.
Local Open Scope list_scope.

(** C63. Two contexts that agree on every property reported for an expression without assignments, and on
    [$], give the same outcome: nothing else is read. [unary] tells whether the expression is a condition
    on [$]. Closures are nested less than 32 deep. *)
Theorem C63_reads_reported : forall L n (unary : bool), plain_lib L ->
  no_assign n = true -> sane n = true -> nesting n < 32 ->
  settled_by L n (fun t1 t2 => input_at t1 ["$"] = input_at t2 ["$"] /\
                               agree_on_reads (walk_with (if unary then ["$"] else []) n) t1 t2).
Proof. exact reads_reported. Qed.
Print Assumptions C63_reads_reported.

(** An expression with an alias, nested closures, a computed access and [$root]; two contexts that agree on
    what it reads and differ elsewhere. *)
Definition alias_src : string := "map(order.items as it, it.qty * rate[it.kind].v + count(tags, it.qty > #) + $root.base)".
Definition alias_node : node :=
  Eval vm_compute in match parse_source read_num FStandard alias_src with Some (Ok n) => n | _ => NNull end.
Definition alias_heap (z : Z) : heap :=
  [CObj [("qty", num 3); ("kind", VStr "a")];
   CArr [VObj 0];
   CObj [("items", VArr 1); ("note", num z)];
   CObj [("v", num 5)];
   CObj [("a", VObj 3)];
   CArr [num 1; num 7];
   CObj [("order", VObj 2); ("rate", VObj 4); ("tags", VArr 5); ("base", num 100); ("other", num z)]].
Definition alias_ctx (z : Z) : tree :=
  let r := TObj [("a", TObj [("v", TNum (dec_of_Z 5))])] in
  let o := TObj [("items", TArr [TObj [("qty", TNum (dec_of_Z 3)); ("kind", TStr "a")]]); ("note", TNum (dec_of_Z z))] in
  TObj [("order", o); ("rate", r); ("tags", TArr [TNum (dec_of_Z 1); TNum (dec_of_Z 7)]); ("base", TNum (dec_of_Z 100)); ("other", TNum (dec_of_Z z))].
Example C63_reads_reported_case :
  parse_source read_num FStandard alias_src = Some (Ok alias_node) /\ plain_lib demo_lib /\
  no_assign alias_node = true /\ sane alias_node = true /\ nesting alias_node = 2 /\
  map pr_path (filter (fun x => negb (pr_alias x)) (flatten_reads (walk alias_node))) = [["order"; "items"]; ["rate"]; ["tags"]; ["$root"; "base"]] /\
  repr (alias_heap 1) (VObj 6) (alias_ctx 1) /\ repr (alias_heap 2) (VObj 6) (alias_ctx 2) /\
  is_context (alias_ctx 1) = true /\ alias_ctx 1 <> alias_ctx 2 /\
  input_at (alias_ctx 1) ["$"] = input_at (alias_ctx 2) ["$"] /\ agree_on_reads (walk alias_node) (alias_ctx 1) (alias_ctx 2) /\
  compiles demo alias_node /\
  exists l h, evaluate demo alias_node (scope_new (VObj 6)) (alias_heap 1) = (Ok (VArr l), h) /\ hget h l = Some (CArr [num 116]).
Proof.
  assert (R : forall z, repr (alias_heap z) (VObj 6) (alias_ctx z))
    by (intros z; repeat (first [eapply RObj; [reflexivity|] | eapply RArr; [reflexivity|] | constructor | split; [reflexivity|]])).
  split; [vm_compute; reflexivity|]. split; [exact demo_plain|]. do 4 (split; [vm_compute; reflexivity|]). do 2 (split; [apply R|]).
  split; [reflexivity|]. split; [discriminate|]. split; [reflexivity|]. split.
  - intros x Hx Ha. vm_compute in Hx. repeat (destruct Hx as [<-|Hx]; [try discriminate Ha; vm_compute; reflexivity|]). contradiction.
  - split; [eexists; vm_compute; reflexivity|]. eexists. eexists. split; [vm_compute; reflexivity|]. vm_compute. reflexivity.
Qed.

(** The same for every text the parser accepts, an expression or ([fl = FUnary]) a condition on [$]. *)
Theorem C63_text : forall L fl src n, plain_lib L -> parse_source read_num fl src = Some (Ok n) -> root_unquoted src -> no_assign n = true -> nesting n < 32 ->
  settled_by L n (fun t1 t2 => input_at t1 ["$"] = input_at t2 ["$"] /\ agree_on_reads (walk_with (match fl with FUnary => ["$"] | FStandard => [] end) n) t1 t2).
Proof.
  intros L fl src n HL P R A N. pose proof (ParseSane.source_sane _ _ _ _ R P) as Sn.
  destruct fl; [apply (reads_reported L n false)|apply (reads_reported L n true)]; assumption.
Qed.
Print Assumptions C63_text.
Definition cell_src : string := "> limit and all(tags as t, t.price > base.price)".
Example C63_text_case : exists n, parse_source read_num FUnary cell_src = Some (Ok n) /\ root_unquoted cell_src /\ root_unquoted alias_src /\ no_assign n = true /\ nesting n < 32 /\ map pr_path (filter (fun x => negb (pr_alias x)) (flatten_reads (walk_with ["$"] n))) = [["limit"]; ["tags"]; ["base"; "price"]].
Proof.
  eexists. split; [vm_compute; reflexivity|]. split; [|split].
  1,2: intros ts H t Ht K V; vm_compute in H; injection H as <-; repeat (destruct Ht as [<-|Ht]; [discriminate K || discriminate V|]); contradiction.
  split; [vm_compute; reflexivity|]. split; [vm_compute; auto with arith|]. vm_compute. reflexivity.
Qed.

(** Each of the hypotheses is needed. [$] is read, yet never reported: *)
Theorem C63_dollar_refuted :
  exists n, parse_source read_num FStandard "$.x" = Some (Ok n) /\ plain_lib demo_lib /\ no_assign n = true /\ sane n = true /\ nesting n < 32 /\
  ~ settled_by demo_lib n (agree_on_reads (walk n)).
Proof.
  exists dollar_expr. split; [vm_compute; reflexivity|]. split; [exact demo_plain|]. do 2 (split; [reflexivity|]). split; [vm_compute; auto with arith|].
  exact dollar_unsettled.
Qed.
Print Assumptions C63_dollar_refuted.
(** a name assigned in one branch is taken for assigned in the other as well: *)
Theorem C63_assignment_refuted :
  exists n, parse_source read_num FStandard "(c ? (a = 1; 2) : 3) + a" = Some (Ok n) /\ plain_lib demo_lib /\ sane n = true /\ nesting n < 32 /\
  ~ settled_by demo_lib n (fun t1 t2 => input_at t1 ["$"] = input_at t2 ["$"] /\ agree_on_reads (walk n) t1 t2).
Proof.
  exists branch_expr. split; [vm_compute; reflexivity|]. split; [exact demo_plain|]. split; [reflexivity|]. split; [vm_compute; auto with arith|].
  exact branch_unsettled.
Qed.
Print Assumptions C63_assignment_refuted.
(** and what is read in 32 closures or more inside one another is left out. *)
Theorem C63_nesting_refuted :
  exists n, nesting n = 32 /\ plain_lib demo_lib /\ no_assign n = true /\ sane n = true /\
  ~ settled_by demo_lib n (fun t1 t2 => input_at t1 ["$"] = input_at t2 ["$"] /\ agree_on_reads (walk n) t1 t2).
Proof.
  exists (deep_expr 32). split; [vm_compute; reflexivity|]. split; [exact demo_plain|]. do 2 (split; [reflexivity|]). exact deep_unsettled.
Qed.
Print Assumptions C63_nesting_refuted.

(** What is reported is written in the expression. *)
Theorem C63_names_written : forall n locals x k, In x (flatten_reads (walk_with locals n)) -> In k (pr_path x) -> In k (names n).
Proof. exact reported_written. Qed.
Print Assumptions C63_names_written.
Example C63_names_written_case : map pr_path (flatten_reads (walk alias_node)) =
  [["order"; "items"]; ["order"; "items"; "qty"]; ["rate"]; ["order"; "items"; "kind"]; ["rate"; "v"]; ["tags"]; ["order"; "items"; "qty"]; ["$root"; "base"]].
Proof. vm_compute. reflexivity. Qed.

(** Where only dotted names are read, exactly these are reported, in the order they are written. *)
Theorem C63_dotted_exact : forall n ps, plain_reads n ps -> flatten_reads (walk n) = map (fun p => PRead p false false) ps.
Proof. exact plain_exact. Qed.
Print Assumptions C63_dotted_exact.
Example C63_dotted_exact_case :
  exists n, parse_source read_num FStandard "a.b > 1 ? max([c, d.e.f]) : -g" = Some (Ok n) /\ plain_reads n [["a"; "b"]; ["c"]; ["d"; "e"; "f"]; ["g"]].
Proof.
  eexists. split; [vm_compute; reflexivity|].
  apply (PRCond _ _ _ [["a"; "b"]] [["c"]; ["d"; "e"; "f"]] [["g"]]).
  - apply (PRBin _ _ _ [["a"; "b"]] []); [exact (PRPath "a" ["b"] ltac:(discriminate))|constructor].
  - constructor. apply (PLCons _ _ [["c"]; ["d"; "e"; "f"]] []); [|constructor]. constructor.
    apply (PLCons _ _ [["c"]] [["d"; "e"; "f"]]); [exact (PRPath "c" [] ltac:(discriminate))|].
    apply (PLCons _ _ [["d"; "e"; "f"]] []); [exact (PRPath "d" ["e"; "f"] ltac:(discriminate))|constructor].
  - constructor. exact (PRPath "g" [] ltac:(discriminate)).
Qed.

(** A property of the elements is reported under the name of the collection. *)
Theorem C63_alias_exact : forall f x l a k, x <> "$" -> a <> "$" ->
  flatten_reads (walk (NCall (FClosure f) [dots x l; NClosure (dots a k) (Some a)])) =
  [PRead (x :: l) false false; PRead (x :: l ++ k) true false].
Proof. exact alias_exact. Qed.
Print Assumptions C63_alias_exact.
Example C63_alias_exact_case : parse_source read_num FStandard "map(order.items as it, it.price.net)" =
  Some (Ok (NCall (FClosure ClMap) [dots "order" ["items"]; NClosure (dots "it" ["price"; "net"]) (Some "it")])).
Proof. vm_compute. reflexivity. Qed.

(** So is a property of the elements of a collection inside the elements of another one. *)
Theorem C63_nested_alias_exact : forall f g x l a k b m, x <> "$" -> a <> "$" -> b <> "$" -> a <> b ->
  flatten_reads (walk (NCall (FClosure f) [dots x l; NClosure (NCall (FClosure g) [dots a k; NClosure (dots b m) (Some b)]) (Some a)])) =
  [PRead (x :: l) false false; PRead (x :: l ++ k) true false; PRead (x :: l ++ k ++ m) true false].
Proof. exact nested_alias_exact. Qed.
Print Assumptions C63_nested_alias_exact.
Example C63_nested_alias_exact_case : parse_source read_num FStandard "map(order.items as it, sum(map(it.parts as p, p.price.net)))" <> None /\
  parse_source read_num FStandard "map(order.items as it, some(it.parts as p, p.price.net))" =
  Some (Ok (NCall (FClosure ClMap) [dots "order" ["items"];
    NClosure (NCall (FClosure ClSome) [dots "it" ["parts"]; NClosure (dots "p" ["price"; "net"]) (Some "p")]) (Some "it")])).
Proof. split; [vm_compute; discriminate|]. vm_compute. reflexivity. Qed.

(** What is read through an alias of something that is no property is reported as unresolved, never as a property of the context. *)
Theorem C63_unresolved_exact : forall f ds a k, a <> "$" ->
  flatten_reads (walk (NCall (FClosure f) [NArray (map NNumber ds); NClosure (dots a k) (Some a)])) = [PRead (a :: k) true true].
Proof. exact unresolved_exact. Qed.
Print Assumptions C63_unresolved_exact.
Example C63_unresolved_exact_case : parse_source read_num FStandard "map([1, 2] as it, it.price)" =
  Some (Ok (NCall (FClosure ClMap) [NArray (map NNumber [dec_of_Z 1; dec_of_Z 2]); NClosure (dots "it" ["price"]) (Some "it")])).
Proof. vm_compute. reflexivity. Qed.

(** After an assignment to a path, reads at it and below it are not reported; all others are. *)
Theorem C63_assigned_exact : forall s d x l, x <> "$" ->
  let reported := flatten_reads (walk (NAssign [(NString s, NNumber d)] (Some (dots x l)))) in
  ((exists r, x :: l = split_dot s ++ r) -> reported = []) /\
  (~ (exists r, x :: l = split_dot s ++ r) -> reported = [PRead (x :: l) false false]).
Proof.
  intros s d x l N. cbv zeta. rewrite (assigned_exact s d x l N). rewrite <- starts_iff. split.
  - intros ->. reflexivity.
  - destruct (starts (x :: l) (split_dot s)); [intros H; exfalso; apply H; reflexivity|reflexivity].
Qed.
Print Assumptions C63_assigned_exact.
Example C63_assigned_exact_case : parse_source read_num FStandard "a.b = 1; a" = Some (Ok (NAssign [(NString "a.b", NNumber (dec_of_Z 1))] (Some (dots "a" [])))) /\
  ~ (exists r, ["a"] = split_dot "a.b" ++ r) /\ (exists r, ["a"; "b"; "c"] = split_dot "a.b" ++ r).
Proof. split; [vm_compute; reflexivity|]. split; [intros [r H]; discriminate H|exists ["c"]; reflexivity]. Qed.
