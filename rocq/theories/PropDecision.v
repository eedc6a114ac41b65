(** Decision tables inside decisions: which index a table uses (C28). *)
From Coq Require Import String Ascii ZArith Lia Bool List Arith.
From Verif Require Import Base Dec Value Heap HeapSpec HeapFacts Ast Ops Compiler Vm Eval Funcs MemoFacts Isolate Session Graph Walker Nodes NodeSpec Engine
  Lexer Parser StateClaims Samples PropSyntax PropNodes Table TableSpec Discriminant IndexFacts PropTables Decision.
Import ListNotations.
Local Open Scope string_scope.
Local Open Scope list_scope.
Local Open Scope nat_scope.

Lemma dt_indexes_old : forall parse l m id, ~ In id (map (@gn_id _) l) -> aget id (dt_indexes parse l m) = aget id m.
Proof.
  intros parse. induction l as [|nd l IH]; intros m id N; [reflexivity|]. cbn [dt_indexes map In] in *.
  destruct (gn_kind nd) as [| |p l0|[t es|t key|u]]; try (apply IH; tauto). rewrite IH by tauto. destruct (build_index _ _); [|reflexivity]. apply aget_aset_ne. intuition.
Qed.
Lemma dt_indexes_own : forall parse l m nd u, NoDup (map (@gn_id _) l) -> (forall nd, In nd l -> aget (gn_id nd) m = None) -> In nd l -> gn_kind nd = KdTask (TOther u) ->
  aget (gn_id nd) (dt_indexes parse l m) = build_index (index_arm parse) (dt_table u).
Proof.
  intros parse. induction l as [|x l IH]; intros m nd u Nd Hm I K; [destruct I|]. cbn [map] in Nd. apply NoDup_cons_iff in Nd as [N1 N2]. destruct I as [->|I].
  - cbn [dt_indexes]. rewrite K, dt_indexes_old by exact N1. destruct (build_index _ _) as [ix|]; [apply aget_aset_eq|apply Hm; now left].
  - cbn [dt_indexes]. assert (Ne : gn_id nd <> gn_id x) by (intros E; apply N1; rewrite <- E; now apply in_map).
    assert (Hm' : forall y, In y l -> aget (gn_id y) m = None) by (intros y Iy; apply Hm; now right).
    destruct (gn_kind x) as [| |p l0|[t es|t key|v]]; try (apply IH; auto; fail).
    apply IH; auto. intros y Iy. destruct (build_index _ _); [|auto]. rewrite aget_aset_ne; [auto|]. intros E. apply N1. rewrite E. now apply in_map.
Qed.
(** ** C28. If no two nodes share an id, compiling gives every table exactly its own index, and changes nothing else. *)
Theorem C28_own_index : forall parse (c : decision), NoDup (map (@gn_id _) (c_nodes c)) ->
  Forall2 (fun nd nd' => gn_id nd' = gn_id nd /\ gn_name nd' = gn_name nd /\
      match gn_kind nd with
      | KdTask (TOther u) => gn_kind nd' = KdTask (TOther (DT (dt_transform u) (dt_table u) (build_index (index_arm parse) (dt_table u))))
      | k => gn_kind nd' = k
      end) (c_nodes c) (c_nodes (compile_content parse c)) /\ c_edges (compile_content parse c) = c_edges c.
Proof.
  intros parse c Nd. split; [|reflexivity]. unfold compile_content. cbn [c_nodes]. set (m := dt_indexes parse (c_nodes c) []).
  assert (Hm : forall nd u, In nd (c_nodes c) -> gn_kind nd = KdTask (TOther u) -> aget (gn_id nd) m = build_index (index_arm parse) (dt_table u)).
  { intros nd u I K. apply dt_indexes_own; auto. }
  clearbody m. induction (c_nodes c) as [|x l IH]; [constructor|]. cbn [map]. constructor.
  - split; [reflexivity|]. split; [reflexivity|]. unfold with_index. cbn [gn_kind]. destruct (gn_kind x) as [| |p l0|[t es|t key|v]] eqn:K; try reflexivity. now rewrite (Hm x v (or_introl eq_refl) K).
  - apply IH; [now inversion Nd|]. intros nd u I. apply Hm. now right.
Qed.
Print Assumptions C28_own_index.
(** So a compiled table node runs its table with its index, to which C26, C27 and C28 apply, inside the transform attributes (C37). *)
Definition no_schema (nd : gnode (task dt)) (v : value) (h : heap) : res unit := Ok tt.
Definition run_decision (trace : bool) (c : decision) : option (option tree) :=
  match evaluate_decision demo p0 dt (run_table demo p0 trace) no_schema (fun _ => None) 10 c n_env n_heap with
  | Some (h1, Ok v) => Some (reify 20 h1 v)
  | _ => None
  end.
Definition table_node_ (id : string) (t : table) : gnode (task dt) := GNode id id (KdTask (TOther (DT plain_transform t None))).
(** Two tables: the first tests [x], the second the name. *)
Definition by_x : table :=
  Table (map (fun n => [("i", n); ("o", ("'x is ' + '" ++ n ++ "'")%string)]) ["1"; "2"; "3"; "4"; "5"; "6"; "7"; "8"]) [InCol "i" (Some "x")] [OutCol "o" "note"] PFirst.
Definition by_name : table :=
  Table (map (fun n => [("i", ("'" ++ n ++ "'")%string); ("o", ("'" ++ n ++ "'")%string)]) ["Ann"; "Bob"; "Cy"; "Dan"; "Eve"; "Fay"; "Gus"; "Hal"]) [InCol "i" (Some "customer.name")] [OutCol "o" "hello"] PFirst.
Definition two_tables (a b : string) : decision :=
  Content [GNode "in" "in" KdInput; table_node_ a by_x; table_node_ b by_name] [CEdge "in" a None; CEdge "in" b None].
Example C28_own_index_case : NoDup (map (@gn_id _) (c_nodes (two_tables "t1" "t2"))) /\
  run_decision false (two_tables "t1" "t2") = Some (Some (TObj [("note", TStr "x is 2"); ("hello", TStr "Ann")])) /\
  run_decision false (compile_content p0 (two_tables "t1" "t2")) = Some (Some (TObj [("note", TStr "x is 2"); ("hello", TStr "Ann")])) /\
  run_decision true (compile_content p0 (two_tables "t1" "t2")) = Some (Some (TObj [("note", TStr "x is 2"); ("hello", TStr "Ann")])).
Proof. split; [repeat constructor; cbn; intuition discriminate|]. vm_compute. repeat split. Qed.
(** Node ids that are not distinct are accepted, and then a table is evaluated with another table's index: compiling changes the
    decision's result. *)
Theorem C28_shared_id_refuted : exists c : decision, (exists g, build_graph c = inr g /\ validate g = None) /\
  run_decision false c <> None /\ run_decision false (compile_content p0 c) <> None /\ run_decision false c <> run_decision false (compile_content p0 c).
Proof.
  exists (Content [GNode "in" "in" KdInput; table_node_ "t" by_name; table_node_ "t" (Table (firstn 3 (tb_rows by_x)) (tb_in by_x) (tb_out by_x) PFirst)] [CEdge "in" "t" None]).
  split; [eexists; split; vm_compute; reflexivity|]. vm_compute. repeat split; discriminate.
Qed.
Print Assumptions C28_shared_id_refuted.
