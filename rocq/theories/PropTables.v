(** C26-C30, C46: decision tables, the index over their rows, and the analyser of their cells. *)
From Coq Require Import String Ascii ZArith QArith Lia Bool List Arith.
From Verif Require Import Base Dec Value Heap HeapSpec TreeFacts HeapFacts Ast Ops Compiler Vm Eval Funcs PureFacts RunSpec RepFacts ContentFacts MemoFacts Isolate Session
  Graph Walker Lexer Parser Nodes NodeSpec StateClaims Samples PropSyntax PropNodes Table TableSpec TableFacts Discriminant CoverSpec CoverFacts ArmFacts IndexFacts.
Import ListNotations.
Local Open Scope string_scope.
Local Open Scope list_scope.
Local Open Scope nat_scope.

(** *** Checking that a concrete table is in order. *)
Definition option_list {A} (o : option A) : list A := match o with Some x => [x] | None => [] end.
Definition std_list (t : table) : list string :=
  flat_map (fun c => option_list (ic_field c)) (tb_in t) ++
  flat_map (fun c => match ic_field c with None => flat_map (fun r => option_list (text (ic_id c) r)) (tb_rows t) | Some _ => [] end) (tb_in t) ++
  flat_map (fun o => flat_map (fun r => option_list (text (oc_id o) r)) (tb_rows t)) (tb_out t).
Definition unary_list (t : table) : list (string * string) :=
  flat_map (fun c => match ic_field c with Some f => flat_map (fun r => map (pair f) (option_list (text (ic_id c) r))) (tb_rows t) | None => [] end) (tb_in t).
Lemma std_listed : forall t src, std_source t src -> In src (std_list t).
Proof.
  intros t src [(c & I & E)|[(c & r & I & J & E & Q)|(o & r & I & J & Q)]]; unfold std_list; rewrite !in_app_iff.
  - left. apply in_flat_map. exists c. split; [exact I|]. rewrite E. now left.
  - right. left. apply in_flat_map. exists c. split; [exact I|]. rewrite E. apply in_flat_map. exists r. split; [exact J|]. rewrite Q. now left.
  - right. right. apply in_flat_map. exists o. split; [exact I|]. apply in_flat_map. exists r. split; [exact J|]. rewrite Q. now left.
Qed.
Lemma unary_listed : forall t f src, unary_source t f src -> In (f, src) (unary_list t).
Proof.
  intros t f src (c & r & I & J & E & Q). unfold unary_list. apply in_flat_map. exists c. split; [exact I|]. rewrite E. apply in_flat_map. exists r. split; [exact J|]. rewrite Q. now left.
Qed.
Definition no_panic {A} (r : res A) : bool := match r with Err (EPanic _) => false | _ => true end.
Lemma no_panic_ok : forall A (r : res A), no_panic r = true -> forall m, r <> Err (EPanic m).
Proof. intros A [a|[]] H m E; try discriminate. Qed.
Definition in_order_check (X : ext) (parse : ekind -> string -> res node) (env : value) (nodes : option value) (h : heap) (t : table) : bool :=
  forallb (fun src => match parse KStandard src with Ok n => no_assign n && reads not_dollar false n | Err _ => true end &&
                      no_panic (snd (srun X parse KStandard src (start env nodes) h))) (std_list t) &&
  forallb (fun fs => match parse KUnary (snd fs) with Ok n => no_assign n | Err _ => true end &&
                     match srun X parse KStandard (fst fs) (start env nodes) h with
                     | (h1, Ok v) => no_panic (snd (srun X parse KUnary (snd fs) (set_local (start env nodes) "$" v) h1))
                     | _ => true
                     end) (unary_list t).
Lemma in_order_dec : forall L parse env nodes h t, plain_lib L -> has_tree h env -> (forall n, nodes = Some n -> has_tree h n) ->
  in_order_check (std_ext L) parse env nodes h t = true -> in_order L parse env nodes h t.
Proof.
  intros L parse env nodes h t HL He Hn C. apply andb_true_iff in C as [C1 C2]. rewrite forallb_forall in C1, C2.
  split; [exact HL|]. split; [exact He|]. split; [exact Hn|]. split; split.
  - intros src n Hs Pn. apply std_listed in Hs. specialize (C1 _ Hs). apply andb_true_iff in C1 as [C1 _]. rewrite Pn in C1. now apply andb_true_iff in C1.
  - intros f src n Hu Pn. apply unary_listed in Hu. specialize (C2 _ Hu). cbn [fst snd] in C2. apply andb_true_iff in C2 as [C2 _]. now rewrite Pn in C2.
  - intros src m Hs. apply std_listed in Hs. specialize (C1 _ Hs). apply andb_true_iff in C1 as [_ C1]. now apply no_panic_ok.
  - intros f src h1 v m Hu Rn. apply unary_listed in Hu. specialize (C2 _ Hu). cbn [fst snd] in C2. apply andb_true_iff in C2 as [_ C2]. rewrite Rn in C2. now apply no_panic_ok.
Qed.

(** The input of PropNodes: [{"x": 2, "customer": {"name": "Ann"}, "items": [{"a": 1}, {"a": 2, "b": null}]}]. *)
Lemma n_env_tree : has_tree n_heap n_env.
Proof.
  exists (TObj [("x", TNum (dec_of_nat 2)); ("customer", TObj [("name", TStr "Ann")]); ("items", TArr [TObj [("a", TNum (dec_of_nat 1))]; TObj [("a", TNum (dec_of_nat 2)); ("b", TNull)]])]).
  unfold n_env. eapply RObj; [reflexivity|]. repeat (constructor; [split; [reflexivity|]|]); try constructor.
  - eapply RObj; [reflexivity|]. repeat constructor.
  - eapply RArr; [reflexivity|]. repeat constructor; (eapply RObj; [reflexivity|]; repeat constructor).
Qed.
(** A table with nine rows. The index covers the first and the second input column; the last one is a condition. Row 2 fails in its
    output, row 3 holds, row 5 holds as well. *)
Definition t_in : list in_col := [InCol "i1" (Some "x"); InCol "i2" (Some "customer.name"); InCol "i3" None].
Definition t_out : list out_col := [OutCol "o1" "discount"; OutCol "o2" " info.who "; OutCol "o3" ""].
Definition t_rows : list row :=
  [[("i1", "1"); ("o1", "10")]; [("i1", "2"); ("i2", "'Bob'"); ("o1", "20")]; [("i1", "1, 2"); ("o1", "x + null.y + 'a'")];
   [("i1", "2"); ("i2", "'Ann', 'Bob'"); ("o1", "x * 20"); ("o2", "customer"); ("o3", "1")]; [("i1", "> 7"); ("o1", "50")];
   [("i1", "[1..3]"); ("i2", ""); ("i3", "len(items) == 2"); ("o1", "60")]; [("i3", "false"); ("o1", "70")]; [("i1", "true"); ("o1", "80")]; [("i1", "3 +"); ("o1", "90")]].
Definition t_first : table := Table t_rows t_in t_out PFirst.
Definition t_collect : table := Table t_rows t_in t_out PCollect.
Definition t_columns : list out_col := [OutCol "o1" "all.discounts[]"; OutCol "o2" "info.who"; OutCol "o3" "ones []"].
Definition t_mixed : table := Table t_rows t_in t_columns PFirst.
Definition d2 := dec_of_nat 2.
Example t_first_index : exists ix, build_index (index_arm p0) t_first = Some ix /\
  map (fun o => match o with Some x => Some (rev (cx_captured x), rev (cx_fallback x), rev (rows_for x (VNum d2)), rev (rows_for x (VStr "Ann"))) | None => None end) ix =
  [Some ([0; 1; 2; 3; 7], [4; 5; 6; 8], [1; 2; 3], []); Some ([1; 3], [0; 2; 4; 5; 6; 7; 8], [], [3]); None].
Proof. eexists. split; [vm_compute; reflexivity|vm_compute; reflexivity]. Qed.
Lemma t_in_order : in_order demo_lib p0 n_env None n_heap t_first /\ in_order demo_lib p0 n_env None n_heap t_collect /\ in_order demo_lib p0 n_env None n_heap t_mixed.
Proof.
  split; [|split]; (apply in_order_dec; [exact demo_plain|exact n_env_tree|discriminate|vm_compute; reflexivity]).
Qed.
Definition table_tree (tr : bool) (ix : option index) (t : table) : option tree :=
  match table_node demo p0 tr ix t n_env None n_heap with (h1, Ok v) => reify 20 h1 v | _ => None end.

(** ** C26. Under the first-hit policy the table gives the output of the first row that says something; null if none does. A row says
    something when all its input cells hold and all its output cells evaluate ([row_says]); blank cells hold, blank output cells are
    left out. Each expression is judged in the table's input alone. Tracing and the index do not matter. The input is not written to. *)
Theorem C26_first_hit : forall L parse env nodes h tb tr ix, in_order L parse env nodes h tb -> with_or_without parse tb ix ->
  tb_policy tb = PFirst -> (forall o, In o (tb_out tb) -> snd (write_path o) = false) ->
  exists os, Forall2 (row_says (std_ext L) parse env nodes h tb) (tb_rows tb) os /\
    gives h (table_node (std_ext L) parse tr ix tb env nodes h) (hd TNull (somes os)).
Proof. exact first_hit_table. Qed.
Print Assumptions C26_first_hit.
(** Spelt out: row [i] says [t], no row above it says anything. *)
Theorem C26_first_row : forall L parse env nodes h tb tr ix i r t, in_order L parse env nodes h tb -> with_or_without parse tb ix ->
  tb_policy tb = PFirst -> (forall o, In o (tb_out tb) -> snd (write_path o) = false) ->
  nth_error (tb_rows tb) i = Some r -> row_says (std_ext L) parse env nodes h tb r (Some t) ->
  (forall j r', j < i -> nth_error (tb_rows tb) j = Some r' -> row_says (std_ext L) parse env nodes h tb r' None) ->
  gives h (table_node (std_ext L) parse tr ix tb env nodes h) t.
Proof. exact first_row. Qed.
Print Assumptions C26_first_row.
Theorem C26_no_row : forall L parse env nodes h tb tr ix, in_order L parse env nodes h tb -> with_or_without parse tb ix ->
  tb_policy tb = PFirst -> (forall o, In o (tb_out tb) -> snd (write_path o) = false) ->
  (forall r, In r (tb_rows tb) -> row_says (std_ext L) parse env nodes h tb r None) ->
  gives h (table_node (std_ext L) parse tr ix tb env nodes h) TNull.
Proof. exact no_row. Qed.
Print Assumptions C26_no_row.
Definition row3_tree : tree := TObj [("discount", TNum (Dec 40 0)); ("info", TObj [("who", TObj [("name", TStr "Ann")])])].
Example C26_case : in_order demo_lib p0 n_env None n_heap t_first /\ (forall o, In o (tb_out t_first) -> snd (write_path o) = false) /\
  map (holds demo p0 n_env None n_heap t_first) t_rows = [false; false; true; true; false; true; false; false; false] /\
  table_tree false None t_first = Some row3_tree /\ table_tree false (build_index (index_arm p0) t_first) t_first = Some row3_tree /\
  table_tree false None (Table [] t_in t_out PFirst) = Some TNull.
Proof.
  split; [apply t_in_order|]. split; [intros o [<-|[<-|[<-|[]]]]; reflexivity|]. vm_compute. repeat split.
Qed.

(** ** C27. Under the collect policy the table gives the outputs of exactly the rows that say something, in order. *)
Theorem C27_collect : forall L parse env nodes h tb tr ix, in_order L parse env nodes h tb -> with_or_without parse tb ix ->
  tb_policy tb = PCollect ->
  exists os, Forall2 (row_says (std_ext L) parse env nodes h tb) (tb_rows tb) os /\
    gives h (table_node (std_ext L) parse tr ix tb env nodes h) (TArr (somes os)).
Proof. exact collect_table. Qed.
Print Assumptions C27_collect.
(** Under the first-hit policy with collected columns: [scan] and [collected] say who contributes what. *)
Theorem C27_collected_columns : forall L parse env nodes h tb tr ix, in_order L parse env nodes h tb -> with_or_without parse tb ix ->
  tb_policy tb = PFirst -> (exists o, In o (tb_out tb) /\ snd (write_path o) = true) ->
  exists rs, Forall2 (fun r mv => fst mv = holds (std_ext L) parse env nodes h tb r /\
      cells_yield (std_ext L) parse env nodes h (written (numbered (tb_out tb)) r) (snd mv)) (tb_rows tb) rs /\
    gives h (table_node (std_ext L) parse tr ix tb env nodes h) (match scan rs with Some (t, vs) => collected tb vs t | None => TNull end).
Proof. exact first_collect_table. Qed.
Print Assumptions C27_collected_columns.
(** Columns whose field ends in [[]] are the collected ones. White space around the field and before the brackets does not matter. *)
Theorem C27_collected_field : forall id a s c b, spaces a = true -> solid s -> spaces c = true -> spaces b = true ->
  write_path (OutCol id (a ++ s ++ c ++ "[]" ++ b)%string) = (s, true).
Proof. exact column_collected. Qed.
Print Assumptions C27_collected_field.
Theorem C27_plain_field : forall id a s b, spaces a = true -> solid s -> spaces b = true -> (forall p, s <> (p ++ "[]")%string) ->
  write_path (OutCol id (a ++ s ++ b)%string) = (s, false).
Proof. exact column_plain. Qed.
Print Assumptions C27_plain_field.
Example C27_case : in_order demo_lib p0 n_env None n_heap t_collect /\ in_order demo_lib p0 n_env None n_heap t_mixed /\
  table_tree false None t_collect = Some (TArr [row3_tree; TObj [("discount", TNum (dec_of_nat 60))]]) /\
  table_tree false (build_index (index_arm p0) t_collect) t_collect = table_tree false None t_collect /\
  table_tree false None t_mixed = Some (TObj [("info", TObj [("who", TObj [("name", TStr "Ann")])]); ("all", TObj [("discounts", TArr [TNum (Dec 40 0); TNum (dec_of_nat 60)])]); ("ones", TArr [TNum (dec_of_nat 1)])]) /\
  table_tree false (build_index (index_arm p0) t_mixed) t_mixed = table_tree false None t_mixed /\
  map write_path t_columns = [("all.discounts", true); ("info.who", false); ("ones", true)].
Proof. split; [apply t_in_order|]. split; [apply t_in_order|]. vm_compute. repeat split. Qed.

(** ** C28. With the index the table gives what it gives without. *)
Theorem C28_index : forall L parse env nodes h tb tr, in_order L parse env nodes h tb ->
  exists t, gives h (table_node (std_ext L) parse tr None tb env nodes h) t /\
    gives h (table_node (std_ext L) parse tr (build_index (index_arm parse) tb) tb env nodes h) t.
Proof. intros L parse env nodes h tb tr Ho. exact (same_table L parse env nodes h tb tr _ tr _ Ho (or_introl eq_refl) (or_intror eq_refl)). Qed.
Print Assumptions C28_index.
Example C28_case : in_order demo_lib p0 n_env None n_heap t_first /\ build_index (index_arm p0) t_first <> None /\
  (let '(_, _, r) := prune demo p0 (build_index (index_arm p0) t_first) t_first (node_session n_env None) n_heap in
   match r with Ok p => map (skipped p) (seq 0 9) = [true; true; false; false; false; false; false; true; false] /\ map (decided p 3) (seq 0 3) = [true; true; false] | Err _ => False end).
Proof. split; [apply t_in_order|]. split; [vm_compute; discriminate|vm_compute; repeat split]. Qed.
(** Without the hypothesis that only tested cells read [$] the claim is false: an output cell [$] sees the field tested last, and the
    index tests the fields in another order. *)
Definition t_leftover : table :=
  Table [[("i1", "1")]; [("i1", "2"); ("o1", "$")]; [("i1", "3"); ("i2", "'Ann'")]; [("i1", "4")]; [("i1", "5")]; [("i1", "6")]; [("i1", "7")]; [("i1", "8")]] t_in t_out PFirst.
Theorem C28_leftover_refuted : exists tb, length (tb_rows tb) = 8 /\ has_tree n_heap n_env /\
  table_tree false None tb = Some (TObj [("discount", TNum d2)]) /\
  table_tree false (build_index (index_arm p0) tb) tb = Some (TObj [("discount", TStr "Ann")]).
Proof. exists t_leftover. split; [reflexivity|]. split; [exact n_env_tree|]. vm_compute. split; reflexivity. Qed.
Print Assumptions C28_leftover_refuted.

(** ** C29. If the analyser recognises an expression as a test of a path, then it is true exactly of the values of its set. *)
Theorem C29_expression : forall X n root h p v, test_path (from_node n) = Some p ->
  (forall g, (forall l c, hget h l = Some c -> hget g l = Some c) -> RunSpec.yields X (path_node p) root g (Ok v) g) ->
  exists r h1, RunSpec.yields X n root h r h1 /\ (forall l c, hget h l = Some c -> hget h1 l = Some c) /\ (r = Ok (VBool true) <-> passes (from_node n) v).
Proof. exact analysis_exact. Qed.
Print Assumptions C29_expression.
(** The same for a cell, run as the table runs it. *)
Theorem C29_cell : forall X parse src sc h v, test_path (cell_test parse src) <> None -> local_str sc "$" = Some v ->
  (snd (srun X parse KUnary src sc h) = Ok (VBool true) <-> passes (cell_test parse src) v).
Proof. exact cell_exact. Qed.
Print Assumptions C29_cell.
Example C29_case :
  cell_test p0 "'a', 'b'" = TEnum ["$"] ["a"; "b"] /\ cell_test p0 "true" = TBools ["$"] [true] /\
  cell_test p0 "> 1 and <= 5, 7" = TNumber ["$"] [Seg (Exclusive (dec_of_nat 1)) (Inclusive (dec_of_nat 5)); Seg (Inclusive (dec_of_nat 7)) (Inclusive (dec_of_nat 7))] /\
  cell_test p0 "len($) > 1" = TUnrecognized /\
  (let n := NBinary (NMember (NIdent "customer") (NString "name")) (OpCmp CIn) (NArray [NString "Ann"; NString "Bob"]) in
   from_node n = TEnum ["customer"; "name"] ["Ann"; "Bob"] /\ fst (evaluate demo n (Scope n_env []) n_heap) = Ok (VBool true)) /\
  snd (srun demo p0 KUnary "> 1 and <= 5, 7" (set_local (start n_env None) "$" (VNum (dec_of_nat 7))) n_heap) = Ok (VBool true).
Proof. vm_compute. repeat split. Qed.

(** ** C30. The check that ranges leave no number out is exact. *)
Theorem C30_total : forall c, is_total c = true <-> forall x, covered c x.
Proof. exact total_exact. Qed.
Print Assumptions C30_total.
Example C30_case : let n := dec_of_nat in
  is_total [Seg (Exclusive (n 5)) Unbounded; Seg Unbounded (Exclusive (n 1)); Seg (Inclusive (n 1)) (Inclusive (n 5))] = true /\
  is_total [Seg (Exclusive (n 5)) Unbounded; Seg Unbounded (Exclusive (n 1)); Seg (Exclusive (n 1)) (Inclusive (n 5))] = false /\
  is_total [] = false.
Proof. vm_compute. repeat split. Qed.

(** ** C46. A traced table gives what an untraced one gives, whether the untraced one has an index or not. *)
Theorem C46_table : forall L parse env nodes h tb ix, in_order L parse env nodes h tb -> with_or_without parse tb ix ->
  exists t, gives h (table_node (std_ext L) parse true ix tb env nodes h) t /\ gives h (table_node (std_ext L) parse false ix tb env nodes h) t.
Proof. intros L parse env nodes h tb ix Ho Hi. exact (same_table L parse env nodes h tb true ix false ix Ho Hi Hi). Qed.
Print Assumptions C46_table.
Example C46_case : table_tree true (build_index (index_arm p0) t_mixed) t_mixed = table_tree false (build_index (index_arm p0) t_mixed) t_mixed /\ table_tree true None t_first = Some row3_tree.
Proof. vm_compute. split; reflexivity. Qed.
Theorem C46_leftover_refuted : exists tb, has_tree n_heap n_env /\
  table_tree true (build_index (index_arm p0) tb) tb = Some (TObj [("discount", TNum d2)]) /\
  table_tree false (build_index (index_arm p0) tb) tb = Some (TObj [("discount", TStr "Ann")]).
Proof. exists t_leftover. split; [exact n_env_tree|]. vm_compute. split; reflexivity. Qed.
Print Assumptions C46_leftover_refuted.
