(** C67: the hints about decision tables. *)
From Coq Require Import String ZArith Bool List Arith Lia Permutation.
From Verif Require Import Base Dec Value Heap Ast Ops Compiler Eval Funcs Samples HeapSpec HeapFacts DotFacts Isolate Session PureFacts Blocks BlocksSpec
  BlocksFacts ContentFacts MemoFacts PropNodes PropBlocks PTable PTableSpec PTableSel PTableRun PropPTable Lint LintSpec LintFacts.
From Verif Require Table.
Import ListNotations.
Local Open Scope string_scope.
Local Open Scope nat_scope.
Local Open Scope list_scope.

(** A row is reported exactly if some row above it asks no more than it does; the hint names the first such row, and says "duplicate" exactly if
    the two rows have the same cells. *)
Theorem C67_rows_reported : forall t h, In h (row_hints t) <-> one_hit t /\ exists e l, rh_earlier h < rh_row h /\
  nth_error (pt_rows t) (rh_row h) = Some l /\ nth_error (pt_rows t) (rh_earlier h) = Some e /\ asks_less t e l /\
  (forall j e', j < rh_earlier h -> nth_error (pt_rows t) j = Some e' -> ~ asks_less t e' l) /\ (rh_duplicate h = true <-> same_row t e l).
Proof. exact hints_spec. Qed.
Print Assumptions C67_rows_reported.

(** With two rows or more, a column is reported as having no conditions exactly if all its cells are empty. *)
Theorem C67_column_reported : forall t k, In (k, true) (col_hints t) <-> one_hit t /\ 2 <= length (pt_rows t) /\ exists c, nth_error (pt_in t) k = Some c /\
  forall r, In r (pt_rows t) -> bare r (ic_id c) = "".
Proof. exact col_true. Qed.
Print Assumptions C67_column_reported.

(** A column is reported as never changing the outcome only if every row has a row [s] to fall back on that leaves the column empty, asks no
    more than it in the other columns and has the same outputs; and unless [s] asks the same in the other columns, the rows above [s] that ask
    no more than the row there all ask the same as it. *)
Theorem C67_fall_back : forall t k i r, In (k, false) (col_hints t) -> nth_error (pt_rows t) i = Some r ->
  exists c j s, nth_error (pt_in t) k = Some c /\ nth_error (pt_rows t) j = Some s /\ bare s (ic_id c) = "" /\ asks_less (without_column k t) s r /\
    (forall o, In o (pt_out t) -> bare s (pc_id o) = bare r (pc_id o)) /\
    (asks_same (without_column k t) s r \/
     forall q e, q < j -> nth_error (pt_rows t) q = Some e -> asks_less (without_column k t) e r -> asks_same (without_column k t) e r).
Proof. exact column_falls. Qed.
Print Assumptions C67_fall_back.

(** "Row [e] already matches every case it matches": whenever a reported row holds, so does the row it is reported with. *)
Theorem C67_already_matches : forall L parse t hint hp ctx e l, tidy t -> In hint (row_hints t) ->
  nth_error (pt_rows t) (rh_row hint) = Some l -> nth_error (pt_rows t) (rh_earlier hint) = Some e ->
  holds_row (std_ext L) parse hp ctx t l = true -> holds_row (std_ext L) parse hp ctx t e = true.
Proof.
  intros L parse t hint hp ctx e l T H El Ee. apply hints_spec in H as (_ & e' & l' & _ & El' & Ee' & As & _).
  rewrite El in El'. injection El' as <-. rewrite Ee in Ee'. injection Ee' as <-. apply asks_holds; auto; eapply nth_error_In; eauto.
Qed.
Print Assumptions C67_already_matches.

(** Reported rows can be removed, any number of them at once, if each is a duplicate or the row it is reported with has a value for every
    column: the table does the same. *)
Theorem C67_remove_rows : forall L parse t ks w, plain_lib L -> in_step w -> plain_table parse t -> tidy t ->
  smooth (std_ext L) parse (pw_heap (bind_env w)) (pw_env w) t ->
  (forall k, In k ks -> exists hint, In hint (row_hints t) /\ rh_row hint = k /\
     (rh_duplicate hint = true \/ exists e, nth_error (pt_rows t) (rh_earlier hint) = Some e /\ full_row t e)) ->
  (exists k, In k ks) -> same_effect (std_ext L) parse t (without_rows ks t) w.
Proof. intros L parse t ks w HL W P T S0 H K. exact (rows_effect L HL parse t ks w W P T S0 H K). Qed.
Print Assumptions C67_remove_rows.

(** A column reported as having no conditions can be removed. *)
Theorem C67_remove_column : forall L parse t k w, plain_lib L -> in_step w -> plain_table parse t -> tidy t ->
  smooth (std_ext L) parse (pw_heap (bind_env w)) (pw_env w) t -> In (k, true) (col_hints t) -> same_effect (std_ext L) parse t (without_column k t) w.
Proof. intros L parse t k w HL W P T S0 H. exact (column_effect L HL parse t k w W P T S0 H). Qed.
Print Assumptions C67_remove_column.

(** A column reported as never changing the outcome can be removed where rows that differ in another column exclude each other. *)
Theorem C67_merge_rows : forall L parse t k w, plain_lib L -> in_step w -> plain_table parse t -> tidy t ->
  smooth (std_ext L) parse (pw_heap (bind_env w)) (pw_env w) t -> In (k, false) (col_hints t) ->
  rows_exclude (std_ext L) parse (pw_heap (bind_env w)) (pw_env w) k t -> same_effect (std_ext L) parse t (without_column k t) w.
Proof. intros L parse t k w HL W P T S0 H Rx. exact (merge_effect L HL parse t k w W P T S0 H Rx). Qed.
Print Assumptions C67_merge_rows.

(** *** An example: rows 2 and 4 are reported, row 2 as a duplicate of row 0; the middle column has no conditions. *)
Definition li_row (a b c fee tag : string) : row := [("i1", a); ("i2", b); ("i3", c); ("o1", fee); ("o2", tag)].
Definition li_tbl (rs : list row) : ptable :=
  PTbl [Table.InCol "i1" (Some "name"); Table.InCol "i2" (Some "age"); Table.InCol "i3" None] [PCol "o1" "fee" false; PCol "o2" "tag" false] rs.
Definition li_demo : ptable :=
  li_tbl [li_row "'bob'" "" "" "1" ""; li_row "'ann'" "" "" "age + 2" "'a'"; li_row "'bob'" "" "" "1" ""; li_row "" "" "member" "3" "'m'"; li_row "'ann'" "" "age < 30" "4" "'y'"].
Ltac rows_tac Hr Es := cbn [pt_rows In] in Hr; repeat (destruct Hr as [<-|Hr]; [vm_compute in Es; first [discriminate Es|injection Es as <-; uses_tac]|]); destruct Hr.
Ltac plain_tac :=
  constructor;
  [ cbn; repeat constructor; cbn; intuition discriminate
  | vm_compute; repeat constructor; cbn; intuition discriminate
  | let k := fresh in let Hk := fresh in intros k Hk; vm_compute in Hk; destruct Hk as [<-|[<-|[]]]; repeat split; vm_compute; congruence
  | let c := fresh in let f := fresh in let Hc := fresh in let Ef := fresh in
    intros c f Hc Ef; cbn [pt_in In] in Hc; destruct Hc as [<-|[<-|[<-|[]]]]; vm_compute in Ef; first [discriminate Ef|injection Ef as <-; uses_tac]
  | let c := fresh in let r := fresh in let src := fresh in let Hc := fresh in let Hr := fresh in let Ef := fresh in let Es := fresh in
    intros c r src Hc Hr Ef Es; cbn [pt_in In] in Hc; destruct Hc as [<-|[<-|[<-|[]]]]; vm_compute in Ef; [discriminate Ef|discriminate Ef|rows_tac Hr Es]
  | let c := fresh in let r := fresh in let src := fresh in let Hc := fresh in let Hr := fresh in let Ef := fresh in let Es := fresh in
    intros c r src Hc Hr Ef Es; cbn [pt_in In] in Hc; destruct Hc as [<-|[<-|[<-|[]]]]; [rows_tac Hr Es|rows_tac Hr Es|now vm_compute in Ef]
  | let o := fresh in let r := fresh in let src := fresh in let Ho := fresh in let Hr := fresh in let Es := fresh in
    intros o r src Ho Hr Es; vm_compute in Ho; destruct Ho as [<-|[<-|[]]]; rows_tac Hr Es ].
Ltac tidy_tac :=
  let r := fresh in let k := fresh in let s := fresh in let Hr := fresh in let E := fresh in intros r k s Hr E;
  apply aget_Some_in in E; cbn [pt_rows In] in Hr;
  repeat (destruct Hr as [<-|Hr]; [cbn [In li_row] in E; repeat (destruct E as [E|E]; [injection E as _ <-; vm_compute; reflexivity|]); destruct E|]); destruct Hr.
Ltac smooth_tac :=
  let c := fresh in let r := fresh in let Hc := fresh in let Hr := fresh in
  intros c r Hc Hr; cbn [pt_in In] in Hc; cbn [pt_rows In] in Hr;
  destruct Hc as [<-|[<-|[<-|[]]]]; (repeat (destruct Hr as [<-|Hr]; [vm_compute; discriminate|])); destruct Hr.
Example C67_rows_case : plain_lib demo_lib /\ in_step pt_world /\ plain_table p0 li_demo /\ tidy li_demo /\
  smooth demo p0 (pw_heap (bind_env pt_world)) (pw_env pt_world) li_demo /\
  row_hints li_demo = [RHint 2 0 true; RHint 4 1 false] /\
  (exists e, nth_error (pt_rows li_demo) 1 = Some e /\ full_row li_demo e) /\
  col_hints li_demo = [(1, true)] /\
  pt_rows (without_rows [2; 4] li_demo) = [li_row "'bob'" "" "" "1" ""; li_row "'ann'" "" "" "age + 2" "'a'"; li_row "" "" "member" "3" "'m'"] /\
  map ic_id (pt_in (without_column 1 li_demo)) = ["i1"; "i3"] /\
  exists w1 l, run_table demo p0 keep_order false (without_rows [2; 4] li_demo) pt_world = (w1, Ok l) /\ tl_matched l = [1] /\
    dot (pw_heap w1) (pw_store w1) "fee" = Some (num 22%Z) /\ dot (pw_heap w1) (pw_store w1) "tag" = Some (VStr "a").
Proof.
  split; [exact demo_plain|]. split; [exact bl_in_step|]. split; [unfold li_demo, li_tbl; plain_tac|]. split; [unfold li_demo, li_tbl; tidy_tac|].
  split; [unfold li_demo, li_tbl; smooth_tac|]. split; [vm_compute; reflexivity|]. split.
  - eexists. split; [reflexivity|]. intros o Ho. vm_compute in Ho. destruct Ho as [<-|[<-|[]]]; vm_compute; discriminate.
  - split; [vm_compute; reflexivity|]. split; [vm_compute; reflexivity|]. split; [vm_compute; reflexivity|]. eexists. eexists.
    split; [vm_compute; reflexivity|]. split; [vm_compute; reflexivity|]. split; vm_compute; reflexivity.
Qed.
(** The column for the age never changes the outcome: for a given name the outcome is the same, and some row asks for no age. *)
Definition li_merge : ptable :=
  li_tbl [li_row "'ann'" "> 60" "" "1" "'a'"; li_row "'bob'" "" "" "2" "'b'"; li_row "'ann'" "" "" "1" "'a'"; li_row "'bob'" "< 10" "" "2" "'b'"].
Example C67_merge_case : in_step pt_world /\ plain_table p0 li_merge /\ tidy li_merge /\ smooth demo p0 (pw_heap (bind_env pt_world)) (pw_env pt_world) li_merge /\
  col_hints li_merge = [(1, false); (2, true)] /\ rows_exclude demo p0 (pw_heap (bind_env pt_world)) (pw_env pt_world) 1 li_merge /\
  exists w1 l, run_table demo p0 keep_order false (without_column 1 li_merge) pt_world = (w1, Ok l) /\ tl_matched l = [0] /\
    dot (pw_heap w1) (pw_store w1) "fee" = Some (num 1%Z).
Proof.
  split; [exact bl_in_step|]. split; [unfold li_merge, li_tbl; plain_tac|]. split; [unfold li_merge, li_tbl; tidy_tac|]. split; [unfold li_merge, li_tbl; smooth_tac|].
  split; [vm_compute; reflexivity|]. split.
  - intros r r' c Hr Hr' K K' Hc. change (pt_in (without_column 1 li_merge)) with [Table.InCol "i1" (Some "name"); Table.InCol "i3" None] in Hc.
    assert (Q : forall x, In x (pt_rows li_merge) -> holds_row demo p0 (pw_heap (bind_env pt_world)) (pw_env pt_world) (without_column 1 li_merge) x = true ->
      cell_text "i1" x = Some "'ann'" /\ cell_text "i3" x = None).
    { intros x Hx Kx. cbn [pt_rows li_merge li_tbl In] in Hx. destruct Hx as [<-|[<-|[<-|[<-|[]]]]]; vm_compute in Kx; try discriminate Kx; split; reflexivity. }
    destruct (Q r Hr K) as [A B], (Q r' Hr' K') as [A' B']. destruct Hc as [<-|[<-|[]]]; cbn [ic_id Table.ic_id]; congruence.
  - eexists. eexists. split; [vm_compute; reflexivity|]. split; vm_compute; reflexivity.
Qed.

(** Rows 0 and 1 fall back on row 2, which asks for no name. *)
Definition li_fall : ptable :=
  li_tbl [li_row "'ann'" "> 60" "" "1" "'a'"; li_row "'ann'" "< 10" "" "1" "'a'"; li_row "" "" "" "1" "'a'"; li_row "'bob'" "" "" "2" "'b'"].
Example C67_fall_back_case : In (1, false) (col_hints li_fall) /\
  ~ In (1, false) (col_hints (li_tbl [li_row "'ann'" "> 60" "" "1" "'a'"; li_row "'ann'" "< 10" "" "1" "'a'"; li_row "" "" "" "2" "'a'"])).
Proof. split; [vm_compute; auto|]. vm_compute. intros [H|[]]. discriminate. Qed.

(** *** What does not hold. *)
(** A row reported as unreachable can supply a column: the row it is reported with leaves that column empty. *)
Theorem C67_unreachable_refuted : exists t k w w1 w2 l1 l2, in_step w /\ plain_table p0 t /\ tidy t /\
  smooth demo p0 (pw_heap (bind_env w)) (pw_env w) t /\ row_hints t = [RHint k 0 false] /\
  run_table demo p0 keep_order false t w = (w1, Ok l1) /\ run_table demo p0 keep_order false (without_rows [k] t) w = (w2, Ok l2) /\
  In k (tl_matched l1) /\ dot (pw_heap w1) (pw_store w1) "tag" = Some (VStr "y") /\ dot (pw_heap w2) (pw_store w2) "tag" = Some VNull.
Proof.
  exists (li_tbl [li_row "'ann'" "" "" "1" ""; li_row "'ann'" "< 30" "" "2" "'y'"]), 1, pt_world. do 4 eexists.
  split; [exact bl_in_step|]. split; [unfold li_tbl; plain_tac|]. split; [unfold li_tbl; tidy_tac|]. split; [unfold li_tbl; smooth_tac|]. split; [vm_compute; reflexivity|].
  split; [vm_compute; reflexivity|]. split; [vm_compute; reflexivity|]. split; [cbn; auto|]. split; vm_compute; reflexivity.
Qed.
Print Assumptions C67_unreachable_refuted.
(** A column reported as never changing the outcome can change it, if rows that differ in another column hold together: without the column
    the first row holds too. *)
Theorem C67_never_changes_refuted : exists t k w w1 w2 l1 l2, in_step w /\ plain_table p0 t /\ tidy t /\
  smooth demo p0 (pw_heap (bind_env w)) (pw_env w) t /\ In (k, false) (col_hints t) /\
  run_table demo p0 keep_order false t w = (w1, Ok l1) /\ run_table demo p0 keep_order false (without_column k t) w = (w2, Ok l2) /\
  dot (pw_heap w1) (pw_store w1) "fee" = Some (num 2%Z) /\ dot (pw_heap w2) (pw_store w2) "fee" = Some (num 1%Z).
Proof.
  exists (li_tbl [li_row "'ann'" "> 60" "" "1" "'a'"; li_row "" "" "member" "2" "'m'"; li_row "'ann'" "" "" "1" "'a'"]), 1, pt_world. do 4 eexists.
  split; [exact bl_in_step|]. split; [unfold li_tbl; plain_tac|]. split; [unfold li_tbl; tidy_tac|]. split; [unfold li_tbl; smooth_tac|]. split; [vm_compute; auto|].
  split; [vm_compute; reflexivity|]. split; [vm_compute; reflexivity|]. split; vm_compute; reflexivity.
Qed.
Print Assumptions C67_never_changes_refuted.
(** The hints treat a cell of blanks as empty, evaluation does not: a column "without conditions" can make the table fail. *)
Theorem C67_no_conditions_refuted : exists t k w, in_step w /\ In (k, true) (col_hints t) /\
  (exists w1 e, run_table demo p0 keep_order false t w = (w1, Err e)) /\ exists w1 l, run_table demo p0 keep_order false (without_column k t) w = (w1, Ok l).
Proof.
  exists (li_tbl [li_row "'bob'" "" "" "1" "'a'"; li_row "" " " "" "2" "'m'"]), 1, pt_world.
  split; [exact bl_in_step|]. split; [vm_compute; auto|]. split; eexists; eexists; vm_compute; reflexivity.
Qed.
Print Assumptions C67_no_conditions_refuted.
(** A reported row, even one whose row above has all values, can make the table fail: its cells are still evaluated. *)
Theorem C67_smooth_refuted : exists t k w, in_step w /\ plain_table p0 t /\ tidy t /\ row_hints t = [RHint k 0 false] /\
  (exists e, nth_error (pt_rows t) 0 = Some e /\ full_row t e) /\
  (exists w1 e, run_table demo p0 keep_order false t w = (w1, Err e)) /\ exists w1 l, run_table demo p0 keep_order false (without_rows [k] t) w = (w1, Ok l).
Proof.
  exists (li_tbl [li_row "" "" "age > 60" "1" "'a'"; li_row "" "contains('x')" "age > 60" "2" "'m'"]), 1, pt_world.
  split; [exact bl_in_step|]. split; [unfold li_tbl; plain_tac|]. split; [unfold li_tbl; tidy_tac|]. split; [vm_compute; reflexivity|]. split.
  - eexists. split; [reflexivity|]. intros o Ho. vm_compute in Ho. destruct Ho as [<-|[<-|[]]]; vm_compute; discriminate.
  - split; eexists; eexists; vm_compute; reflexivity.
Qed.
Print Assumptions C67_smooth_refuted.
