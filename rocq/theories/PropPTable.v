(** C66: decision tables as blocks of a policy. *)
From Coq Require Import String ZArith Bool List Arith Lia Permutation Sorted.
From Verif Require Import Base Dec Value Heap Ast Ops Compiler Eval Funcs Samples HeapSpec HeapFacts DotFacts Isolate Session PureFacts Blocks BlocksSpec
  BlocksFacts ContentFacts MemoFacts PropNodes PropBlocks PTable PTableSpec PTableSel PTableRun.
From Verif Require Table RepFacts.
Import ListNotations.
Local Open Scope string_scope.
Local Open Scope nat_scope.
Local Open Scope list_scope.

(** A table puts into every one of its columns what the rows that hold say: the first value, or null, or all of them if the column is
    collected. It fails only if a row that counts, or the value of a column, cannot be evaluated. No other property changes, in
    whatever order the collected columns are written. With an index this is said of tables all of whose input cells can be evaluated. *)
Theorem C66_table : forall L parse arrange extras t w w1 q, plain_lib L -> (forall x, Permutation x (arrange x)) -> in_step w -> plain_table parse t ->
  let ctx := pw_env w in let h := pw_heap (bind_env w) in
  extras = true \/ table_index parse t = None \/ smooth (std_ext L) parse h ctx t ->
  run_table (std_ext L) parse arrange extras t w = (w1, q) ->
  in_step w1 /\ pw_store w1 = pw_store w /\ pw_env w1 = pw_env w /\
  (forall k x, ~ In k (table_fields t) -> (shows (pw_heap w1) (pw_store w) k x <-> shows (pw_heap w) (pw_store w) k x)) /\
  match q with
  | Ok _ => ~ fails (std_ext L) parse h ctx t /\
      forall o, In o (active t) -> exists x, column_says (std_ext L) parse h ctx t o x /\ shows (pw_heap w1) (pw_store w) (pc_field o) x
  | Err _ => fails (std_ext L) parse h ctx t
  end.
Proof.
  intros L parse arrange extras t w w1 q HL Pm H P ctx h Md R. destruct (table_spec L HL parse arrange extras t w w1 q Pm H P Md R) as (A & B & C & D & E).
  split; auto. split; auto. split; auto. split; auto. destruct q as [l|e]; auto. destruct E as (E1 & E2 & _). split; auto.
  intros [(i & r & F1 & F2 & F3)|(o & F1 & F2)]; [exact (E1 i r F1 F2 F3)|]. destruct (E2 o F1) as (x & G & _). exact (F2 x G).
Qed.
Print Assumptions C66_table.

(** A column's value is determined. *)
Theorem C66_determined : forall L parse h ctx t o x y,
  column_says (std_ext L) parse h ctx t o x -> column_says (std_ext L) parse h ctx t o y -> x = y.
Proof. intros L parse h ctx t o x y. exact (column_once L parse h ctx t o x y). Qed.
Print Assumptions C66_determined.

(** The trace lists the rows that count and hold, in order, and tells for every input cell, of every row, whether it holds. *)
Theorem C66_trace : forall L parse arrange t w w1 l, plain_lib L -> (forall x, Permutation x (arrange x)) -> in_step w -> plain_table parse t ->
  let ctx := pw_env w in let h := pw_heap (bind_env w) in
  run_table (std_ext L) parse arrange true t w = (w1, Ok l) ->
  StronglySorted lt (tl_matched l) /\
  (forall i, In i (tl_matched l) <-> exists r, nth_error (pt_rows t) i = Some r /\ reached (std_ext L) parse h ctx t i /\
     row_says (std_ext L) parse h ctx (pt_in t) r = Some true) /\
  exists bits, tl_bits l = Some bits /\ length bits = length (pt_rows t) /\
    forall i j r c, nth_error (pt_rows t) i = Some r -> nth_error (pt_in t) j = Some c ->
      exists bs b, nth_error bits i = Some bs /\ nth_error bs j = Some b /\ (b = true <-> cell_says (std_ext L) parse h ctx c r = Some true).
Proof.
  intros L parse arrange t w w1 l HL Pm H P ctx h R.
  destruct (table_spec L HL parse arrange true t w w1 (Ok l) Pm H P (or_introl eq_refl) R) as (_ & _ & _ & _ & _ & _ & A & B & C).
  split; auto. split; auto. cbn in C. eexists. split; [exact C|]. rewrite map_length. split; auto. intros i j r c Er Ec.
  eexists. eexists. split; [apply map_nth_error; exact Er|]. split; [apply (map_nth_error _ _ _ Ec)|]. unfold is_yes, ctx, h.
  destruct (cell_says (std_ext L) parse (pw_heap (bind_env w)) (pw_env w) c r) as [[]|]; split; congruence.
Qed.
Print Assumptions C66_trace.

(** Tracing changes neither whether the table succeeds nor what it writes. *)
Theorem C66_tracing : forall L parse arrange t w w1 w2 q1 q2, plain_lib L -> (forall x, Permutation x (arrange x)) -> in_step w -> plain_table parse t ->
  table_index parse t = None \/ smooth (std_ext L) parse (pw_heap (bind_env w)) (pw_env w) t ->
  run_table (std_ext L) parse arrange false t w = (w1, q1) -> run_table (std_ext L) parse arrange true t w = (w2, q2) ->
  ((exists l, q1 = Ok l) <-> (exists l, q2 = Ok l)) /\
  ((exists l, q1 = Ok l) -> forall k x, shows (pw_heap w1) (pw_store w) k x <-> shows (pw_heap w2) (pw_store w) k x).
Proof.
  intros L parse arrange t w w1 w2 q1 q2 HL Pm H P Md R1 R2.
  destruct (C66_table L parse arrange false t w w1 q1 HL Pm H P (or_intror Md) R1) as (_ & _ & _ & O1 & D1).
  destruct (C66_table L parse arrange true t w w2 q2 HL Pm H P (or_introl eq_refl) R2) as (_ & _ & _ & O2 & D2).
  destruct q1 as [l1|e1], q2 as [l2|e2].
  - split; [split; eauto|]. intros _ k x. destruct D1 as [_ D1], D2 as [_ D2]. destruct (in_dec string_dec k (table_fields t)) as [Hk|Hk]; [|rewrite (O1 k x Hk), (O2 k x Hk); tauto].
    apply in_map_iff in Hk as (o & <- & Ho). destruct (D1 o Ho) as (x1 & C1 & S1), (D2 o Ho) as (x2 & C2 & S2). pose proof (column_once _ _ _ _ _ _ _ _ C1 C2) as <-.
    assert (U : forall h v k a b, shows h v k a -> shows h v k b -> a = b).
    { intros h v k a b (u & E & R) (u2 & E2 & R2'). rewrite E in E2. injection E2 as <-. eapply repr_fun; eauto. }
    split; intros Z; [rewrite (U _ _ _ _ _ Z S1)|rewrite (U _ _ _ _ _ Z S2)]; auto.
  - exfalso. tauto.
  - exfalso. tauto.
  - split; [split; intros [l Z]; discriminate|]. intros [l Z]; discriminate.
Qed.
Print Assumptions C66_tracing.

(** *** An example: nine rows, so the first column is indexed; the scalar column takes the first value, the other collects. *)
Definition pt_row (a b fee tag : string) : row := [("i1", a); ("i2", b); ("o1", fee); ("o2", tag); ("_id", "x")].
Definition pt_demo : ptable :=
  PTbl [Table.InCol "i1" (Some "name"); Table.InCol "i2" None]
       [PCol "o1" "fee" false; PCol "o2" "tags" true; PCol "o3" "" false]
       [pt_row "'bob'" "" "1" "'b'"; pt_row "'ann'" "age > 30" "2" "'old'"; pt_row "'ann'" "" "" "'young'"; pt_row "'ann','eve'" "member" "age * 2" "name";
        pt_row "'joe'" "" "4" "'j'"; pt_row "" "age < 30" "5" "'any'"; pt_row "'kim'" "" "6" "'k'"; pt_row "'lea'" "" "7" "'l'"; pt_row "" "" "8" ""].
Definition keep_order : list (string * list value) -> list (string * list value) := fun l => l.
Definition pt_world : pworld := bl_world.
Ltac uses_tac := let n := fresh in let H := fresh in intros n H; vm_compute in H; (discriminate H || injection H as <-; split; vm_compute; reflexivity).
Lemma pt_demo_plain : plain_table p0 pt_demo.
Proof.
  constructor.
  - cbn. repeat constructor; cbn; intuition discriminate.
  - vm_compute. repeat constructor; cbn; intuition discriminate.
  - intros k Hk. vm_compute in Hk. destruct Hk as [<-|[<-|[]]]; repeat split; vm_compute; congruence.
  - intros c f Hc Ef. cbn [pt_in pt_demo In] in Hc. destruct Hc as [<-|[<-|[]]]; vm_compute in Ef; [injection Ef as <-; uses_tac|discriminate].
  - intros c r src Hc Hr Ef Es. cbn [pt_in pt_demo In] in Hc. destruct Hc as [<-|[<-|[]]]; vm_compute in Ef; [discriminate|].
    cbn [pt_rows pt_demo In] in Hr. repeat (destruct Hr as [<-|Hr]; [vm_compute in Es; first [discriminate Es|injection Es as <-; uses_tac]|]). destruct Hr.
  - intros c r src Hc Hr Ef Es. cbn [pt_in pt_demo In] in Hc. destruct Hc as [<-|[<-|[]]]; [|now vm_compute in Ef].
    cbn [pt_rows pt_demo In] in Hr. repeat (destruct Hr as [<-|Hr]; [vm_compute in Es; first [discriminate Es|injection Es as <-; uses_tac]|]). destruct Hr.
  - intros o r src Ho Hr Es. vm_compute in Ho.
    cbn [pt_rows pt_demo In] in Hr. destruct Ho as [<-|[<-|[]]];
      (repeat (destruct Hr as [<-|Hr]; [vm_compute in Es; first [discriminate Es|injection Es as <-; uses_tac]|])); destruct Hr.
Qed.
Lemma pt_demo_smooth : smooth demo p0 (pw_heap (bind_env pt_world)) (pw_env pt_world) pt_demo.
Proof.
  intros c r Hc Hr. cbn [pt_in pt_demo In] in Hc. cbn [pt_rows pt_demo In] in Hr.
  destruct Hc as [<-|[<-|[]]]; (repeat (destruct Hr as [<-|Hr]; [vm_compute; discriminate|])); destruct Hr.
Qed.
Example C66_table_case : plain_lib demo_lib /\ in_step pt_world /\ plain_table p0 pt_demo /\ table_index p0 pt_demo <> None /\
  smooth demo p0 (pw_heap (bind_env pt_world)) (pw_env pt_world) pt_demo /\
  (exists w1 l a, run_table demo p0 keep_order false pt_demo pt_world = (w1, Ok l) /\ tl_matched l = [2; 3; 5; 8] /\
     dot (pw_heap w1) (pw_store w1) "fee" = Some (num 40%Z) /\ dot (pw_heap w1) (pw_store w1) "tags" = Some (VArr a) /\
     hget (pw_heap w1) a = Some (CArr [VStr "young"; VStr "ann"; VStr "any"])) /\
  exists w1 l, run_table demo p0 keep_order true pt_demo pt_world = (w1, Ok l) /\ tl_matched l = [2; 3; 5; 8] /\
     tl_bits l = Some [[false; true]; [true; false]; [true; true]; [true; true]; [false; true]; [true; true]; [false; true]; [false; true]; [true; true]].
Proof.
  split; [exact demo_plain|]. split; [exact bl_in_step|]. split; [exact pt_demo_plain|]. split; [vm_compute; discriminate|]. split; [exact pt_demo_smooth|].
  split; [eexists; eexists; eexists|eexists; eexists]; (split; [vm_compute; reflexivity|]); repeat split; vm_compute; reflexivity.
Qed.

(** Without a collected column the rows after the last one needed do not count: the row with the broken cell is never looked at, with tracing
    or without. *)
Example C66_reached_case :
  let t := PTbl [Table.InCol "i1" (Some "name"); Table.InCol "i2" None] [PCol "o1" "fee" false; PCol "o2" "tag" false]
                [pt_row "'ann'" "" "1" ""; pt_row "" "member" "2" "'m'"; pt_row "" "name + 1 > 2" "3" "'x'"] in
  cell_says demo p0 (pw_heap (bind_env pt_world)) (pw_env pt_world) (Table.InCol "i2" None) (pt_row "" "name + 1 > 2" "3" "'x'") = None /\
  (forall extras, exists w1 l, run_table demo p0 keep_order extras t pt_world = (w1, Ok l) /\ tl_matched l = [0; 1] /\
     dot (pw_heap w1) (pw_store w1) "fee" = Some (num 1%Z) /\ dot (pw_heap w1) (pw_store w1) "tag" = Some (VStr "m")) /\
  ~ reached demo p0 (pw_heap (bind_env pt_world)) (pw_env pt_world) t 2.
Proof.
  cbv zeta. split; [vm_compute; reflexivity|]. split.
  - intros [|]; eexists; eexists; (split; [vm_compute; reflexivity|]); repeat split; vm_compute; reflexivity.
  - intros [(o & A & B)|[R|(o & A & B & R)]].
    + vm_compute in A. destruct A as [<-|[<-|[]]]; vm_compute in B; discriminate.
    + specialize (R 0 _ (Nat.lt_0_succ _) eq_refl). vm_compute in R. discriminate.
    + vm_compute in A. destruct A as [<-|[<-|[]]].
      * specialize (R 0 _ (Nat.lt_0_succ _) eq_refl ltac:(vm_compute; reflexivity)). vm_compute in R. discriminate.
      * specialize (R 1 _ (Nat.lt_succ_diag_r _) eq_refl ltac:(vm_compute; reflexivity)). vm_compute in R. discriminate.
Qed.

(** *** What does not hold. *)
Definition eight (r : row) : list row := [r; r; r; r; r; r; r; r].
(** With eight rows or more, an input field that cannot be evaluated fails the table although no row needs it; with tracing it succeeds. *)
Theorem C66_index_field_refuted : exists t w, in_step w /\ plain_table p0 t /\
  ~ fails demo p0 (pw_heap (bind_env w)) (pw_env w) t /\
  (exists w1 e, run_table demo p0 keep_order false t w = (w1, Err e)) /\ exists w1 l, run_table demo p0 keep_order true t w = (w1, Ok l).
Proof.
  set (t := PTbl [Table.InCol "i1" (Some "age"); Table.InCol "i2" (Some "name * 2")] [PCol "o1" "fee" false] (eight (pt_row "> 100" "'a'" "1" ""))).
  exists t, pt_world.
  assert (P : plain_table p0 t).
  { constructor.
    - cbn. repeat constructor; cbn; intuition discriminate.
    - vm_compute. repeat constructor; cbn; intuition discriminate.
    - intros k Hk. vm_compute in Hk. destruct Hk as [<-|[]]; repeat split; vm_compute; congruence.
    - intros c f Hc Ef. cbn [pt_in t In] in Hc. destruct Hc as [<-|[<-|[]]]; vm_compute in Ef; injection Ef as <-; uses_tac.
    - intros c r src Hc Hr Ef Es. cbn [pt_in t In] in Hc. destruct Hc as [<-|[<-|[]]]; vm_compute in Ef; discriminate.
    - intros c r src Hc Hr Ef Es. cbn [pt_in t In] in Hc. assert (Hr' : r = pt_row "> 100" "'a'" "1" "") by (cbn in Hr; intuition auto). subst r.
      destruct Hc as [<-|[<-|[]]]; vm_compute in Es; injection Es as <-; uses_tac.
    - intros o r src Ho Hr Es. assert (Hr' : r = pt_row "> 100" "'a'" "1" "") by (cbn in Hr; intuition auto). subst r.
      vm_compute in Ho. destruct Ho as [<-|[]]. vm_compute in Es. injection Es as <-. uses_tac. }
  assert (Ot : exists w1 l, run_table demo p0 keep_order true t pt_world = (w1, Ok l)) by (eexists; eexists; vm_compute; reflexivity).
  split; [exact bl_in_step|]. split; [exact P|]. split; [|split; [eexists; eexists; vm_compute; reflexivity|exact Ot]].
  destruct Ot as (w1 & l & Ot).
  destruct (C66_table demo_lib p0 keep_order true t pt_world w1 (Ok l) demo_plain (fun x => Permutation_refl x) bl_in_step P (or_introl eq_refl) Ot) as (_ & _ & _ & _ & F & _).
  exact F.
Qed.
Print Assumptions C66_index_field_refuted.
(** With eight rows or more, a row with a cell that cannot be evaluated may be passed over; with tracing, or with fewer rows, the table fails. *)
Theorem C66_index_skips_refuted : exists t w, in_step w /\ fails demo p0 (pw_heap (bind_env w)) (pw_env w) t /\
  (exists w1 l, run_table demo p0 keep_order false t w = (w1, Ok l) /\ dot (pw_heap w1) (pw_store w1) "fee" = Some (num 2%Z)) /\
  (exists w1 e, run_table demo p0 keep_order true t w = (w1, Err e)) /\
  exists w1 e, run_table demo p0 keep_order false (PTbl (pt_in t) (pt_out t) (firstn 1 (pt_rows t) ++ skipn 7 (pt_rows t))) w = (w1, Err e).
Proof.
  exists (PTbl [Table.InCol "i2" None; Table.InCol "i1" (Some "name")] [PCol "o1" "fee" false] (firstn 7 (eight (pt_row "'bob'" "name * 2 > 1" "1" "")) ++ [pt_row "'ann'" "" "2" ""])), pt_world.
  split; [exact bl_in_step|]. split; [|split; [|split]].
  - left. exists 0, (pt_row "'bob'" "name * 2 > 1" "1" ""). split; [reflexivity|]. split; [|vm_compute; reflexivity]. right. left. intros j r Lj. lia.
  - eexists. eexists. split; vm_compute; reflexivity.
  - eexists. eexists. vm_compute. reflexivity.
  - eexists. eexists. vm_compute. reflexivity.
Qed.
Print Assumptions C66_index_skips_refuted.
(** A table that fails can leave the columns it wrote before. *)
Theorem C66_failure_keeps_refuted : exists t w w1 e, in_step w /\ run_table demo p0 keep_order false t w = (w1, Err e) /\
  dot (pw_heap w) (pw_store w) "fee" = None /\ dot (pw_heap w1) (pw_store w1) "fee" = Some (num 1%Z).
Proof.
  exists (PTbl [] [PCol "o1" "fee" false; PCol "o2" "tag" false] [pt_row "" "" "1" "name * 2"]), pt_world. eexists. eexists.
  split; [exact bl_in_step|]. split; [vm_compute; reflexivity|]. split; vm_compute; reflexivity.
Qed.
Print Assumptions C66_failure_keeps_refuted.
(** An output cell sees what the columns to its left, and the rows above, have just written: the same table with its columns swapped
    writes something else. *)
Theorem C66_columns_independent_refuted : exists t w w1 w2 l1 l2, in_step w /\ run_table demo p0 keep_order false t w = (w1, Ok l1) /\
  run_table demo p0 keep_order false (PTbl (pt_in t) (rev (pt_out t)) (pt_rows t)) w = (w2, Ok l2) /\
  dot (pw_heap w1) (pw_store w1) "total" = Some (num 2%Z) /\ dot (pw_heap w2) (pw_store w2) "total" = Some (num 21%Z).
Proof.
  exists (PTbl [] [PCol "o1" "age" false; PCol "o2" "total" false] [pt_row "" "" "1" "age + 1"]), pt_world. do 4 eexists.
  split; [exact bl_in_step|]. split; [vm_compute; reflexivity|]. split; [vm_compute; reflexivity|]. split; vm_compute; reflexivity.
Qed.
Print Assumptions C66_columns_independent_refuted.
(** Two columns for one property: the lower row wins if it is the other column's, so a hit policy of first need not keep the first row. *)
Theorem C66_first_wins_refuted : exists t w w1 l, in_step w /\ run_table demo p0 keep_order false t w = (w1, Ok l) /\
  NoDup (map pc_id (pt_out t)) /\ (forall r, In r (pt_rows t) -> holds_row demo p0 (pw_heap (bind_env w)) (pw_env w) t r = true) /\
  cell_text "o1" (hd [] (pt_rows t)) = Some "1" /\ dot (pw_heap w1) (pw_store w1) "fee" = Some (num 2%Z).
Proof.
  exists (PTbl [] [PCol "o1" "fee" false; PCol "o2" "fee" false] [pt_row "" "" "1" ""; pt_row "" "" "" "2"]), pt_world. do 2 eexists.
  split; [exact bl_in_step|]. split; [vm_compute; reflexivity|]. split; [cbn; repeat constructor; cbn; intuition discriminate|].
  split; [|split; vm_compute; reflexivity]. intros r [<-|[<-|[]]]; vm_compute; reflexivity.
Qed.
Print Assumptions C66_first_wins_refuted.

(** Reading the document: a column collects if the table's hit policy does or its path ends in [[]]; only a path without empty parts, blanks
    and further brackets is written to. *)
Theorem C66_read : forall d i o, nth_error (Table.tb_out d) i = Some o ->
  exists c, nth_error (pt_out (read_table d)) i = Some c /\ pc_id c = Table.oc_id o /\
    pc_collect c = (snd (Table.write_path o) || match Table.tb_policy d with Table.PCollect => true | Table.PFirst => false end) /\
    (In c (active (read_table d)) -> pc_field c = fst (Table.write_path o) /\ has_brackets (list_ascii_of_string (pc_field c)) = false /\
       forall s, In s (split_dot (pc_field c)) -> s <> "" /\ has_space s = false).
Proof.
  intros d i o E. exists (read_column (match Table.tb_policy d with Table.PCollect => true | Table.PFirst => false end) o).
  split; [cbn; now apply map_nth_error|]. unfold read_column. destruct (Table.write_path o) as [path marked]. cbn [pc_id pc_collect pc_field fst snd]. split; auto. split; auto.
  intros H. apply active_in in H as [_ H]. cbn [pc_field] in *. destruct (String.eqb path ""); [congruence|].
  destruct (has_brackets (list_ascii_of_string path)) eqn:Hb; [congruence|]. destruct (valid_path path) eqn:V; [|congruence]. split; auto. split; auto.
  unfold valid_path in V. apply andb_true_iff in V as [_ V]. rewrite forallb_forall in V. intros s Hs. specialize (V s Hs). apply andb_true_iff in V as [A B].
  apply negb_true_iff in A, B. split; auto. now apply String.eqb_neq.
Qed.
Print Assumptions C66_read.
Example C66_read_case :
  pt_out (read_table (Table.Table [] [] [Table.OutCol "a" " tags[] "; Table.OutCol "b" "x. y"; Table.OutCol "c" "a[].b"; Table.OutCol "d" "a.b"] Table.PFirst)) =
  [PCol "a" "tags" true; PCol "b" "" false; PCol "c" "" false; PCol "d" "a.b" false].
Proof. vm_compute. reflexivity. Qed.
(** A cell of blanks is not an empty cell: the table fails. *)
Theorem C66_blank_cell_refuted : exists t w, in_step w /\ pt_rows t = [[("i1", " "); ("o1", "1")]] /\
  exists w1 e, run_table demo p0 keep_order false t w = (w1, Err e).
Proof.
  exists (PTbl [Table.InCol "i1" (Some "name")] [PCol "o1" "fee" false] [[("i1", " "); ("o1", "1")]]), pt_world.
  split; [exact bl_in_step|]. split; [reflexivity|]. eexists. eexists. vm_compute. reflexivity.
Qed.
Print Assumptions C66_blank_cell_refuted.
