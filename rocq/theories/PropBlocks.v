(** C64: what the blocks of a policy put into the store. *)
From Coq Require Import String ZArith Bool List Arith Lia.
From Verif Require Import Base Dec Value Heap Ast Ops Compiler Eval Funcs Samples HeapSpec HeapFacts DotFacts Isolate Session PureFacts Blocks BlocksSpec
  AssertFacts BlocksFacts ContentFacts PropNodes.
Import ListNotations.
Local Open Scope string_scope.
Local Open Scope nat_scope.
Local Open Scope list_scope.

(** A store for the examples: [{ "age": 20, "member": true, "name": "ann" }]. *)
Definition bl_heap : heap := [CObj [("age", num 20%Z); ("member", VBool true); ("name", VStr "ann")]].
Definition bl_world : pworld := start (VObj 0) bl_heap.
Lemma bl_in_step : in_step bl_world.
Proof.
  eapply (start_in_step bl_heap 0 (TObj [("age", TNum (dec_of_Z 20%Z)); ("member", TBool true); ("name", TStr "ann")])).
  - intros l c H. destruct l as [|[|]]; cbn in H; try discriminate. injection H as <-. split; [repeat constructor; cbn; intuition discriminate|].
    repeat constructor.
  - eapply RObj; [reflexivity|]. repeat constructor.
Qed.
Ltac reads_only_tac := let n := fresh in let H := fresh in intros n H; vm_compute in H; (discriminate H || injection H as <-; split; vm_compute; reflexivity).

(** A block that runs on its own leaves what it computes at its property and every other property as it was. It fails exactly when it
    computes nothing, and then changes nothing. Store and environment stay in step. *)
Theorem C64_block : forall L parse extras b w w1 r, plain_lib L -> in_step w -> plain_block parse b -> flat_key (block_key b) ->
  run_alone (std_ext L) parse extras b w = (w1, r) ->
  let ctx := pw_env w in let h := pw_heap (bind_env w) in
  in_step w1 /\ pw_store w1 = pw_store w /\ pw_env w1 = pw_env w /\
  (forall k t, k <> block_key b -> (shows (pw_heap w1) (pw_store w) k t <-> shows (pw_heap w) (pw_store w) k t)) /\
  match r with
  | Ok _ => exists t, computes (std_ext L) parse h ctx b t /\ shows (pw_heap w1) (pw_store w) (block_key b) t
  | Err _ => (forall t, ~ computes (std_ext L) parse h ctx b t) /\
      forall k t, shows (pw_heap w1) (pw_store w) k t <-> shows (pw_heap w) (pw_store w) k t
  end.
Proof. intros L parse extras b w w1 r HL H P F R. exact (alone_spec L HL parse extras b w w1 r H P F R). Qed.
Print Assumptions C64_block.
Definition bl_match : block :=
  BMatch "price" [MArm "1" "age < 18" "5"; MArm "2" "member" "age / 2"; MArm "3" "" "30"].
Definition bl_assert : block :=
  BAssertion "ok" [ACond "a" "age > 65" BOr 0; ACond "b" "member" BAnd 1; ACond "c" "age > 18" BAnd 1; ACond "d" "name" BOr 0].
Example C64_block_case : in_step bl_world /\ plain_block p0 bl_match /\ flat_key (block_key bl_match) /\ plain_block p0 bl_assert /\
  flat_key (block_key bl_assert) /\
  (exists w1, run_alone demo p0 false bl_match bl_world = (w1, Ok tt) /\ dot (pw_heap w1) (pw_store w1) "price" = Some (num 10%Z)) /\
  (exists w1, run_alone demo p0 true bl_assert bl_world = (w1, Ok tt) /\ dot (pw_heap w1) (pw_store w1) "ok" = Some (VBool false)).
Proof.
  split; [exact bl_in_step|]. split.
  { split; [|cbn; repeat constructor; cbn; intuition discriminate]. intros e He. cbn in He.
    repeat (destruct He as [<-|He]; [reads_only_tac|]). destruct He. }
  split; [repeat split; vm_compute; congruence|]. split.
  { split; [|exact Logic.I]. intros e He. cbn in He. repeat (destruct He as [<-|He]; [reads_only_tac|]). destruct He. }
  split; [repeat split; vm_compute; congruence|]. split; eexists; (split; [vm_compute; reflexivity|vm_compute; reflexivity]).
Qed.

(** What a block computes is determined by its context. *)
Theorem C64_determined : forall L parse h ctx b t t', computes (std_ext L) parse h ctx b t -> computes (std_ext L) parse h ctx b t' -> t = t'.
Proof. intros L parse h ctx b t t'. exact (computes_fun L parse h ctx b t t'). Qed.
Print Assumptions C64_determined.

(** Every list of conditions spells a formula, so every assertion is covered: it computes the formula's value as soon as all conditions
    evaluate, and fails if one does not, whatever the others say. *)
Theorem C64_assertion : forall L parse h ctx k conds,
  (exists l, Forall (fun i => written i = true) l /\ apart l = true /\ all_lines 0 l = conds) /\
  ((exists t, computes (std_ext L) parse h ctx (BAssertion k conds) t) <-> forall c, In c conds -> works (std_ext L) parse h ctx (ac_expr c)).
Proof.
  intros L parse h ctx k conds. destruct conds as [|c cs].
  - split; [exists []; cbn; auto|]. split; [intros _ c []|]. intros _. eexists. constructor.
  - destruct (every_assertion (c :: cs)) as (f & Nf & Ef & Wf & Af); [discriminate|]. split; [eauto|]. split.
    + intros [t C] c0 Hc. inversion C as [|k0 f0 H1 H2 H3 H4 H5 H6|k0 H5 H6| | |]. apply H4. congruence.
    + intros H. eexists. rewrite <- Ef. constructor; auto. rewrite Ef. auto.
Qed.
Print Assumptions C64_assertion.
(** a or (b and c) and d, from left to right: (a or (b and c)) and d. *)
Example C64_assertion_case :
  let f := [ICond "a" "age > 65" BOr; IGroup [ICond "b" "member" BAnd; ICond "c" "age > 18" BAnd]; ICond "d" "name" BOr] in
  BAssertion "ok" (all_lines 0 f) = bl_assert /\ written (IGroup f) = true /\
  forall truth, value_of truth (IGroup f) = (truth "age > 65" || (truth "member" && truth "age > 18")) && truth "name".
Proof. cbv zeta. split; [reflexivity|]. split; [reflexivity|]. intros truth. reflexivity. Qed.

(** Tracing changes neither the outcome nor the store. *)
Theorem C64_tracing : forall L parse b w w1 w2 r1 r2, plain_lib L -> in_step w -> plain_block parse b -> flat_key (block_key b) ->
  run_alone (std_ext L) parse false b w = (w1, r1) -> run_alone (std_ext L) parse true b w = (w2, r2) ->
  (r1 = Ok tt <-> r2 = Ok tt) /\ forall k t, shows (pw_heap w1) (pw_store w) k t <-> shows (pw_heap w2) (pw_store w) k t.
Proof.
  intros L parse b w w1 w2 r1 r2 HL H P F R1 R2.
  destruct (alone_spec L HL parse false b w w1 r1 H P F R1) as (I1 & _ & _ & O1 & D1).
  destruct (alone_spec L HL parse true b w w2 r2 H P F R2) as (I2 & _ & _ & O2 & D2).
  destruct r1 as [[]|e1], r2 as [[]|e2].
  - split; [tauto|]. destruct D1 as (t1 & C1 & S1), D2 as (t2 & C2 & S2). pose proof (computes_fun _ _ _ _ _ _ _ C1 C2) as <-.
    intros k t. destruct (string_dec k (block_key b)) as [->|D].
    + assert (U : forall h v k a c, shows h v k a -> shows h v k c -> a = c).
      { intros h v k a c (x & E & R) (y & E' & R'). rewrite E in E'. injection E' as <-. eapply repr_fun; eauto. }
      split; intros S0; [rewrite (U _ _ _ _ _ S0 S1); auto|rewrite (U _ _ _ _ _ S0 S2); auto].
    + rewrite (O1 k t D), (O2 k t D). reflexivity.
  - exfalso. destruct D1 as (t1 & C1 & _), D2 as (N2 & _). exact (N2 t1 C1).
  - exfalso. destruct D2 as (t1 & C1 & _), D1 as (N2 & _). exact (N2 t1 C1).
  - split; [split; discriminate|]. destruct D1 as (_ & A1), D2 as (_ & A2). intros k t. rewrite (A1 k t), (A2 k t). reflexivity.
Qed.
Print Assumptions C64_tracing.
(** With tracing the later arms are evaluated too: one that fails does not count. *)
Example C64_tracing_case :
  let b := BMatch "price" [MArm "1" "member" "5"; MArm "2" "name + 1 > 2" "6"] in
  (exists w1, run_alone demo p0 false b bl_world = (w1, Ok tt) /\ dot (pw_heap w1) (pw_store w1) "price" = Some (num 5%Z)) /\
  (exists w1, run_alone demo p0 true b bl_world = (w1, Ok tt) /\ dot (pw_heap w1) (pw_store w1) "price" = Some (num 5%Z)) /\
  ~ works demo p0 (pw_heap bl_world) (pw_env bl_world) "name + 1 > 2".
Proof.
  cbv zeta. split; [eexists; split; vm_compute; reflexivity|]. split; [eexists; split; vm_compute; reflexivity|].
  intros [v V]. vm_compute in V. discriminate.
Qed.

(** Store and environment are in step when an evaluation begins. *)
Theorem C64_start : forall h l t, wf_heap h -> repr h (VObj l) t -> in_step (start (VObj l) h) /\ pw_store (start (VObj l) h) = VObj l /\
  (forall k v, dot h (VObj l) k = Some v -> dot (pw_heap (start (VObj l) h)) (VObj l) k = Some v).
Proof.
  intros h l t W R. split; [eapply start_in_step; eauto|]. inversion R as [| | | | |l0 m ts G F|]; subst.
  unfold start, depth_clone1. rewrite (proj2 (hobj_hget _ _ _) G). unfold new_obj, halloc. cbn [pw_store pw_heap]. split; [reflexivity|].
  intros k v D. unfold dot in *. rewrite <- D. apply dot_agree. eapply agree_hext; eauto. apply hext_alloc.
Qed.
Print Assumptions C64_start.

(** Two arms with the same id: the second is selected, the value of the first is written. *)
Theorem C64_duplicate_arms_refuted : exists arms w, in_step w /\ arm_chosen demo p0 (pw_heap (bind_env w)) (pw_env w) arms (Some (MArm "1" "member" "2")) /\
  exists w1, run_alone demo p0 false (BMatch "x" arms) w = (w1, Ok tt) /\ dot (pw_heap w1) (pw_store w1) "x" = Some (num 1%Z).
Proof.
  exists [MArm "1" "age < 18" "1"; MArm "1" "member" "2"], bl_world. split; [exact bl_in_step|]. split.
  - apply AC_next; [discriminate|eexists; vm_compute; reflexivity|vm_compute; reflexivity|]. apply AC_here. right. vm_compute. reflexivity.
  - eexists. split; vm_compute; reflexivity.
Qed.
Print Assumptions C64_duplicate_arms_refuted.

(** A block that stores the object it writes into makes the store contain itself: it has no finite content any more and cannot be returned. *)
Theorem C64_cyclic_refuted : exists w b, in_step w /\ exists w1, run_alone demo p0 false b w = (w1, Ok tt) /\
  ~ exists t, repr (pw_heap w1) (pw_store w1) t.
Proof.
  exists (start (VObj 1) [CObj [("age", num 20%Z)]; CObj [("customer", VObj 0)]]), (BExpression "customer.copy" "customer"). split.
  - eapply (start_in_step _ 1 (TObj [("customer", TObj [("age", TNum (dec_of_Z 20%Z))])])).
    + intros l c H. destruct l as [|[|[|]]]; cbn in H; try discriminate; injection H as <-.
      * split; [repeat constructor; cbn; intuition discriminate|]. repeat constructor.
      * split; [repeat constructor; cbn; intuition discriminate|]. repeat constructor. cbn. eexists; reflexivity.
    + eapply RObj; [reflexivity|]. constructor; [|constructor]. split; [reflexivity|]. cbn. eapply RObj; [reflexivity|]. repeat constructor.
  - eexists. split; [vm_compute; reflexivity|]. intros [t R]. cbn [pw_heap pw_store] in R.
    inversion R as [| | | | |l0 m ts G F|]; subst. injection G as <-. inversion F as [|? ? ? ? [_ R1] F1]; subst. cbn [snd] in R1.
    eapply (acyclic_obj _ _ _ _ "copy" (VObj 0) R1); [reflexivity|cbn; auto|]. right. constructor.
Qed.
Print Assumptions C64_cyclic_refuted.
(** So does a block that stores the whole context. *)
Theorem C64_root_refuted : exists w b, in_step w /\ flat_key (block_key b) /\ exists w1, run_alone demo p0 false b w = (w1, Ok tt) /\
  ~ exists t, repr (pw_heap w1) (pw_store w1) t.
Proof.
  exists bl_world, (BExpression "all" "$root"). split; [exact bl_in_step|]. split; [repeat split; vm_compute; congruence|].
  eexists. split; [vm_compute; reflexivity|]. intros [t R]. cbn [pw_heap pw_store] in R.
  inversion R as [| | | | |l0 m ts G F|]; subst. injection G as <-. destruct (Forall2_in_l _ _ _ _ F (or_intror (or_intror (or_intror (or_introl eq_refl))))) as ([k y] & _ & _ & Ry).
  cbn [snd] in Ry. eapply (acyclic_obj _ _ _ _ "all" (VObj 1) Ry); [reflexivity|cbn; auto|]. right. constructor.
Qed.
Print Assumptions C64_root_refuted.
