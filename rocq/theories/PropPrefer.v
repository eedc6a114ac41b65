(** C74: the hint to write a chain of conditional expressions as a match block. *)
From Coq Require Import String ZArith Bool List Arith Lia.
From Verif Require Import Base Dec Value Heap Ast Ops Compiler Eval CompilerFacts Funcs Samples HeapSpec HeapFacts Isolate Session PureFacts Driver Blocks BlocksSpec BlocksFacts ContentFacts PropNodes PropBlocks
  PreferMatch PreferSpec PreferFacts.
Import ListNotations.
Local Open Scope string_scope.
Local Open Scope nat_scope.
Local Open Scope list_scope.

(** Reported are exactly the expression blocks that are a chain with at least two conditions; with the number of conditions, and with the path
    that all conditions are about if there is exactly one. *)
Theorem C74_reported : forall parse p b count path, In (b, (count, path)) (prefer_hints parse p) <->
  exists k src n l e, In (b, BExpression k src) p /\ src <> "" /\ parse KStandard src = Ok n /\ chain n l e /\ 2 <= length l /\ count = length l /\
    match path with
    | Some q => common_subject l q /\ forall q', common_subject l q' -> q' = q
    | None => ~ exists q, common_subject l q /\ forall q', common_subject l q' -> q' = q
    end.
Proof.
  intros parse p b count path. unfold prefer_hints. rewrite in_flat_map. split.
  - intros ([b0 k] & I & H). cbn [fst snd] in H. destruct k as [k src| |]; try (destruct H; fail). destruct (String.eqb_spec src "") as [|N]; [destruct H|].
    destruct (parse KStandard src) as [n|] eqn:P; [|destruct H]. destruct (inspect n) as [i|] eqn:E; [|destruct H]. destruct H as [H|[]]. injection H as -> ->.
    destruct (chain_exists n) as (l & e & C). apply (inspect_iff n l e C) in E as (A & B & D). cbn [fst snd] in B, D. exists k, src, n, l, e. auto 8.
  - intros (k & src & n & l & e & I & N & P & C & A & B & D). exists (b, BExpression k src). split; [exact I|]. cbn [fst snd]. rewrite (proj2 (String.eqb_neq _ _) N), P.
    assert (E : inspect n = Some (count, path)) by (apply (inspect_iff n l e C); cbn [fst snd]; auto). rewrite E. now left.
Qed.
Print Assumptions C74_reported.
(** The match block with these conditions and alternatives, in the same order, leaves the same properties: the expression assigns nothing, and
    does not use the whole context. *)
Theorem C74_same : forall L parse extras k src n l e arms w w1 w2 u r, plain_lib L -> in_step w -> flat_key k ->
  src <> "" -> parse KStandard src = Ok n -> reads_only parse src -> reads_only parse "" -> chain n l e -> arms_of parse l e arms -> NoDup (map ma_id arms) ->
  run_alone (std_ext L) parse extras (BExpression k src) w = (w1, Ok u) ->
  run_alone (std_ext L) parse extras (BMatch k arms) w = (w2, r) ->
  (exists u', r = Ok u') /\ forall q t, shows (pw_heap w1) (pw_store w) q t <-> shows (pw_heap w2) (pw_store w) q t.
Proof.
  intros L parse extras k src n l e arms w w1 w2 u r HL Hw Fk Ns P R R0 C A Nd E1 E2. destruct (R n P) as [Na Nr].
  assert (P1 : plain_block parse (BExpression k src)) by (split; [intros x [<-|[]]; exact R|exact Ns]).
  assert (P2 : plain_block parse (BMatch k arms)).
  { split; [|exact Nd]. intros x I. eapply (arms_plain parse n l e); eauto. intros y ->. exact R0. }
  destruct (alone_spec L HL parse extras _ w w1 _ Hw P1 Fk E1) as (_ & _ & _ & K1 & t & T1 & S1). destruct (alone_spec L HL parse extras _ w w2 _ Hw P2 Fk E2) as (_ & _ & _ & K2 & Q2). cbn [block_key] in *.
  pose proof Hw as Hw'. apply in_step_world in Hw' as (ls & le & ms & me & Ew & W). destruct (bind_world _ _ _ _ _ W) as (h0 & B & W0 & _). rewrite <- Ew in B. rewrite B in *.
  assert (Ee : pw_env w = VObj le) by (rewrite Ew; reflexivity). rewrite Ee in *. cbn [pw_heap] in *.
  assert (F : fine L n).
  { split; [exact Na|]. split; [exact Nr|]. inversion T1 as [? ? ? (h1 & v & Sr & _)| | | | |]; subst. unfold srun in Sr. rewrite P in Sr. destruct (compile (std_ext L) n) as [c|] eqn:Cc; [|discriminate Sr]. rewrite compile_cgen in Cc. eauto. }
  assert (S : says parse src n) by (split; [exact Ns|]; exists n; split; [exact P|constructor]).
  pose proof (same_down L HL parse _ _ _ _ _ W0 k src n l e arms t S F C A T1) as T2.
  destruct r as [u'|er]; [|exfalso; exact (proj1 Q2 t T2)]. split; [eauto|]. destruct Q2 as (t2 & T2' & S2).
  assert (t2 = t) by (eapply computes_fun; eauto). subst t2. intros q t0. destruct (String.eqb_spec q k) as [->|Nq].
  - assert (K : forall h x y, shows h (pw_store w) k x -> shows h (pw_store w) k y -> x = y) by (intros h x y (v & D & Rx) (v' & D' & Ry); rewrite D in D'; injection D' as <-; eapply repr_fun; eauto).
    split; intros H; [rewrite (K _ _ _ H S1); exact S2|rewrite (K _ _ _ H S2); exact S1].
  - now rewrite K1, K2.
Qed.
Print Assumptions C74_same.
(** The other way round this needs conditions that give truth values, and alternatives that compile. *)
Theorem C74_back : forall L parse extras k src n l e arms w w1 w2 u r, plain_lib L -> in_step w -> flat_key k ->
  src <> "" -> parse KStandard src = Ok n -> reads_only parse src -> reads_only parse "" -> chain n l e -> arms_of parse l e arms -> NoDup (map ma_id arms) ->
  (exists c, compile (std_ext L) n = Ok c) ->
  (forall a v, In a arms -> ma_cond a <> "" -> outcome (std_ext L) parse (pw_heap (bind_env w)) (pw_env w) (ma_cond a) = Ok v -> exists b, v = VBool b) ->
  run_alone (std_ext L) parse extras (BMatch k arms) w = (w1, Ok u) ->
  run_alone (std_ext L) parse extras (BExpression k src) w = (w2, r) ->
  (exists u', r = Ok u') /\ forall q t, shows (pw_heap w1) (pw_store w) q t <-> shows (pw_heap w2) (pw_store w) q t.
Proof.
  intros L parse extras k src n l e arms w w1 w2 u r HL Hw Fk Ns P R R0 C A Nd (c & Cc) HB E1 E2. destruct (R n P) as [Na Nr].
  assert (P1 : plain_block parse (BExpression k src)) by (split; [intros x [<-|[]]; exact R|exact Ns]).
  assert (P2 : plain_block parse (BMatch k arms)).
  { split; [|exact Nd]. intros x I. eapply (arms_plain parse n l e); eauto. intros y ->. exact R0. }
  destruct (alone_spec L HL parse extras _ w w1 _ Hw P2 Fk E1) as (_ & _ & _ & K1 & t & T1 & S1). destruct (alone_spec L HL parse extras _ w w2 _ Hw P1 Fk E2) as (_ & _ & _ & K2 & Q2). cbn [block_key] in *.
  pose proof Hw as Hw'. apply in_step_world in Hw' as (ls & le & ms & me & Ew & W). destruct (bind_world _ _ _ _ _ W) as (h0 & B & W0 & _). rewrite <- Ew in B. rewrite B in *.
  assert (Ee : pw_env w = VObj le) by (rewrite Ew; reflexivity). rewrite Ee in *. cbn [pw_heap] in *.
  assert (F : fine L n) by (split; [exact Na|]; split; [exact Nr|]; rewrite compile_cgen in Cc; eauto).
  assert (S : says parse src n) by (split; [exact Ns|]; exists n; split; [exact P|constructor]).
  pose proof (same_up L HL parse _ _ _ _ _ W0 k src n l e arms t S F C A HB T1) as T2.
  destruct r as [u'|er]; [|exfalso; exact (proj1 Q2 t T2)]. split; [eauto|]. destruct Q2 as (t2 & T2' & S2).
  assert (t2 = t) by (eapply computes_fun; eauto). subst t2. intros q t0. destruct (String.eqb_spec q k) as [->|Nq].
  - assert (K : forall h x y, shows h (pw_store w) k x -> shows h (pw_store w) k y -> x = y) by (intros h x y (v & D & Rx) (v' & D' & Ry); rewrite D in D'; injection D' as <-; eapply repr_fun; eauto).
    split; intros H; [rewrite (K _ _ _ H S1); exact S2|rewrite (K _ _ _ H S2); exact S1].
  - now rewrite K1, K2.
Qed.
Print Assumptions C74_back.
(** The price of [C64_block_case] as a chain, with parentheses. *)
Definition pm_src : string := "age < 18 ? 5 : (age < 30 and member ? age / 2 : 30)".
Definition pm_arms : list marm := [MArm "1" "age < 18" "5"; MArm "2" "(age < 30 and member)" "age / 2"; MArm "3" "" "30"].
Example C74_case : exists n l e, p0 KStandard pm_src = Ok n /\ chain n l e /\ length l = 2 /\ arms_of p0 l e pm_arms /\ reads_only p0 pm_src /\ reads_only p0 "" /\ flat_key "price" /\ in_step bl_world /\
  prefer_hints p0 [(("m", "1"), BExpression "price" pm_src)] = [(("m", "1"), (2, Some "age"))] /\
  (exists w1, run_alone demo p0 false (BExpression "price" pm_src) bl_world = (w1, Ok tt) /\ dot (pw_heap w1) (pw_store w1) "price" = Some (num 10%Z)) /\
  (forall a v, In a pm_arms -> ma_cond a <> "" -> outcome demo p0 (pw_heap (bind_env bl_world)) (pw_env bl_world) (ma_cond a) = Ok v -> exists b, v = VBool b).
Proof.
  assert (P : exists n, p0 KStandard pm_src = Ok n) by (eexists; vm_compute; reflexivity). destruct P as (n & P). exists n. pose proof P as P'. vm_compute in P'. injection P' as <-.
  eexists. eexists. split; [exact P|]. split; [apply Ch_cond, Ch_paren, Ch_cond, Ch_end; discriminate|]. split; [reflexivity|]. split.
  { repeat (constructor; [split; [discriminate|eexists; split; [vm_compute; reflexivity|repeat constructor]]|split; [discriminate|eexists; split; [vm_compute; reflexivity|repeat constructor]]|]).
    constructor; [reflexivity|split; [discriminate|eexists; split; [vm_compute; reflexivity|repeat constructor]]]. }
  split; [intros m H; rewrite P in H; injection H as <-; split; vm_compute; reflexivity|]. split; [reads_only_tac|]. split; [repeat split; vm_compute; congruence|]. split; [exact bl_in_step|].
  split; [vm_compute; reflexivity|]. split; [eexists; split; vm_compute; reflexivity|].
  intros a v [<-|[<-|[<-|[]]]] N H; vm_compute in H; [injection H as <-; eauto|injection H as <-; eauto|exfalso; now apply N].
Qed.
(** The finding: a condition that is not a truth value makes the expression fail, while a match block goes on with the next arm. *)
Theorem C74_truth_refuted : exists src n l e arms, p0 KStandard src = Ok n /\ chain n l e /\ arms_of p0 l e arms /\
  (exists w1, run_alone demo p0 false (BMatch "price" arms) bl_world = (w1, Ok tt) /\ dot (pw_heap w1) (pw_store w1) "price" = Some (num 2%Z)) /\
  exists w2 er, run_alone demo p0 false (BExpression "price" src) bl_world = (w2, Err er).
Proof.
  exists "name ? 1 : member ? 2 : 3". eexists. eexists. eexists. exists [MArm "1" "name" "1"; MArm "2" "member" "2"; MArm "3" "" "3"].
  split; [vm_compute; reflexivity|]. split; [apply Ch_cond, Ch_cond, Ch_end; discriminate|]. split.
  { repeat (constructor; [split; [discriminate|eexists; split; [vm_compute; reflexivity|repeat constructor]]|split; [discriminate|eexists; split; [vm_compute; reflexivity|repeat constructor]]|]).
    constructor; [reflexivity|split; [discriminate|eexists; split; [vm_compute; reflexivity|repeat constructor]]]. }
  split; [eexists; split; vm_compute; reflexivity|]. eexists. eexists. vm_compute. reflexivity.
Qed.
Print Assumptions C74_truth_refuted.
