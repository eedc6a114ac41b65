(** Reuse, caching and memoisation in the isolate. *)
From Coq Require Import String Ascii ZArith Lia Bool List Arith.
From Verif Require Import Base Dec Value Heap Ast Ops Compiler Vm Eval ExprFacts Funcs HeapSpec HeapFacts PureFacts RunSpec RepFacts ContentFacts Isolate.
Import ListNotations.
Local Open Scope nat_scope.

(** Same scope, references and cache: the buffers do not count. *)
Definition same_iso (i j : isolate) : Prop :=
  i_scope i = i_scope j /\ i_refs i = i_refs j /\ i_cache i = i_cache j.

Section Reuse.
  Variable X : ext.
  Variable parse : ekind -> string -> res node.
  Variable fuel : nat.
  Variables jc1 jc2 : node -> list opcode.
  Variables jv1 jv2 : list opcode -> scope -> heap -> list value * list loop.

  Lemma run_internal_same : forall k s i j, same_iso i j ->
    let a := run_internal X parse jc1 k s i in let b := run_internal X parse jc2 k s j in
    same_iso (fst a) (fst b) /\ snd a = snd b /\ (snd a = Ok tt -> i_code (fst a) = i_code (fst b)).
  Proof.
    intros k s i j (A & B & C). cbn. unfold run_internal, clear. destruct (parse k s) as [n|e]; cbn.
    - destruct (compile_node X [] n []); cbn; repeat split; auto; discriminate.
    - repeat split; auto; discriminate.
  Qed.
  Lemma vm_exec_same : forall c i j h, same_iso i j ->
    let a := vm_exec X fuel jv1 c i h in let b := vm_exec X fuel jv2 c j h in
    same_iso (fst (fst a)) (fst (fst b)) /\ snd (fst a) = snd (fst b) /\ snd a = snd b.
  Proof.
    intros c i j h (A & B & C). cbn. unfold vm_exec, clear. rewrite A.
    destruct (run X (i_scope j) fuel c (VM 0 [] [] (i_scope j) [] h)) as [[r h1]|]; cbn.
    - destruct (jv1 c (i_scope j) h), (jv2 c (i_scope j) h). cbn. repeat split; auto.
    - repeat split; auto.
  Qed.
  Lemma run_source_same : forall k s i j h, same_iso i j ->
    let a := run_source X parse fuel jc1 jv1 k s i h in let b := run_source X parse fuel jc2 jv2 k s j h in
    same_iso (fst (fst a)) (fst (fst b)) /\ snd (fst a) = snd (fst b) /\ snd a = snd b.
  Proof.
    intros k s i j h S. cbn. unfold run_source.
    assert (Ec : cached k s i = cached k s j) by (destruct S as (_ & _ & C); unfold cached; now rewrite C).
    rewrite Ec. destruct (cached k s j); [now apply vm_exec_same|].
    destruct (run_internal_same k s i j S) as (A & B & C).
    destruct (run_internal X parse jc1 k s i) as [i1 r1], (run_internal X parse jc2 k s j) as [j1 r2]. cbn in *. subst r2.
    destruct r1 as [[]|e].
    - rewrite (C eq_refl). now apply vm_exec_same.
    - auto.
  Qed.
  Lemma set_local_same : forall k v i j, same_iso i j -> same_iso (iset_local k v i) (iset_local k v j).
  Proof. intros k v i j (A & B & C). unfold same_iso. cbn. now rewrite A. Qed.
  Lemma istep_same : forall o i j h, same_iso i j ->
    let a := istep X parse fuel jc1 jv1 o i h in let b := istep X parse fuel jc2 jv2 o j h in
    same_iso (fst (fst a)) (fst (fst b)) /\ snd (fst a) = snd (fst b) /\ snd a = snd b.
  Proof.
    intros o i j h S. cbn. pose proof S as (A & B & C). destruct o as [v|k v|p v|r|v|r|s|s|c|c|k s|c]; cbn [istep].
    - unfold set_environment, same_iso, clear; cbn. auto.
    - split; auto. now apply set_local_same.
    - unfold insert_dollar. rewrite A.
      assert (F : let a := let (h1, o) := new_obj h [] in (iset_local dollar o i, fst (dot_insert h1 o p v)) in
                  let b := let (h1, o) := new_obj h [] in (iset_local dollar o j, fst (dot_insert h1 o p v)) in
                  same_iso (fst a) (fst b) /\ snd a = snd b).
      { cbn. split; auto. now apply set_local_same. }
      destruct (local_str (i_scope j) dollar) as [[]|]; cbn in *; tauto.
    - rewrite B. destruct (aget r (i_refs j)); [split; auto; now apply set_local_same|].
      destruct (run_source_same KStandard r i j h S) as (P & Q & R).
      destruct (run_source X parse fuel jc1 jv1 KStandard r i h) as [[i1 h1] r1],
               (run_source X parse fuel jc2 jv2 KStandard r j h) as [[j1 h2] r2]. cbn in *. subst.
      destruct r2 as [[v|e]|]; cbn; auto. split; auto. destruct P as (P1 & P2 & P3).
      unfold same_iso, iset_local, remember; cbn. now rewrite P1, P2, P3.
    - split; auto. now apply set_local_same.
    - rewrite B. cbn. auto.
    - destruct (run_source_same KStandard s i j h S) as (P & Q & R).
      destruct (run_source X parse fuel jc1 jv1 KStandard s i h) as [[i1 h1] r1],
               (run_source X parse fuel jc2 jv2 KStandard s j h) as [[j1 h2] r2]. cbn in *. subst. auto.
    - destruct (run_source_same KUnary s i j h S) as (P & Q & R).
      destruct (run_source X parse fuel jc1 jv1 KUnary s i h) as [[i1 h1] r1],
               (run_source X parse fuel jc2 jv2 KUnary s j h) as [[j1 h2] r2]. cbn in *. subst. auto.
    - destruct (vm_exec_same c i j h S) as (P & Q & R).
      destruct (vm_exec X fuel jv1 c i h) as [[i1 h1] r1], (vm_exec X fuel jv2 c j h) as [[j1 h2] r2]. cbn in *. subst. auto.
    - destruct (vm_exec_same c i j h S) as (P & Q & R).
      destruct (vm_exec X fuel jv1 c i h) as [[i1 h1] r1], (vm_exec X fuel jv2 c j h) as [[j1 h2] r2]. cbn in *. subst. auto.
    - destruct (run_internal_same k s i j S) as (P & Q & R).
      destruct (run_internal X parse jc1 k s i) as [i1 r1], (run_internal X parse jc2 k s j) as [j1 r2]. cbn in *. subst r2.
      destruct r1 as [[]|e]; cbn; auto. now rewrite (R eq_refl).
    - unfold same_iso; cbn. auto.
  Qed.
  Lemma itrace_same : forall ops i j h, same_iso i j ->
    itrace X parse fuel jc1 jv1 ops i h = itrace X parse fuel jc2 jv2 ops j h.
  Proof.
    induction ops as [|o r IH]; intros i j h S; cbn [itrace]; auto.
    destruct (istep_same o i j h S) as (P & Q & R).
    destruct (istep X parse fuel jc1 jv1 o i h) as [[i1 h1] b1], (istep X parse fuel jc2 jv2 o j h) as [[j1 h2] b2].
    cbn in *. subst. f_equal. auto.
  Qed.
End Reuse.

(** C05 *)
Lemma reuse_is_fresh : forall X parse fuel jc1 jv1 jc2 jv2 before h0 v ops,
  let (i, h) := iafter X parse fuel jc1 jv1 before iso_new h0 in
  itrace X parse fuel jc1 jv1 ops (set_environment v i) h =
  itrace X parse fuel jc2 jv2 ops (with_cache (i_cache i) (with_environment v)) h.
Proof.
  intros. destruct (iafter X parse fuel jc1 jv1 before iso_new h0) as [i h]. apply itrace_same.
  repeat split.
Qed.
(** Evaluating or compiling something in between changes nothing but memory. *)
Definition evaluates (o : iop) : bool :=
  match o with IRun _ | IRunUnary _ | IRunCode _ | IRunUnaryCode _ | ICompile _ _ | IGetRef _ => true | _ => false end.
Lemma run_source_keeps : forall X parse fuel jc jv k s i h, same_iso (fst (fst (run_source X parse fuel jc jv k s i h))) i.
Proof.
  intros. unfold run_source. assert (V : forall c i h, same_iso (fst (fst (vm_exec X fuel jv c i h))) i).
  { intros c i0 h0. unfold vm_exec. destruct (run _ _ _ _ _) as [[r h1]|]; [|repeat split]. destruct (jv c (i_scope i0) h0). repeat split. }
  destruct (cached k s i); [apply V|]. unfold run_internal.
  destruct (parse k s); [|repeat split]. destruct (compile_node X [] a (clear (i_code i))); [|repeat split].
  match goal with |- context [vm_exec X fuel jv ?c ?j h] => pose proof (V c j h) as W end. exact W.
Qed.
Lemma evaluates_keeps : forall X parse fuel jc jv o i h, evaluates o = true ->
  same_iso (fst (fst (istep X parse fuel jc jv o i h))) i.
Proof.
  intros X parse fuel jc jv o i h E. destruct o; try discriminate; cbn [istep].
  - repeat split.
  - pose proof (run_source_keeps X parse fuel jc jv KStandard s i h) as K. destruct (run_source _ _ _ _ _ _ _ _ _) as [[? ?] ?]. exact K.
  - pose proof (run_source_keeps X parse fuel jc jv KUnary s i h) as K. destruct (run_source _ _ _ _ _ _ _ _ _) as [[? ?] ?]. exact K.
  - unfold vm_exec. destruct (run _ _ _ _ _) as [[r h1]|]; [|repeat split]. destruct (jv c (i_scope i) h). repeat split.
  - unfold vm_exec. destruct (run _ _ _ _ _) as [[r h1]|]; [|repeat split]. destruct (jv c (i_scope i) h). repeat split.
  - unfold run_internal. destruct (parse k s); [|repeat split]. destruct (compile_node X [] a (clear (i_code i))); repeat split.
Qed.
Lemma iafter_keeps : forall X parse fuel jc jv ops i h, forallb evaluates ops = true ->
  same_iso (fst (iafter X parse fuel jc jv ops i h)) i.
Proof.
  intros X parse fuel jc jv ops. induction ops as [|o r IH]; intros i h E; cbn; [repeat split|].
  cbn in E. apply andb_true_iff in E as [E1 E2]. pose proof (evaluates_keeps X parse fuel jc jv o i h E1) as (A & B & C).
  destruct (istep X parse fuel jc jv o i h) as [[i1 h1] b]. cbn in *. destruct (IH i1 h1 E2) as (P & Q & R).
  unfold same_iso. rewrite P, Q, R, A, B, C. auto.
Qed.
Lemma evaluations_invisible : forall X parse fuel jc jv i runs ops h h',
  forallb evaluates runs = true ->
  itrace X parse fuel jc jv ops (fst (iafter X parse fuel jc jv runs i h)) h' =
  itrace X parse fuel jc jv ops i h'.
Proof. intros. apply itrace_same. now apply iafter_keeps. Qed.

(** C06 *)
Section CacheFacts.
  Variable X : ext.
  Variable parse : ekind -> string -> res node.
  Variable fuel : nat.
  Variable jc : node -> list opcode.
  Variable jv : list opcode -> scope -> heap -> list value * list loop.

  (** Every entry is what compiling its source gives. *)
  Definition compiled_from (k : ekind) (s : string) (code : list opcode) : Prop :=
    exists n, parse k s = Ok n /\ compile X n = Ok code.
  Definition faithful (c : cache) : Prop :=
    (forall s code, aget s (c_std c) = Some code -> compiled_from KStandard s code) /\
    (forall s code, aget s (c_una c) = Some code -> compiled_from KUnary s code).

  Definition same_but_cache (i j : isolate) : Prop :=
    i_scope i = i_scope j /\ i_refs i = i_refs j /\ i_cache j = None /\
    match i_cache i with Some c => faithful c | None => True end.
  Lemma vm_exec_cache : forall c i j h, same_but_cache i j ->
    let a := vm_exec X fuel jv c i h in let b := vm_exec X fuel jv c j h in
    same_but_cache (fst (fst a)) (fst (fst b)) /\ snd (fst a) = snd (fst b) /\ snd a = snd b.
  Proof.
    intros c i j h (A & B & C & D). cbn. unfold vm_exec, clear. rewrite A.
    destruct (run X (i_scope j) fuel c (VM 0 [] [] (i_scope j) [] h)) as [[r h1]|]; cbn.
    - destruct (jv c (i_scope j) h). cbn. unfold same_but_cache; cbn. auto.
    - unfold same_but_cache; auto.
  Qed.
  Lemma run_internal_cache : forall k s i j, same_but_cache i j ->
    let a := run_internal X parse jc k s i in let b := run_internal X parse jc k s j in
    same_but_cache (fst a) (fst b) /\ snd a = snd b /\ (snd a = Ok tt -> i_code (fst a) = i_code (fst b)).
  Proof.
    intros k s i j (A & B & C & D). cbn. unfold run_internal, clear. destruct (parse k s) as [n|e]; cbn.
    - destruct (compile_node X [] n []); cbn; repeat split; auto; discriminate.
    - repeat split; auto; discriminate.
  Qed.
  Lemma run_source_cache : forall k s i j h, same_but_cache i j ->
    let a := run_source X parse fuel jc jv k s i h in let b := run_source X parse fuel jc jv k s j h in
    same_but_cache (fst (fst a)) (fst (fst b)) /\ snd (fst a) = snd (fst b) /\ snd a = snd b.
  Proof.
    intros k s i j h S. cbn. unfold run_source. pose proof S as (A & B & C & D).
    assert (Ej : cached k s j = None) by (unfold cached; now rewrite C). rewrite Ej.
    destruct (cached k s i) as [code|] eqn:Ei.
    - assert (F : compiled_from k s code).
      { unfold cached in Ei. destruct (i_cache i) as [c|]; [|discriminate]. destruct D as [D1 D2]. destruct k; auto. }
      destruct F as (n & Pn & Cn). unfold run_internal. rewrite Pn. unfold clear. unfold compile in Cn.
      destruct (compile_node X [] n []) as [p|]; [|discriminate]. injection Cn as <-.
      cbn [i_code]. apply vm_exec_cache. unfold same_but_cache; cbn. auto.
    - destruct (run_internal_cache k s i j S) as (P & Q & R).
      destruct (run_internal X parse jc k s i) as [i1 r1], (run_internal X parse jc k s j) as [j1 r2]. cbn in *. subst r2.
      destruct r1 as [[]|e].
      + rewrite (R eq_refl). now apply vm_exec_cache.
      + auto.
  Qed.
  Definition keeps_cache (o : iop) : bool := match o with ISetCache _ => false | _ => true end.
  Lemma set_local_cache : forall k v i j, same_but_cache i j -> same_but_cache (iset_local k v i) (iset_local k v j).
  Proof. intros k v i j (A & B & C & D). unfold same_but_cache. cbn. now rewrite A. Qed.
  Lemma istep_cache : forall o i j h, keeps_cache o = true -> same_but_cache i j ->
    let a := istep X parse fuel jc jv o i h in let b := istep X parse fuel jc jv o j h in
    same_but_cache (fst (fst a)) (fst (fst b)) /\ snd (fst a) = snd (fst b) /\ snd a = snd b.
  Proof.
    intros o i j h Hk S. cbn. pose proof S as (A & B & C & D). destruct o as [v|k v|p v|r|v|r|s|s|c|c|k s|c]; cbn [istep]; try discriminate.
    - unfold set_environment, same_but_cache, clear; cbn. auto.
    - split; auto. now apply set_local_cache.
    - unfold insert_dollar. rewrite A.
      assert (F : let a := let (h1, o) := new_obj h [] in (iset_local dollar o i, fst (dot_insert h1 o p v)) in
                  let b := let (h1, o) := new_obj h [] in (iset_local dollar o j, fst (dot_insert h1 o p v)) in
                  same_but_cache (fst a) (fst b) /\ snd a = snd b).
      { cbn. split; auto. now apply set_local_cache. }
      destruct (local_str (i_scope j) dollar) as [[]|]; cbn in *; tauto.
    - rewrite B. destruct (aget r (i_refs j)); [split; auto; now apply set_local_cache|].
      destruct (run_source_cache KStandard r i j h S) as (P & Q & R).
      destruct (run_source X parse fuel jc jv KStandard r i h) as [[i1 h1] r1],
               (run_source X parse fuel jc jv KStandard r j h) as [[j1 h2] r2]. cbn in *. subst.
      destruct r2 as [[v|e]|]; cbn; auto. split; auto. destruct P as (P1 & P2 & P3 & P4).
      unfold same_but_cache, iset_local, remember; cbn. rewrite P1, P2, P3. auto.
    - split; auto. now apply set_local_cache.
    - rewrite B. cbn. auto.
    - destruct (run_source_cache KStandard s i j h S) as (P & Q & R).
      destruct (run_source X parse fuel jc jv KStandard s i h) as [[i1 h1] r1],
               (run_source X parse fuel jc jv KStandard s j h) as [[j1 h2] r2]. cbn in *. subst. auto.
    - destruct (run_source_cache KUnary s i j h S) as (P & Q & R).
      destruct (run_source X parse fuel jc jv KUnary s i h) as [[i1 h1] r1],
               (run_source X parse fuel jc jv KUnary s j h) as [[j1 h2] r2]. cbn in *. subst. auto.
    - destruct (vm_exec_cache c i j h S) as (P & Q & R).
      destruct (vm_exec X fuel jv c i h) as [[i1 h1] r1], (vm_exec X fuel jv c j h) as [[j1 h2] r2]. cbn in *. subst. auto.
    - destruct (vm_exec_cache c i j h S) as (P & Q & R).
      destruct (vm_exec X fuel jv c i h) as [[i1 h1] r1], (vm_exec X fuel jv c j h) as [[j1 h2] r2]. cbn in *. subst. auto.
    - destruct (run_internal_cache k s i j S) as (P & Q & R).
      destruct (run_internal X parse jc k s i) as [i1 r1], (run_internal X parse jc k s j) as [j1 r2]. cbn in *. subst r2.
      destruct r1 as [[]|e]; cbn; auto. now rewrite (R eq_refl).
  Qed.
  Lemma itrace_cache : forall ops i j h, forallb keeps_cache ops = true -> same_but_cache i j ->
    itrace X parse fuel jc jv ops i h = itrace X parse fuel jc jv ops j h.
  Proof.
    induction ops as [|o r IH]; intros i j h Hk S; cbn [itrace]; auto. cbn in Hk. apply andb_true_iff in Hk as [H1 H2].
    destruct (istep_cache o i j h H1 S) as (P & Q & R).
    destruct (istep X parse fuel jc jv o i h) as [[i1 h1] b1], (istep X parse fuel jc jv o j h) as [[j1 h2] b2].
    cbn in *. subst. f_equal. auto.
  Qed.
  Lemma cache_transparent : forall c v ops h, faithful c -> forallb keeps_cache ops = true ->
    itrace X parse fuel jc jv ops (with_cache (Some c) (with_environment v)) h =
    itrace X parse fuel jc jv ops (with_environment v) h.
  Proof. intros. apply itrace_cache; auto. unfold same_but_cache; cbn. auto. Qed.

  Lemma build_faithful : forall srcs i c, faithful c -> faithful (build_cache X parse jc srcs i c).
  Proof.
    induction srcs as [|[s k] r IH]; intros i c F; cbn [build_cache]; auto.
    destruct (amem s _); auto. unfold run_internal. destruct (parse k s) as [n|e] eqn:Pn; auto.
    unfold clear. destruct (compile_node X [] n []) as [p|e] eqn:Cn; auto. apply IH. cbn [i_code].
    assert (G : compiled_from k s (fst p)) by (exists n; split; auto; unfold compile; now rewrite Cn).
    destruct F as [F1 F2]. destruct k; split; cbn [c_std c_una]; intros s' code E; auto.
    - destruct (String.eqb_spec s s') as [<-|Hne]; [rewrite aget_aset_eq in E; injection E as <-; auto|].
      rewrite aget_aset_ne in E by auto. auto.
    - destruct (String.eqb_spec s s') as [<-|Hne]; [rewrite aget_aset_eq in E; injection E as <-; auto|].
      rewrite aget_aset_ne in E by auto. auto.
  Qed.
  Lemma cache_of_faithful : forall srcs, faithful (cache_of X parse jc srcs).
  Proof. intros. apply build_faithful. split; discriminate. Qed.
  (** Every source that compiles is found. *)
  Lemma build_complete : forall srcs i c k s n code, In (s, k) srcs -> parse k s = Ok n -> compile X n = Ok code ->
    aget s (match k with KStandard => c_std (build_cache X parse jc srcs i c) | KUnary => c_una (build_cache X parse jc srcs i c) end) <> None.
  Proof.
    assert (Keep : forall srcs i c k s, aget s (match k with KStandard => c_std c | KUnary => c_una c end) <> None ->
      aget s (match k with KStandard => c_std (build_cache X parse jc srcs i c) | KUnary => c_una (build_cache X parse jc srcs i c) end) <> None).
    { induction srcs as [|[s0 k0] r IH]; intros i c k s Hn; cbn [build_cache]; auto.
      destruct (amem s0 _); auto. destruct (run_internal X parse jc k0 s0 i) as [i1 [u|e]]; auto. apply IH.
      destruct k, k0; cbn [c_std c_una]; auto;
        (destruct (String.eqb_spec s0 s) as [<-|Hne]; [rewrite aget_aset_eq; discriminate|rewrite aget_aset_ne by auto; auto]). }
    induction srcs as [|[s0 k0] r IH]; intros i c k s n code Hin Pn Cn; [destruct Hin|].
    cbn [build_cache]. destruct Hin as [E|Hin].
    - injection E as -> ->. destruct (amem s _) eqn:Em.
      + apply Keep. unfold amem in Em. destruct (aget s _); congruence.
      + unfold run_internal. rewrite Pn. unfold clear. unfold compile in Cn. destruct (compile_node X [] n []) as [p|]; [|discriminate].
        apply Keep. destruct k; cbn [c_std c_una]; rewrite aget_aset_eq; discriminate.
    - destruct (amem s0 _); eauto. destruct (run_internal X parse jc k0 s0 i) as [i1 [u|e]]; eauto.
  Qed.
End CacheFacts.
