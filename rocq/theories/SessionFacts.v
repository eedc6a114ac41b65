(** The isolate behaves like a session. *)
From Coq Require Import String Ascii ZArith Lia Bool List Arith.
From Verif Require Import Base Dec Value Heap Ast Ops Compiler Vm Eval ExprFacts Isolate IsolateFacts Session.
Import ListNotations.
Local Open Scope nat_scope.

Section S.
  Variable X : ext.
  Variable parse : ekind -> string -> res node.
  Variable jc : node -> list opcode.
  Variable jv : list opcode -> scope -> heap -> list value * list loop.

  Definition like (i : isolate) (s : session) : Prop := i_cache i = None /\ i_scope i = ss_scope s /\ i_refs i = ss_refs s.

  Lemma run_source_srun : forall k src i h, i_cache i = None ->
    exists fuel, forall more, exists i1,
      run_source X parse (fuel + more) jc jv k src i h = (i1, fst (srun X parse k src (i_scope i) h), Some (snd (srun X parse k src (i_scope i) h))) /\
      same_iso i1 i.
  Proof.
    intros k src i h C. unfold run_source, cached. rewrite C. unfold run_internal, srun, clear.
    destruct (parse k src) as [n|e]; [|exists 0; intros m; eexists; split; [reflexivity|repeat split]].
    unfold compile. destruct (compile_node X [] n []) as [p|e] eqn:Cn; cbn [bind].
    2: { exists 0; intros m; eexists; split; [reflexivity|repeat split]. }
    assert (Cc : compile X n = Ok (fst p)) by (unfold compile; now rewrite Cn).
    destruct (run_forever X n (fst p) (i_scope i) h Cc) as [f F]. exists f. intros m. unfold vm_exec, clear. cbn [i_code i_scope].
    specialize (F m). unfold vm_run in F. rewrite F. destruct (evaluate X n (i_scope i) h) as [r h1].
    destruct (jv (fst p) (i_scope i) h) as [a b]. eexists. split; [reflexivity|]. repeat split.
  Qed.
  Lemma istep_sstep : forall o i s h, by_source o = true -> like i s ->
    exists fuel, forall more, exists i1, istep X parse (fuel + more) jc jv o i h = (i1, snd (fst (sstep X parse o s h)), snd (sstep X parse o s h)) /\
      like i1 (fst (fst (sstep X parse o s h))).
  Proof.
    intros o i s h B (C & S & R). destruct o; try discriminate; cbn [istep sstep].
    - exists 0. intros m. eexists. split; [reflexivity|]. repeat split. exact C.
    - exists 0. intros m. eexists. split; [reflexivity|]. unfold like; cbn. now rewrite S.
    - exists 0. intros m. unfold insert_dollar, s_dollar. rewrite S.
      destruct (local_str (ss_scope s) dollar) as [[]|]; cbn; eexists; (split; [reflexivity|]); unfold like; cbn; rewrite ?S; auto.
    - unfold s_ref. rewrite R. destruct (aget r (ss_refs s)) as [v|] eqn:A.
      + exists 0. intros m. eexists. split; [reflexivity|]. unfold like; cbn. now rewrite S.
      + destruct (run_source_srun KStandard r i h C) as [f F]. exists f. intros m. destruct (F m) as (i1 & E & (K1 & K2 & K3)). rewrite E, S.
        rewrite S in E. destruct (srun X parse KStandard r (ss_scope s) h) as [h1 [v|e]]; cbn; eexists; (split; [reflexivity|]); unfold like; cbn;
          rewrite ?K1, ?K2, ?K3, ?S, ?R; auto.
    - exists 0. intros m. eexists. split; [reflexivity|]. unfold like; cbn. now rewrite S.
    - exists 0. intros m. rewrite R. eexists. split; [reflexivity|]. repeat split; auto.
    - destruct (run_source_srun KStandard s0 i h C) as [f F]. exists f. intros m. destruct (F m) as (i1 & E & (K1 & K2 & K3)). rewrite E, S.
      unfold s_std. destruct (srun X parse KStandard s0 (ss_scope s) h) as [h1 r]. cbn. eexists. split; [reflexivity|].
      unfold like. rewrite K1, K2, K3. auto.
    - destruct (run_source_srun KUnary s0 i h C) as [f F]. exists f. intros m. destruct (F m) as (i1 & E & (K1 & K2 & K3)). rewrite E, S.
      unfold s_unary. destruct (srun X parse KUnary s0 (ss_scope s) h) as [h1 r]. cbn. eexists. split; [reflexivity|].
      unfold like. rewrite K1, K2, K3. auto.
  Qed.
  Lemma itrace_strace : forall ops i s h, forallb by_source ops = true -> like i s ->
    exists fuel, forall more, itrace X parse (fuel + more) jc jv ops i h = strace X parse ops s h.
  Proof.
    (* the isolate reached does not depend on the fuel up to [same_iso], so recurse on a chosen one *)
    induction ops as [|o r IH]; intros i s h B L; [now exists 0|]. cbn [forallb] in B. apply andb_true_iff in B as [B1 B2].
    destruct (istep_sstep o i s h B1 L) as [f F]. cbn [strace].
    destruct (sstep X parse o s h) as [[s1 h1] b] eqn:E. cbn [fst snd] in F.
    destruct (F 0) as (i0 & _ & L0). destruct (IH i0 s1 h1 B2 L0) as [g G]. exists (f + g). intros m. cbn [itrace].
    replace (f + g + m) with (f + (g + m)) by lia. destruct (F (g + m)) as (i1 & -> & L1). f_equal.
    replace (f + (g + m)) with (g + (f + m)) by lia. rewrite <- (G (f + m)). apply itrace_same.
    destruct L0 as (A & B & C), L1 as (A' & B' & C'). unfold same_iso. rewrite A, B, C, A', B', C'. auto.
  Qed.
  Lemma isolate_is_session : forall co v ops h, match co with Some c => faithful X parse c | None => True end -> forallb by_source ops = true ->
    exists fuel, forall more, itrace X parse (fuel + more) jc jv ops (with_cache co (with_environment v)) h = strace X parse ops (s_open v) h.
  Proof.
    intros co v ops h Fc B. destruct (itrace_strace ops (with_environment v) (s_open v) h B) as [f F]; [repeat split|].
    exists f. intros m. rewrite <- (F m). destruct co as [c|]; [|apply itrace_same; repeat split].
    apply cache_transparent; auto. apply forallb_forall. intros o Io. rewrite forallb_forall in B. specialize (B o Io). destruct o; try discriminate; reflexivity.
  Qed.
End S.
